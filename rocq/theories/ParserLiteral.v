(** ParserLiteral.v - the literals of a parse are whole runs of foreign text:
    they never split a surrogate pair. *)
From Coq Require Import String List NArith ZArith Bool Arith Lia.
From Verif Require Import Spec Base ThUni ThCons Syl OrderProofs Lattice LatticeProofs
  Dag DagProofs PronDag PathProofs GroupProofs ListDagProofs Dict DictProofs Utf UtfProofs Parser Wp
  ParserSpec ParserRules ParserActs ParserLoop ParserFacts ParserInv ParserResult ParserListed.
Import ListNotations.
Local Open Scope nat_scope.

Lemma token_range ct c : ctype_ok ct -> tokenChar ct c = true ->
  c = 0x2e%N \/ (0x0e00 <= c /\ c <= 0x0e7f)%N.
Proof.
  intros C. unfold tokenChar. rewrite !orb_true_iff, !N.eqb_eq.
  intros [[[[[H|H]|H]|H]|H]|H].
  - left. exact H.
  - right. destruct (cons_range _ C _ H) as (A & B & _). unfold UTH_KO_KAI, UTH_HO_NOKHUK in *. lia.
  - right. exact (vowel_range _ C _ H).
  - right. destruct (tone_range _ C _ H) as [-> | [-> | [-> | ->]]]; vm_compute; split; discriminate.
  - subst. right. vm_compute; split; discriminate.
  - subst. right. vm_compute; split; discriminate.
Qed.

Section Literal.
Variables (ct : CType) (w : list N) (dict : option Dict) (brk : list nat).
Notation n := (length w).
Notation tokAt := (tokenAt ct w).
Notation orig := (Orig ct w dict brk).
Notation zn := Z.of_nat.
Hypothesis dictWF : dictOKo dict.
Hypothesis ctOK : ctype_ok ct.

Lemma text_len b e : b <= e <= n -> length (text w b e) = e - b.
Proof. intros H. unfold text. rewrite firstn_length, skipn_length. lia. Qed.
Lemma orig_lit_max f t v : orig f t v -> forall b e, f = zn b -> b < e <= n -> literal v = text w b e ->
  (forall i, b <= i < e -> ~ tokAt i) -> e = n \/ tokAt e.
Proof.
  intros H. pose proof H as H0. revert H0.
  induction H as [p e' L NT M
    |q stop e' es f t v W NE LS L A I
    |p stop linked c l em f t v W NE Hc Hl Hem G O I
    |p stop d k strs s f t v W Ed Ap Li Hs I
    |p f v Or IH Hd NL]; intros H0 b e Ef Le Lit Nt.
  - assert (p = b) by lia. subst p. cbn [literal SylLiteral] in Lit. change (firstn (e' - b) (skipn b w)) with (text w b e') in Lit.
    apply (f_equal (@length N)) in Lit. rewrite !text_len in Lit by lia. replace e with e' by lia. exact M.
  - pose proof (orig_content ct w dict brk ctOK dictWF f t v H0) as C.
    destruct (AbbrG_in _ _ _ _ _ _ _ _ A I)
      as [(p & c & s1 & k1 & j & H1 & H2 & -> & -> & -> & H3 & H4 & H5 & H6 & H7)
         |(p & H1 & H2 & -> & -> & H3 & ->)].
    + exfalso. cbn in Lit. symmetry in Lit. revert Lit. apply text_nonempty. exact Le.
    + exfalso. assert (p = b) by lia. subst p. apply (Nt b); [lia|]. apply tok_dot. exact H3.
  - exfalso. assert (X : literal v = []).
    { unfold emEdges in I. cbv zeta in I. destruct (preSyl (emSyl em)) as [pre|] eqn:Ep.
      - destruct I as [I|[I|[]]]; injection I as <- <- <-.
        + exact (proj1 (eg_pre _ _ _ _ _ _ G pre Ep)).
        + reflexivity.
      - destruct I as [I|[]]; injection I as <- <- <-. reflexivity. }
    rewrite X in Lit. symmetry in Lit. revert Lit. apply text_nonempty. exact Le.
  - exfalso. destruct Ap as (A1 & A2 & A3 & A4 & A5 & _).
    destruct (dict_strings dict dictWF p d k strs s f t v) as ((X & _) & Y & Z); auto.
    rewrite X in Lit. symmetry in Lit. revert Lit. apply text_nonempty. exact Le.
  - cbn [literal setEndPos] in Lit. exact (IH Or b e Ef Le Lit Nt).
Qed.

(** A cut that does not fall between the halves of a pair. *)
Definition surr (c : N) : Prop := (0xD800 <= c < 0xE000)%N.
Definition cutOK (u : list N) (k : nat) : Prop :=
  k = 0 \/ length u <= k \/ (exists c, nth_error u (k - 1) = Some c /\ ~ surr c) \/
  (exists c, nth_error u k = Some c /\ ~ surr c).
Lemma wf16_cut u : WF16 u -> forall k, cutOK u k -> WF16 (firstn k u) /\ WF16 (skipn k u).
Proof.
  induction 1 as [|c u H W IH|h l u H1 H2 W IH]; intros k C.
  - rewrite firstn_nil, skipn_nil. split; constructor.
  - destruct k as [|k]; [split; [constructor|cbn [skipn]; constructor; auto]|].
    cbn [firstn skipn]. destruct (IH k) as (A & B); [|split; [constructor; auto|exact B]].
    unfold cutOK in *. cbn [length] in C. destruct k as [|k]; [left; reflexivity|].
    replace (S (S k) - 1) with (S k) in C by lia. replace (S k - 1) with k by lia. cbn [nth_error] in C.
    destruct C as [C|[C|[C|C]]]; [lia| | |]; right; [left; lia|right; left; exact C|right; right; exact C].
  - destruct k as [|[|k]].
    + split; [constructor|cbn [skipn]; apply W_pair; auto].
    + exfalso. unfold cutOK in C. cbn [length nth_error Nat.sub] in C. unfold surr in C.
      destruct C as [C|[C|[(c & E & C)|(c & E & C)]]]; [lia|lia| |]; injection E as <-; apply C; lia.
    + cbn [firstn skipn]. destruct (IH k) as (A & B); [|split; [apply W_pair; auto|exact B]].
      unfold cutOK in *. cbn [length] in C. destruct k as [|k]; [left; reflexivity|].
      replace (S (S (S k)) - 1) with (S (S k)) in C by lia. replace (S k - 1) with k by lia. cbn [nth_error] in C.
      destruct C as [C|[C|[C|C]]]; [lia| | |]; right; [left; lia|right; left; exact C|right; right; exact C].
Qed.
Lemma text_wf16 u b e : WF16 u -> b <= e -> cutOK u b -> cutOK u e -> WF16 (text u b e).
Proof.
  intros W L Cb Ce. unfold text. rewrite firstn_skipn_comm. replace (b + (e - b)) with e by lia.
  destruct (wf16_cut u W e Ce) as (A & _). apply (wf16_cut _ A).
  destruct Cb as [C|[C|[(c & E & C)|(c & E & C)]]].
  - left. exact C.
  - right. left. rewrite firstn_length. lia.
  - destruct (le_lt_dec e (b - 1)) as [X|X].
    + right. left. rewrite firstn_length. lia.
    + right. right. left. exists c. split; [|exact C]. rewrite <- E.
      rewrite <- (firstn_skipn e u) at 2. destruct (le_lt_dec (length (firstn e u)) (b - 1)) as [Y|Y].
      * rewrite firstn_length in Y. assert (b - 1 < length u) by (apply nth_error_Some; congruence). lia.
      * rewrite nth_error_app1 by exact Y. reflexivity.
  - destruct (le_lt_dec e b) as [X|X].
    + right. left. rewrite firstn_length. lia.
    + right. right. right. exists c. split; [|exact C]. rewrite <- E.
      rewrite <- (firstn_skipn e u) at 2. destruct (le_lt_dec (length (firstn e u)) b) as [Y|Y].
      * rewrite firstn_length in Y. assert (b < length u) by (apply nth_error_Some; congruence). lia.
      * rewrite nth_error_app1 by exact Y. reflexivity.
Qed.
Lemma tok_nosurr k : tokAt k -> exists c, nth_error w k = Some c /\ ~ surr c.
Proof.
  intros (c & E & T). exists c. split; [exact E|]. unfold surr.
  destruct (token_range ct c ctOK T) as [-> | H]; lia.
Qed.

Lemma startPos_last s u : startPos (s ++ [u]) = endPos u.
Proof. unfold startPos. destruct (s ++ [u]) eqn:E; [destruct s; discriminate|]. unfold str_endPos. rewrite <- E, last_last. reflexivity. Qed.
Lemma increasing_step s u s2 : forall x, increasing x (map endPos (s ++ u :: s2)) ->
  (nodeRank (match s with [] => x | _ => str_endPos s end) < nodeRank (endPos u))%Z.
Proof.
  induction s as [|a s IH]; intros x H; cbn [app map increasing] in H; [exact (proj1 H)|].
  specialize (IH _ (proj2 H)). destruct s as [|a' s]; [exact IH|]. exact IH.
Qed.

(** Every literal of a listed pronunciation is a piece of the text that splits no pair. *)
Theorem literal_whole l f t v : pronounced ct w dict brk l -> occurs l f t v -> WF16 w ->
  literal v <> [] -> WF16 (literal v).
Proof.
  intros P O Ww NL.
  destruct (occurs_literal ct w dict brk dictWF ctOK l f t v P O) as (A & _).
  destruct (A NL) as (b & e & Hf & Hbe & Hlit & Ht & Hc). rewrite Hlit.
  destruct Hc as [Hc|(He & Hd)].
  2:{ subst e. rewrite (text1 w b _ Hd). constructor; [left; lia|constructor]. }
  assert (Ce : cutOK w e).
  { destruct (orig_lit_max f t v) with (b := b) (e := e) as [X|X]; auto.
    - exact (occurs_orig ct w dict brk dictWF l f t v P O).
    - right; left; lia.
    - right; right; right. exact (tok_nosurr _ X). }
  apply text_wf16; [exact Ww|lia| |exact Ce].
  destruct O as (s1 & s2 & Hin & Hs & Et).
  assert (RC : s1 = [] \/ exists s0 u, s1 = s0 ++ [u]).
  { destruct s1 as [|x1 s1]; [left; reflexivity|right].
    destruct (exists_last (l := x1 :: s1) ltac:(discriminate)) as (s0 & u & E). eauto. }
  destruct RC as [->|(s0 & u & ->)].
  { left. cbn [startPos] in Hs. lia. }
  right. right. left.
  assert (Ou : occurs l (startPos s0) (endPos u) u).
  { exists s0, (v :: s2). rewrite <- app_assoc in Hin. cbn [app] in Hin. auto. }
  assert (Eb : endPos u = zn b).
  { rewrite <- Hf, Hs. symmetry. apply startPos_last. }
  apply tok_nosurr.
  destruct (occurs_literal ct w dict brk dictWF ctOK l _ _ _ P Ou) as (A' & B').
  destruct (literal u) as [|x lu] eqn:El.
  - destruct (B' eq_refl) as (_ & T). apply T. unfold touches. rewrite Eb.
    pose proof (pron_positioned ct w dict brk dictWF l _ P Hin) as (_ & Inc & _).
    rewrite <- app_assoc in Inc. cbn [app] in Inc. pose proof (increasing_step s0 u (v :: s2) 0 Inc) as R.
    rewrite Eb in R. rewrite !rk_zn in *. pose proof (rk_nonneg (startPos s0)).
    fold (startPos s0) in R. assert (1 <= b) by (destruct b; lia). lia.
  - destruct (A' ltac:(discriminate)) as (b' & e' & Hf' & Hbe' & Hlit' & Ht' & Hc').
    rewrite Eb in Ht'. destruct Ht' as [Ht'|(Ht' & Hdot)].
    + assert (e' = b) by lia. subst e'. destruct Hc' as [Hc'|(He' & Hd')].
      * destruct (orig_lit_max (startPos s0) (endPos u) u) with (b := b') (e := b) as [X|X]; auto.
        -- exact (occurs_orig ct w dict brk dictWF l _ _ _ P Ou).
        -- lia.
        -- exfalso. apply (Hc b); [lia|exact X].
      * replace (b - 1) with b' by lia. apply tok_dot. exact Hd'.
    + replace (b - 1) with e' by lia. apply tok_dot. exact Hdot.
Qed.
End Literal.

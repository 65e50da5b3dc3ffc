(** ParserResult.v - what the invariant says about the graph the parser returns. *)
From Coq Require Import String List NArith ZArith Bool Arith Lia Sorted.
From Verif Require Import Spec Base ThUni ThCons Syl OrderProofs Lattice LatticeProofs
  Dag DagProofs PronDag PathProofs GroupProofs ListDagProofs Dict DictProofs Parser Wp
  ParserSpec ParserRules ParserActs ParserLoop ParserFacts ParserInv.
Import ListNotations.
Local Open Scope nat_scope.

Section Result.
Variable ct : CType.
Variable w : list N.
Variable dict : option Dict.
Variable brk : list nat.
Notation n := (length w).
Notation isCons := (th_wcisthcons ct).
Notation tokAt := (tokenAt ct w).
Notation rk := nodeRank.
Notation zn := Z.of_nat.
Notation orig := (Orig ct w dict brk).

(** ** Graph shape *)
Section Shape.
Variable d : PronunDAG.
Hypothesis G : GInv ct w dict brk n d.

Lemma res_acyclic : Acyclic d.
Proof. apply rank_acyclic with (rk := nodeRank). intros x y v H. apply (gi_rank _ _ _ _ _ _ G _ _ _ H). Qed.
Lemma rk_ge0 z : (0 <= rk z)%Z.
Proof. unfold nodeRank. destruct (Z.ltb_spec z 0); lia. Qed.
Lemma rk_zn k : rk (zn k) = (101 * zn k)%Z.
Proof. unfold nodeRank. destruct (Z.ltb_spec (zn k) 0); lia. Qed.
Lemma res_start x v : ~ InE d x 0%Z v.
Proof.
  intros H. destruct (gi_rank _ _ _ _ _ _ G _ _ _ H) as (A & _). pose proof (rk_ge0 x).
  replace (rk 0) with 0%Z in A by reflexivity. lia.
Qed.
Lemma res_end : NoOut d (zn n).
Proof.
  unfold NoOut. destruct (outEdges d (zn n)) as [|e l] eqn:E; [reflexivity|exfalso].
  assert (In e (outEdges d (zn n))) as H by (rewrite E; left; reflexivity).
  apply out_InE in H. destruct (gi_rank _ _ _ _ _ _ G _ _ _ H). lia.
Qed.
Lemma from_start f t v : InE d f t v -> exists p, Path d 0 p f.
Proof.
  assert (X : forall k f t v, (rk f < zn k)%Z -> InE d f t v -> exists p, Path d 0 p f).
  { clear f t v. induction k as [|k IH]; intros f t v L H; [pose proof (rk_ge0 f); lia|].
    destruct (gi_src _ _ _ _ _ _ G _ _ _ H) as [->|(f' & v' & H')]; [exists []; constructor|].
    destruct (gi_rank _ _ _ _ _ _ G _ _ _ H') as (R & _).
    destruct (IH f' f v') as (p & P); [lia|exact H'|]. exists (p ++ [mkEdge f v']).
    eapply Path_app; [exact P|]. econstructor; [apply out_InE; exact H'|constructor]. }
  intros H. apply (X (Z.to_nat (rk f) + 1) f t v); [pose proof (rk_ge0 f); lia|exact H].
Qed.
Lemma to_end f t v : InE d f t v -> exists p, Path d t p (zn n).
Proof.
  assert (X : forall k f t v, (rk (zn n) - rk t < zn k)%Z -> InE d f t v -> exists p, Path d t p (zn n)).
  { clear f t v. induction k as [|k IH]; intros f t v L H;
      destruct (gi_rank _ _ _ _ _ _ G _ _ _ H) as (_ & R); [lia|].
    destruct (gi_tgt _ _ _ _ _ _ G _ _ _ H) as [->|(t' & v' & H')]; [exists []; constructor|].
    destruct (gi_rank _ _ _ _ _ _ G _ _ _ H') as (R' & _).
    destruct (IH t t' v') as (p & P); [lia|exact H'|]. exists (mkEdge t' v' :: p).
    econstructor; [apply out_InE; exact H'|exact P]. }
  intros H. destruct (gi_rank _ _ _ _ _ _ G _ _ _ H) as (_ & R).
  apply (X (Z.to_nat (rk (zn n) - rk t) + 1) f t v); [lia|exact H].
Qed.
Lemma path_positions p : forall x m, Path d x p m ->
  increasing x (map endPos (map edgeVal p)) /\
  (p <> [] -> str_endPos (map edgeVal p) = m).
Proof.
  induction p as [|e p IH]; intros x m P; [split; [exact I|congruence]|].
  inversion P; subst. apply out_InE in H2.
  pose proof (gi_end _ _ _ _ _ _ G _ _ _ H2) as E.
  destruct (gi_rank _ _ _ _ _ _ G _ _ _ H2) as (R & _).
  destruct (IH _ _ H4) as (A & B). cbn [map increasing]. rewrite E. split; [split; assumption|].
  intros _. destruct p as [|e2 p].
  - inversion H4; subst. cbn. exact E.
  - rewrite map_cons. cbn [map]. rewrite str_endPos_cons by discriminate. apply B. discriminate.
Qed.
Lemma path_last p : forall x m, Path d x p m -> p <> [] -> exists f v, InE d f m v.
Proof.
  induction p as [|e p IH]; intros x m P N; [congruence|]. inversion P; subst.
  destruct p as [|e2 p].
  - inversion H4; subst. apply out_InE in H2. eauto.
  - eapply IH; [exact H4|discriminate].
Qed.
Lemma res_cover : exists l, DAGSylStrings d 0 = Ok l /\
  (forall s, In s l -> wellPositioned (zn n) s) /\
  (forall f t v, InE d f t v -> exists s1 s2, In (s1 ++ v :: s2) l /\
     f = match s1 with [] => 0%Z | _ => str_endPos s1 end /\ t = endPos v).
Proof.
  destruct (DAGSylStrings_spec d 0 res_acyclic) as (paths & _ & E & C).
  exists (map (map edgeVal) paths). split; [exact E|]. split.
  - intros s Hs. apply in_map_iff in Hs. destruct Hs as (p & <- & Hp).
    apply C in Hp. destruct Hp as (N & m & P & NO).
    destruct (path_positions p _ _ P) as (A & B).
    split; [destruct p; [congruence|discriminate]|]. split; [exact A|]. rewrite B by exact N.
    destruct (Z.eq_dec m (zn n)) as [|D]; [assumption|exfalso].
    assert (exists f v, InE d f m v) as (f & v & H).
    { eapply path_last; eauto. }
    destruct (gi_tgt _ _ _ _ _ _ G _ _ _ H) as [->|(t' & v' & H')]; [congruence|].
    change (In (m, t', v') (edgesF d)) in H'.
    assert (In (mkEdge t' v') (outEdges d m)) as X by (apply out_InE; exact H').
    unfold NoOut in NO. rewrite NO in X. destruct X.
  - intros f t v H. destruct (from_start _ _ _ H) as (p1 & P1). destruct (to_end _ _ _ H) as (p2 & P2).
    exists (map edgeVal p1), (map edgeVal p2). split.
    + assert (X : In (p1 ++ mkEdge t v :: p2) paths).
      { apply C. split; [destruct p1; discriminate|]. exists (zn n). split; [|exact res_end].
        eapply Path_app; [exact P1|]. econstructor; [apply out_InE; exact H|exact P2]. }
      apply (in_map (map edgeVal)) in X. rewrite map_app in X. exact X.
    + split; [|symmetry; exact (gi_end _ _ _ _ _ _ G _ _ _ H)].
      destruct p1 as [|e p1]; [inversion P1; reflexivity|].
      destruct (path_positions _ _ _ P1) as (_ & B). cbn [map].
      symmetry. apply B. discriminate.
Qed.
End Shape.

(** ** Content of the edges *)
Hypothesis ctOK : ctype_ok ct.
Hypothesis dictWF : dictOKo dict.

Lemma sound_valid c s : isCons c = true -> InitConsSound c = Ok s -> s <> ICS_INVALID.
Proof.
  intros Hc H ->. destruct (cons_range _ ctOK c Hc) as (A & B & C & D).
  assert (exists k, k < 46 /\ c = (UTH_KO_KAI + N.of_nat k)%N) as (k & Hk & ->).
  { exists (N.to_nat (c - UTH_KO_KAI)). unfold UTH_KO_KAI, UTH_HO_NOKHUK in *. lia. }
  do 46 (destruct k as [|k]; [vm_compute in H, C, D; congruence|]). lia.
Qed.
Lemma class_valid c s : isCons c = true -> InitConsClass c = Ok s -> s <> IC_INVALID.
Proof.
  intros Hc H ->. destruct (cons_range _ ctOK c Hc) as (A & B & C & D).
  assert (exists k, k < 46 /\ c = (UTH_KO_KAI + N.of_nat k)%N) as (k & Hk & ->).
  { exists (N.to_nat (c - UTH_KO_KAI)). unfold UTH_KO_KAI, UTH_HO_NOKHUK in *. lia. }
  do 46 (destruct k as [|k]; [vm_compute in H, C, D; congruence|]). lia.
Qed.
Lemma soundIn_valid a b s : soundIn ct w a b s -> s <> ICS_INVALID.
Proof.
  intros [(c & _ & A & B)|[(_ & ->)|(_ & ->)]]; [eapply sound_valid; eauto|discriminate|discriminate].
Qed.
Lemma classIn_valid a b s : classIn ct w a b s -> s <> IC_INVALID.
Proof. intros [(c & _ & A & B)|(_ & ->)]; [eapply class_valid; eauto|discriminate]. Qed.
Lemma toneSign_valid c : toneSign c <> Some T_INVALID.
Proof. unfold toneSign. repeat (destruct (_ =? _)%N; [discriminate|]). discriminate. Qed.
Lemma toneIn_valid a b s : toneIn w a b s -> s <> T_INVALID.
Proof. intros [->|(c & _ & H)]; [discriminate|]. intros ->. exact (toneSign_valid _ H). Qed.

Lemma main_wf p stop em e : EmG ct w 1 p stop em -> wellFormed (mainSyl (emSyl em) e).
Proof.
  intros []. unfold mainSyl. cbv zeta. split; [reflexivity|]. cbn [iCons1 iCons2 vowel tone SylOf].
  split; [eapply soundIn_valid; eauto|]. split; [assumption|]. split; [assumption|].
  pose proof (classIn_valid _ _ _ eg_class) as K. pose proof (toneIn_valid _ _ _ eg_tone) as T.
  generalize (if ec_eqb EC_NONE (eConsClass (emSyl em)) then IsShortVowel (pVowel (emSyl em))
                else IsDeadEndConsClass (eConsClass (emSyl em))) as dd.
  generalize (IsShortVowel (pVowel (emSyl em))) as ss. intros ss dd.
  destruct (iConsClass (emSyl em)), (pTone (emSyl em)), dd, ss; try congruence; discriminate.
Qed.
Lemma preOk_wf a b s e : preOk ct w a b s -> wellFormed (setEndPos s e).
Proof.
  intros (A & B & C & D & c & k & _ & H1 & H2 & H3 & H4). split; [exact A|].
  cbn [iCons1 iCons2 vowel tone setEndPos].
  split; [eapply sound_valid; eauto|]. rewrite B. split; [left; reflexivity|].
  split; [destruct D as [-> | ->]; unfold validVowel, vowelCodes; cbn; tauto|].
  rewrite H4. apply toneFromWritten_valid. discriminate.
Qed.
Lemma letter_wf c s k e : isCons c = true -> InitConsSound c = Ok s -> wellFormed (letterSyl s k e).
Proof.
  intros H1 H2. split; [reflexivity|]. cbn [iCons1 iCons2 vowel tone SylOf letterSyl].
  split; [eapply sound_valid; eauto|]. split; [left; reflexivity|].
  split; [unfold validVowel, vowelCodes; cbn; tauto|]. destruct (ic_eqb HIGH k); discriminate.
Qed.

Lemma dict_strings p d k strs s f t v : dict = Some d -> (exists x, holds d k x) -> k <> [] -> inAbc k ->
  listed d k strs -> In s strs -> In (f, t, v) (strEdges (zn p) (shiftEndPos (zn p) s)) ->
  wellFormed v /\ (rk (zn p) <= rk f)%Z /\ (rk t <= rk (zn (p + length k)))%Z.
Proof.
  intros Ed (x & Hx) Nk Ak L Hs He. destruct (dictWF d Ed k x Hx Nk Ak) as (strs' & L' & Hall).
  rewrite <- (listed_fun _ _ _ _ L L') in Hall. rewrite Forall_forall in Hall.
  destruct (Hall s Hs) as (WP & WF). destruct (b_rank _ _ _ (str_bundle p (length k) s WP) f t v He) as (A & B & C).
  split; [|auto]. clear - WF He.
  revert He. generalize (zn p) at 1 as y.
  induction s as [|a s IH]; intros y He; cbn [shiftEndPos map strEdges] in He; [contradiction|].
  inversion WF; subst. destruct He as [He|He].
  - injection He as _ _ <-. destruct H1 as (X1 & X2 & X3 & X4 & X5). repeat split; assumption.
  - eapply IH; eauto.
Qed.

(** The node of a group: the text position where it begins. *)
Definition touches (f t : Z) (k : nat) : Prop :=
  (rk f < 101 * (zn k + 1) /\ 101 * zn k < rk t)%Z.
Definition text (b e : nat) : list N := firstn (e - b) (skipn b w).

Lemma text1 p c : nth_error w p = Some c -> text p (p + 1) = [c].
Proof.
  unfold text. replace (p + 1 - p) with 1 by lia. intros H.
  rewrite <- (firstn_skipn p w) in H.
  assert (length (firstn p w) = p).
  { rewrite firstn_length. assert (p < n) by (rewrite firstn_skipn in H; apply nth_error_Some; congruence). lia. }
  rewrite nth_error_app2 in H by lia. rewrite H0, Nat.sub_diag in H.
  destruct (skipn p w); cbn in *; congruence.
Qed.
Lemma text_nonempty b e : b < e <= n -> text b e <> [].
Proof.
  intros H X. apply (f_equal (@length N)) in X. unfold text in X. rewrite firstn_length, skipn_length in X.
  cbn in X. lia.
Qed.

Inductive Content (f t : Z) (v : Syl) : Prop :=
| C_lit b e : f = zn b -> b < e <= n -> literal v = text b e ->
    (t = zn e \/ t = zn (e + 1) /\ nth_error w e = Some 46%N) ->
    ((forall i, b <= i < e -> ~ tokAt i) \/ e = b + 1 /\ nth_error w b = Some 46%N) ->
    Content f t v
| C_spoken : wellFormed v -> (forall k, touches f t k -> tokAt k) -> Content f t v.

Lemma tok_dot k : nth_error w k = Some 46%N -> tokAt k.
Proof. intros H. exists 46%N. split; [exact H|reflexivity]. Qed.

Lemma AbbrG_in e q es f t v : AbbrG ct w e q es -> In (f, t, v) es ->
  (exists p c s1 k1 j, q <= p /\ p < j <= e /\ f = zn p /\ t = zn j /\ v = letterSyl s1 k1 j /\
     nth_error w p = Some c /\ isCons c = true /\
     InitConsSound c = Ok s1 /\ InitConsClass c = Ok k1 /\
     (j = p + 1 \/ j = p + 2 /\ nth_error w (p + 1) = Some 46%N)) \/
  (exists p, q <= p /\ p < e /\ f = zn p /\ t = zn (p + 1) /\ nth_error w p = Some 46%N /\
     v = SylLiteral (zn (p + 1)) [46%N]).
Proof.
  induction 1 as [|p c s1 k1 es L H1 H2 H3 H4 H5 IH|p c s1 k1 E H1 H2 H3 H4 H5|p E H1]; intros HI.
  - contradiction.
  - destruct HI as [HI|HI].
    + injection HI as <- <- <-. left. exists p, c, s1, k1, (p + 1).
      repeat (split; [first [lia|reflexivity|assumption]|]). left; reflexivity.
    + destruct (IH HI) as [(p' & c' & s' & k' & j & X)|(p' & X)].
      * left. exists p', c', s', k', j. intuition lia.
      * right. exists p'. intuition lia.
  - destruct HI as [HI|[]]. injection HI as <- <- <-. left. exists p, c, s1, k1, (p + 2).
    repeat (split; [first [lia|reflexivity|assumption]|]). right; auto.
  - destruct HI as [HI|[]]. injection HI as <- <- <-. right. exists p.
    repeat (split; [first [lia|reflexivity|assumption]|]). reflexivity.
Qed.

Lemma pre_rk p k : 0 < k <= 100 -> rk (- (zn p * 100 + zn (p + k))) = (101 * zn p + zn k)%Z.
Proof.
  intros H. unfold nodeRank. destruct (Z.ltb_spec (- (zn p * 100 + zn (p + k))) 0); lia.
Qed.

Lemma emG_tok p stop em k : wordEnd ct w brk p stop -> EmG ct w 1 p stop em ->
  (stop < emPos em -> exists c', nth_error w (p + 1) = Some c' /\ isCons c' = true) ->
  p <= k < emPos em -> tokAt k.
Proof.
  intros W G O Hk. destruct (le_lt_dec stop k) as [L|L]; [|apply (we_tok _ _ _ _ _ W); lia].
  destruct G. destruct eg_stop as [X|(X1 & X2 & _)]; [lia|].
  destruct O as (c' & A & B); [lia|]. replace k with (p + 1) by lia.
  exists c'. split; [exact A|]. unfold tokenChar. rewrite B. rewrite orb_true_r. reflexivity.
Qed.

Lemma orig_content f t v : orig f t v -> Content f t v.
Proof.
  induction 1 as [p e L NT _
    |q stop e es f t v W NE LS L A I
    |p stop linked c l em f t v W NE Hc Hl Hem G O I
    |p stop d k strs s f t v W Ed Ap Li Hs I
    |p f v Or IH Hd NL].
  - eapply C_lit with (b := p) (e := e); auto.
  - destruct (AbbrG_in _ _ _ _ _ _ A I)
      as [(p & c & s1 & k1 & j & H1 & H2 & -> & -> & -> & H3 & H4 & H5 & H6 & H7)
         |(p & H1 & H2 & -> & -> & H3 & ->)].
    + apply C_spoken; [eapply letter_wf; eauto|]. intros k (K1 & K2). rewrite !rk_zn in *.
      apply (we_tok _ _ _ _ _ W). lia.
    + apply C_lit with (b := p) (e := p + 1); auto.
      * destruct W. lia.
      * symmetry. apply text1. exact H3.
  - assert (T : forall k, p <= k < emPos em -> tokAt k) by (intros; eapply emG_tok; eauto).
    assert (Hlo := eg_lo _ _ _ _ _ _ G). assert (Hhi := eg_hi _ _ _ _ _ _ G).
    unfold emEdges in I. cbv zeta in I.
    destruct (preSyl (emSyl em)) as [pre|] eqn:Ep.
    + set (x := (- (zn p * 100 + zn (emPos em)))%Z) in *.
      assert (Rx : rk x = (101 * zn p + zn (emPos em - p))%Z).
      { unfold x. replace (emPos em) with (p + (emPos em - p)) by lia.
        rewrite pre_rk by lia. lia. }
      destruct I as [I|[I|[]]]; injection I as <- <- <-; apply C_spoken.
      * eapply preOk_wf. eapply (eg_pre _ _ _ _ _ _ G); eauto.
      * intros k (K1 & K2). rewrite rk_zn, Rx in *. apply T. lia.
      * eapply main_wf; eauto.
      * intros k (K1 & K2). rewrite rk_zn, Rx in *. apply T. lia.
    + destruct I as [I|[]]; injection I as <- <- <-; apply C_spoken.
      * eapply main_wf; eauto.
      * intros k (K1 & K2). rewrite !rk_zn in *. apply T. lia.
  - destruct Ap as (A1 & A2 & A3 & A4 & A5 & _).
    destruct (dict_strings p d k strs s f t v) as (X & Y & Z); auto.
    apply C_spoken; [exact X|]. intros j (K1 & K2). rewrite !rk_zn in *.
    apply (we_tok _ _ _ _ _ W). lia.
  - destruct IH as [b e -> L Lit T NT|WF T].
    + assert (t' : zn p = zn e \/ zn p = zn (e + 1) /\ nth_error w e = Some 46%N) by exact T.
      destruct t' as [E|(E & X)].
      * assert (p = e) by lia. subst p. eapply C_lit with (b := b) (e := e); auto.
      * exfalso. apply NL. right. exists 46%N. replace (p - 1) with e by lia. auto.
    + apply C_spoken.
      * destruct WF as (X1 & X2 & X3 & X4 & X5). repeat split; assumption.
      * intros k (K1 & K2). rewrite rk_zn in K2.
        destruct (Nat.eq_dec k p) as [->|]; [apply tok_dot; exact Hd|].
        apply T. split; [exact K1|]. rewrite rk_zn. lia.
Qed.

(** ** Where spoken syllables come from *)
(** Edge [f -> t] is a syllable, or part of a pre-syllable pair, of the group
    of letters [b .. e), possibly with a full stop absorbed after it. *)
Definition inGroup (f t : Z) (b e : nat) : Prop :=
  b < e /\ e <= n /\
  ((f = zn b \/ f = preNode (zn b) (zn e)) /\
   (t = zn e \/ t = zn (e + 1) /\ nth_error w e = Some 46%N)
   \/ f = zn b /\ t = preNode (zn b) (zn e)).

Definition shortVowels : list Z :=
  [V_A; V_I; V_UE; V_U; V_E; V_AE; V_IA; V_UEA; V_UA; V_O; V_AU; V_OE].

(** How the tone of a main syllable comes about. *)
Definition toneWritten (b e : nat) (v : Syl) : Prop :=
  exists k m, classIn ct w b e k /\ toneIn w b e m /\
   tone v = ToneFromWritten k m
     (if ec_eqb EC_NONE (eCons v) then IsShortVowel (vowel v) else IsDeadEndConsClass (eCons v))
     (IsShortVowel (vowel v)).
Definition dictSyl (v : Syl) : Prop :=
  exists d k x strs s v0, dict = Some d /\ holds d k x /\ listed d k strs /\ In s strs /\
    In v0 s /\ spoken v0 = spoken v.

Lemma strEdges_shift_in p s f t v :
  In (f, t, v) (strEdges (zn p) (shiftEndPos (zn p) s)) -> exists v0, In v0 s /\ spoken v0 = spoken v.
Proof.
  generalize (zn p) at 1 as y.
  induction s as [|a s IH]; intros y He; cbn [shiftEndPos map strEdges] in He; [contradiction|].
  destruct He as [He|He].
  - injection He as _ _ <-. exists a. split; [left; reflexivity|reflexivity].
  - destruct (IH _ He) as (v0 & A & B). exists v0. split; [right; exact A|exact B].
Qed.

(** A syllable made by the rules or by spelling, or a dictionary syllable. *)
Inductive Source (f t : Z) (v : Syl) : Prop :=
| S_lit : literal v <> [] -> Source f t v
| S_dict : dictSyl v -> Source f t v
| S_letter b e c : inGroup f t b e -> (0 <= t)%Z -> e = b + 1 -> f = zn b -> nth_error w b = Some c -> isCons c = true ->
    InitConsSound c = Ok (iCons1 v) -> iCons2 v = SEC_NONE -> vowel v = V_AUU -> eCons v = EC_NONE ->
    (exists k, InitConsClass c = Ok k /\ tone v = if ic_eqb HIGH k then CHATTAWA else SAMAN) ->
    Source f t v
| S_pre b e : inGroup f t b e -> f = zn b -> t = preNode (zn b) (zn e) -> e <= b + 20 ->
    preOk ct w b e v -> Source f t v
| S_main b e : inGroup f t b e -> (0 <= t)%Z -> e <= b + 20 ->
    soundIn ct w b e (iCons1 v) -> endIn w b (e + 1) (eCons v) -> toneWritten b e v -> Source f t v.

Lemma orig_source f t v : orig f t v -> Source f t v.
Proof.
  induction 1 as [p e L NT _
    |q stop e es f t v W NE LS L A I
    |p stop linked c l em f t v W NE Hc Hl Hem G O I
    |p stop d k strs s f t v W Ed Ap Li Hs I
    |p f v Or IH Hd NL].
  - apply S_lit. cbn [literal SylLiteral]. apply (text_nonempty p e). lia.
  - destruct (AbbrG_in _ _ _ _ _ _ A I)
      as [(p & c & s1 & k1 & j & H1 & H2 & -> & -> & -> & H3 & H4 & H5 & H6 & H7)
         |(p & H1 & H2 & -> & -> & H3 & ->)].
    + assert (stop <= n) by (destruct W; assumption).
      eapply S_letter with (b := p) (e := p + 1) (c := c); auto.
      * split; [lia|]. split; [lia|]. left. split; [auto|].
        destruct H7 as [->|(-> & Y)]; [left; reflexivity|right].
        split; [f_equal; lia|exact Y].
      * lia.
      * exists k1. split; [exact H6|]. reflexivity.
    + apply S_lit. discriminate.
  - assert (Hlo := eg_lo _ _ _ _ _ _ G). assert (Hhi := eg_hi _ _ _ _ _ _ G).
    assert (Hn := eg_n _ _ _ _ _ _ G).
    assert (M : forall f0, f0 = zn p \/ f0 = preNode (zn p) (zn (emPos em)) ->
              Source f0 (zn (emPos em)) (mainSyl (emSyl em) (zn (emPos em)))).
    { intros f0 Hf. eapply S_main with (b := p) (e := emPos em); auto.
      - split; [lia|]. split; [lia|]. left. auto.
      - lia.
      - apply (eg_sound _ _ _ _ _ _ G).
      - eapply endIn_mono; [apply (eg_endc _ _ _ _ _ _ G)|]. destruct (emLinked em); lia.
      - exists (iConsClass (emSyl em)), (pTone (emSyl em)).
        split; [apply (eg_class _ _ _ _ _ _ G)|]. split; [apply (eg_tone _ _ _ _ _ _ G)|]. reflexivity. }
    unfold emEdges in I. cbv zeta in I.
    destruct (preSyl (emSyl em)) as [pre|] eqn:Ep.
    + destruct I as [I|[I|[]]]; injection I as <- <- <-.
      * apply S_pre with (b := p) (e := emPos em); auto.
        -- split; [lia|]. split; [lia|]. right. auto.
        -- exact (eg_pre _ _ _ _ _ _ G _ Ep).
      * apply M. right. reflexivity.
    + destruct I as [I|[]]; injection I as <- <- <-. apply M. left; reflexivity.
  - apply S_dict. destruct Ap as ((x & Hx) & _). destruct (strEdges_shift_in _ _ _ _ _ I) as (v0 & V1 & V2).
    exists d, k, x, strs, s, v0. auto 10.
  - assert (Gr : forall b e, inGroup f (zn p) b e -> inGroup f (zn (p + 1)) b e /\ p = e).
    { intros b e (A & B & [(C & D)|(C & D)]).
      - destruct D as [D|(D & D')].
        + assert (p = e) by lia. subst p. split; [|reflexivity].
          split; [exact A|]. split; [exact B|]. left. auto.
        + exfalso. apply NL. right. exists 46%N. replace (p - 1) with e by lia. auto.
      - exfalso. unfold preNode in D. lia. }
    destruct IH as [X|(d & k & x & strs & s & v0 & X)|b e c X1 X0 Xe X2 X3 X4 X5 X6 X7 X8 X9|b e X1 X2 X3 X4 X5|b e X1 X2 X3 X4 X5 X6].
    + apply S_lit. exact X.
    + apply S_dict. exists d, k, x, strs, s, v0. exact X.
    + eapply S_letter with (b := b) (e := e); eauto; [apply Gr; assumption|lia].
    + exfalso. unfold preNode in X3. destruct X1. lia.
    + eapply S_main with (b := b) (e := e); eauto; [apply Gr; assumption|lia].
Qed.

(** ** Dictionary precedence *)
Definition dictEdge (f t : Z) (v : Syl) : Prop :=
  exists p stop d k strs s, wordEnd ct w brk p stop /\ dict = Some d /\
    applicable ct w d p stop k /\ listed d k strs /\ In s strs /\
    exists t' v', In (f, t', v') (strEdges (zn p) (shiftEndPos (zn p) s)) /\
      spoken v' = spoken v /\ (t = t' \/ exists q, t' = zn q /\ t = zn (q + 1) /\ nth_error w q = Some 46%N).
Definition abbrEdge (f t : Z) (v : Syl) : Prop :=
  exists q stop e es t' v', wordEnd ct w brk q stop /\ noEntry ct w dict q stop /\ letterStart w q /\
    q < e <= stop /\ AbbrG ct w e q es /\ In (f, t', v') es /\ spoken v' = spoken v /\
    (t = t' \/ exists q, t' = zn q /\ t = zn (q + 1) /\ nth_error w q = Some 46%N).

Lemma spoken_setEndPos v p : spoken (setEndPos v p) = spoken v.
Proof. reflexivity. Qed.
Lemma orig_dict p d k stop t v : orig (zn p) t v -> dict = Some d ->
  wordEnd ct w brk p stop -> applicable ct w d p stop k ->
  literal v <> [] \/ dictEdge (zn p) t v \/ abbrEdge (zn p) t v.
Proof.
  intros H Ed W0 Ap0. remember (zn p) as f eqn:Ef. revert Ef.
  induction H as [p1 e L NT _
    |q stop1 e es f t v W NE LS L A I
    |p1 stop1 linked c l em f t v W NE Hc Hl Hem G O I
    |p1 stop1 d1 k1 strs s f t v W Ed1 Ap Li Hs I
    |p1 f v Or IH Hd NL]; intros ->.
  - left. cbn [literal SylLiteral]. apply (text_nonempty p1 e). lia.
  - right; right. exists q, stop1, e, es, t, v. auto 12.
  - unfold emEdges in I. cbv zeta in I. exfalso.
    assert (Hlo := eg_lo _ _ _ _ _ _ G).
    assert (p1 = p).
    { destruct (preSyl (emSyl em)) as [pre|].
      - destruct I as [I|[I|[]]]; injection I as X _ _; lia.
      - destruct I as [I|[]]; injection I as X _ _; lia. }
    subst p1. assert (stop1 = stop) by (eapply wEnd_fun; eauto). subst stop1.
    exact (NE d k Ed Ap0).
  - right; left. exists p1, stop1, d1, k1, strs, s.
    repeat (split; [assumption|]). exists t, v. auto.
  - destruct (IH eq_refl) as [X|[(p2 & st & d2 & k2 & strs & s & A1 & A2 & A3 & A4 & A5 & t' & v' & A6 & A7 & A8)
                              |(q & st & e & es & t' & v' & A1 & A2 & A3 & A4 & A5 & A6 & A7 & A8)]].
    + left; exact X.
    + right; left. exists p2, st, d2, k2, strs, s. repeat (split; [assumption|]).
      exists t', v'. repeat (split; [assumption|]). right.
      destruct A8 as [A8|(q & A8 & A9 & A10)]; [exists p1; auto|].
      exfalso. apply NL. right. exists 46%N. replace (p1 - 1) with q by lia. auto.
    + right; right. exists q, st, e, es, t', v'. repeat (split; [assumption|]). right.
      destruct A8 as [A8|(q2 & A8 & A9 & A10)]; [exists p1; auto|].
      exfalso. apply NL. right. exists 46%N. replace (p1 - 1) with q2 by lia. auto.
Qed.

(** ** Word breaks *)
Lemma sorted_first b x : StronglySorted lt brk -> In x brk -> b < x ->
  exists y, firstBreak brk b y /\ y <= x.
Proof.
  intros S Hx L. destruct (firstBreak_exists w brk b x Hx L) as (y & Hy). exists y. split; [exact Hy|].
  destruct Hy as (l1 & l2 & E & _ & F). rewrite E in S, Hx. rewrite Forall_forall in F.
  apply in_app_or in Hx. destruct Hx as [Hx|[->|Hx]]; [apply F in Hx; lia|lia|].
  clear - S Hx. induction l1 as [|a l1 IH]; cbn in S.
  - inversion S as [|? ? ? F]; subst. rewrite Forall_forall in F. apply F in Hx. lia.
  - inversion S; subst. auto.
Qed.
Lemma wordEnd_break b e x : StronglySorted lt brk -> wordEnd ct w brk b e -> In x brk -> b < x -> e <= x.
Proof.
  intros S W Hx L. destruct (sorted_first b x S Hx L) as (y & Hy & Ly).
  pose proof (we_brk _ _ _ _ _ W y Hy). lia.
Qed.

Lemma orig_break f t v x : StronglySorted lt brk ->
  (forall p c, nth_error w p = Some c -> th_wcisldvowel ct c = true -> ~ In (p + 1) brk) ->
  orig f t v -> literal v = [] -> In x brk -> (rk f < 101 * zn x)%Z -> (101 * zn x < rk t)%Z ->
  t = zn (x + 1) /\ nth_error w x = Some 46%N.
Proof.
  intros S NB H. revert f t v H.
  assert (X : forall p stop e, wordEnd ct w brk p stop -> e <= stop -> In x brk -> p < x -> e <= x).
  { intros p stop e W L Hx Lx. pose proof (wordEnd_break p stop x S W Hx Lx). lia. }
  induction 1 as [p e L NT _
    |q stop e es f t v W NE LS L A I'
    |p stop linked c l em f t v W NE Hc Hl Hem G O I'
    |p stop d k strs s f t v W Ed Ap Li Hs I'
    |p f v Or IH Hd NL]; intros HL Hx R1 R2.
  - cbn [literal SylLiteral] in HL. exfalso. apply (text_nonempty p e); [lia|exact HL].
  - exfalso. destruct (AbbrG_bundle ct w _ _ _ A) as (_ & B).
    destruct (b_rank _ _ _ B f t v I') as (B1 & B2 & B3). rewrite !rk_zn in *.
    destruct (AbbrG_in _ _ _ _ _ _ A I')
      as [(p & c & s1 & k1 & j & H1 & H2 & -> & -> & -> & H3)
         |(p & H1 & H2 & -> & -> & H3 & ->)]; [|discriminate].
    assert (e <= x); [|rewrite !rk_zn in *; lia].
    eapply (X q stop); eauto; rewrite !rk_zn in *; lia.
  - exfalso. pose proof (emEdges_bundle ct w p stop em G) as B.
    destruct (b_rank _ _ _ B f t v I') as (B1 & B2 & B3). rewrite !rk_zn in *.
    assert (px : p < x) by lia.
    destruct (le_lt_dec (emPos em) stop) as [Le|Le].
    + assert (emPos em <= x) by (eapply (X p stop); eauto). lia.
    + assert (LV : th_wcisldvowel ct c = true).
      { pose proof (ruleEms_sat ct w True (or_introl I) (or_introl I) p stop linked c
                      (we_lt _ _ _ _ _ W) (we_le _ _ _ _ _ W) Hc) as Y.
        rewrite Hl in Y. cbn [Sat] in Y. rewrite Forall_forall in Y.
        destruct (Y em Hem) as (_ & Y2). apply Y2. exact Le. }
      destruct (eg_stop _ _ _ _ _ _ G) as [Y|(Y1 & Y2 & _)]; [lia|].
      assert (x = p + 1) by lia. subst x. exact (NB p c Hc LV Hx).
  - exfalso. destruct Ap as (A1 & A2 & A3 & A4 & A5 & _).
    destruct (dict_strings p d k strs s f t v) as (_ & B1 & B2); auto. rewrite !rk_zn in *.
    assert (p + length k <= x); [|lia]. eapply (X p stop); eauto. lia.
  - rewrite rk_zn in R2.
    assert (x <= p) by lia. destruct (Nat.eq_dec x p) as [->|]; [auto|exfalso].
    destruct (IH HL Hx R1) as (Y1 & Y2); [rewrite rk_zn; lia|].
    apply NL. right. exists 46%N. replace (p - 1) with x by lia. auto.
Qed.

(** ** Pre-syllable nodes *)
Lemma orig_pre f t v : orig f t v -> dictSyl v \/
  ((f < 0)%Z -> exists b e, b < e <= n /\ e <= b + 20 /\ f = preNode (zn b) (zn e) /\
     (t = zn e \/ t = zn (e + 1) /\ nth_error w e = Some 46%N)) /\
  ((t < 0)%Z -> exists b e, b < e <= n /\ e <= b + 20 /\ f = zn b /\ t = preNode (zn b) (zn e)).
Proof.
  intros H. pose proof (orig_content f t v H) as C.
  destruct (orig_source f t v H) as [X|X|b e c X1 X0 Xe X2 X3 X4 X5 X6 X7 X8 X9|b e X1 X2 X3 X4 X5|b e X1 X2 X3 X4 X5 X6].
  - right. destruct C as [b e -> L _ T _|(Y & _) _]; [|contradiction].
    split; [lia|]. intros. exfalso. destruct T as [->|(-> & _)]; lia.
  - left; exact X.
  - right. subst f. split; lia.
  - right. subst f t. split; [lia|]. intros _. exists b, e. destruct X1 as (A & B & _). auto.
  - right. destruct X1 as (A & B & [([-> | ->] & C2)|(-> & ->)]).
    + split; [lia|]. intros. lia.
    + split; [|lia]. intros _. exists b, e. auto.
    + exfalso. unfold preNode in X2. lia.
Qed.
End Result.

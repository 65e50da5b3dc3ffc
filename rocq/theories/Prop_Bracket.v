(** Prop_Bracket.v - property C115: letters read by name after a bracket, a
    quotation mark or other foreign text. *)
From Coq Require Import String List NArith ZArith Bool Lia Arith Sorted.
From Verif Require Import Base ThUni ThCons Syl Utf Lattice Dag PronDag Output Dict Parser Cli Prop_Cli.
From Verif Require Import Spec OrderProofs DictProofs Prop_Syl ParserSpec ParserFacts ParserInv ParserResult ParserListed ParserDict.
From Verif Require Import Prop_Output Prop_Parser Grammar GrammarWord TextGrammar TextProof Prop_Every ParserProduct Prop_Product.
Import ListNotations.
Local Open Scope string_scope.
Local Open Scope list_scope.
Local Open Scope nat_scope.

(** ** Vocabulary *)
(** A consonant alone: the text or the word ends after it, or something else
    than a Thai letter follows. *)
Definition aloneAt (w : list N) (brk : list nat) (p : nat) (c : N) : Prop :=
  nth_error w p = Some c /\ consonant c = true /\
  (p + 1 = length w \/ In (p + 1) brk \/ exists x, nth_error w (p + 1) = Some x /\ thaiLetter x = false).
(** It comes directly after foreign text that does not end with a blank. *)
Definition afterForeign (w : list N) (p : nat) : Prop :=
  exists q x, p = S q /\ nth_error w q = Some x /\ thaiChar x = false /\ x <> 0x20%N.

(** ** Lemmas *)
Definition dotted (t : list N) : Prop := t = [] \/ exists r, t = fullStop :: r.
Lemma dotted_mark t : dotted t -> mark t = (SAMAN, t).
Proof. intros [->|(r & ->)]; reflexivity. Qed.
Lemma dotted_final t no e r : dotted t -> ~ Final no t e r.
Proof. intros [->|(q & ->)] F; inversion F as [c t C _ E]; subst. vm_compute in C. intuition discriminate. Qed.
Lemma dotted_fs t no e r b : dotted t -> ~ FinalOrShared no t e r b.
Proof.
  intros D F. destruct F as [t e r F|c r C _ _ _ _|c v r C _ _ _ _|c t C _ _ _].
  - exact (dotted_final _ _ _ _ D F).
  - destruct D as [D|(q & D)]; [discriminate D|]. injection D as -> _. destruct C as [C _]. discriminate C.
  - destruct D as [D|(q & D)]; [discriminate D|]. injection D as -> _. destruct C as [C _]. discriminate C.
  - destruct D as [D|(q & D)]; [discriminate D|]. injection D as -> _. destruct C as [C _]. discriminate C.
Qed.
Lemma dotted_head x t : dotted (x :: t) -> x = fullStop.
Proof. intros [D|(r & D)]; congruence. Qed.
Lemma dotted_rime lk o t v e m r b : oVowel o = None -> dotted t -> ~ Rime lk o t v e m r b.
Proof.
  intros O D H. pose proof (dotted_mark _ D) as M.
  destruct H;
    try (apply dotted_head in D; discriminate D);
    try (match goal with K : In (?s, _) _ |- _ => apply dotted_head in D; subst s; cbn in K; intuition discriminate end);
    try congruence;
    try (match goal with K : mark t = _ |- _ => rewrite M in K; injection K as <- -> end);
    try (apply dotted_head in D; discriminate D);
    try (match goal with F : Final _ _ _ _ |- _ => exact (dotted_final _ _ _ _ D F) end).
Qed.
Lemma alone_silent lk c t p x r b : consonant c = true -> dotted t -> ~ Reads lk (c :: t) p x r b.
Proof.
  intros C D H. remember (c :: t) as u eqn:U. destruct H as [t' o t1 v e m r b p x I R _ _|t' o t1 v e m r b p x I R _ _|l t' o t1 v e m r b p x I R _ _|t' p x r M|c' t' v e r b tn R _ _].
  - subst. inversion I; subst; try (apply dotted_head in D; subst; try discriminate; discriminate D).
    revert R. apply dotted_rime; [reflexivity|exact D].
  - injection U as <- <-. discriminate C.
  - injection U as <- <-. destruct R; discriminate C.
  - subst. inversion M; subst; apply dotted_head in D; subst; discriminate.
  - injection U as <- <-. destruct R as [-> | ->]; discriminate C.
Qed.

Section Text.
Variable E : list N -> list SylString -> Prop.
Variable w : list N.
Variable brk : list nat.
Variable p : nat.
Variable c : N.
Hypothesis Al : aloneAt w brk p c.
Hypothesis Af : afterForeign w p.
Hypothesis NoE : forall k strs r, E k strs -> k <> [] -> skipn p w <> k ++ r.

Lemma p_thai : thaiAt w p.
Proof.
  destruct Al as (Ec & C & _). exists c. split; [exact Ec|]. unfold thaiChar. rewrite orb_true_iff. left. unfold thaiLetter, consonant in *.
  rewrite !andb_true_iff, !negb_true_iff, !N.leb_le, !N.eqb_neq in C. rewrite andb_true_iff, negb_true_iff, !orb_true_iff, !andb_true_iff, !N.leb_le, N.eqb_neq. lia.
Qed.
Lemma before_foreign a q : wordTo w brk a q -> a < p -> q < p.
Proof.
  destruct Af as (k & x & -> & Ex & F & _). intros W L. destruct (le_lt_dec (S k) q) as [G|G]; [|exact G]. exfalso.
  destruct (wt_thai _ _ _ _ W k ltac:(lia)) as (y & Ey & T). congruence.
Qed.
Lemma not_named : ~ namePlace w p.
Proof.
  destruct Af as (k & x & -> & Ex & F & B). intros [H|(y & Ey & H)]; [discriminate H|].
  replace (S k - 1) with k in Ey by lia. rewrite Ex in Ey. injection Ey as <-. destruct H as [->| ->]; [congruence|discriminate F].
Qed.
Lemma p_lt : p < length w.
Proof. destruct Al as (Ec & _). apply nth_error_Some. congruence. Qed.
Lemma p_word q : wordTo w brk p q -> exists t, between w p q = c :: t /\ dotted t.
Proof.
  intros W. destruct Al as (Ec & C & N). pose proof p_lt as L. pose proof (wt_lt _ _ _ _ W) as Lq. pose proof (wt_le _ _ _ _ W) as Le.
  destruct (nth_error_split _ _ Ec) as (l1 & l2 & -> & Hl). unfold between. rewrite <- Hl, skipn_app, Nat.sub_diag, skipn_all2 by lia. cbn [app skipn].
  replace (q - length l1) with (S (q - length l1 - 1)) by lia. cbn [firstn]. eexists. split; [reflexivity|]. rewrite <- Hl in *.
  rewrite app_length in *. cbn [length] in *. destruct N as [N|[N|(x & Ex & T)]].
  - left. replace (q - length l1 - 1) with 0 by lia. reflexivity.
  - left. destruct (Nat.eq_dec q (length l1 + 1)) as [->|]; [|destruct (wt_brk _ _ _ _ W _ N); lia].
    replace (length l1 + 1 - length l1 - 1) with 0 by lia. reflexivity.
  - rewrite nth_error_app2 in Ex by lia. replace (length l1 + 1 - length l1) with 1 in Ex by lia. cbn in Ex.
    destruct (Nat.eq_dec q (length l1 + 1)) as [->|]; [left; replace (length l1 + 1 - length l1 - 1) with 0 by lia; reflexivity|].
    destruct (wt_thai _ _ _ _ W (length l1 + 1) ltac:(lia)) as (y & Ey & Ty). rewrite nth_error_app2 in Ey by lia.
    replace (length l1 + 1 - length l1) with 1 in Ey by lia. cbn in Ey. rewrite Ex in Ey. injection Ey as <-.
    unfold thaiChar in Ty. rewrite T in Ty. apply N.eqb_eq in Ty. subst x. right.
    destruct l2 as [|z l2]; [discriminate Ex|]. injection Ex as ->. replace (q - length l1 - 1) with (S (q - length l1 - 2)) by lia. cbn [firstn]. eauto.
Qed.
Lemma no_pass lk es e lk' : ~ Pass E w brk p lk es e lk'.
Proof.
  intros H. destruct Al as (Ec & C & _). destruct H as [q F|q k r strs W (L & Nk & _)|q s r W _ P _|q pre x r lk' W _ _ _ R].
  - exact (ft_none _ _ _ F p ltac:(pose proof (ft_lt _ _ _ F); lia) p_thai).
  - destruct L as (Eq & _ & I). apply (NoE k strs (r ++ skipn (q - p) (skipn p w)) I Nk).
    rewrite app_assoc, <- Eq. unfold between. symmetry. apply firstn_skipn.
  - exact (not_named P).
  - destruct (p_word q W) as (t & B & D). assert (S : seenTo w p q = q).
    { unfold seenTo. rewrite Ec. destruct (memN c (letters "แโใไ")) eqn:M; [|reflexivity]. exfalso.
      apply existsb_exists in M. destruct M as (y & I & Y). apply N.eqb_eq in Y. subst y. cbv in I. repeat (destruct I as [<-|I]; [discriminate C|]). exact I. }
    rewrite S, B in R. exact (alone_silent _ _ _ _ _ _ _ C D R).
Qed.
Lemma pass_stays a lk es e lk' : a < p -> Pass E w brk a lk es e lk' -> e <= p.
Proof.
  intros L H. destruct H as [q F|q k r strs W (Lw & _ & _)|q s r W _ P _|q pre x r lk' W _ _ _ R].
  - destruct (le_lt_dec q p) as [G|G]; [exact G|]. destruct (ft_none _ _ _ F p ltac:(lia) p_thai).
  - destruct Lw as (Eq & _). apply (f_equal (@length N)) in Eq. unfold between in Eq. rewrite firstn_length, skipn_length, app_length in Eq.
    pose proof (before_foreign _ _ W L). pose proof (wt_lt _ _ _ _ W). lia.
  - pose proof (before_foreign _ _ W L). lia.
  - pose proof (before_foreign _ _ W L). unfold seenTo. destruct (nth_error w a); [|lia]. destruct (_ && _); lia.
Qed.
Lemma step_stays a lk es e lk' : a <= p -> Step E w brk a lk es e lk' -> e <= p.
Proof.
  intros L H. destruct (Nat.eq_dec a p) as [->|]; [destruct H as [es e lk' H _|es e lk' H _]; destruct (no_pass _ _ _ _ H)|].
  destruct H as [es e lk' H _|es e lk' H T]; apply pass_stays in H; try lia.
  destruct (Nat.eq_dec e p) as [->|]; [|lia]. destruct T as [T _]. destruct Al as (Ec & C & _). rewrite Ec in T. injection T as ->. discriminate C.
Qed.
Lemma ends_never a lk : Ends E w brk a lk -> a <= p -> False.
Proof.
  induction 1 as [lk|a lk es e lk' S _ IH]; intros L; [pose proof p_lt; lia|]. apply IH. exact (step_stays _ _ _ _ _ L S).
Qed.
Lemma comes_stays a lk : Comes E w brk a lk -> a <= p.
Proof. induction 1 as [|a lk es e lk' _ IH S]; [lia|]. exact (step_stays _ _ _ _ _ IH S). Qed.
Lemma no_reading s : ~ Reading E w brk s.
Proof.
  intros (N & P). destruct s as [|v s]; [congruence|]. destruct P as ((a & lk & es & e & lk' & Co & S & En & _) & _).
  apply (ends_never e lk' En). exact (step_stays _ _ _ _ _ (comes_stays _ _ Co) S).
Qed.
End Text.

(** ** C115 *)
Lemma C115_lemma w dict brk l p c : dictOKo dict -> StronglySorted lt brk -> Forall (fun x => x <= length w) brk ->
  aloneAt w brk p c -> afterForeign w p -> (forall k strs r, entry dict k strs -> k <> [] -> skipn p w <> k ++ r) ->
  pronounced libthai_ct w dict brk l -> l = [].
Proof.
  intros D S B A F N P. destruct l as [|s l]; [reflexivity|]. exfalso.
  apply (no_reading (entry dict) w brk p c A F N s). apply (proj1 (C71_lemma w dict brk (s :: l) D S B P s)). left. reflexivity.
Qed.
(** A consonant alone after foreign text that does not end with a blank leaves
    the whole text without a pronunciation. *)
Theorem C115_lost w dict brk l p c : dictOKo dict -> StronglySorted lt brk -> Forall (fun x => x <= length w) brk ->
  aloneAt w brk p c -> afterForeign w p -> (forall k strs r, entry dict k strs -> k <> [] -> skipn p w <> k ++ r) ->
  pronounced libthai_ct w dict brk l -> l = [].
Proof. exact (C115_lemma w dict brk l p c). Qed.
Print Assumptions C115_lost.

Lemma C115_lemma2 u w z c dict brk l : u <> [] -> (forall x, In x u -> thaiChar x = false) ->
  (last u z = 0x20%N \/ forall e, wordEnd libthai_ct w (breaksAfter (length u) brk) 0 e -> ~ lettersOnly libthai_ct w e) -> nth_error w 0 = Some c -> thaiLetter c = true ->
  dictOKo dict -> StronglySorted lt brk -> Forall (fun x => x <= length (u ++ w)) brk -> pronounced libthai_ct w dict (breaksAfter (length u) brk) l ->
  exists l', pronounced libthai_ct (u ++ w) dict brk l' /\
    forall s, In s l' <-> exists s1, In s1 l /\ s = SylLiteral (Z.of_nat (length u)) u :: shiftEndPos (Z.of_nat (length u)) s1.
Proof.
  intros Nu F La E0 T D S B P.
  assert (Fu : pronounced libthai_ct u dict (breaksBefore (length u) brk) [[SylLiteral (Z.of_nat (length u)) u]]).
  { destruct (C29_lemma libthai_ct u dict (breaksBefore (length u) brk) 1) as (d & Ed & L); [|exact Nu|lia|exists 1, d; auto].
    intros k X. apply thai_tok in X. destruct X as (x & Ex & X). rewrite (F x) in X; [discriminate X|]. eapply nth_error_In. exact Ex. }
  destruct (exists_last Nu) as (u' & y & U).
  assert (E1 : nth_error (u ++ w) (length u - 1) = Some y).
  { subst u. rewrite app_length, Nat.add_sub, <- app_assoc, nth_error_app2, Nat.sub_diag by lia. reflexivity. }
  assert (Ty : thaiChar y = false) by (apply F; subst u; apply in_or_app; right; left; reflexivity).
  assert (E2 : nth_error (u ++ w) (length u) = Some c) by (rewrite nth_error_app2, Nat.sub_diag by lia; exact E0).
  assert (Wb : wordBoundary libthai_ct u w brk).
  { constructor; [exact Nu|intros ->; discriminate E0| | | |].
    - right. apply thai_tok. exists c. split; [exact E2|]. unfold thaiChar. rewrite T. reflexivity.
    - right. intros (X & _). apply thai_tok in X. destruct X as (x & Ex & X). rewrite E1 in Ex. injection Ex as <-. congruence.
    - rewrite E0. intros X. injection X as ->. discriminate T.
    - destruct La as [La|La]; [left|right; exact La]. right. exists 0x20%N. split; [|left; reflexivity].
      rewrite E1. f_equal. rewrite U, last_last in La. exact La. }
  destruct (C54_lemma libthai_ct u w dict brk [[SylLiteral (Z.of_nat (length u)) u]] l libthai_ok D S B Wb Fu P) as (l' & P' & H).
  exists l'. split; [exact P'|]. intros s. rewrite H. split.
  - intros (s1 & s2 & [<-|[]] & I & ->). exists s2. auto.
  - intros (s1 & I & ->). exists [SylLiteral (Z.of_nat (length u)) u], s1. split; [left; reflexivity|]. auto.
Qed.
(** After foreign text that ends with a blank a text is read as it is by
    itself; after other foreign text too, if its first word is not a letter
    alone or one to four consonants and a full stop. *)
Theorem C115_kept u w z c dict brk l : u <> [] -> (forall x, In x u -> thaiChar x = false) ->
  (last u z = 0x20%N \/ forall e, wordEnd libthai_ct w (breaksAfter (length u) brk) 0 e -> ~ lettersOnly libthai_ct w e) -> nth_error w 0 = Some c -> thaiLetter c = true ->
  dictOKo dict -> StronglySorted lt brk -> Forall (fun x => x <= length (u ++ w)) brk -> pronounced libthai_ct w dict (breaksAfter (length u) brk) l ->
  exists l', pronounced libthai_ct (u ++ w) dict brk l' /\
    forall s, In s l' <-> exists s1, In s1 l /\ s = SylLiteral (Z.of_nat (length u)) u :: shiftEndPos (Z.of_nat (length u)) s1.
Proof. exact (C115_lemma2 u w z c dict brk l). Qed.
Print Assumptions C115_kept.

(** One would expect the same after foreign text with any last character. *)
Theorem C115_foreign_refuted : ~ (forall u w c dict brk l, u <> [] -> (forall x, In x u -> thaiChar x = false) ->
  nth_error w 0 = Some c -> thaiLetter c = true ->
  dictOKo dict -> StronglySorted lt brk -> Forall (fun x => x <= length (u ++ w)) brk -> pronounced libthai_ct w dict (breaksAfter (length u) brk) l ->
  exists l', pronounced libthai_ct (u ++ w) dict brk l' /\
    forall s, In s l' <-> exists s1, In s1 l /\ s = SylLiteral (Z.of_nat (length u)) u :: shiftEndPos (Z.of_nat (length u)) s1).
Proof.
  intros H. assert (D : dictOKo None) by (intros d X; discriminate X).
  destruct (H (letters "(") (letters "พ.ศ.") UTH_PHO_PHAN None [] [[nameOf UTH_PHO_PHAN 2; nameOf UTH_SO_SALA 4]]) as (l' & P & I);
    [discriminate|intros x [<-|[]]; reflexivity|reflexivity|reflexivity|exact D|constructor|constructor|apply listing_pronounced; vm_compute; reflexivity|].
  assert (Z : l' = []).
  { apply (C115_lemma (letters "(" ++ letters "พ.ศ.") None [] l' 1 UTH_PHO_PHAN D); [constructor|constructor| | | |exact P].
    - split; [reflexivity|]. split; [reflexivity|]. right. right. exists fullStop. split; reflexivity.
    - exists 0, 40%N. repeat split; discriminate.
    - intros k strs r (d & v & X & _). discriminate X. }
  subst l'. destruct (proj2 (I _) (ex_intro _ _ (conj (or_introl eq_refl) eq_refl))).
Qed.
Print Assumptions C115_foreign_refuted.

(** An abbreviation by itself, after a blank, and in brackets: the program
    prints nothing for the last. *)
Example C115_case :
  map (fun t => rOut (run noFiles "" ["-t"; t])) ["พ.ศ."; "( พ.ศ.)"; "(พ.ศ.)"; "2500พ.ศ."] =
  ["พ.ศ.:" ++ nl ++ "พอ-สอ" ++ nl ++ nl; "( พ.ศ.):" ++ nl ++ "(( )-พอ-สอ-())" ++ nl ++ nl;
   "(พ.ศ.):" ++ nl ++ nl; "2500พ.ศ.:" ++ nl ++ nl]%string /\
  rRes (run noFiles "" ["-t"; "(พ.ศ.)"]) = Ok 0%Z.
Proof. split; vm_compute; reflexivity. Qed.
(** The hypotheses hold for a letter in quotation marks in a sentence; with
    blanks instead the sentence is read. *)
Example C115_case2 : let w := letters "ตัว ""ก"" มา" in
  aloneAt w [3; 6; 10] 5 UTH_KO_KAI /\ afterForeign w 5 /\ dictOKo (Some exDict) /\
  pronounced libthai_ct w (Some exDict) [3; 6; 10] [] /\
  exists l, pronounced libthai_ct (letters "ตัว  ก มา") (Some exDict) [3; 6; 9] l /\ l <> [].
Proof.
  cbv zeta. split; [split; [reflexivity|]; split; [reflexivity|]; right; left; cbn; tauto|].
  split; [exists 4, 34%N; repeat split; discriminate|]. split; [apply exDict_ok|].
  split; [apply listing_pronounced; vm_compute; reflexivity|].
  eexists. split; [apply listing_pronounced; vm_compute; reflexivity|discriminate].
Qed.

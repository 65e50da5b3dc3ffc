(** Prop_Repeat.v - property C117: the repetition mark and other signs after a
    word. *)
From Coq Require Import String List NArith ZArith Bool Lia Arith Sorted.
From Verif Require Import Base ThUni ThCons Syl Utf Lattice Dag PronDag Output Dict Parser Cli Prop_Cli.
From Verif Require Import Spec OrderProofs DictProofs Prop_Syl ParserSpec ParserFacts ParserInv ParserResult ParserListed ParserDict.
From Verif Require Import Prop_Output Prop_Parser Grammar GrammarWord TextGrammar TextProof Prop_Every ParserProduct Prop_Product Prop_Bracket.
Import ListNotations.
Local Open Scope string_scope.
Local Open Scope list_scope.
Local Open Scope nat_scope.

(** ** Vocabulary *)
(** The repetition mark, mai yamok. *)
Definition repetition : N := 0x0e46%N.
(** Text without Thai letters and full stops; the repetition mark, paiyannoi
    and the Thai digits count as such text. *)
Definition signs (u : list N) : Prop := u <> [] /\ forall x, In x u -> thaiChar x = false.
(** The text ends with a Thai letter. *)
Definition endsThai (w : list N) : Prop := exists w' c, w = w' ++ [c] /\ thaiLetter c = true.

(** ** Lemmas *)
Lemma signs_boundary w u v brk : endsThai w -> signs u -> wordBoundary libthai_ct w (u ++ v) brk.
Proof.
  intros (w' & c & -> & T) (Nu & F). destruct u as [|x u]; [congruence|].
  assert (Tx : thaiChar x = false) by (apply F; left; reflexivity).
  assert (Nx : ~ tokenAt libthai_ct ((x :: u) ++ v) 0).
  { intros X. apply thai_tok in X. destruct X as (y & Ey & X). cbn in Ey. injection Ey as <-. congruence. }
  constructor.
  - destruct w'; discriminate.
  - discriminate.
  - left. apply thai_tok. exists c. split; [|unfold thaiChar; rewrite T; reflexivity].
    rewrite app_length, Nat.add_sub, <- app_assoc, nth_error_app2, Nat.sub_diag by lia. reflexivity.
  - right. intros (_ & X). apply thai_tok in X. destruct X as (y & Ey & X).
    rewrite nth_error_app2, Nat.sub_diag in Ey by lia. cbn in Ey. injection Ey as <-. congruence.
  - cbn. intros X. injection X as ->. discriminate Tx.
  - right. intros e We _. destruct We as [L _ K _ _]. apply Nx. apply K. lia.
Qed.
Lemma signs_alone u dict brk : signs u -> pronounced libthai_ct u dict brk [[SylLiteral (Z.of_nat (length u)) u]].
Proof.
  intros (Nu & F). destruct (C29_lemma libthai_ct u dict brk 1) as (d & Ed & L); [|exact Nu|lia|exists 1, d; auto].
  intros k X. apply thai_tok in X. destruct X as (x & Ex & X). rewrite (F x) in X; [discriminate X|]. eapply nth_error_In. exact Ex.
Qed.
Lemma shift_literal p q u : shiftEndPos (Z.of_nat p) [SylLiteral (Z.of_nat q) u] = [SylLiteral (Z.of_nat (p + q)) u].
Proof.
  unfold shiftEndPos, shiftPos. cbn [map endPos SylLiteral]. destruct (Z.ltb_spec (Z.of_nat q) 0); [lia|].
  rewrite Nat2Z.inj_add, Z.add_comm. reflexivity.
Qed.
Lemma shift_two p q u s : shiftEndPos (Z.of_nat p) (SylLiteral (Z.of_nat q) u :: shiftEndPos (Z.of_nat q) s) =
  SylLiteral (Z.of_nat (p + q)) u :: shiftEndPos (Z.of_nat (p + q)) s.
Proof.
  change (shiftEndPos (Z.of_nat p) (SylLiteral (Z.of_nat q) u :: shiftEndPos (Z.of_nat q) s))
    with (shiftEndPos (Z.of_nat p) [SylLiteral (Z.of_nat q) u] ++ shiftEndPos (Z.of_nat p) (shiftEndPos (Z.of_nat q) s)).
  rewrite shift_literal, shift_compose, <- Nat2Z.inj_add by lia. reflexivity.
Qed.

(** ** C117 *)
Lemma C117_lemma w u dict brk l : endsThai w -> signs u -> dictOKo dict -> StronglySorted lt brk ->
  Forall (fun x => x <= length (w ++ u)) brk -> pronounced libthai_ct w dict (breaksBefore (length w) brk) l ->
  exists l', pronounced libthai_ct (w ++ u) dict brk l' /\
    forall s, In s l' <-> exists s1, In s1 l /\ s = s1 ++ [SylLiteral (Z.of_nat (length w + length u)) u].
Proof.
  intros W U D S B P. pose proof (signs_boundary w u [] brk W U) as Wb. rewrite app_nil_r in Wb.
  destruct (C54_lemma libthai_ct w u dict brk l _ libthai_ok D S B Wb P (signs_alone u dict _ U)) as (l' & P' & H).
  exists l'. split; [exact P'|]. intros s. rewrite H, <- shift_literal. split.
  - intros (s1 & s2 & I & [<-|[]] & ->). exists s1. auto.
  - intros (s1 & I & ->). exists s1, [SylLiteral (Z.of_nat (length u)) u]. split; [exact I|]. split; [left; reflexivity|reflexivity].
Qed.
(** Signs after a word, the repetition mark among them, are copied after each
    of its pronunciations; nothing else is done about them. *)
Theorem C117_copied w u dict brk l : endsThai w -> signs u -> dictOKo dict -> StronglySorted lt brk ->
  Forall (fun x => x <= length (w ++ u)) brk -> pronounced libthai_ct w dict (breaksBefore (length w) brk) l ->
  exists l', pronounced libthai_ct (w ++ u) dict brk l' /\
    forall s, In s l' <-> exists s1, In s1 l /\ s = s1 ++ [SylLiteral (Z.of_nat (length w + length u)) u].
Proof. exact (C117_lemma w u dict brk l). Qed.
Print Assumptions C117_copied.

Lemma C117_lemma2 w u v c dict brk l lv : endsThai w -> signs u -> nth_error v 0 = Some c -> thaiLetter c = true ->
  (last u c = 0x20%N \/ forall e, wordEnd libthai_ct v (breaksAfter (length u) (breaksAfter (length w) brk)) 0 e -> ~ lettersOnly libthai_ct v e) ->
  dictOKo dict -> StronglySorted lt brk -> Forall (fun x => x <= length (w ++ u ++ v)) brk ->
  pronounced libthai_ct w dict (breaksBefore (length w) brk) l ->
  pronounced libthai_ct v dict (breaksAfter (length u) (breaksAfter (length w) brk)) lv ->
  exists l', pronounced libthai_ct (w ++ u ++ v) dict brk l' /\
    forall s, In s l' <-> exists s1 s2, In s1 l /\ In s2 lv /\
      s = s1 ++ SylLiteral (Z.of_nat (length w + length u)) u :: shiftEndPos (Z.of_nat (length w + length u)) s2.
Proof.
  intros W U E0 T La D S B P Q. destruct (C115_lemma2 u v c c dict (breaksAfter (length w) brk) lv (proj1 U) (proj2 U) La E0 T D) as (lm & Pm & Hm).
  - exact (breaksAfter_sorted _ _ S).
  - rewrite Forall_forall in *. intros y Hy. apply breaksAfter_in in Hy. destruct Hy as (Hy & _). apply B in Hy. rewrite app_length in Hy. lia.
  - exact Q.
  - destruct (C54_lemma libthai_ct w (u ++ v) dict brk l lm libthai_ok D S B (signs_boundary w u v brk W U) P Pm) as (l' & P' & H).
    exists l'. split; [exact P'|]. intros s. rewrite H. split.
    + intros (s1 & s2 & I & J & ->). apply Hm in J. destruct J as (s3 & J & ->). exists s1, s3. rewrite shift_two. auto.
    + intros (s1 & s2 & I & J & ->). exists s1, (SylLiteral (Z.of_nat (length u)) u :: shiftEndPos (Z.of_nat (length u)) s2).
      rewrite shift_two. split; [exact I|]. split; [|reflexivity]. apply Hm. exists s2. auto.
Qed.
(** The same with more text after the signs. *)
Theorem C117_between w u v c dict brk l lv : endsThai w -> signs u -> nth_error v 0 = Some c -> thaiLetter c = true ->
  (last u c = 0x20%N \/ forall e, wordEnd libthai_ct v (breaksAfter (length u) (breaksAfter (length w) brk)) 0 e -> ~ lettersOnly libthai_ct v e) ->
  dictOKo dict -> StronglySorted lt brk -> Forall (fun x => x <= length (w ++ u ++ v)) brk ->
  pronounced libthai_ct w dict (breaksBefore (length w) brk) l ->
  pronounced libthai_ct v dict (breaksAfter (length u) (breaksAfter (length w) brk)) lv ->
  exists l', pronounced libthai_ct (w ++ u ++ v) dict brk l' /\
    forall s, In s l' <-> exists s1 s2, In s1 l /\ In s2 lv /\
      s = s1 ++ SylLiteral (Z.of_nat (length w + length u)) u :: shiftEndPos (Z.of_nat (length w + length u)) s2.
Proof. exact (C117_lemma2 w u v c dict brk l lv). Qed.
Print Assumptions C117_between.

Lemma text_in (w : list N) b e x : In x (text w b e) -> In x w.
Proof.
  unfold text. intros I. rewrite <- (firstn_skipn b w). apply in_or_app. right.
  match type of I with In x (firstn ?k _) => rewrite <- (firstn_skipn k (skipn b w)) end. apply in_or_app. left. exact I.
Qed.
Lemma C117_lemma3 w m dict brk brk' l l' s' ss : dictOKo dict -> thaiChar m = false -> ~ In m w ->
  pronounced libthai_ct w dict brk l -> pronounced libthai_ct (w ++ [m]) dict brk' l' ->
  In s' l' -> (forall s, In s ss -> In s l) -> map spoken s' <> map spoken (concat ss).
Proof.
  intros D T Nm P P' I' Is Sp.
  destruct (C28_lemma2 libthai_ct (w ++ [m]) dict brk' l' s' (length w) m libthai_ok D P' I') as (s1 & v & s2 & b & -> & _ & _ & Ev).
  { rewrite nth_error_app2, Nat.sub_diag by lia. reflexivity. }
  { intros X. apply thai_tok in X. destruct X as (y & Ey & X). rewrite nth_error_app2, Nat.sub_diag in Ey by lia. injection Ey as <-. congruence. }
  apply nth_error_In in Ev. assert (Iv : In (spoken v) (map spoken (concat ss))).
  { rewrite <- Sp. apply in_map. apply in_or_app. right. left. reflexivity. }
  apply in_map_iff in Iv. destruct Iv as (x & Ex & Ix). apply in_concat in Ix. destruct Ix as (s & Js & Ix).
  assert (El : literal x = literal v).
  { unfold spoken in Ex. destruct (literal v) as [|c r]; [destruct Ev|]. destruct (literal x) as [|c' r']; [discriminate Ex|]. injection Ex as -> ->. reflexivity. }
  apply in_split in Ix. destruct Ix as (t1 & t2 & ->).
  destruct (C28_lemma libthai_ct w dict brk l _ _ x libthai_ok D P (ex_intro _ t1 (ex_intro _ t2 (conj (Is _ Js) (conj eq_refl eq_refl))))) as (H & _).
  destruct H as (b' & e & _ & _ & Et & _); [rewrite El; intros Z; rewrite Z in Ev; destruct Ev|].
  apply Nm. apply (text_in w b' e). rewrite <- Et, El. exact Ev.
Qed.
(** No pronunciation of a word with the mark says the word any number of times:
    not once, not twice, and not with two of its pronunciations in turn. *)
Theorem C117_not_repeated w m dict brk brk' l l' s' ss : dictOKo dict -> thaiChar m = false -> ~ In m w ->
  pronounced libthai_ct w dict brk l -> pronounced libthai_ct (w ++ [m]) dict brk' l' ->
  In s' l' -> (forall s, In s ss -> In s l) -> map spoken s' <> map spoken (concat ss).
Proof. exact (C117_lemma3 w m dict brk brk' l l' s' ss). Qed.
Print Assumptions C117_not_repeated.

(** One would expect the word before a repetition mark to be said twice. *)
Theorem C117_repeated_refuted : ~ (forall w dict l l', endsThai w -> dictOKo dict -> pronounced libthai_ct w dict [] l ->
  pronounced libthai_ct (w ++ [repetition]) dict [] l' ->
  forall s, In s l -> exists s', In s' l' /\ map spoken s' = map spoken (s ++ s)).
Proof.
  intros H. assert (D : dictOKo None) by (intros d X; discriminate X).
  assert (P : exists s, pronounced libthai_ct (letters "มาก") None [] [s] /\ literal (hd (SylLiteral 0 []) s) = [] /\ length s = 1).
  { eexists. split; [apply listing_pronounced; vm_compute; reflexivity|]. split; reflexivity. }
  destruct P as (s & P & Li & Le). assert (W : endsThai (letters "มาก")) by (exists (letters "มา"), UTH_KO_KAI; split; reflexivity).
  destruct (C117_lemma (letters "มาก") [repetition] None [] [s] W) as (l' & P' & I);
    [split; [discriminate|intros x [<-|[]]; reflexivity]|exact D|constructor|constructor|exact P|].
  destruct (H (letters "มาก") None [s] l' W D P P' s (or_introl eq_refl)) as (s' & I' & Sp).
  apply I in I'. destruct I' as (s1 & [<-|[]] & ->). destruct s as [|x [|y s]]; try discriminate Le. cbn in Li, Sp.
  injection Sp as Sp. unfold spoken in Sp. rewrite Li in Sp. discriminate Sp.
Qed.
Print Assumptions C117_repeated_refuted.

(** Repetition marks at the end and within, and a Thai digit. *)
Example C117_case :
  map (fun t => rOut (run noFiles "" ["-t"; t])) ["มากๆ"; "ไปๆมาๆ"; "ปี๒"; "ต่างๆ กัน"] =
  (["มากๆ:" ++ nl ++ "มาก-(ๆ)" ++ nl ++ nl; "ไปๆมาๆ:" ++ nl ++ "ปัย-(ๆ)-มา-(ๆ)" ++ nl ++ nl;
    "ปี๒:" ++ nl ++ "ปี-(๒)" ++ nl ++ nl; "ต่างๆ กัน:" ++ nl ++ "ต่าง-(ๆ )-กัน" ++ nl ++ nl])%string.
Proof. vm_compute. reflexivity. Qed.
(** The conditions with a dictionary and a word break before the mark. *)
Example C117_case2 : let w := letters "นม" in
  endsThai w /\ signs [repetition] /\ dictOKo (Some exDict) /\ StronglySorted lt [2] /\
  Forall (fun x => x <= length (w ++ [repetition])) [2] /\ ~ In repetition w /\
  (exists s l, pronounced libthai_ct w (Some exDict) (breaksBefore (length w) [2]) (s :: l)) /\
  exists s l, pronounced libthai_ct (w ++ [repetition]) (Some exDict) [2] (s :: l).
Proof.
  cbv zeta. split; [exists (letters "น"), UTH_MO_MA; split; reflexivity|].
  split; [split; [discriminate|intros x [<-|[]]; reflexivity]|]. split; [apply exDict_ok|]. split; [repeat constructor|].
  split; [repeat constructor|]. split; [vm_compute; intuition discriminate|].
  change (letters "นม" ++ [repetition]) with (letters "นมๆ"). split; eexists; eexists; apply listing_pronounced; vm_compute; reflexivity.
Qed.

(** ** The sign for "and so on", paiyannoi twice around a consonant *)
Definition andSoOn : list N := letters "ฯลฯ".
Lemma C117_lemma4 a b dict brk l : dictOKo dict -> StronglySorted lt brk -> Forall (fun x => x <= length (a ++ andSoOn ++ b)) brk ->
  (forall k strs r, entry dict k strs -> k <> [] -> UTH_LO_LING :: 0x0e2f%N :: b <> k ++ r) ->
  pronounced libthai_ct (a ++ andSoOn ++ b) dict brk l -> l = [].
Proof.
  intros D S B N P. assert (K : forall k, nth_error (a ++ andSoOn ++ b) (length a + k) = nth_error (andSoOn ++ b) k).
  { intros k. rewrite nth_error_app2 by lia. f_equal. lia. }
  assert (Sk : skipn (length a + 1) (a ++ andSoOn ++ b) = UTH_LO_LING :: 0x0e2f%N :: b).
  { rewrite skipn_app, skipn_all2 by lia. replace (length a + 1 - length a) with 1 by lia. reflexivity. }
  apply (C115_lemma (a ++ andSoOn ++ b) dict brk l (length a + 1) UTH_LO_LING D S B); [| |rewrite Sk; exact N|exact P].
  - split; [rewrite K; reflexivity|]. split; [reflexivity|]. right. right. exists 0x0e2f%N. split; [|reflexivity].
    rewrite <- Nat.add_assoc, K. reflexivity.
  - exists (length a), 0x0e2f%N. split; [lia|]. split; [rewrite <- (Nat.add_0_r (length a)), K; reflexivity|]. split; [reflexivity|discriminate].
Qed.
(** It leaves every text it stands in without a pronunciation, unless a word of
    the dictionary begins with its consonant there. *)
Theorem C117_and_so_on_lost a b dict brk l : dictOKo dict -> StronglySorted lt brk -> Forall (fun x => x <= length (a ++ andSoOn ++ b)) brk ->
  (forall k strs r, entry dict k strs -> k <> [] -> UTH_LO_LING :: 0x0e2f%N :: b <> k ++ r) ->
  pronounced libthai_ct (a ++ andSoOn ++ b) dict brk l -> l = [].
Proof. exact (C117_lemma4 a b dict brk l). Qed.
Print Assumptions C117_and_so_on_lost.
Example C117_case3 :
  map (fun t => rOut (run noFiles "" ["-t"; t])) ["กา"; "กาฯลฯ"; "กา ฯลฯ"; "กาฯ"] =
  (["กา:" ++ nl ++ "กา" ++ nl ++ nl; "กาฯลฯ:" ++ nl ++ nl; "กา ฯลฯ:" ++ nl ++ nl; "กาฯ:" ++ nl ++ "กา-(ฯ)" ++ nl ++ nl])%string.
Proof. vm_compute. reflexivity. Qed.
(** The conditions with a dictionary. *)
Example C117_case4 : let w := letters "กา" ++ andSoOn ++ [] in
  dictOKo (Some exDict) /\ (forall k strs r, entry (Some exDict) k strs -> k <> [] -> UTH_LO_LING :: 0x0e2f%N :: [] <> k ++ r) /\
  pronounced libthai_ct w (Some exDict) [2] [] /\ exists s l, pronounced libthai_ct (letters "กา") (Some exDict) [2] (s :: l).
Proof.
  cbv zeta. split; [exact exDict_ok|]. split.
  - intros k strs r (d & v & X & (tr & Et & t1 & t2 & Ik & _) & _) _ E. injection X as <-. injection Et as <-.
    assert (X : In (k, v) [(letters "กา", 0%Z)]) by (rewrite Ik; apply in_elt). destruct X as [X|[]]. injection X as <- _. discriminate E.
  - change (letters "กา" ++ andSoOn ++ []) with (letters "กาฯลฯ"). split; [apply listing_pronounced; vm_compute; reflexivity|].
    eexists; eexists; apply listing_pronounced; vm_compute; reflexivity.
Qed.

(** Prop_Every.v - property C71: the readings of every text, and the texts that
    have none. *)
From Coq Require Import List NArith ZArith Bool String Lia Arith Sorted.
From Verif Require Import Base ThUni ThCons Syl Utf Lattice Dag PronDag Dict Parser.
From Verif Require Import Spec OrderProofs DictProofs Prop_Syl ParserSpec ParserFacts ParserInv ParserResult ParserListed ParserDict.
From Verif Require Import Prop_Output Prop_Parser Grammar GrammarWord TextGrammar TextProof.
Import ListNotations.
Local Open Scope string_scope.
Local Open Scope list_scope.
Local Open Scope nat_scope.

(** ** C71: every text *)
Lemma C71_lemma w dict brk l : dictOKo dict -> StronglySorted lt brk -> Forall (fun x => x <= List.length w) brk ->
  pronounced libthai_ct w dict brk l -> forall s, In s l <-> Reading (entry dict) w brk s.
Proof. intros D S I. exact (listed_readings w dict brk S I D l). Qed.
(** Whatever the text, the breaks and the dictionary, exactly the paths of the
    readings of the text are listed. *)
Theorem C71_every_text w dict brk l : dictOKo dict -> StronglySorted lt brk -> Forall (fun x => x <= List.length w) brk ->
  pronounced libthai_ct w dict brk l -> forall s, In s l <-> Reading (entry dict) w brk s.
Proof. exact (C71_lemma w dict brk l). Qed.
Print Assumptions C71_every_text.

Lemma C71_lemma2 w dict brk : dictOKo dict -> StronglySorted lt brk -> Forall (fun x => x <= List.length w) brk ->
  (stuck (entry dict) w brk /\ exists fuel0, forall fuel, fuel0 <= fuel -> ParseU16F libthai_ct fuel w dict brk = Throw) \/
  (~ stuck (entry dict) w brk /\ exists l, pronounced libthai_ct w dict brk l).
Proof.
  intros D S I. destruct (outcome w dict brk S I D) as [X|(NS & fuel & d & E)]; [left; exact X|right]. split; [exact NS|].
  destruct (flat_good libthai_ct w dict brk fuel d D E) as (l & El & _). exists l, fuel, d. auto.
Qed.
(** The parser reads past the end of the text, and throws, exactly if a reading
    comes to one of the vowels "แโใไ" as the last letter. *)
Theorem C71_outcome w dict brk : dictOKo dict -> StronglySorted lt brk -> Forall (fun x => x <= List.length w) brk ->
  (stuck (entry dict) w brk /\ exists fuel0, forall fuel, fuel0 <= fuel -> ParseU16F libthai_ct fuel w dict brk = Throw) \/
  (~ stuck (entry dict) w brk /\ exists l, pronounced libthai_ct w dict brk l).
Proof. exact (C71_lemma2 w dict brk). Qed.
Print Assumptions C71_outcome.

(** The name of a letter, a blank, a listed word, a vowel that takes the first
    letter of the next word, and a full stop after a foreign stretch. *)
Definition exSyl c v e := SylOf c SEC_NONE v EC_NONE SAMAN e.
Example C71_case : let w := letters "ก. กาโนa." in
  dictOKo (Some exDict) /\ StronglySorted lt [6] /\ Forall (fun x => x <= List.length w) [6] /\
  ~ stuck (entry (Some exDict)) w [6] /\
  forall s, Reading (entry (Some exDict)) w [6] s <->
    In s (map (fun v => [exSyl KA V_AUU 2; SylLiteral 3 [0x20%N]; v; exSyl NA V_OO 7; SylLiteral 9 (letters "a")])
      [exSyl NA V_AA 5; exSyl KA V_AA 5]).
Proof.
  cbv zeta. assert (S : StronglySorted lt [6]) by repeat constructor.
  assert (I : Forall (fun x => x <= List.length (letters "ก. กาโนa.")) [6]) by (repeat constructor; vm_compute; lia).
  assert (P : pronounced libthai_ct (letters "ก. กาโนa.") (Some exDict) [6]
    (map (fun v => [exSyl KA V_AUU 2; SylLiteral 3 [0x20%N]; v; exSyl NA V_OO 7; SylLiteral 9 (letters "a")])
      [exSyl NA V_AA 5; exSyl KA V_AA 5])) by (apply listing_pronounced; vm_compute; reflexivity).
  split; [exact exDict_ok|]. split; [exact S|]. split; [exact I|]. split.
  - destruct (C71_outcome _ _ _ exDict_ok S I) as [(_ & f & T)|(X & _)]; [|exact X].
    destruct P as (f1 & d & E & _). destruct (C23_lemma libthai_ct (letters "ก. กาโนa.") (Some exDict) [6]) as (r & f2 & _ & Sf & A).
    specialize (T (Nat.max f f2) ltac:(lia)). specialize (Sf (Nat.max f f2) ltac:(lia)). destruct (A f1) as [Y|Y]; congruence.
  - intros s. symmetry. exact (C71_every_text _ _ _ _ exDict_ok S I P s).
Qed.
(** The vowel at the end is reached; is not at the end; is not reached. *)
Lemma stuck_by w dict brk : dictOKo dict -> StronglySorted lt brk -> Forall (fun x => x <= List.length w) brk ->
  (ParseU16F libthai_ct 500 w dict brk = Throw -> stuck (entry dict) w brk) /\
  (forall d, ParseU16F libthai_ct 500 w dict brk = Ok d -> ~ stuck (entry dict) w brk).
Proof.
  intros D S I. destruct (C23_lemma libthai_ct w dict brk) as (r & f2 & _ & Sf & A). specialize (A 500).
  destruct (C71_outcome w dict brk D S I) as [(X & f & T)|(X & l & f & d' & E & _)]; (split; [intros H|intros d H]); try exact X.
  - specialize (T (Nat.max f f2) ltac:(lia)). specialize (Sf (Nat.max f f2) ltac:(lia)). destruct A; congruence.
  - destruct (C23_lemma libthai_ct w dict brk) as (r' & f3 & _ & Sf' & A'). pose proof (A' 500). pose proof (A' f).
    destruct H0, H1; congruence.
Qed.
Example C71_stuck_case : stuck (entry (Some exDict)) (letters "กาไ") [2] /\ ~ stuck (entry (Some exDict)) (letters "กาไก") [2] /\
  ~ stuck (entry (Some exDict)) (letters "กาะไ") [2].
Proof.
  assert (S : StronglySorted lt [2]) by (repeat constructor).
  assert (I : forall m, 2 <= m -> Forall (fun x => x <= m) [2]) by (intros; constructor; [assumption|constructor]).
  assert (L1 : 2 <= List.length (letters "กาไ")) by (vm_compute; lia).
  assert (L2 : 2 <= List.length (letters "กาไก")) by (vm_compute; lia).
  assert (L3 : 2 <= List.length (letters "กาะไ")) by (vm_compute; lia).
  split; [|split].
  - apply (proj1 (stuck_by _ _ _ exDict_ok S (I _ L1))). vm_compute. reflexivity.
  - eapply (proj2 (stuck_by _ _ _ exDict_ok S (I _ L2))). vm_compute. reflexivity.
  - eapply (proj2 (stuck_by _ _ _ exDict_ok S (I _ L3))). vm_compute. reflexivity.
Qed.

(** Prop_Literal.v - hyphens of the romanization next to text that is not Thai
    (property C22, for what the parser returns). *)
From Coq Require Import String List NArith ZArith Bool Lia Arith Sorted.
From Verif Require Import Base ThUni ThCons Syl Utf Lattice Dag PronDag Dict Parser Output SylOut.
From Verif Require Import Spec OrderProofs DictProofs Prop_Syl ParserSpec ParserFacts ParserInv ParserResult ParserListed ParserDict ParserProduct.
From Verif Require Import Prop_Output Prop_Parser Grammar GrammarWord TextGrammar TextProof Prop_Every.
Import ListNotations.
Local Open Scope string_scope.
Local Open Scope list_scope.
Local Open Scope nat_scope.

Lemma path_canon w dict brk : dictOKo dict -> forall s f e, Path (entry dict) w brk f s e -> Forall canon s.
Proof.
  intros D. induction s as [|v s IH]; intros f e P; [constructor|]. destruct P as (O & P).
  constructor; [eapply way_canon; eassumption|exact (IH _ _ P)].
Qed.
Lemma listed_canon w dict brk l : dictOKo dict -> StronglySorted lt brk -> Forall (fun x => x <= length w) brk ->
  pronounced libthai_ct w dict brk l -> forall s v, In s l -> In v s -> canon v.
Proof.
  intros D S I P s v Hs Hv. apply (C71_lemma w dict brk l D S I P) in Hs. destruct Hs as (_ & Hp).
  apply (path_canon w dict brk D) in Hp. rewrite Forall_forall in Hp. exact (Hp v Hv).
Qed.
Lemma C22_lemma3 w dict brk l s1 a b s2 : dictOKo dict -> StronglySorted lt brk -> Forall (fun x => x <= length w) brk ->
  pronounced libthai_ct w dict brk l -> In (s1 ++ a :: b :: s2) l ->
  (literal b <> [] -> ~ needHyphen a b) /\
  (literal a <> [] -> (needHyphen a b <-> iCons1 b = ICS_A \/ iCons1 b = NGA)).
Proof.
  intros D S I P H. pose proof (listed_canon w dict brk l D S I P _ a H (in_elt _ _ _)) as Ca.
  pose proof (listed_canon w dict brk l D S I P _ b H) as Cb. specialize (Cb ltac:(apply in_or_app; right; right; left; reflexivity)).
  unfold needHyphen. split; intros N.
  - destruct Cb as [E|E]; [destruct (N E)|]. rewrite E. intros [X|(_ & X)]; discriminate X.
  - destruct Ca as [E|E]; [destruct (N E)|]. assert (X : eCons a = EC_NONE) by (rewrite E; reflexivity). rewrite X. tauto.
Qed.
(** In what the parser lists no hyphen is written before a piece of text that
    is not Thai; after one it is written before a vowel or ng, as after an open
    syllable. *)
Theorem C22_literals w dict brk l s1 a b s2 : dictOKo dict -> StronglySorted lt brk -> Forall (fun x => x <= length w) brk ->
  pronounced libthai_ct w dict brk l -> In (s1 ++ a :: b :: s2) l ->
  (literal b <> [] -> ~ needHyphen a b) /\
  (literal a <> [] -> (needHyphen a b <-> iCons1 b = ICS_A \/ iCons1 b = NGA)).
Proof. exact (C22_lemma3 w dict brk l s1 a b s2). Qed.
Print Assumptions C22_literals.
Example C22_case_literals : exists a b c d, pronounced libthai_ct (letters "กา x อาไป") None [] [[a; b; c; d]] /\
  literal b <> [] /\ ~ needHyphen a b /\ needHyphen b c /\ romanOutputStr false [a; b; c; d] = Ok "ka( x )-apai".
Proof.
  do 4 eexists. split; [apply listing_pronounced; vm_compute; reflexivity|]. split; [intros X; vm_compute in X; discriminate X|].
  split; [intros [X|(_ & X)]; vm_compute in X; discriminate X|]. split; [left; reflexivity|vm_compute; reflexivity].
Qed.

(** Prop_Span.v - property C88: how many letters a syllable takes, and how many
    syllables a word has. *)
From Coq Require Import String Ascii List NArith ZArith Bool Arith Lia.
From Verif Require Import Spec Base ThUni ThCons Syl OrderProofs PronDag Utf Dict Parser Prop_Syl
  ParserSpec ParserFacts ParserInv ParserResult ParserListed ParserDict DictProofs GrammarIff GrammarWord Prop_Parser Prop_Sweep
  Grammar Prop_Grammar.
Import ListNotations.
Local Open Scope nat_scope.

(** The letters at which the syllables of a pronunciation end; the place
    between two syllables of one letter group is not one of them. *)
Definition ends (s : SylString) : list Z := filter (fun p => (0 <=? p)%Z) (map endPos s).
Fixpoint steps (least most x : Z) (l : list Z) : Prop :=
  match l with [] => True | y :: l => (least <= y - x <= most)%Z /\ steps least most y l end.

(** ** Lengths *)
Lemma mark_len t m t' : mark t = (m, t') -> length t' <= length t <= S (length t').
Proof. unfold mark. destruct t as [|c t]; [|destruct (isMark c)]; intros E; injection E as _ <-; cbn; lia. Qed.
Lemma silent_len t : length (silent t) <= length t <= 2 + length (silent t).
Proof. destruct t as [|c [|x t]]; cbn [silent]; [cbn; lia|cbn; lia|]. destruct (_ && _); cbn; lia. Qed.
Lemma silentIU_len t : length (silentIU t) <= length t <= 3 + length (silentIU t).
Proof. destruct t as [|c [|x [|y t]]]; cbn [silentIU]; [cbn; lia|cbn; lia|cbn; lia|]. destruct (_ && _); cbn; lia. Qed.
Lemma silent2_len t : length (silent2 t) <= length t <= 3 + length (silent2 t).
Proof. destruct t as [|c [|x [|y t]]]; cbn [silent2]; [cbn; lia|cbn; lia|cbn; lia|]. destruct (_ && _); cbn; lia. Qed.
Lemma silentAny_len t : length (silentAny t) <= length t <= 3 + length (silentAny t).
Proof.
  unfold silentAny. pose proof (silent_len t). pose proof (silentIU_len t). pose proof (silent2_len t).
  destruct (_ <? _); [lia|]. destruct (_ <? _); lia.
Qed.
Lemma final_len no t e r : Final no t e r -> length r < length t <= 4 + length r.
Proof. intros [c t']. pose proof (silentAny_len t'). cbn [length]. lia. Qed.
Lemma shared_len no t e r b : FinalOrShared no t e r b -> length r <= length t <= 4 + length r.
Proof. intros [t' e' r' F|c r'|c v r'|c t']; [apply final_len in F; lia|cbn; lia|cbn; lia|cbn; lia]. Qed.
Lemma initial_len lk t o t1 : InitialAt lk t o t1 ->
  length t1 < length t <= 2 + length t1 /\ (oLead o <> None -> 2 + length t1 <= length t).
Proof. intros []; cbn; split; try lia; intros X; congruence. Qed.
Ltac lens := repeat match goal with
  | H : mark _ = _ |- _ => apply mark_len in H; cbn [length] in H
  | H : Final _ _ _ _ |- _ => apply final_len in H
  | H : FinalOrShared _ _ _ _ _ |- _ => apply shared_len in H
  | H : context [silent ?t] |- _ => lazymatch goal with X : length (silent t) <= length t <= _ |- _ => fail | _ => pose proof (silent_len t) end
  | |- context [silent ?t] => lazymatch goal with X : length (silent t) <= length t <= _ |- _ => fail | _ => pose proof (silent_len t) end
  | |- context [silentIU ?t] => lazymatch goal with X : length (silentIU t) <= length t <= _ |- _ => fail | _ => pose proof (silentIU_len t) end
  end; cbn [length] in *; try lia.
Lemma ran_len (b : bool) r x r' : (if b then r else silent r) = x :: r' -> S (length r') <= length r <= 3 + length r'.
Proof. intros E. pose proof (silent_len r). destruct b; [subst r|rewrite E in *]; cbn [length] in *; lia. Qed.
Lemma shorter_len t : length (if length (silent t) <? length t then silent t else silentIU t) <= length t <=
  3 + length (if length (silent t) <? length t then silent t else silentIU t).
Proof. pose proof (silent_len t). pose proof (silentIU_len t). destruct (_ <? _); lia. Qed.
Ltac rest := repeat match goal with
  | H : (if _ then _ else silent _) = _ :: _ |- _ => apply ran_len in H
  | |- context [if length (silent ?t) <? length ?t then _ else _] =>
      pose proof (shorter_len t); set (if length (silent t) <? length t then silent t else silentIU t) in *
  end; lens.
Lemma rime_len lk o t v e m r b : Rime lk o t v e m r b -> length r <= length t <= 9 + length r.
Proof. intros H; destruct H; rest. Qed.
Lemma rimeE_len o t v e m r b : RimeE o t v e m r b -> length r <= length t <= 9 + length r.
Proof. intros H; destruct H; rest. Qed.
Lemma rimeL_len l t v e m r b : RimeL l t v e m r b -> length r <= length t <= 9 + length r.
Proof. intros H; destruct H; rest. Qed.
Lemma rimeRu_len t v e r b : RimeRu t v e r b -> length r <= length t <= 9 + length r.
Proof. intros H; destruct H; rest. Qed.
Lemma implied_len t p x r : Implied t p x r -> match p with None => 1 | Some _ => 2 end + length r <= length t <= 3 + length r.
Proof. intros H; destruct H; cbn; lia. Qed.
Lemma leads_len lk t o t1 p : InitialAt lk t o t1 -> Leads o p -> match p with None => 1 | Some _ => 2 end + length t1 <= length t <= 2 + length t1.
Proof.
  intros I L. apply initial_len in I. destruct I as (I1 & I2). destruct L as [E|c p E]; [lia|]. specialize (I2 ltac:(congruence)). lia.
Qed.
(** A reading takes one to twelve letters, two at least if there is a
    pre-syllable. *)
Lemma reads_len lk t p x r b : Reads lk t p x r b -> match p with None => 1 | Some _ => 2 end + length r <= length t <= 12 + length r.
Proof.
  intros [t' o t1 v e m r' b' p' x' I R L _|t' o t1 v e m r' b' p' x' I R L _|l t' o t1 v e m r' b' p' x' I R L _|t' p' x' r' I|c t' v e r' b' tn _ R _].
  - apply (leads_len _ _ _ _ _ I) in L. apply rime_len in R. lia.
  - apply (leads_len _ _ _ _ _ I) in L. apply rimeE_len in R. cbn [length]. lia.
  - apply (leads_len _ _ _ _ _ I) in L. apply rimeL_len in R. cbn [length]. lia.
  - apply implied_len in I. lia.
  - apply rimeRu_len in R. cbn [length]. lia.
Qed.
Lemma says_len w t s : Says w t s -> length t <= length w ->
  length s <= length t /\ length t <= 12 * length s /\ steps 1 12 (startOf w t) (ends s).
Proof.
  induction 1 as [|t x r s (lk & lk' & _ & R & _) Y IH|t p x p' x' r s (lk & lk' & _ & R & _) _ Y IH]; intros L.
  - cbn. lia.
  - apply reads_len in R. destruct IH as (A & B & C); [lia|]. cbn [length]. split; [lia|]. split; [lia|].
    unfold ends. cbn [map filter sylAt endPos SylOf]. unfold startOf in *.
    rewrite (proj2 (Z.leb_le 0 _)) by lia. cbn [steps]. split; [lia|exact C].
  - apply reads_len in R. destruct IH as (A & B & C); [lia|]. cbn [length]. split; [lia|]. split; [lia|].
    unfold ends. cbn [map filter sylAt endPos SylOf]. unfold within, startOf in *.
    rewrite (proj2 (Z.leb_gt 0 _)) by lia. rewrite (proj2 (Z.leb_le 0 _)) by lia. cbn [steps]. split; [lia|exact C].
Qed.

(** ** C88 *)
Lemma C88_lemma w dict brk l s : Forall (fun c => thaiLetter c = true) w -> 2 <= length w ->
  (forall x, In x brk -> x = 0 \/ x = length w) -> dictOKo dict -> unlisted dict w ->
  pronounced libthai_ct w dict brk l -> In s l ->
  length s <= length w /\ length w <= 12 * length s /\ steps 1 12 0 (ends s).
Proof.
  intros H1 H2 H3 H4 H5 P I. apply (C56_word_grammar w dict brk l H1 H2 H3 H4 H5 P) in I.
  destruct (says_len w w s I (le_n _)) as (A & B & C). unfold startOf in C. rewrite Nat.sub_diag in C. auto.
Qed.
(** A Thai word without listed words in it never has more syllables than
    letters, and every stretch of letters read at once (as one syllable, or two
    with the first letter apart) has one to twelve letters. *)
Theorem C88_syllable_count w dict brk l s : Forall (fun c => thaiLetter c = true) w -> 2 <= length w ->
  (forall x, In x brk -> x = 0 \/ x = length w) -> dictOKo dict -> unlisted dict w ->
  pronounced libthai_ct w dict brk l -> In s l ->
  length s <= length w /\ length w <= 12 * length s /\ steps 1 12 0 (ends s).
Proof. exact (C88_lemma w dict brk l s). Qed.
Print Assumptions C88_syllable_count.
(** Both bounds are reached: twelve letters for one syllable, a syllable for
    each of three letters. *)
Example C88_case : let w1 := letters "เกลี่ยก์นกร์" in let w2 := letters "งฤฤ" in
  Forall (fun c => thaiLetter c = true) w1 /\ Forall (fun c => thaiLetter c = true) w2 /\ dictOKo None /\ unlisted None w1 /\ unlisted None w2 /\
  length w1 = 12 /\ length w2 = 3 /\
  (exists l, pronounced libthai_ct w1 None [] l /\ In [SylOf KA SEC_LA V_IAA KON EK 12] l) /\
  (exists l s, pronounced libthai_ct w2 None [] l /\ In s l /\ length s = 3 /\ ends s = [2; 3]%Z).
Proof.
  cbv zeta. split; [letters_ok|]. split; [letters_ok|]. split; [intros d E; discriminate E|].
  split; [apply unlisted_none|]. split; [apply unlisted_none|]. split; [reflexivity|]. split; [reflexivity|]. split.
  - eexists. split; [apply listingOf_pronounced; vm_compute; reflexivity|]. left. reflexivity.
  - eexists _, _. split; [apply listingOf_pronounced; vm_compute; reflexivity|].
    split; [left; reflexivity|]. split; vm_compute; reflexivity.
Qed.

(** Prop_Grammar.v - properties C56 and C57: the parser reads a word exactly
    as the spelling grammar of Grammar.v says. *)
From Coq Require Import String List NArith ZArith Bool Arith Lia.
From Verif Require Import Spec Base ThUni ThCons Syl Dict DictProofs Utf Parser ParserSpec ParserFacts ParserListed
  Prop_Syl Prop_Parser Grammar GrammarRun GrammarIff GrammarWord.
Import ListNotations.
Local Open Scope nat_scope.

(** ** C56: words outside the dictionary *)
(** No word of the dictionary is read anywhere in [w]. *)
Definition unlisted (dict : option Dict) (w : list N) : Prop :=
  forall u k r strs, w = u ++ k ++ r -> endOrSyl r -> ~ entry dict k strs.
Lemma C56_lemma w dict brk l : Forall (fun c => thaiLetter c = true) w -> 2 <= length w ->
  (forall x, In x brk -> x = 0 \/ x = length w) -> dictOKo dict -> unlisted dict w ->
  pronounced libthai_ct w dict brk l -> forall s, In s l <-> Says w w s.
Proof.
  intros H1 H2 H3 H4 H5 P. apply (listed_says w dict brk H1 H2 H3 H4 l); [|exact P].
  intros t k r strs (u & E) (Et & Er & He). apply (H5 u k r strs); [congruence|exact Er|exact He].
Qed.
Theorem C56_word_grammar w dict brk l : Forall (fun c => thaiLetter c = true) w -> 2 <= length w ->
  (forall x, In x brk -> x = 0 \/ x = length w) -> dictOKo dict -> unlisted dict w ->
  pronounced libthai_ct w dict brk l -> forall s, In s l <-> Says w w s.
Proof. exact (C56_lemma w dict brk l). Qed.
Print Assumptions C56_word_grammar.

Lemma unlisted_none w : unlisted None w.
Proof. intros u k r strs _ _ (d & v & X & _). discriminate. Qed.
Lemma toned_ok k m d s t : k <> IC_INVALID -> m <> T_INVALID -> t = ToneFromWritten k m d s -> toned k m d s t.
Proof. intros. apply toned_iff; assumption. Qed.
Ltac tone := apply toned_ok; [discriminate|discriminate|vm_compute; reflexivity].
Ltac letters_ok := repeat (constructor; [vm_compute; reflexivity|]); constructor.

(** A led word of three letters: its two readings are listed, the first one is
    derived from the grammar by hand. *)
Definition sa := say SA SEC_NONE V_A EC_NONE EK.
Definition mon := say MA SEC_NONE V_AUU KON CHATTAWA.
Lemma samon_reads : Reads false (letters "สมร") (Some sa) mon [] false.
Proof.
  change (letters "สมร") with [UTH_SO_SUA; UTH_MO_MA; UTH_RO_RUA].
  eapply Rd_plain with (o := mkInitial (Some UTH_SO_SUA) MA HIGH SEC_NONE None) (m := SAMAN).
  - apply (I_lead false UTH_SO_SUA UTH_MO_MA); try (vm_compute; reflexivity). discriminate.
  - apply (R_on _ _ _ _ []); [reflexivity|discriminate].
  - eapply Le_some; [reflexivity|]. apply (Sa_a UTH_SO_SUA EK). tone.
  - apply (S_tone (mkInitial (Some UTH_SO_SUA) MA HIGH SEC_NONE None) V_AUU KON SAMAN CHATTAWA). tone.
Qed.
Lemma samon_says : Says (letters "สมร") (letters "สมร") [sylAt sa (-3); sylAt mon 3].
Proof.
  assert (U : Used (letters "สมร") (letters "สมร") (Some sa) mon []).
  { exists false, false. split; [constructor|]. split; [exact samon_reads|constructor]. }
  exact (Sy_two _ _ _ _ _ _ _ _ U U (Sy_end _)).
Qed.
Example C56_case : let w := letters "สมร" in
  Forall (fun c => thaiLetter c = true) w /\ 2 <= length w /\ (forall x, In x [3] -> x = 0 \/ x = length w) /\
  dictOKo (Some exDict) /\ unlisted (Some exDict) w /\
  exists l, pronounced libthai_ct w (Some exDict) [3] l /\ length l = 2 /\ In [sylAt sa (-3); sylAt mon 3] l.
Proof.
  assert (A1 : Forall (fun c => thaiLetter c = true) (letters "สมร")) by letters_ok.
  assert (A2 : 2 <= length (letters "สมร")) by (vm_compute; lia).
  assert (A3 : forall x, In x [3] -> x = 0 \/ x = length (letters "สมร")) by (intros x [<-|[]]; right; reflexivity).
  assert (A4 : unlisted (Some exDict) (letters "สมร")).
  { intros u k r strs E _ (d & v & Ed & Hv & _). injection Ed as <-. destruct Hv as (t & Et & t1 & t2 & Hv & _).
    cbn [mTrie exDict] in Et. injection Et as <-.
    assert (Hk : k = letters "กา").
    { destruct t1 as [|x [|y t1]]; [injection Hv as <- _; reflexivity|discriminate|discriminate]. }
    subst k.
    change (letters "กา") with [UTH_KO_KAI; UTH_SARA_AA] in E. change (letters "สมร") with [UTH_SO_SUA; UTH_MO_MA; UTH_RO_RUA] in E.
    assert (X : In UTH_SARA_AA [UTH_SO_SUA; UTH_MO_MA; UTH_RO_RUA]) by (rewrite E, !in_app_iff; right; left; right; left; reflexivity).
    destruct X as [X|[X|[X|[]]]]; discriminate. }
  cbv zeta. split; [exact A1|]. split; [exact A2|]. split; [exact A3|]. split; [exact exDict_ok|]. split; [exact A4|].
  eexists. split; [apply listing_pronounced; vm_compute; reflexivity|]. split; [reflexivity|].
  eapply (C56_word_grammar (letters "สมร") (Some exDict) [3]); eauto using exDict_ok.
  - apply listing_pronounced. vm_compute. reflexivity.
  - exact samon_says.
Qed.

(** ** C57: words with parts that the dictionary lists *)
Lemma C57_lemma w dict brk l : Forall (fun c => thaiLetter c = true) w -> 2 <= length w ->
  (forall x, In x brk -> x = 0 \/ x = length w) -> dictOKo dict -> pronounced libthai_ct w dict brk l ->
  forall s, In s l <-> Walks (entry dict) w 0 s (Z.of_nat (length w)).
Proof. intros H1 H2 H3 H4 P. exact (listed_walks w dict brk H1 H2 H3 H4 l P). Qed.
Theorem C57_word_walks w dict brk l : Forall (fun c => thaiLetter c = true) w -> 2 <= length w ->
  (forall x, In x brk -> x = 0 \/ x = length w) -> dictOKo dict -> pronounced libthai_ct w dict brk l ->
  forall s, In s l <-> Walks (entry dict) w 0 s (Z.of_nat (length w)).
Proof. exact (C57_lemma w dict brk l). Qed.
Print Assumptions C57_word_walks.
(** A word made of a syllable and a listed word. *)
Example C57_case : let w := letters "มากา" in
  Forall (fun c => thaiLetter c = true) w /\ 2 <= length w /\ (forall x, In x (@nil nat) -> x = 0 \/ x = length w) /\
  dictOKo (Some exDict) /\ wordAt (entry (Some exDict)) (letters "กา") (letters "กา") []
    (match matchGetData exDict (mkMatch 0 (letters "กา") []) with Ok x => match MakeSylStrings x with Ok l => l | _ => [] end | _ => [] end) /\
  exists l, pronounced libthai_ct w (Some exDict) [] l /\ 2 <= length l.
Proof.
  cbv zeta. split; [letters_ok|]. split; [vm_compute; lia|]. split; [intros x []|]. split; [exact exDict_ok|]. split.
  - split; [reflexivity|]. split; [exact I|]. exists exDict, 0%Z. split; [reflexivity|]. split; [|split; [discriminate|]].
    + eexists. split; [reflexivity|]. exists [], []. split; [reflexivity|]. intros v' [].
    + eexists. split; [reflexivity|]. vm_compute. reflexivity.
  - eexists. split; [apply listing_pronounced; vm_compute; reflexivity|]. cbn [length]. lia.
Qed.

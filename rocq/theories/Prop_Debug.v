(** Prop_Debug.v - property C90: the assertions of the parser. *)
From Coq Require Import List NArith ZArith Bool String Lia Arith Sorted.
From Verif Require Import Base ThUni ThCons Syl Utf Lattice Dag PronDag Dict Parser ParserDebug.
From Verif Require Import Spec OrderProofs DictProofs Prop_Syl ParserSpec ParserFacts ParserInv ParserResult ParserListed ParserDict.
From Verif Require Import Prop_Output Prop_Parser Grammar GrammarWord TextGrammar TextProof DebugText Prop_Every.
Import ListNotations.
Local Open Scope string_scope.
Local Open Scope list_scope.
Local Open Scope nat_scope.

(** ** C90: the parser built with assertions *)
Lemma C90_lemma w dict brk : dictOKo dict -> StronglySorted lt brk -> Forall (fun x => x <= List.length w) brk ->
  (bareVowel w dict brk /\ exists fuel0, forall fuel, fuel0 <= fuel ->
     ParseU16FD libthai_ct fuel w dict brk = Abort (parser_cxx 293)) \/
  (~ bareVowel w dict brk /\ (forall fuel, ParseU16FD libthai_ct fuel w dict brk = Ran (ParseU16F libthai_ct fuel w dict brk)) /\
     exists l, pronounced libthai_ct w dict brk l).
Proof.
  intros D S I. destruct (debug_cases w dict brk S I D (enough libthai_ct w dict brk)) as [X|(_ & B)].
  - right. assert (NB : ~ bareVowel w dict brk).
    { intros B. rewrite (debug_bare w dict brk S I D B _ (le_n _)) in X. discriminate. }
    split; [exact NB|]. split.
    + intros fuel. destruct (debug_cases w dict brk S I D fuel) as [Y|(_ & B)]; [exact Y|contradiction].
    + destruct (C71_lemma2 w dict brk D S I) as [((p & lk & c & C & Q & Ec & Ev & NL) & _)|(_ & L)]; [exfalso|exact L].
      apply NB. exists p, lk, c. split; [exact C|]. split; [|auto]. constructor; try lia; auto.
      * intros k Hk. assert (k = p) as -> by lia. exists c. split; [exact Ec|].
        unfold eagerVowel, oneOf in Ev. vm_compute in Ev. destruct Ev as [<-|[<-|[<-|[<-|[]]]]]; reflexivity.
  - left. split; [exact B|]. exists (enough libthai_ct w dict brk). apply debug_bare; auto.
Qed.
(** Whatever the text, the breaks and the dictionary: if a reading comes to one
    of the vowels "แโใไ" with its word ending right behind it, the parser with
    assertions ends at the assertion of parser/parser.cxx:293; otherwise no
    assertion fails, the outcome is that of the parser without assertions, and
    there is a pronunciation. *)
Theorem C90_assertions w dict brk : dictOKo dict -> StronglySorted lt brk -> Forall (fun x => x <= List.length w) brk ->
  (bareVowel w dict brk /\ exists fuel0, forall fuel, fuel0 <= fuel ->
     ParseU16FD libthai_ct fuel w dict brk = Abort (parser_cxx 293)) \/
  (~ bareVowel w dict brk /\ (forall fuel, ParseU16FD libthai_ct fuel w dict brk = Ran (ParseU16F libthai_ct fuel w dict brk)) /\
     exists l, pronounced libthai_ct w dict brk l).
Proof. exact (C90_lemma w dict brk). Qed.
Print Assumptions C90_assertions.

Lemma C90_lemma2 w dict brk : dictOKo dict -> StronglySorted lt brk -> Forall (fun x => x <= List.length w) brk ->
  (forall p c, nth_error w p = Some c -> eagerVowel c -> ~ In (p + 1) brk /\ thaiAt w (p + 1)) ->
  forall fuel, ParseU16FD libthai_ct fuel w dict brk = Ran (ParseU16F libthai_ct fuel w dict brk).
Proof.
  intros D S I H. destruct (C90_lemma w dict brk D S I) as [((p & lk & c & _ & W & Ec & Ev & _) & _)|(_ & X & _)]; [exfalso|exact X].
  destruct (H p c Ec Ev) as (A & d & Ed & Td). destruct W as [_ _ _ _ [E|[E|E]]]; [|contradiction|apply E; exists d; auto].
  assert (p + 1 < List.length w) by (apply nth_error_Some; congruence). lia.
Qed.
(** In particular if every such vowel has a Thai letter or a full stop behind it
    in its word. *)
Theorem C90_no_bare_vowel w dict brk : dictOKo dict -> StronglySorted lt brk -> Forall (fun x => x <= List.length w) brk ->
  (forall p c, nth_error w p = Some c -> eagerVowel c -> ~ In (p + 1) brk /\ thaiAt w (p + 1)) ->
  forall fuel, ParseU16FD libthai_ct fuel w dict brk = Ran (ParseU16F libthai_ct fuel w dict brk).
Proof. exact (C90_lemma2 w dict brk). Qed.
Print Assumptions C90_no_bare_vowel.

Lemma C90_lemma3 ct w dict brk fuel : ctype_ok ct ->
  ParseU16FD ct fuel w dict brk = Ran (ParseU16F ct fuel w dict brk) \/
  ParseU16FD ct fuel w dict brk = Abort (parser_cxx 293).
Proof. intros C. exact (parse_cases ct C w dict brk fuel). Qed.
(** No other assertion can fail, whatever characters libthai takes for
    consonants, vowels and tone marks (within the ranges of [ctype_ok]) and
    whatever the dictionary and the breaks are. *)
Theorem C90_one_place ct w dict brk fuel : ctype_ok ct ->
  ParseU16FD ct fuel w dict brk = Ran (ParseU16F ct fuel w dict brk) \/
  ParseU16FD ct fuel w dict brk = Abort (parser_cxx 293).
Proof. exact (C90_lemma3 ct w dict brk fuel). Qed.
Print Assumptions C90_one_place.

Lemma C90_lemma4 dict brks word : dictOKo dict ->
  (forall w, StronglySorted lt (brks w) /\ Forall (fun x => x <= List.length w) (brks w)) ->
  (exists w, from_bytes word = Ok w /\ bareVowel w dict (brks w) /\ exists fuel0, forall fuel, fuel0 <= fuel ->
     parseWordFD libthai_ct fuel dict brks word = Abort (parser_cxx 293)) \/
  ((forall w, from_bytes word = Ok w -> ~ bareVowel w dict (brks w)) /\
   forall fuel, parseWordFD libthai_ct fuel dict brks word = Ran (parseWordF libthai_ct fuel dict brks word)).
Proof.
  intros D B. unfold parseWordFD, parseWordF. destruct (from_bytes word) as [w| | |] eqn:E; cbn [dbind bind];
    try (right; split; [discriminate|reflexivity]).
  destruct (B w) as (S & I). destruct (C90_lemma w dict (brks w) D S I) as [(X & Y)|(X & Y & _)].
  - left. exists w. auto.
  - right. split; [|exact Y]. intros w' Q. injection Q as <-. exact X.
Qed.
(** The same of a word given in bytes. *)
Theorem C90_words dict brks word : dictOKo dict ->
  (forall w, StronglySorted lt (brks w) /\ Forall (fun x => x <= List.length w) (brks w)) ->
  (exists w, from_bytes word = Ok w /\ bareVowel w dict (brks w) /\ exists fuel0, forall fuel, fuel0 <= fuel ->
     parseWordFD libthai_ct fuel dict brks word = Abort (parser_cxx 293)) \/
  ((forall w, from_bytes word = Ok w -> ~ bareVowel w dict (brks w)) /\
   forall fuel, parseWordFD libthai_ct fuel dict brks word = Ran (parseWordF libthai_ct fuel dict brks word)).
Proof. exact (C90_lemma4 dict brks word). Qed.
Print Assumptions C90_words.

(** A bare vowel before a foreign character; before a word break, where the
    parser without assertions reads "ไก"; one that a listed word or another
    reading passes over; none. *)
Lemma bare_by w dict brk : dictOKo dict -> StronglySorted lt brk -> Forall (fun x => x <= List.length w) brk ->
  (ParseU16FD libthai_ct 500 w dict brk = Abort (parser_cxx 293) -> bareVowel w dict brk) /\
  (forall d, ParseU16FD libthai_ct 500 w dict brk = Ran (Ok d) -> ~ bareVowel w dict brk).
Proof.
  intros D S I. split.
  - intros Y. destruct (debug_cases w dict brk S I D 500) as [Z|(_ & B)]; [congruence|exact B].
  - intros d Y B. destruct (debug_bare_any w dict brk S I D B 500); congruence.
Qed.
Example C90_case :
  bareVowel (letters "กา แa") (Some exDict) [] /\ bareVowel (letters "กาไก") (Some exDict) [3] /\
  ~ bareVowel (letters "กาไก") (Some exDict) [2] /\ ~ bareVowel (letters "กาะไ") (Some exDict) [2] /\
  (exists d, ParseU16F libthai_ct 500 (letters "กาไก") (Some exDict) [3] = Ok d) /\
  (exists fuel0, forall fuel, fuel0 <= fuel -> ParseU16FD libthai_ct fuel (letters "กาไก") (Some exDict) [3] = Abort (parser_cxx 293)) /\
  (forall fuel, ParseU16FD libthai_ct fuel (letters "กาไก") (Some exDict) [2] = Ran (ParseU16F libthai_ct fuel (letters "กาไก") (Some exDict) [2])).
Proof.
  assert (S : forall b, StronglySorted lt [b]) by (intros; repeat constructor).
  assert (I : forall b m, b <= m -> Forall (fun x => x <= m) [b]) by (intros; constructor; [assumption|constructor]).
  assert (L2 : 2 <= List.length (letters "กาไก")) by (vm_compute; lia).
  assert (L2' : 3 <= List.length (letters "กาไก")) by (vm_compute; lia).
  assert (L3 : 2 <= List.length (letters "กาะไ")) by (vm_compute; lia).
  assert (B3 : bareVowel (letters "กาไก") (Some exDict) [3]).
  { apply (proj1 (bare_by _ _ _ exDict_ok (S 3) (I 3 _ L2'))). vm_compute. reflexivity. }
  assert (B2 : ~ bareVowel (letters "กาไก") (Some exDict) [2]).
  { eapply (proj2 (bare_by _ _ _ exDict_ok (S 2) (I 2 _ L2))). vm_compute. reflexivity. }
  split; [|split; [exact B3|split; [exact B2|split; [|split; [|split]]]]].
  - apply (proj1 (bare_by _ _ _ exDict_ok (SSorted_nil lt) (Forall_nil _))). vm_compute. reflexivity.
  - eapply (proj2 (bare_by _ _ _ exDict_ok (S 2) (I 2 _ L3))). vm_compute. reflexivity.
  - eexists. vm_compute. reflexivity.
  - destruct (C90_assertions _ _ _ exDict_ok (S 3) (I 3 _ L2')) as [(_ & X)|(X & _)]; [exact X|contradiction].
  - destruct (C90_assertions _ _ _ exDict_ok (S 2) (I 2 _ L2)) as [(X & _)|(_ & X & _)]; [contradiction|exact X].
Qed.
(** So the assertion is not a precondition the callers keep: the vowel alone is
    a text on which the parser with assertions does not return. *)
Lemma C90_refuted_lemma : ~ forall w dict brk, dictOKo dict -> StronglySorted lt brk -> Forall (fun x => x <= List.length w) brk ->
  exists fuel r, ParseU16FD libthai_ct fuel w dict brk = Ran r /\ r <> NoFuel.
Proof.
  assert (D0 : dictOKo None) by (intros d X; discriminate X).
  intros H. destruct (H (letters "แ") None [] D0 (SSorted_nil lt) (Forall_nil _)) as (fuel & r & E & N).
  assert (B : bareVowel (letters "แ") None []).
  { apply (proj1 (bare_by _ None [] D0 (SSorted_nil lt) (Forall_nil _))). vm_compute. reflexivity. }
  destruct (debug_bare_any _ None [] (SSorted_nil lt) (Forall_nil _) D0 B fuel); congruence.
Qed.
Theorem C90_no_assertion_fails_refuted : ~ forall w dict brk, dictOKo dict -> StronglySorted lt brk -> Forall (fun x => x <= List.length w) brk ->
  exists fuel r, ParseU16FD libthai_ct fuel w dict brk = Ran r /\ r <> NoFuel.
Proof. exact C90_refuted_lemma. Qed.
Print Assumptions C90_no_assertion_fails_refuted.

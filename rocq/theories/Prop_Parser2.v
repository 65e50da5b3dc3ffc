(** Prop_Parser2.v - property theorems C34, C35, C40, C41, C45: the
    exception dictionary in the parser, abbreviations, word breaks, silent
    letters. *)
From Coq Require Import String Ascii List NArith ZArith Bool Arith Lia Sorted.
From Verif Require Import Spec Base ThUni ThCons Syl OrderProofs Lattice LatticeProofs
  Dag DagProofs PronDag PathProofs GroupProofs ListDagProofs Dict DictProofs Utf UtfProofs Parser Wp
  ParserSpec ParserRules ParserActs ParserLoop ParserFacts ParserInv ParserResult
  ParserPool ParserDict ParserListed GenDict Data Prop_Syl Prop_Graph Prop_Parser.
Import ListNotations.
Local Open Scope nat_scope.
Notation listed := ParserFacts.listed.

(** ** C34: the exception dictionary takes precedence *)
(** One step of the parser from a position where some dictionary word
    applies gives exactly one continuation per applicable word, with the
    dictionary's pronunciations of it; where none applies the step is the one
    without a dictionary. *)
Lemma C34_lemma ct w d brk s : sPos s < sStop s -> sStop s <= length w ->
  (forall k0 l, applicable ct w d (sPos s) (sStop s) k0 -> stepStates ct w (Some d) brk s = Ok l ->
    (forall s', In s' l -> exists k strs, applicable ct w d (sPos s) (sStop s) k /\
       listed d k strs /\ takesWord s k strs s') /\
    (forall k, applicable ct w d (sPos s) (sStop s) k ->
       exists strs s', listed d k strs /\ In s' l /\ takesWord s k strs s')) /\
  ((forall k, ~ applicable ct w d (sPos s) (sStop s) k) ->
    stepStates ct w (Some d) brk s = stepStates ct w None brk s).
Proof.
  intros P S. split.
  - intros k0 l A E. exact (exc_exact ct w d brk s l k0 P S A E).
  - apply exc_none; assumption.
Qed.
Theorem C34_dictionary_step ct w d brk s : sPos s < sStop s -> sStop s <= length w ->
  (forall k0 l, applicable ct w d (sPos s) (sStop s) k0 -> stepStates ct w (Some d) brk s = Ok l ->
    (forall s', In s' l -> exists k strs, applicable ct w d (sPos s) (sStop s) k /\
       listed d k strs /\ takesWord s k strs s') /\
    (forall k, applicable ct w d (sPos s) (sStop s) k ->
       exists strs s', listed d k strs /\ In s' l /\ takesWord s k strs s')) /\
  ((forall k, ~ applicable ct w d (sPos s) (sStop s) k) ->
    stepStates ct w (Some d) brk s = stepStates ct w None brk s).
Proof. exact (C34_lemma ct w d brk s). Qed.
Print Assumptions C34_dictionary_step.

(** In the result: a syllable that starts where a dictionary word applies is
    a literal, or is from a dictionary pronunciation of a word that applies
    where it starts, or is a letter spelled out in an abbreviation begun
    earlier. *)
Definition fromDict ct w d brk (f t : Z) (v : Syl) : Prop :=
  exists p stop k strs s, wordEnd ct w brk p stop /\ applicable ct w d p stop k /\
    listed d k strs /\ In s strs /\
    exists t' v', In (f, t', v') (strEdges (Z.of_nat p) (shiftEndPos (Z.of_nat p) s)) /\
      spoken v' = spoken v /\
      (t = t' \/ exists q, t' = Z.of_nat q /\ t = Z.of_nat (q + 1) /\ nth_error w q = Some 46%N).
Definition spelledFrom ct w (q p : nat) (v : Syl) : Prop :=
  q < p /\ letterStart w q /\
  (forall i, q <= i <= p -> exists c, nth_error w i = Some c /\ th_wcisthcons ct c = true) /\
  exists c, nth_error w p = Some c /\ spoken v = spoken (letterName c 0).
Lemma AbbrG_all ct w e q es p t v : AbbrG ct w e q es -> In (Z.of_nat p, t, v) es -> literal v = [] ->
  q <= p /\ (forall i, q <= i <= p -> exists c, nth_error w i = Some c /\ th_wcisthcons ct c = true).
Proof.
  induction 1 as [|q c s1 k1 es L H1 H2 H3 H4 H5 IH|q c s1 k1 E H1 H2 H3 H4 H5|q E H1]; intros HI HL.
  - destruct HI.
  - destruct HI as [HI|HI].
    + injection HI as X _ _. split; [lia|]. intros i Hi. assert (i = q) by lia. subst i. exists c. auto.
    + destruct (IH HI HL) as (A & B). split; [lia|]. intros i Hi.
      destruct (Nat.eq_dec i q) as [->|]; [exists c; auto|]. apply B. lia.
  - destruct HI as [HI|[]]. injection HI as X _ _. split; [lia|]. intros i Hi.
    assert (i = q) by lia. subst i. exists c. auto.
  - destruct HI as [HI|[]]. injection HI as _ _ <-. discriminate.
Qed.
Lemma C34_lemma2 ct w d brk l p stop k t v : ctype_ok ct -> dictOK d ->
  pronounced ct w (Some d) brk l -> occurs l (Z.of_nat p) t v ->
  wordEnd ct w brk p stop -> applicable ct w d p stop k ->
  literal v <> [] \/ fromDict ct w d brk (Z.of_nat p) t v \/ exists q, spelledFrom ct w q p v.
Proof.
  intros C D P O W A. assert (D' : dictOKo (Some d)) by (intros d' H; injection H as <-; exact D).
  pose proof (occurs_orig ct w (Some d) brk D' l _ _ _ P O) as Or.
  destruct (literal v) as [|x lv] eqn:El; [right|left; discriminate].
  destruct (orig_dict ct w (Some d) brk p d k stop t v Or eq_refl W A) as [X|[X|X]]; [contradiction|left|right].
  - destruct X as (p' & stop' & d' & k' & strs & s & A1 & A2 & A3 & A4 & A5 & A6). injection A2 as <-.
    exists p', stop', k', strs, s. auto.
  - destruct X as (q & stop' & e & es & t' & v' & A1 & A2 & A3 & A4 & A5 & A6 & A7 & A8).
    assert (Lv : literal v' = []).
    { unfold spoken in A7. rewrite El in A7. destruct (literal v'); [reflexivity|discriminate]. }
    destruct (AbbrG_all ct w e q es p t' v' A5 A6 Lv) as (B1 & B2).
    exists q. split.
    + destruct (Nat.eq_dec q p) as [->|]; [|lia]. exfalso.
      assert (stop' = stop) by (eapply wEnd_fun; eauto). subst stop'. exact (A2 d k eq_refl A).
    + split; [exact A3|]. split; [exact B2|].
      destruct (AbbrG_in ct w e q es _ _ _ A5 A6)
        as [(p' & c & s1 & k1 & j & H1 & H2 & H3 & H4 & H5 & H6 & H7 & H8 & H9 & H10)|(p' & _ & _ & _ & _ & _ & H)].
      * assert (p' = p) by lia. subst p'. exists c. split; [exact H6|]. rewrite <- A7, H5.
        destruct (letterName_tables ct C c H7) as (k2 & T1 & T2 & T3).
        rewrite H8 in T1. injection T1 as T1. rewrite H9 in T2. injection T2 as T2. subst k2.
        unfold letterSyl, letterName. rewrite T1, T3. reflexivity.
      * subst v'. discriminate.
Qed.
Theorem C34_dictionary_first ct w d brk l p stop k t v : ctype_ok ct -> dictOK d ->
  pronounced ct w (Some d) brk l -> occurs l (Z.of_nat p) t v ->
  wordEnd ct w brk p stop -> applicable ct w d p stop k ->
  literal v <> [] \/ fromDict ct w d brk (Z.of_nat p) t v \/ exists q, spelledFrom ct w q p v.
Proof. exact (C34_lemma2 ct w d brk l p stop k t v). Qed.
Print Assumptions C34_dictionary_first.

Lemma exApplicable : applicable libthai_ct (letters "มากา") exDict 2 4 (letters "กา").
Proof.
  split; [exists 0%Z; exists [(letters "กา", 0%Z)]; split; [reflexivity|];
          exists [], []; split; [reflexivity|intros v' []]|].
  split; [vm_compute; discriminate|].
  split; [intros c H; vm_compute in H; destruct H as [<-|[<-|[]]]; lia|].
  split; [exists []; reflexivity|]. split; [vm_compute; lia|]. left. reflexivity.
Qed.
Lemma exWordEnd : wordEnd libthai_ct (letters "มากา") [] 2 4.
Proof.
  constructor.
  - lia.
  - vm_compute. lia.
  - intros k Hk. assert (k = 2 \/ k = 3) as [-> | ->] by lia; eexists; split; reflexivity.
  - intros x (l1 & l2 & H & _). destruct l1; discriminate.
  - left. reflexivity.
Qed.
Example C34_case : exists l, pronounced libthai_ct (letters "มากา") (Some exDict) [] l /\
  length l = 4 /\ occurs l 2 4 (sylAt l 0 1) /\ occurs l 2 4 (sylAt l 1 1) /\
  iCons1 (sylAt l 0 1) = NA /\ iCons1 (sylAt l 1 1) = KA /\
  wordEnd libthai_ct (letters "มากา") [] 2 4 /\
  applicable libthai_ct (letters "มากา") exDict 2 4 (letters "กา").
Proof.
  eexists. split; [apply listing_pronounced; vm_compute; reflexivity|]. split; [reflexivity|].
  split; [occ 0 1|]. split; [occ 1 1|]. split; [reflexivity|]. split; [reflexivity|].
  split; [exact exWordEnd|exact exApplicable].
Qed.

(** ** C35: dictionary prefix search is exact *)
Lemma allMatches_more d : forall fuel m more, length (mRest m) < fuel ->
  allMatches (fuel + more) d m = allMatches fuel d m.
Proof.
  induction fuel as [|fuel IH]; intros m more L; [lia|]. cbn [Nat.add allMatches].
  destruct (findNext d m) as [m'|] eqn:E; [|reflexivity]. f_equal. apply IH.
  unfold findNext in E. destruct (mTrie d) as [t|]; [|discriminate].
  destruct (findNextIn_spec t _ _ _ _ E) as (k & K1 & _ & K2 & _).
  apply (f_equal (@length N)) in K2. rewrite app_length in K2. destruct k; [congruence|]. cbn [length] in K2. lia.
Qed.
(** The matches at [pos], in the order found: each is a dictionary word
    written there, they get longer, none is missed; and reading its data gives
    the string stored in the bank at the word's offset. *)
Lemma C35_lemma d w pos : pos <= length w ->
  let l := allMatches (S (length w)) d (MatchNew w pos) in
  (forall x, In x l -> exists v, holds d (mPre x) v /\ mPre x <> [] /\ inAbc (mPre x) /\
     writtenAt w pos (mPre x) /\ mCurPos x = pos + length (mPre x) /\
     (v <> TRIE_DATA_ERROR -> matchGetData d x = dictGetData d v)) /\
  StronglySorted (fun a b => mCurPos a < mCurPos b) l /\
  (forall k v, k <> [] -> writtenAt w pos k -> inAbc k -> holds d k v ->
     exists x, In x l /\ mPre x = k) /\
  (forall more, allMatches (S (length w) + more) d (MatchNew w pos) = l).
Proof.
  intros Hp. destruct (allMatches_spec d w pos Hp) as (A & B & C).
  set (l := allMatches (S (length w)) d (MatchNew w pos)) in *. cbv zeta.
  split; [|split; [exact B|split; [exact C|]]].
  - intros x Hx. destruct (A x Hx) as (v & H1 & H2 & H3 & H4 & H5). exists v. do 5 (split; [assumption|]).
    intros Nv. unfold matchGetData. destruct (mTrie d) as [t|] eqn:Et.
    + apply (holds_find d t _ _ Et) in H1. unfold trieGetData. rewrite H1.
      destruct (Z.eqb_spec v TRIE_DATA_ERROR); [contradiction|reflexivity].
    + destruct H1 as (t & Et' & _). congruence.
  - intros more. apply allMatches_more.
    cbn [MatchNew mRest]. rewrite skipn_length. lia.
Qed.
Theorem C35_prefix_search d w pos : pos <= length w ->
  let l := allMatches (S (length w)) d (MatchNew w pos) in
  (forall x, In x l -> exists v, holds d (mPre x) v /\ mPre x <> [] /\ inAbc (mPre x) /\
     writtenAt w pos (mPre x) /\ mCurPos x = pos + length (mPre x) /\
     (v <> TRIE_DATA_ERROR -> matchGetData d x = dictGetData d v)) /\
  StronglySorted (fun a b => mCurPos a < mCurPos b) l /\
  (forall k v, k <> [] -> writtenAt w pos k -> inAbc k -> holds d k v ->
     exists x, In x l /\ mPre x = k) /\
  (forall more, allMatches (S (length w) + more) d (MatchNew w pos) = l).
Proof. exact (C35_lemma d w pos). Qed.
Print Assumptions C35_prefix_search.
Example C35_case :
  let d := mkDict (Some [(letters "ก", 4%Z); (letters "กาล", 0%Z); (letters "มา", 2%Z)])
                  (Some ("a" ++ nul ++ "b" ++ nul ++ "c" ++ nul)%string) in
  let l := allMatches 6 d (MatchNew (letters "มกาลา") 1) in
  map mPre l = [letters "ก"; letters "กาล"] /\ map (matchGetData d) l = [Ok "c"; Ok "a"]%string.
Proof. split; vm_compute; reflexivity. Qed.

(** ** C40: abbreviations are spelled out *)
Lemma C40_lemma ct w brk gs fuel : ctype_ok ct -> w = abbrText gs -> gs <> [] ->
  Forall (fun g => 1 <= length g <= 4 /\ Forall (fun c => th_wcisthcons ct c = true) g) gs ->
  Forall (fun x => x = 0 \/ x = length w) brk -> length gs + 1 <= fuel ->
  exists d, ParseU16F ct fuel w None brk = Ok d /\ DAGSylStrings d 0 = Ok [spellOut 0 gs].
Proof.
  intros C. apply abbr_parse; [exact C|].
  destruct (th_wcisthcons ct 46) eqn:E; [|reflexivity].
  destruct (cons_range _ C _ E) as (X & _). unfold UTH_KO_KAI in X. lia.
Qed.
(** [spellOut]: every letter by its sound with a long AU vowel, no second
    consonant, no final, rising tone for the high class letters and mid tone
    for the others; the last letter of a group spans the full stop. *)
Theorem C40_abbreviations ct w brk gs fuel : ctype_ok ct -> w = abbrText gs -> gs <> [] ->
  Forall (fun g => 1 <= length g <= 4 /\ Forall (fun c => th_wcisthcons ct c = true) g) gs ->
  Forall (fun x => x = 0 \/ x = length w) brk -> length gs + 1 <= fuel ->
  exists d, ParseU16F ct fuel w None brk = Ok d /\ DAGSylStrings d 0 = Ok [spellOut 0 gs].
Proof. exact (C40_lemma ct w brk gs fuel). Qed.
Print Assumptions C40_abbreviations.
Example C40_case : let gs := [letters "พ"; letters "สสวท"] in
  letters "พ.สสวท." = abbrText gs /\ gs <> [] /\
  Forall (fun g => 1 <= length g <= 4 /\ Forall (fun c => th_wcisthcons libthai_ct c = true) g) gs /\
  map tone (spellOut 0 gs) = [SAMAN; CHATTAWA; CHATTAWA; SAMAN; SAMAN] /\
  map iCons1 (spellOut 0 gs) = [PHA; SA; SA; WA; THA] /\
  map endPos (spellOut 0 gs) = [2; 3; 4; 5; 7]%Z.
Proof.
  split; [reflexivity|]. split; [discriminate|]. split; [|repeat split; vm_compute; reflexivity].
  repeat (constructor; [split; [vm_compute; lia|repeat constructor]|]). constructor.
Qed.

(** ** C41: syllables do not cross word breaks *)
Lemma C41_lemma ct w dict brk l f t v x : ctype_ok ct -> dictOKo dict -> StronglySorted lt brk ->
  (forall p c, nth_error w p = Some c -> th_wcisldvowel ct c = true -> ~ In (p + 1) brk) ->
  pronounced ct w dict brk l -> occurs l f t v -> literal v = [] -> In x brk ->
  (nodeRank f < 101 * Z.of_nat x)%Z -> (101 * Z.of_nat x < nodeRank t)%Z ->
  t = Z.of_nat (x + 1) /\ nth_error w x = Some 46%N.
Proof.
  intros C D S B P O. apply (orig_break ct w dict brk D f t v x S B).
  eapply occurs_orig; eauto.
Qed.
(** [nodeRank] orders the nodes: text position [p] has rank [101 * p], the
    node of a pre-syllable in the group [b..e) lies strictly between those of
    [b] and [b + 1].  So the hypotheses say that [x] is strictly inside. *)
Theorem C41_breaks ct w dict brk l f t v x : ctype_ok ct -> dictOKo dict -> StronglySorted lt brk ->
  (forall p c, nth_error w p = Some c -> th_wcisldvowel ct c = true -> ~ In (p + 1) brk) ->
  pronounced ct w dict brk l -> occurs l f t v -> literal v = [] -> In x brk ->
  (nodeRank f < 101 * Z.of_nat x)%Z -> (101 * Z.of_nat x < nodeRank t)%Z ->
  t = Z.of_nat (x + 1) /\ nth_error w x = Some 46%N.
Proof. exact (C41_lemma ct w dict brk l f t v x). Qed.
Print Assumptions C41_breaks.
(** Without the break the two words can share a syllable; with it they do not. *)
Example C41_case : exists l0 l, listing None [] "ตากลม" = Ok l0 /\
  pronounced libthai_ct (letters "ตากลม") None [2] l /\ StronglySorted lt [2] /\
  (exists s, In s l0 /\ map endPos s = [3; 5]%Z) /\ (forall s, In s l -> hd 0%Z (map endPos s) = 2%Z) /\
  (forall p c, nth_error (letters "ตากลม") p = Some c -> th_wcisldvowel libthai_ct c = true -> ~ In (p + 1) [2]).
Proof.
  eexists _, _. split; [vm_compute; reflexivity|]. split; [apply listing_pronounced; vm_compute; reflexivity|].
  split; [repeat constructor|]. split; [|split].
  - eexists. split; [do 3 right; left; reflexivity|reflexivity].
  - intros s H. repeat (destruct H as [<-|H]; [reflexivity|]). destruct H.
  - intros p c H L [X|[]]. assert (p = 1) by lia. subst p. vm_compute in H. injection H as <-. vm_compute in L. discriminate.
Qed.

(** ** C45: karan (silent letters) matching is exact *)
(** The patterns, as texts. *)
Definition karanSimple ct (g : list N) : Prop :=
  exists c, g = [c; 0x0e4c%N] /\ th_wcisthcons ct c = true.
Definition karanIU ct (g : list N) : Prop :=
  exists c v, g = [c; v; 0x0e4c%N] /\ th_wcisthcons ct c = true /\ (v = 0x0e34%N \/ v = 0x0e38%N).
Definition karanPair ct (g : list N) : Prop :=
  exists c c', g = [c; c'; 0x0e4c%N] /\ th_wcisthcons ct c = true /\ th_wcisthcons ct c' = true.
(** What a matcher does: it consumes [g] when [g] is a pattern written at
    [pos] and ending by [stop], nothing when there is none. *)
Definition matchesExactly (pat : list N -> Prop) (w : list N) (pos stop : nat) (r : Res nat) : Prop :=
  (forall g, pat g -> writtenAt w pos g -> pos + length g <= stop -> r = Ok (pos + length g)) /\
  ((forall g, pat g -> writtenAt w pos g -> stop < pos + length g) -> r = Ok pos).

Lemma at16_skipn w pos i : at16 w (pos + i) = match nth_error (skipn pos w) i with Some c => Ok c | None => Throw end.
Proof.
  unfold at16. revert w i. induction pos as [|pos IH]; intros w i; [reflexivity|].
  destruct w as [|a w]; [destruct i; reflexivity|]. cbn [skipn Nat.add nth_error]. apply IH.
Qed.
Lemma at16_0 w pos : at16 w pos = match nth_error (skipn pos w) 0 with Some c => Ok c | None => Throw end.
Proof. rewrite <- at16_skipn. f_equal. lia. Qed.
Lemma karan_not_cons ct : ctype_ok ct -> th_wcisthcons ct 0x0e4c%N = false.
Proof.
  intros C. destruct (th_wcisthcons ct 0x0e4c%N) eqn:E; [|reflexivity].
  destruct (cons_range _ C _ E) as (_ & X & _). vm_compute in X. congruence.
Qed.
Section Karan.
Variables (ct : CType) (w : list N) (pos stop : nat).
Hypothesis ctOK : ctype_ok ct.
Hypothesis inText : stop <= length w.
Lemma simple_exact : matchesExactly (karanSimple ct) w pos stop (MatchKaranSimple ct w pos stop).
Proof.
  unfold matchesExactly, MatchKaranSimple, writtenAt. rewrite at16_skipn, at16_0.
  assert (LS : length (skipn pos w) = length w - pos) by apply skipn_length.
  set (r := skipn pos w) in *. clearbody r. change UTH_THANTHAKHAT with 0x0e4c%N. split.
  - intros g (c & -> & Hc) (rest & ->) Lg. cbn [length] in Lg.
    destruct (Nat.ltb_spec (pos + 1) stop); [|lia].
    cbn [app nth_error bind]. rewrite N.eqb_refl, Hc. reflexivity.
  - intros No. destruct (Nat.ltb_spec (pos + 1) stop); [|reflexivity].
    destruct r as [|a [|b r]]; cbn [length] in LS; try lia. cbn [nth_error bind].
    destruct (N.eqb_spec 0x0e4c b) as [<-|]; [|reflexivity].
    destruct (th_wcisthcons ct a) eqn:Ha; [|reflexivity]. exfalso.
    specialize (No [a; 0x0e4c%N] ltac:(exists a; auto) ltac:(exists r; reflexivity)). cbn in No. lia.
Qed.
Lemma iu_exact : matchesExactly (karanIU ct) w pos stop (MatchKaranIU ct w pos stop).
Proof.
  unfold matchesExactly, MatchKaranIU, writtenAt. rewrite !at16_skipn, at16_0.
  assert (LS : length (skipn pos w) = length w - pos) by apply skipn_length.
  set (r := skipn pos w) in *. clearbody r. change UTH_THANTHAKHAT with 0x0e4c%N. split.
  - intros g (c & v & -> & Hc & Hv) (rest & ->) Lg. cbn [length] in Lg.
    destruct (Nat.ltb_spec (pos + 2) stop); [|lia].
    cbn [app nth_error bind]. rewrite N.eqb_refl, Hc. cbn [bind]. destruct Hv as [-> | ->]; reflexivity.
  - intros No. destruct (Nat.ltb_spec (pos + 2) stop); [|reflexivity].
    destruct r as [|a [|b [|c r]]]; cbn [length] in LS; try lia. cbn [nth_error bind].
    destruct (N.eqb_spec 0x0e4c c) as [<-|]; [|reflexivity].
    destruct (th_wcisthcons ct a) eqn:Ha; [|reflexivity]. cbn [bind].
    destruct (_ || _) eqn:E; [|reflexivity]. exfalso. apply orb_true_iff in E. rewrite !N.eqb_eq in E.
    specialize (No [a; b; 0x0e4c%N]). cbn [length] in No.
    enough (stop < pos + 3) by lia. apply No; [|exists r; reflexivity].
    exists a, b. split; [reflexivity|]. split; [exact Ha|]. destruct E as [E|E]; [left|right]; exact (eq_sym E).
Qed.
Lemma complex_exact :
  matchesExactly (fun g => karanSimple ct g \/ karanIU ct g \/ karanPair ct g) w pos stop
                 (MatchKaranComplex ct w pos stop).
Proof.
  pose proof (karan_not_cons ct ctOK) as NK. destruct simple_exact as (S1 & S2).
  unfold matchesExactly, MatchKaranComplex.
  assert (D : (exists c, th_wcisthcons ct c = true /\ writtenAt w pos [c; 0x0e4c%N] /\ pos + 2 <= stop) \/
              forall g, karanSimple ct g -> writtenAt w pos g -> stop < pos + length g).
  { destruct (nth_error w pos) as [a|] eqn:Ea.
    - destruct (th_wcisthcons ct a) eqn:Ha.
      + destruct (nth_error w (pos + 1)) as [b|] eqn:Eb.
        * destruct (N.eq_dec b 0x0e4c) as [->|Nb].
          -- destruct (le_lt_dec (pos + 2) stop) as [L|L].
             ++ left. exists a. split; [exact Ha|]. split; [|exact L].
                pose proof (at16_0 w pos) as X. pose proof (at16_skipn w pos 1) as Y. unfold at16 in X, Y.
                rewrite Ea in X. rewrite Eb in Y.
                destruct (skipn pos w) as [|x [|y r]] eqn:Er; try discriminate. injection X as <-. injection Y as <-.
                exists r. exact Er.
             ++ right. intros g (c & -> & _) _. exact L.
          -- right. intros g (c & -> & _) (r & Er). pose proof (at16_skipn w pos 1) as Y. unfold at16 in Y.
             rewrite Er, Eb in Y. cbn in Y. congruence.
        * right. intros g (c & -> & _) (r & Er). pose proof (at16_skipn w pos 1) as Y. unfold at16 in Y.
          rewrite Er, Eb in Y. cbn in Y. congruence.
      + right. intros g (c & -> & Hc) (r & Er). pose proof (at16_0 w pos) as Y. unfold at16 in Y.
        rewrite Er, Ea in Y. cbn in Y. congruence.
    - right. intros g (c & -> & Hc) (r & Er). pose proof (at16_0 w pos) as Y. unfold at16 in Y.
      rewrite Er, Ea in Y. cbn in Y. congruence. }
  destruct D as [(c & Hc & Wc & Lc)|No].
  - rewrite (S1 [c; 0x0e4c%N] ltac:(exists c; auto) Wc Lc). cbn [bind length].
    destruct (Nat.eqb_spec (pos + 2) pos); [lia|]. cbn [negb]. split.
    + intros g Pg (r & Er) Lg. destruct Wc as (r' & Er'). rewrite Er' in Er.
      destruct Pg as [(c' & -> & _)|[(c' & v & -> & _ & Hv)|(c' & c2 & -> & _ & Hv)]].
      * reflexivity.
      * exfalso. injection Er as <- Ev _. destruct Hv; congruence.
      * exfalso. injection Er as <- Ev _. congruence.
    + intros N0. exfalso. specialize (N0 [c; 0x0e4c%N] ltac:(left; exists c; auto) Wc). cbn in N0. lia.
  - rewrite (S2 No). cbn [bind]. rewrite Nat.eqb_refl. cbn [negb].
    unfold writtenAt in *. rewrite !at16_skipn, at16_0.
    assert (LS : length (skipn pos w) = length w - pos) by apply skipn_length.
    clear S1 S2. set (r := skipn pos w) in *. clearbody r. change UTH_THANTHAKHAT with 0x0e4c%N. split.
    + intros g [Hs|Pg] (rest & ->) Lg.
      { exfalso. specialize (No g Hs ltac:(exists rest; reflexivity)). lia. }
      assert (exists c v, g = [c; v; 0x0e4c%N] /\ th_wcisthcons ct c = true /\
                th_wcisthcons ct v || (UTH_SARA_I =? v)%N || (UTH_SARA_U =? v)%N = true) as (c & v & -> & Hc & Hv).
      { destruct Pg as [(c & v & -> & Hc & Hv)|(c & v & -> & Hc & Hv)]; exists c, v; split; auto; split; auto.
        - destruct Hv as [-> | ->]; apply orb_true_iff; [left; apply orb_true_iff|]; right; reflexivity.
        - rewrite Hv. reflexivity. }
      cbn [length] in Lg. destruct (Nat.ltb_spec (pos + 2) stop); [|lia].
      cbn [app nth_error bind]. rewrite N.eqb_refl, Hc. cbn [bind]. rewrite Hv. reflexivity.
    + intros N0. destruct (Nat.ltb_spec (pos + 2) stop); [|reflexivity].
      destruct r as [|a [|b [|c r]]]; cbn [length] in LS; try lia. cbn [nth_error bind].
      destruct (N.eqb_spec 0x0e4c c) as [<-|]; [|reflexivity].
      destruct (th_wcisthcons ct a) eqn:Ha; [|reflexivity]. cbn [bind].
      destruct (_ || _) eqn:E; [|reflexivity]. exfalso. rewrite !orb_true_iff, !N.eqb_eq in E.
      specialize (N0 [a; b; 0x0e4c%N]). cbn [length] in N0.
      enough (stop < pos + 3) by lia. apply N0; [|exists r; reflexivity].
      destruct E as [[E|E]|E].
      * right; right. exists a, b. auto.
      * right; left. exists a, b. split; [reflexivity|]. split; [exact Ha|]. left. exact (eq_sym E).
      * right; left. exists a, b. split; [reflexivity|]. split; [exact Ha|]. right. exact (eq_sym E).
Qed.
End Karan.
Theorem C45_karan ct w pos stop : ctype_ok ct -> stop <= length w ->
  matchesExactly (karanSimple ct) w pos stop (MatchKaranSimple ct w pos stop) /\
  matchesExactly (karanIU ct) w pos stop (MatchKaranIU ct w pos stop) /\
  matchesExactly (fun g => karanSimple ct g \/ karanIU ct g \/ karanPair ct g) w pos stop
                 (MatchKaranComplex ct w pos stop).
Proof.
  intros C L. split; [apply simple_exact; assumption|]. split; [apply iu_exact; assumption|].
  apply complex_exact; assumption.
Qed.
Print Assumptions C45_karan.
Example C45_case : let w := letters "จันทร์" in
  MatchKaranComplex libthai_ct w 3 6 = Ok 6 /\ MatchKaranSimple libthai_ct w 3 6 = Ok 3 /\
  MatchKaranSimple libthai_ct w 4 6 = Ok 6 /\ MatchKaranComplex libthai_ct w 3 5 = Ok 3 /\
  MatchKaranIU libthai_ct (letters "สิทธิ์") 3 6 = Ok 6 /\
  karanPair libthai_ct (letters "ทร์") /\ writtenAt w 3 (letters "ทร์").
Proof.
  repeat split.
  - eexists _, _. repeat split.
  - exists []. reflexivity.
Qed.

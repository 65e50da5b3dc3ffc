(** Prop_Sweep2.v - property theorem C50: the textbook reading of a closed
    syllable is always among the listed ones.  Complete sweep over consonants,
    tone marks, vowel spellings and finals. *)
From Coq Require Import String Ascii List NArith ZArith Bool Arith Lia Sorted.
From Verif Require Import Spec Base ThUni ThCons Syl OrderProofs PronDag Utf Parser
  ParserSpec ParserFacts ParserListed Prop_Syl Prop_Parser Prop_Sweep.
Import ListNotations.
Local Open Scope nat_scope.

(** ** C50: closed syllables *)
(** A vowel spelling before a final consonant: as [Form], with the tone marks
    it can carry and the finals it is not used with. *)
Record Closed := mkClosed { cBefore : list N; cOn : list N; cAfter : list N;
  cVowel : EVowel; cShort : bool; cMarked : bool; cNot : list N }.
Definition closed (b o a : string) v (short marked : bool) (no : string) :=
  mkClosed (letters b) (letters o) (letters a) v short marked (letters no).
Definition closedForms : list Closed :=
 [closed "" "ั" "" V_A true true "ว";       closed "" "" "า" V_AA false true "";
  closed "" "ิ" "" V_I true true "ย";       closed "" "ี" "" V_II false true "ย";
  closed "" "ึ" "" V_UE true true "";       closed "" "ื" "" V_UEE false true "";
  closed "" "ุ" "" V_U true true "";        closed "" "ู" "" V_UU false true "";
  closed "เ" "็" "" V_E true false "";      closed "เ" "" "" V_EE false true "ย";
  closed "แ" "็" "" V_AE true false "";     closed "แ" "" "" V_AEE false true "";
  closed "" "" "" V_O true true "ยรว";      closed "โ" "" "" V_OO false true "";
  closed "" "็" "อ" V_AU true false "";     closed "" "" "อ" V_AUU false true "";
  closed "เ" "ิ" "" V_OEE false true "";    closed "เ" "ี" "ย" V_IAA false true "";
  closed "เ" "ื" "อ" V_UEAA false true "";  closed "" "" "ว" V_UAA false true ""].
Definition closedText (f : Closed) (i : Initial) (mark : list N) (e : N) : list N :=
  cBefore f ++ inLetters i ++ cOn f ++ mark ++ cAfter f ++ [e].
(** Stopped finals make a dead syllable. *)
Definition stopFinal (e : EEndConsClass) : bool := match e with KOK | KOT | KOP => true | _ => false end.
Definition closedSyl (f : Closed) (i : Initial) (mark : list N) (m : ETone) (e : N) (ec : EEndConsClass) : Syl :=
  SylOf (inSound i) (inSecond i) (cVowel f) ec
        (ToneFromWritten (inClass i) m (stopFinal ec) (cShort f))
        (Z.of_nat (length (closedText f i mark e))).
Definition hasReading (w : list N) (v : Syl) : bool :=
  match listingOf w with
  | Ok l => existsb (fun s => match s with [x] => sylSame x v | _ => false end) l
  | _ => false
  end.
Lemma hasReading_sound w v : literal v = [] -> hasReading w v = true ->
  exists l, pronounced libthai_ct w None [] l /\ In [v] l.
Proof.
  unfold hasReading. intros Lv H. destruct (listingOf w) as [l| | |] eqn:E; try discriminate.
  exists l. split; [apply listingOf_pronounced; exact E|].
  apply existsb_exists in H. destruct H as (s & Hs & H). destruct s as [|x [|]]; try discriminate.
  apply sylSame_eq in H; [|exact Lv]. subst x. exact Hs.
Qed.
Definition finals : list N := filter (fun c => negb (ec_eqb (letterEnd c) EC_NONE)) allCons.
(** One plain letter for each final sound. *)
Definition plainFinals : list N := letters "กดบงนมยว".
(** Finals with their sounds. *)
Definition sounded (es : list N) : list (N * EEndConsClass) := map (fun e => (e, letterEnd e)) es.
Definition marksOf (f : Closed) : list (list N * ETone) := if cMarked f then toneMarks else firstn 1 toneMarks.
Definition closedCheck (ees : list (N * EEndConsClass)) (f : Closed) (i : Initial) (marks : list (list N * ETone)) : bool :=
  forallb (fun mt => forallb (fun ee => memN (fst ee) (cNot f) ||
    hasReading (closedText f i (fst mt) (fst ee)) (closedSyl f i (fst mt) (snd mt) (fst ee) (snd ee))) ees) marks.
Lemma closedCheck_in es f i marks mt e : closedCheck (sounded es) f i marks = true ->
  In mt marks -> In e es -> ~ In e (cNot f) ->
  hasReading (closedText f i (fst mt) e) (closedSyl f i (fst mt) (snd mt) e (letterEnd e)) = true.
Proof.
  unfold closedCheck. intros H Hm He Ne. rewrite forallb_forall in H. specialize (H mt Hm).
  rewrite forallb_forall in H. specialize (H (e, letterEnd e) (in_map (fun e => (e, letterEnd e)) es e He)).
  cbn [fst snd] in H. apply orb_true_iff in H. destruct H as [H|H]; [|exact H].
  apply memN_In in H. contradiction.
Qed.
Definition closedSweep (ees : list (N * EEndConsClass)) (fs : list Closed) (is : list Initial)
    (marks : Closed -> list (list N * ETone)) : bool :=
  forallb (fun f => forallb (fun i => closedCheck ees f i (marks f)) is) fs.
Lemma closedSweep_in es fs is marks f i mt e : closedSweep (sounded es) fs is marks = true ->
  In f fs -> In i is -> In mt (marks f) -> In e es -> ~ In e (cNot f) ->
  hasReading (closedText f i (fst mt) e) (closedSyl f i (fst mt) (snd mt) e (letterEnd e)) = true.
Proof.
  unfold closedSweep. intros H Hf Hc Hm He Ne. rewrite forallb_forall in H. specialize (H f Hf).
  rewrite forallb_forall in H. specialize (H i Hc). apply (closedCheck_in es f i (marks f) mt e); assumption.
Qed.
Definition noMark (f : Closed) : list (list N * ETone) := [([], SAMAN)].
Fixpoint listN_eqb (a b : list N) : bool :=
  match a, b with [], [] => true | x :: a', y :: b' => N.eqb x y && listN_eqb a' b' | _, _ => false end.
Lemma listN_eqb_eq a b : listN_eqb a b = true <-> a = b.
Proof.
  revert b. induction a as [|x a IH]; intros [|y b]; cbn; try (split; [discriminate|discriminate] || tauto).
  rewrite andb_true_iff, N.eqb_eq, IH. split; [intros (-> & ->); reflexivity|intros E; injection E; auto].
Qed.
(** Unmarked, five of the spellings can also be read as two syllables: "เกน"
    as "เก" and "น" with its own vowel, or the other letters likewise. *)
Definition clearb (f : Closed) (mark : list N) (e : N) : bool :=
  match mark with _ :: _ => true | [] =>
    negb (existsb (fun x => listN_eqb (cBefore f ++ cOn f ++ cAfter f) (letters x)) ["เ"; "แ"; "โ"; "อ"; "ว"]%string) ||
    (match cAfter f with [] => false | _ => memN e (letters "ยว") end)
  end.
Definition countCheck (f : Closed) (i : Initial) (marks : list (list N * ETone)) (ees : list (N * EEndConsClass)) : bool :=
  forallb (fun mt => forallb (fun ee => memN (fst ee) (cNot f) ||
    match listingOf (closedText f i (fst mt) (fst ee)) with
    | Ok l => existsb (fun s => match s with [x] => sylSame x (closedSyl f i (fst mt) (snd mt) (fst ee) (snd ee)) | _ => false end) l &&
              eqb (length l =? 1) (clearb f (fst mt) (fst ee))
    | _ => false
    end) ees) marks.
Lemma countCheck_in es f i marks mt e : countCheck f i marks (sounded es) = true ->
  In mt marks -> In e es -> ~ In e (cNot f) ->
  exists l, listingOf (closedText f i (fst mt) e) = Ok l /\ In [closedSyl f i (fst mt) (snd mt) e (letterEnd e)] l /\
    (length l = 1 <-> clearb f (fst mt) e = true).
Proof.
  unfold countCheck. intros H Hm He Ne. rewrite forallb_forall in H. specialize (H mt Hm).
  rewrite forallb_forall in H. specialize (H (e, letterEnd e) (in_map (fun e => (e, letterEnd e)) es e He)).
  cbn [fst snd] in H. apply orb_true_iff in H. destruct H as [H|H]; [apply memN_In in H; contradiction|].
  destruct (listingOf _) as [l| | |]; try discriminate H. apply andb_true_iff in H. destruct H as (H & C). exists l. split; [reflexivity|].
  split.
  - apply existsb_exists in H. destruct H as (s & Hs & H). destruct s as [|x [|]]; try discriminate.
    apply sylSame_eq in H; [|reflexivity]. subst x. exact Hs.
  - apply eqb_prop in C. rewrite <- C. symmetry. apply Nat.eqb_eq.
Qed.
Definition countSweep (ees : list (N * EEndConsClass)) (marks : Closed -> list (list N * ETone)) : bool :=
  forallb (fun f => forallb (fun i => countCheck f i (marks f) ees) singles) closedForms.
Lemma countSweep_in es marks f i mt e : countSweep (sounded es) marks = true ->
  In f closedForms -> In i singles -> In mt (marks f) -> In e es -> ~ In e (cNot f) ->
  exists l, listingOf (closedText f i (fst mt) e) = Ok l /\ In [closedSyl f i (fst mt) (snd mt) e (letterEnd e)] l /\
    (length l = 1 <-> clearb f (fst mt) e = true).
Proof.
  unfold countSweep. intros H Hf Hc Hm He Ne. rewrite forallb_forall in H. specialize (H f Hf).
  rewrite forallb_forall in H. specialize (H i Hc). apply (countCheck_in es f i (marks f) mt e); assumption.
Qed.
Lemma closedSweep_ok : countSweep (sounded finals) noMark = true.
Proof. vm_cast_no_check (eq_refl true). Qed.
Lemma markedSweep_ok : countSweep (sounded plainFinals) marksOf = true.
Proof. vm_cast_no_check (eq_refl true). Qed.

(** The expected closed syllable. *)
Definition expectedClosed (f : Closed) (c : N) (mark : list N) (m : ETone) (e : N) (v : Syl) : Prop :=
  exists s k t ec, Prop_Syl.listed soundGroups s c /\ Prop_Syl.listed classGroups k c /\
    Prop_Syl.listed endGroups ec e /\ tonedAs k m (stopFinal ec) (cShort f) t /\
    v = SylOf s SEC_NONE (cVowel f) ec t (Z.of_nat (length (closedText f (single c) mark e))).
Lemma finals_in e : thaiConsonant e -> ~ Prop_Syl.listed endGroups EC_NONE e -> In e finals.
Proof.
  intros H N. apply filter_In. split; [apply allCons_in; exact H|].
  destruct (letter_listed e H) as (_ & _ & X & _).
  destruct (ec_eqb (letterEnd e) EC_NONE) eqn:E; [|reflexivity]. apply ec_eqb_eq in E. rewrite E in X. contradiction.
Qed.
Lemma marksOf_in f mt : In mt (marksOf f) -> In mt toneMarks.
Proof. unfold marksOf. destruct (cMarked f); [auto|]. intros [<-|[]]. left. reflexivity. Qed.
(** The spellings that are read in one way only. *)
Definition clear (f : Closed) (mark : list N) (e : N) : Prop :=
  mark <> [] \/ ~ In (cBefore f ++ cOn f ++ cAfter f) (map letters ["เ"; "แ"; "โ"; "อ"; "ว"]%string) \/
  cAfter f <> [] /\ In e (letters "ยว").
Lemma clearb_ok f mark e : clearb f mark e = true <-> clear f mark e.
Proof.
  unfold clearb, clear. destruct mark as [|c mark]; [|split; [left; discriminate|reflexivity]].
  rewrite orb_true_iff, negb_true_iff.
  assert (X : existsb (fun x => listN_eqb (cBefore f ++ cOn f ++ cAfter f) (letters x)) ["เ"; "แ"; "โ"; "อ"; "ว"]%string = false <->
    ~ In (cBefore f ++ cOn f ++ cAfter f) (map letters ["เ"; "แ"; "โ"; "อ"; "ว"]%string)).
  { rewrite <- not_true_iff_false, existsb_exists, in_map_iff. split; intros H (x & A & B); apply H; exists x.
    - split; [exact B|]. apply listN_eqb_eq. symmetry. exact A.
    - split; [|exact A]. apply listN_eqb_eq in B. symmetry. exact B. }
  rewrite X. destruct (cAfter f) as [|a r].
  - split; [intros [H|H]; [tauto|discriminate H]|intros [H|[H|(H & _)]]; [congruence|left; exact H|congruence]].
  - rewrite memN_In. split; [intros [H|H]; [tauto|right; right; split; [discriminate|exact H]]|
      intros [H|[H|(_ & H)]]; [congruence|left; exact H|right; exact H]].
Qed.
Lemma C50_lemma f c mark m e : In f closedForms -> thaiConsonant c -> thaiConsonant e ->
  In (mark, m) (marksOf f) -> ~ Prop_Syl.listed endGroups EC_NONE e -> ~ In e (cNot f) ->
  mark = [] \/ In e plainFinals ->
  exists v l, expectedClosed f c mark m e v /\
    pronounced libthai_ct (closedText f (single c) mark e) None [] l /\ In [v] l /\ (l = [[v]] <-> clear f mark e).
Proof.
  intros Hf Hc He Hm Ne Nf Hp.
  assert (X : exists l, listingOf (closedText f (single c) mark e) = Ok l /\ In [closedSyl f (single c) mark m e (letterEnd e)] l /\
    (length l = 1 <-> clearb f mark e = true)).
  { destruct Hp as [Hp|Hp].
    - assert (Hm' : In (mark, m) (noMark f)).
      { left. apply marksOf_in in Hm. subst mark. repeat (destruct Hm as [Hm|Hm]; [congruence|]). destruct Hm. }
      exact (countSweep_in finals noMark f (single c) (mark, m) e closedSweep_ok Hf (singles_in c Hc) Hm' (finals_in e He Ne) Nf).
    - exact (countSweep_in plainFinals marksOf f (single c) (mark, m) e markedSweep_ok Hf (singles_in c Hc) Hm Hp Nf). }
  destruct X as (l & P & I & C).
  exists (closedSyl f (single c) mark m e (letterEnd e)), l. split; [|split; [apply listingOf_pronounced; exact P|split; [exact I|]]].
  - destruct (letter_listed c Hc) as (A & B & _ & D). destruct (letter_listed e He) as (_ & _ & E & _).
    eexists _, _, _, _. split; [exact A|]. split; [exact B|]. split; [exact E|]. split; [|reflexivity].
    apply tonedAs_ok; [exact D|]. apply (mark_valid (mark, m)). apply (marksOf_in f). exact Hm.
  - rewrite <- clearb_ok, <- C. split; [intros ->; reflexivity|]. intros L. destruct l as [|x [|y l]]; [discriminate L| |discriminate L].
    destruct I as [->|[]]. reflexivity.
Qed.
(** For every consonant, vowel spelling and final letter that has a final
    sound (the exceptions per spelling are listed in [closedForms]), the parse
    lists the textbook syllable; with every tone mark for the plain finals.
    There is no other reading exactly if the spelling is clear. *)
Theorem C50_closed_syllables f c mark m e : In f closedForms -> thaiConsonant c -> thaiConsonant e ->
  In (mark, m) (marksOf f) -> ~ Prop_Syl.listed endGroups EC_NONE e -> ~ In e (cNot f) ->
  mark = [] \/ In e plainFinals ->
  exists v l, expectedClosed f c mark m e v /\
    pronounced libthai_ct (closedText f (single c) mark e) None [] l /\ In [v] l /\ (l = [[v]] <-> clear f mark e).
Proof. exact (C50_lemma f c mark m e). Qed.
Print Assumptions C50_closed_syllables.
Example C50_case : exists f, In f closedForms /\ In ([0x0e49%N], THO) (marksOf f) /\ ~ In 0x0e19%N (cNot f) /\
  closedText f (single 0x0e1a) [0x0e49%N] 0x0e19 = letters "บ้าน" /\
  expectedClosed f 0x0e1a [0x0e49%N] THO 0x0e19 (SylOf BA SEC_NONE V_AA KON THO 4).
Proof.
  exists (closed "" "" "า" V_AA false true ""). split; [right; left; reflexivity|].
  split; [right; right; left; reflexivity|]. split; [intros []|]. split; [reflexivity|].
  assert (C : thaiConsonant 0x0e1a) by (repeat split; lia || discriminate).
  assert (E : thaiConsonant 0x0e19) by (repeat split; lia || discriminate).
  destruct (letter_listed _ C) as (A1 & A2 & _). destruct (letter_listed _ E) as (_ & _ & A3 & _).
  exists BA, MID, THO, KON. split; [exact A1|]. split; [exact A2|]. split; [exact A3|].
  split; [left; apply TB_mid_tho|reflexivity].
Qed.

(** Prop_Clear.v - property C89: texts of clearly spelled syllables have one
    pronunciation, and the program prints just that. *)
From Coq Require Import List NArith ZArith Bool String Ascii Lia Arith Sorted.
From Verif Require Import Base ThUni ThCons Syl Utf Lattice Dag PronDag SylOut ThaiOut Output Dict GenDict Parser Cli.
From Verif Require Import Spec OrderProofs DictProofs Prop_Syl ParserSpec ParserFacts ParserInv ParserResult ParserListed ParserDict UtfProofs.
From Verif Require Import Prop_Parser Prop_Notation Prop_Graph Prop_Output Prop_Cli Prop_Cli2 Prop_Roman Prop_Codes Prop_Listing
  Prop_Product Prop_Sweep Prop_Sweep2 Prop_Sweep3 Grammar GrammarWord Prop_Grammar Prop_Text Prop_Breaks Prop_Program Prop_ProgramJson TextGrammar Prop_Every Prop_Regular Prop_ProgramEvery Prop_RegularOut.
Import ListNotations.
Local Open Scope string_scope.
Local Open Scope list_scope.

(** One consonant with a vowel, a tone mark or none, and a final or none, in a
    spelling that leaves no choice (C46, C50), and its textbook reading. *)
Inductive Clear : list N -> Syl -> Prop :=
| Cl_open f c mark m v : In f openForms -> thaiConsonant c -> In (mark, m) Prop_Sweep.toneMarks ->
    expected f c mark m v -> Clear (Prop_Sweep.spelled f c mark) v
| Cl_closed f c mark m e v : In f closedForms -> thaiConsonant c -> thaiConsonant e -> In (mark, m) (marksOf f) ->
    ~ Prop_Syl.listed endGroups EC_NONE e -> ~ In e (cNot f) -> mark = [] \/ In e plainFinals -> clear f mark e ->
    expectedClosed f c mark m e v -> Clear (closedText f (single c) mark e) v.
(** No entry of the dictionary is written inside the word. *)
Definition clearWord (dict : option Dict) (w : list N) (v : Syl) : Prop := Clear w v /\ agreeOn w dict None.
(** [word] is written in such words, the breaks inside it are their ends, and
    [s] is the reading word by word. *)
Inductive clearly (dict : option Dict) (b : list N -> list nat) (word : string) : SylString -> Prop :=
| Clearly ws vs : ws <> [] -> Forall2 (clearWord dict) ws vs ->
    let w := List.concat ws in
    from_bytes word = Ok w -> sameBreaks libthai_ct w (b w) (wordEnds 0 ws) -> modest b word ->
    clearly dict b word (inTurn 0 ws (map (fun v => [v]) vs)).
(** One line; a JSON list with one element; groups with nothing to choose. *)
Definition oneLine (s : SylString) (c : ascii) (o : string) : Prop := exists t, Line s c t /\ o = (t ++ nl)%string.
Definition oneInList (s : SylString) (c : ascii) (o : string) : Prop := exists j, decode o = Some (JArr [j]) /\ WordValue c s j.
Definition oneInGroups (s : SylString) (c : ascii) (o : string) : Prop :=
  inGroups s c o /\ exists chains j, decode o = Some j /\ GroupValue c chains j /\ forall g s', In g chains -> Choice g s' -> alike s' s.

(** ** Lemmas *)
Lemma tonedAs_fun k m d sh t : k <> IC_INVALID -> m <> T_INVALID -> tonedAs k m d sh t -> t = ToneFromWritten k m d sh.
Proof.
  intros Hk Hm H. destruct (tone_rules_lemma k m d sh Hk Hm) as (_ & A & _ & B). destruct H as [H|(U & ->)].
  - symmetry. apply A. exact H.
  - symmetry. apply B. exact U.
Qed.
Lemma expected_fun f c mark m v v' : thaiConsonant c -> m <> T_INVALID -> expected f c mark m v -> expected f c mark m v' -> v = v'.
Proof.
  intros Hc Hm (s & k & t & A & B & C & ->) (s' & k' & t' & A' & B' & C' & ->).
  destruct (letter_listed c Hc) as (_ & _ & _ & V).
  apply sound_unique in A, A'. apply class_unique in B, B'. subst. apply tonedAs_fun in C, C'; try assumption. subst. reflexivity.
Qed.
Lemma end_unique ec e : Prop_Syl.listed endGroups ec e -> ec = letterEnd e.
Proof. apply (uniqueIn_spec ec_eqb ec_eqb_eq). vm_compute. reflexivity. Qed.
Lemma expectedClosed_fun f c mark m e v v' : thaiConsonant c -> m <> T_INVALID ->
  expectedClosed f c mark m e v -> expectedClosed f c mark m e v' -> v = v'.
Proof.
  intros Hc Hm (s & k & t & ec & A & B & C & D & ->) (s' & k' & t' & ec' & A' & B' & C' & D' & ->).
  destruct (letter_listed c Hc) as (_ & _ & _ & V).
  apply sound_unique in A, A'. apply class_unique in B, B'. apply end_unique in C, C'. subst.
  apply tonedAs_fun in D, D'; try assumption. subst. reflexivity.
Qed.
Lemma clear_pronounced w v : Clear w v -> pronounced libthai_ct w None [] [[v]].
Proof.
  intros [f c mark m v' Hf Hc Hm E|f c mark m e v' Hf Hc He Hm N1 N2 P Cl E].
  - destruct (C46_open_syllables f c mark m Hf Hc Hm) as (v0 & E0 & P0 & _).
    rewrite (expected_fun f c mark m v' v0 Hc (mark_valid (mark, m) Hm) E E0). exact P0.
  - destruct (C50_closed_syllables f c mark m e Hf Hc He Hm N1 N2 P) as (v0 & l & E0 & P0 & _ & U).
    rewrite (expectedClosed_fun f c mark m e v' v0 Hc (mark_valid (mark, m) (marksOf_in f _ Hm)) E E0).
    rewrite <- (proj2 U Cl). exact P0.
Qed.
Lemma cons_thai c : thaiConsonant c -> thaiLetter c = true.
Proof. intros (A & B & _). unfold thaiLetter. rewrite !andb_true_iff, !orb_true_iff, !andb_true_iff, !N.leb_le, negb_true_iff, N.eqb_neq. lia. Qed.
Lemma mark_thai mt : In mt Prop_Sweep.toneMarks -> Forall (fun c => thaiLetter c = true) (fst mt).
Proof. intros H. repeat (destruct H as [<-|H]; [repeat constructor|]). destruct H. Qed.
Lemma forms_thai : forallb (fun f => forallb thaiLetter (fBefore f ++ fOn f ++ fAfter f) && (1 <=? List.length (fBefore f ++ fOn f ++ fAfter f))%nat) openForms = true.
Proof. vm_compute. reflexivity. Qed.
Lemma closed_thai : forallb (fun f => forallb thaiLetter (cBefore f ++ cOn f ++ cAfter f)) closedForms = true.
Proof. vm_compute. reflexivity. Qed.
Lemma clear_thai w v : Clear w v -> Forall (fun c => thaiLetter c = true) w /\ 2 <= List.length w.
Proof.
  intros [f c mark m v' Hf Hc Hm _|f c mark m e v' Hf Hc He Hm _ _ _ _ _].
  - pose proof forms_thai as X. rewrite forallb_forall in X. specialize (X f Hf). apply andb_true_iff in X. destruct X as (X & L).
    rewrite !forallb_app, !andb_true_iff, !forallb_forall in X. destruct X as (X1 & X2 & X3). apply Nat.leb_le in L. unfold Prop_Sweep.spelled. split.
    + rewrite !Forall_app. repeat split; try (apply Forall_forall; assumption); [repeat constructor; apply cons_thai; exact Hc|exact (mark_thai _ Hm)].
    + rewrite !app_length in *. cbn [List.length]. lia.
  - pose proof closed_thai as X. rewrite forallb_forall in X. specialize (X f Hf).
    rewrite !forallb_app, !andb_true_iff, !forallb_forall in X. destruct X as (X1 & X2 & X3). unfold closedText. cbn [inLetters single]. split.
    + rewrite !Forall_app. repeat split; try (apply Forall_forall; assumption); try (repeat constructor; apply cons_thai; assumption).
      exact (mark_thai _ (marksOf_in f _ Hm)).
    + rewrite !app_length in *. cbn [List.length]. lia.
Qed.
Lemma clear_sentence dict ws vs : Forall2 (clearWord dict) ws vs -> sentence libthai_ct ws.
Proof.
  induction 1 as [|w v ws vs (R & _) F IH]; [exact I|]. cbn [sentence]. destruct (clear_thai w v R) as (T & L). split; [|split; [|exact IH]].
  - intros E. rewrite E in L. cbn in L. lia.
  - destruct F as [|w2 v2 ws vs (R2 & _) F]; [exact I|]. destruct (clear_thai w2 v2 R2) as (T2 & L2).
    apply thai_follows; assumption.
Qed.
Lemma singletons vs : forall ss, Forall2 (@In SylString) ss (map (fun v => [[v]]) vs) <-> ss = map (fun v => [v]) vs.
Proof.
  induction vs as [|v vs IH]; intros ss; cbn [map].
  - split; [intros H; inversion H; reflexivity|intros ->; constructor].
  - split.
    + intros H. inversion H as [|s x ss0 y Hs F]; subst. destruct Hs as [<-|[]]. apply IH in F. subst. reflexivity.
    + intros ->. constructor; [left; reflexivity|]. apply IH. reflexivity.
Qed.
Lemma nodup_one {A} (l : list A) x : NoDup l -> (forall s, In s l <-> s = x) -> l = [x].
Proof.
  intros N H. destruct l as [|a [|b l]].
  - destruct (proj2 (H x) eq_refl).
  - rewrite (proj1 (H a) (or_introl eq_refl)). reflexivity.
  - exfalso. assert (a = b) by (transitivity x; [|symmetry]; apply H; cbn; tauto). subst b. inversion N as [|? ? X _]. apply X. left. reflexivity.
Qed.
Lemma C89_lemma dict ws vs : dictOKo dict -> ws <> [] -> Forall2 (clearWord dict) ws vs ->
  pronounced libthai_ct (List.concat ws) dict (wordEnds 0 ws) [inTurn 0 ws (map (fun v => [v]) vs)].
Proof.
  intros D Ne F. destruct (C55_word_by_word libthai_ct dict ws (map (fun v => [[v]]) vs) libthai_ok D Ne (clear_sentence dict ws vs F)) as (l & P & H).
  - clear Ne. induction F as [|w v ws vs (R & A) F IH]; cbn [map]; constructor; [|exact IH].
    apply (agree_pronounced _ _ None dict); [apply agree_sym; exact A|apply clear_pronounced; exact R].
  - rewrite <- (nodup_one l (inTurn 0 ws (map (fun v => [v]) vs))); [exact P|exact (pron_nodup _ _ _ _ _ D P)|].
    intros s. rewrite H. split.
    + intros (ss & X & ->). apply singletons in X. subst. reflexivity.
    + intros ->. exists (map (fun v => [v]) vs). split; [apply singletons; reflexivity|reflexivity].
Qed.
(** Any number of clearly spelled words, with the breaks between them: there
    is one pronunciation. *)
Theorem C89_clear_texts dict ws vs : dictOKo dict -> ws <> [] -> Forall2 (clearWord dict) ws vs ->
  pronounced libthai_ct (List.concat ws) dict (wordEnds 0 ws) [inTurn 0 ws (map (fun v => [v]) vs)].
Proof. exact (C89_lemma dict ws vs). Qed.
Print Assumptions C89_clear_texts.

Lemma clearly_one dict b word s : dictOKo dict -> clearly dict b word s ->
  modest b word /\ plain word = true /\ ~ hopeless dict b word /\ forall l, allReadings dict b word l -> l = [s].
Proof.
  intros D [ws vs Ne F w Eb Sb M]. pose proof (M w Eb) as (Size & S & I).
  pose proof (C89_clear_texts dict ws vs D Ne F) as P.
  apply (same_pronounced libthai_ct w dict _ (b w) _ libthai_ok (same_sym _ _ _ _ Sb)) in P.
  split; [exact M|]. split; [|split].
  - apply (proj2 (plain_text word w Eb)). unfold w. clear - F. induction F as [|l v ls vs (R & _) F IH]; [constructor|].
    cbn [map List.concat]. apply Forall_app. split; [|exact IH]. eapply Forall_impl; [|exact (proj1 (clear_thai _ _ R))].
    intros c Hc. unfold thaiLetter in Hc. unfold plainUnit. rewrite !andb_true_iff, !orb_true_iff, !andb_true_iff, !N.leb_le in Hc. lia.
  - intros [X|(w' & E' & X)]; [exact (X w Eb)|]. assert (w' = w) by congruence. subst w'.
    destruct (C71_outcome w dict (b w) D S I) as [(_ & f & T)|(NS & _)]; [|exact (NS X)].
    destruct P as (f1 & d & E & L). destruct (C23_lemma libthai_ct w dict (b w)) as (r & f2 & _ & St & Al).
    assert (Er : r = Ok d) by (destruct (Al f1) as [Y|Y]; congruence). subst r.
    specialize (St (Nat.max f f2) ltac:(lia)). rewrite (T (Nat.max f f2) ltac:(lia)) in St. discriminate St.
  - intros l (w' & E' & N & H). assert (w' = w) by congruence. subst w'. apply nodup_one; [exact N|].
    intros s0. rewrite H, <- (C71_every_text w dict (b w) _ D S I P). cbn [In]. intuition congruence.
Qed.
Lemma clearly_all dict b words ss : dictOKo dict -> Forall2 (clearly dict b) words ss ->
  Forall (modest b) words /\ Forall (fun word => plain word = true) words /\ Forall (fun word => ~ hopeless dict b word) words /\
  Forall2 (fun word s => forall l, allReadings dict b word l -> l = [s]) words ss.
Proof.
  intros D. induction 1 as [|word s words ss H F (A1 & A2 & A3 & A4)]; [repeat split; constructor|].
  destruct (clearly_one dict b word s D H) as (B1 & B2 & B3 & B4). repeat split; constructor; assumption.
Qed.
Lemma answers_one {A : string -> string -> Prop} has dict b cs words ss texts :
  (forall word text s, A word text -> (forall l, allReadings dict b word l -> l = [s]) -> printed has cs word s text) ->
  Forall2 (fun word s => forall l, allReadings dict b word l -> l = [s]) words ss -> Forall2 A words texts ->
  Forall2 (fun ws text => printed has cs (fst ws) (snd ws) text) (combine words ss) texts.
Proof.
  intros H F. revert texts. induction F as [|word s words ss B F IH]; intros texts G; inversion G; subst; cbn [combine]; constructor; auto.
Qed.
Lemma line_one dict b cs word text s : lineAnswer dict b cs word text -> (forall l, allReadings dict b word l -> l = [s]) ->
  printed oneLine cs word s text.
Proof.
  intros (_ & l & outs & R & F & ->) H. specialize (H l R). subst l. exists outs. split; [|reflexivity].
  clear R. induction F as [|c o cs outs (ts & Ft & Eo) F IH]; constructor; [|exact IH].
  inversion Ft as [|? t ? ts' Lt Fn]; subst. inversion Fn; subst. exists t. split; [exact Lt|]. cbn [map String.concat]. reflexivity.
Qed.
Lemma list_one dict b cs word text s : jsonAnswer dict b cs word text -> (forall l, allReadings dict b word l -> l = [s]) ->
  printed oneInList cs word s text.
Proof.
  intros (_ & l & outs & R & _ & F & ->) H. specialize (H l R). subst l. exists outs. split; [|reflexivity].
  clear R. unfold flatValues in F. induction F as [|c o cs outs (j & Dj & V) F IH]; constructor; [|exact IH]. destruct V as [js Fj].
  inversion Fj as [|? t ? ts' Lt Fn]; subst. inversion Fn; subst. exists t. split; [exact Dj|exact Lt].
Qed.
Lemma group_one dict b cs word text s : chainAnswer dict b cs word text -> (forall l, allReadings dict b word l -> l = [s]) ->
  printed oneInGroups cs word s text.
Proof.
  intros (_ & l & outs & R & (chains & C1 & C2 & _ & _ & F) & ->) H. specialize (H l R). subst l. exists outs. split; [|reflexivity].
  destruct (C1 s (or_introl eq_refl)) as (g & s' & Ig & Ch & Al). clear R C1.
  induction F as [|c o cs outs (j & Dj & Gj) F IH]; constructor; [|exact IH]. split; [exists chains, j, g, s'; auto|].
  exists chains, j. split; [exact Dj|]. split; [exact Gj|]. intros g1 s1 I1 H1. destruct (C2 g1 s1 I1 H1) as (x & [<-|[]] & X). exact X.
Qed.
Lemma C89_lemma2 breaker VERSION default files stdin prog args cs words ss path b dict loaded :
  Forall accepted args -> structureIs args Lines -> wanted args cs ->
  wordsAre stdin args words -> dictIs default args path -> DictOpen (files path) = Ok (dict, loaded) -> dictOK dict ->
  breaksFor breaker args b -> Forall2 (clearly (Some dict) b) words ss ->
  exists fuel0 texts e, warning default args loaded e /\
    Forall2 (fun ws text => printed oneLine cs (fst ws) (snd ws) text) (combine words ss) texts /\
    forall fuel, fuel0 <= fuel ->
      main libthai_ct breaker VERSION default files stdin fuel (prog :: args) = mkRun (String.concat "" texts) e (Ok 0%Z).
Proof.
  intros A S Wa W Di O OK B F.
  assert (D : dictOKo (Some dict)) by (intros d' H; injection H as <-; exact OK).
  destruct (clearly_all (Some dict) b words ss D F) as (M & Pl & Nh & Li).
  destruct (C72_program breaker VERSION default files stdin prog args cs words path b dict loaded A S Wa W Di O OK B M)
    as (f & pre & texts & post & e & E & We & An & [(-> & R)|(bad & rest & -> & Ho & _)]).
  - rewrite app_nil_r in E. subst pre. exists f, texts, e. split; [exact We|]. split; [|exact R].
    eapply answers_one; [|exact Li|exact An]. intros word text s. apply line_one.
  - destruct (nothing_hopeless Nh E Ho).
Qed.
(** The program prints one line for each text and notation. *)
Theorem C89_lines breaker VERSION default files stdin prog args cs words ss path b dict loaded :
  Forall accepted args -> structureIs args Lines -> wanted args cs ->
  wordsAre stdin args words -> dictIs default args path -> DictOpen (files path) = Ok (dict, loaded) -> dictOK dict ->
  breaksFor breaker args b -> Forall2 (clearly (Some dict) b) words ss ->
  exists fuel0 texts e, warning default args loaded e /\
    Forall2 (fun ws text => printed oneLine cs (fst ws) (snd ws) text) (combine words ss) texts /\
    forall fuel, fuel0 <= fuel ->
      main libthai_ct breaker VERSION default files stdin fuel (prog :: args) = mkRun (String.concat "" texts) e (Ok 0%Z).
Proof. exact (C89_lemma2 breaker VERSION default files stdin prog args cs words ss path b dict loaded). Qed.
Print Assumptions C89_lines.
Lemma C89_lemma3 breaker VERSION default files stdin prog args cs words ss path b dict loaded :
  Forall accepted args -> structureIs args Flat -> wanted args cs ->
  wordsAre stdin args words -> dictIs default args path -> DictOpen (files path) = Ok (dict, loaded) -> dictOK dict ->
  breaksFor breaker args b -> Forall2 (clearly (Some dict) b) words ss ->
  exists fuel0 texts e, warning default args loaded e /\
    Forall2 (fun ws text => printed oneInList cs (fst ws) (snd ws) text) (combine words ss) texts /\
    forall fuel, fuel0 <= fuel ->
      main libthai_ct breaker VERSION default files stdin fuel (prog :: args) = mkRun (String.concat "" texts) e (Ok 0%Z).
Proof.
  intros A S Wa W Di O OK B F.
  assert (D : dictOKo (Some dict)) by (intros d' H; injection H as <-; exact OK).
  destruct (clearly_all (Some dict) b words ss D F) as (M & Pl & Nh & Li).
  destruct (C72_json breaker VERSION default files stdin prog args cs words path b dict loaded A S Wa W Di O OK B M Pl)
    as (f & pre & texts & post & e & E & We & An & [(-> & R)|[(bad & rest & -> & Ho & _)|(bad & rest & -> & _ & Rd & _)]]).
  - rewrite app_nil_r in E. subst pre. exists f, texts, e. split; [exact We|]. split; [|exact R].
    eapply answers_one; [|exact Li|exact An]. intros word text s. apply list_one.
  - destruct (nothing_hopeless Nh E Ho).
  - exfalso. assert (X : exists s : SylString, [] = [s]).
    { subst words. destruct (in_split2 (fun word s => forall l, allReadings (Some dict) b word l -> l = [s]) _ _ bad Li) as (_ & s & _ & _ & H); [apply in_elt|].
      exists s. apply H. exact Rd. }
    destruct X as (s & X). discriminate X.
Qed.
(** With [-j] the list has this one element. *)
Theorem C89_json breaker VERSION default files stdin prog args cs words ss path b dict loaded :
  Forall accepted args -> structureIs args Flat -> wanted args cs ->
  wordsAre stdin args words -> dictIs default args path -> DictOpen (files path) = Ok (dict, loaded) -> dictOK dict ->
  breaksFor breaker args b -> Forall2 (clearly (Some dict) b) words ss ->
  exists fuel0 texts e, warning default args loaded e /\
    Forall2 (fun ws text => printed oneInList cs (fst ws) (snd ws) text) (combine words ss) texts /\
    forall fuel, fuel0 <= fuel ->
      main libthai_ct breaker VERSION default files stdin fuel (prog :: args) = mkRun (String.concat "" texts) e (Ok 0%Z).
Proof. exact (C89_lemma3 breaker VERSION default files stdin prog args cs words ss path b dict loaded). Qed.
Print Assumptions C89_json.
Lemma C89_lemma4 breaker VERSION default files stdin prog args cs words ss path b dict loaded :
  Forall accepted args -> structureIs args Grouped -> wanted args cs ->
  wordsAre stdin args words -> dictIs default args path -> DictOpen (files path) = Ok (dict, loaded) -> dictOK dict ->
  breaksFor breaker args b -> Forall2 (clearly (Some dict) b) words ss ->
  exists fuel0 texts e, warning default args loaded e /\
    Forall2 (fun ws text => printed oneInGroups cs (fst ws) (snd ws) text) (combine words ss) texts /\
    forall fuel, fuel0 <= fuel ->
      main libthai_ct breaker VERSION default files stdin fuel (prog :: args) = mkRun (String.concat "" texts) e (Ok 0%Z).
Proof.
  intros A S Wa W Di O OK B F.
  assert (D : dictOKo (Some dict)) by (intros d' H; injection H as <-; exact OK).
  destruct (clearly_all (Some dict) b words ss D F) as (M & Pl & Nh & Li).
  destruct (C72_grouped breaker VERSION default files stdin prog args cs words path b dict loaded A S Wa W Di O OK B M Pl)
    as (f & pre & texts & post & e & E & We & An & [(-> & R)|(bad & rest & -> & Ho & _)]).
  - rewrite app_nil_r in E. subst pre. exists f, texts, e. split; [exact We|]. split; [|exact R].
    eapply answers_one; [|exact Li|exact An]. intros word text s. apply group_one.
  - destruct (nothing_hopeless Nh E Ho).
Qed.
(** With [-g] every choice from the groups is this reading. *)
Theorem C89_grouped breaker VERSION default files stdin prog args cs words ss path b dict loaded :
  Forall accepted args -> structureIs args Grouped -> wanted args cs ->
  wordsAre stdin args words -> dictIs default args path -> DictOpen (files path) = Ok (dict, loaded) -> dictOK dict ->
  breaksFor breaker args b -> Forall2 (clearly (Some dict) b) words ss ->
  exists fuel0 texts e, warning default args loaded e /\
    Forall2 (fun ws text => printed oneInGroups cs (fst ws) (snd ws) text) (combine words ss) texts /\
    forall fuel, fuel0 <= fuel ->
      main libthai_ct breaker VERSION default files stdin fuel (prog :: args) = mkRun (String.concat "" texts) e (Ok 0%Z).
Proof. exact (C89_lemma4 breaker VERSION default files stdin prog args cs words ss path b dict loaded). Qed.
Print Assumptions C89_grouped.
(** Three syllables ("Do not eat", "good") in the three forms, with a
    dictionary that has another word. *)
Definition clWords : list (list N) := map letters ["ห้าม"; "กิน"; "ดี"]%string.
Definition clSyls : list Syl :=
  [SylOf HA SEC_NONE V_AA KOM THO 4; SylOf KA SEC_NONE V_I KON SAMAN 3; SylOf DA SEC_NONE V_II EC_NONE SAMAN 2].
Definition clReading : SylString :=
  [SylOf HA SEC_NONE V_AA KOM THO 4; SylOf KA SEC_NONE V_I KON SAMAN 7; SylOf DA SEC_NONE V_II EC_NONE SAMAN 9].
Definition clBreaks (w : list N) : list nat := [4; 7].
Definition clArgs (form : list string) : list string := ("-r" :: form ++ ["-dx"; "ห้ามกินดี"])%string.
Lemma closedSyl_ok f c mark m e : thaiConsonant c -> thaiConsonant e -> m <> T_INVALID ->
  expectedClosed f c mark m e (closedSyl f (single c) mark m e (letterEnd e)).
Proof.
  intros Hc He Hm. destruct (letter_listed c Hc) as (A & B & _ & D). destruct (letter_listed e He) as (_ & _ & E & _).
  eexists _, _, _, _. split; [exact A|]. split; [exact B|]. split; [exact E|]. split; [|reflexivity]. apply tonedAs_ok; assumption.
Qed.
Lemma clWords_ok : Forall2 (clearWord (Some outDict)) clWords clSyls.
Proof.
  assert (Ag : forall w, existsb (N.eqb UTH_KO_KAI) w && existsb (N.eqb UTH_SARA_AA) w = false -> agreeOn w (Some outDict) None).
  { intros w H u k r a E _. split.
    - intros (d & v & Ed & (t & Et & t1 & t2 & Hv & _) & _). exfalso. injection Ed as <-. cbn [mTrie outDict] in Et.
      injection Et as <-. assert (Hk : k = letters "กา").
      { destruct t1 as [|x [|y t1]]; [injection Hv as <- _; reflexivity|discriminate|discriminate]. }
      subst k w. rewrite !existsb_app in H. change (existsb (N.eqb UTH_KO_KAI) (letters "กา")) with true in H.
      change (existsb (N.eqb UTH_SARA_AA) (letters "กา")) with true in H. rewrite !orb_true_r in H. discriminate H.
    - intros (d & v & Ed & _). discriminate Ed. }
  assert (C : forall c, In c (letters "หมกนด") -> thaiConsonant c).
  { intros c H. repeat (destruct H as [<-|H]; [repeat split; try discriminate; vm_compute; discriminate|]). destruct H. }
  assert (Nn : forall e, In e (letters "มน") -> ~ Prop_Syl.listed endGroups EC_NONE e).
  { intros e H X. apply end_unique in X. repeat (destruct H as [<-|H]; [discriminate X|]). destruct H. }
  constructor; [|constructor; [|constructor; [|constructor]]]; (split; [|apply Ag; vm_compute; reflexivity]).
  - apply (Cl_closed (closed "" "" "า" V_AA false true "") 0x0e2b [0x0e49%N] THO 0x0e21).
    + right. left. reflexivity.
    + apply C. vm_compute. tauto.
    + apply C. vm_compute. tauto.
    + right. right. left. reflexivity.
    + apply Nn. vm_compute. tauto.
    + intros [].
    + right. vm_compute. tauto.
    + left. discriminate.
    + apply (closedSyl_ok (closed "" "" "า" V_AA false true "") 0x0e2b [0x0e49%N] THO 0x0e21); [apply C; vm_compute; tauto|apply C; vm_compute; tauto|discriminate].
  - apply (Cl_closed (closed "" "ิ" "" V_I true true "ย") 0x0e01 [] SAMAN 0x0e19).
    + right. right. left. reflexivity.
    + apply C. vm_compute. tauto.
    + apply C. vm_compute. tauto.
    + left. reflexivity.
    + apply Nn. vm_compute. tauto.
    + vm_compute. intros [H|[]]. discriminate H.
    + left. reflexivity.
    + right. left. vm_compute. intros [H|[H|[H|[H|[H|[]]]]]]; discriminate H.
    + apply (closedSyl_ok (closed "" "ิ" "" V_I true true "ย") 0x0e01 [] SAMAN 0x0e19); [apply C; vm_compute; tauto|apply C; vm_compute; tauto|discriminate].
  - apply (Cl_open (form "" "ี" "" V_II EC_NONE false false) 0x0e14 [] SAMAN).
    + right. right. right. left. reflexivity.
    + apply C. vm_compute. tauto.
    + left. reflexivity.
    + apply (openSyl_ok (form "" "ี" "" V_II EC_NONE false false) 0x0e14 ([], SAMAN)); [apply C; vm_compute; tauto|left; reflexivity].
Qed.
Example C89_case : dictOK outDict /\ clearly (Some outDict) clBreaks "ห้ามกินดี" clReading /\
  map (fun form => main libthai_ct clBreaks "1" "/d" exFiles "" 500 ("thpronun" :: clArgs form)%string) [[]; ["-j"]; ["-g"]]%string =
    map (fun o => mkRun ("ห้ามกินดี:" ++ nl ++ o ++ nl)%string "" (Ok 0%Z))
      [("hamkindi" ++ nl)%string; ("[[" ++ q "ham" ++ "," ++ q "kin" ++ "," ++ q "di" ++ "]]")%string;
       ("[[[[" ++ q "ham" ++ "," ++ q "kin" ++ "," ++ q "di" ++ "]]]]")%string].
Proof.
  split; [eapply dictCheck_sound; [reflexivity|vm_compute; reflexivity]|]. split; [|vm_compute; reflexivity].
  replace clReading with (inTurn 0 clWords (map (fun v => [v]) clSyls)) by (vm_compute; reflexivity).
  apply Clearly; [discriminate|exact clWords_ok|vm_compute; reflexivity|apply sameBreaksb_sound; vm_compute; reflexivity|].
  intros w E. vm_compute in E. injection E as <-. split; [vm_compute; reflexivity|].
  split; [repeat constructor|repeat (constructor; [cbn; lia|]); constructor].
Qed.
(** Without the condition "clear": "เกน" has two. *)
Example C89_unclear : exists v l, expectedClosed (closed "เ" "" "" V_EE false true "ย") 0x0e01 [] SAMAN 0x0e19 v /\
  pronounced libthai_ct (letters "เกน") None [] l /\ In [v] l /\ l <> [[v]].
Proof.
  assert (K : thaiConsonant 0x0e01) by (repeat split; lia || discriminate).
  assert (K2 : thaiConsonant 0x0e19) by (repeat split; lia || discriminate).
  destruct (C50_closed_syllables (closed "เ" "" "" V_EE false true "ย") 0x0e01 [] SAMAN 0x0e19) as (v & l & E & P & I & U); try assumption.
  - vm_compute. tauto.
  - left. reflexivity.
  - intros X. apply end_unique in X. discriminate X.
  - vm_compute. intros [H|[]]. discriminate H.
  - left. reflexivity.
  - exists v, l. split; [exact E|]. split; [exact P|]. split; [exact I|]. rewrite U. intros [H|[H|(H & _)]]; [congruence| |apply H; reflexivity].
    apply H. left. reflexivity.
Qed.

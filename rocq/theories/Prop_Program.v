(** Prop_Program.v - property C65: what the program prints for readable text,
    from the command line to the letters of the output. *)
From Coq Require Import List NArith ZArith Bool String Ascii Lia Arith.
From Verif Require Import Base ThUni ThCons Syl Utf Lattice Dag PronDag SylOut ThaiOut Output Dict GenDict Parser Cli.
From Verif Require Import Spec OrderProofs DictProofs Prop_Syl ParserSpec ParserFacts ParserInv ParserResult ParserListed ParserDict UtfProofs.
From Verif Require Import Prop_Parser Prop_Notation Prop_Output Prop_Cli Prop_Cli2 Prop_Roman Prop_Codes Prop_Listing
  Prop_Product Grammar GrammarWord Prop_Grammar Prop_Text Prop_Breaks.
Import ListNotations.
Local Open Scope string_scope.
Local Open Scope list_scope.

(** ** Vocabulary *)
(** How a syllable is written in each notation; what is not Thai is copied
    between parentheses. *)
Definition copied (v : Syl) (t : string) : Prop :=
  literal v <> [] /\ exists u, from_bytes u = Ok (literal v) /\ t = ("(" ++ u ++ ")")%string.
Definition respelled (v : Syl) (t : string) : Prop := (literal v = [] /\ Respelled v t) \/ copied v t.
Definition romanized (v : Syl) (t : string) : Prop :=
  (literal v = [] /\ Royal (iCons1 v) (iCons2 v) (vowel v) (eCons v) t) \/ copied v t.
Definition phonetic (v : Syl) (t : string) : Prop :=
  (literal v = [] /\ Voice (iCons1 v) (iCons2 v) (vowel v) (eCons v) (tone v) t) \/ copied v t.
Definition soundex (v : Syl) (t : string) : Prop := (literal v = [] /\ SoundexText v t) \/ copied v t.
Definition raw (v : Syl) (t : string) : Prop :=
  (literal v = [] /\ RawText v t) \/ exists u n, copied v u /\ Numeral (endPos v) n /\ t = (u ++ "@" ++ n)%string.
(** The line of a pronunciation in the notation with letter [c]. *)
Inductive Line (s : SylString) : ascii -> string -> Prop :=
| L_thai ts : Forall2 respelled s ts -> Line s "t" (String.concat "-" ts)
| L_roman text o : Forall (fun v => romanized v (text v)) s -> Hyphenated text s o -> Line s "r" o
| L_phonetic ts : Forall2 phonetic s ts -> Line s "p" (String.concat " " ts)
| L_soundex ts : Forall2 soundex s ts -> Line s "s" (String.concat "-" ts)
| L_raw ts : Forall2 raw s ts -> Line s "w" (String.concat "," ts).
(** [word] is the text of the pieces [ps], and inside its Thai stretches the
    breaks are their ends.  Positions fit into an [int]. *)
Definition readable (dict : option Dict) (b : list N -> list nat) (word : string) (ps : list Piece) : Prop :=
  let w := List.concat (map pieceText ps) in
  ps <> [] /\ Forall (pieceOK dict) ps /\ sentence libthai_ct (map pieceText ps) /\ from_bytes word = Ok w /\ (101 * Z.of_nat (List.length w) < 2 ^ 31)%Z /\
  sameBreaks libthai_ct w (b w) (wordEnds 0 (map pieceText ps)).
(** What is printed for a word: for every letter a block of lines, one line for
    each way to read the pieces in turn. *)
Definition answer dict b (cs : list ascii) (word text : string) : Prop :=
  exists l outs, NoDup l /\
    (forall ps, readable dict b word ps -> forall s, In s l <->
      exists ss, Forall2 (Spoken dict) ps ss /\ s = inTurn 0 (map pieceText ps) ss) /\
    Forall2 (fun c o => exists ts, Forall2 (fun s t => Line s c t) l ts /\
      o = String.concat "" (map (fun t => (t ++ nl)%string) ts)) cs outs /\
    text = (word ++ ":" ++ nl ++ String.concat "" (map (fun o => (o ++ nl)%string) outs))%string.

(** ** Lemmas *)
Lemma shift0 s : shiftEndPos 0 s = s.
Proof.
  unfold shiftEndPos. rewrite <- (map_id s) at 2. apply map_ext. intros v. destruct v. cbn. unfold setEndPos. cbn. f_equal.
  unfold shiftPos. destruct (_ <? 0)%Z; lia.
Qed.
Lemma pron_fun ct w dict brk l1 l2 : pronounced ct w dict brk l1 -> pronounced ct w dict brk l2 -> l1 = l2.
Proof.
  intros (f1 & d1 & E1 & L1) (f2 & d2 & E2 & L2). destruct (C23_lemma ct w dict brk) as (r & f & N & _ & A).
  assert (r = Ok d1) by (destruct (A f1) as [X|X]; congruence). assert (r = Ok d2) by (destruct (A f2) as [X|X]; congruence).
  congruence.
Qed.
Lemma readable_pron dict b word ps : dictOKo dict -> readable dict b word ps ->
  exists l, pronounced libthai_ct (List.concat (map pieceText ps)) dict (b (List.concat (map pieceText ps))) l /\
    forall s, In s l <-> exists ss, Forall2 (Spoken dict) ps ss /\ s = inTurn 0 (map pieceText ps) ss.
Proof.
  intros D (N & F & S & B & _ & Br). destruct (C59_text dict ps D N F S) as (l & P & H). exists l. split; [|exact H].
  exact (same_pronounced _ _ _ _ _ _ libthai_ok (same_sym _ _ _ _ Br) P).
Qed.
(** A syllable the parser can return: well-formed, or a printable literal, at
    a position that fits. *)
Definition sayable (v : Syl) : Prop :=
  intRange (endPos v) /\
  (wellFormed v \/ literal v <> [] /\ exists u, from_bytes u = Ok (literal v) /\ outputLiteral (literal v) = Ok ("(" ++ u ++ ")")%string).
Definition says (f : Syl -> Res string) (R : Syl -> string -> Prop) : Prop := forall v, sayable v -> forall t, f v = Ok t -> R v t.
Lemma lit_text v u : literal v <> [] -> outputLiteral (literal v) = Ok u ->
  ThaiOutput v = Ok u /\ RomanSylOutput v = Ok u /\ PhoneticOutput v = Ok u /\ SoundexOutput v = Ok u /\
  RawOutput v = Ok (u ++ "@" ++ to_string (endPos v))%string.
Proof.
  intros N O. assert (I : isLiteral v = true) by (unfold isLiteral; destruct (literal v); congruence).
  assert (Bl : syl_eqb v Blank = false) by (unfold syl_eqb; rewrite I; reflexivity).
  unfold ThaiOutput, RomanSylOutput, PhoneticOutput, SoundexOutput, RawOutput. rewrite Bl, I, O. repeat split.
Qed.
Lemma says_all : says ThaiOutput respelled /\ says RomanSylOutput romanized /\ says PhoneticOutput phonetic /\
  says SoundexOutput soundex /\ says RawOutput raw.
Proof.
  repeat split; intros v (Rg & [W|(N & u & U & O)]) t E; pose proof E as E';
    try (destruct (lit_text v _ N O) as (E1 & E2 & E3 & E4 & E5));
    try (assert (t = ("(" ++ u ++ ")")%string) by congruence; right; split; [exact N|]; exists u; split; [exact U|assumption]).
  - left. split; [apply W|]. apply C66_simplest_respelling; assumption.
  - left. split; [apply W|]. apply C60_royal_institute; assumption.
  - left. split; [apply W|]. apply C61_phonetic_text; assumption.
  - left. split; [apply W|]. apply C67_soundex_text; assumption.
  - left. split; [apply W|]. apply C67_raw_text; assumption.
  - right. exists ("(" ++ u ++ ")")%string, (to_string (endPos v)). split; [split; [exact N|]; eauto|].
    split; [apply numeral_ok; auto|congruence].
Qed.

Section Lines.
Variables (w : list N) (word : string) (dict : option Dict) (brk : list nat) (l : list SylString).
Hypotheses (D : dictOKo dict) (B : from_bytes word = Ok w) (P : pronounced libthai_ct w dict brk l).
Hypothesis Size : (101 * Z.of_nat (List.length w) < 2 ^ 31)%Z.
Lemma syl_sayable s v : In s l -> In v s -> sayable v.
Proof.
  intros Hs Hv. split.
  - pose proof (listed_fits libthai_ct w dict brk l s v D P Size Hs Hv) as Ft. unfold fitsInt in Ft. unfold intRange. lia.
  - destruct (literal v) as [|x r] eqn:El.
    + left. apply in_split in Hv. destruct Hv as (s1 & s2 & E').
      assert (O : occurs l (startPos s1) (endPos v) v) by (exists s1, s2; subst s; auto).
      exact (C30_well_formed libthai_ct w dict brk l _ _ v libthai_ok D P O El).
    + right. split; [discriminate|]. rewrite <- El.
      destruct (C44_literals_print libthai_ct word w dict brk l s v libthai_ok D B P Hs Hv) as (t & _ & A & O); [congruence|]. eauto.
Qed.
Lemma syl_notBlank s v : In s l -> In v s -> ~ isBlank v.
Proof.
  intros Hs Hv. destruct (syl_sayable s v Hs Hv) as (_ & [(E & A & _)|(E & _)]).
  - apply notBlank; assumption.
  - intros X. unfold isBlank, spoken in X. destruct (literal v); [congruence|discriminate X].
Qed.
Lemma syl_text f s v : In f notations -> In s l -> In v s -> f v = Ok (textOf f v) /\ textOf f v <> ""%string.
Proof.
  intros Hf Hs Hv. pose proof (C15_parse_printable libthai_ct word w dict brk l s v libthai_ok D B P Hs Hv) as F.
  rewrite Forall_forall in F. destruct (F f Hf) as (t & E & N). unfold textOf. rewrite E. auto.
Qed.
Lemma delim_lines f delim R c : In f notations -> says f R ->
  (forall s ts, Forall2 R s ts -> Line s c (String.concat (String delim "") ts)) ->
  exists ts, Forall2 (fun s t => Line s c t) l ts /\
    delimOutputList f delim l = Ok (String.concat "" (map (fun t => (t ++ nl)%string) ts)).
Proof.
  intros Hf Sy Li. exists (map (fun s => String.concat (String delim "") (map (textOf f) s)) l). split.
  - assert (X : forall s, In s l -> Line s c (String.concat (String delim "") (map (textOf f) s))).
    { intros s Hs. apply Li. assert (Y : forall v, In v s -> R v (textOf f v)).
      { intros v Hv. apply Sy; [exact (syl_sayable s v Hs Hv)|]. apply (syl_text f s v); auto. }
      clear Hs. induction s; cbn [map]; constructor; [apply Y; left; reflexivity|apply IHs; intros; apply Y; right; assumption]. }
    clear P. induction l; cbn [map]; constructor; [apply X; left; reflexivity|apply IHl0; intros; apply X; right; assumption].
  - rewrite (C19_lines f delim (textOf f) l (map (fun s => [s]) l)).
    + f_equal. rewrite !map_map. reflexivity.
    + apply Forall_forall. intros s Hs v Hv _. apply (syl_text f s v); auto.
    + assert (X : forall s, In s l -> Words s [s]).
      { intros s Hs. apply W_last. apply Forall_forall. intros v. apply syl_notBlank. exact Hs. }
      clear P. induction l; cbn [map]; constructor; [apply X; left; reflexivity|apply IHl0; intros; apply X; right; assumption].
Qed.
Lemma roman_line s : In s l -> s <> [] -> exists t, Line s "r" t /\ romanOutputStr false s = Ok t.
Proof.
  intros Hs N. destruct (C22_hyphenation_unique (textOf RomanSylOutput) s N) as (o & H & _). exists o. split.
  - apply (L_roman s (textOf RomanSylOutput)); [|exact H]. apply Forall_forall. intros v Hv.
    apply says_all; [exact (syl_sayable s v Hs Hv)|]. apply (syl_text _ s v); auto. cbn. tauto.
  - destruct s as [|x r]; [congruence|]. pose proof (C22_hyphens false (textOf RomanSylOutput) x r [] o) as E.
    rewrite app_nil_r in E. rewrite E; auto.
    + cbn [map String.concat]. rewrite sapp_nil. destruct o; reflexivity.
    + apply (syl_text _ (x :: r) x); [cbn; tauto|exact Hs|left; reflexivity].
    + apply (syl_text _ (x :: r) x); [cbn; tauto|exact Hs|left; reflexivity].
    + intros v Hv _. apply (syl_text _ (x :: r) v); [cbn; tauto|exact Hs|right; exact Hv].
    + apply Forall_forall. intros v Hv. apply (syl_notBlank (x :: r)); [exact Hs|right; exact Hv].
Qed.
Lemma roman_lines : (forall s, In s l -> s <> []) -> exists ts, Forall2 (fun s t => Line s "r" t) l ts /\
  romanOutputList false l = Ok (String.concat "" (map (fun t => (t ++ nl)%string) ts)).
Proof.
  intros N. assert (X : exists ts, Forall2 (fun s t => Line s "r" t) l ts /\ mapM (romanOutputStr false) l = Ok ts).
  { assert (Y : forall s, In s l -> exists t, Line s "r" t /\ romanOutputStr false s = Ok t) by (intros s Hs; apply roman_line; auto).
    clear P N. induction l as [|s l' IH]; [exists []; split; [constructor|reflexivity]|].
    destruct (Y s (or_introl eq_refl)) as (t & A & E). destruct IH as (ts & F & M); [intros; apply Y; right; assumption|].
    exists (t :: ts). split; [constructor; assumption|]. cbn [mapM]. rewrite E. cbn [bind]. rewrite M. reflexivity. }
  destruct X as (ts & F & M). exists ts. split; [exact F|]. unfold romanOutputList. rewrite M. reflexivity.
Qed.
End Lines.

Lemma warning_fun default args loaded e1 e2 : warning default args loaded e1 -> warning default args loaded e2 -> e1 = e2.
Proof.
  unfold warning. destruct loaded; [congruence|]. intros (p1 & s1 & D1 & -> & Q1) (p2 & s2 & D2 & -> & Q2).
  rewrite (dictIs_fun _ _ _ _ D2 D1) in Q2.
  destruct Q1 as [(-> & N1)|(-> & N1)], Q2 as [(-> & N2)|(-> & N2)]; try contradiction; reflexivity.
Qed.
Lemma pron_nodup ct w dict brk l : dictOKo dict -> pronounced ct w dict brk l -> NoDup l.
Proof.
  intros D P. apply NoDup_nth_error. intros i j Hi E. destruct (nth_error l i) as [a|] eqn:Ei; [|apply nth_error_None in Ei; lia].
  symmetry in E. apply (C64_no_repetition ct w dict brk l D P i j a a Ei E); [|reflexivity]. apply str_eqb_spoken. reflexivity.
Qed.
(** What is printed for a word whose pronunciations are [l]. *)
Definition block (l : list SylString) (c : ascii) (o : string) : Prop :=
  exists ts, Forall2 (fun s t => Line s c t) l ts /\ o = String.concat "" (map (fun t => (t ++ nl)%string) ts).
Lemma listing_answer dict b cs word w l : dictOKo dict -> from_bytes word = Ok w -> (101 * Z.of_nat (List.length w) < 2 ^ 31)%Z ->
  pronounced libthai_ct w dict (b w) l -> Forall (fun c => In c notationLetters) cs ->
  exists fuel0 outs, Forall2 (block l) cs outs /\
    forall fuel, fuel0 <= fuel -> saidOf (parseWordF libthai_ct fuel dict b) Lines cs word
      (word ++ ":" ++ nl ++ String.concat "" (map (fun o => (o ++ nl)%string) outs)).
Proof.
  intros D B Size P F. pose proof P as (f1 & d & E & L).
  assert (Ne : forall s, In s l -> s <> []).
  { destruct (flat_good libthai_ct w dict (b w) f1 d D E) as (l' & El & _ & Ne & _). rewrite L in El. injection El as <-. exact Ne. }
  assert (X : exists outs, Forall2 (block l) cs outs /\ Forall2 (fun c o => written Lines c d o) cs outs).
  { induction F as [|c cs Hc F (outs & A1 & A2)]; [exists []; split; constructor|].
    assert (Y : exists ts, Forall2 (fun s t => Line s c t) l ts /\ written Lines c d (String.concat "" (map (fun t => (t ++ nl)%string) ts))).
    { destruct says_all as (Y1 & Y2 & Y3 & Y4 & Y5).
      assert (Dl : forall f delim K, notationOf c = Some (f, delim) -> (c =? "r")%char = false -> In f notations -> says f K ->
        (forall s ts, Forall2 K s ts -> Line s c (String.concat (String delim "") ts)) ->
        exists ts, Forall2 (fun s t => Line s c t) l ts /\ written Lines c d (String.concat "" (map (fun t => (t ++ nl)%string) ts))).
      { intros f delim K Q1 Q2 Q3 Q4 Q5. destruct (delim_lines w word dict (b w) l D B P Size f delim K c Q3 Q4 Q5) as (ts & T & O). exists ts. split; [exact T|].
        exists f, delim. split; [exact Q1|]. cbn. rewrite Q2. unfold delimOutputDAG. rewrite L. cbn [bind]. exact O. }
      destruct Hc as [<-|[<-|[<-|[<-|[<-|[]]]]]].
      - destruct (roman_lines w word dict (b w) l D B P Size Ne) as (ts & T & O). exists ts. split; [exact T|].
        eexists _, _. split; [reflexivity|]. cbn. unfold romanOutputDAG. rewrite L. cbn [bind]. exact O.
      - apply (Dl SoundexOutput "-"%char soundex); auto; [cbn; tauto|]. apply L_soundex.
      - apply (Dl ThaiOutput "-"%char respelled); auto; [cbn; tauto|]. apply L_thai.
      - apply (Dl PhoneticOutput " "%char phonetic); auto; [cbn; tauto|]. apply L_phonetic.
      - apply (Dl RawOutput ","%char raw); auto; [cbn; tauto|]. apply L_raw. }
    destruct Y as (ts & T & W). eexists (_ :: outs). split; constructor; try eassumption. exists ts. split; [exact T|reflexivity]. }
  destruct X as (outs & A1 & A2).
  destruct (C23_lemma libthai_ct w dict (b w)) as (r & f2 & _ & St & Al).
  assert (Er : r = Ok d) by (destruct (Al f1) as [X|X]; congruence). subst r.
  exists f2, outs. split; [exact A1|].
  intros fuel Lf. exists d, outs. split; [|split; [exact A2|reflexivity]]. unfold parseWordF. rewrite B. cbn [bind]. apply St. exact Lf.
Qed.
Lemma one_answer dict b cs word : dictOKo dict -> (exists ps, readable dict b word ps) -> Forall (fun c => In c notationLetters) cs ->
  exists fuel0 text, answer dict b cs word text /\
    forall fuel, fuel0 <= fuel -> saidOf (parseWordF libthai_ct fuel dict b) Lines cs word text.
Proof.
  intros D (ps & R) F. destruct (readable_pron dict b word ps D R) as (l & P & _).
  pose proof R as (_ & _ & _ & B & Size & _). remember (List.concat (map pieceText ps)) as w eqn:Hw.
  destruct (listing_answer dict b cs word w l D B Size P F) as (f2 & outs & A1 & Sa).
  eexists f2, _. split; [|exact Sa].
  exists l, outs. split; [apply (pron_nodup libthai_ct w dict (b w)); assumption|]. split; [|split; [exact A1|reflexivity]].
  intros ps' R' s. destruct (readable_pron dict b word ps' D R') as (l' & P' & H').
  assert (Ew : List.concat (map pieceText ps') = w) by (destruct R' as (_ & _ & _ & B' & _); congruence).
  rewrite Ew in P'. rewrite (pron_fun _ _ _ _ _ _ P P'). apply H'.
Qed.
Lemma all_answers dict b cs words : dictOKo dict -> Forall (fun word => exists ps, readable dict b word ps) words ->
  Forall (fun c => In c notationLetters) cs ->
  exists fuel0 texts, Forall2 (answer dict b cs) words texts /\
    forall fuel, fuel0 <= fuel -> Forall2 (saidOf (parseWordF libthai_ct fuel dict b) Lines cs) words texts.
Proof.
  intros D R F. induction R as [|word words Hw R (f1 & texts & A & S)]; [exists 0, []; split; constructor|].
  destruct (one_answer dict b cs word D Hw F) as (f2 & text & A2 & S2).
  exists (Nat.max f1 f2), (text :: texts). split; [constructor; assumption|]. intros fuel L. constructor; [apply S2|apply S]; lia.
Qed.
Lemma C65_lemma breaker VERSION default files stdin prog args cs words path b dict loaded :
  Forall accepted args -> structureIs args Lines -> wanted args cs ->
  wordsAre stdin args words -> dictIs default args path -> DictOpen (files path) = Ok (dict, loaded) -> dictOK dict ->
  breaksFor breaker args b -> Forall (fun word => exists ps, readable (Some dict) b word ps) words ->
  exists fuel0 texts e, warning default args loaded e /\ Forall2 (answer (Some dict) b cs) words texts /\
    forall fuel, fuel0 <= fuel ->
      main libthai_ct breaker VERSION default files stdin fuel (prog :: args) = mkRun (String.concat "" texts) e (Ok 0%Z).
Proof.
  intros A S Wa W Di O OK B R. pose proof (wanted_in args cs Wa) as F.
  assert (D : dictOKo (Some dict)) by (intros d' H; injection H as <-; exact OK).
  destruct (all_answers (Some dict) b cs words D R F) as (fuel0 & texts & An & Sa).
  assert (X : forall fuel, fuel0 <= fuel -> exists e, warning default args loaded e /\
    main libthai_ct breaker VERSION default files stdin fuel (prog :: args) = mkRun (String.concat "" texts) e (Ok 0%Z)).
  { intros fuel L. eapply C42_run; eauto. }
  destruct (X fuel0 (le_n _)) as (e & We & _). exists fuel0, texts, e. split; [exact We|]. split; [exact An|].
  intros fuel L. destruct (X fuel L) as (e' & We' & ->). rewrite (warning_fun _ _ _ _ _ We' We). reflexivity.
Qed.
(** The program, run in any of its notations on texts made of words, names of
    letters and foreign stretches, prints for every text each
    of its readings once per notation and nothing else, and exits with 0. *)
Theorem C65_program breaker VERSION default files stdin prog args cs words path b dict loaded :
  Forall accepted args -> structureIs args Lines -> wanted args cs ->
  wordsAre stdin args words -> dictIs default args path -> DictOpen (files path) = Ok (dict, loaded) -> dictOK dict ->
  breaksFor breaker args b -> Forall (fun word => exists ps, readable (Some dict) b word ps) words ->
  exists fuel0 texts e, warning default args loaded e /\ Forall2 (answer (Some dict) b cs) words texts /\
    forall fuel, fuel0 <= fuel ->
      main libthai_ct breaker VERSION default files stdin fuel (prog :: args) = mkRun (String.concat "" texts) e (Ok 0%Z).
Proof. exact (C65_lemma breaker VERSION default files stdin prog args cs words path b dict loaded). Qed.
Print Assumptions C65_program.
(** A listed word, a blank and another word, in two notations. *)
Example C65_case : let args := ["-p"; "-r"; "-dx"; "กา สมร"]%string in
  let breaker := fun w : list N => [0; 2; 3] in
  exists dict, Forall accepted args /\ structureIs args Lines /\ wanted args ["p"; "r"]%char /\
  wordsAre "" args ["กา สมร"]%string /\ dictIs "/d" args "x" /\ DictOpen (exFiles "x") = Ok (dict, true) /\ dictOK dict /\
  breaksFor breaker args breaker /\
  readable (Some dict) breaker "กา สมร" [Word (letters "กา"); Foreign (letters " "); Word (letters "สมร")] /\
  main libthai_ct breaker "1" "/d" exFiles "" 500 ("thpronun"%string :: args) = mkRun
    ("กา สมร:" ++ nl ++ "kaa0 ( ) sah1 maown4" ++ nl ++ "kaa0 ( ) sah1 maown0" ++ nl ++ nl ++
      "ka( )samon" ++ nl ++ "ka( )samon" ++ nl ++ nl)%string "" (Ok 0%Z).
Proof.
  cbv zeta.
  assert (NT : forall a, match a with String x _ => is "-" x | _ => false end = false -> ~ isOption a).
  { intros a H (t & ->). discriminate. }
  eexists. split.
  { do 2 (apply Forall_cons; [apply acc_letter; cbn; tauto|]). apply Forall_cons; [apply acc_dict; discriminate|].
    apply Forall_cons; [apply acc_text, NT; reflexivity|apply Forall_nil]. }
  split; [split; rewrite <- givenb_ok; discriminate|]. split.
  { exists ["p"; "r"]%char. split; [|reflexivity]. apply (named_take "p" ""); [cbn; tauto|]. apply (named_take "r" ""); [cbn; tauto|].
    do 2 (apply named_skip; [intros c [<-|[<-|[<-|[<-|[<-|[]]]]]] H; apply letterb_ok in H; discriminate|]). constructor. }
  split.
  { exists ["กา สมร"]%string. split; [|reflexivity]. do 3 (apply texts_skip; [eexists; reflexivity|]). apply texts_take; [apply NT; reflexivity|constructor]. }
  split; [left; exists ["-p"; "-r"]%string, ["กา สมร"]%string; split; [reflexivity|rewrite <- givenb_ok; discriminate]|].
  split; [vm_compute; reflexivity|]. split; [eapply dictCheck_sound; [reflexivity|vm_compute; reflexivity]|]. split.
  { right. split; [rewrite <- givenb_ok; discriminate|reflexivity]. }
  split; [|vm_compute; reflexivity].
  split; [discriminate|]. split; [|split; [|split; [vm_compute; reflexivity|split; [vm_compute; reflexivity|apply sameBreaksb_sound; vm_compute; reflexivity]]]].
  - repeat (apply Forall_cons; [cbn [pieceOK]|]); try apply Forall_nil.
    + split; [letters_ok|]. split; [vm_compute; lia|]. intros c H. vm_compute in H. injection H as <-.
      intros [X|[X|[X|X]]]; discriminate.
    + split; [discriminate|]. repeat (apply Forall_cons; [split; [vm_compute; reflexivity|discriminate]|]). apply Forall_nil.
    + split; [letters_ok|]. split; [vm_compute; lia|]. intros c H. vm_compute in H. injection H as <-.
      intros [X|[X|[X|X]]]; discriminate.
  - cbn [map pieceText sentence].
    repeat match goal with
    | |- _ /\ _ => split
    | |- _ <> [] => vm_compute; discriminate
    | |- follows _ _ _ => apply followsb_sound; vm_compute; reflexivity
    | |- True => exact I
    end.
Qed.

(** Prop_ProgramJson.v - property C69: what the program prints in JSON and in
    grouped JSON, from the command line to the decoded value. *)
From Coq Require Import List NArith ZArith Bool String Ascii Lia Arith Sorted.
From Verif Require Import Base ThUni ThCons Syl Utf Lattice Dag PronDag SylOut ThaiOut Output Dict GenDict Parser Cli.
From Verif Require Import Spec OrderProofs DictProofs Prop_Syl ParserSpec ParserFacts ParserInv ParserResult ParserListed ParserDict UtfProofs.
From Verif Require Import Prop_Parser Prop_Notation Prop_Graph Prop_Output Prop_Cli Prop_Cli2 Prop_Roman Prop_Codes Prop_Listing
  Prop_Product Grammar GrammarWord Prop_Grammar Prop_Text Prop_Breaks Prop_Program GroupProofs GroupSyl Prop_CodeOrder.
Import ListNotations.
Local Open Scope string_scope.
Local Open Scope list_scope.

(** ** Vocabulary *)
(** A syllable in the notation with letter [c]. *)
Inductive Noted (v : Syl) : ascii -> string -> Prop :=
| N_thai t : respelled v t -> Noted v "t" t
| N_roman t : romanized v t -> Noted v "r" t
| N_phonetic t : phonetic v t -> Noted v "p" t
| N_soundex t : soundex v t -> Noted v "s" t
| N_raw t : raw v t -> Noted v "w" t.
(** The value of a list of pronunciations: a list of lists of texts. *)
Inductive WordValue (c : ascii) (s : SylString) : Json -> Prop :=
| WV ts : Forall2 (fun v t => Noted v c t) s ts -> WordValue c s (JArr (map JStr ts)).
Inductive ListValue (c : ascii) (l : list SylString) : Json -> Prop :=
| LV js : Forall2 (WordValue c) l js -> ListValue c l (JArr js).
(** The grouped value: a list of chains, each a list of groups, each a list of
    alternatives. *)
Inductive ChainValue (c : ascii) (g : list (list SylString)) : Json -> Prop :=
| CV js : Forall2 (ListValue c) g js -> ChainValue c g (JArr js).
Inductive GroupValue (c : ascii) (g : list (list (list SylString))) : Json -> Prop :=
| GV js : Forall2 (ChainValue c) g js -> GroupValue c g (JArr js).
(** One alternative from each group of a chain. *)
Inductive Choice : list (list SylString) -> SylString -> Prop :=
| Ch_end : Choice [] []
| Ch_group a g gs s : In a g -> Choice gs s -> Choice (g :: gs) (a ++ s).
(** The same sounds, wherever they end. *)
Definition alike (a b : SylString) : Prop := map spoken a = map spoken b.
(** What is printed for a word: for every letter a line of JSON. *)
Definition readings dict b (word : string) (l : list SylString) : Prop :=
  NoDup l /\ forall ps, readable dict b word ps -> forall s, In s l <->
    exists ss, Forall2 (Spoken dict) ps ss /\ s = inTurn 0 (map pieceText ps) ss.
Definition frame (word : string) (outs : list string) : string :=
  (word ++ ":" ++ nl ++ String.concat "" (map (fun o => (o ++ nl)%string) outs))%string.
Definition flatAnswer dict b (cs : list ascii) (word text : string) : Prop :=
  exists l outs, readings dict b word l /\
    Forall2 (fun c o => exists j, decode o = Some j /\ ListValue c l j) cs outs /\ text = frame word outs.
(** The alternatives of a group are in order, and two neighbouring groups do
    not both have one alternative. *)
Definition tidyChain (g : list (list SylString)) : Prop :=
  Forall (StronglySorted StringPrecedes) g /\ forall g1 a b g2, g <> g1 ++ [a] :: [b] :: g2.
Definition groupAnswer dict b (cs : list ascii) (word text : string) : Prop :=
  exists l chains outs, readings dict b word l /\
    (forall s, In s l -> exists g s', In g chains /\ Choice g s' /\ alike s' s) /\
    (forall g s', In g chains -> Choice g s' -> exists s, In s l /\ alike s' s) /\
    Forall (fun g => Forall (fun alts => alts <> []) g) chains /\ Forall tidyChain chains /\
    Forall2 (fun c o => exists j, decode o = Some j /\ GroupValue c chains j) cs outs /\ text = frame word outs.
(** Text without quotes, backslashes and control characters that can be read
    in some way. *)
Definition speakable dict b (word : string) : Prop :=
  plain word = true /\ exists ps ss, readable dict b word ps /\ Forall2 (Spoken dict) ps ss.

(** ** Lemmas *)
Lemma forall2_map {A B} (R : A -> B -> Prop) (f : A -> B) l : (forall x, In x l -> R x (f x)) -> Forall2 R l (map f l).
Proof. induction l as [|x l IH]; intros H; cbn [map]; constructor; [apply H; left; reflexivity|apply IH; intros; apply H; right; assumption]. Qed.
Lemma word_value c text s : (forall v, In v s -> Noted v c (text v)) -> WordValue c s (jword text s).
Proof.
  intros H. unfold jword. rewrite <- (map_map text JStr). constructor. apply (forall2_map (fun v t => Noted v c t)). exact H.
Qed.
Lemma list_value c text l : (forall s v, In s l -> In v s -> Noted v c (text v)) -> ListValue c l (jlist text l).
Proof. intros H. constructor. apply forall2_map. intros s Hs. apply word_value. intros v. apply H. exact Hs. Qed.
Lemma latt_value c text (latt : PronunLatt) :
  (forall g f s v, In g latt -> In f g -> In s (alts f) -> In v s -> Noted v c (text v)) ->
  GroupValue c (map (map alts) latt) (jlatt text latt).
Proof.
  intros H. constructor. 
  assert (X : forall g, In g latt -> ChainValue c (map alts g) (jchain text g)).
  { intros g Hg. constructor.
    assert (Y : forall f, In f g -> ListValue c (alts f) (jlist text (alts f))) by (intros f Hf; apply list_value; eauto).
    clear - Y. induction g as [|f g IH]; cbn [map]; constructor; [apply Y; left; reflexivity|apply IH; intros; apply Y; right; assumption]. }
  clear H. induction latt as [|g latt IH]; cbn [map]; constructor; [apply X; left; reflexivity|apply IH; intros; apply X; right; assumption].
Qed.
Lemma choice_den (c : PronunChain) s : Choice (map alts c) s <-> ChainDen c s.
Proof.
  split.
  - revert s. induction c as [|f c IH]; intros s H; inversion H; subst; constructor; auto.
  - induction 1; cbn [map]; constructor; assumption.
Qed.
(** The notation of a letter. *)
Lemma noted_of c : In c notationLetters -> exists f delim, notationOf c = Some (f, delim) /\ In f notations /\
  forall v t, sayable v -> f v = Ok t -> Noted v c t.
Proof.
  destruct says_all as (Y1 & Y2 & Y3 & Y4 & Y5).
  intros [<-|[<-|[<-|[<-|[<-|[]]]]]]; eexists _, _; (split; [reflexivity|]); (split; [cbn; tauto|]); intros v t Sv E.
  - apply N_roman, Y2; assumption.
  - apply N_soundex, Y4; assumption.
  - apply N_thai, Y1; assumption.
  - apply N_phonetic, Y3; assumption.
  - apply N_raw, Y5; assumption.
Qed.
Lemma forall2_build {A B} (R : A -> B -> Prop) l : (forall a, In a l -> exists b, R a b) -> exists m, Forall2 R l m.
Proof.
  induction l as [|a l IH]; intros H; [exists []; constructor|]. destruct (H a (or_introl eq_refl)) as (b & Rb).
  destruct IH as (m & F); [intros; apply H; right; assumption|]. exists (b :: m). constructor; assumption.
Qed.
Lemma forall2_weaken {A B} (R Q : A -> B -> Prop) l m : (forall a b, R a b -> Q a b) -> Forall2 R l m -> Forall2 Q l m.
Proof. intros H. induction 1; constructor; auto. Qed.

Lemma adj_none (c : PronunChain) : noAdjSingles c -> forall g1 a b g2, map alts c <> g1 ++ [a] :: [b] :: g2.
Proof.
  induction c as [|f c IH]; intros N g1 a b g2 E; [destruct g1; discriminate E|].
  destruct g1 as [|x g1].
  - destruct c as [|g c]; cbn [map app] in E; [discriminate E|]. injection E as E1 E2 _. destruct N as (N & _).
    apply N. split; [exists a; exact E1|exists b; exact E2].
  - cbn [map app] in E. injection E as _ E. destruct c as [|g c]; [destruct g1; discriminate E|]. destruct N as (_ & N). exact (IH N g1 a b g2 E).
Qed.
Lemma no_neighbours d fd latt c g1 a b g2 : Acyclic d -> fracDAG d = Ok fd -> fracLattice fd = Ok latt -> In c latt ->
  map alts c <> g1 ++ [a] :: [b] :: g2.
Proof.
  intros A E1 E2 Ic. destruct (fracDAG_ok d A) as (fd' & E1' & P & _). rewrite E1 in E1'. injection E1' as <-.
  destruct (fracLattice_ok fd (p_acy _ P)) as (l' & E2' & _ & N & _). rewrite E2 in E2'. injection E2' as <-.
  apply adj_none. apply N. exact Ic.
Qed.
(** What is printed for a word whose pronunciations are [l]. *)
Definition decodesTo (o : string) (j : Json) : Prop := decode o = Some j.
Definition flatValuesBy (Q : string -> Json -> Prop) (cs : list ascii) (l : list SylString) (outs : list string) : Prop :=
  Forall2 (fun c o => exists j, Q o j /\ ListValue c l j) cs outs.
Definition groupValuesBy (Q : string -> Json -> Prop) (cs : list ascii) (l : list SylString) (outs : list string) : Prop :=
  exists chains,
    (forall s, In s l -> exists g s', In g chains /\ Choice g s' /\ alike s' s) /\
    (forall g s', In g chains -> Choice g s' -> exists s, In s l /\ alike s' s) /\
    Forall (fun g => Forall (fun alts => alts <> []) g) chains /\ Forall tidyChain chains /\
    Forall2 (fun c o => exists j, Q o j /\ GroupValue c chains j) cs outs.
Definition flatValues := flatValuesBy decodesTo.
Definition groupValues := groupValuesBy decodesTo.
Lemma listing_by (Q : string -> Json -> Prop) dict b cs word w l st : dictOKo dict -> Forall (fun c => In c notationLetters) cs ->
  (forall fuel d f flat latt, ParseU16F libthai_ct fuel w dict (b w) = Ok d -> In f notations ->
    DAGSylStrings d 0 = Ok flat -> grouped d = Ok latt ->
    (flat <> [] -> exists out, jsonOutputDAG f d = Ok out /\ Q out (jlist (textOf f) flat)) /\
    (exists out, gjsonOutputDAG f d = Ok out /\ Q out (jlatt (textOf f) latt))) ->
  from_bytes word = Ok w -> (101 * Z.of_nat (List.length w) < 2 ^ 31)%Z -> pronounced libthai_ct w dict (b w) l ->
  st = Flat /\ l <> [] \/ st = Grouped ->
  exists fuel0 outs, match st with Flat => flatValuesBy Q cs l outs | _ => groupValuesBy Q cs l outs end /\
    forall fuel, (fuel0 <= fuel)%nat -> saidOf (parseWordF libthai_ct fuel dict b) st cs word (frame word outs).
Proof.
  intros D F HQ B Size P St. pose proof P as (f1 & d & E & L).
  destruct (flat_good libthai_ct w dict (b w) f1 d D E) as (l' & El & _ & Ne & Ed). rewrite L in El. injection El as <-.
  destruct (C26_acyclic_rooted libthai_ct w dict (b w) f1 d D E) as (A & Nr & _).
  destruct (C23_lemma libthai_ct w dict (b w)) as (r & f2 & _ & Sf & Al).
  assert (Er : r = Ok d) by (destruct (Al f1) as [X|X]; congruence). subst r.
  assert (No : forall c f delim s v, (forall v t, sayable v -> f v = Ok t -> Noted v c t) -> notationOf c = Some (f, delim) -> In f notations ->
    In s l -> In v s -> Noted v c (textOf f v)).
  { intros c f delim s v H _ Hf Hs Hv. apply H; [exact (syl_sayable w word dict (b w) l D B P Size s v Hs Hv)|].
    apply (syl_text w word dict (b w) l D B P f s v Hf Hs Hv). }
  assert (Fin : forall outs, Forall2 (fun c o => written st c d o) cs outs ->
    forall fuel, (f2 <= fuel)%nat -> saidOf (parseWordF libthai_ct fuel dict b) st cs word (frame word outs)).
  { intros outs W fuel Lf. exists d, outs. split; [|split; [exact W|reflexivity]]. unfold parseWordF. rewrite B. cbn [bind]. apply Sf. exact Lf. }
  rewrite Forall_forall in F. exists f2. destruct St as [(-> & Nl)| ->].
  - destruct (forall2_build (fun c o => written Flat c d o /\ exists j, Q o j /\ ListValue c l j) cs) as (outs & W).
    { intros c Hc. destruct (noted_of c (F c Hc)) as (f & delim & Q1 & Q2 & Q3).
      destruct (grouped_good (fun v => exists s, In s l /\ In v s) d A ltac:(intros x y v H; exact (Ed x y v H))) as (fd & latt & E1 & E2 & _).
      destruct (HQ f1 d f l latt E Q2 L ltac:(unfold grouped; rewrite E1; exact E2)) as (Jf & _). destruct (Jf Nl) as (out & O & Dc). exists out. split; [exists f, delim; auto|].
      eexists. split; [exact Dc|]. apply list_value. intros s v Hs Hv. exact (No c f delim s v Q3 Q1 Q2 Hs Hv). }
    exists outs. split; [|apply Fin; eapply forall2_weaken; [|exact W]; intros ? ? X; apply X].
    eapply forall2_weaken; [|exact W]; intros ? ? X; apply X.
  - destruct (grouped_good (fun v => exists s, In s l /\ In v s) d A ltac:(intros x y v H; exact (Ed x y v H))) as (fd & latt & E1 & E2 & H).
    destruct (C11_grouping_preserves d A Nr) as (latt' & flat & G & Ef & Qs).
    rewrite L in Ef. injection Ef as <-. pose proof G as G0. unfold grouped in G. rewrite E1 in G. cbv beta iota delta [bind] in G. rewrite E2 in G. injection G as <-.
    destruct (forall2_build (fun c o => written Grouped c d o /\ exists j, Q o j /\ GroupValue c (map (map alts) latt) j) cs) as (outs & W).
    { intros c Hc. destruct (noted_of c (F c Hc)) as (f & delim & Q1 & Q2 & Q3).
      destruct (HQ f1 d f l latt E Q2 L G0) as (_ & out & O & Dc).
      exists out. split; [exists f, delim; auto|]. eexists. split; [exact Dc|]. apply latt_value. intros g f0 s v Hg Hf Hs Hv.
      destruct (H g Hg) as (_ & Fg). rewrite Forall_forall in Fg. destruct (Fg f0 Hf) as (_ & X). unfold fracP in X.
      rewrite Forall_forall in X. specialize (X s Hs). rewrite Forall_forall in X. destruct (X v Hv) as (s1 & I1 & I2).
      exact (No c f delim s1 v Q3 Q1 Q2 I1 I2). }
    exists outs. split; [|apply Fin; eapply forall2_weaken; [|exact W]; intros ? ? X; apply X].
    exists (map (map alts) latt). split; [|split; [|split; [|split]]].
    + intros s Hs. destruct (proj2 (Qs s)) as (c & Ic & s' & Ds & Eq).
      { exists s. split; [exact Hs|]. apply str_eqb_spoken. reflexivity. }
      exists (map alts c), s'. split; [apply in_map; exact Ic|]. split; [apply choice_den; exact Ds|]. apply str_eqb_spoken. exact Eq.
    + intros g s' Ig Ch. apply in_map_iff in Ig. destruct Ig as (c & <- & Ic). apply choice_den in Ch.
      destruct (proj1 (Qs s')) as (s & Is & Eq).
      { exists c. split; [exact Ic|]. exists s'. split; [exact Ch|]. apply str_eqb_spoken. reflexivity. }
      exists s. split; [exact Is|]. apply str_eqb_spoken in Eq. symmetry. exact Eq.
    + apply Forall_forall. intros g Ig. apply in_map_iff in Ig. destruct Ig as (c & <- & Ic). apply Forall_forall. intros a Ia.
      apply in_map_iff in Ia. destruct Ia as (f & <- & If). destruct (H c Ic) as (_ & Fg). rewrite Forall_forall in Fg. apply (Fg f If).
    + apply Forall_forall. intros g Ig. apply in_map_iff in Ig. destruct Ig as (c & <- & Ic). split.
      * pose proof (C84_groups d fd latt A E1 E2) as So. rewrite Forall_forall in So. specialize (So c Ic).
        rewrite Forall_forall in *. intros a Ia. apply in_map_iff in Ia. destruct Ia as (f & <- & If). apply So. exact If.
      * intros g1 a1 b1 g2 Eg. exact (no_neighbours d fd latt c g1 a1 b1 g2 A E1 E2 Ic Eg).
    + eapply forall2_weaken; [|exact W]. intros ? ? X; apply X.
Qed.
Lemma listing_json dict b cs word w l st : dictOKo dict -> Forall (fun c => In c notationLetters) cs -> plain word = true ->
  from_bytes word = Ok w -> (101 * Z.of_nat (List.length w) < 2 ^ 31)%Z -> pronounced libthai_ct w dict (b w) l ->
  st = Flat /\ l <> [] \/ st = Grouped ->
  exists fuel0 outs, match st with Flat => flatValues cs l outs | _ => groupValues cs l outs end /\
    forall fuel, (fuel0 <= fuel)%nat -> saidOf (parseWordF libthai_ct fuel dict b) st cs word (frame word outs).
Proof.
  intros D F Pl B. apply (listing_by decodesTo); auto. intros fuel d f flat latt E Hf L G.
  destruct (C20_parse_decodes libthai_ct word w dict (b w) fuel d f libthai_ok D Hf B Pl E) as (flat' & latt' & L' & G' & H).
  rewrite L in L'. rewrite G in G'. injection L' as <-. injection G' as <-. exact H.
Qed.
Section One.
Variables (dict : option Dict) (b : list N -> list nat) (cs : list ascii) (word : string).
Hypothesis D : dictOKo dict.
Hypothesis F : Forall (fun c => In c notationLetters) cs.
Hypothesis Sp : speakable dict b word.
Lemma one_json st : st = Flat \/ st = Grouped ->
  exists fuel0 text, (match st with Flat => flatAnswer dict b cs word text | _ => groupAnswer dict b cs word text end) /\
    forall fuel, (fuel0 <= fuel)%nat -> saidOf (parseWordF libthai_ct fuel dict b) st cs word text.
Proof.
  intros St. destruct Sp as (Pl & ps & ss & R & Sk). destruct (readable_pron dict b word ps D R) as (l & P & Hl).
  pose proof R as (_ & _ & _ & B & Size & _). remember (List.concat (map pieceText ps)) as w eqn:Hw.
  assert (Nl : l <> []).
  { intros ->. apply (proj2 (Hl (inTurn 0 (map pieceText ps) ss))). exists ss. auto. }
  assert (Rd : readings dict b word l).
  { split; [apply (pron_nodup libthai_ct w dict (b w)); assumption|]. intros ps' R' s.
    destruct (readable_pron dict b word ps' D R') as (l2 & P' & H').
    assert (Ew : List.concat (map pieceText ps') = w) by (destruct R' as (_ & _ & _ & B' & _); congruence).
    rewrite Ew in P'. rewrite (pron_fun _ _ _ _ _ _ P P'). apply H'. }
  destruct (listing_json dict b cs word w l st D F Pl B Size P) as (f2 & outs & V & Sa); [tauto|].
  exists f2, (frame word outs). split; [|exact Sa]. destruct St as [-> | ->].
  - exists l, outs. auto.
  - destruct V as (chains & V1 & V2 & V3 & V4 & V5). exists l, chains, outs. auto 10.
Qed.
End One.
Lemma json_answers dict b cs st words : dictOKo dict -> Forall (fun c => In c notationLetters) cs ->
  Forall (speakable dict b) words -> st = Flat \/ st = Grouped ->
  exists fuel0 texts, Forall2 (match st with Flat => flatAnswer dict b cs | _ => groupAnswer dict b cs end) words texts /\
    forall fuel, (fuel0 <= fuel)%nat -> Forall2 (saidOf (parseWordF libthai_ct fuel dict b) st cs) words texts.
Proof.
  intros D F R St. induction R as [|word words Hw R (f1 & texts & A & S)]; [exists 0%nat, []; split; constructor|].
  destruct (one_json dict b cs word D F Hw st St) as (f2 & text & A2 & S2).
  exists (Nat.max f1 f2), (text :: texts). split; [constructor; [destruct st; assumption|assumption]|].
  intros fuel L. constructor; [apply S2|apply S]; lia.
Qed.
Lemma C69_lemma breaker VERSION default files stdin prog args cs words path b dict loaded st :
  st = Flat \/ st = Grouped ->
  Forall accepted args -> structureIs args st -> wanted args cs ->
  wordsAre stdin args words -> dictIs default args path -> DictOpen (files path) = Ok (dict, loaded) -> dictOK dict ->
  breaksFor breaker args b -> Forall (speakable (Some dict) b) words ->
  exists fuel0 texts e, warning default args loaded e /\
    Forall2 (match st with Flat => flatAnswer (Some dict) b cs | _ => groupAnswer (Some dict) b cs end) words texts /\
    forall fuel, (fuel0 <= fuel)%nat ->
      main libthai_ct breaker VERSION default files stdin fuel (prog :: args) = mkRun (String.concat "" texts) e (Ok 0%Z).
Proof.
  intros St A S Wa W Di O OK B R. pose proof (wanted_in args cs Wa) as F.
  assert (D : dictOKo (Some dict)) by (intros d' H; injection H as <-; exact OK).
  destruct (json_answers (Some dict) b cs st words D F R St) as (fuel0 & texts & An & Sa).
  assert (X : forall fuel, (fuel0 <= fuel)%nat -> exists e, warning default args loaded e /\
    main libthai_ct breaker VERSION default files stdin fuel (prog :: args) = mkRun (String.concat "" texts) e (Ok 0%Z)).
  { intros fuel L. eapply C42_run; eauto. }
  destruct (X fuel0 (le_n _)) as (e & We & _). exists fuel0, texts, e. split; [exact We|]. split; [exact An|].
  intros fuel L. destruct (X fuel L) as (e' & We' & ->). rewrite (warning_fun _ _ _ _ _ We' We). reflexivity.
Qed.
(** With [-j] the program prints for every text and every notation a JSON list
    of all its readings, each once, as a list of syllables. *)
Theorem C69_json breaker VERSION default files stdin prog args cs words path b dict loaded :
  Forall accepted args -> structureIs args Flat -> wanted args cs ->
  wordsAre stdin args words -> dictIs default args path -> DictOpen (files path) = Ok (dict, loaded) -> dictOK dict ->
  breaksFor breaker args b -> Forall (speakable (Some dict) b) words ->
  exists fuel0 texts e, warning default args loaded e /\ Forall2 (flatAnswer (Some dict) b cs) words texts /\
    forall fuel, (fuel0 <= fuel)%nat ->
      main libthai_ct breaker VERSION default files stdin fuel (prog :: args) = mkRun (String.concat "" texts) e (Ok 0%Z).
Proof.
  exact (C69_lemma breaker VERSION default files stdin prog args cs words path b dict loaded Flat (or_introl eq_refl)).
Qed.
Print Assumptions C69_json.
(** With [-g] it prints chains of groups: choosing an alternative from every
    group of a chain gives the readings, and all of them. *)
Theorem C69_grouped breaker VERSION default files stdin prog args cs words path b dict loaded :
  Forall accepted args -> structureIs args Grouped -> wanted args cs ->
  wordsAre stdin args words -> dictIs default args path -> DictOpen (files path) = Ok (dict, loaded) -> dictOK dict ->
  breaksFor breaker args b -> Forall (speakable (Some dict) b) words ->
  exists fuel0 texts e, warning default args loaded e /\ Forall2 (groupAnswer (Some dict) b cs) words texts /\
    forall fuel, (fuel0 <= fuel)%nat ->
      main libthai_ct breaker VERSION default files stdin fuel (prog :: args) = mkRun (String.concat "" texts) e (Ok 0%Z).
Proof.
  exact (C69_lemma breaker VERSION default files stdin prog args cs words path b dict loaded Grouped (or_intror eq_refl)).
Qed.
Print Assumptions C69_grouped.
(** The text of C65 in both forms. *)
Definition exBreaker (w : list N) : list nat := wordEnds 0 [letters "กา"; letters " "; letters "สมร"].
Definition exPieces : list Piece := [Word (letters "กา"); Foreign (letters " "); Word (letters "สมร")].
Definition q (s : string) : string := (dquote ++ s ++ dquote)%string.
Lemma exArgs_ok c : In c ["j"; "g"]%char -> let args := ["-p"; String "-" (String c ""); "-dx"; "กา สมร"]%string in
  Forall accepted args /\ structureIs args (if (c =? "g")%char then Grouped else Flat) /\ wanted args ["p"]%char /\
  wordsAre "" args ["กา สมร"]%string /\ dictIs "/d" args "x" /\ breaksFor exBreaker args exBreaker.
Proof.
  assert (NT : forall a, match a with String x _ => is "-" x | _ => false end = false -> ~ isOption a).
  { intros a H (t & ->). discriminate. }
  intros Hc. cbv zeta. split.
  { apply Forall_cons; [apply acc_letter; cbn; tauto|]. apply Forall_cons; [apply acc_letter; cbn in *; tauto|].
    apply Forall_cons; [apply acc_dict; discriminate|]. apply Forall_cons; [apply acc_text, NT; reflexivity|apply Forall_nil]. }
  split.
  { destruct Hc as [<-|[<-|[]]]; [split; rewrite <- givenb_ok; [reflexivity|discriminate]|cbn; rewrite <- givenb_ok; reflexivity]. }
  split.
  { exists ["p"]%char. split; [|reflexivity]. apply (named_take "p" ""); [cbn; tauto|].
    destruct Hc as [<-|[<-|[]]]; do 3 (apply named_skip; [intros c [<-|[<-|[<-|[<-|[<-|[]]]]]] H; apply letterb_ok in H; discriminate|]); constructor. }
  split.
  { exists ["กา สมร"]%string. split; [|reflexivity]. do 3 (apply texts_skip; [eexists; reflexivity|]). apply texts_take; [apply NT; reflexivity|constructor]. }
  split.
  { left. exists ["-p"; String "-" (String c "")]%string, ["กา สมร"]%string. split; [reflexivity|rewrite <- givenb_ok; discriminate]. }
  right. split; [|reflexivity]. destruct Hc as [<-|[<-|[]]]; rewrite <- givenb_ok; discriminate.
Qed.
Example C69_case : exists dict, DictOpen (exFiles "x") = Ok (dict, true) /\ dictOK dict /\
  speakable (Some dict) exBreaker "กา สมร" /\
  (let args := ["-p"; "-j"; "-dx"; "กา สมร"]%string in
   Forall accepted args /\ structureIs args Flat /\ wanted args ["p"]%char /\ wordsAre "" args ["กา สมร"]%string /\
   dictIs "/d" args "x" /\ breaksFor exBreaker args exBreaker) /\
  (let args := ["-p"; "-g"; "-dx"; "กา สมร"]%string in
   Forall accepted args /\ structureIs args Grouped /\ wanted args ["p"]%char /\ wordsAre "" args ["กา สมร"]%string /\
   dictIs "/d" args "x" /\ breaksFor exBreaker args exBreaker) /\
  main libthai_ct exBreaker "1" "/d" exFiles "" 500 ["thpronun"; "-p"; "-j"; "-dx"; "กา สมร"]%string = mkRun
    ("กา สมร:" ++ nl ++ "[[" ++ q "kaa0" ++ "," ++ q "( )" ++ "," ++ q "sah1" ++ "," ++ q "maown4" ++ "],["
      ++ q "kaa0" ++ "," ++ q "( )" ++ "," ++ q "sah1" ++ "," ++ q "maown0" ++ "]]" ++ nl)%string "" (Ok 0%Z) /\
  main libthai_ct exBreaker "1" "/d" exFiles "" 500 ["thpronun"; "-p"; "-g"; "-dx"; "กา สมร"]%string = mkRun
    ("กา สมร:" ++ nl ++ "[[[[" ++ q "kaa0" ++ "," ++ q "( )" ++ "]],[[" ++ q "sah1" ++ "," ++ q "maown4" ++ "],["
      ++ q "sah1" ++ "," ++ q "maown0" ++ "]]]]" ++ nl)%string "" (Ok 0%Z).
Proof.
  eexists. split; [vm_compute; reflexivity|].
  match goal with |- dictOK ?d /\ _ => assert (OK : dictOK d) by (eapply dictCheck_sound; [reflexivity|vm_compute; reflexivity]); set (dict := d) in * end.
  split; [exact OK|]. split; [|split; [exact (exArgs_ok "j" ltac:(cbn; tauto))|split; [exact (exArgs_ok "g" ltac:(cbn; tauto))|split; vm_compute; reflexivity]]].
  assert (R : readable (Some dict) exBreaker "กา สมร" exPieces).
  { split; [discriminate|]. split; [|split; [|split; [vm_compute; reflexivity|split; [vm_compute; reflexivity|apply sameBreaksb_sound; vm_compute; reflexivity]]]].
    - repeat (apply Forall_cons; [cbn [pieceOK]|]); try apply Forall_nil.
      + split; [letters_ok|]. split; [vm_compute; lia|]. intros c H. vm_compute in H. injection H as <-.
        intros [X|[X|[X|X]]]; discriminate.
      + split; [discriminate|]. repeat (apply Forall_cons; [split; [vm_compute; reflexivity|discriminate]|]). apply Forall_nil.
      + split; [letters_ok|]. split; [vm_compute; lia|]. intros c H. vm_compute in H. injection H as <-.
        intros [X|[X|[X|X]]]; discriminate.
    - cbn [map pieceText sentence exPieces].
      repeat match goal with
      | |- _ /\ _ => split
      | |- _ <> [] => vm_compute; discriminate
      | |- follows _ _ _ => apply followsb_sound; vm_compute; reflexivity
      | |- True => exact I
      end. }
  split; [vm_compute; reflexivity|]. exists exPieces.
  assert (Do : dictOKo (Some dict)) by (intros d' H; injection H as <-; exact OK).
  destruct (readable_pron (Some dict) exBreaker _ _ Do R) as (l & P & H).
  assert (P2 : exists l2, l2 <> [] /\ pronounced libthai_ct (List.concat (map pieceText exPieces)) (Some dict) (exBreaker (List.concat (map pieceText exPieces))) l2).
  { eexists. split; [|exists 500%nat; eexists; split; vm_compute; reflexivity]. discriminate. }
  destruct P2 as (l2 & N2 & P2). rewrite (pron_fun _ _ _ _ _ _ P2 P) in N2.
  destruct l as [|s l]; [congruence|]. destruct (proj1 (H s) (or_introl eq_refl)) as (ss & Fs & _). exists ss. split; [exact R|exact Fs].
Qed.

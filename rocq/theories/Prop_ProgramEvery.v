(** Prop_ProgramEvery.v - property C72: what the program does for every text,
    from the command line to its end. *)
From Coq Require Import List NArith ZArith Bool String Ascii Lia Arith Sorted.
From Verif Require Import Base ThUni ThCons Syl Utf Lattice Dag PronDag SylOut ThaiOut Output Dict GenDict Parser Cli.
From Verif Require Import Spec OrderProofs DictProofs Prop_Syl ParserSpec ParserFacts ParserInv ParserResult ParserListed ParserDict UtfProofs.
From Verif Require Import Prop_Parser Prop_Notation Prop_Graph Prop_Output Prop_Cli Prop_Cli2 Prop_Roman Prop_Codes Prop_Listing
  Prop_Product Grammar GrammarWord TextGrammar TextProof Prop_Every Prop_Grammar Prop_Text Prop_Breaks Prop_Program Prop_ProgramJson.
Import ListNotations.
Local Open Scope string_scope.
Local Open Scope list_scope.
Local Open Scope nat_scope.

(** ** Vocabulary *)
(** Positions fit into an [int]; the breaks are in order and within the text. *)
Definition modest (b : list N -> list nat) (word : string) : Prop :=
  forall w, from_bytes word = Ok w -> (101 * Z.of_nat (List.length w) < 2 ^ 31)%Z /\
    StronglySorted lt (b w) /\ Forall (fun x => x <= List.length w) (b w).
(** Not UTF-8, or with a vowel at the end that waits for its consonant. *)
Definition hopeless dict (b : list N -> list nat) (word : string) : Prop :=
  (forall w, from_bytes word <> Ok w) \/ exists w, from_bytes word = Ok w /\ stuck (entry dict) w (b w).
(** Each reading of the text once. *)
Definition allReadings dict (b : list N -> list nat) (word : string) (l : list SylString) : Prop :=
  exists w, from_bytes word = Ok w /\ NoDup l /\ forall s, In s l <-> Reading (entry dict) w (b w) s.
(** What is printed for a word: lines, a JSON value, a grouped JSON value. *)
Definition lineAnswer dict b (cs : list ascii) (word text : string) : Prop :=
  ~ hopeless dict b word /\ exists l outs, allReadings dict b word l /\ Forall2 (block l) cs outs /\ text = frame word outs.
Definition jsonAnswer dict b (cs : list ascii) (word text : string) : Prop :=
  ~ hopeless dict b word /\ exists l outs, allReadings dict b word l /\ l <> [] /\ flatValues cs l outs /\ text = frame word outs.
Definition chainAnswer dict b (cs : list ascii) (word text : string) : Prop :=
  ~ hopeless dict b word /\ exists l outs, allReadings dict b word l /\ groupValues cs l outs /\ text = frame word outs.

(** ** Lemmas *)
Lemma word_cases dict b word : dictOKo dict -> modest b word ->
  (hopeless dict b word /\ exists fuel0, forall fuel, fuel0 <= fuel -> parseWordF libthai_ct fuel dict b word = Throw) \/
  (~ hopeless dict b word /\ exists w l, from_bytes word = Ok w /\ (101 * Z.of_nat (List.length w) < 2 ^ 31)%Z /\
    pronounced libthai_ct w dict (b w) l /\ allReadings dict b word l).
Proof.
  intros D M. destruct (from_bytes_safe word) as [E|(w & E)].
  - left. split; [left; intros w; congruence|]. exists 0. intros fuel _. unfold parseWordF. rewrite E. reflexivity.
  - destruct (M w E) as (Size & S & I). destruct (C71_outcome w dict (b w) D S I) as [(St & f & T)|(NS & l & P)].
    + left. split; [right; eauto|]. exists f. intros fuel L. unfold parseWordF. rewrite E. cbn [bind]. apply T. exact L.
    + right. split.
      * intros [X|(w' & E' & X)]; [exact (X w E)|]. apply NS. congruence.
      * exists w, l. split; [exact E|]. split; [exact Size|]. split; [exact P|]. exists w. split; [exact E|].
        split; [apply (pron_nodup libthai_ct w dict (b w)); assumption|]. exact (C71_every_text w dict (b w) l D S I P).
Qed.

Inductive Halt := Exception | Undefined.
Definition haltRes {A} (h : Halt) : Res A := match h with Exception => Throw | Undefined => UB end.
Lemma halt_bind {A B} h (k : A -> Run B) o e : rbind (mkRun o e (haltRes h)) k = mkRun o e (haltRes h).
Proof. destruct h; reflexivity. Qed.

Section Total.
Variables (dict : Dict) (b : list N -> list nat) (cs : list ascii) (st : Structure).
Variable breaker : list N -> list nat.
Variable answered : string -> string -> Prop.
Variable off : string -> Halt -> Prop.
Notation parse fuel := (parseWordF libthai_ct fuel (Some dict) b).
Definition breaksOff (word : string) (h : Halt) (fuel : nat) : Prop := forall p,
  (forall w, parseWord libthai_ct breaker fuel p w = parse fuel w) ->
  DoParse libthai_ct breaker fuel p (flat_map (outOf st) cs) word = mkRun (word ++ ":" ++ nl) "" (haltRes h).
(** A word is answered, or ends the program. *)
Definition handled (word : string) : Prop := exists fuel0,
  (exists text, answered word text /\ forall fuel, fuel0 <= fuel -> saidOf (parse fuel) st cs word text) \/
  (exists h, off word h /\ forall fuel, fuel0 <= fuel -> breaksOff word h fuel).
Lemma all_handled words : Forall handled words ->
  exists fuel0 pre texts post, words = pre ++ post /\ Forall2 answered pre texts /\
    (forall fuel, fuel0 <= fuel -> Forall2 (saidOf (parse fuel) st cs) pre texts) /\
    (post = [] \/ exists bad rest h, post = bad :: rest /\ off bad h /\ forall fuel, fuel0 <= fuel -> breaksOff bad h fuel).
Proof.
  induction 1 as [|word words (f1 & [(text & A & S)|(h & O & S)]) _ IH].
  - exists 0, [], [], []. split; [reflexivity|]. split; [constructor|]. split; [constructor|]. left; reflexivity.
  - destruct IH as (f2 & pre & texts & post & -> & F & Sa & E). exists (Nat.max f1 f2), (word :: pre), (text :: texts), post.
    split; [reflexivity|]. split; [constructor; assumption|]. split; [intros fuel L; constructor; [apply S|apply Sa]; lia|].
    destruct E as [E|(bad & rest & h & E & O & B)]; [left; exact E|right]. exists bad, rest, h. split; [exact E|]. split; [exact O|].
    intros fuel L. apply B. lia.
  - exists f1, [], [], (word :: words). split; [reflexivity|]. split; [constructor|]. split; [constructor|]. right. eauto 10.
Qed.
Lemma program_total VERSION default files stdin prog args words path loaded :
  Forall accepted args -> structureIs args st -> wanted args cs ->
  wordsAre stdin args words -> dictIs default args path -> DictOpen (files path) = Ok (dict, loaded) ->
  breaksFor breaker args b -> Forall handled words ->
  exists fuel0 pre texts post e, words = pre ++ post /\ warning default args loaded e /\ Forall2 answered pre texts /\
    ((post = [] /\ forall fuel, fuel0 <= fuel ->
        main libthai_ct breaker VERSION default files stdin fuel (prog :: args) = mkRun (String.concat "" texts) e (Ok 0%Z)) \/
     (exists bad rest h, post = bad :: rest /\ off bad h /\ forall fuel, fuel0 <= fuel ->
        main libthai_ct breaker VERSION default files stdin fuel (prog :: args)
        = mkRun (String.concat "" texts ++ bad ++ ":" ++ nl) e (haltRes h))).
Proof.
  intros A S L W D O B H. destruct (all_handled words H) as (fuel0 & pre & texts & post & -> & F & Sa & E).
  assert (X : forall fuel, fuel0 <= fuel -> exists e p, warning default args loaded e /\
    (forall w, parseWord libthai_ct breaker fuel p w = parse fuel w) /\
    main libthai_ct breaker VERSION default files stdin fuel (prog :: args) =
    rbind (mkRun "" e (Ok tt)) (fun _ => rbind (let r := doAll libthai_ct breaker fuel p (flat_map (outOf st) cs) post in
      mkRun (String.concat "" texts ++ rOut r) (rErr r) (rRes r)) (fun _ => done 0%Z))).
  { intros fuel Lf.
    destruct (main_accepted libthai_ct breaker VERSION default files stdin fuel prog args st cs _ path b dict loaded A S L W D O B)
      as (e & p & We & P & ->). exists e, p. split; [exact We|]. split; [exact P|].
    rewrite (do_all libthai_ct breaker fuel p st cs pre texts post); [reflexivity|].
    eapply Forall2_imp; [|apply Sa; exact Lf]. intros w t (d & outs & Q & R). exists d, outs. rewrite P. auto. }
  destruct (X fuel0 (le_n _)) as (e & _ & We & _). exists fuel0, pre, texts, post, e. split; [reflexivity|]. split; [exact We|]. split; [exact F|].
  destruct E as [->|(bad & rest & h & -> & Of & Br)]; [left|right].
  - split; [reflexivity|]. intros fuel Lf. destruct (X fuel Lf) as (e' & p & We' & _ & ->). rewrite (warning_fun _ _ _ _ _ We' We).
    cbn. rewrite !sapp_nil. reflexivity.
  - exists bad, rest, h. split; [reflexivity|]. split; [exact Of|]. intros fuel Lf. destruct (X fuel Lf) as (e' & p & We' & P & ->).
    rewrite (warning_fun _ _ _ _ _ We' We). cbn [doAll]. rewrite (Br fuel Lf p P), halt_bind. cbn [rOut rErr rRes].
    rewrite halt_bind. unfold rbind. cbn [rOut rErr rRes]. rewrite sapp_nil. reflexivity.
Qed.
Lemma throw_off word fuel : parse fuel word = Throw -> breaksOff word Exception fuel.
Proof. intros T p P. unfold DoParse. rewrite P, T. cbn. rewrite !sapp_nil. reflexivity. Qed.
End Total.
Lemma wanted_some args cs : wanted args cs -> cs <> [].
Proof. intros (l0 & _ & ->). destruct l0; discriminate. Qed.
Lemma flat_out c : In c notationLetters -> exists f, In f notations /\ outOf Flat c = [OutJson f].
Proof. intros [<-|[<-|[<-|[<-|[<-|[]]]]]]; eexists; (split; [|reflexivity]); cbn; tauto. Qed.

(** ** C72: the program on every text *)
Lemma C72_lemma breaker VERSION default files stdin prog args cs words path b dict loaded :
  Forall accepted args -> structureIs args Lines -> wanted args cs ->
  wordsAre stdin args words -> dictIs default args path -> DictOpen (files path) = Ok (dict, loaded) -> dictOK dict ->
  breaksFor breaker args b -> Forall (modest b) words ->
  exists fuel0 pre texts post e, words = pre ++ post /\ warning default args loaded e /\
    Forall2 (lineAnswer (Some dict) b cs) pre texts /\
    ((post = [] /\ forall fuel, fuel0 <= fuel ->
        main libthai_ct breaker VERSION default files stdin fuel (prog :: args) = mkRun (String.concat "" texts) e (Ok 0%Z)) \/
     (exists bad rest, post = bad :: rest /\ hopeless (Some dict) b bad /\ forall fuel, fuel0 <= fuel ->
        main libthai_ct breaker VERSION default files stdin fuel (prog :: args)
        = mkRun (String.concat "" texts ++ bad ++ ":" ++ nl) e Throw)).
Proof.
  intros A S Wa W Di O OK B M. pose proof (wanted_in args cs Wa) as F.
  assert (D : dictOKo (Some dict)) by (intros d' H; injection H as <-; exact OK).
  destruct (program_total dict b cs Lines breaker (lineAnswer (Some dict) b cs) (fun word h => hopeless (Some dict) b word /\ h = Exception)
    VERSION default files stdin prog args words path loaded A S Wa W Di O B) as (f & pre & texts & post & e & E & We & An & R).
  - rewrite Forall_forall in *. intros word Hw. destruct (word_cases (Some dict) b word D (M word Hw)) as [(Ho & f & T)|(NH & w & l & Eb & Size & P & Rd)].
    + exists f. right. exists Exception. split; [auto|]. intros fuel L. apply throw_off, T, L.
    + destruct (listing_answer (Some dict) b cs word w l D Eb Size P) as (f & outs & Bl & Sa); [rewrite Forall_forall; exact F|].
      exists f. left. eexists. split; [|exact Sa]. split; [exact NH|]. exists l, outs. auto.
  - exists f, pre, texts, post, e. split; [exact E|]. split; [exact We|]. split; [exact An|].
    destruct R as [R|(bad & rest & h & Ep & (Ho & ->) & R)]; [left; exact R|right; eauto].
Qed.
(** Whatever the words are, the program prints the readings of each in turn,
    and only a hopeless word ends it before all are answered. *)
Theorem C72_program breaker VERSION default files stdin prog args cs words path b dict loaded :
  Forall accepted args -> structureIs args Lines -> wanted args cs ->
  wordsAre stdin args words -> dictIs default args path -> DictOpen (files path) = Ok (dict, loaded) -> dictOK dict ->
  breaksFor breaker args b -> Forall (modest b) words ->
  exists fuel0 pre texts post e, words = pre ++ post /\ warning default args loaded e /\
    Forall2 (lineAnswer (Some dict) b cs) pre texts /\
    ((post = [] /\ forall fuel, fuel0 <= fuel ->
        main libthai_ct breaker VERSION default files stdin fuel (prog :: args) = mkRun (String.concat "" texts) e (Ok 0%Z)) \/
     (exists bad rest, post = bad :: rest /\ hopeless (Some dict) b bad /\ forall fuel, fuel0 <= fuel ->
        main libthai_ct breaker VERSION default files stdin fuel (prog :: args)
        = mkRun (String.concat "" texts ++ bad ++ ":" ++ nl) e Throw)).
Proof. exact (C72_lemma breaker VERSION default files stdin prog args cs words path b dict loaded). Qed.
Print Assumptions C72_program.

Lemma C72_lemma2 breaker VERSION default files stdin prog args cs words path b dict loaded :
  Forall accepted args -> structureIs args Flat -> wanted args cs ->
  wordsAre stdin args words -> dictIs default args path -> DictOpen (files path) = Ok (dict, loaded) -> dictOK dict ->
  breaksFor breaker args b -> Forall (modest b) words -> Forall (fun word => plain word = true) words ->
  exists fuel0 pre texts post e, words = pre ++ post /\ warning default args loaded e /\
    Forall2 (jsonAnswer (Some dict) b cs) pre texts /\
    ((post = [] /\ forall fuel, fuel0 <= fuel ->
        main libthai_ct breaker VERSION default files stdin fuel (prog :: args) = mkRun (String.concat "" texts) e (Ok 0%Z)) \/
     (exists bad rest, post = bad :: rest /\ hopeless (Some dict) b bad /\ forall fuel, fuel0 <= fuel ->
        main libthai_ct breaker VERSION default files stdin fuel (prog :: args)
        = mkRun (String.concat "" texts ++ bad ++ ":" ++ nl) e Throw) \/
     (exists bad rest, post = bad :: rest /\ ~ hopeless (Some dict) b bad /\ allReadings (Some dict) b bad [] /\
        forall fuel, fuel0 <= fuel -> rRes (main libthai_ct breaker VERSION default files stdin fuel (prog :: args)) = UB)).
Proof.
  intros A S Wa W Di O OK B M Pl. pose proof (wanted_in args cs Wa) as F. pose proof (wanted_some args cs Wa) as Nc.
  assert (D : dictOKo (Some dict)) by (intros d' H; injection H as <-; exact OK).
  destruct (program_total dict b cs Flat breaker (jsonAnswer (Some dict) b cs)
    (fun word h => hopeless (Some dict) b word /\ h = Exception \/ (~ hopeless (Some dict) b word /\ allReadings (Some dict) b word []) /\ h = Undefined)
    VERSION default files stdin prog args words path loaded A S Wa W Di O B) as (f & pre & texts & post & e & E & We & An & R).
  - rewrite Forall_forall in *. intros word Hw. destruct (word_cases (Some dict) b word D (M word Hw)) as [(Ho & f & T)|(NH & w & l & Eb & Size & P & Rd)].
    + exists f. right. exists Exception. split; [auto|]. intros fuel L. apply throw_off, T, L.
    + assert (Cl : l = [] \/ l <> []) by (destruct l; [left; reflexivity|right; discriminate]). destruct Cl as [->|Nl].
      * destruct P as (f1 & d & E & L). destruct (C23_lemma libthai_ct w (Some dict) (b w)) as (r & f2 & _ & St & Al).
        assert (Er : r = Ok d) by (destruct (Al f1) as [X|X]; congruence). subst r.
        exists f2. right. exists Undefined. split; [auto|]. intros fuel Lf p Pp. unfold DoParse. rewrite Pp. unfold parseWordF.
        rewrite Eb. cbn [bind]. rewrite (St fuel Lf). destruct cs as [|c cs']; [congruence|].
        destruct (flat_out c (F c (or_introl eq_refl))) as (g & Ig & Eg). cbn [flat_map]. rewrite Eg.
        destruct (C21_parse_json libthai_ct word w (Some dict) (b w) f1 d g libthai_ok D Ig Eb E) as (l1 & out1 & E1 & _ & U & _).
        rewrite L in E1. injection E1 as <-. cbn [app printAll outputDAG].
        rewrite rbind_out, rbind_ok, (U eq_refl). cbn. rewrite !sapp_nil. reflexivity.
      * destruct (listing_json (Some dict) b cs word w l Flat D ltac:(rewrite Forall_forall; exact F) (Pl word Hw) Eb Size P) as (f & outs & V & Sa); [auto|].
        exists f. left. eexists. split; [|exact Sa]. split; [exact NH|]. exists l, outs. auto.
  - exists f, pre, texts, post, e. split; [exact E|]. split; [exact We|]. split; [exact An|].
    destruct R as [R|(bad & rest & h & Ep & [(Ho & ->)|((Ho & Rd) & ->)] & R)]; [left; exact R|right; left; eauto|right; right].
    exists bad, rest. repeat (split; [assumption|]). intros fuel L. rewrite (R fuel L). reflexivity.
Qed.
(** With [-j] a word without any reading is undefined behaviour. *)
Theorem C72_json breaker VERSION default files stdin prog args cs words path b dict loaded :
  Forall accepted args -> structureIs args Flat -> wanted args cs ->
  wordsAre stdin args words -> dictIs default args path -> DictOpen (files path) = Ok (dict, loaded) -> dictOK dict ->
  breaksFor breaker args b -> Forall (modest b) words -> Forall (fun word => plain word = true) words ->
  exists fuel0 pre texts post e, words = pre ++ post /\ warning default args loaded e /\
    Forall2 (jsonAnswer (Some dict) b cs) pre texts /\
    ((post = [] /\ forall fuel, fuel0 <= fuel ->
        main libthai_ct breaker VERSION default files stdin fuel (prog :: args) = mkRun (String.concat "" texts) e (Ok 0%Z)) \/
     (exists bad rest, post = bad :: rest /\ hopeless (Some dict) b bad /\ forall fuel, fuel0 <= fuel ->
        main libthai_ct breaker VERSION default files stdin fuel (prog :: args)
        = mkRun (String.concat "" texts ++ bad ++ ":" ++ nl) e Throw) \/
     (exists bad rest, post = bad :: rest /\ ~ hopeless (Some dict) b bad /\ allReadings (Some dict) b bad [] /\
        forall fuel, fuel0 <= fuel -> rRes (main libthai_ct breaker VERSION default files stdin fuel (prog :: args)) = UB)).
Proof. exact (C72_lemma2 breaker VERSION default files stdin prog args cs words path b dict loaded). Qed.
Print Assumptions C72_json.

Lemma C72_lemma3 breaker VERSION default files stdin prog args cs words path b dict loaded :
  Forall accepted args -> structureIs args Grouped -> wanted args cs ->
  wordsAre stdin args words -> dictIs default args path -> DictOpen (files path) = Ok (dict, loaded) -> dictOK dict ->
  breaksFor breaker args b -> Forall (modest b) words -> Forall (fun word => plain word = true) words ->
  exists fuel0 pre texts post e, words = pre ++ post /\ warning default args loaded e /\
    Forall2 (chainAnswer (Some dict) b cs) pre texts /\
    ((post = [] /\ forall fuel, fuel0 <= fuel ->
        main libthai_ct breaker VERSION default files stdin fuel (prog :: args) = mkRun (String.concat "" texts) e (Ok 0%Z)) \/
     (exists bad rest, post = bad :: rest /\ hopeless (Some dict) b bad /\ forall fuel, fuel0 <= fuel ->
        main libthai_ct breaker VERSION default files stdin fuel (prog :: args)
        = mkRun (String.concat "" texts ++ bad ++ ":" ++ nl) e Throw)).
Proof.
  intros A S Wa W Di O OK B M Pl. pose proof (wanted_in args cs Wa) as F.
  assert (D : dictOKo (Some dict)) by (intros d' H; injection H as <-; exact OK).
  destruct (program_total dict b cs Grouped breaker (chainAnswer (Some dict) b cs) (fun word h => hopeless (Some dict) b word /\ h = Exception)
    VERSION default files stdin prog args words path loaded A S Wa W Di O B) as (f & pre & texts & post & e & E & We & An & R).
  - rewrite Forall_forall in *. intros word Hw. destruct (word_cases (Some dict) b word D (M word Hw)) as [(Ho & f & T)|(NH & w & l & Eb & Size & P & Rd)].
    + exists f. right. exists Exception. split; [auto|]. intros fuel L. apply throw_off, T, L.
    + destruct (listing_json (Some dict) b cs word w l Grouped D ltac:(rewrite Forall_forall; exact F) (Pl word Hw) Eb Size P) as (f & outs & V & Sa); [auto|].
      exists f. left. eexists. split; [|exact Sa]. split; [exact NH|]. exists l, outs. auto.
  - exists f, pre, texts, post, e. split; [exact E|]. split; [exact We|]. split; [exact An|].
    destruct R as [R|(bad & rest & h & Ep & (Ho & ->) & R)]; [left; exact R|right; eauto].
Qed.
(** With [-g] there is an answer for every word that is not hopeless. *)
Theorem C72_grouped breaker VERSION default files stdin prog args cs words path b dict loaded :
  Forall accepted args -> structureIs args Grouped -> wanted args cs ->
  wordsAre stdin args words -> dictIs default args path -> DictOpen (files path) = Ok (dict, loaded) -> dictOK dict ->
  breaksFor breaker args b -> Forall (modest b) words -> Forall (fun word => plain word = true) words ->
  exists fuel0 pre texts post e, words = pre ++ post /\ warning default args loaded e /\
    Forall2 (chainAnswer (Some dict) b cs) pre texts /\
    ((post = [] /\ forall fuel, fuel0 <= fuel ->
        main libthai_ct breaker VERSION default files stdin fuel (prog :: args) = mkRun (String.concat "" texts) e (Ok 0%Z)) \/
     (exists bad rest, post = bad :: rest /\ hopeless (Some dict) b bad /\ forall fuel, fuel0 <= fuel ->
        main libthai_ct breaker VERSION default files stdin fuel (prog :: args)
        = mkRun (String.concat "" texts ++ bad ++ ":" ++ nl) e Throw)).
Proof. exact (C72_lemma3 breaker VERSION default files stdin prog args cs words path b dict loaded). Qed.
Print Assumptions C72_grouped.
(** A name and a listed word, a text without readings, a hopeless one, and one
    that is no longer reached. *)
Definition exWords : list string := ["ก. กา"; "ะ"; "กาไ"; "ขา"]%string.
Definition exArgs (form : list string) : list string := ("-p" :: form ++ "-dx" :: exWords)%string.
Definition noBreaks (w : list N) : list nat := [].
Lemma exWords_ok : Forall (modest noBreaks) exWords /\ Forall (fun word => plain word = true) exWords.
Proof.
  split; [|repeat constructor]. unfold exWords.
  repeat (apply Forall_cons; [intros w E; vm_compute in E; injection E as <-;
    split; [vm_compute; reflexivity|split; [apply SSorted_nil|apply Forall_nil]]|]). apply Forall_nil.
Qed.
Lemma exArgs2_ok st form : In (st, form) [(Lines, []); (Flat, ["-j"]); (Grouped, ["-g"])]%string ->
  Forall accepted (exArgs form) /\ structureIs (exArgs form) st /\ wanted (exArgs form) ["p"]%char /\
  wordsAre "" (exArgs form) exWords /\ dictIs "/d" (exArgs form) "x" /\ breaksFor noBreaks (exArgs form) noBreaks.
Proof.
  assert (NT : forall a, match a with String x _ => is "-" x | _ => false end = false -> ~ isOption a).
  { intros a H (t & ->). discriminate. }
  intros [X|[X|[X|[]]]]; injection X as <- <-; unfold exArgs, exWords; cbn [app];
  (split; [repeat (apply Forall_cons; [first [apply acc_letter; cbn; tauto|apply acc_dict; discriminate|apply acc_text, NT; reflexivity]|]); apply Forall_nil|]);
  (split; [cbn; first [split; rewrite <- givenb_ok; first [reflexivity|discriminate]|rewrite <- givenb_ok; reflexivity]|]);
  (split; [exists ["p"]%char; split; [|reflexivity]; apply (named_take "p" ""); [cbn; tauto|];
    repeat (apply named_skip; [intros c [<-|[<-|[<-|[<-|[<-|[]]]]]] H; apply letterb_ok in H; discriminate|]); constructor|]);
  (split; [exists exWords; split; [|reflexivity];
    repeat (apply texts_skip; [eexists; reflexivity|]); repeat (apply texts_take; [apply NT; reflexivity|]); constructor|]);
  (split; [|right; split; [rewrite <- givenb_ok; discriminate|reflexivity]]); left.
  - exists ["-p"]%string, exWords. split; [reflexivity|rewrite <- givenb_ok; discriminate].
  - exists ["-p"; "-j"]%string, exWords. split; [reflexivity|rewrite <- givenb_ok; discriminate].
  - exists ["-p"; "-g"]%string, exWords. split; [reflexivity|rewrite <- givenb_ok; discriminate].
Qed.
Example C72_case : (exists dict, DictOpen (exFiles "x") = Ok (dict, true) /\ dictOK dict) /\
  Forall (modest noBreaks) exWords /\ Forall (fun word => plain word = true) exWords /\
  (forall st form, In (st, form) [(Lines, []); (Flat, ["-j"]); (Grouped, ["-g"])]%string ->
    Forall accepted (exArgs form) /\ structureIs (exArgs form) st /\ wanted (exArgs form) ["p"]%char /\
    wordsAre "" (exArgs form) exWords /\ dictIs "/d" (exArgs form) "x" /\ breaksFor noBreaks (exArgs form) noBreaks) /\
  main libthai_ct noBreaks "1" "/d" exFiles "" 500 ("thpronun"%string :: exArgs []) = mkRun
    ("ก. กา:" ++ nl ++ "kaow0 ( ) kaa0" ++ nl ++ nl ++ "ะ:" ++ nl ++ nl ++ "กาไ:" ++ nl)%string "" Throw /\
  rRes (main libthai_ct noBreaks "1" "/d" exFiles "" 500 ("thpronun" :: exArgs ["-j"])%string) = UB /\
  main libthai_ct noBreaks "1" "/d" exFiles "" 500 ("thpronun" :: exArgs ["-g"])%string = mkRun
    ("ก. กา:" ++ nl ++ "[[[[" ++ q "kaow0" ++ "," ++ q "( )" ++ "," ++ q "kaa0" ++ "]]]]" ++ nl ++ "ะ:" ++ nl ++ "[]" ++ nl ++ "กาไ:" ++ nl)%string "" Throw.
Proof.
  split; [eexists; split; [vm_compute; reflexivity|eapply dictCheck_sound; [reflexivity|vm_compute; reflexivity]]|].
  split; [apply exWords_ok|]. split; [apply exWords_ok|]. split; [exact exArgs2_ok|]. split; [vm_compute; reflexivity|]. split; vm_compute; reflexivity.
Qed.

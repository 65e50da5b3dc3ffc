(** Prop_Usage.v - the help text and the options of the program: C81. *)
From Coq Require Import List NArith ZArith Bool String Ascii Lia Arith.
From Verif Require Import Base ThUni ThCons Syl Utf Lattice Dag PronDag SylOut ThaiOut Output Dict GenDict Parser Cli Prop_Cli.
Import ListNotations.
Local Open Scope string_scope.

(** ** Vocabulary *)
(** [l] is one of the lines of [text]. *)
Definition LineIn (text l : string) : Prop :=
  noNewline l /\ exists a b, text = a ++ l ++ String newline b /\ (a = "" \/ exists a', a = a' ++ String newline "").
(** The help text has a line for the letter [c]: two spaces, a dash, the letter. *)
Definition DocumentsLetter (text : string) (c : ascii) : Prop :=
  exists rest, LineIn text ("  -" ++ String c rest).
(** ... and one which gives [name] as the long form of [c]. *)
Fixpoint noBlank (s : string) : Prop := match s with "" => True | String c s' => c <> " "%char /\ noBlank s' end.
Definition DocumentsName (text : string) (c : ascii) (name : string) : Prop :=
  noBlank name /\ exists rest, LineIn text ("  -" ++ String c (", --" ++ name ++ " " ++ rest)).
(** The complaint about an option the program does not know. *)
Definition Unknown (e : string) : Prop := exists rest, e = "Unknown option '" ++ rest.

(** ** Lemmas *)
Lemma nn_app a b : noNewline (a ++ b) -> noNewline a /\ noNewline b.
Proof. induction a as [|c a IH]; cbn; [auto|]. intros (N & H). apply IH in H. tauto. Qed.
Lemma cut_eq x r y s : noNewline x -> noNewline y ->
  x ++ String newline r = y ++ String newline s -> x = y /\ r = s.
Proof.
  revert y. induction x as [|c x IH]; intros [|d y] X Y H; cbn in *.
  - injection H as ->. auto.
  - injection H as E _. destruct Y as (Y & _). congruence.
  - injection H as E _. destruct X as (X & _). congruence.
  - injection H as -> H. destruct (IH y (proj2 X) (proj2 Y) H) as (-> & ->). auto.
Qed.
Lemma end_of a c : forall x d, a ++ String c "" = x ++ String d "" -> a = x /\ c = d.
Proof.
  induction a as [|y a IH]; intros [|z x] d H; cbn in H.
  - injection H as ->. auto.
  - injection H as _ H. destruct x; discriminate H.
  - injection H as _ H. destruct a; discriminate H.
  - injection H as -> H. apply IH in H as (-> & ->). auto.
Qed.
(** a text that starts with the line [x] and has another place that ends a line *)
Lemma cut_before x : forall r a' s, noNewline x ->
  x ++ String newline r = (a' ++ String newline "") ++ s -> 
  a' = x /\ r = s \/ exists a'', a' = x ++ String newline a'' /\ r = (a'' ++ String newline "") ++ s.
Proof.
  induction x as [|c x IH]; intros r [|d a'] s X H; cbn in *.
  - injection H as ->. auto.
  - injection H as <- ->. right. exists a'. auto.
  - injection H as E _. destruct X as (X & _). contradiction.
  - injection H as -> H. destruct (IH r a' s (proj2 X) H) as [(-> & ->)|(a'' & -> & ->)]; [auto|]. right. exists a''. auto.
Qed.
Lemma line_cons x r l : noNewline x -> LineIn (x ++ String newline r) l <-> l = x \/ LineIn r l.
Proof.
  intros X. split.
  - intros (L & a & b & H & [->|(a' & ->)]).
    + left. cbn in H. symmetry. apply (cut_eq x r l b X L H).
    + right. split; [exact L|]. destruct (cut_before x r a' _ X H) as [(_ & E)|(a'' & _ & E)].
      * exists "", b. auto.
      * exists (a'' ++ String newline ""), b. split; [exact E|right; exists a''; reflexivity].
  - intros [->|(L & a & b & -> & H)]; (split; [assumption|]).
    + exists "", r. auto.
    + exists (x ++ String newline a), b. split; [rewrite sapp_assoc; reflexivity|]. right. destruct H as [->|(a' & ->)].
      * exists x. reflexivity.
      * exists (x ++ String newline a'). rewrite sapp_assoc. reflexivity.
Qed.
Lemma line_nil l : ~ LineIn "" l.
Proof.
  intros (_ & a & b & H & _). destruct a; [|discriminate H]. destruct l; discriminate H.
Qed.
Definition textOf (ls : list string) : string := fold_right (fun l r => l ++ String newline r) "" ls.
Lemma line_text ls l : Forall noNewline ls -> LineIn (textOf ls) l <-> In l ls.
Proof.
  induction 1 as [|x ls X _ IH]; cbn [textOf fold_right In]; [split; [apply line_nil|intros []]|].
  rewrite (line_cons x _ l X). fold (textOf ls). rewrite IH. split; intros [H|H]; auto.
Qed.
Definition rest : list string :=
  [ ""; "Thai word pronunciation program."; "";
    "It reads Thai words from command-line arguments, or from standard input";
    "if no argument is given, and generates all possible pronunciations";
    "of the words."; ""; "Options:"; ""; "General:";
    "  -V, --version  Displays program version info";
    "  -h, --help     Displays help";
    "  -d<DICTPATH>   Use exception dict from <DICTPATH>";
    "  -n             Turns off word segmentation"; "";
    "Output structures:";
    "  -j             Turns on JSON output";
    "  -g             Turns on grouping in JSON output (implies '-j')"; "";
    "Output notations:";
    "  -r             Outputs Romanization";
    "  -t             Outputs Thai pronunciation";
    "  -p             Outputs Phonetic form";
    "  -w             Outputs Raw pronunciation code";
    "  -s             Outputs Soundex code"; "" ].
Lemma usage_text prog : Usage prog = textOf (("Usage: " ++ prog ++ " [OPTION] [WORD...]") :: rest).
Proof. unfold Usage, line, textOf. cbn [fold_right]. rewrite sapp_assoc. reflexivity. Qed.
Fixpoint nnb (s : string) : bool := match s with "" => true | String c s' => negb (c =? newline)%char && nnb s' end.
Lemma nnb_ok s : nnb s = true -> noNewline s.
Proof.
  induction s as [|c s IH]; cbn [nnb noNewline]; [auto|]. intros H. apply andb_prop in H as (N & H). split; [|auto].
  intros ->. rewrite Ascii.eqb_refl in N. discriminate N.
Qed.
Lemma nn_cat a b : noNewline a -> noNewline b -> noNewline (a ++ b).
Proof. intros A B. induction a as [|c a IH]; cbn in *; [exact B|]. split; [apply A|apply IH, A]. Qed.
Lemma usage_lines prog l : noNewline prog ->
  LineIn (Usage prog) l <-> l = "Usage: " ++ prog ++ " [OPTION] [WORD...]" \/ In l rest.
Proof.
  intros N. rewrite usage_text. rewrite line_text.
  - cbn [In]. split; intros [H|H]; auto.
  - constructor.
    + apply nn_cat; [apply nnb_ok; reflexivity|]. apply nn_cat; [exact N|apply nnb_ok; reflexivity].
    + apply Forall_forall. intros x I. apply nnb_ok. revert x I. apply forallb_forall. vm_compute. reflexivity.
Qed.
Definition shortLetters : list ascii := ["V"; "h"; "d"; "n"; "j"; "g"; "r"; "t"; "p"; "w"; "s"]%char.
Lemma letters_documented prog c : noNewline prog -> DocumentsLetter (Usage prog) c <-> In c shortLetters.
Proof.
  intros N. split.
  - intros (r & H). apply (usage_lines prog _ N) in H. destruct H as [H|H]; [discriminate H|].
    unfold rest in H. cbn [In String.append] in H.
    repeat (destruct H as [H|H]; [try discriminate H; injection H as <- _; unfold shortLetters; cbn [In]; tauto|]).
    destruct H.
  - intros I. unfold DocumentsLetter. setoid_rewrite (fun l => usage_lines prog l N).
    unfold shortLetters in I. cbn [In] in I.
    repeat (destruct I as [<-|I]; [eexists; right; unfold rest; cbn [In String.append]; 
      repeat first [left; reflexivity | right]|]).
    destruct I.
Qed.
Lemma blank_cut a b : forall x y, noBlank a -> noBlank b -> a ++ String " " x = b ++ String " " y -> a = b.
Proof.
  revert b. induction a as [|c a IH]; intros [|d b] x y A B H; cbn in *.
  - reflexivity.
  - injection H as E _. destruct B as (B & _). congruence.
  - injection H as E _. destruct A as (A & _). congruence.
  - injection H as -> H. rewrite (IH b x y (proj2 A) (proj2 B) H). reflexivity.
Qed.
Lemma names_documented prog c name : noNewline prog ->
  DocumentsName (Usage prog) c name <-> c = "V"%char /\ name = "version" \/ c = "h"%char /\ name = "help".
Proof.
  assert (B1 : noBlank "version") by (cbn; repeat split; discriminate).
  assert (B2 : noBlank "help") by (cbn; repeat split; discriminate).
  intros N. split.
  - intros (B & r & H). apply (usage_lines prog _ N) in H. destruct H as [H|H]; [discriminate H|].
    unfold rest in H. cbn [In String.append] in H.
    repeat (destruct H as [H|H]; [try discriminate H; injection H as <- H;
      first [ left; split; [reflexivity|]; symmetry; apply (blank_cut "version" name _ _ B1 B H)
            | right; split; [reflexivity|]; symmetry; apply (blank_cut "help" name _ _ B2 B H) ]|]).
    destruct H.
  - intros [(-> & ->)|(-> & ->)]; (split; [assumption|]); setoid_rewrite (fun l => usage_lines prog l N);
      eexists; right; unfold rest; cbn [In String.append]; repeat first [left; reflexivity | right].
Qed.

(** The words never add to the error stream. *)
Section Quiet.
Variable ct : CType. Variable breaker : list N -> list nat. Variable fuel : nat.
Lemma bind_quiet {A B} (m : Run A) (k : A -> Run B) : rErr m = "" -> (forall a, rErr (k a) = "") -> rErr (rbind m k) = "".
Proof. intros M K. unfold rbind. destruct (rRes m); cbn; rewrite M, ?K; reflexivity. Qed.
Lemma print_quiet outs d : rErr (printAll outs d) = "".
Proof.
  induction outs as [|o outs IH]; [reflexivity|]. cbn [printAll]. apply bind_quiet; [reflexivity|]. intros s.
  apply bind_quiet; [reflexivity|]. intros _. exact IH.
Qed.
Lemma parse_quiet p outs w : rErr (DoParse ct breaker fuel p outs w) = "".
Proof. unfold DoParse. apply bind_quiet; [reflexivity|]. intros _. apply bind_quiet; [reflexivity|]. intros d. apply print_quiet. Qed.
Lemma all_quiet p outs ws : rErr (doAll ct breaker fuel p outs ws) = "".
Proof. induction ws as [|w ws IH]; [reflexivity|]. cbn [doAll]. apply bind_quiet; [apply parse_quiet|]. intros _. exact IH. Qed.
Lemma args_quiet p outs args : rErr (parseArgs ct breaker fuel p outs args) = "".
Proof.
  induction args as [|a args IH]; [reflexivity|]. cbn [parseArgs]. apply bind_quiet; [reflexivity|]. intros c.
  apply bind_quiet; [destruct (is "-" c); [reflexivity|apply parse_quiet]|]. intros _. exact IH.
Qed.
Lemma second_quiet b b' args : rErr (secondPass b b' args) = "".
Proof.
  induction args as [|a args IH]; [reflexivity|]. cbn [secondPass]. apply bind_quiet.
  - unfold secondPassArg. apply bind_quiet; [reflexivity|]. intros c. destruct (is "-" c); [|reflexivity].
    apply bind_quiet; reflexivity.
  - intros l. apply bind_quiet; [exact IH|]. reflexivity.
Qed.
End Quiet.
Definition fine {A} (m : Run A) : Prop := rErr m = "" \/ exists x, rErr m = String "F" x.
Lemma fine_known {A} (m : Run A) : fine m -> ~ Unknown (rErr m).
Proof. intros [->|(x & ->)] (r & H); discriminate H. Qed.
Lemma bind_fine {A B} (m : Run A) (k : A -> Run B) : rErr m = "" -> (forall a, rRes m = Ok a -> fine (k a)) -> fine (rbind m k).
Proof.
  intros M K. unfold rbind. destruct (rRes m) as [a| | |]; unfold fine; cbn; rewrite M; [|left; reflexivity..].
  exact (K a eq_refl).
Qed.
Lemma bind_F {A B} (m : Run A) (k : A -> Run B) x : rErr m = String "F" x -> fine (rbind m k).
Proof. intros M. unfold rbind. right. destruct (rRes m); cbn; rewrite M; eexists; reflexivity. Qed.

Section Run.
Variables (ct : CType) (breaker : list N -> list nat) (VERSION default : string)
  (files : string -> PathContent) (stdin : string) (fuel : nat) (prog : string).
Local Notation run := (main ct breaker VERSION default files stdin fuel).
Lemma load_fine p q : (exists x, rErr (LoadExceptDict default files p q) = String "F" x) \/
  rErr (LoadExceptDict default files p q) = "" /\
  forall r, rRes (LoadExceptDict default files p q) = Ok r -> snd r = true.
Proof.
  unfold LoadExceptDict. destruct q as [q|].
  - destruct (loadExceptDict files p q) as [(p', ok)| | |]; [|right; split; [reflexivity|discriminate]..].
    rewrite rbind_ok. cbn [snd]. destruct ok.
    + right. split; [reflexivity|]. intros r H. injection H as <-. reflexivity.
    + left. eexists. reflexivity.
  - destruct (loadExceptDict files p default) as [(p', ok)| | |]; [|right; split; [reflexivity|discriminate]..].
    rewrite rbind_ok. cbn [snd]. destruct ok.
    + right. split; [reflexivity|]. intros r H. injection H as <-. reflexivity.
    + left. eexists. reflexivity.
Qed.
Lemma accepted_known args : Forall accepted args -> ~ Unknown (rErr (run (prog :: args))).
Proof.
  intros A. apply fine_known. unfold main. cbn [tl nth].
  pose proof (first_all VERSION prog (nth 0 args "") args A (mkOpts 0 None true false false) []) as E.
  rewrite app_nil_r in E. cbn [nth] in E. rewrite E. cbn [firstPass]. rewrite rbind_done.
  apply bind_fine; [apply second_quiet|]. intros outs _. cbv zeta.
  destruct (load_fine (mkParser None (oBreak (fold_left upd args (mkOpts 0 None true false false))))
              (oDict (fold_left upd args (mkOpts 0 None true false false)))) as [(x & F)|(Q & S)].
  - eapply bind_F. exact F.
  - apply bind_fine; [exact Q|]. intros l Hl. rewrite (S l Hl). rewrite rbind_done.
    apply bind_fine; [|intros _ _; left; reflexivity].
    destruct (Z.eqb 1 _); [apply all_quiet|apply args_quiet].
Qed.
Lemma one_stop a s e : stopsWith VERSION prog a a s e -> run [prog; a] = mkRun s e (Ok 1%Z).
Proof. intros S. apply (C42_lemma2 ct breaker VERSION default files stdin fuel prog [a] [] a [] s e eq_refl); [constructor|exact S]. Qed.
Lemma C81_lemma c t : noNewline prog -> c <> "-"%char ->
  DocumentsLetter (rOut (run [prog; "--help"])) c <-> ~ Unknown (rErr (run [prog; String "-" (String c t)])).
Proof.
  intros N D. rewrite C43_lemma. cbn [rOut]. rewrite (letters_documented prog c N). split.
  - intros I. unfold shortLetters in I. cbn [In] in I.
    destruct I as [<-|[<-|[<-|I]]].
    + rewrite (one_stop _ _ _ (stop_V VERSION prog _ t)). intros (r & H). discriminate H.
    + rewrite (one_stop _ _ _ (stop_h VERSION prog _ t)). intros (r & H). discriminate H.
    + destruct t as [|z t]; [rewrite (one_stop _ _ _ (stop_d VERSION prog _)); intros (r & H); discriminate H|].
      destruct (ascii_dec z Ascii.zero) as [->|Z].
      * intros (r & H). vm_compute in H. discriminate H.
      * apply accepted_known. constructor; [apply acc_dict; exact Z|constructor].
    + apply accepted_known. constructor; [|constructor]. apply acc_letter. cbn [In]. tauto.
  - intros U. destruct (in_dec ascii_dec c shortLetters) as [I|I]; [exact I|]. exfalso. apply U.
    rewrite (one_stop _ _ _ (stop_letter VERSION prog _ c t ltac:(intros J; unfold knownLetters in J; cbn [In] in J; destruct J as [J|J]; [congruence|]; apply I; unfold shortLetters; cbn [In]; tauto))).
    eexists. reflexivity.
Qed.
Lemma C81_lemma2 name : noNewline prog ->
  (exists c, DocumentsName (rOut (run [prog; "--help"])) c name) <-> ~ Unknown (rErr (run [prog; "--" ++ name])).
Proof.
  intros N. rewrite C43_lemma. cbn [rOut]. setoid_rewrite (fun c => names_documented prog c name N). split.
  - intros (c & [(-> & ->)|(-> & ->)]).
    + change ("--" ++ "version") with "--version".
      rewrite (one_stop _ _ _ (stop_version VERSION prog _)). intros (r & H). discriminate H.
    + change ("--" ++ "help") with "--help". rewrite C43_lemma. intros (r & H). discriminate H.
  - intros U. destruct (string_dec name "version") as [->|V]; [exists "V"%char; auto|].
    destruct (string_dec name "help") as [->|H]; [exists "h"%char; auto|]. exfalso. apply U.
    change ("--" ++ name) with (String "-" (String "-" name)).
    rewrite (one_stop _ _ _ (stop_long VERSION prog _ name "-" "-" name V eq_refl H)). eexists. reflexivity.
Qed.
Lemma C81_lemma3 c name post : noNewline prog -> DocumentsName (rOut (run [prog; "--help"])) c name ->
  forall t, run (prog :: ("--" ++ name) :: post) = run (prog :: String "-" (String c t) :: post).
Proof.
  intros N. rewrite C43_lemma. cbn [rOut]. rewrite (names_documented prog c name N). intros [(-> & ->)|(-> & ->)] t.
  - change ("--" ++ "version") with "--version".
    transitivity (mkRun (Version VERSION prog) "" (Ok 1%Z)); [|symmetry];
    [apply (C42_lemma2 ct breaker VERSION default files stdin fuel prog ("--version" :: post) [] "--version" post _ _ eq_refl); constructor|].
    apply (C42_lemma2 ct breaker VERSION default files stdin fuel prog _ [] _ post _ _ eq_refl); constructor.
  - change ("--" ++ "help") with "--help". rewrite C43_lemma. symmetry. apply (C42_lemma2 ct breaker VERSION default files stdin fuel prog _ [] _ post _ _ eq_refl); constructor.
Qed.
End Run.

(** ** C81 *)
(** The lines of the help text are about exactly the letters the program
    takes, whatever follows the letter, whatever the files and the input. *)
Theorem C81_letters ct breaker VERSION default files stdin fuel prog c t : noNewline prog -> c <> "-"%char ->
  DocumentsLetter (rOut (main ct breaker VERSION default files stdin fuel [prog; "--help"])) c <->
  ~ Unknown (rErr (main ct breaker VERSION default files stdin fuel [prog; String "-" (String c t)])).
Proof. exact (C81_lemma ct breaker VERSION default files stdin fuel prog c t). Qed.
Print Assumptions C81_letters.
(** The same for the long names, *)
Theorem C81_names ct breaker VERSION default files stdin fuel prog name : noNewline prog ->
  (exists c, DocumentsName (rOut (main ct breaker VERSION default files stdin fuel [prog; "--help"])) c name) <->
  ~ Unknown (rErr (main ct breaker VERSION default files stdin fuel [prog; "--" ++ name])).
Proof. exact (C81_lemma2 ct breaker VERSION default files stdin fuel prog name). Qed.
Print Assumptions C81_names.
(** which in the first place do the same as the letter on their line. *)
Theorem C81_same ct breaker VERSION default files stdin fuel prog c name post : noNewline prog ->
  DocumentsName (rOut (main ct breaker VERSION default files stdin fuel [prog; "--help"])) c name ->
  forall t, main ct breaker VERSION default files stdin fuel (prog :: ("--" ++ name) :: post)
          = main ct breaker VERSION default files stdin fuel (prog :: String "-" (String c t) :: post).
Proof. exact (C81_lemma3 ct breaker VERSION default files stdin fuel prog c name post). Qed.
Print Assumptions C81_same.
(** Asked for its version as the first argument that is not accepted, the
    program names itself and the version on the first line, and does nothing
    else. *)
Lemma C81_lemma4 ct breaker VERSION default files stdin fuel prog pre t post : Forall accepted pre -> noNewline prog -> noNewline VERSION ->
  let r := main ct breaker VERSION default files stdin fuel (prog :: pre ++ String "-" (String "V" t) :: post) in
  main ct breaker VERSION default files stdin fuel (prog :: pre ++ "--version" :: post) = r /\
  rErr r = "" /\ rRes r = Ok 1%Z /\ LineIn (rOut r) (prog ++ " " ++ VERSION) /\ exists b, rOut r = prog ++ " " ++ VERSION ++ String newline b.
Proof.
  intros A N1 N2. cbv zeta.
  rewrite (C42_lemma2 ct breaker VERSION default files stdin fuel prog _ pre _ post _ _ eq_refl A (stop_V VERSION prog _ t)).
  rewrite (C42_lemma2 ct breaker VERSION default files stdin fuel prog _ pre _ post _ _ eq_refl A (stop_version VERSION prog _)).
  cbn [rOut rErr rRes]. split; [reflexivity|]. split; [reflexivity|]. split; [reflexivity|].
  assert (X : exists b, Version VERSION prog = (prog ++ " " ++ VERSION) ++ String newline b).
  { unfold Version, line. eexists. rewrite !sapp_assoc. change nl with (String newline ""). reflexivity. }
  destruct X as (b & X). rewrite X. split.
  - apply line_cons; [|left; reflexivity]. clear - N1 N2. assert (Z : noNewline (" " ++ VERSION)) by (split; [discriminate|exact N2]).
    generalize dependent (" " ++ VERSION). intros y Z. induction prog as [|c p IH]; cbn in *; [exact Z|]. destruct N1. auto.
  - exists b. rewrite !sapp_assoc. reflexivity.
Qed.
Theorem C81_version ct breaker VERSION default files stdin fuel prog pre t post : Forall accepted pre -> noNewline prog -> noNewline VERSION ->
  let r := main ct breaker VERSION default files stdin fuel (prog :: pre ++ String "-" (String "V" t) :: post) in
  main ct breaker VERSION default files stdin fuel (prog :: pre ++ "--version" :: post) = r /\
  rErr r = "" /\ rRes r = Ok 1%Z /\ LineIn (rOut r) (prog ++ " " ++ VERSION) /\ exists b, rOut r = prog ++ " " ++ VERSION ++ String newline b.
Proof. exact (C81_lemma4 ct breaker VERSION default files stdin fuel prog pre t post). Qed.
Print Assumptions C81_version.
Definition helpText : string := rOut (run noFiles "" ["--help"]).
Example C81_case : noNewline "thpronun" /\
  DocumentsLetter helpText "s" /\ ~ DocumentsLetter helpText "x" /\ ~ DocumentsLetter helpText "v" /\
  DocumentsName helpText "V" "version" /\ ~ DocumentsName helpText "V" "help" /\
  rErr (run noFiles "" ["-x"]) = "Unknown option '-x'" ++ nl /\
  rErr (run noFiles "" ["--json"]) = "Unknown option '--json'" ++ nl /\
  run noFiles "" ["--version"; "-x"] = run noFiles "" ["-V"; "-x"].
Proof.
  assert (N : noNewline "thpronun") by (apply nnb_ok; reflexivity).
  assert (E : helpText = Usage "thpronun") by (vm_compute; reflexivity).
  split; [exact N|]. rewrite E. rewrite !(letters_documented _ _ N), !(names_documented _ _ _ N).
  split; [unfold shortLetters; cbn [In]; tauto|].
  split; [intros H; unfold shortLetters in H; cbn [In] in H; repeat destruct H as [H|H]; try discriminate H; exact H|].
  split; [intros H; unfold shortLetters in H; cbn [In] in H; repeat destruct H as [H|H]; try discriminate H; exact H|].
  split; [auto|]. split; [intros [(_ & H)|(H & _)]; discriminate H|].
  repeat split; vm_compute; reflexivity.
Qed.
Example C81_version_case : Forall accepted ["กา"] /\ noNewline "thpronun" /\ noNewline "0.9" /\
  exists b, rOut (run noFiles "" ["กา"; "-Vx"; "-x"]) = "thpronun " ++ b.
Proof.
  split; [constructor; [apply acc_text; intros (t & H); discriminate H|constructor]|]. split; [apply nnb_ok; reflexivity|]. split; [apply nnb_ok; reflexivity|].
  eexists. vm_compute. reflexivity.
Qed.

(** Prop_SameRun.v - what a run of the program depends on: C111. *)
From Coq Require Import List NArith ZArith Bool String Ascii Lia Arith.
From Verif Require Import Base ThUni ThCons Syl Utf Lattice Dag PronDag SylOut ThaiOut Output Dict GenDict Parser Cli Prop_Cli.
Import ListNotations.
Local Open Scope string_scope.
Local Open Scope list_scope.

(** ** Vocabulary *)

(** The path of the last [-d], if there is one. *)
Definition lastDict (args : list string) (d : option string) : Prop :=
  match d with
  | Some path => exists pre post, args = pre ++ String "-" (String "d" path) :: post /\ ~ given "d" post
  | None => ~ given "d" args
  end.
(** What the options ask for: the structure of the output, the notations in
    order, the dictionary, and no word breaking. *)
Definition asks (args : list string) (st : Structure) (letters : list ascii) (d : option string) (n : bool) : Prop :=
  structureIs args st /\ wanted args letters /\ lastDict args d /\ (given "n" args <-> n = true).

(** The options and the texts of an argument vector, each in order. *)
Inductive Parted : list string -> list string -> list string -> Prop :=
| parted_nil : Parted [] [] []
| parted_text a args os ts : ~ isOption a -> Parted args os ts -> Parted (a :: args) os (a :: ts)
| parted_option a args os ts : isOption a -> Parted args os ts -> Parted (a :: args) (a :: os) ts.
(** Lines of an input, each with its newline. *)
Definition asLines (ws : list string) : string := String.concat "" (map (fun w => w ++ String newline "")%string ws).

(** ** Lemmas *)
Section Same.
Variable ct : CType.
Variable breaker : list N -> list nat.
Variable VERSION default : string.
Variable files : string -> PathContent.
Variable fuel : nat.
Notation doAll := (doAll ct breaker fuel).
Notation main := (main ct breaker VERSION default files).

(** The part of the run before the words, and the whole run. *)
Definition opening (d : option string) (n : bool) : Run ParserObj :=
  rbind (LoadExceptDict default files (mkParser None (negb n)) d) (fun l =>
  rbind (if snd l then done tt else err ("Warning: Working without exception dictionary" ++ nl)%string) (fun _ =>
  done (fst l))).
Definition whole (st : Structure) (letters : list ascii) (d : option string) (n : bool) (words : list string) : Run Z :=
  rbind (opening d n) (fun p => rbind (doAll p (flat_map (outOf st) letters) words) (fun _ => done 0%Z)).

Lemma rbind_assoc {A B C} (m : Run A) (f : A -> Run B) (g : B -> Run C) :
  rbind (rbind m f) g = rbind m (fun a => rbind (f a) g).
Proof.
  destruct m as [o e [a| | |]]; try reflexivity. unfold rbind; cbn [rRes rOut rErr].
  destruct (f a) as [o2 e2 [b| | |]]; cbn [rRes rOut rErr]; rewrite ?sapp_assoc; try reflexivity.
Qed.
Lemma rbind_ext {A B} (m : Run A) (f g : A -> Run B) : (forall a, f a = g a) -> rbind m f = rbind m g.
Proof. intros H. destruct m as [o e [a| | |]]; try reflexivity. unfold rbind; cbn [rRes rOut rErr]. rewrite H. reflexivity. Qed.

Lemma last_dict args d : lastDict args d -> oDict (fold_left upd args (mkOpts 0 None true false false)) = d.
Proof.
  assert (G : forall pre post t, given "d" (pre ++ String "-" (String "d" t) :: post)).
  { intros. exists (String "-" (String "d" t)). split; [apply in_elt|exists t; reflexivity]. }
  intros D. destruct (fold_dict args _ (mkOpts 0 None true false false) eq_refl) as [(E & N)|(pre & post & p & E & F & N)].
  - rewrite E. destruct d as [path|]; [|reflexivity]. destruct D as (pre & post & -> & _). exfalso. apply N, G.
  - rewrite E. destruct d as [path|]; cbn [lastDict] in D.
    + destruct D as (pre2 & post2 & F2 & N2). f_equal. apply (dictIs_fun "" args); left; eauto.
    + exfalso. apply D. rewrite F. apply G.
Qed.

Lemma main_whole stdin prog args st letters d n words :
  Forall accepted args -> asks args st letters d n -> wordsAre stdin args words ->
  main stdin fuel (prog :: args) = whole st letters d n words.
Proof.
  intros A (S & (l0 & N & ->) & D & B) (ts & T & W). unfold main. cbn [tl nth].
  pose proof (first_all VERSION prog (nth 0 args "") args A (mkOpts 0 None true false false) []) as F.
  rewrite app_nil_r in F. replace (nth 1 (prog :: args) ""%string) with (nth 0 args ""%string) by reflexivity.
  rewrite F. cbn [firstPass]. rewrite rbind_done. clear F.
  destruct (structure_flags args st S) as [EJ EG]. rewrite EJ, EG, (second_all st args l0 A N), rbind_done.
  rewrite (last_dict args d D).
  assert (EB : oBreak (fold_left upd args (mkOpts 0 None true false false)) = negb n).
  { rewrite fold_break. cbn [oBreak andb]. f_equal. apply eq_true_iff_eq. rewrite givenb_ok. exact B. }
  rewrite EB. pose proof (fold_cnt args ts A T (mkOpts 0 None true false false)) as C. cbn [oCnt] in C.
  set (c := oCnt _) in *. clearbody c.
  assert (Eo : match flat_map (outOf st) l0 with
               | [] => [MakeThaiOutput (jOf st) (gOf st); MakeRomanOutput (jOf st) (gOf st); MakePhoneticOutput (jOf st) (gOf st)]
               | _ :: _ => flat_map (outOf st) l0 end
               = flat_map (outOf st) match l0 with [] => ["t"; "r"; "p"]%char | _ :: _ => l0 end).
  { pose proof (named_in args l0 N) as I. destruct I as [|x l0 I _]; [reflexivity|].
    cbn [flat_map]. destruct I as [<-|[<-|[<-|[<-|[<-|[]]]]]]; reflexivity. }
  rewrite Eo. clear Eo. unfold whole, opening. rewrite rbind_assoc. apply rbind_ext. intros l.
  rewrite rbind_assoc. apply rbind_ext. intros _. rewrite rbind_done. f_equal.
  destruct (Z.eqb_spec 1 (Z.of_nat (List.length (prog :: args)) - Z.of_nat c)) as [Q|Q]; cbn [List.length] in Q.
  - destruct ts; [|cbn [List.length] in C; lia].
    rewrite (lines_unique _ _ W (getlines "" stdin)) by (apply (getlines_spec stdin ""); exact I). reflexivity.
  - destruct ts; [cbn [List.length] in C; lia|]. rewrite W. apply parseArgs_texts. exact T.
Qed.

(** Saying words writes nothing on the error stream. *)
Lemma print_err outs d : rErr (printAll outs d) = ""%string.
Proof.
  induction outs as [|o outs IH]; [reflexivity|]. cbn [printAll]. destruct (outputDAG o d) as [s| | |]; try reflexivity.
  rewrite rbind_ok, rbind_out. exact IH.
Qed.
Lemma parse_err p outs w : rErr (DoParse ct breaker fuel p outs w) = ""%string.
Proof.
  unfold DoParse. rewrite rbind_out. cbn [rErr]. destruct (parseWord ct breaker fuel p w) as [d| | |]; try reflexivity.
  rewrite rbind_ok. apply print_err.
Qed.
Lemma all_err p outs ws : rErr (doAll p outs ws) = ""%string.
Proof.
  induction ws as [|w ws IH]; [reflexivity|]. cbn [Cli.doAll]. pose proof (parse_err p outs w) as E.
  destruct (DoParse ct breaker fuel p outs w) as [o e [a| | |]]; cbn [rErr] in E; subst e; unfold rbind; cbn [rRes rOut rErr]; auto.
Qed.
Lemma all_app p outs ws1 ws2 : doAll p outs (ws1 ++ ws2) = rbind (doAll p outs ws1) (fun _ => doAll p outs ws2).
Proof.
  induction ws1 as [|w ws1 IH]; [cbn [app Cli.doAll]; rewrite rbind_done; reflexivity|]. cbn [app Cli.doAll]. rewrite IH, rbind_assoc. reflexivity.
Qed.

Lemma whole_app st letters d n ws1 ws2 z : rRes (whole st letters d n ws1) = Ok z ->
  whole st letters d n (ws1 ++ ws2) =
  mkRun (rOut (whole st letters d n ws1) ++ rOut (whole st letters d n ws2))%string
        (rErr (whole st letters d n ws2)) (rRes (whole st letters d n ws2)).
Proof.
  unfold whole. assert (O : rOut (opening d n) = ""%string).
  { unfold opening, LoadExceptDict. destruct d as [path|]; [destruct (loadExceptDict files (mkParser None (negb n)) path) as [r| | |]|destruct (loadExceptDict files (mkParser None (negb n)) default) as [r| | |]]; try reflexivity;
      rewrite rbind_ok; destruct r as [p []]; reflexivity. }
  destruct (opening d n) as [o e [p| | |]]; cbn [rOut] in O; subst o; unfold rbind at 1; cbn [rRes]; try discriminate.
  rewrite !rbind_run. set (outs := flat_map _ _). rewrite all_app, rbind_assoc.
  pose proof (all_err p outs ws1) as E1. destruct (doAll p outs ws1) as [o1 e1 [[]| | |]]; cbn [rErr] in E1; subst e1; try discriminate.
  intros _. rewrite !rbind_run. cbn [rOut rErr rRes done]. rewrite sapp_nil. reflexivity.
Qed.
Lemma whole_fail st letters d n ws1 ws2 : (forall z, rRes (whole st letters d n ws1) <> Ok z) ->
  whole st letters d n (ws1 ++ ws2) = whole st letters d n ws1.
Proof.
  unfold whole. destruct (opening d n) as [o e [p| | |]]; try reflexivity.
  rewrite !rbind_run. set (outs := flat_map _ _). rewrite all_app, rbind_assoc.
  destruct (doAll p outs ws1) as [o1 e1 [[]| | |]]; try reflexivity. intros H. exfalso. apply (H 0%Z). reflexivity.
Qed.
End Same.

(** The options of an argument vector ask for the same. *)
Lemma parted_given c args os ts : Parted args os ts -> (given c os <-> given c args).
Proof.
  induction 1 as [|a args os ts N P IH|a args os ts O P IH]; [reflexivity| |]; rewrite !given_cons; rewrite IH; [|reflexivity].
  split; [auto|]. intros [(t & ->)|H]; [exfalso; apply N; eexists; reflexivity|exact H].
Qed.
Lemma parted_texts args os ts : Parted args os ts -> Texts args ts.
Proof. induction 1; constructor; assumption. Qed.
Lemma parted_only args os ts : Parted args os ts -> Texts os [] /\ Parted os os [].
Proof. induction 1 as [|a args os ts N P IH|a args os ts O P IH]; [split; constructor|exact IH|destruct IH; split; constructor; assumption]. Qed.
Lemma parted_named args os ts : Parted args os ts -> forall l, Named os l <-> Named args l.
Proof.
  induction 1 as [|a args os ts N P IH|a args os ts O P IH]; intros l; [reflexivity| |].
  - rewrite IH. split; intros H.
    + apply named_skip; [|exact H]. intros c _ (t & ->). apply N. eexists; reflexivity.
    + inversion H as [|c t args' l' I H'|a' args' l' I H']; subst; [exfalso; apply N; eexists; reflexivity|exact H'].
  - split; intros H; inversion H as [|c t args' l' I H'|a' args' l' I H']; subst;
      [apply named_take|apply named_skip|apply named_take|apply named_skip]; auto; apply IH; exact H'.
Qed.
Lemma parted_dict args os ts : Parted args os ts -> forall d, lastDict os d -> lastDict args d.
Proof.
  intros P [path|]; cbn [lastDict]; [|rewrite (parted_given "d" _ _ _ P); auto].
  intros (pre & post & E & N). revert pre E. induction P as [|a args os ts X P IH|a args os ts O P IH]; intros pre E.
  - destruct pre; discriminate.
  - destruct (IH pre E) as (pre' & post' & -> & N'). exists (a :: pre'), post'. auto.
  - destruct pre as [|b pre]; cbn [app] in E; injection E as -> ->.
    + exists [], args. split; [reflexivity|]. rewrite <- (parted_given "d" _ _ _ P). exact N.
    + destruct (IH pre eq_refl) as (pre' & post' & -> & N'). exists (b :: pre'), post'. auto.
Qed.
Lemma parted_asks args os ts st letters d n : Parted args os ts -> asks os st letters d n -> asks args st letters d n.
Proof.
  intros P (S & (l0 & N & E) & D & B). split; [|split; [|split]].
  - destruct st; cbn [structureIs] in *; rewrite <- ?(parted_given _ _ _ _ P); exact S.
  - exists l0. split; [apply (parted_named _ _ _ P); exact N|exact E].
  - exact (parted_dict _ _ _ P d D).
  - rewrite <- (parted_given _ _ _ _ P). exact B.
Qed.
Lemma last_exists args : exists d, lastDict args d.
Proof.
  destruct (fold_dict args _ (mkOpts 0 None true false false) eq_refl) as [(_ & N)|(pre & post & p & _ & F & N)];
    [exists None; exact N|exists (Some p), pre, post; auto].
Qed.
Lemma asks_exists args : exists st letters d n, asks args st letters d n.
Proof.
  destruct (named_exists args) as (l & N & _), (last_exists args) as (d & D).
  exists (if existsb (letterb "g") args then Grouped else if existsb (letterb "j") args then Flat else Lines),
    (match l with [] => ["t"; "r"; "p"]%char | _ => l end), d, (existsb (letterb "n") args).
  split; [|split; [|split]]; [|exists l; auto|exact D|rewrite givenb_ok; reflexivity].
  destruct (existsb (letterb "g") args) eqn:Eg; [apply givenb_ok; exact Eg|].
  destruct (existsb (letterb "j") args) eqn:Ej; cbn [structureIs]; rewrite <- !givenb_ok, Eg, Ej; split; congruence.
Qed.
Lemma lines_asLines ws : Forall noNewline ws -> LinesOf (asLines ws) ws.
Proof.
  induction 1 as [|w ws H _ IH]; [constructor|]. unfold asLines. cbn [map]. rewrite sconcat_cons, sapp_assoc. apply lines_cons; assumption.
Qed.
Lemma parted_accepted args os ts : Parted args os ts -> Forall accepted args -> Forall accepted os.
Proof.
  induction 1 as [|a args os ts N P IH|a args os ts O P IH]; intros A; [constructor| |];
    inversion A as [|? ? Ha A']; subst; [auto|constructor; auto].
Qed.
(** ** C111: what a run depends on *)
Lemma C111_lemma ct breaker VERSION default files fuel stdin1 stdin2 prog1 prog2 args1 args2 st letters d n words :
  Forall accepted args1 -> Forall accepted args2 -> asks args1 st letters d n -> asks args2 st letters d n ->
  wordsAre stdin1 args1 words -> wordsAre stdin2 args2 words ->
  main ct breaker VERSION default files stdin1 fuel (prog1 :: args1) = main ct breaker VERSION default files stdin2 fuel (prog2 :: args2).
Proof.
  intros A1 A2 K1 K2 W1 W2.
  rewrite (main_whole ct breaker VERSION default files fuel stdin1 prog1 args1 st letters d n words A1 K1 W1).
  rewrite (main_whole ct breaker VERSION default files fuel stdin2 prog2 args2 st letters d n words A2 K2 W2). reflexivity.
Qed.
(** Two accepted command lines that ask for the same and have the same words
    run alike: the same output, messages and result, also where the run
    fails. *)
Theorem C111_same ct breaker VERSION default files fuel stdin1 stdin2 prog1 prog2 args1 args2 st letters d n words :
  Forall accepted args1 -> Forall accepted args2 -> asks args1 st letters d n -> asks args2 st letters d n ->
  wordsAre stdin1 args1 words -> wordsAre stdin2 args2 words ->
  main ct breaker VERSION default files stdin1 fuel (prog1 :: args1) = main ct breaker VERSION default files stdin2 fuel (prog2 :: args2).
Proof. exact (C111_lemma ct breaker VERSION default files fuel stdin1 stdin2 prog1 prog2 args1 args2 st letters d n words). Qed.
Print Assumptions C111_same.

Lemma C111_lemma2 ct breaker VERSION default files fuel stdin stdin2 prog args args2 os ts :
  Forall accepted args -> Parted args os ts -> Parted args2 os ts -> ts <> [] ->
  main ct breaker VERSION default files stdin fuel (prog :: args) = main ct breaker VERSION default files stdin2 fuel (prog :: args2).
Proof.
  intros A P P2 E. destruct (asks_exists os) as (st & letters & d & n & K).
  assert (A2 : Forall accepted args2).
  { pose proof (parted_accepted _ _ _ P A) as AO. revert AO. clear - P2. induction P2 as [|a args2 os ts N P IH|a args2 os ts O P IH]; intros H; [constructor|constructor; [apply acc_text; exact N|auto]|].
    inversion H; subst. constructor; auto. }
  apply (C111_lemma ct breaker VERSION default files fuel stdin stdin2 prog prog args args2 st letters d n ts A A2
           (parted_asks _ _ _ _ _ _ _ P K) (parted_asks _ _ _ _ _ _ _ P2 K)); exists ts; split;
    [exact (parted_texts _ _ _ P)| |exact (parted_texts _ _ _ P2)|]; destruct ts; congruence.
Qed.
(** Texts can be moved before or after options; standard input is not
    looked at. *)
Theorem C111_moved ct breaker VERSION default files fuel stdin stdin2 prog args args2 os ts :
  Forall accepted args -> Parted args os ts -> Parted args2 os ts -> ts <> [] ->
  main ct breaker VERSION default files stdin fuel (prog :: args) = main ct breaker VERSION default files stdin2 fuel (prog :: args2).
Proof. exact (C111_lemma2 ct breaker VERSION default files fuel stdin stdin2 prog args args2 os ts). Qed.
Print Assumptions C111_moved.

Lemma C111_lemma3 ct breaker VERSION default files fuel stdin prog args os ts :
  Forall accepted args -> Parted args os ts -> ts <> [] -> Forall noNewline ts ->
  main ct breaker VERSION default files stdin fuel (prog :: args) = main ct breaker VERSION default files (asLines ts) fuel (prog :: os).
Proof.
  intros A P E F. destruct (asks_exists os) as (st & letters & d & n & K). destruct (parted_only _ _ _ P) as [T _].
  apply (C111_lemma ct breaker VERSION default files fuel stdin (asLines ts) prog prog args os st letters d n ts A
           (parted_accepted _ _ _ P A) (parted_asks _ _ _ _ _ _ _ P K) K).
  - exists ts. split; [exact (parted_texts _ _ _ P)|]. destruct ts; congruence.
  - exists []. split; [exact T|]. apply lines_asLines. exact F.
Qed.
(** Texts can be given as lines of standard input instead. *)
Theorem C111_input ct breaker VERSION default files fuel stdin prog args os ts :
  Forall accepted args -> Parted args os ts -> ts <> [] -> Forall noNewline ts ->
  main ct breaker VERSION default files stdin fuel (prog :: args) = main ct breaker VERSION default files (asLines ts) fuel (prog :: os).
Proof. exact (C111_lemma3 ct breaker VERSION default files fuel stdin prog args os ts). Qed.
Print Assumptions C111_input.

Lemma C111_lemma4 ct breaker VERSION default files fuel stdin1 stdin2 stdin prog args1 args2 args st letters d n ws1 ws2 :
  Forall accepted args1 -> Forall accepted args2 -> Forall accepted args ->
  asks args1 st letters d n -> asks args2 st letters d n -> asks args st letters d n ->
  wordsAre stdin1 args1 ws1 -> wordsAre stdin2 args2 ws2 -> wordsAre stdin args (ws1 ++ ws2) ->
  let r1 := main ct breaker VERSION default files stdin1 fuel (prog :: args1) in
  let r2 := main ct breaker VERSION default files stdin2 fuel (prog :: args2) in
  main ct breaker VERSION default files stdin fuel (prog :: args) =
  match rRes r1 with Ok _ => mkRun (rOut r1 ++ rOut r2)%string (rErr r2) (rRes r2) | _ => r1 end.
Proof.
  intros A1 A2 A K1 K2 K W1 W2 W r1 r2. unfold r1, r2.
  rewrite (main_whole ct breaker VERSION default files fuel stdin1 prog args1 st letters d n ws1 A1 K1 W1).
  rewrite (main_whole ct breaker VERSION default files fuel stdin2 prog args2 st letters d n ws2 A2 K2 W2).
  rewrite (main_whole ct breaker VERSION default files fuel stdin prog args st letters d n (ws1 ++ ws2) A K W).
  destruct (rRes (whole ct breaker default files fuel st letters d n ws1)) eqn:E;
    [eapply whole_app; exact E|apply whole_fail; congruence..].
Qed.
(** One run for two lists of words writes what the runs for the one and for
    the other write, unless the first fails, and then what that writes: no word
    depends on the words before it. *)
Theorem C111_together ct breaker VERSION default files fuel stdin1 stdin2 stdin prog args1 args2 args st letters d n ws1 ws2 :
  Forall accepted args1 -> Forall accepted args2 -> Forall accepted args ->
  asks args1 st letters d n -> asks args2 st letters d n -> asks args st letters d n ->
  wordsAre stdin1 args1 ws1 -> wordsAre stdin2 args2 ws2 -> wordsAre stdin args (ws1 ++ ws2) ->
  let r1 := main ct breaker VERSION default files stdin1 fuel (prog :: args1) in
  let r2 := main ct breaker VERSION default files stdin2 fuel (prog :: args2) in
  main ct breaker VERSION default files stdin fuel (prog :: args) =
  match rRes r1 with Ok _ => mkRun (rOut r1 ++ rOut r2)%string (rErr r2) (rRes r2) | _ => r1 end.
Proof. exact (C111_lemma4 ct breaker VERSION default files fuel stdin1 stdin2 stdin prog args1 args2 args st letters d n ws1 ws2). Qed.
Print Assumptions C111_together.

(** Naming the default dictionary is not the same as naming none: the message
    has quotation marks. *)
Theorem C111_default_refuted : ~ (forall files args, Forall accepted args -> ~ given "d" args ->
  run files "" ("-d/except.dic"%string :: args) = run files "" args).
Proof.
  intros H. specialize (H noFiles ["-t"%string]). apply (f_equal rErr) in H; [vm_compute in H; discriminate| |].
  - constructor; [apply acc_letter; cbn; tauto|constructor].
  - rewrite <- givenb_ok. discriminate.
Qed.
Print Assumptions C111_default_refuted.

Example C111_case :
  Parted ["กา"; "-t"; "-dx"; "ab"; "-j"]%string ["-t"; "-dx"; "-j"]%string ["กา"; "ab"]%string /\
  Parted ["-t"; "-dx"; "-j"; "กา"; "ab"]%string ["-t"; "-dx"; "-j"]%string ["กา"; "ab"]%string /\
  Forall accepted ["กา"; "-t"; "-dx"; "ab"; "-j"]%string /\ Forall noNewline ["กา"; "ab"]%string /\
  run noFiles "unread" ["กา"; "-t"; "-dx"; "ab"; "-j"]%string =
    mkRun ("กา:" ++ nl ++ "[[" ++ dquote ++ "กา" ++ dquote ++ "]]" ++ nl
           ++ "ab:" ++ nl ++ "[[" ++ dquote ++ "(ab)" ++ dquote ++ "]]" ++ nl)%string
          ("Failed to load exception dictionary 'x'" ++ nl ++ "Warning: Working without exception dictionary" ++ nl)%string (Ok 0%Z) /\
  run noFiles "" ["-t"; "-dx"; "-j"; "กา"; "ab"]%string = run noFiles "unread" ["กา"; "-t"; "-dx"; "ab"; "-j"]%string /\
  run noFiles (asLines ["กา"; "ab"])%string ["-t"; "-dx"; "-j"]%string = run noFiles "unread" ["กา"; "-t"; "-dx"; "ab"; "-j"]%string.
Proof.
  assert (NT : forall a, match a with String x _ => is "-" x | _ => false end = false -> ~ isOption a).
  { intros a H (t & ->). discriminate. }
  split; [|split; [|split; [|split; [|split; [|split]]]]].
  - repeat first [apply parted_nil|apply parted_option; [eexists; reflexivity|]|apply parted_text; [apply NT; reflexivity|]].
  - repeat first [apply parted_nil|apply parted_option; [eexists; reflexivity|]|apply parted_text; [apply NT; reflexivity|]].
  - repeat apply Forall_cons; try apply Forall_nil.
    1, 4: apply acc_text, NT; reflexivity. 1, 3: apply acc_letter; cbn; tauto. apply acc_dict. discriminate.
  - repeat constructor; discriminate.
  - vm_compute. reflexivity.
  - vm_compute. reflexivity.
  - vm_compute. reflexivity.
Qed.
Example C111_case2 :
  asks ["-n"; "กา"]%string Lines ["t"; "r"; "p"]%char None true /\
  asks ["-t"; "-r"; "-p"; "-n"; "ab"]%string Lines ["t"; "r"; "p"]%char None true /\
  rOut (run noFiles "" ["-n"; "กา"; "ab"]%string) =
    (rOut (run noFiles "" ["-n"; "กา"]%string) ++ rOut (run noFiles "" ["-t"; "-r"; "-p"; "-n"; "ab"]%string))%string /\
  rErr (run noFiles "" ["-n"; "กา"; "ab"]%string) = rErr (run noFiles "" ["-n"; "กา"]%string) /\
  run noFiles "" ["-n"; "ab"]%string = run noFiles "" ["-t"; "-r"; "-p"; "-n"; "ab"]%string.
Proof.
  assert (NO : forall c a, letterb c a = false -> ~ hasLetter a c) by (intros c a H X; apply letterb_ok in X; congruence).
  split; [|split; [|vm_compute; auto]]; (split; [|split; [|split]]).
  1, 5: split; rewrite <- givenb_ok; discriminate.
  - exists []. split; [|reflexivity]. do 2 (apply named_skip; [intros c [<-|[<-|[<-|[<-|[<-|[]]]]]]; apply NO; reflexivity|]). constructor.
  - cbn [lastDict]. rewrite <- givenb_ok. discriminate.
  - rewrite <- givenb_ok. split; reflexivity.
  - exists ["t"; "r"; "p"]%char. split; [|reflexivity]. do 3 (apply named_take; [cbn; tauto|]).
    do 2 (apply named_skip; [intros c [<-|[<-|[<-|[<-|[<-|[]]]]]]; apply NO; reflexivity|]). constructor.
  - cbn [lastDict]. rewrite <- givenb_ok. discriminate.
  - rewrite <- givenb_ok. split; reflexivity.
Qed.

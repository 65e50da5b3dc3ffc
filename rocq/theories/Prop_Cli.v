(** Prop_Cli.v - the command line program: C42, C43, C52. *)
From Coq Require Import List NArith ZArith Bool String Ascii Lia Arith.
From Verif Require Import Base ThUni ThCons Syl Utf Lattice Dag PronDag SylOut ThaiOut Output Dict GenDict Parser Cli.
Import ListNotations.
Local Open Scope string_scope.
Local Open Scope list_scope.

(** ** Vocabulary: arguments *)
Definition isOption (a : string) : Prop := exists t, a = String "-" t.
(** [a] is an option with letter [c]; what follows the letter is ignored
    except for [-d]. *)
Definition hasLetter (a : string) (c : ascii) : Prop := exists t, a = String "-" (String c t).
Definition given (c : ascii) (args : list string) : Prop := exists a, In a args /\ hasLetter a c.

Inductive accepted : string -> Prop :=
| acc_text a : ~ isOption a -> accepted a
| acc_letter c t : In c ["n"; "j"; "g"; "r"; "s"; "t"; "p"; "w"]%char -> accepted (String "-" (String c t))
| acc_dict c t : c <> Ascii.zero -> accepted (String "-" (String "d" (String c t))).

(** The structure of the output, from the letters present anywhere. *)
Inductive Structure := Lines | Flat | Grouped.
Definition structureIs (args : list string) (st : Structure) : Prop :=
  match st with
  | Grouped => given "g" args
  | Flat => given "j" args /\ ~ given "g" args
  | Lines => ~ given "j" args /\ ~ given "g" args
  end.
(** The notation letters, in order. *)
Definition notationLetters : list ascii := ["r"; "s"; "t"; "p"; "w"]%char.
Inductive Named : list string -> list ascii -> Prop :=
| named_nil : Named [] []
| named_take c t args l : In c notationLetters -> Named args l -> Named (String "-" (String c t) :: args) (c :: l)
| named_skip a args l : (forall c, In c notationLetters -> ~ hasLetter a c) -> Named args l -> Named (a :: args) l.
Definition wanted (args : list string) (l : list ascii) : Prop :=
  exists l0, Named args l0 /\ l = match l0 with [] => ["t"; "r"; "p"]%char | _ => l0 end.
(** The notation function and delimiter of a letter. *)
Definition notationOf (c : ascii) : option ((Syl -> Res string) * ascii) :=
  if (c =? "t")%char then Some (ThaiOutput, "-"%char)
  else if (c =? "p")%char then Some (PhoneticOutput, " "%char)
  else if (c =? "w")%char then Some (RawOutput, ","%char)
  else if (c =? "s")%char then Some (SoundexOutput, "-"%char)
  else if (c =? "r")%char then Some (RomanSylOutput, "-"%char)
  else None.
Definition written (st : Structure) (c : ascii) (d : PronunDAG) (text : string) : Prop :=
  exists f delim, notationOf c = Some (f, delim) /\
    match st with
    | Grouped => gjsonOutputDAG f d = Ok text
    | Flat => jsonOutputDAG f d = Ok text
    | Lines => if (c =? "r")%char then romanOutputDAG false d = Ok text else delimOutputDAG f delim d = Ok text
    end.
(** Which dictionary: the path of the last [-d], or the default. *)
Definition dictIs (default : string) (args : list string) (path : string) : Prop :=
  (exists pre post, args = pre ++ String "-" (String "d" path) :: post /\ ~ given "d" post) \/
  (~ given "d" args /\ path = default).
(** The words: the arguments that are not options, in order; when there is
    none, the lines of the input. *)
Inductive Texts : list string -> list string -> Prop :=
| texts_nil : Texts [] []
| texts_take a args l : ~ isOption a -> Texts args l -> Texts (a :: args) (a :: l)
| texts_skip a args l : isOption a -> Texts args l -> Texts (a :: args) l.
Definition newline : ascii := ascii_of_nat 10.
Fixpoint noNewline (s : string) : Prop := match s with "" => True | String c s' => c <> newline /\ noNewline s' end.
Inductive LinesOf : string -> list string -> Prop :=
| lines_nil : LinesOf "" []
| lines_last w : w <> ""%string -> noNewline w -> LinesOf w [w]
| lines_cons w s ws : noNewline w -> LinesOf s ws -> LinesOf (w ++ String newline s) (w :: ws).
Definition wordsAre (stdin : string) (args : list string) (words : list string) : Prop :=
  exists l, Texts args l /\ match l with [] => LinesOf stdin words | _ => words = l end.

(** What is printed for a word. *)
Definition saidOf (parse : string -> Res PronunDAG) (st : Structure) (letters : list ascii) (word text : string) : Prop :=
  exists d outs, parse word = Ok d /\ Forall2 (fun c o => written st c d o) letters outs /\
    text = (word ++ ":" ++ nl ++ String.concat "" (map (fun o => o ++ nl) outs))%string.
Definition warning (default : string) (args : list string) (loaded : bool) (e : string) : Prop :=
  if loaded then e = ""%string
  else exists path shown, dictIs default args path /\
    e = ("Failed to load exception dictionary " ++ shown ++ nl ++ "Warning: Working without exception dictionary" ++ nl)%string /\
    (shown = path /\ ~ given "d" args \/ shown = ("'" ++ path ++ "'")%string /\ given "d" args).

(** ** Lemmas *)
Lemma sapp_assoc a b c : ((a ++ b) ++ c = a ++ (b ++ c))%string.
Proof. induction a as [|x a IH]; [reflexivity|]. cbn. rewrite IH. reflexivity. Qed.
Lemma sapp_nil a : (a ++ "" = a)%string.
Proof. induction a as [|x a IH]; [reflexivity|]. cbn. rewrite IH. reflexivity. Qed.
Lemma sconcat_cons a l : String.concat "" (a :: l) = (a ++ String.concat "" l)%string.
Proof. destruct l; cbn; rewrite ?sapp_nil; reflexivity. Qed.
Lemma sconcat_app a b : String.concat "" (a ++ b) = (String.concat "" a ++ String.concat "" b)%string.
Proof. induction a as [|x a IH]; [reflexivity|]. rewrite <- app_comm_cons, !sconcat_cons, IH, sapp_assoc. reflexivity. Qed.

Lemma rbind_done {A B} (a : A) (k : A -> Run B) : rbind (done a) k = k a.
Proof. unfold rbind. cbn. destruct (k a); reflexivity. Qed.
Lemma rbind_ok {A B} (a : A) (k : A -> Run B) : rbind (lift (Ok a)) k = k a.
Proof. apply rbind_done. Qed.
Lemma rbind_out {B} s (k : unit -> Run B) : rbind (out s) k = mkRun (s ++ rOut (k tt)) (rErr (k tt)) (rRes (k tt)).
Proof. reflexivity. Qed.
Lemma rbind_run {A B} o e (a : A) (k : A -> Run B) :
  rbind (mkRun o e (Ok a)) k = mkRun (o ++ rOut (k a)) (e ++ rErr (k a)) (rRes (k a)).
Proof. reflexivity. Qed.
Lemma run_eta {A} (r : Run A) : mkRun ("" ++ rOut r)%string ("" ++ rErr r)%string (rRes r) = r.
Proof. destruct r. reflexivity. Qed.

Lemma option_dec a : {t | a = String "-" t} + {~ isOption a}.
Proof.
  destruct a as [|c t]; [right; intros (t & H); discriminate|].
  destruct (ascii_dec c "-") as [->|N]; [left; exists t; reflexivity|right; intros (t' & H); injection H as H _; contradiction].
Qed.
Lemma isE x y : is x y = true <-> x = y.
Proof. unfold is. split; [apply Ascii.eqb_eq|intros ->; apply Ascii.eqb_refl]. Qed.
Lemma charAt0 a : charAt a 0 = Ok (match a with "" => Ascii.zero | String c _ => c end).
Proof. destruct a; reflexivity. Qed.
Lemma notOption a : ~ isOption a -> is "-" (match a with "" => Ascii.zero | String c _ => c end) = false.
Proof.
  intros N. destruct a as [|c t]; [reflexivity|]. apply not_true_is_false. intros H. apply isE in H. subst.
  apply N. exists t. reflexivity.
Qed.

(** The effect of an accepted option. *)
Definition upd (o : Opts) (a : string) : Opts :=
  match a with
  | String x (String c t) =>
      if is "-" x then
        counted (if is "d" c then mkOpts (oCnt o) (Some t) (oBreak o) (oJson o) (oGroup o)
                 else if is "n" c then mkOpts (oCnt o) (oDict o) false (oJson o) (oGroup o)
                 else if is "j" c then mkOpts (oCnt o) (oDict o) (oBreak o) true (oGroup o)
                 else if is "g" c then mkOpts (oCnt o) (oDict o) (oBreak o) true true
                 else o)
      else o
  | _ => o
  end.
Section P.
Variable VERSION argv0 argv1 : string.
Lemma first_accepted o a : accepted a -> firstPassArg VERSION argv0 argv1 o a = done (Go (upd o a)).
Proof.
  intros [a' N|c t I|c t N]; unfold firstPassArg.
  - rewrite charAt0, rbind_ok, (notOption a' N). destruct a' as [|x [|c t]]; try reflexivity.
    cbn [upd]. pose proof (notOption _ N) as E; cbv iota in E. rewrite E. reflexivity.
  - destruct I as [<-|[<-|[<-|[<-|[<-|[<-|[<-|[<-|[]]]]]]]]]; reflexivity.
  - assert (E : is Ascii.zero c = false) by (apply not_true_is_false; intros H; apply isE in H; congruence).
    change (charAt (String "-" (String "d" (String c t))) 0) with (Ok "-"%char). rewrite rbind_ok.
    change (charAt (String "-" (String "d" (String c t))) 1) with (Ok "d"%char).
    change (charAt (String "-" (String "d" (String c t))) 2) with (Ok c).
    change (is "-" "-") with true. cbv iota. rewrite rbind_ok.
    change (is "-" "d") with false. change (is "V" "d") with false. change (is "h" "d") with false. change (is "d" "d") with true. cbv iota.
    rewrite rbind_ok, E. reflexivity.
Qed.
Lemma first_all args : Forall accepted args -> forall o rest,
  firstPass VERSION argv0 argv1 o (args ++ rest) = firstPass VERSION argv0 argv1 (fold_left upd args o) rest.
Proof.
  induction 1 as [|a args Ha _ IH]; intros o rest; [reflexivity|].
  cbn [app firstPass fold_left]. rewrite (first_accepted o a Ha), rbind_done. apply IH.
Qed.
End P.

Lemma given_cons c a args : given c (a :: args) <-> hasLetter a c \/ given c args.
Proof.
  split.
  - intros (b & [<-|I] & H); [left; exact H|right; exists b; auto].
  - intros [H|(b & I & H)]; [exists a; split; [left; reflexivity|exact H]|exists b; split; [right; exact I|exact H]].
Qed.
Lemma given_nil c : ~ given c [].
Proof. intros (a & [] & _). Qed.
Definition letterb (c : ascii) (a : string) : bool :=
  match a with String x (String y _) => is "-" x && is c y | _ => false end.
Lemma letterb_ok c a : letterb c a = true <-> hasLetter a c.
Proof.
  destruct a as [|x [|y t]]; cbn [letterb]; try (split; [discriminate|intros (t & H); discriminate]).
  rewrite andb_true_iff, !isE. split; [intros [<- <-]; exists t; reflexivity|intros (t' & H); injection H; auto].
Qed.
Lemma givenb_ok c args : existsb (letterb c) args = true <-> given c args.
Proof.
  rewrite existsb_exists. split; intros (a & I & H); exists a; split; auto; apply letterb_ok; exact H.
Qed.

Lemma fold_json args : forall o, oJson (fold_left upd args o) = oJson o || existsb (letterb "j") args || existsb (letterb "g") args.
Proof.
  induction args as [|a args IH]; intros o; cbn [fold_left existsb]; [rewrite !orb_false_r; reflexivity|].
  rewrite IH. clear IH. assert (E : oJson (upd o a) = oJson o || letterb "j" a || letterb "g" a).
  { destruct a as [|x [|c t]]; cbn [upd letterb]; rewrite ?orb_false_r; try reflexivity.
    destruct (is "-" x); cbn [andb]; rewrite ?orb_false_r; try reflexivity.
    destruct c as [[] [] [] [] [] [] [] []]; cbn; rewrite ?orb_false_r, ?orb_true_r; reflexivity. }
  rewrite E. destruct (oJson o), (letterb "j" a), (letterb "g" a), (existsb (letterb "j") args), (existsb (letterb "g") args); reflexivity.
Qed.
Lemma fold_group args : forall o, oGroup (fold_left upd args o) = oGroup o || existsb (letterb "g") args.
Proof.
  induction args as [|a args IH]; intros o; cbn [fold_left existsb]; [rewrite !orb_false_r; reflexivity|].
  rewrite IH. clear IH. assert (E : oGroup (upd o a) = oGroup o || letterb "g" a).
  { destruct a as [|x [|c t]]; cbn [upd letterb]; rewrite ?orb_false_r; try reflexivity.
    destruct (is "-" x); cbn [andb]; rewrite ?orb_false_r; try reflexivity.
    destruct c as [[] [] [] [] [] [] [] []]; cbn; rewrite ?orb_false_r, ?orb_true_r; reflexivity. }
  rewrite E. destruct (oGroup o), (letterb "g" a); reflexivity.
Qed.
Lemma fold_break args : forall o, oBreak (fold_left upd args o) = oBreak o && negb (existsb (letterb "n") args).
Proof.
  induction args as [|a args IH]; intros o; cbn [fold_left existsb]; [rewrite andb_true_r; reflexivity|].
  rewrite IH. clear IH. assert (E : oBreak (upd o a) = oBreak o && negb (letterb "n" a)).
  { destruct a as [|x [|c t]]; cbn [upd letterb]; rewrite ?andb_true_r; try reflexivity.
    destruct (is "-" x); cbn [andb negb]; rewrite ?andb_true_r; try reflexivity.
    destruct c as [[] [] [] [] [] [] [] []]; cbn; rewrite ?andb_true_r, ?andb_false_r; reflexivity. }
  rewrite E. destruct (oBreak o), (letterb "n" a); reflexivity.
Qed.
Lemma fold_cnt args l : Forall accepted args -> Texts args l -> forall o,
  oCnt (fold_left upd args o) + List.length l = oCnt o + List.length args.
Proof.
  intros A T. revert A. induction T as [|a args l N T IH|a args l (t & ->) T IH]; intros A o; [reflexivity| |].
  - cbn [fold_left List.length]. inversion A as [|? ? _ A']; subst. specialize (IH A' (upd o a)).
    assert (E : upd o a = o).
    { destruct a as [|x [|c t]]; try reflexivity. pose proof (notOption _ N) as E; cbv iota in E. cbn [upd]. rewrite E. reflexivity. }
    rewrite E in *. lia.
  - cbn [fold_left List.length]. inversion A as [|? ? Ha A']; subst. specialize (IH A' (upd o (String "-" t))).
    assert (E : oCnt (upd o (String "-" t)) = S (oCnt o)).
    { destruct t as [|c t].
      - inversion Ha as [? N| |]; exfalso; apply N; exists ""%string; reflexivity.
      - cbn [upd]. change (is "-" "-") with true. cbv iota. destruct (is "d" c), (is "n" c), (is "j" c), (is "g" c); reflexivity. }
    lia.
Qed.
Lemma hasD a : {t | a = String "-" (String "d" t)} + {letterb "d" a = false}.
Proof.
  destruct a as [|x [|y t]]; [right; reflexivity|right; reflexivity|].
  destruct (ascii_dec x "-") as [->|N]; [destruct (ascii_dec y "d") as [->|M]|].
  - left. exists t. reflexivity.
  - right. apply not_true_is_false. intros H. apply letterb_ok in H. destruct H as (? & H). injection H. congruence.
  - right. apply not_true_is_false. intros H. apply letterb_ok in H. destruct H as (? & H). injection H. congruence.
Qed.
Lemma fold_dict args path : forall o, oDict (fold_left upd args o) = path ->
  path = oDict o /\ ~ given "d" args \/
  exists pre post p, path = Some p /\ args = pre ++ String "-" (String "d" p) :: post /\ ~ given "d" post.
Proof.
  induction args as [|a args IH]; intros o H; cbn [fold_left] in H; [left; split; [symmetry; exact H|apply given_nil]|].
  destruct (IH _ H) as [(E & N)|(pre & post & p & E & F & N)].
  2: { right. exists (a :: pre), post, p. split; [exact E|]. split; [rewrite F; reflexivity|exact N]. }
  destruct (hasD a) as [(t & ->)|Hd].
  - right. exists [], args, t. split; [exact E|]. split; [reflexivity|exact N].
  - left. assert (X : oDict (upd o a) = oDict o).
    { destruct a as [|x [|c t]]; try reflexivity. cbn [upd]. cbn [letterb] in Hd. destruct (is "-" x); [|reflexivity].
      cbn [andb] in Hd. rewrite Hd. destruct (is "n" c), (is "j" c), (is "g" c); reflexivity. }
    split; [congruence|]. rewrite given_cons. intros [L|G]; [|contradiction]. apply letterb_ok in L. congruence.
Qed.

(** The second pass. *)
Definition outOf (st : Structure) (c : ascii) : list Out :=
  let j := match st with Lines => false | _ => true end in
  let g := match st with Grouped => true | _ => false end in
  if is "r" c then [MakeRomanOutput j g] else if is "s" c then [MakeSoundexOutput j g]
  else if is "t" c then [MakeThaiOutput j g] else if is "p" c then [MakePhoneticOutput j g]
  else if is "w" c then [MakeRawOutput j g] else [].
Definition jOf (st : Structure) := match st with Lines => false | _ => true end.
Definition gOf (st : Structure) := match st with Grouped => true | _ => false end.
Lemma second_arg st a : accepted a -> secondPassArg (jOf st) (gOf st) a =
  done (match a with String x (String c _) => if is "-" x then outOf st c else [] | _ => [] end).
Proof.
  intros A. unfold secondPassArg. rewrite charAt0, rbind_ok.
  destruct (option_dec a) as [(t & ->)|N].
  - destruct t as [|c t]; [inversion A as [? N| |]; exfalso; apply N; exists ""%string; reflexivity|]. reflexivity.
  - rewrite (notOption a N). destruct a as [|x [|c t]]; try reflexivity. pose proof (notOption _ N) as E; cbv iota in E. rewrite E. reflexivity.
Qed.
Lemma outOf_other st c : ~ In c notationLetters -> outOf st c = [].
Proof.
  intros N. unfold outOf.
  assert (E : forall x, In x notationLetters -> is x c = false).
  { intros x I. apply not_true_is_false. intros H. apply isE in H. subst. contradiction. }
  rewrite !E by (cbn; tauto). reflexivity.
Qed.
Lemma second_all st args l : Forall accepted args -> Named args l ->
  secondPass (jOf st) (gOf st) args = done (flat_map (outOf st) l).
Proof.
  intros A N. revert A. induction N as [|c t args l I N IH|a args l H N IH]; intros A; [reflexivity| |];
    inversion A as [|? ? Ha A']; subst; cbn [secondPass]; rewrite (second_arg st _ Ha), rbind_done, (IH A'), rbind_done.
  - reflexivity.
  - destruct a as [|x [|c t]]; try reflexivity. destruct (is "-" x) eqn:Ex; [|reflexivity].
    apply isE in Ex. subst x. rewrite outOf_other; [reflexivity|]. intros I. apply (H c I). exists t. reflexivity.
Qed.
Lemma named_exists args : exists l, Named args l /\ Forall (fun c => In c notationLetters) l.
Proof.
  induction args as [|a args (l & IH & F)]; [exists []; split; constructor|].
  destruct a as [|x [|c t]].
  1, 2: exists l; split; [apply named_skip; [intros c _ (t & H); discriminate|exact IH]|exact F].
  destruct (in_dec ascii_dec c notationLetters) as [I|N].
  - destruct (ascii_dec x "-") as [->|N].
    + exists (c :: l). split; [constructor; assumption|constructor; assumption].
    + exists l. split; [apply named_skip; [|exact IH]|exact F]. intros c' _ (t' & H). injection H. congruence.
  - exists l. split; [apply named_skip; [|exact IH]|exact F]. intros c' I (t' & H). injection H as _ E _. congruence.
Qed.
Lemma named_in args l : Named args l -> Forall (fun c => In c notationLetters) l.
Proof. induction 1; [constructor|constructor; assumption|assumption]. Qed.

(** Lines of standard input. *)
Lemma noNl_app a b : noNewline (a ++ b) <-> noNewline a /\ noNewline b.
Proof. induction a as [|c a IH]; cbn; [tauto|rewrite IH; tauto]. Qed.
Lemma getlines_spec s : forall cur, noNewline cur -> LinesOf (cur ++ s) (getlines cur s).
Proof.
  induction s as [|c s IH]; intros cur N; cbn [getlines].
  - rewrite sapp_nil. destruct cur; [constructor|]. apply lines_last; [discriminate|exact N].
  - destruct (Ascii.eqb_spec c (ascii_of_nat 10)) as [->|M].
    + apply lines_cons; [exact N|]. exact (IH ""%string I).
    + replace (cur ++ String c s)%string with ((cur ++ String c "") ++ s)%string by (rewrite sapp_assoc; reflexivity).
      apply IH. apply noNl_app. split; [exact N|]. split; [exact M|exact I].
Qed.
Lemma lines_shape w s ws : noNewline w -> LinesOf (w ++ String newline s) ws ->
  exists ws', ws = w :: ws' /\ LinesOf s ws'.
Proof.
  intros N H. remember (w ++ String newline s)%string as x eqn:E. destruct H as [|w' Hn Hw|w' s' ws Hw HL].
  - destruct w; discriminate.
  - subst w'. apply noNl_app in Hw. destruct Hw as [_ [H _]]. contradiction (H eq_refl).
  - assert (Q : w' = w /\ s' = s).
    { clear HL. revert w N E. induction w' as [|c w' IH]; intros [|d w] N E; cbn in E.
      - injection E as E. auto.
      - injection E as <- E. destruct N as [H _]. contradiction (H eq_refl).
      - injection E as -> E. destruct Hw as [H _]. contradiction (H eq_refl).
      - injection E as <- E. cbn in Hw, N. destruct (IH (proj2 Hw) w (proj2 N) E) as [-> ->]. auto. }
    destruct Q as [-> ->]. exists ws. auto.
Qed.
Lemma lines_unique s ws1 : LinesOf s ws1 -> forall ws2, LinesOf s ws2 -> ws1 = ws2.
Proof.
  induction 1 as [|w Hn Hw|w s ws Hw HL IH]; intros ws2 H2.
  - inversion H2 as [|? Hn|w s ws Hw HL E]; [reflexivity|contradiction|destruct w; discriminate].
  - inversion H2 as [|? Hn' Hw'|w' s' ws' Hw' HL' E]; subst; [contradiction|reflexivity|].
    apply noNl_app in Hw. destruct Hw as [_ [H _]]. contradiction (H eq_refl).
  - destruct (lines_shape w s ws2 Hw H2) as (ws' & -> & H'). f_equal. apply IH. exact H'.
Qed.
Lemma texts_unique args l1 : Texts args l1 -> forall l2, Texts args l2 -> l1 = l2.
Proof.
  induction 1 as [|a args l N T IH|a args l O T IH]; intros l2 H; inversion H as [|? ? ? N' T'|? ? ? O' T']; subst; try contradiction;
    [reflexivity|f_equal|]; auto.
Qed.
Lemma texts_exists args : exists l, Texts args l.
Proof.
  induction args as [|a args (l & IH)]; [exists []; constructor|]. destruct (option_dec a) as [(t & ->)|N].
  - exists l. apply texts_skip; [exists t; reflexivity|exact IH].
  - exists (a :: l). constructor; assumption.
Qed.

(** The words. *)
Section D.
Variable ct : CType.
Variable breaker : list N -> list nat.
Variable fuel : nat.
Lemma parseArgs_texts p outs args l : Texts args l -> parseArgs ct breaker fuel p outs args = doAll ct breaker fuel p outs l.
Proof.
  induction 1 as [|a args l N T IH|a args l (t & ->) T IH]; [reflexivity| |]; cbn [parseArgs]; rewrite charAt0, rbind_ok.
  - rewrite (notOption a N). cbn [doAll]. rewrite IH. reflexivity.
  - change (is "-" "-") with true. cbv iota. rewrite rbind_done. exact IH.
Qed.
Lemma print_ok st letters d outs : Forall2 (fun c o => written st c d o) letters outs ->
  printAll (flat_map (outOf st) letters) d = mkRun (String.concat "" (map (fun o => o ++ nl)%string outs)) "" (Ok tt).
Proof.
  induction 1 as [|c o letters outs W _ IH]; [reflexivity|]. cbn [flat_map map]. rewrite sconcat_cons.
  assert (E : exists x, outOf st c = [x] /\ outputDAG x d = Ok o).
  { destruct W as (f & dl & E & W). unfold notationOf in E.
    destruct (Ascii.eqb_spec c "t") as [->|_]; [injection E as <- <-|].
    { destruct st; eexists; split; try reflexivity; exact W. }
    destruct (Ascii.eqb_spec c "p") as [->|_]; [injection E as <- <-|].
    { destruct st; eexists; split; try reflexivity; exact W. }
    destruct (Ascii.eqb_spec c "w") as [->|_]; [injection E as <- <-|].
    { destruct st; eexists; split; try reflexivity; exact W. }
    destruct (Ascii.eqb_spec c "s") as [->|_]; [injection E as <- <-|].
    { destruct st; eexists; split; try reflexivity; exact W. }
    destruct (Ascii.eqb_spec c "r") as [->|_]; [injection E as <- <-|discriminate].
    destruct st; eexists; split; try reflexivity; exact W. }
  destruct E as (x & -> & Ex). cbn [app printAll]. rewrite Ex, rbind_ok, rbind_out, IH. cbn. reflexivity.
Qed.
Lemma do_one p st letters w text :
  saidOf (parseWord ct breaker fuel p) st letters w text ->
  DoParse ct breaker fuel p (flat_map (outOf st) letters) w = mkRun text "" (Ok tt).
Proof.
  intros (d & outs & P & F & ->). unfold DoParse. rewrite rbind_out, P, rbind_ok, (print_ok st letters d outs F). cbn [rOut rErr rRes].
  rewrite !sapp_assoc. reflexivity.
Qed.
Lemma do_all p st letters ws texts rest :
  Forall2 (saidOf (parseWord ct breaker fuel p) st letters) ws texts ->
  doAll ct breaker fuel p (flat_map (outOf st) letters) (ws ++ rest) =
  let r := doAll ct breaker fuel p (flat_map (outOf st) letters) rest in
  mkRun (String.concat "" texts ++ rOut r) (rErr r) (rRes r).
Proof.
  induction 1 as [|w text ws texts S _ IH]; [cbn [app]; destruct (doAll _ _ _ _ _ rest); reflexivity|].
  cbn [app doAll]. rewrite (do_one p st letters w text S), rbind_run, IH. cbn [rOut rErr rRes]. rewrite sconcat_cons, sapp_assoc. reflexivity.
Qed.
End D.

Lemma Forall2_imp {A B} (P Q : A -> B -> Prop) l1 l2 : (forall a b, P a b -> Q a b) -> Forall2 P l1 l2 -> Forall2 Q l1 l2.
Proof. intros H F. induction F; constructor; auto. Qed.

(** ** C42: command-line options *)
Lemma structure_flags args st : structureIs args st ->
  oJson (fold_left upd args (mkOpts 0 None true false false)) = jOf st /\
  oGroup (fold_left upd args (mkOpts 0 None true false false)) = gOf st.
Proof.
  intros H. rewrite fold_json, fold_group. cbn [oJson oGroup orb].
  destruct st; cbn [structureIs] in H; rewrite <- ?givenb_ok in H.
  - destruct H as [H1 H2]. rewrite not_true_iff_false in H1, H2. rewrite H1, H2. auto.
  - destruct H as [H1 H2]. rewrite not_true_iff_false in H2. rewrite H1, H2. auto.
  - rewrite H. rewrite orb_true_r. auto.
Qed.
Lemma dictIs_fun default args p q : dictIs default args p -> dictIs default args q -> p = q.
Proof.
  assert (G : forall pre post t, given "d" (pre ++ String "-" (String "d" t) :: post)).
  { intros. exists (String "-" (String "d" t)). split; [apply in_elt|exists t; reflexivity]. }
  assert (L : forall pre1 post1 t1 pre2 post2 t2, pre1 ++ String "-" (String "d" t1) :: post1 = pre2 ++ String "-" (String "d" t2) :: post2 ->
     ~ given "d" post1 -> ~ given "d" post2 -> t1 = t2).
  { induction pre1 as [|a pre1 IH]; intros post1 t1 [|b pre2] post2 t2 E N1 N2; cbn in E; injection E as E1 E2.
    - congruence.
    - subst. exfalso. apply N1. apply G.
    - subst. exfalso. apply N2. apply G.
    - eapply IH; eauto. }
  intros [(pre1 & post1 & E1 & N1)|(N1 & ->)] [(pre2 & post2 & E2 & N2)|(N2 & ->)].
  - eapply L; [rewrite <- E1; exact E2|auto|auto].
  - exfalso. apply N2. rewrite E1. apply G.
  - exfalso. apply N1. rewrite E2. apply G.
  - reflexivity.
Qed.

Section Top.
Variable ct : CType.
Variable breaker : list N -> list nat.
Variable VERSION default : string.
Variable files : string -> PathContent.
Variable stdin : string.
Variable fuel : nat.
Definition breaksFor (args : list string) (b : list N -> list nat) : Prop :=
  (given "n" args /\ b = fun _ => []) \/ (~ given "n" args /\ b = breaker).

Lemma main_accepted prog args st letters words path b dict loaded :
  Forall accepted args -> structureIs args st -> wanted args letters -> wordsAre stdin args words ->
  dictIs default args path -> DictOpen (files path) = Ok (dict, loaded) -> breaksFor args b ->
  exists e p, warning default args loaded e /\
    (forall w, parseWord ct breaker fuel p w = parseWordF ct fuel (Some dict) b w) /\
    main ct breaker VERSION default files stdin fuel (prog :: args) =
    rbind (mkRun "" e (Ok tt)) (fun _ => rbind (doAll ct breaker fuel p (flat_map (outOf st) letters) words) (fun _ => done 0%Z)).
Proof.
  intros A S (l0 & N & ->) (ts & T & W) D O B. unfold main. cbn [tl nth].
  pose proof (first_all VERSION prog (nth 0 args "") args A (mkOpts 0 None true false false) []) as F.
  rewrite app_nil_r in F. replace (nth 1 (prog :: args) ""%string) with (nth 0 args ""%string) by reflexivity.
  change (nth 0 args ""%string) with (nth 0 args ""%string) in F. rewrite F. cbn [firstPass]. rewrite rbind_done. clear F.
  destruct (structure_flags args st S) as [EJ EG]. rewrite EJ, EG, (second_all st args l0 A N), rbind_done.
  set (o := fold_left upd args _) in *.
  assert (Eo : match flat_map (outOf st) l0 with
               | [] => [MakeThaiOutput (jOf st) (gOf st); MakeRomanOutput (jOf st) (gOf st); MakePhoneticOutput (jOf st) (gOf st)]
               | _ :: _ => flat_map (outOf st) l0 end
               = flat_map (outOf st) match l0 with [] => ["t"; "r"; "p"]%char | _ :: _ => l0 end).
  { pose proof (named_in args l0 N) as I. destruct I as [|c l0 I _]; [reflexivity|].
    cbn [flat_map]. destruct I as [<-|[<-|[<-|[<-|[<-|[]]]]]]; reflexivity. }
  rewrite Eo. clear Eo.
  exists (if loaded then "" else match oDict o with
      | Some _ => "Failed to load exception dictionary '" ++ path ++ "'" ++ nl ++ "Warning: Working without exception dictionary" ++ nl
      | None => "Failed to load exception dictionary " ++ path ++ nl ++ "Warning: Working without exception dictionary" ++ nl end)%string,
    (mkParser (Some dict) (oBreak o)).
  destruct (fold_dict args (oDict o) (mkOpts 0 None true false false) eq_refl) as [(Ed & Nd)|(pre & post & q & Ed & Ea & Nd)].
  - cbn [oDict] in Ed. destruct D as [(pre & post & E & _)|(_ & ->)].
    { exfalso. apply Nd. rewrite E. exists (String "-" (String "d" path)). split; [apply in_elt|exists path; reflexivity]. }
    split; [|split].
    + unfold warning. destruct loaded; [reflexivity|]. rewrite Ed. exists default, default. split; [right; auto|]. split; [reflexivity|]. left; auto.
    + intros w. unfold parseWord. cbn [pDict pBreaks]. unfold o. rewrite fold_break. cbn [oBreak andb].
      destruct B as [(B & ->)|(B & ->)].
      * apply givenb_ok in B. rewrite B. reflexivity.
      * rewrite <- givenb_ok in B. apply not_true_is_false in B. rewrite B. reflexivity.
    + rewrite Ed. unfold LoadExceptDict, loadExceptDict. rewrite O, rbind_ok. cbn [snd fst pBreaks].
      destruct (Z.eqb_spec 1 (Z.of_nat (List.length (prog :: args)) - Z.of_nat (oCnt o))) as [Q|Q].
      * assert (El : ts = []). { pose proof (fold_cnt args ts A T (mkOpts 0 None true false false)) as C. fold o in C. cbn [oCnt List.length] in *.
          destruct ts; [reflexivity|cbn [List.length] in C; lia]. }
        subst ts. rewrite (lines_unique _ _ W (getlines "" stdin)) by (apply (getlines_spec stdin ""); exact I).
        destruct loaded; rewrite ?rbind_done; cbn; rewrite ?sapp_nil, ?sapp_assoc; reflexivity.
      * assert (El : words = ts). { pose proof (fold_cnt args ts A T (mkOpts 0 None true false false)) as C. fold o in C. cbn [oCnt List.length] in *.
          destruct ts; [exfalso; cbn [List.length] in C; lia|exact W]. }
        subst ts. destruct loaded; rewrite ?rbind_done; cbn; rewrite (parseArgs_texts ct breaker fuel _ _ args words T);
          rewrite ?sapp_nil, ?sapp_assoc; reflexivity.
  - assert (path = q). { eapply dictIs_fun; [exact D|]. left. exists pre, post. auto. } subst q.
    assert (Gd : given "d" args). { rewrite Ea. exists (String "-" (String "d" path)). split; [apply in_elt|exists path; reflexivity]. }
    split; [|split].
    + unfold warning. destruct loaded; [reflexivity|]. rewrite Ed. exists path, ("'" ++ path ++ "'")%string. split; [exact D|].
      split; [rewrite !sapp_assoc; reflexivity|]. right; auto.
    + intros w. unfold parseWord. cbn [pDict pBreaks]. unfold o. rewrite fold_break. cbn [oBreak andb].
      destruct B as [(B & ->)|(B & ->)].
      * apply givenb_ok in B. rewrite B. reflexivity.
      * rewrite <- givenb_ok in B. apply not_true_is_false in B. rewrite B. reflexivity.
    + rewrite Ed. unfold LoadExceptDict, loadExceptDict. rewrite O, rbind_ok. cbn [snd fst pBreaks].
      destruct (Z.eqb_spec 1 (Z.of_nat (List.length (prog :: args)) - Z.of_nat (oCnt o))) as [Q|Q].
      * assert (El : ts = []). { pose proof (fold_cnt args ts A T (mkOpts 0 None true false false)) as C. fold o in C. cbn [oCnt List.length] in *.
          destruct ts; [reflexivity|cbn [List.length] in C; lia]. }
        subst ts. rewrite (lines_unique _ _ W (getlines "" stdin)) by (apply (getlines_spec stdin ""); exact I).
        destruct loaded; rewrite ?rbind_done; cbn; rewrite ?sapp_nil, ?sapp_assoc; reflexivity.
      * assert (El : words = ts). { pose proof (fold_cnt args ts A T (mkOpts 0 None true false false)) as C. fold o in C. cbn [oCnt List.length] in *.
          destruct ts; [exfalso; cbn [List.length] in C; lia|exact W]. }
        subst ts. destruct loaded; rewrite ?rbind_done; cbn; rewrite (parseArgs_texts ct breaker fuel _ _ args words T);
          rewrite ?sapp_nil, ?sapp_assoc; reflexivity.
Qed.
End Top.

Lemma C42_lemma ct breaker VERSION default files stdin fuel prog args st letters words path b dict loaded texts :
  Forall accepted args -> structureIs args st -> wanted args letters -> wordsAre stdin args words ->
  dictIs default args path -> DictOpen (files path) = Ok (dict, loaded) -> breaksFor breaker args b ->
  Forall2 (saidOf (parseWordF ct fuel (Some dict) b) st letters) words texts ->
  exists e, warning default args loaded e /\
    main ct breaker VERSION default files stdin fuel (prog :: args) = mkRun (String.concat "" texts) e (Ok 0%Z).
Proof.
  intros A S L W D O B F.
  destruct (main_accepted ct breaker VERSION default files stdin fuel prog args st letters words path b dict loaded A S L W D O B)
    as (e & p & We & P & ->). exists e. split; [exact We|].
  assert (F' : Forall2 (saidOf (parseWord ct breaker fuel p) st letters) words texts).
  { eapply Forall2_imp; [|exact F]. intros w t (d & outs & H & R). exists d, outs. rewrite P. auto. }
  pose proof (do_all ct breaker fuel p st letters words texts [] F') as E. rewrite app_nil_r in E. rewrite E.
  cbn. rewrite !sapp_nil. reflexivity.
Qed.
(** The output formats follow from the letters, wherever they stand; the words
    are printed in order, each followed by its renderings in order. *)
Theorem C42_run ct breaker VERSION default files stdin fuel prog args st letters words path b dict loaded texts :
  Forall accepted args -> structureIs args st -> wanted args letters -> wordsAre stdin args words ->
  dictIs default args path -> DictOpen (files path) = Ok (dict, loaded) -> breaksFor breaker args b ->
  Forall2 (saidOf (parseWordF ct fuel (Some dict) b) st letters) words texts ->
  exists e, warning default args loaded e /\
    main ct breaker VERSION default files stdin fuel (prog :: args) = mkRun (String.concat "" texts) e (Ok 0%Z).
Proof. exact (C42_lemma ct breaker VERSION default files stdin fuel prog args st letters words path b dict loaded texts). Qed.
Print Assumptions C42_run.

(** The arguments that end the program at once, with what is printed; [first]
    is the first argument. *)
Definition knownLetters : list ascii := ["-"; "V"; "h"; "d"; "n"; "j"; "g"; "r"; "s"; "t"; "p"; "w"]%char.
Inductive stopsWith (VERSION prog first : string) : string -> string -> string -> Prop :=
| stop_version : stopsWith VERSION prog first "--version" (Version VERSION prog) ""
| stop_V t : stopsWith VERSION prog first (String "-" (String "V" t)) (Version VERSION prog) ""
| stop_h t : stopsWith VERSION prog first (String "-" (String "h" t)) (Usage prog) ""
| stop_help t x y : t <> "version"%string -> first = String x (String y "help") ->
    stopsWith VERSION prog first (String "-" (String "-" t)) (Usage prog) ""
| stop_long t x y t1 : t <> "version"%string -> first = String x (String y t1) -> t1 <> "help"%string ->
    stopsWith VERSION prog first (String "-" (String "-" t)) "" ("Unknown option '--" ++ t ++ "'" ++ nl)
| stop_d : stopsWith VERSION prog first "-d" "" ("Missing <dict-path> argument for -d" ++ nl)
| stop_dash : stopsWith VERSION prog first "-" (Usage prog) ("Unknown option '-" ++ String Ascii.zero "'" ++ nl)
| stop_letter c t : ~ In c knownLetters ->
    stopsWith VERSION prog first (String "-" (String c t)) (Usage prog) ("Unknown option '-" ++ String c "'" ++ nl).
Lemma not_known c x : ~ In c knownLetters -> In x knownLetters -> is x c = false.
Proof. intros N I. apply not_true_is_false. intros H. apply isE in H. subst. contradiction. Qed.
Lemma first_stop VERSION prog first o a s e : stopsWith VERSION prog first a s e ->
  firstPassArg VERSION prog first o a = mkRun s e (Ok (Return 1%Z)).
Proof.
  intros H. destruct H as [|t|t|t x y N ->|t x y t1 N -> M| | |c t N].
  - cbn -[Version]. rewrite sapp_nil. reflexivity.
  - cbn -[Version]. rewrite sapp_nil. reflexivity.
  - cbn -[Usage]. rewrite sapp_nil. reflexivity.
  - unfold firstPassArg. change (charAt _ 0) with (Ok "-"%char). change (charAt (String "-" (String "-" t)) 1) with (Ok "-"%char).
    rewrite rbind_ok. change (is "-" "-") with true. cbv iota. rewrite rbind_ok. change (fromChar (String "-" (String "-" t)) 2) with (Ok t).
    rewrite rbind_ok, (proj2 (String.eqb_neq _ _) N). change (fromChar (String x (String y "help")) 2) with (Ok "help"%string). rewrite rbind_ok.
    cbn -[Usage]. rewrite sapp_nil. reflexivity.
  - unfold firstPassArg. change (charAt _ 0) with (Ok "-"%char). change (charAt (String "-" (String "-" t)) 1) with (Ok "-"%char).
    rewrite rbind_ok. change (is "-" "-") with true. cbv iota. rewrite rbind_ok. change (fromChar (String "-" (String "-" t)) 2) with (Ok t).
    rewrite rbind_ok, (proj2 (String.eqb_neq _ _) N). change (fromChar (String x (String y t1)) 2) with (Ok t1). rewrite rbind_ok, (proj2 (String.eqb_neq _ _) M).
    cbn. rewrite sapp_nil. reflexivity.
  - cbn. reflexivity.
  - cbn -[Usage]. rewrite sapp_nil. reflexivity.
  - unfold firstPassArg. change (charAt _ 0) with (Ok "-"%char). change (charAt (String "-" (String c t)) 1) with (Ok c).
    rewrite rbind_ok. change (is "-" "-") with true. cbv iota. rewrite rbind_ok.
    rewrite !(not_known c _ N) by (cbn; tauto). cbn -[Usage]. rewrite !sapp_nil. reflexivity.
Qed.
Lemma C42_lemma2 ct breaker VERSION default files stdin fuel prog args pre a post s e :
  args = pre ++ a :: post -> Forall accepted pre -> stopsWith VERSION prog (nth 0 args ""%string) a s e ->
  main ct breaker VERSION default files stdin fuel (prog :: args) = mkRun s e (Ok 1%Z).
Proof.
  intros E A S. unfold main. cbn [tl nth]. fold (nth 0 args ""%string).
  replace (nth 1 (prog :: args) ""%string) with (nth 0 args ""%string) by reflexivity.
  remember (nth 0 args ""%string) as first eqn:Ef. rewrite E, first_all by exact A. cbn [firstPass].
  rewrite (first_stop VERSION prog first _ a s e S), rbind_run. cbn. rewrite !sapp_nil. reflexivity.
Qed.
(** The first argument that is not accepted ends the program before any file
    is opened, any input read or any word printed. *)
Theorem C42_rejected ct breaker VERSION default files stdin fuel prog args pre a post s e :
  args = pre ++ a :: post -> Forall accepted pre -> stopsWith VERSION prog (nth 0 args ""%string) a s e ->
  main ct breaker VERSION default files stdin fuel (prog :: args) = mkRun s e (Ok 1%Z).
Proof. exact (C42_lemma2 ct breaker VERSION default files stdin fuel prog args pre a post s e). Qed.
Print Assumptions C42_rejected.

Fixpoint noNul (s : string) : Prop := match s with ""%string => True | String c s' => c <> Ascii.zero /\ noNul s' end.
Definition longOther (first a : string) : Prop :=
  exists t, a = String "-" (String "-" t) /\ t <> "version"%string /\ String.length first < 2.
Lemma arg_cases VERSION prog first a : noNul a ->
  accepted a \/ (exists s e, stopsWith VERSION prog first a s e) \/ longOther first a.
Proof.
  intros N. destruct (option_dec a) as [(t & ->)|M]; [|left; apply acc_text; exact M].
  destruct t as [|c t]; [right; left; eexists _, _; apply stop_dash|].
  destruct (in_dec ascii_dec c knownLetters) as [I|I]; [|right; left; eexists _, _; apply stop_letter; exact I].
  destruct I as [<-|[<-|[<-|[<-|I]]]].
  - destruct (string_dec t "version") as [->|V]; [right; left; eexists _, _; apply stop_version|].
    destruct first as [|x [|y t1]].
    + right; right. exists t. split; [reflexivity|]. split; [exact V|]. cbn. lia.
    + right; right. exists t. split; [reflexivity|]. split; [exact V|]. cbn. lia.
    + destruct (string_dec t1 "help") as [->|H].
      * right; left. eexists _, _. eapply stop_help; [exact V|reflexivity].
      * right; left. eexists _, _. eapply stop_long; [exact V|reflexivity|exact H].
  - right; left. eexists _, _. apply stop_V.
  - right; left. eexists _, _. apply stop_h.
  - destruct t as [|c t]; [right; left; eexists _, _; apply stop_d|]. left. apply acc_dict. apply N.
  - left. apply acc_letter. exact I.
Qed.
Lemma C42_lemma3 VERSION prog first args : Forall noNul args ->
  Forall accepted args \/
  exists pre a post, args = pre ++ a :: post /\ Forall accepted pre /\
    ((exists s e, stopsWith VERSION prog first a s e) \/ longOther first a).
Proof.
  induction 1 as [|a args N _ IH]; [left; constructor|].
  destruct (arg_cases VERSION prog first a N) as [A|[S|L]].
  - destruct IH as [IH|(pre & b & post & E & F & S)]; [left; constructor; assumption|].
    right. exists (a :: pre), b, post. split; [rewrite E; reflexivity|]. split; [constructor; assumption|exact S].
  - right. exists [], a, args. split; [reflexivity|]. split; [constructor|left; exact S].
  - right. exists [], a, args. split; [reflexivity|]. split; [constructor|right; exact L].
Qed.
(** Every argument vector is of one of these kinds (the last one is C43). *)
Theorem C42_decided VERSION prog first args : Forall noNul args ->
  Forall accepted args \/
  exists pre a post, args = pre ++ a :: post /\ Forall accepted pre /\
    ((exists s e, stopsWith VERSION prog first a s e) \/ longOther first a).
Proof. exact (C42_lemma3 VERSION prog first args). Qed.
Print Assumptions C42_decided.
Lemma C42_lemma4 stdin args : exists st letters words, structureIs args st /\ wanted args letters /\ wordsAre stdin args words.
Proof.
  destruct (named_exists args) as (l0 & N & _). destruct (texts_exists args) as (ts & T).
  assert (S : exists st, structureIs args st).
  { destruct (existsb (letterb "g") args) eqn:G; [exists Grouped; apply givenb_ok; exact G|].
    assert (G' : ~ given "g" args) by (rewrite <- givenb_ok, G; discriminate).
    destruct (existsb (letterb "j") args) eqn:J.
    - exists Flat. split; [apply givenb_ok; exact J|exact G'].
    - exists Lines. split; [rewrite <- givenb_ok, J; discriminate|exact G']. }
  destruct S as (st & S). destruct ts as [|t ts].
  - exists st, (match l0 with [] => ["t"; "r"; "p"]%char | _ => l0 end), (getlines "" stdin). split; [exact S|]. split; [exists l0; auto|]. exists []. split; [exact T|apply (getlines_spec stdin ""); exact I].
  - exists st, (match l0 with [] => ["t"; "r"; "p"]%char | _ => l0 end), (t :: ts). split; [exact S|]. split; [exists l0; auto|]. exists (t :: ts). auto.
Qed.
(** Structure, notations and words exist for every vector, and are unique. *)
Theorem C42_choices_exist stdin args :
  exists st letters words, structureIs args st /\ wanted args letters /\ wordsAre stdin args words.
Proof. exact (C42_lemma4 stdin args). Qed.
Print Assumptions C42_choices_exist.

Lemma named_unique args l1 : Named args l1 -> forall l2, Named args l2 -> l1 = l2.
Proof.
  induction 1 as [|c t args l I N IH|a args l H N IH]; intros l2 H2.
  - inversion H2. reflexivity.
  - inversion H2 as [|c' t' args' l' I' N' E1 E2|a' args' l' H' N' E1 E2]; subst.
    + f_equal. apply IH. exact N'.
    + exfalso. apply (H' c I). exists t. reflexivity.
  - inversion H2 as [|c' t' args' l' I' N' E1 E2|a' args' l' H' N' E1 E2]; subst.
    + exfalso. apply (H c' I'). exists t'. reflexivity.
    + apply IH. exact N'.
Qed.
Lemma C42_lemma5 stdin args st1 letters1 words1 st2 letters2 words2 :
  structureIs args st1 -> wanted args letters1 -> wordsAre stdin args words1 ->
  structureIs args st2 -> wanted args letters2 -> wordsAre stdin args words2 ->
  st1 = st2 /\ letters1 = letters2 /\ words1 = words2.
Proof.
  intros S1 (l1 & N1 & ->) (t1 & T1 & W1) S2 (l2 & N2 & ->) (t2 & T2 & W2). split; [|split].
  - destruct st1, st2; cbn in S1, S2; try reflexivity; exfalso; tauto.
  - rewrite (named_unique args l1 N1 l2 N2). reflexivity.
  - rewrite <- (texts_unique args t1 T1 t2 T2) in W2. destruct t1; [exact (lines_unique _ _ W1 _ W2)|congruence].
Qed.
Theorem C42_choices_unique stdin args st1 letters1 words1 st2 letters2 words2 :
  structureIs args st1 -> wanted args letters1 -> wordsAre stdin args words1 ->
  structureIs args st2 -> wanted args letters2 -> wordsAre stdin args words2 ->
  st1 = st2 /\ letters1 = letters2 /\ words1 = words2.
Proof. exact (C42_lemma5 stdin args st1 letters1 words1 st2 letters2 words2). Qed.
Print Assumptions C42_choices_unique.

Definition run (files : string -> PathContent) (stdin : string) (args : list string) : Run Z :=
  main libthai_ct (fun _ => []) "1" "/except.dic" files stdin 500 ("thpronun"%string :: args).
Definition noFiles : string -> PathContent := fun _ => NoFile.
Example C42_case : Forall accepted ["-t"; "กา"; "-j"; "-dx"; "ab"; "-r"]%string /\
  structureIs ["-t"; "กา"; "-j"; "-dx"; "ab"; "-r"]%string Flat /\
  wanted ["-t"; "กา"; "-j"; "-dx"; "ab"; "-r"]%string ["t"; "r"]%char /\
  wordsAre "unread" ["-t"; "กา"; "-j"; "-dx"; "ab"; "-r"]%string ["กา"; "ab"]%string /\
  dictIs "/except.dic" ["-t"; "กา"; "-j"; "-dx"; "ab"; "-r"]%string "x" /\
  run noFiles "unread" ["-t"; "กา"; "-j"; "-dx"; "ab"; "-r"]%string =
    mkRun ("กา:" ++ nl ++ "[[" ++ dquote ++ "กา" ++ dquote ++ "]]" ++ nl ++ "[[" ++ dquote ++ "ka" ++ dquote ++ "]]" ++ nl
           ++ "ab:" ++ nl ++ "[[" ++ dquote ++ "(ab)" ++ dquote ++ "]]" ++ nl ++ "[[" ++ dquote ++ "(ab)" ++ dquote ++ "]]" ++ nl)%string
          ("Failed to load exception dictionary 'x'" ++ nl ++ "Warning: Working without exception dictionary" ++ nl)%string (Ok 0%Z).
Proof.
  assert (NO : forall c a, letterb c a = false -> ~ hasLetter a c) by (intros c a H X; apply letterb_ok in X; congruence).
  assert (NT : forall a, match a with String x _ => is "-" x | _ => false end = false -> ~ isOption a).
  { intros a H (t & ->). discriminate. }
  split.
  { repeat apply Forall_cons; try apply Forall_nil.
    1, 3, 6: apply acc_letter; cbn; tauto. 1, 3: apply acc_text, NT; reflexivity. apply acc_dict. discriminate. }
  split.
  { split; [apply givenb_ok; reflexivity|]. rewrite <- givenb_ok. discriminate. }
  split.
  { exists ["t"; "r"]%char. split; [|reflexivity].
    apply (named_take "t" ""); [cbn; tauto|].
    do 4 (apply named_skip; [intros c [<-|[<-|[<-|[<-|[<-|[]]]]]]; apply NO; reflexivity|]).
    apply (named_take "r" ""); [cbn; tauto|]. constructor. }
  split.
  { exists ["กา"; "ab"]%string. split; [|reflexivity]. apply texts_skip; [eexists; reflexivity|]. apply texts_take; [apply NT; reflexivity|].
    do 2 (apply texts_skip; [eexists; reflexivity|]). apply texts_take; [apply NT; reflexivity|].
    apply texts_skip; [eexists; reflexivity|]. constructor. }
  split.
  { left. exists ["-t"; "กา"; "-j"]%string, ["ab"; "-r"]%string. split; [reflexivity|]. rewrite <- givenb_ok. discriminate. }
  vm_compute. reflexivity.
Qed.
(** Standard input is read when there is no text argument. *)
Example C42_stdin_case : wordsAre ("กา" ++ nl ++ "ab")%string ["-t"]%string ["กา"; "ab"]%string /\
  run noFiles ("กา" ++ nl ++ "ab")%string ["-t"]%string =
    mkRun ("กา:" ++ nl ++ "กา" ++ nl ++ nl ++ "ab:" ++ nl ++ "(ab)" ++ nl ++ nl)%string
          ("Failed to load exception dictionary /except.dic" ++ nl ++ "Warning: Working without exception dictionary" ++ nl)%string (Ok 0%Z).
Proof.
  split; [|vm_compute; reflexivity]. exists []. split; [apply texts_skip; [eexists; reflexivity|constructor]|].
  apply (getlines_spec ("กา" ++ nl ++ "ab")%string ""). exact I.
Qed.

(** ** C43: the help option *)
Lemma C43_lemma ct breaker VERSION default files stdin fuel prog post :
  main ct breaker VERSION default files stdin fuel (prog :: "--help"%string :: post) = mkRun (Usage prog) "" (Ok 1%Z).
Proof.
  apply (C42_lemma2 ct breaker VERSION default files stdin fuel prog _ [] "--help" post); [reflexivity|constructor|].
  eapply stop_help; [discriminate|reflexivity].
Qed.
(** As the first argument it prints the usage text. *)
Theorem C43_first ct breaker VERSION default files stdin fuel prog post :
  main ct breaker VERSION default files stdin fuel (prog :: "--help"%string :: post) = mkRun (Usage prog) "" (Ok 1%Z).
Proof. exact (C43_lemma ct breaker VERSION default files stdin fuel prog post). Qed.
Print Assumptions C43_first.
Lemma C43_lemma2 ct breaker VERSION default files stdin fuel prog first pre post :
  Forall accepted (first :: pre) -> 2 <= String.length first -> (forall x y, first <> String x (String y "help")) ->
  main ct breaker VERSION default files stdin fuel (prog :: first :: pre ++ "--help"%string :: post)
  = mkRun "" ("Unknown option '--help'" ++ nl) (Ok 1%Z).
Proof.
  intros A L N. destruct first as [|x [|y t1]]; cbn in L; try lia.
  apply (C42_lemma2 ct breaker VERSION default files stdin fuel prog _ (String x (String y t1) :: pre) "--help" post); [reflexivity|exact A|].
  eapply (stop_long VERSION prog _ "help" x y t1); [discriminate|reflexivity|]. intros ->. apply (N x y). reflexivity.
Qed.
(** Later it is reported as unknown, *)
Theorem C43_later_refuted ct breaker VERSION default files stdin fuel prog first pre post :
  Forall accepted (first :: pre) -> 2 <= String.length first -> (forall x y, first <> String x (String y "help")) ->
  main ct breaker VERSION default files stdin fuel (prog :: first :: pre ++ "--help"%string :: post)
  = mkRun "" ("Unknown option '--help'" ++ nl) (Ok 1%Z).
Proof. exact (C43_lemma2 ct breaker VERSION default files stdin fuel prog first pre post). Qed.
Print Assumptions C43_later_refuted.
Example C43_later_case : Forall accepted ["-j"; "กา"]%string /\ 2 <= String.length "-j" /\
  (forall x y, "-j"%string <> String x (String y "help")) /\
  run noFiles "" ["-j"; "กา"; "--help"]%string = mkRun "" ("Unknown option '--help'" ++ nl)%string (Ok 1%Z).
Proof.
  split; [apply Forall_cons; [apply acc_letter; cbn; tauto|apply Forall_cons; [|apply Forall_nil]]; apply acc_text; intros (t & H); discriminate|].
  split; [cbn; lia|]. split; [discriminate|vm_compute; reflexivity].
Qed.
Lemma C43_lemma3 ct breaker VERSION default files stdin fuel prog args pre a post :
  args = pre ++ a :: post -> Forall accepted pre -> longOther (nth 0 args ""%string) a ->
  main ct breaker VERSION default files stdin fuel (prog :: args) = mkRun "" "" UB.
Proof.
  intros E A (t & -> & V & L). unfold main. cbn [tl nth]. fold (nth 0 args ""%string).
  replace (nth 1 (prog :: args) ""%string) with (nth 0 args ""%string) by reflexivity.
  remember (nth 0 args ""%string) as first eqn:Ef. rewrite E, first_all by exact A. cbn [firstPass].
  assert (X : fromChar first 2 = UB). { destruct first as [|x [|y t1]]; try reflexivity. cbn in L. lia. }
  unfold firstPassArg. change (charAt _ 0) with (Ok "-"%char). change (charAt (String "-" (String "-" t)) 1) with (Ok "-"%char).
  rewrite rbind_ok. change (is "-" "-") with true. cbv iota. rewrite rbind_ok.
  change (fromChar (String "-" (String "-" t)) 2) with (Ok t). rewrite rbind_ok, (proj2 (String.eqb_neq _ _) V), X. reflexivity.
Qed.
(** after a first argument of fewer than two bytes it reads past its end, *)
Theorem C43_short_refuted ct breaker VERSION default files stdin fuel prog args pre a post :
  args = pre ++ a :: post -> Forall accepted pre -> longOther (nth 0 args ""%string) a ->
  main ct breaker VERSION default files stdin fuel (prog :: args) = mkRun "" "" UB.
Proof. exact (C43_lemma3 ct breaker VERSION default files stdin fuel prog args pre a post). Qed.
Print Assumptions C43_short_refuted.
Example C43_short_case : longOther "a" "--help" /\ run noFiles "" ["a"; "--help"]%string = mkRun "" "" UB.
Proof. split; [exists "help"%string; split; [reflexivity|split; [discriminate|cbn; lia]]|vm_compute; reflexivity]. Qed.
Lemma C43_lemma4 ct breaker VERSION default files stdin fuel prog x y pre t post :
  Forall accepted (String x (String y "help") :: pre) -> t <> "version"%string ->
  main ct breaker VERSION default files stdin fuel (prog :: String x (String y "help") :: pre ++ String "-" (String "-" t) :: post)
  = mkRun (Usage prog) "" (Ok 1%Z).
Proof.
  intros A N. apply (C42_lemma2 ct breaker VERSION default files stdin fuel prog _ (String x (String y "help") :: pre) (String "-" (String "-" t)) post);
    [reflexivity|exact A|]. eapply stop_help; [exact N|reflexivity].
Qed.
(** and after a first argument such as [-thelp], any unknown long option
    prints the usage text instead of an error. *)
Theorem C43_spurious_refuted ct breaker VERSION default files stdin fuel prog x y pre t post :
  Forall accepted (String x (String y "help") :: pre) -> t <> "version"%string ->
  main ct breaker VERSION default files stdin fuel (prog :: String x (String y "help") :: pre ++ String "-" (String "-" t) :: post)
  = mkRun (Usage prog) "" (Ok 1%Z).
Proof. exact (C43_lemma4 ct breaker VERSION default files stdin fuel prog x y pre t post). Qed.
Print Assumptions C43_spurious_refuted.
Example C43_spurious_case : Forall accepted ["-thelp"]%string /\
  run noFiles "" ["-thelp"; "--colour"]%string = mkRun (Usage "thpronun") "" (Ok 1%Z).
Proof. split; [apply Forall_cons; [apply acc_letter; cbn; tauto|apply Forall_nil]|vm_compute; reflexivity]. Qed.

(** ** C52: one word that cannot be analysed *)
Lemma C52_lemma ct breaker VERSION default files stdin fuel prog args st letters pre bad post path b dict loaded texts :
  Forall accepted args -> structureIs args st -> wanted args letters -> wordsAre stdin args (pre ++ bad :: post) ->
  dictIs default args path -> DictOpen (files path) = Ok (dict, loaded) -> breaksFor breaker args b ->
  Forall2 (saidOf (parseWordF ct fuel (Some dict) b) st letters) pre texts ->
  parseWordF ct fuel (Some dict) b bad = Throw ->
  exists e, warning default args loaded e /\ main ct breaker VERSION default files stdin fuel (prog :: args)
    = mkRun (String.concat "" texts ++ bad ++ ":" ++ nl) e Throw.
Proof.
  intros A S L W D O B F T.
  destruct (main_accepted ct breaker VERSION default files stdin fuel prog args st letters _ path b dict loaded A S L W D O B)
    as (e & p & We & P & ->). exists e. split; [exact We|].
  assert (F' : Forall2 (saidOf (parseWord ct breaker fuel p) st letters) pre texts).
  { eapply Forall2_imp; [|exact F]. intros w t (d & outs & H & R). exists d, outs. rewrite P. auto. }
  rewrite (do_all ct breaker fuel p st letters pre texts (bad :: post) F'). cbn [doAll]. unfold DoParse. rewrite P, T.
  cbn. rewrite !sapp_nil. reflexivity.
Qed.
(** The program ends with an uncaught exception; the words after it are not
    printed. *)
Theorem C52_bad_word_refuted ct breaker VERSION default files stdin fuel prog args st letters pre bad post path b dict loaded texts :
  Forall accepted args -> structureIs args st -> wanted args letters -> wordsAre stdin args (pre ++ bad :: post) ->
  dictIs default args path -> DictOpen (files path) = Ok (dict, loaded) -> breaksFor breaker args b ->
  Forall2 (saidOf (parseWordF ct fuel (Some dict) b) st letters) pre texts ->
  parseWordF ct fuel (Some dict) b bad = Throw ->
  exists e, warning default args loaded e /\ main ct breaker VERSION default files stdin fuel (prog :: args)
    = mkRun (String.concat "" texts ++ bad ++ ":" ++ nl) e Throw.
Proof. exact (C52_lemma ct breaker VERSION default files stdin fuel prog args st letters pre bad post path b dict loaded texts). Qed.
Print Assumptions C52_bad_word_refuted.
Example C52_case : rRes (run noFiles "" ["-t"; "กา"; "แ"; "ขา"]%string) = Throw /\
  rOut (run noFiles "" ["-t"; "กา"; "แ"; "ขา"]%string) = ("กา:" ++ nl ++ "กา" ++ nl ++ nl ++ "แ:" ++ nl)%string /\
  rRes (run noFiles "" ["-t"; String (ascii_of_nat 255) ""; "กา"]%string) = Throw.
Proof. vm_compute. repeat split. Qed.

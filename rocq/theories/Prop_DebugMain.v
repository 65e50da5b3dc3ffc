(** Prop_DebugMain.v - property C93: the program built with assertions. *)
From Coq Require Import List NArith ZArith Bool String Ascii Lia Arith Sorted.
From Verif Require Import Base ThUni ThCons Syl Utf Lattice Dag PronDag SylOut ThaiOut Output Dict GenDict Parser ParserDebug Cli CliDebug.
From Verif Require Import Spec OrderProofs DictProofs Prop_Syl ParserSpec ParserFacts ParserInv ParserResult ParserListed ParserDict.
From Verif Require Import Prop_Output Prop_Parser Prop_Cli Prop_Cli2 Prop_Program Grammar GrammarWord TextGrammar TextProof DebugProofs DebugText Prop_Debug.
Import ListNotations.
Local Open Scope string_scope.
Local Open Scope list_scope.
Local Open Scope nat_scope.

(** ** The Thai notation *)
Lemma C93_lemma1 v : ThaiOutputD v = Ran (ThaiOutput v).
Proof.
  unfold ThaiOutputD, ThaiOutput, ThaiSylBelowAboveD, ThaiSylLeadShortD, ThaiSylLeadLongD.
  destruct (isLiteral v); [reflexivity|]. cbv zeta. rewrite !(Z.eqb_sym _ (vowel v)).
  repeat match goal with |- context [(vowel v =? ?x)%Z] => destruct (vowel v =? x)%Z; cbn [orb]; try reflexivity end.
Qed.
(** No assertion of the Thai notation fails, on any syllable whatever. *)
Theorem C93_respelling v : ThaiOutputD v = Ran (ThaiOutput v).
Proof. exact (C93_lemma1 v). Qed.
Print Assumptions C93_respelling.

(** ** The program *)
(** It has stopped at the assertion while at the word [w]: what it has written
    is the beginning of what [r] writes, and ends with the word. *)
Definition stoppedAt {A} (w : string) (r : Run A) (rd : RunD A) : Prop :=
  exists o rest, rd = mkRunD (o ++ w ++ ":" ++ nl) (rErr r) (Abort (parser_cxx 293)) /\ rOut r = ((o ++ w ++ ":" ++ nl) ++ rest)%string.
Lemma ordinary_bind {A B} (m : Run A) (k : A -> Run B) : ordinary (rbind m k) = rbindD (ordinary m) (fun a => ordinary (k a)).
Proof. destruct m as [o e [a| | |]]; reflexivity. Qed.
Lemma ordinary_ext {A B} (m : Run A) (k : A -> RunD B) a : rRes m = Ok a -> rbindD (ordinary m) k = mkRunD (rOut m ++ dOut (k a)) (rErr m ++ dErr (k a)) (dRes (k a)).
Proof. intros E. unfold rbindD, ordinary. cbn [dRes dOut dErr]. rewrite E. reflexivity. Qed.
Lemma stopped_after {A B} (m : Run A) (k : A -> Run B) (kd : A -> RunD B) a w : rRes m = Ok a -> stoppedAt w (k a) (kd a) ->
  stoppedAt w (rbind m k) (rbindD (ordinary m) kd).
Proof.
  intros E (o & rest & X & Y). rewrite (ordinary_ext _ _ _ E), X. exists (rOut m ++ o)%string, rest. unfold rbind. rewrite E, Y.
  cbn [rOut rErr dOut dErr dRes]. rewrite !sapp_assoc. auto.
Qed.
Lemma stopped_then {A B} (m : Run A) (md : RunD A) (k : A -> Run B) (kd : A -> RunD B) w : (forall a, rRes m = Ok a -> rErr (k a) = ""%string) ->
  stoppedAt w m md -> stoppedAt w (rbind m k) (rbindD md kd).
Proof.
  intros Z (o & rest & -> & Y). destruct (rRes m) as [a| | |] eqn:E; unfold rbind; rewrite E.
  - exists o, (rest ++ rOut (k a))%string. cbn. rewrite (Z a eq_refl), sapp_nil, Y, !sapp_assoc. auto.
  - exists o, rest. auto.
  - exists o, rest. auto.
  - exists o, rest. auto.
Qed.

Lemma print_err outs d : rErr (printAll outs d) = ""%string.
Proof.
  induction outs as [|o outs IH]; [reflexivity|]. cbn [printAll]. unfold lift, rbind, out. cbn [rRes rOut rErr].
  destruct (outputDAG o d); cbn [rRes rOut rErr append]; [exact IH|reflexivity..].
Qed.
Section Any.
Variables (ct : CType) (breaker : list N -> list nat) (fuel : nat).
Hypothesis C : ctype_ok ct.
Lemma do_err p outs w : rErr (DoParse ct breaker fuel p outs w) = ""%string.
Proof.
  unfold DoParse, out, lift, rbind. cbn [rRes rOut rErr]. destruct (parseWord ct breaker fuel p w); cbn [rRes rOut rErr append]; [apply print_err|reflexivity..].
Qed.
Lemma all_err p outs ws : rErr (doAll ct breaker fuel p outs ws) = ""%string.
Proof.
  induction ws as [|w ws IH]; [reflexivity|]. cbn [doAll]. unfold rbind. pose proof (do_err p outs w) as E.
  destruct (rRes (DoParse ct breaker fuel p outs w)); cbn [rErr]; rewrite E, ?IH; reflexivity.
Qed.
Lemma args_err p outs ws : rErr (parseArgs ct breaker fuel p outs ws) = ""%string.
Proof.
  induction ws as [|w ws IH]; [reflexivity|]. cbn [parseArgs]. unfold lift at 1. unfold rbind at 1. cbn [rRes rErr rOut].
  destruct (charAt w 0) as [c| | |]; cbn [rErr append]; try reflexivity. unfold rbind.
  assert (E : rErr (if is "-" c then done tt else DoParse ct breaker fuel p outs w) = ""%string) by (destruct (is "-" c); [reflexivity|apply do_err]).
  destruct (rRes _); cbn [rErr]; rewrite E, ?IH; reflexivity.
Qed.
Lemma parse_one p w : parseWordD ct breaker fuel p w = Ran (parseWord ct breaker fuel p w) \/
  parseWordD ct breaker fuel p w = Abort (parser_cxx 293).
Proof.
  unfold parseWordD, parseWord, parseWordFD, parseWordF. destruct (from_bytes w) as [u| | |]; cbn [dbind bind]; try (left; reflexivity).
  apply C90_one_place. exact C.
Qed.
Lemma do_cases p outs w : DoParseD ct breaker fuel p outs w = ordinary (DoParse ct breaker fuel p outs w) \/
  stoppedAt w (DoParse ct breaker fuel p outs w) (DoParseD ct breaker fuel p outs w).
Proof.
  unfold DoParseD, DoParse. destruct (parse_one p w) as [E|E]; rewrite E; [left|right].
  - rewrite ordinary_bind. f_equal. cbn [rbindD ordinary dRes]. unfold lift, liftD, rbind, rbindD. cbn [dRes]. destruct (parseWord _ _ _ _ _); reflexivity.
  - exists ""%string, (rOut (rbind (lift (parseWord ct breaker fuel p w)) (fun d => printAll outs d))). split.
    + unfold rbindD, liftD, ordinary, out. cbn. rewrite !sapp_nil. f_equal. unfold lift, rbind. cbn [rRes rErr].
      destruct (parseWord ct breaker fuel p w) as [d| | |]; cbn [rErr append]; [symmetry; apply print_err|reflexivity..].
    + unfold out. rewrite rbind_run. reflexivity.
Qed.
Lemma all_cases p outs ws : doAllD ct breaker fuel p outs ws = ordinary (doAll ct breaker fuel p outs ws) \/
  exists w, In w ws /\ stoppedAt w (doAll ct breaker fuel p outs ws) (doAllD ct breaker fuel p outs ws).
Proof.
  induction ws as [|w ws IH]; [left; reflexivity|]. cbn [doAllD doAll]. destruct (do_cases p outs w) as [E|E].
  - rewrite E. destruct (rRes (DoParse ct breaker fuel p outs w)) as [[]| | |] eqn:R.
    + destruct IH as [IH|(x & Ix & IH)].
      * left. rewrite ordinary_bind. f_equal. rewrite IH. reflexivity.
      * right. exists x. split; [right; exact Ix|]. apply (stopped_after _ (fun _ => doAll ct breaker fuel p outs ws) (fun _ => doAllD ct breaker fuel p outs ws) tt x); assumption.
    + left. unfold rbind, rbindD, ordinary. cbn [dRes]. rewrite R. reflexivity.
    + left. unfold rbind, rbindD, ordinary. cbn [dRes]. rewrite R. reflexivity.
    + left. unfold rbind, rbindD, ordinary. cbn [dRes]. rewrite R. reflexivity.
  - right. exists w. split; [left; reflexivity|]. apply stopped_then; [intros; apply all_err|exact E].
Qed.
Definition sameOrStopped {A} (P : string -> Prop) (r : Run A) (rd : RunD A) : Prop := rd = ordinary r \/ exists w, P w /\ stoppedAt w r rd.
Lemma same_after {A B} P (m : Run A) (k : A -> Run B) (kd : A -> RunD B) : (forall a, rRes m = Ok a -> sameOrStopped P (k a) (kd a)) ->
  sameOrStopped P (rbind m k) (rbindD (ordinary m) kd).
Proof.
  intros H. destruct (rRes m) as [a| | |] eqn:E.
  - destruct (H a eq_refl) as [X|(w & Pw & X)].
    + left. rewrite (ordinary_ext _ _ _ E), X. unfold rbind. rewrite E. reflexivity.
    + right. exists w. split; [exact Pw|]. eapply stopped_after; eauto.
  - left. unfold rbind, rbindD, ordinary. cbn [dRes]. rewrite E. reflexivity.
  - left. unfold rbind, rbindD, ordinary. cbn [dRes]. rewrite E. reflexivity.
  - left. unfold rbind, rbindD, ordinary. cbn [dRes]. rewrite E. reflexivity.
Qed.
Lemma same_then {A B} P (m : Run A) md (k : A -> Run B) : (forall a, rErr (k a) = ""%string) -> sameOrStopped P m md ->
  sameOrStopped P (rbind m k) (rbindD md (fun a => ordinary (k a))).
Proof.
  intros Z [->|(w & Pw & X)]; [left; symmetry; apply ordinary_bind|]. right. exists w. split; [exact Pw|]. apply stopped_then; [auto|exact X].
Qed.
Lemma same_both {A B} P (m : Run A) md (k : A -> Run B) kd : (forall a, rErr (k a) = ""%string) -> sameOrStopped P m md ->
  (forall a, rRes m = Ok a -> sameOrStopped P (k a) (kd a)) -> sameOrStopped P (rbind m k) (rbindD md kd).
Proof.
  intros Z [->|(w & Pw & X)] H; [apply same_after; exact H|]. right. exists w. split; [exact Pw|]. apply stopped_then; [auto|exact X].
Qed.
Lemma same_weaken {A} (P Q : string -> Prop) (r : Run A) rd : (forall w, P w -> Q w) -> sameOrStopped P r rd -> sameOrStopped Q r rd.
Proof. intros H [X|(w & Pw & X)]; [left; exact X|right; exists w; auto]. Qed.
Lemma args_cases p outs ws : sameOrStopped (fun w => In w ws /\ ~ isOption w) (parseArgs ct breaker fuel p outs ws) (parseArgsD ct breaker fuel p outs ws).
Proof.
  induction ws as [|w ws IH]; [left; reflexivity|]. cbn [parseArgsD parseArgs]. apply same_after. intros c Hc.
  apply same_both; [intros; apply args_err| |].
  - destruct (option_dec w) as [(t & ->)|No].
    + cbn in Hc. injection Hc as <-. left. reflexivity.
    + unfold lift in Hc. cbn [rRes] in Hc. rewrite charAt0 in Hc. injection Hc as <-. rewrite (notOption w No).
      destruct (do_cases p outs w) as [E|E]; [left; exact E|right; exists w; split; [split; [left; reflexivity|exact No]|exact E]].
  - intros _ _. eapply same_weaken; [|exact IH]. intros x (I & N). split; [right; exact I|exact N].
Qed.
Lemma main_cases VERSION default files stdin argv :
  sameOrStopped (fun w => In w (tl argv) /\ ~ isOption w \/ In w (getlines "" stdin))
    (main ct breaker VERSION default files stdin fuel argv) (mainD ct breaker VERSION default files stdin fuel argv).
Proof.
  unfold main, mainD. cbv zeta. apply same_after. intros [o|n] _; [|left; reflexivity].
  apply same_after. intros outs _. cbv zeta. apply same_after. intros l _. apply same_after. intros _ _. apply same_then; [reflexivity|].
  destruct (Z.eqb _ _).
  - match goal with |- sameOrStopped _ _ (doAllD _ _ _ ?p ?o ?w) => destruct (all_cases p o w) as [X|(x & I & X)] end; [left; exact X|right; exists x; auto].
  - match goal with |- sameOrStopped _ _ (parseArgsD _ _ _ ?p ?o ?w) => destruct (args_cases p o w) as [X|(x & (I & N) & X)] end; [left; exact X|right; exists x; auto].
Qed.
End Any.

(** Whatever the command line, the files, the words and libthai: the program
    with assertions does what the program without does, or it stops at the
    assertion of parser/parser.cxx:293, at one of its words, having written the
    beginning of what the other writes. *)
Theorem C93_same_or_stops ct breaker VERSION default files stdin fuel argv : ctype_ok ct ->
  let r := main ct breaker VERSION default files stdin fuel argv in
  let rd := mainD ct breaker VERSION default files stdin fuel argv in
  rd = ordinary r \/ exists w, (In w (tl argv) /\ ~ isOption w \/ In w (getlines "" stdin)) /\ stoppedAt w r rd.
Proof. intros C. exact (main_cases ct breaker fuel C VERSION default files stdin argv). Qed.
Print Assumptions C93_same_or_stops.

(** ** Which words stop it *)
Lemma odone {A B} (a : A) (k : A -> RunD B) : rbindD (ordinary (done a)) k = k a.
Proof. unfold rbindD. cbn. destruct (k a); reflexivity. Qed.
Section Top.
Variable ct : CType.
Variable breaker : list N -> list nat.
Variable VERSION default : string.
Variable files : string -> PathContent.
Variable stdin : string.
Variable fuel : nat.
Lemma parseArgsD_texts p outs args l : Texts args l -> parseArgsD ct breaker fuel p outs args = doAllD ct breaker fuel p outs l.
Proof.
  induction 1 as [|a args l N T IH|a args l (t & ->) T IH]; [reflexivity| |]; cbn [parseArgsD]; rewrite charAt0;
    (etransitivity; [apply odone|]).
  - rewrite (notOption a N). cbn [doAllD]. rewrite IH. reflexivity.
  - change (is "-" "-") with true. cbv iota. rewrite odone. exact IH.
Qed.
Lemma main_acceptedD prog args st letters words path b dict loaded :
  Forall accepted args -> structureIs args st -> wanted args letters -> wordsAre stdin args words ->
  dictIs default args path -> DictOpen (files path) = Ok (dict, loaded) -> breaksFor breaker args b ->
  exists e p, warning default args loaded e /\
    (forall w, parseWordD ct breaker fuel p w = parseWordFD ct fuel (Some dict) b w) /\
    mainD ct breaker VERSION default files stdin fuel (prog :: args) =
    rbindD (mkRunD "" e (Ran (Ok tt))) (fun _ => rbindD (doAllD ct breaker fuel p (flat_map (outOf st) letters) words) (fun _ => ordinary (done 0%Z))).
Proof.
  intros A S (l0 & N & ->) (ts & T & W) D O B. unfold mainD. cbn [tl nth].
  pose proof (first_all VERSION prog (nth 0 args "") args A (mkOpts 0 None true false false) []) as F.
  rewrite app_nil_r in F. replace (nth 1 (prog :: args) ""%string) with (nth 0 args ""%string) by reflexivity.
  change (nth 0 args ""%string) with (nth 0 args ""%string) in F. rewrite F. cbn [firstPass]. rewrite odone. clear F.
  destruct (structure_flags args st S) as [EJ EG]. rewrite EJ, EG, (second_all st args l0 A N), odone.
  set (o := fold_left upd args _) in *.
  assert (Eo : match flat_map (outOf st) l0 with
               | [] => [MakeThaiOutput (jOf st) (gOf st); MakeRomanOutput (jOf st) (gOf st); MakePhoneticOutput (jOf st) (gOf st)]
               | _ :: _ => flat_map (outOf st) l0 end
               = flat_map (outOf st) match l0 with [] => ["t"; "r"; "p"]%char | _ :: _ => l0 end).
  { pose proof (named_in args l0 N) as I. destruct I as [|c l0 I _]; [reflexivity|].
    cbn [flat_map]. destruct I as [<-|[<-|[<-|[<-|[<-|[]]]]]]; reflexivity. }
  rewrite Eo. clear Eo.
  exists (if loaded then "" else match oDict o with
      | Some _ => "Failed to load exception dictionary '" ++ path ++ "'" ++ nl ++ "Warning: Working without exception dictionary" ++ nl
      | None => "Failed to load exception dictionary " ++ path ++ nl ++ "Warning: Working without exception dictionary" ++ nl end)%string,
    (mkParser (Some dict) (oBreak o)).
  destruct (fold_dict args (oDict o) (mkOpts 0 None true false false) eq_refl) as [(Ed & Nd)|(pre & post & q & Ed & Ea & Nd)].
  - cbn [oDict] in Ed. destruct D as [(pre & post & E & _)|(_ & ->)].
    { exfalso. apply Nd. rewrite E. exists (String "-" (String "d" path)). split; [apply in_elt|exists path; reflexivity]. }
    split; [|split].
    + unfold warning. destruct loaded; [reflexivity|]. rewrite Ed. exists default, default. split; [right; auto|]. split; [reflexivity|]. left; auto.
    + intros w. unfold parseWordD. cbn [pDict pBreaks]. unfold o. rewrite fold_break. cbn [oBreak andb].
      destruct B as [(B & ->)|(B & ->)].
      * apply givenb_ok in B. rewrite B. reflexivity.
      * rewrite <- givenb_ok in B. apply not_true_is_false in B. rewrite B. reflexivity.
    + rewrite Ed. unfold LoadExceptDict, loadExceptDict. rewrite O, rbind_ok. cbn [snd fst pBreaks].
      destruct (Z.eqb_spec 1 (Z.of_nat (List.length (prog :: args)) - Z.of_nat (oCnt o))) as [Q|Q].
      * assert (El : ts = []). { pose proof (fold_cnt args ts A T (mkOpts 0 None true false false)) as C. fold o in C. cbn [oCnt List.length] in *.
          destruct ts; [reflexivity|cbn [List.length] in C; lia]. }
        subst ts. rewrite (lines_unique _ _ W (getlines "" stdin)) by (apply (getlines_spec stdin ""); exact I).
        destruct loaded; rewrite ?rbind_done, ?odone; cbn; rewrite ?sapp_nil, ?sapp_assoc; reflexivity.
      * assert (El : words = ts). { pose proof (fold_cnt args ts A T (mkOpts 0 None true false false)) as C. fold o in C. cbn [oCnt List.length] in *.
          destruct ts; [exfalso; cbn [List.length] in C; lia|exact W]. }
        subst ts. destruct loaded; rewrite ?rbind_done, ?odone; cbn; rewrite (parseArgsD_texts _ _ args words T);
          rewrite ?sapp_nil, ?sapp_assoc; reflexivity.
  - assert (path = q). { eapply dictIs_fun; [exact D|]. left. exists pre, post. auto. } subst q.
    assert (Gd : given "d" args). { rewrite Ea. exists (String "-" (String "d" path)). split; [apply in_elt|exists path; reflexivity]. }
    split; [|split].
    + unfold warning. destruct loaded; [reflexivity|]. rewrite Ed. exists path, ("'" ++ path ++ "'")%string. split; [exact D|].
      split; [rewrite !sapp_assoc; reflexivity|]. right; auto.
    + intros w. unfold parseWordD. cbn [pDict pBreaks]. unfold o. rewrite fold_break. cbn [oBreak andb].
      destruct B as [(B & ->)|(B & ->)].
      * apply givenb_ok in B. rewrite B. reflexivity.
      * rewrite <- givenb_ok in B. apply not_true_is_false in B. rewrite B. reflexivity.
    + rewrite Ed. unfold LoadExceptDict, loadExceptDict. rewrite O, rbind_ok. cbn [snd fst pBreaks].
      destruct (Z.eqb_spec 1 (Z.of_nat (List.length (prog :: args)) - Z.of_nat (oCnt o))) as [Q|Q].
      * assert (El : ts = []). { pose proof (fold_cnt args ts A T (mkOpts 0 None true false false)) as C. fold o in C. cbn [oCnt List.length] in *.
          destruct ts; [reflexivity|cbn [List.length] in C; lia]. }
        subst ts. rewrite (lines_unique _ _ W (getlines "" stdin)) by (apply (getlines_spec stdin ""); exact I).
        destruct loaded; rewrite ?rbind_done, ?odone; cbn; rewrite ?sapp_nil, ?sapp_assoc; reflexivity.
      * assert (El : words = ts). { pose proof (fold_cnt args ts A T (mkOpts 0 None true false false)) as C. fold o in C. cbn [oCnt List.length] in *.
          destruct ts; [exfalso; cbn [List.length] in C; lia|exact W]. }
        subst ts. destruct loaded; rewrite ?rbind_done, ?odone; cbn; rewrite (parseArgsD_texts _ _ args words T);
          rewrite ?sapp_nil, ?sapp_assoc; reflexivity.
Qed.
End Top.

(** A word on which a reading comes to one of the vowels "แโใไ" with its word
    ending right behind it (see C90). *)
Definition bareIn (dict : option Dict) (b : list N -> list nat) (word : string) : Prop :=
  exists w, from_bytes word = Ok w /\ bareVowel w dict (b w).
Section Words.
Variables (breaker b : list N -> list nat) (dict : Dict) (fuel : nat) (p p0 : ParserObj) (outs : list Out).
Hypothesis PD : forall w, parseWordD libthai_ct breaker fuel p w = parseWordFD libthai_ct fuel (Some dict) b w.
Hypothesis PO : forall w, parseWord libthai_ct breaker fuel p0 w = parseWordF libthai_ct fuel (Some dict) b w.
Hypothesis OK : dictOK dict.
Hypothesis BO : forall w, StronglySorted lt (b w) /\ Forall (fun x => x <= List.length w) (b w).
Lemma good_do word : ~ bareIn (Some dict) b word ->
  DoParseD libthai_ct breaker fuel p outs word = ordinary (DoParse libthai_ct breaker fuel p0 outs word).
Proof.
  intros G. unfold DoParseD, DoParse. rewrite PD, PO.
  assert (D : dictOKo (Some dict)) by (intros d' H; injection H as <-; exact OK).
  destruct (C90_words (Some dict) b word D BO) as [(w & E & X & _)|(_ & E)]; [exfalso; apply G; exists w; auto|].
  rewrite E, ordinary_bind. f_equal. unfold lift, liftD, rbind, rbindD. cbn [dRes rRes].
  destruct (parseWordF _ _ _ _ _); reflexivity.
Qed.
Lemma good_all ws : Forall (fun word => ~ bareIn (Some dict) b word) ws ->
  doAllD libthai_ct breaker fuel p outs ws = ordinary (doAll libthai_ct breaker fuel p0 outs ws).
Proof.
  induction 1 as [|w ws G _ IH]; [reflexivity|]. cbn [doAllD doAll]. rewrite (good_do w G), ordinary_bind, IH. reflexivity.
Qed.
End Words.

Lemma C93_lemma3 breaker VERSION default files stdin prog args st cs words path b dict loaded :
  Forall accepted args -> structureIs args st -> wanted args cs -> wordsAre stdin args words ->
  dictIs default args path -> DictOpen (files path) = Ok (dict, loaded) -> dictOK dict -> breaksFor breaker args b ->
  (forall w, StronglySorted lt (b w) /\ Forall (fun x => x <= List.length w) (b w)) ->
  Forall (fun word => ~ bareIn (Some dict) b word) words -> forall fuel,
  mainD libthai_ct breaker VERSION default files stdin fuel (prog :: args) =
  ordinary (main libthai_ct breaker VERSION default files stdin fuel (prog :: args)).
Proof.
  intros A S L W D O OK B BO G fuel.
  destruct (main_accepted libthai_ct breaker VERSION default files stdin fuel prog args st cs words path b dict loaded A S L W D O B) as (e & p & We & P & ->).
  destruct (main_acceptedD libthai_ct breaker VERSION default files stdin fuel prog args st cs words path b dict loaded A S L W D O B) as (e' & p' & We' & P' & ->).
  rewrite (warning_fun _ _ _ _ _ We' We). rewrite (good_all breaker b dict fuel p' p (flat_map (outOf st) cs) P' P OK BO words G).
  rewrite <- ordinary_bind. unfold rbindD, rbind. reflexivity.
Qed.
(** If no word has such a vowel, the two programs do the same. *)
Theorem C93_no_bare_vowel breaker VERSION default files stdin prog args st cs words path b dict loaded :
  Forall accepted args -> structureIs args st -> wanted args cs -> wordsAre stdin args words ->
  dictIs default args path -> DictOpen (files path) = Ok (dict, loaded) -> dictOK dict -> breaksFor breaker args b ->
  (forall w, StronglySorted lt (b w) /\ Forall (fun x => x <= List.length w) (b w)) ->
  Forall (fun word => ~ bareIn (Some dict) b word) words -> forall fuel,
  mainD libthai_ct breaker VERSION default files stdin fuel (prog :: args) =
  ordinary (main libthai_ct breaker VERSION default files stdin fuel (prog :: args)).
Proof. exact (C93_lemma3 breaker VERSION default files stdin prog args st cs words path b dict loaded). Qed.
Print Assumptions C93_no_bare_vowel.

Lemma C93_lemma4 breaker VERSION default files stdin prog args st cs pre bad post path b dict loaded :
  Forall accepted args -> structureIs args st -> wanted args cs -> wordsAre stdin args (pre ++ bad :: post) ->
  dictIs default args path -> DictOpen (files path) = Ok (dict, loaded) -> dictOK dict -> breaksFor breaker args b ->
  (forall w, StronglySorted lt (b w) /\ Forall (fun x => x <= List.length w) (b w)) ->
  Forall (fun word => ~ bareIn (Some dict) b word) pre -> bareIn (Some dict) b bad ->
  exists fuel0, forall fuel texts, fuel0 <= fuel -> Forall2 (saidOf (parseWordF libthai_ct fuel (Some dict) b) st cs) pre texts ->
  exists e, warning default args loaded e /\ mainD libthai_ct breaker VERSION default files stdin fuel (prog :: args) =
    mkRunD (String.concat "" texts ++ bad ++ ":" ++ nl) e (Abort (parser_cxx 293)).
Proof.
  intros A S L W D O OK B BO G Bad.
  assert (Dk : dictOKo (Some dict)) by (intros d' H; injection H as <-; exact OK).
  assert (Ab : exists fuel0, forall fuel, fuel0 <= fuel -> parseWordFD libthai_ct fuel (Some dict) b bad = Abort (parser_cxx 293)).
  { destruct (C90_words (Some dict) b bad Dk BO) as [(w & _ & _ & X)|(X & _)]; [exact X|]. destruct Bad as (w & E & Y). destruct (X w E Y). }
  destruct Ab as (fuel0 & Ab). exists fuel0. intros fuel texts Lf F.
  destruct (main_accepted libthai_ct breaker VERSION default files stdin fuel prog args st cs _ path b dict loaded A S L W D O B) as (e & p & We & P & _).
  destruct (main_acceptedD libthai_ct breaker VERSION default files stdin fuel prog args st cs _ path b dict loaded A S L W D O B) as (e' & p' & We' & P' & ->).
  exists e'. split; [exact We'|].
  assert (E : doAllD libthai_ct breaker fuel p' (flat_map (outOf st) cs) (pre ++ bad :: post) =
    mkRunD (String.concat "" texts ++ bad ++ ":" ++ nl) "" (Abort (parser_cxx 293))).
  { assert (F' : Forall2 (saidOf (parseWord libthai_ct breaker fuel p) st cs) pre texts).
    { eapply Forall2_imp; [|exact F]. intros w t (d & outs & H & R). exists d, outs. rewrite P. auto. }
    clear F W L. induction F' as [|w t pre texts Sd F' IH].
    - cbn [app doAllD]. unfold DoParseD. rewrite P', (Ab fuel Lf). cbn. rewrite !sapp_nil. reflexivity.
    - inversion G as [|? ? Gw Gs]; subst. cbn [app doAllD]. rewrite (IH Gs), (good_do breaker b dict fuel p' p _ P' P OK BO w Gw).
      rewrite sconcat_cons, !sapp_assoc.
      destruct Sd as (d & outs & H & R & Et). unfold DoParse. rewrite H. rewrite rbind_ok, (print_ok st cs d outs R). cbn.
      rewrite Et, ?sapp_nil, ?sapp_assoc. cbn. rewrite ?sapp_assoc. reflexivity. }
  rewrite E. unfold rbindD. cbn. rewrite sapp_nil. reflexivity.
Qed.
(** The first word that has such a vowel, if the words before it are answered,
    is the last to be written. *)
Theorem C93_bare_vowel breaker VERSION default files stdin prog args st cs pre bad post path b dict loaded :
  Forall accepted args -> structureIs args st -> wanted args cs -> wordsAre stdin args (pre ++ bad :: post) ->
  dictIs default args path -> DictOpen (files path) = Ok (dict, loaded) -> dictOK dict -> breaksFor breaker args b ->
  (forall w, StronglySorted lt (b w) /\ Forall (fun x => x <= List.length w) (b w)) ->
  Forall (fun word => ~ bareIn (Some dict) b word) pre -> bareIn (Some dict) b bad ->
  exists fuel0, forall fuel texts, fuel0 <= fuel -> Forall2 (saidOf (parseWordF libthai_ct fuel (Some dict) b) st cs) pre texts ->
  exists e, warning default args loaded e /\ mainD libthai_ct breaker VERSION default files stdin fuel (prog :: args) =
    mkRunD (String.concat "" texts ++ bad ++ ":" ++ nl) e (Abort (parser_cxx 293)).
Proof. exact (C93_lemma4 breaker VERSION default files stdin prog args st cs pre bad post path b dict loaded). Qed.
Print Assumptions C93_bare_vowel.

(** Three words, the second with a bare vowel: the program without assertions
    goes on to the third. *)
Definition dmArgs : list string := ["-p"; "-dx"; "กา"; "กาแa"; "ก."]%string.
Definition dmBreaks : list N -> list nat := fun _ => [].
Example C93_case : exists dict, DictOpen (exFiles "x") = Ok (dict, true) /\ dictOK dict /\
  Forall accepted dmArgs /\ structureIs dmArgs Lines /\ wanted dmArgs ["p"]%char /\ wordsAre "" dmArgs ["กา"; "กาแa"; "ก."]%string /\
  dictIs "/d" dmArgs "x" /\ breaksFor dmBreaks dmArgs dmBreaks /\
  (forall w, StronglySorted lt (dmBreaks w) /\ Forall (fun x => x <= List.length w) (dmBreaks w)) /\
  ~ bareIn (Some dict) dmBreaks "กา" /\ bareIn (Some dict) dmBreaks "กาแa" /\
  (exists t, saidOf (parseWordF libthai_ct 500 (Some dict) dmBreaks) Lines ["p"]%char "กา" t) /\
  mainD libthai_ct dmBreaks "1" "/d" exFiles "" 500 ("thpronun"%string :: dmArgs) =
    mkRunD ("กา:" ++ nl ++ "kaa0" ++ nl ++ nl ++ "กาแa:" ++ nl)%string "" (Abort (parser_cxx 293)) /\
  main libthai_ct dmBreaks "1" "/d" exFiles "" 500 ("thpronun"%string :: dmArgs) =
    mkRun ("กา:" ++ nl ++ "kaa0" ++ nl ++ nl ++ "กาแa:" ++ nl ++ nl ++ "ก.:" ++ nl ++ "kaow0" ++ nl ++ nl)%string "" (Ok 0%Z).
Proof.
  assert (NT : forall a, match a with String x _ => is "-" x | _ => false end = false -> ~ isOption a).
  { intros a H (t & ->). discriminate. }
  eexists. split; [vm_compute; reflexivity|]. set (dict := mkDict _ _).
  assert (OK : dictOK dict) by (eapply dictCheck_sound; [reflexivity|vm_compute; reflexivity]).
  split; [exact OK|].
  split.
  { apply Forall_cons; [apply acc_letter; cbn; tauto|]. apply Forall_cons; [apply acc_dict; discriminate|].
    do 3 (apply Forall_cons; [apply acc_text, NT; reflexivity|]). apply Forall_nil. }
  split; [split; rewrite <- givenb_ok; discriminate|]. split.
  { exists ["p"]%char. split; [|reflexivity]. apply (named_take "p" ""); [cbn; tauto|].
    do 4 (apply named_skip; [intros c [<-|[<-|[<-|[<-|[<-|[]]]]]] H; apply letterb_ok in H; discriminate|]). constructor. }
  split.
  { exists ["กา"; "กาแa"; "ก."]%string. split; [|reflexivity]. do 2 (apply texts_skip; [eexists; reflexivity|]). do 3 (apply texts_take; [apply NT; reflexivity|]). constructor. }
  split; [left; exists ["-p"]%string, ["กา"; "กาแa"; "ก."]%string; split; [reflexivity|rewrite <- givenb_ok; discriminate]|].
  split; [right; split; [rewrite <- givenb_ok; discriminate|reflexivity]|].
  split; [intros w; split; constructor|].
  assert (Dk : dictOKo (Some dict)) by (intros d' H; injection H as <-; exact OK).
  split; [intros (w & E & X); vm_compute in E; injection E as <-; revert X|].
  { eapply (proj2 (bare_by _ (Some dict) [] Dk (SSorted_nil lt) (Forall_nil _))). vm_compute. reflexivity. }
  split; [eexists; split; [vm_compute; reflexivity|]|].
  { eapply (proj1 (bare_by _ (Some dict) [] Dk (SSorted_nil lt) (Forall_nil _))). vm_compute. reflexivity. }
  split; [|split; vm_compute; reflexivity].
  eexists. eexists _, _. split; [vm_compute; reflexivity|]. split; [|reflexivity].
  constructor; [|constructor]. eexists _, _. split; [reflexivity|]. vm_compute. reflexivity.
Qed.

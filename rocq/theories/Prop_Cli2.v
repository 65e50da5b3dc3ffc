(** Prop_Cli2.v - the whole program on sensible words: C53. *)
From Coq Require Import List NArith ZArith Bool String Ascii Lia Arith.
From Verif Require Import Base ThUni ThCons Syl Utf Lattice Dag PronDag SylOut ThaiOut Output Dict GenDict Parser Cli.
From Verif Require Import Spec DictProofs ParserSpec ParserFacts ParserInv ParserResult ParserListed ParserDict UtfProofs.
From Verif Require Import Prop_Syl Prop_Parser Prop_Notation Prop_Output Prop_Cli.
Import ListNotations.
Local Open Scope string_scope.
Local Open Scope list_scope.

Lemma mapM_total {A B} (f : A -> Res B) l : (forall a, In a l -> exists b, f a = Ok b) -> exists bs, mapM f l = Ok bs.
Proof.
  induction l as [|a l IH]; intros H; [exists []; reflexivity|].
  destruct (H a (or_introl eq_refl)) as (b & E). destruct IH as (bs & Es); [intros x I; apply H; right; exact I|].
  exists (b :: bs). cbn [mapM]. rewrite E. cbn [bind]. rewrite Es. reflexivity.
Qed.
Lemma delim_total f delim s : (forall v, In v s -> exists t, f v = Ok t) -> forall b, exists o, delimLoop f delim b s = Ok o.
Proof.
  induction s as [|v s IH]; intros H b; [exists ""%string; reflexivity|].
  assert (H' : forall v, In v s -> exists t, f v = Ok t) by (intros x I; apply H; right; exact I).
  cbn [delimLoop]. destruct (syl_eqb v Blank).
  - destruct (IH H' true) as (o & ->). eexists. reflexivity.
  - destruct (H v (or_introl eq_refl)) as (t & ->). destruct (IH H' false) as (o & ->). eexists. reflexivity.
Qed.
Lemma romanLoop_total s : (forall v, In v s -> exists t, RomanSylOutput v = Ok t) -> forall b p, exists o, romanLoop b p s = Ok o.
Proof.
  induction s as [|v s IH]; intros H b p; [exists ""%string; reflexivity|].
  assert (H' : forall v, In v s -> exists t, RomanSylOutput v = Ok t) by (intros x I; apply H; right; exact I).
  cbn [romanLoop]. destruct (syl_eqb v Blank).
  - destruct (IH H' true v) as (o & ->). eexists. reflexivity.
  - destruct (H v (or_introl eq_refl)) as (t & ->). cbn [bind]. destruct (IH H' b v) as (o & ->). eexists. reflexivity.
Qed.
Lemma roman_total s : s <> [] -> (forall v, In v s -> exists t, RomanSylOutput v = Ok t) -> exists o, romanOutputStr false s = Ok o.
Proof.
  intros N H. destruct s as [|v s]; [contradiction (N eq_refl)|]. cbn [romanOutputStr].
  destruct (H v (or_introl eq_refl)) as (t & ->). cbn [bind].
  destruct (romanLoop_total s (fun x I => H x (or_intror I)) false v) as (o & ->). eexists. reflexivity.
Qed.

(** Every requested rendering of a parse exists; flat JSON needs at least one
    pronunciation. *)
Lemma written_total ct bytes w dict brk fuel d st c : ctype_ok ct -> dictOKo dict -> from_bytes bytes = Ok w ->
  ParseU16F ct fuel w dict brk = Ok d -> In c notationLetters ->
  (st = Flat -> DAGSylStrings d 0 <> Ok []) -> exists text, written st c d text.
Proof.
  intros C D B E I NE. destruct (flat_good ct w dict brk fuel d D E) as (l & El & P & Ne & _).
  assert (N : exists f delim, notationOf c = Some (f, delim) /\ In f notations).
  { unfold notations. destruct I as [<-|[<-|[<-|[<-|[<-|[]]]]]]; eexists _, _; (split; [reflexivity|cbn; tauto]). }
  destruct N as (f & delim & Ef & If).
  assert (T : forall g, In g notations -> forall s v, In s l -> In v s -> exists t, g v = Ok t).
  { intros g Ig s v Is Iv. pose proof (C15_lemma2 ct bytes w dict brk l s v C D B P Is Iv) as W. rewrite Forall_forall in W.
    destruct (W g Ig) as (t & Et & _). exists t. exact Et. }
  destruct (C21_lemma3 ct bytes w dict brk fuel d f C D If B E) as (l1 & out & E1 & Fl & _ & G & _).
  rewrite El in E1. injection E1 as <-. destruct st.
  - destruct (Ascii.eqb c "r") eqn:R.
    + destruct (mapM_total (romanOutputStr false) l) as (os & Eo).
      { intros s Is. apply roman_total; [apply Ne; exact Is|]. intros v Iv. apply (T RomanSylOutput) with (s := s); [cbn; tauto|exact Is|exact Iv]. }
      exists (String.concat "" (map (fun x => x ++ nl)%string os)), f, delim. split; [exact Ef|]. rewrite R.
      unfold romanOutputDAG, romanOutputList. rewrite El. cbn [bind]. rewrite Eo. reflexivity.
    + destruct (mapM_total (delimOutputStr f delim) l) as (os & Eo).
      { intros s Is. apply delim_total. intros v Iv. apply (T f If s v Is Iv). }
      exists (String.concat "" (map (fun x => x ++ nl)%string os)), f, delim. split; [exact Ef|]. rewrite R.
      unfold delimOutputDAG, delimOutputList. rewrite El. cbn [bind]. rewrite Eo. reflexivity.
  - destruct Fl as (o & Eo).
    { intros ->. apply (NE eq_refl). exact El. }
    exists o, f, delim. auto.
  - exists out, f, delim. auto.
Qed.
Lemma written_all ct bytes w dict brk fuel d st letters : ctype_ok ct -> dictOKo dict -> from_bytes bytes = Ok w ->
  ParseU16F ct fuel w dict brk = Ok d -> Forall (fun c => In c notationLetters) letters ->
  (st = Flat -> DAGSylStrings d 0 <> Ok []) -> exists outs, Forall2 (fun c o => written st c d o) letters outs.
Proof.
  intros C D B E F NE. induction F as [|c letters I _ (outs & IH)]; [exists []; constructor|].
  destruct (written_total ct bytes w dict brk fuel d st c C D B E I NE) as (o & W). exists (o :: outs). constructor; assumption.
Qed.
Lemma wanted_in args letters : wanted args letters -> Forall (fun c => In c notationLetters) letters.
Proof.
  intros (l0 & N & ->). pose proof (named_in args l0 N) as F. destruct l0; [|exact F].
  repeat (apply Forall_cons; [cbn; tauto|]). apply Forall_nil.
Qed.

(** A word the parser can take: valid UTF-8, not ending in a vowel that must
    be followed by a consonant. *)
Definition sensible (word : string) : Prop :=
  exists w, from_bytes word = Ok w /\ forall c, nth_error w (List.length w - 1) = Some c -> ~ strayVowel c.
(** The breaker answers positions of the text. *)
Definition breaksInside (b : list N -> list nat) : Prop := forall w, Forall (fun p => p <= List.length w) (b w).
Definition pronounceable ct dict b (word : string) : Prop :=
  exists fuel d l, parseWordF ct fuel dict b word = Ok d /\ DAGSylStrings d 0 = Ok l /\ l <> [].

Lemma said_one ct dict b st letters word : ctype_ok ct -> dictOKo dict -> breaksInside b -> sensible word ->
  Forall (fun c => In c notationLetters) letters -> (st = Flat -> pronounceable ct dict b word) ->
  exists fuel0 text, forall fuel, fuel0 <= fuel -> saidOf (parseWordF ct fuel dict b) st letters word text.
Proof.
  intros C D Bi (w & E & S) F NE.
  destruct (C24_lemma ct w dict (b w) C D (Bi w) S) as (d & fuel0 & H).
  assert (X : st = Flat -> DAGSylStrings d 0 <> Ok []).
  { intros Q. destruct (NE Q) as (fu & d' & l & P & El & N). unfold parseWordF in P. rewrite E in P. cbn [bind] in P.
    destruct (C23_lemma ct w dict (b w)) as (r & f1 & Hr & Hs & Ha).
    assert (r = Ok d) by (rewrite <- (Hs (Nat.max f1 fuel0)) by lia; apply H; lia).
    destruct (Ha fu) as [Z|Z]; rewrite P in Z; [discriminate|]. rewrite Z in *. assert (d' = d) by congruence. subst d'.
    rewrite El. congruence. }
  destruct (written_all ct word w dict (b w) fuel0 d st letters C D E (H fuel0 (le_n _)) F X) as (outs & W).
  exists fuel0, (word ++ ":" ++ nl ++ String.concat "" (map (fun o => o ++ nl) outs))%string. intros fuel L.
  exists d, outs. split; [|split; [exact W|reflexivity]]. unfold parseWordF. rewrite E. cbn [bind]. apply H. exact L.
Qed.
Lemma said_all ct dict b st letters words : ctype_ok ct -> dictOKo dict -> breaksInside b -> Forall sensible words ->
  Forall (fun c => In c notationLetters) letters -> (st = Flat -> Forall (pronounceable ct dict b) words) ->
  exists fuel0 texts, forall fuel, fuel0 <= fuel -> Forall2 (saidOf (parseWordF ct fuel dict b) st letters) words texts.
Proof.
  intros C D Bi S F. induction S as [|word words S1 _ IH]; intros NE; [exists 0, []; constructor|].
  destruct IH as (f1 & texts & H1); [intros Q; specialize (NE Q); inversion NE; assumption|].
  destruct (said_one ct dict b st letters word C D Bi S1 F) as (f2 & text & H2); [intros Q; specialize (NE Q); inversion NE; assumption|].
  exists (Nat.max f1 f2), (text :: texts). intros fuel L. constructor; [apply H2|apply H1]; lia.
Qed.
Lemma C53_lemma ct breaker VERSION default files stdin prog args st letters words path dict loaded :
  ctype_ok ct -> breaksInside breaker -> Forall accepted args -> structureIs args st -> wanted args letters ->
  wordsAre stdin args words -> dictIs default args path -> DictOpen (files path) = Ok (dict, loaded) -> dictOK dict ->
  Forall sensible words ->
  (st = Flat -> forall b, breaksFor breaker args b -> Forall (pronounceable ct (Some dict) b) words) ->
  exists fuel0 b texts e, breaksFor breaker args b /\ warning default args loaded e /\
    forall fuel, fuel0 <= fuel ->
      Forall2 (saidOf (parseWordF ct fuel (Some dict) b) st letters) words texts /\
      main ct breaker VERSION default files stdin fuel (prog :: args) = mkRun (String.concat "" texts) e (Ok 0%Z).
Proof.
  intros C Bi A S L W D O OK SW NE.
  assert (B : exists b, breaksFor breaker args b /\ breaksInside b).
  { destruct (existsb (letterb "n") args) eqn:G.
    - exists (fun _ => []). split; [left; split; [apply givenb_ok; exact G|reflexivity]|]. intros w. constructor.
    - exists breaker. split; [right; split; [rewrite <- givenb_ok, G; discriminate|reflexivity]|exact Bi]. }
  destruct B as (b & B & Bb).
  assert (OKo : dictOKo (Some dict)) by (intros d' H; injection H as <-; exact OK).
  destruct (said_all ct (Some dict) b st letters words C OKo Bb SW (wanted_in args letters L)) as (fuel0 & texts & H).
  { intros Q. apply (NE Q b B). }
  destruct (C42_lemma ct breaker VERSION default files stdin fuel0 prog args st letters words path b dict loaded texts A S L W D O B (H fuel0 (le_n _)))
    as (e & We & _).
  exists fuel0, b, texts. 
  assert (U : forall e1 e2, warning default args loaded e1 -> warning default args loaded e2 -> e1 = e2).
  { unfold warning. destruct loaded; [congruence|]. intros e1 e2 (p1 & s1 & D1 & -> & Q1) (p2 & s2 & D2 & -> & Q2).
    rewrite (dictIs_fun _ _ _ _ D2 D1) in Q2.
    destruct Q1 as [(-> & N1)|(-> & N1)], Q2 as [(-> & N2)|(-> & N2)]; try contradiction; reflexivity. }
  exists e. split; [exact B|]. split; [exact We|]. intros fuel Lf. split; [apply H; exact Lf|].
  destruct (C42_lemma ct breaker VERSION default files stdin fuel prog args st letters words path b dict loaded texts A S L W D O B (H fuel Lf))
    as (e' & We' & ->). rewrite (U e' e We' We). reflexivity.
Qed.
(** The program prints every word with all its renderings and exits with
    status 0. *)
Theorem C53_success ct breaker VERSION default files stdin prog args st letters words path dict loaded :
  ctype_ok ct -> breaksInside breaker -> Forall accepted args -> structureIs args st -> wanted args letters ->
  wordsAre stdin args words -> dictIs default args path -> DictOpen (files path) = Ok (dict, loaded) -> dictOK dict ->
  Forall sensible words ->
  (st = Flat -> forall b, breaksFor breaker args b -> Forall (pronounceable ct (Some dict) b) words) ->
  exists fuel0 b texts e, breaksFor breaker args b /\ warning default args loaded e /\
    forall fuel, fuel0 <= fuel ->
      Forall2 (saidOf (parseWordF ct fuel (Some dict) b) st letters) words texts /\
      main ct breaker VERSION default files stdin fuel (prog :: args) = mkRun (String.concat "" texts) e (Ok 0%Z).
Proof. exact (C53_lemma ct breaker VERSION default files stdin prog args st letters words path dict loaded). Qed.
Print Assumptions C53_success.
Definition exFile : DictFile := mkDictFile [(letters "กา", 0%Z)] (FileWriteInt32 8 ++ "k_A_0@2" ++ String Ascii.zero "")%string.
Definition exFiles (path : string) : PathContent := if (path =? "x")%string then ATrie exFile else NoFile.
Example C53_case : exists dict, ctype_ok libthai_ct /\ breaksInside (fun _ => []) /\ Forall accepted ["-t"; "-dx"; "กากา"]%string /\
  structureIs ["-t"; "-dx"; "กากา"]%string Lines /\ wanted ["-t"; "-dx"; "กากา"]%string ["t"]%char /\
  wordsAre "" ["-t"; "-dx"; "กากา"]%string ["กากา"]%string /\ dictIs "/d" ["-t"; "-dx"; "กากา"]%string "x" /\
  DictOpen (exFiles "x") = Ok (dict, true) /\ dictOK dict /\ sensible "กากา" /\
  run exFiles "" ["-t"; "-dx"; "กากา"]%string = mkRun ("กากา:" ++ nl ++ "กา-กา" ++ nl ++ nl)%string "" (Ok 0%Z).
Proof.
  assert (NT : forall a, match a with String x _ => is "-" x | _ => false end = false -> ~ isOption a).
  { intros a H (t & ->). discriminate. }
  eexists. split; [exact libthai_ok|]. split; [intros w; constructor|]. split.
  { apply Forall_cons; [apply acc_letter; cbn; tauto|]. apply Forall_cons; [apply acc_dict; discriminate|].
    apply Forall_cons; [apply acc_text, NT; reflexivity|apply Forall_nil]. }
  split; [split; rewrite <- givenb_ok; discriminate|]. split.
  { exists ["t"]%char. split; [|reflexivity]. apply (named_take "t" ""); [cbn; tauto|].
    do 2 (apply named_skip; [intros c [<-|[<-|[<-|[<-|[<-|[]]]]]] H; apply letterb_ok in H; discriminate|]). constructor. }
  split.
  { exists ["กากา"]%string. split; [|reflexivity]. do 2 (apply texts_skip; [eexists; reflexivity|]). apply texts_take; [apply NT; reflexivity|constructor]. }
  split; [left; exists ["-t"]%string, ["กากา"]%string; split; [reflexivity|rewrite <- givenb_ok; discriminate]|].
  split; [vm_compute; reflexivity|]. split; [eapply dictCheck_sound; [reflexivity|vm_compute; reflexivity]|]. split.
  { eexists. split; [vm_compute; reflexivity|]. intros c H. vm_compute in H. injection H as <-. intros [X|[X|[X|X]]]; discriminate. }
  vm_compute. reflexivity.
Qed.

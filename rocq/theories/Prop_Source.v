(** Prop_Source.v - property C113: what of a dictionary source matters. *)
From Coq Require Import List NArith ZArith Bool String Ascii Lia Arith Permutation.
From Verif Require Import Base ThUni ThCons Syl Utf Lattice Dag PronDag SylOut ThaiOut Output Dict GenDict Parser Cli.
From Verif Require Import Spec OrderProofs DictProofs Prop_Syl ParserSpec ParserFacts ParserListed Prop_Parser Prop_Dict Grammar GrammarWord Prop_Grammar.
From Verif Require Import Prop_Text Prop_Pipeline Prop_Cli Prop_SameRun.
Import ListNotations.
Local Open Scope string_scope.
Local Open Scope list_scope.

(** ** Vocabulary *)
(** Two sources say the same: the last lines for a word are the same. *)
Definition sameSource (a b : list (list N * string)) : Prop := forall k s, lastSays a k s <-> lastSays b k s.
(** A source file the generator takes, and the dictionary made from it. *)
Definition source (lines : list (list N * string)) (input : string) : Prop :=
  FileOf lines input /\ Forall wellLine lines /\ lines <> [] /\ (Z.of_nat (String.length input) < 1073741824)%Z.
(** The same files but for the one at [path]. *)
Definition filesWith (files : string -> PathContent) (path : string) (c : PathContent) : string -> PathContent :=
  fun p => if String.eqb p path then c else files p.

(** ** The dictionary of a source answers as the source says *)
Lemma source_answers lines input : source lines input ->
  exists f d, GenDict input = Ok (Some f) /\ DictOpen (ATrie f) = Ok (d, true) /\
    forall k a, answers (Some d) k a <-> exists s, lastSays lines k s /\ a = Ok s.
Proof.
  intros (F & W & N & L). destruct (C38_all_kept lines input F W N L) as (f & d & E1 & E2 & H & T).
  exists f, d. split; [exact E1|]. split; [exact E2|]. intros k a. split.
  - intros (d' & v & E & Hv & ->). injection E as <-. destruct (T k v Hv) as (s & Es). exists s.
    split; [apply H; exists v; auto|exact (data_of_key d k v s Hv Es)].
  - intros (s & Ls & ->). apply H in Ls. destruct Ls as (i & Hi & Es). exists d, i. split; [reflexivity|]. split; [exact Hi|].
    symmetry. exact (data_of_key d k i s Hi Es).
Qed.
Lemma source_parse lines1 input1 lines2 input2 : source lines1 input1 -> source lines2 input2 -> sameSource lines1 lines2 ->
  exists f1 d1 f2 d2, GenDict input1 = Ok (Some f1) /\ DictOpen (ATrie f1) = Ok (d1, true) /\
    GenDict input2 = Ok (Some f2) /\ DictOpen (ATrie f2) = Ok (d2, true) /\
    forall ct fuel w brk, ParseU16F ct fuel w (Some d1) brk = ParseU16F ct fuel w (Some d2) brk.
Proof.
  intros S1 S2 E. destruct (source_answers lines1 input1 S1) as (f1 & d1 & G1 & O1 & A1).
  destruct (source_answers lines2 input2 S2) as (f2 & d2 & G2 & O2 & A2). exists f1, d1, f2, d2.
  repeat (split; [assumption|]). intros ct fuel w brk. apply C58_lemma. intros u k r a _ _. rewrite A1, A2.
  split; intros (s & L & X); exists s; (split; [apply E; exact L|exact X]).
Qed.

(** ** The program with one dictionary and with the other *)
Section Two.
Variable ct : CType.
Variable breaker : list N -> list nat.
Variable VERSION default : string.
Variable files : string -> PathContent.
Variable path : string.
Variable fuel : nat.
Variable c1 c2 : PathContent.
Variable d1 d2 : Dict.
Hypothesis O1 : DictOpen c1 = Ok (d1, true).
Hypothesis O2 : DictOpen c2 = Ok (d2, true).
Hypothesis Same : forall w brk, ParseU16F ct fuel w (Some d1) brk = ParseU16F ct fuel w (Some d2) brk.

Definition likeParsers (p q : ParserObj) : Prop := forall w, parseWord ct breaker fuel p w = parseWord ct breaker fuel q w.
Lemma like_dicts b : likeParsers (mkParser (Some d1) b) (mkParser (Some d2) b).
Proof. intros w. unfold parseWord, parseWordF. cbn [pDict pBreaks]. destruct (from_bytes w) as [x| | |]; try reflexivity. apply Same. Qed.
Lemma like_say p q outs w : likeParsers p q -> DoParse ct breaker fuel p outs w = DoParse ct breaker fuel q outs w.
Proof. intros L. unfold DoParse. rewrite (L w). reflexivity. Qed.
Lemma like_all p q outs ws : likeParsers p q -> doAll ct breaker fuel p outs ws = doAll ct breaker fuel q outs ws.
Proof. intros L. induction ws as [|w ws IH]; [reflexivity|]. cbn [doAll]. rewrite (like_say p q outs w L), IH. reflexivity. Qed.
Lemma like_args p q outs args : likeParsers p q -> parseArgs ct breaker fuel p outs args = parseArgs ct breaker fuel q outs args.
Proof.
  intros L. induction args as [|a args IH]; [reflexivity|]. cbn [parseArgs]. apply rbind_ext. intros c.
  destruct (is "-" c); [|rewrite (like_say p q outs a L)]; rewrite IH; reflexivity.
Qed.
Lemma like_load b dp :
  LoadExceptDict default (filesWith files path c1) (mkParser None b) dp = LoadExceptDict default (filesWith files path c2) (mkParser None b) dp \/
  LoadExceptDict default (filesWith files path c1) (mkParser None b) dp = done (mkParser (Some d1) b, true) /\
  LoadExceptDict default (filesWith files path c2) (mkParser None b) dp = done (mkParser (Some d2) b, true).
Proof.
  unfold LoadExceptDict, loadExceptDict, filesWith. destruct dp as [q|]; [|set (q := default)]; (destruct (String.eqb q path);
    [right; rewrite O1, O2; split; reflexivity|left; reflexivity]).
Qed.
Lemma like_main stdin argv :
  main ct breaker VERSION default (filesWith files path c1) stdin fuel argv = main ct breaker VERSION default (filesWith files path c2) stdin fuel argv.
Proof.
  unfold main. apply rbind_ext. intros [o|n]; [|reflexivity]. apply rbind_ext. intros outs.
  destruct (like_load (oBreak o) (oDict o)) as [E|(E1 & E2)]; [rewrite E; reflexivity|]. rewrite E1, E2, !rbind_done. cbn [fst snd].
  pose proof (like_dicts (oBreak o)) as L. rewrite (like_args _ _ _ _ L), (like_all _ _ _ _ L). reflexivity.
Qed.
End Two.

(** ** Sources that say the same *)
Lemma lastSays_in a k s : lastSays a k s -> In (k, s) a.
Proof. intros (l1 & l2 & -> & _). apply in_elt. Qed.
Lemma lastSays_nodup a k s : NoDup (map fst a) -> (lastSays a k s <-> In (k, s) a).
Proof.
  intros N. split; [apply lastSays_in|]. intros I. apply in_split in I. destruct I as (l1 & l2 & ->). exists l1, l2. split; [reflexivity|].
  intros x I. rewrite map_app in N. cbn [map fst] in N. apply NoDup_remove_2 in N. apply N. apply in_or_app. right.
  apply (in_map fst) in I. exact I.
Qed.
Lemma same_order a b : Permutation a b -> NoDup (map fst a) -> sameSource a b.
Proof.
  intros P N k s. rewrite (lastSays_nodup a k s N), (lastSays_nodup b k s).
  - split; apply Permutation_in; [exact P|symmetry; exact P].
  - apply (Permutation_NoDup (l := map fst a)); [apply Permutation_map; exact P|exact N].
Qed.
Lemma same_later a k x y b : In (k, y) b -> sameSource (a ++ (k, x) :: b) (a ++ b).
Proof.
  intros I k' s. split; intros (l1 & l2 & E & L).
  - revert l1 E. induction a as [|e a IH]; intros l1 E; cbn [app] in *.
    + destruct l1 as [|e l1]; cbn [app] in E.
      * exfalso. injection E as E1 _ E2. subst k' l2. exact (L y I).
      * injection E as _ E2. exists l1, l2. split; [exact E2|exact L].
    + destruct l1 as [|e' l1]; cbn [app] in E; injection E as E1 E2.
      * subst e l2. exists [], (a ++ b). split; [reflexivity|]. intros z J. apply (L z). apply in_app_or in J. apply in_or_app.
        destruct J; [left|right; right]; assumption.
      * destruct (IH l1 E2) as (m1 & m2 & X & Y). exists (e :: m1), m2. split; [rewrite X; reflexivity|exact Y].
  - revert l1 E. induction a as [|e a IH]; intros l1 E; cbn [app] in *.
    + exists ((k, x) :: l1), l2. split; [rewrite E; reflexivity|exact L].
    + destruct l1 as [|e' l1]; cbn [app] in E; injection E as E1 E2.
      * subst e l2. exists [], (a ++ (k, x) :: b). split; [reflexivity|]. intros z J. apply in_app_or in J.
        destruct J as [J|[J|J]].
        -- apply (L z), in_or_app. auto.
        -- injection J as -> ->. apply (L y), in_or_app. auto.
        -- apply (L z), in_or_app. auto.
      * destruct (IH l1 E2) as (m1 & m2 & X & Y). exists (e :: m1), m2. split; [rewrite X; reflexivity|exact Y].
Qed.

(** ** C113 *)
Lemma C113_lemma lines1 input1 lines2 input2 : source lines1 input1 -> source lines2 input2 -> sameSource lines1 lines2 ->
  exists f1 f2, GenDict input1 = Ok (Some f1) /\ GenDict input2 = Ok (Some f2) /\
    forall ct breaker VERSION default files path stdin fuel argv,
      main ct breaker VERSION default (filesWith files path (ATrie f1)) stdin fuel argv =
      main ct breaker VERSION default (filesWith files path (ATrie f2)) stdin fuel argv.
Proof.
  intros S1 S2 E. destruct (source_parse _ _ _ _ S1 S2 E) as (f1 & d1 & f2 & d2 & G1 & O1 & G2 & O2 & P). exists f1, f2.
  split; [exact G1|]. split; [exact G2|]. intros. apply (like_main _ _ _ _ _ _ _ _ _ d1 d2 O1 O2). intros w brk. apply P.
Qed.
(** With the files made from two sources that say the same, the program does
    the same, whatever its arguments and input. *)
Theorem C113_same_program lines1 input1 lines2 input2 : source lines1 input1 -> source lines2 input2 -> sameSource lines1 lines2 ->
  exists f1 f2, GenDict input1 = Ok (Some f1) /\ GenDict input2 = Ok (Some f2) /\
    forall ct breaker VERSION default files path stdin fuel argv,
      main ct breaker VERSION default (filesWith files path (ATrie f1)) stdin fuel argv =
      main ct breaker VERSION default (filesWith files path (ATrie f2)) stdin fuel argv.
Proof. exact (C113_lemma lines1 input1 lines2 input2). Qed.
Print Assumptions C113_same_program.
(** The order of the lines does not matter if no word has two. *)
Theorem C113_order a b : Permutation a b -> NoDup (map fst a) -> sameSource a b.
Proof. exact (same_order a b). Qed.
Print Assumptions C113_order.
(** A line does not matter if there is a later one for its word. *)
Theorem C113_later a k x y b : In (k, y) b -> sameSource (a ++ (k, x) :: b) (a ++ b).
Proof. exact (same_later a k x y b). Qed.
Print Assumptions C113_later.

(** The lines of C38 and the same without the line that is said again. *)
Definition shortFile : string := ("กา" ++ String tab ("k_A_1@2" ++ String lf ("นา" ++ String tab "n_A_0@2")))%string.
Definition fileOf (input : string) : PathContent := match GenDict input with Ok (Some f) => ATrie f | _ => NoFile end.
Example C113_case :
  let a := exLines in let b := [(letters "กา", "k_A_1@2"); (letters "นา", "n_A_0@2")]%string in
  source a exFile /\ source b shortFile /\ sameSource a b /\ fileOf exFile <> fileOf shortFile /\
  run (filesWith noFiles "x" (fileOf exFile)) "" ["-dx"; "-w"; "กานา"]%string = run (filesWith noFiles "x" (fileOf shortFile)) "" ["-dx"; "-w"; "กานา"]%string /\
  run (filesWith noFiles "x" (fileOf shortFile)) "" ["-dx"; "-w"; "กานา"]%string =
    mkRun ("กานา:" ++ nl ++ "k_A_1@2,n_A_0@4" ++ nl ++ nl)%string "" (Ok 0%Z).
Proof.
  cbv zeta. split; [|split; [|split; [|split; [|split]]]].
  - split; [apply C38_case|]. split; [apply C38_case|]. split; [discriminate|vm_compute; reflexivity].
  - split; [apply (F_line (letters "กา") "k_A_1@2"), F_last|]. split; [repeat (apply Forall_cons; [line_ok|]); apply Forall_nil|].
    split; [discriminate|vm_compute; reflexivity].
  - intros k s. rewrite (C113_later [] (letters "กา") "k_A_0@2" "k_A_1@2" [(letters "นา", "n_A_0@2"); (letters "กา", "k_A_1@2")]%string
      ltac:(right; left; reflexivity) k s). apply C113_order; [apply perm_swap|].
    repeat constructor; [intros [X|[]]; vm_compute in X; discriminate X|intros []].
  - vm_compute. discriminate.
  - vm_compute. reflexivity.
  - vm_compute. reflexivity.
Qed.
(** The order of two lines for one word matters. *)
Theorem C113_order_refuted : ~ forall a b, Permutation a b -> sameSource a b.
Proof.
  intros H. specialize (H [(letters "กา", "k_A_0@2"); (letters "กา", "k_A_1@2")]%string [(letters "กา", "k_A_1@2"); (letters "กา", "k_A_0@2")]%string
    (perm_swap _ _ _) (letters "กา") "k_A_0@2"%string).
  assert (X : lastSays [(letters "กา", "k_A_1@2"); (letters "กา", "k_A_0@2")]%string (letters "กา") "k_A_0@2").
  { eexists [_], []. split; [reflexivity|]. intros x []. }
  apply H in X. destruct X as ([|e1 [|e2 [|e3 l1]]] & l2 & E & L); cbn [app] in E; try discriminate E.
  injection E as E. subst l2. apply (L "k_A_1@2"%string). left. reflexivity.
Qed.
Print Assumptions C113_order_refuted.

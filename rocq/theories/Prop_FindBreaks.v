(** Prop_FindBreaks.v - property C74: the word breaks the parser works with. *)
From Coq Require Import List NArith ZArith Bool String Ascii Lia Arith Sorted.
From Verif Require Import Base ThUni ThCons Syl Utf Lattice Dag PronDag SylOut ThaiOut Output Dict GenDict Parser Cli FindBreaks.
From Verif Require Import Spec OrderProofs DictProofs Prop_Syl ParserSpec ParserFacts ParserInv ParserResult ParserListed ParserDict UtfProofs.
From Verif Require Import Prop_Parser Prop_Notation Prop_Graph Prop_Output Prop_Cli Prop_Cli2 Prop_Roman Prop_Codes Prop_Listing
  Prop_Product Grammar GrammarWord TextGrammar TextProof Prop_Every Prop_Grammar Prop_Text Prop_Breaks Prop_Program Prop_ProgramJson Prop_ProgramEvery.
Import ListNotations.
Local Open Scope string_scope.
Local Open Scope list_scope.
Local Open Scope nat_scope.

(** ** Vocabulary *)
(** Libthai: the breaks of a string are in order, behind its start and not behind
    its end; as many as fit are stored, and counted. *)
Definition properBreaks (B : list N -> list nat) : Prop :=
  forall s, StronglySorted lt (B s) /\ Forall (fun x => 1 <= x <= List.length s) (B s).
Definition findsBreaks (B : list N -> list nat) (lib : list N -> nat -> list nat * nat) : Prop :=
  forall s size, lib s size = (firstn size (B s), Nat.min size (List.length (B s))).
(** The text up to a NUL. *)
Definition upToNul (w s : list N) : Prop :=
  ~ In 0%N s /\ (w = s \/ exists r, w = s ++ 0%N :: r).

(** ** Lemmas *)
Lemma cstr_upTo w : upToNul w (cstr w).
Proof.
  induction w as [|c w (H & E)]; [split; [intros []|left; reflexivity]|]. cbn [cstr]. destruct (N.eqb_spec c 0) as [->|Nc].
  - split; [intros []|right; exists w; reflexivity].
  - split; [intros [X|X]; [congruence|exact (H X)]|]. destruct E as [E|(r & E)]; [left|right; exists r]; cbn [app]; congruence.
Qed.
Lemma upTo_cstr w s : upToNul w s -> s = cstr w.
Proof.
  intros (H & E). revert w E. induction s as [|c s IH]; intros w E.
  - destruct E as [->|(r & ->)]; reflexivity.
  - assert (Nc : c <> 0%N) by (intros ->; apply H; left; reflexivity).
    assert (X : exists w', w = c :: w' /\ (w' = s \/ exists r, w' = s ++ 0%N :: r)).
    { destruct E as [->|(r & ->)]; eexists; (split; [reflexivity|]); eauto. }
    destruct X as (w' & -> & X). cbn [cstr]. destruct (N.eqb_spec c 0); [congruence|]. f_equal. apply IH; [|exact X].
    intros Y. apply H. right. exact Y.
Qed.
Lemma upTo_length w s : upToNul w s -> List.length s <= List.length w.
Proof. intros (_ & [->|(r & ->)]); [lia|]. rewrite app_length. lia. Qed.
Lemma ascending_length l : forall a b, StronglySorted lt l -> Forall (fun x => a <= x <= b) l -> List.length l <= S b - a.
Proof.
  induction l as [|x l IH]; intros a b S F; [cbn; lia|]. inversion S as [|? ? S' Fx]; subst. apply Forall_cons_iff in F. destruct F as (H & F).
  assert (List.length l <= Datatypes.S b - Datatypes.S x).
  { apply IH; [exact S'|]. rewrite Forall_forall in *. intros y Hy. specialize (F y Hy). specialize (Fx y Hy). lia. }
  cbn [List.length]. lia.
Qed.

(** ** C74: every break is passed on *)
Lemma C74_lemma B lib w s : properBreaks B -> findsBreaks B lib -> upToNul w s ->
  FindBreaks lib true w = Ok (B s).
Proof.
  intros P F U. assert (s = cstr w) as -> by (apply upTo_cstr; exact U). pose proof (upTo_length _ _ U) as L. destruct (P (cstr w)) as (S & I).
  pose proof (ascending_length _ _ _ S I) as Ln.
  unfold FindBreaks. cbn [negb]. cbv zeta. rewrite !repeat_length, !F. cbn [fst snd].
  rewrite firstn_all2, Nat.min_r by lia. destruct (Nat.ltb_spec (List.length w) (List.length (B (cstr w)))); [lia|].
  f_equal. unfold resize, store. rewrite app_length, firstn_app, Nat.sub_diag, firstn_all. cbn [firstn].
  replace (_ - _) with 0 by lia. cbn [repeat]. rewrite !app_nil_r. reflexivity.
Qed.
(** The buffer is long enough for all breaks, none is lost or made up; a text
    with a NUL has none behind it. *)
Theorem C74_breaks_found B lib w s : properBreaks B -> findsBreaks B lib -> upToNul w s ->
  FindBreaks lib true w = Ok (B s).
Proof. exact (C74_lemma B lib w s). Qed.
Print Assumptions C74_breaks_found.
Theorem C74_breaking_off lib w : FindBreaks lib false w = Ok [].
Proof. reflexivity. Qed.
Print Assumptions C74_breaking_off.

(** The parser with the call of libthai is the parser of the other properties
    with the breaks before the first NUL. *)
Lemma C74_lemma2 B lib ct on fuel dict word : properBreaks B -> findsBreaks B lib ->
  parseWordB lib ct on fuel dict word = parseWordF ct fuel dict (if on then fun w => B (cstr w) else fun _ => []) word.
Proof.
  intros P F. unfold parseWordB, parseWordF. destruct (from_bytes word) as [w| | |]; cbn [bind]; try reflexivity.
  destruct on; [|reflexivity]. rewrite (C74_lemma B lib w (cstr w) P F (cstr_upTo w)). reflexivity.
Qed.
Theorem C74_parse_word B lib ct on fuel dict word : properBreaks B -> findsBreaks B lib ->
  parseWordB lib ct on fuel dict word = parseWordF ct fuel dict (if on then fun w => B (cstr w) else fun _ => []) word.
Proof. exact (C74_lemma2 B lib ct on fuel dict word). Qed.
Print Assumptions C74_parse_word.

Lemma breaks_modest B args b word : properBreaks B -> breaksFor (fun w => B (cstr w)) args b ->
  (forall w, from_bytes word = Ok w -> (101 * Z.of_nat (List.length w) < 2 ^ 31)%Z) -> modest b word.
Proof.
  intros P Bf Z w E. split; [exact (Z w E)|]. destruct Bf as [(_ & ->)|(_ & ->)]; [split; constructor|].
  destruct (P (cstr w)) as (S & I). split; [exact S|]. eapply Forall_impl; [|exact I]. cbv beta. intros x H.
  pose proof (upTo_length _ _ (cstr_upTo w)). lia.
Qed.
(** With breaks as libthai finds them only the size of the texts is left as a
    condition of the claim about the program. *)
Theorem C74_program B VERSION default files stdin prog args cs words path b dict loaded :
  properBreaks B ->
  Forall accepted args -> structureIs args Lines -> wanted args cs ->
  wordsAre stdin args words -> dictIs default args path -> DictOpen (files path) = Ok (dict, loaded) -> dictOK dict ->
  breaksFor (fun w => B (cstr w)) args b ->
  Forall (fun word => forall w, from_bytes word = Ok w -> (101 * Z.of_nat (List.length w) < 2 ^ 31)%Z) words ->
  exists fuel0 pre texts post e, words = pre ++ post /\ warning default args loaded e /\
    Forall2 (lineAnswer (Some dict) b cs) pre texts /\
    ((post = [] /\ forall fuel, fuel0 <= fuel ->
        main libthai_ct (fun w => B (cstr w)) VERSION default files stdin fuel (prog :: args) = mkRun (String.concat "" texts) e (Ok 0%Z)) \/
     (exists bad rest, post = bad :: rest /\ hopeless (Some dict) b bad /\ forall fuel, fuel0 <= fuel ->
        main libthai_ct (fun w => B (cstr w)) VERSION default files stdin fuel (prog :: args)
        = mkRun (String.concat "" texts ++ bad ++ ":" ++ nl) e Throw)).
Proof.
  intros P A S Wa W Di O OK Bf Z. apply (C72_program _ VERSION default files stdin prog args cs words path b dict loaded); try assumption.
  eapply Forall_impl; [|exact Z]. intros word H. eapply breaks_modest; eauto.
Qed.
Print Assumptions C74_program.

(** A breaker that breaks behind every second letter, on a text with a NUL: the
    buffer would hold seven breaks. *)
Definition exB (s : list N) : list nat := filter Nat.even (seq 1 (List.length s)).
Definition exLib (s : list N) (size : nat) : list nat * nat := (firstn size (exB s), Nat.min size (List.length (exB s))).
Lemma exB_proper : properBreaks exB.
Proof.
  intros s. unfold exB. split.
  - generalize 1 as a. induction (List.length s) as [|m IH]; intros a; cbn [seq filter]; [constructor|].
    destruct (Nat.even a); [|apply IH]. constructor; [apply IH|]. apply Forall_forall. intros x Hx. apply filter_In in Hx.
    destruct Hx as (Hx & _). apply in_seq in Hx. lia.
  - apply Forall_forall. intros x Hx. apply filter_In in Hx. destruct Hx as (Hx & _). apply in_seq in Hx. lia.
Qed.
Example C74_case : properBreaks exB /\ findsBreaks exB exLib /\
  upToNul (letters "กาขาค" ++ [0%N] ++ letters "ก") (letters "กาขาค") /\
  FindBreaks exLib true (letters "กาขาค" ++ [0%N] ++ letters "ก") = Ok [2; 4].
Proof.
  split; [exact exB_proper|]. split; [intros s size; reflexivity|]. split; [|reflexivity].
  split; [|right; eexists; reflexivity]. cbn. intros H. repeat destruct H as [H|H]; discriminate || destruct H.
Qed.
(** The words of [C72_case], with breaks that cut "กา" in the first of them. *)
Example C74_program_case : let b := fun w => exB (cstr w) in properBreaks exB /\
  (exists dict, DictOpen (exFiles "x") = Ok (dict, true) /\ dictOK dict) /\
  Forall (fun word => forall w, from_bytes word = Ok w -> (101 * Z.of_nat (List.length w) < 2 ^ 31)%Z) exWords /\
  Forall accepted (exArgs []) /\ structureIs (exArgs []) Lines /\ wanted (exArgs []) ["p"]%char /\
  wordsAre "" (exArgs []) exWords /\ dictIs "/d" (exArgs []) "x" /\ breaksFor b (exArgs []) b /\
  main libthai_ct b "1" "/d" exFiles "" 500 ("thpronun"%string :: exArgs []) = mkRun
    ("ก. กา:" ++ nl ++ nl ++ "ะ:" ++ nl ++ nl ++ "กาไ:" ++ nl)%string "" Throw.
Proof.
  cbv zeta. split; [exact exB_proper|]. destruct C72_case as (D & M & _ & A & _). split; [exact D|].
  destruct (A Lines [] (or_introl eq_refl)) as (A1 & A2 & A3 & A4 & A5 & A6).
  split; [eapply Forall_impl; [|exact M]; intros word H w E; apply (H w E)|].
  repeat (split; [assumption|]). split; [|vm_compute; reflexivity].
  right. split; [|reflexivity]. destruct A6 as [(G & _)|(G & _)]; [|exact G]. rewrite <- givenb_ok in G. discriminate.
Qed.

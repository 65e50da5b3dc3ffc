(** Prop_Package.v - property C83: from the shipped lists through sort and the
    generator to what the program says. *)
From Coq Require Import List NArith ZArith Bool String Ascii Lia Arith Sorted Permutation.
From Verif Require Import Base ThUni ThCons Syl Utf UtfProofs Lattice Dag PronDag SylOut ThaiOut Output Dict GenDict Data Parser Cli GenMain.
From Verif Require Import Spec OrderProofs DictProofs Prop_Syl ParserSpec ParserFacts ParserInv ParserResult ParserListed ParserDict.
From Verif Require Import Prop_Output Prop_Notation Prop_Parser Grammar GrammarWord TextGrammar TextProof.
From Verif Require Import Prop_Dict Prop_Cli Prop_Cli2 Prop_Every Prop_Program Prop_ProgramJson Prop_ProgramEvery Prop_Pipeline Prop_Codes.
From Verif Require Import Prop_Shipped Prop_GenMain.
Import ListNotations.
Local Open Scope string_scope.
Local Open Scope list_scope.
Local Open Scope nat_scope.

(** ** Vocabulary *)
(** The order of lines by their bytes. *)
Inductive ByteLess : string -> string -> Prop :=
| bl_prefix c t : ByteLess "" (String c t)
| bl_byte x y a b : (N_of_ascii x < N_of_ascii y)%N -> ByteLess (String x a) (String y b)
| bl_same x a b : ByteLess a b -> ByteLess (String x a) (String x b).
(** What [LC_ALL=C sort -u] makes of the lines: each of them once, in order. *)
Definition SortedUnique (lines result : list string) : Prop :=
  StronglySorted ByteLess result /\ forall l, In l result <-> In l lines.
(** The text of a file of lines. *)
Definition fileText (lines : list string) : string := String.concat "" (map (fun l => l ++ nl)%string lines).

(** ** Lemmas *)
Lemma asc_eq x y : N_of_ascii x = N_of_ascii y -> x = y.
Proof. intros H. rewrite <- (ascii_N_embedding x), <- (ascii_N_embedding y), H. reflexivity. Qed.
Lemma less_ok a : forall b, bytesLtb a b = true <-> ByteLess a b.
Proof.
  induction a as [|x a IH]; intros [|y b]; cbn [bytesLtb].
  - split; [discriminate|intros H; inversion H].
  - split; [constructor|reflexivity].
  - split; [discriminate|intros H; inversion H].
  - destruct (N.ltb_spec (N_of_ascii x) (N_of_ascii y)) as [L|L].
    + split; [intros _; apply bl_byte; exact L|reflexivity].
    + destruct (N.ltb_spec (N_of_ascii y) (N_of_ascii x)) as [G|G].
      * split; [discriminate|]. intros H. inversion H; subst; lia.
      * assert (x = y) by (apply asc_eq; lia). subst y. rewrite IH. split; [apply bl_same|].
        intros H. inversion H; subst; [lia|assumption].
Qed.
Lemma less_irrefl a : ~ ByteLess a a.
Proof. induction a as [|x a IH]; intros H; inversion H; subst; [lia|contradiction]. Qed.
Lemma less_trans a : forall b c, ByteLess a b -> ByteLess b c -> ByteLess a c.
Proof.
  induction a as [|x a IH]; intros b c H K.
  - inversion H; subst. inversion K; subst; constructor.
  - inversion H; subst; inversion K; subst.
    + apply bl_byte. lia.
    + apply bl_byte. assumption.
    + apply bl_byte. assumption.
    + apply bl_same. eauto.
Qed.
Lemma less_total a : forall b, bytesLtb a b = false -> bytesLtb b a = false -> a = b.
Proof.
  induction a as [|x a IH]; intros [|y b]; cbn [bytesLtb]; try reflexivity; try discriminate.
  destruct (N.ltb_spec (N_of_ascii x) (N_of_ascii y)); [discriminate|].
  destruct (N.ltb_spec (N_of_ascii y) (N_of_ascii x)); [discriminate|].
  intros H1 H2. rewrite (IH b H1 H2). f_equal. apply asc_eq. lia.
Qed.
Lemma sorted_same l : forall l', StronglySorted ByteLess l -> StronglySorted ByteLess l' -> (forall x, In x l <-> In x l') -> l = l'.
Proof.
  induction l as [|x l IH]; intros [|y l'] S S' H.
  - reflexivity.
  - destruct (proj2 (H y) (or_introl eq_refl)).
  - destruct (proj1 (H x) (or_introl eq_refl)).
  - inversion S as [|? ? S1 F1]; inversion S' as [|? ? S2 F2]; subst. rewrite Forall_forall in F1, F2.
    assert (x = y).
    { destruct (proj1 (H x) (or_introl eq_refl)) as [E|I]; [congruence|].
      destruct (proj2 (H y) (or_introl eq_refl)) as [E|J]; [congruence|].
      exfalso. apply (less_irrefl x). eapply less_trans; [apply F1, J|apply F2, I]. }
    subst y. f_equal. apply IH; [exact S1|exact S2|]. intros z. split; intros I.
    + destruct (proj1 (H z) (or_intror I)) as [<-|J]; [exfalso; apply (less_irrefl x), F1, I|exact J].
    + destruct (proj2 (H z) (or_intror I)) as [<-|J]; [exfalso; apply (less_irrefl x), F2, I|exact J].
Qed.
Lemma insert_in x l z : In z (insertU x l) <-> z = x \/ In z l.
Proof.
  induction l as [|y l IH]; cbn [insertU]; [cbn; intuition congruence|].
  destruct (bytesLtb x y) eqn:E1; [cbn; intuition congruence|]. destruct (bytesLtb y x) eqn:E2.
  - cbn [In]. rewrite IH. tauto.
  - rewrite (less_total x y E1 E2). cbn; intuition congruence.
Qed.
Lemma insert_sorted x l : StronglySorted ByteLess l -> StronglySorted ByteLess (insertU x l).
Proof.
  induction 1 as [|y l S IH F]; cbn [insertU]; [repeat constructor|].
  destruct (bytesLtb x y) eqn:E1.
  - apply less_ok in E1. constructor; [constructor; assumption|]. constructor; [exact E1|].
    rewrite Forall_forall in *. intros z I. eapply less_trans; [exact E1|apply F, I].
  - destruct (bytesLtb y x) eqn:E2; [|constructor; assumption]. apply less_ok in E2.
    constructor; [exact IH|]. rewrite Forall_forall in *. intros z I. apply insert_in in I as [->|I]; auto.
Qed.
Lemma sort_ok l : SortedUnique l (sortU l).
Proof.
  unfold sortU. induction l as [|x l (S & H)]; cbn [fold_right]; [split; [constructor|tauto]|].
  split; [apply insert_sorted, S|]. intros z. rewrite insert_in, H. cbn [In]. intuition congruence.
Qed.
Lemma sort_unique l r : SortedUnique l r -> r = sortU l.
Proof. intros (S & H). destruct (sort_ok l) as (S' & H'). apply sorted_same; [exact S|exact S'|]. intros x. rewrite H, H'. tauto. Qed.

Lemma key_bytes key k : from_bytes key = Ok k -> inAbc k -> key = utf8Encode k.
Proof.
  intros H A. apply C44_lossless in H. unfold to_bytes in H.
  assert (D : utf16Decode k = Ok k).
  { clear H. induction k as [|c k IH]; [reflexivity|]. rewrite dec16_one.
    - rewrite IH; [reflexivity|]. intros x I. apply A. right. exact I.
    - left. specialize (A c (or_introl eq_refl)). lia. }
  rewrite D in H. cbn [bind] in H. injection H as <-. reflexivity.
Qed.
(** Every line fits the generator's buffer, and no word has two lines. *)
Definition tidy (src : list string) : bool :=
  forallb (fun l => String.length l <=? 254) src &&
  forallb (fun l => forallb (fun m => match splitTab l, splitTab m with
    | Some (a, _), Some (b, _) => negb (String.eqb a b) || String.eqb l m | _, _ => false end) src) src.
Lemma shipped_tidy : tidy except_src = true.
Proof. vm_cast_no_check (eq_refl true). Qed.
Lemma cut_tab a b : lacks tab a -> splitTab (a ++ Data.tab ++ b) = Some (a, b).
Proof.
  induction a as [|c a IH]; intros L; [reflexivity|]. cbn [String.append splitTab]. destruct L as (L1 & L2).
  destruct (Ascii.eqb_spec c (ascii_of_nat 9)) as [->|_]; [contradiction (L1 eq_refl)|]. rewrite (IH L2). reflexivity.
Qed.
Lemma tidy_sound src : tidy src = true -> Forall (fun l => String.length l <= 254) src /\
  forall a b c, lacks tab a -> In (a ++ Data.tab ++ b)%string src -> In (a ++ Data.tab ++ c)%string src -> b = c.
Proof.
  unfold tidy. rewrite andb_true_iff, !forallb_forall. intros (H1 & H2). split.
  - rewrite Forall_forall. intros l I. apply Nat.leb_le, H1, I.
  - intros a b c L I J. specialize (H2 _ I). rewrite forallb_forall in H2. specialize (H2 _ J).
    rewrite !cut_tab in H2 by exact L. rewrite String.eqb_refl in H2. cbn [negb orb] in H2. apply String.eqb_eq in H2.
    pose proof (cut_tab a b L) as X. rewrite H2, (cut_tab a c L) in X. injection X as <-. reflexivity.
Qed.
(** The word [k] is in the shipped lists, with the pronunciations [ss]. *)
Definition shippedEntry (k : list N) (ss : list SylString) : Prop := exists key, shippedLine key k ss.
Lemma entry_key key k ss : shippedLine key k ss -> key = utf8Encode k /\ lacks tab key.
Proof.
  intros (desc & _ & B & (_ & A & _) & _). cbn [fst] in A. pose proof (key_bytes _ _ B A) as ->. split; [reflexivity|].
  apply key_lacks; [exact A|reflexivity].
Qed.
Lemma entry_one k ss ss' : shippedEntry k ss -> shippedEntry k ss' -> ss = ss'.
Proof.
  intros (key & S) (key' & S'). destruct (entry_key _ _ _ S) as (E & L). destruct (entry_key _ _ _ S') as (E' & _).
  subst key key'. destruct S as (d & I & B & G & Da), S' as (d' & I' & _ & G' & Da').
  destruct (tidy_sound _ shipped_tidy) as (T1 & T2). rewrite (T2 _ _ _ L I' I) in Da'.
  assert (Lk : List.length k <= 254).
  { rewrite Forall_forall in T1. specialize (T1 _ I). pose proof (word_len k). rewrite slen_app in T1. lia. }
  pose proof (data_read _ _ _ G Lk Da) as R. rewrite (data_read _ _ _ G' Lk Da') in R. injection R as ->. reflexivity.
Qed.
Definition lineEntry (line : string) (e : list N * list SylString) : Prop :=
  exists desc, shippedEntry (fst e) (snd e) /\ goodWord e /\ dataOf (snd e) desc /\ line = lineText (fst e) desc.
Lemma line_entry line : In line except_src -> exists e, lineEntry line e.
Proof.
  intros H. destruct (C75_covered line H) as (key & k & strs & desc & S & E & Da). exists (k, strs), desc. cbn [fst snd].
  split; [exists key; exact S|]. destruct (entry_key _ _ _ S) as (Ek & _). destruct S as (d & _ & _ & G & _).
  split; [exact G|]. split; [exact Da|]. rewrite E, Ek. reflexivity.
Qed.
Lemma line_entries ls : incl ls except_src -> exists es, Forall2 lineEntry ls es.
Proof.
  induction ls as [|l ls IH]; intros H; [exists []; constructor|].
  destruct (line_entry l (H l (or_introl eq_refl))) as (e & He). destruct IH as (es & Hes); [intros x I; apply H; right; exact I|].
  exists (e :: es). constructor; assumption.
Qed.
Lemma key_dec k (es : list (list N * list SylString)) : (exists x, In (k, x) es) \/ ~ exists x, In (k, x) es.
Proof.
  induction es as [|(k' & x) es IH]; [right; intros (x & [])|].
  destruct (list_eq_dec N.eq_dec k' k) as [->|N]; [left; exists x; left; reflexivity|].
  destruct IH as [(y & I)|Ni]; [left; exists y; right; exact I|]. right. intros (y & [E|I]); [congruence|apply Ni; eauto].
Qed.
Lemma has_last k es : forall ss, In (k, ss) es -> exists ss', lastEntry es k ss'.
Proof.
  induction es as [|e es IH]; intros ss I; [destruct I|]. destruct (key_dec k es) as [(x & J)|N].
  - destruct (IH x J) as (ss' & l1 & l2 & -> & H). exists ss', (e :: l1), l2. split; [reflexivity|exact H].
  - destruct I as [->|I]; [|contradiction N; eauto]. exists ss, [], es. split; [reflexivity|]. intros z K. apply N. eauto.
Qed.
(** The shipped lists, sorted, are a source for the generator. *)
Lemma shipped_source lines : SortedUnique except_src lines -> lines <> [] -> exists es, es <> [] /\ Forall goodWord es /\
  sourceOf es (fileText lines) /\ forall k ss, lastEntry es k ss <-> shippedEntry k ss.
Proof.
  intros (_ & H) Ne. destruct (line_entries lines) as (es & F); [intros l I; apply H; exact I|].
  destruct (tidy_sound _ shipped_tidy) as (T1 & _). rewrite Forall_forall in T1.
  exists es. split; [intros ->; inversion F; subst; congruence|]. split.
  { clear - F. induction F as [|l e ls es (d & _ & G & _) F IH]; constructor; assumption. }
  split.
  - assert (X : exists ps, fileText lines = linesText ps /\
      Forall2 (fun e l => fst l = fst e /\ dataOf (snd e) (snd l) /\ (String.length (lineText (fst l) (snd l)) <= 254)%nat) es ps).
    { assert (T : forall l, In l lines -> String.length l <= 254) by (intros l I; apply T1, H, I). clear - F T.
      induction F as [|l (k & ss) ls es (d & _ & _ & Da & E) F IH]; [exists []; split; [reflexivity|constructor]|].
      destruct IH as (ps & E2 & F2); [intros x I; apply T; right; exact I|]. exists ((k, d) :: ps). split.
      - unfold fileText in *. cbn [map String.concat]. cbn [linesText fold_right fst snd] in *. fold (linesText ps). rewrite <- E2, <- E.
        destruct (map (fun l0 : string => (l0 ++ nl)%string) ls) as [|y ys]; [rewrite <- ?sapp_assoc; reflexivity|].
        change (("" ++ String.concat "" (y :: ys))%string) with (String.concat "" (y :: ys)). rewrite sapp_assoc. reflexivity.
      - constructor; [|exact F2]. cbn [fst snd] in *. split; [reflexivity|]. split; [exact Da|]. rewrite <- E. apply T. left. reflexivity. }
    destruct X as (ps & E & F2). exists ps. split; [rewrite E; apply linesText_file|exact F2].
  - assert (A : forall k ss, In (k, ss) es -> shippedEntry k ss).
    { clear - F. induction F as [|l e ls es (d & S & _) F IH]; intros k ss I; [destruct I|]. destruct I as [->|I]; [exact S|apply IH, I]. }
    assert (B : forall l, In l lines -> exists e, In e es /\ lineEntry l e).
    { clear - F. induction F as [|l e ls es L F IH]; intros x I; [destruct I|]. destruct I as [<-|I]; [exists e; split; [left; reflexivity|exact L]|].
      destruct (IH x I) as (e' & I' & L'). exists e'. split; [right; exact I'|exact L']. }
    intros k ss. split.
    + intros (l1 & l2 & -> & _). apply A. apply in_or_app. right. left. reflexivity.
    + intros (key & S). destruct (entry_key _ _ _ S) as (Ek & L). pose proof S as (desc & I & _).
      destruct (B _ (proj2 (H _) I)) as ((k' & ss') & I' & d & S' & G' & _ & E). cbn [fst snd] in *.
      assert (k' = k).
      { destruct S' as (key' & S'). destruct (entry_key _ _ _ S') as (Ek' & L'). unfold lineText in E. rewrite <- Ek' in E.
        pose proof (cut_tab key desc L) as C. rewrite E in C. change (String tab d) with (Data.tab ++ d)%string in C.
        rewrite (cut_tab key' d L') in C. injection C as -> ->. destruct S as (? & _ & B1 & _), S' as (? & _ & B2 & _). congruence. }
      subst k'. rewrite (entry_one k ss ss' (ex_intro _ key S) S'). destruct (has_last k es ss' I') as (x & Lx).
      assert (x = ss').
      { apply (entry_one k); [|exact S']. destruct Lx as (l1 & l2 & -> & _). apply A. apply in_or_app. right. left. reflexivity. }
      subst x. exact Lx.
Qed.
(** The readings of [word] with the shipped exceptions, each once. *)
Definition readShipped (b : list N -> list nat) (word : string) (l : list SylString) : Prop :=
  exists w, from_bytes word = Ok w /\ ~ stuck shippedEntry w (b w) /\ NoDup l /\
    forall s, In s l <-> Reading shippedEntry w (b w) s.
(** It is not text, or it ends where nothing can be read. *)
Definition unread (b : list N -> list nat) (word : string) : Prop :=
  (forall w, from_bytes word <> Ok w) \/ exists w, from_bytes word = Ok w /\ stuck shippedEntry w (b w).
Lemma C83_lemma readable writable same prog source target lines :
  SortedUnique except_src lines -> ready readable writable same source target (fileText lines) ->
  exists f, genMain readable writable same [prog; source; target] = mkRun "" "" (Ok (mkExit 0 (Dictionary f))) /\
    forall breaker VERSION default files stdin prog2 args cs words path b,
      Forall accepted args -> structureIs args Lines -> wanted args cs -> wordsAre stdin args words ->
      dictIs default args path -> files path = ATrie f -> breaksFor breaker args b -> Forall (modest b) words ->
      exists fuel0 pre texts post, words = pre ++ post /\
        Forall2 (fun word text => exists l outs, readShipped b word l /\ Forall2 (block l) cs outs /\ text = frame word outs) pre texts /\
        ((post = [] /\ forall fuel, fuel0 <= fuel ->
            Cli.main libthai_ct breaker VERSION default files stdin fuel (prog2 :: args) = mkRun (String.concat "" texts) "" (Ok 0%Z)) \/
         (exists bad rest, post = bad :: rest /\ unread b bad /\ forall fuel, fuel0 <= fuel ->
            Cli.main libthai_ct breaker VERSION default files stdin fuel (prog2 :: args)
            = mkRun (String.concat "" texts ++ bad ++ ":" ++ nl) "" Throw)).
Proof.
  intros H Rd. assert (Ne : lines <> []).
  { intros ->. destruct puum as (d & I & _). apply (proj2 H) in I. destruct I. }
  destruct (shipped_source lines H Ne) as (es & N & G & So & X).
  assert (X' : forall k ss, shippedEntry k ss <-> lastEntry es k ss) by (intros; symmetry; apply X).
  destruct (C78_both_programs readable writable same prog source target _ es Rd N G So) as (f & E & R). exists f. split; [exact E|].
  intros breaker VERSION default files stdin prog2 args cs words path b A1 A2 A3 A4 A5 A6 A7 A8.
  destruct (R breaker VERSION default files stdin prog2 args cs words path b A1 A2 A3 A4 A5 A6 A7 A8) as (fuel0 & pre & texts & post & Ew & An & Rr).
  exists fuel0, pre, texts, post. split; [exact Ew|]. split.
  - clear - An X X'. induction An as [|word text pre texts (l & outs & (w & Fb & Ns & Nd & Rd) & Bl & Et) An IH]; constructor; [|exact IH].
    exists l, outs. split; [|split; [exact Bl|exact Et]]. exists w. split; [exact Fb|]. split.
    { intros St. apply Ns. exact (stuck_ext _ _ _ _ X' St). }
    split; [exact Nd|]. intros s. rewrite Rd. unfold Reading. split; intros (N1 & P); (split; [exact N1|]); eapply path_ext; try exact P; assumption.
  - destruct Rr as [Rr|(bad & rest & Ep & [Hh|(w & Fb & St)] & Rr)]; [left; exact Rr|right|right]; exists bad, rest; (split; [exact Ep|]); (split; [|exact Rr]).
    + left. exact Hh.
    + right. exists w. split; [exact Fb|]. exact (stuck_ext _ _ _ _ X St).
Qed.
(** The lists of exceptions are joined, sorted by bytes with every line kept
    once, given to the generator, and the program is run with the dictionary it
    wrote: whatever the text, the program prints its readings with the
    exceptions of the lists. *)
Theorem C83_package readable writable same prog source target lines :
  SortedUnique except_src lines -> ready readable writable same source target (fileText lines) ->
  exists f, genMain readable writable same [prog; source; target] = mkRun "" "" (Ok (mkExit 0 (Dictionary f))) /\
    forall breaker VERSION default files stdin prog2 args cs words path b,
      Forall accepted args -> structureIs args Lines -> wanted args cs -> wordsAre stdin args words ->
      dictIs default args path -> files path = ATrie f -> breaksFor breaker args b -> Forall (modest b) words ->
      exists fuel0 pre texts post, words = pre ++ post /\
        Forall2 (fun word text => exists l outs, readShipped b word l /\ Forall2 (block l) cs outs /\ text = frame word outs) pre texts /\
        ((post = [] /\ forall fuel, fuel0 <= fuel ->
            Cli.main libthai_ct breaker VERSION default files stdin fuel (prog2 :: args) = mkRun (String.concat "" texts) "" (Ok 0%Z)) \/
         (exists bad rest, post = bad :: rest /\ unread b bad /\ forall fuel, fuel0 <= fuel ->
            Cli.main libthai_ct breaker VERSION default files stdin fuel (prog2 :: args)
            = mkRun (String.concat "" texts ++ bad ++ ":" ++ nl) "" Throw)).
Proof. exact (C83_lemma readable writable same prog source target lines). Qed.
Print Assumptions C83_package.
Lemma C83_lemma2 : exists lines, SortedUnique except_src lines /\ fileText lines = except_tsv /\
  forall l, SortedUnique except_src l -> l = lines.
Proof. exists (sortU except_src). split; [apply sort_ok|]. split; [reflexivity|]. apply sort_unique. Qed.
(** There is exactly one such sorted list of lines, and its text is the source
    of the shipped dictionary. *)
Theorem C83_sorted : exists lines, SortedUnique except_src lines /\ fileText lines = except_tsv /\
  forall l, SortedUnique except_src l -> l = lines.
Proof. exact C83_lemma2. Qed.
Print Assumptions C83_sorted.
(** No word is listed twice with different pronunciations. *)
Theorem C83_one_line k ss ss' : shippedEntry k ss -> shippedEntry k ss' -> ss = ss'.
Proof. exact (entry_one k ss ss'). Qed.
Print Assumptions C83_one_line.

(** ** Example *)
Definition shelf (p : string) : option string := if String.eqb p "except.tsv" then Some except_tsv else None.
Definition open_ (p : string) : bool := negb (String.eqb p "except.tsv").
(** The shipped dictionary is made and used on a listed word, the same word
    between others, and a word that is not listed. *)
Example C83_case : exists lines, SortedUnique except_src lines /\
  ready shelf open_ String.eqb "except.tsv" "except.dic" (fileText lines) /\
  genMain shelf open_ String.eqb ["gen-lookup-dict"; "except.tsv"; "except.dic"]%string = mkRun "" "" (Ok (mkExit 0 (Dictionary theFile))) /\
  Cli.main libthai_ct (fun _ => []) "1" "except.dic" (fun p => if String.eqb p "except.dic" then ATrie theFile else NoFile) "" 600
    ["thpronun"; "-w"; "-n"; "ภูมิ"; "กาภูมิ"; "กา"]%string = mkRun
    ("ภูมิ:" ++ nl ++ "P_Um0@4" ++ nl ++ "P_U_0@2,m_i_3@4" ++ nl ++ nl ++
      "กาภูมิ:" ++ nl ++ "k_Ap1@2,P_Um0@6" ++ nl ++ "k_Ap1@2,P_U_0@4,m_i_3@6" ++ nl ++
      "k_A_0@2,P_Um0@6" ++ nl ++ "k_A_0@2,P_U_0@4,m_i_3@6" ++ nl ++ nl ++
      "กา:" ++ nl ++ "k_A_0@2" ++ nl ++ nl)%string "" (Ok 0%Z).
Proof.
  exists (sortU except_src). split; [apply sort_ok|]. change (fileText (sortU except_src)) with except_tsv. split.
  { constructor; try reflexivity. }
  split; vm_compute; reflexivity.
Qed.

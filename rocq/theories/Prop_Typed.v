(** Prop_Typed.v - property C118: spellings that look alike but are typed with
    other characters or in another order. *)
From Coq Require Import String List NArith ZArith Bool Lia Arith Sorted.
From Verif Require Import Base ThUni ThCons Syl Utf Lattice Dag PronDag Output Dict Parser Cli Prop_Cli.
From Verif Require Import Spec OrderProofs DictProofs Prop_Syl ParserSpec ParserFacts ParserInv ParserResult ParserListed ParserDict.
From Verif Require Import Prop_Output Prop_Parser Grammar GrammarWord TextGrammar TextProof Prop_Every Prop_Neighbours.
Import ListNotations.
Local Open Scope string_scope.
Local Open Scope list_scope.
Local Open Scope nat_scope.

(** ** Vocabulary *)
Definition nikhahit : N := 0x0e4d%N.
Definition toneSign (c : N) : Prop := oneOf "่้๊๋" c.
(** The vowel signs above and below the consonant. *)
Definition highLow (c : N) : Prop := oneOf "ัิีึืุู" c.
(** Two characters that are displayed like another spelling: SARA E twice for
    SARA AE, NIKHAHIT and SARA AA for SARA AM (its compatibility
    decomposition in Unicode), a tone mark typed before the vowel sign it
    stands above, one typed after SARA AM, and one typed twice. *)
Inductive Mistyped : N -> N -> Prop :=
| mt_ae : Mistyped 0x0e40 0x0e40
| mt_am : Mistyped nikhahit 0x0e32
| mt_early t v : toneSign t -> highLow v -> Mistyped t v
| mt_late t : toneSign t -> Mistyped 0x0e33 t
| mt_twice t : toneSign t -> Mistyped t t.
(** The spelling in order, and the one that looks the same. *)
Inductive Retyped : list N -> list N -> Prop :=
| rt_ae a b : Retyped (a ++ [0x0e41%N] ++ b) (a ++ [0x0e40%N; 0x0e40%N] ++ b)
| rt_am a b : Retyped (a ++ [0x0e33%N] ++ b) (a ++ [nikhahit; 0x0e32%N] ++ b)
| rt_early a t v b : toneSign t -> highLow v -> Retyped (a ++ [v; t] ++ b) (a ++ [t; v] ++ b)
| rt_late a t b : toneSign t -> Retyped (a ++ [t; 0x0e33%N] ++ b) (a ++ [0x0e33%N; t] ++ b)
| rt_twice a t b : toneSign t -> Retyped (a ++ [t] ++ b) (a ++ [t; t] ++ b).

(** ** Lemmas *)
Lemma tone_cases t : toneSign t -> In t [0x0e48; 0x0e49; 0x0e4a; 0x0e4b]%N.
Proof. intros H. exact H. Qed.
Lemma high_cases t : highLow t -> In t [0x0e31; 0x0e34; 0x0e35; 0x0e36; 0x0e37; 0x0e38; 0x0e39]%N.
Proof. intros H. exact H. Qed.
Definition opt (c : N) : option N := if thaiLetter c then Some c else None.
Definition okJoin (a b : option N) : bool :=
  match a, b with
  | Some a, Some b => okPair a b
  | a, b => match a with Some a => memN a stopL | None => true end && match b with Some b => memN b startL | None => true end
  end.
Lemma opens_mem c : Opens c -> memN c startL = true.
Proof. intros H. apply memN_In. exact H. Qed.
Lemma stops_mem c : Stops c -> memN c stopL = true.
Proof. intros H. apply memN_In. exact H. Qed.
Lemma joins_ok a b : Joins a b -> okJoin a b = true.
Proof.
  unfold Joins, okJoin, stopsO, opensO. destruct a as [a|], b as [b|].
  - apply okPair_iff.
  - intros (A & _). rewrite (stops_mem a A). reflexivity.
  - intros (_ & B). rewrite (opens_mem b B). reflexivity.
  - reflexivity.
Qed.
Definition okBreak (a b : option N) : bool :=
  match a with Some a => memN a stopL | None => true end && match b with Some b => memN b startL | None => true end.
Lemma break_ok a b : stopsO a -> opensO b -> okBreak a b = true.
Proof.
  intros A B. unfold okBreak. destruct a as [a|]; [rewrite (stops_mem a A)|]; destruct b as [b|]; try rewrite (opens_mem b B); reflexivity.
Qed.
Lemma mistyped_bad x y : Mistyped x y -> okJoin (opt x) (opt y) = false /\ okBreak (opt x) (opt y) = false.
Proof.
  intros M. destruct M as [| |t v T V|t T|t T]; [split; vm_compute; reflexivity|split; vm_compute; reflexivity| | |].
  - apply tone_cases in T. apply high_cases in V. cbn [In] in T, V.
    repeat (destruct T as [<-|T]); try (destruct T); repeat (destruct V as [<-|V]); try (destruct V); split; vm_compute; reflexivity.
  - apply tone_cases in T. cbn [In] in T. repeat (destruct T as [<-|T]); try (destruct T); split; vm_compute; reflexivity.
  - apply tone_cases in T. cbn [In] in T. repeat (destruct T as [<-|T]); try (destruct T); split; vm_compute; reflexivity.
Qed.

(** ** C118 *)
Lemma C118_lemma a x y b dict brk l : Mistyped x y -> dictOKo dict -> StronglySorted lt brk ->
  Forall (fun k => k <= length (a ++ [x; y] ++ b)) brk -> pronounced libthai_ct (a ++ [x; y] ++ b) dict brk l ->
  ~ inWord (a ++ [x; y] ++ b) dict (length a) -> ~ inWord (a ++ [x; y] ++ b) dict (length a + 1) -> l = [].
Proof.
  intros M D So B P N1 N2. destruct l as [|s l]; [reflexivity|exfalso]. destruct (mistyped_bad x y M) as (Bj & Bb).
  assert (Ex : nth_error (a ++ [x; y] ++ b) (length a) = Some x) by (rewrite nth_error_app2, Nat.sub_diag by lia; reflexivity).
  assert (Ey : nth_error (a ++ [x; y] ++ b) (S (length a)) = Some y).
  { rewrite nth_error_app2 by lia. replace (S (length a) - length a) with 1 by lia. reflexivity. }
  pose proof (C98_lemma (a ++ [x; y] ++ b) dict brk (s :: l) (S (length a)) So B D P ltac:(discriminate)) as H.
  specialize (H ltac:(rewrite !app_length; cbn; lia)). unfold before, after, thaiNth in H. rewrite Ex, Ey in H.
  fold (opt x) in H. fold (opt y) in H. rewrite Nat.add_1_r in N2. rewrite Nat.sub_succ, Nat.sub_0_r in H.
  destruct H as [H|[(_ & H1 & H2)|[(_ & H)|H]]].
  - apply joins_ok in H. congruence.
  - pose proof (break_ok _ _ H1 H2). congruence.
  - exact (N1 H).
  - exact (N2 H).
Qed.
(** A text with such characters has no pronunciation, whatever stands around
    them and whatever word breaks are found, unless one of them belongs to a
    word of the dictionary that is spelled so. *)
Theorem C118_lost a x y b dict brk l : Mistyped x y -> dictOKo dict -> StronglySorted lt brk ->
  Forall (fun k => k <= length (a ++ [x; y] ++ b)) brk -> pronounced libthai_ct (a ++ [x; y] ++ b) dict brk l ->
  ~ inWord (a ++ [x; y] ++ b) dict (length a) -> ~ inWord (a ++ [x; y] ++ b) dict (length a + 1) -> l = [].
Proof. exact (C118_lemma a x y b dict brk l). Qed.
Print Assumptions C118_lost.

Lemma C118_lemma2 w w' brk l : Retyped w w' -> StronglySorted lt brk -> Forall (fun k => k <= length w') brk ->
  pronounced libthai_ct w' None brk l -> l = [].
Proof.
  intros R S B P. assert (D : dictOKo None) by (intros d X; discriminate X).
  assert (N : forall u i, ~ inWord u None i) by (intros u i (d & k & v & q & X & _); discriminate X).
  assert (H : exists a x y b, Mistyped x y /\ w' = a ++ [x; y] ++ b).
  { destruct R as [a b|a b|a t v b T V|a t b T|a t b T]; eexists; eexists; eexists; eexists; (split; [|reflexivity]); constructor; assumption. }
  destruct H as (a & x & y & b & M & ->). exact (C118_lemma a x y b None brk l M D S B P (N _ _) (N _ _)).
Qed.
(** Without a dictionary, no text retyped in such a way has a pronunciation. *)
Theorem C118_retyped_lost w w' brk l : Retyped w w' -> StronglySorted lt brk -> Forall (fun k => k <= length w') brk ->
  pronounced libthai_ct w' None brk l -> l = [].
Proof. exact (C118_lemma2 w w' brk l). Qed.
Print Assumptions C118_retyped_lost.

(** One would expect spellings that look the same to be read the same, at least
    that the one has a pronunciation if the other has. *)
Theorem C118_alike_refuted : ~ (forall w w' l l', Retyped w w' -> pronounced libthai_ct w None [] l -> l <> [] ->
  pronounced libthai_ct w' None [] l' -> l' <> []).
Proof.
  intros H. assert (R : Retyped (letters "น้ำ") (letters "น้ํา")) by exact (rt_am (letters "น้") []).
  assert (P : exists s, pronounced libthai_ct (letters "น้ำ") None [] [s]) by (eexists; apply listing_pronounced; vm_compute; reflexivity).
  assert (P' : pronounced libthai_ct (letters "น้ํา") None [] []) by (apply listing_pronounced; vm_compute; reflexivity).
  destruct P as (s & P). exact (H _ _ [s] [] R P ltac:(discriminate) P' eq_refl).
Qed.
Print Assumptions C118_alike_refuted.

(** Each kind: the program prints a pronunciation for the first of a pair and
    none for the second, and reports success. *)
Definition twins : list (string * string) :=
  [("แก", "เเก"); ("น้ำ", "น้ํา"); ("พี่", "พ่ี"); ("น้ำ", "นำ้"); ("ป้า", "ป้้า")].
Example C118_case :
  map (fun p => let r := run noFiles "" ["-t"; fst p; snd p] in (rOut r, rRes r)) twins =
  map (fun p => (fst p ++ ":" ++ nl ++ snd p ++ nl, Ok 0%Z))%string
    [("แก", "แก" ++ nl ++ nl ++ "เเก:" ++ nl); ("น้ำ", "นั้ม" ++ nl ++ nl ++ "น้ํา:" ++ nl); ("พี่", "พี่" ++ nl ++ nl ++ "พ่ี:" ++ nl);
     ("น้ำ", "นั้ม" ++ nl ++ nl ++ "นำ้:" ++ nl); ("ป้า", "ป้า" ++ nl ++ nl ++ "ป้้า:" ++ nl)]%string.
Proof. vm_compute. reflexivity. Qed.
Example C118_case2 : Forall (fun p => Retyped (letters (fst p)) (letters (snd p))) twins.
Proof.
  unfold twins. repeat apply Forall_cons; try apply Forall_nil; cbn [fst snd].
  - exact (rt_ae [] (letters "ก")).
  - exact (rt_am (letters "น้") []).
  - apply (rt_early (letters "พ") 0x0e48 0x0e35 []); vm_compute; tauto.
  - apply (rt_late (letters "น") 0x0e49 []). vm_compute. tauto.
  - apply (rt_twice (letters "ป") 0x0e49 (letters "า")). vm_compute. tauto.
Qed.
(** The conditions with a dictionary, one of whose words stands before. *)
Example C118_case3 : let w := letters "กา" ++ [0x0e40; 0x0e40]%N ++ letters "ก" in
  Mistyped 0x0e40 0x0e40 /\ dictOKo (Some exDict) /\ StronglySorted lt [2] /\ Forall (fun k => k <= length w) [2] /\
  pronounced libthai_ct w (Some exDict) [2] [] /\ inWord w (Some exDict) 1 /\ ~ inWord w (Some exDict) 2 /\ ~ inWord w (Some exDict) 3.
Proof.
  cbv zeta. split; [constructor|]. split; [exact exDict_ok|]. split; [repeat constructor|]. split; [repeat constructor; vm_compute; lia|].
  change (letters "กา" ++ [0x0e40; 0x0e40]%N ++ letters "ก") with (letters "กาเเก").
  split; [apply listing_pronounced; vm_compute; reflexivity|].
  split; [exists exDict, (letters "กา"), 0%Z, 0; split; [reflexivity|]; split; [exists [(letters "กา", 0%Z)]; split; [reflexivity|]; exists [], []; split; [reflexivity|]; intros v' []|]; split; [reflexivity|vm_compute; lia]|].
  split; intros (d & k & v & s & E & (tr & Et & t1 & t2 & Ik & _) & Ef & Hs); injection E as <-; injection Et as <-;
    (assert (X : In (k, v) [(letters "กา", 0%Z)]) by (rewrite Ik; apply in_elt)); destruct X as [X|[]]; injection X as <- _;
    change (length (letters "กา")) with 2 in Hs; do 4 (destruct s as [|s]; [first [lia|vm_compute in Ef; discriminate Ef]|]); lia.
Qed.

(** Prop_Alike.v - property C100: which letters can take the place of each
    other, and what a change of the tone mark changes. *)
From Coq Require Import String List NArith ZArith Bool Lia Arith Sorted.
From Verif Require Import Base ThUni ThCons Syl Utf Lattice Dag PronDag Dict Parser.
From Verif Require Import Spec OrderProofs DictProofs Prop_Syl ParserSpec ParserFacts ParserInv ParserResult ParserListed ParserDict.
From Verif Require Import Prop_Output Prop_Parser Grammar GrammarIff GrammarWord TextGrammar TextProof Prop_Every Prop_Grammar Prop_Cycle.
Import ListNotations.
Local Open Scope string_scope.
Local Open Scope list_scope.
Local Open Scope bool_scope.
Local Open Scope nat_scope.

(** ** Vocabulary *)
(** Letters that are read alike in every text ([ex = true]), or alike but for
    the tone. *)
Definition alikeGroups (ex : bool) : list string :=
  if ex then ["ฅฆ"; "ฐถ"] else ["ฃฅฆ"; "ฐถฑ"; "ฉฌ"; "่้๊๋"].
Definition Alike (ex : bool) (x y : N) : Prop :=
  x = y \/ exists g, In g (alikeGroups ex) /\ In x (letters g) /\ In y (letters g).
(** The same syllable, but for the tone unless [ex = true]. *)
Definition SylAlike (ex : bool) (x y : Syl) : Prop :=
  iCons1 x = iCons1 y /\ iCons2 x = iCons2 y /\ vowel x = vowel y /\ eCons x = eCons y /\
  literal x = literal y /\ endPos x = endPos y /\ (ex = true -> tone x = tone y).

(** ** Letters *)
Definition pairs (ex : bool) : list (N * N) := flat_map (fun g => list_prod (letters g) (letters g)) (alikeGroups ex).
Lemma alike_pairs ex x y : Alike ex x y <-> x = y \/ In (x, y) (pairs ex).
Proof.
  unfold Alike, pairs. rewrite in_flat_map. split; (intros [E|(g & A & B)]; [auto|right; exists g]); split; try exact A.
  - apply in_prod_iff. exact B.
  - apply in_prod_iff in B. exact B.
Qed.
Lemma alike_sym ex x y : Alike ex x y -> Alike ex y x.
Proof. intros [->|(g & A & B & C)]; [left; reflexivity|right; eauto]. Qed.
Lemma alike_refl ex x : Alike ex x x.
Proof. left. reflexivity. Qed.
(** A test that the groups pass holds of all letters. *)
Lemma alike_by (f : N -> N -> bool) ex : (forall x, f x x = true) ->
  forallb (fun p => f (fst p) (snd p)) (pairs ex) = true -> forall x y, Alike ex x y -> f x y = true.
Proof.
  intros R P x y H. apply alike_pairs in H. destruct H as [->|I]; [apply R|]. rewrite forallb_forall in P. exact (P _ I).
Qed.
Definition inGroups (ex : bool) (c : N) : bool := existsb (fun g => memN c (letters g)) (alikeGroups ex).
Lemma alike_fix ex c y : inGroups ex c = false -> Alike ex c y -> c = y.
Proof.
  intros H [->|(g & A & B & C)]; [reflexivity|]. exfalso. unfold inGroups in H.
  rewrite (proj2 (existsb_exists _ _)) in H; [discriminate H|]. exists g. split; [exact A|]. apply memN_In, B.
Qed.
Ltac sweepB g := intros H; apply Bool.eqb_prop;
  refine (alike_by (fun x y => Bool.eqb (g x) (g y)) _ _ _ _ _ H); [intros z; apply Bool.eqb_reflx|
    match type of H with Alike ?e _ _ => destruct e end; vm_compute; reflexivity].
Lemma al_consonant ex x y : Alike ex x y -> consonant x = consonant y.
Proof. sweepB consonant. Qed.
Lemma al_lead ex x y : Alike ex x y -> leadVowel x = leadVowel y.
Proof. sweepB leadVowel. Qed.
Lemma al_starts ex x y : Alike ex x y -> startsSyl x = startsSyl y.
Proof. sweepB startsSyl. Qed.
Lemma al_isMark ex x y : Alike ex x y -> isMark x = isMark y.
Proof. sweepB isMark. Qed.
Lemma al_thai ex x y : Alike ex x y -> thaiChar x = thaiChar y.
Proof. sweepB thaiChar. Qed.
Lemma al_sound ex x y : Alike ex x y -> soundOf x = soundOf y.
Proof.
  intros H. apply ics_eqb_eq. refine (alike_by (fun x y => ics_eqb (soundOf x) (soundOf y)) _ _ _ _ _ H); [intros z; apply ics_eqb_eq; reflexivity|].
  destruct ex; vm_compute; reflexivity.
Qed.
Lemma al_final ex x y : Alike ex x y -> finalOf x = finalOf y.
Proof.
  intros H. apply ec_eqb_eq. refine (alike_by (fun x y => ec_eqb (finalOf x) (finalOf y)) _ _ _ _ _ H); [intros z; apply ec_eqb_eq; reflexivity|].
  destruct ex; vm_compute; reflexivity.
Qed.
Definition ClassAlike (ex : bool) (k k' : EInitConsClass) : Prop :=
  (k = LOWS <-> k' = LOWS) /\ (k = IC_INVALID <-> k' = IC_INVALID) /\ (ex = true -> k = k').
Definition MarkAlike (ex : bool) (m m' : ETone) : Prop :=
  (m = SAMAN <-> m' = SAMAN) /\ (m = T_INVALID <-> m' = T_INVALID) /\ (ex = true -> m = m').
Lemma class_refl ex k : ClassAlike ex k k. Proof. repeat split; auto. Qed.
Lemma mark_refl ex k : MarkAlike ex k k. Proof. repeat split; auto. Qed.
Lemma al_class ex x y : Alike ex x y -> ClassAlike ex (classOf x) (classOf y).
Proof.
  intros H. set (f := fun k k' => Bool.eqb (ic_eqb k LOWS) (ic_eqb k' LOWS) && Bool.eqb (ic_eqb k IC_INVALID) (ic_eqb k' IC_INVALID) && (negb ex || ic_eqb k k')).
  assert (F : f (classOf x) (classOf y) = true).
  { refine (alike_by (fun x y => f (classOf x) (classOf y)) _ _ _ _ _ H).
    - intros z. unfold f. rewrite !Bool.eqb_reflx, (proj2 (ic_eqb_eq _ _) eq_refl), orb_true_r. reflexivity.
    - subst f. destruct ex; vm_compute; reflexivity. }
  unfold f in F. rewrite !andb_true_iff, orb_true_iff in F. destruct F as ((A & B) & C). apply Bool.eqb_prop in A, B.
  split; [|split].
  - rewrite <- !(ic_eqb_eq _ LOWS), A. tauto.
  - rewrite <- !(ic_eqb_eq _ IC_INVALID), B. tauto.
  - intros ->. destruct C as [C|C]; [discriminate C|]. apply ic_eqb_eq, C.
Qed.
Lemma al_mark ex x y : Alike ex x y -> MarkAlike ex (markOf x) (markOf y).
Proof.
  intros H. unfold MarkAlike, markOf. destruct ex.
  - assert (E : x = y \/ isMark x = false /\ isMark y = false).
    { apply alike_pairs in H. destruct H as [E|I]; [auto|]. right.
      assert (P : forallb (fun p => negb (isMark (fst p)) && negb (isMark (snd p))) (pairs true) = true) by (vm_compute; reflexivity).
      rewrite forallb_forall in P. specialize (P _ I). apply andb_true_iff in P. destruct P as (A & B). apply negb_true_iff in A, B. auto. }
    destruct E as [->|(A & B)]; [tauto|]. revert A B. unfold isMark.
    destruct (N.eqb_spec x 0xe48); [subst x; discriminate|]. destruct (N.eqb_spec x 0xe49); [subst x; discriminate|]. destruct (N.eqb_spec x 0xe4a); [subst x; discriminate|].
    destruct (N.eqb_spec y 0xe48); [subst y; discriminate|]. destruct (N.eqb_spec y 0xe49); [subst y; discriminate|]. destruct (N.eqb_spec y 0xe4a); [subst y; discriminate|]. tauto.
  - split; [|split; [|discriminate]];
    destruct (x =? 0xe48)%N, (x =? 0xe49)%N, (x =? 0xe4a)%N, (y =? 0xe48)%N, (y =? 0xe49)%N, (y =? 0xe4a)%N; split; intros X; discriminate X.
Qed.
(** Lists of letters that groups do not cut. *)
Definition whole (ex : bool) (l : list N) : Prop := forall x y, Alike ex x y -> In x l -> In y l.
Lemma whole_by ex l : forallb (fun p => eqb (memN (fst p) l) (memN (snd p) l)) (pairs ex) = true -> whole ex l.
Proof.
  intros P x y H I. apply memN_In. apply memN_In in I. rewrite <- I. symmetry. apply Bool.eqb_prop.
  exact (alike_by (fun x y => Bool.eqb (memN x l) (memN y l)) ex (fun z => Bool.eqb_reflx _) P x y H).
Qed.
Lemma whole_not ex l x y : whole ex l -> Alike ex x y -> ~ In x l -> ~ In y l.
Proof. intros W H N I. apply N. exact (W _ _ (alike_sym _ _ _ H) I). Qed.
Lemma whole_nil ex : whole ex [].
Proof. intros x y _ []. Qed.

(** ** Texts *)
Definition TextAlike (ex : bool) : list N -> list N -> Prop := Forall2 (Alike ex).
Lemma inG ex k : inGroups true k || inGroups false k = false -> inGroups ex k = false.
Proof. intros H. apply orb_false_iff in H. destruct H, ex; assumption. Qed.
Lemma ta_len ex t t' : TextAlike ex t t' -> length t = length t'.
Proof. induction 1; cbn; congruence. Qed.
Lemma ta_nil ex t' : TextAlike ex [] t' -> t' = [].
Proof. intros H. inversion H. reflexivity. Qed.
Lemma ta_cons ex c t t' : TextAlike ex (c :: t) t' -> exists d u, t' = d :: u /\ Alike ex c d /\ TextAlike ex t u.
Proof. intros H. inversion H. subst. eauto. Qed.
Lemma ta_refl ex t : TextAlike ex t t.
Proof. induction t; constructor; [apply alike_refl|exact IHt]. Qed.
Lemma ta_sym ex t t' : TextAlike ex t t' -> TextAlike ex t' t.
Proof. induction 1; constructor; [apply alike_sym; assumption|assumption]. Qed.
Lemma ta_app ex a a' b b' : TextAlike ex a a' -> TextAlike ex b b' -> TextAlike ex (a ++ b) (a' ++ b').
Proof. apply Forall2_app. Qed.
Lemma ta_c ex c d t u : Alike ex c d -> TextAlike ex t u -> TextAlike ex (c :: t) (d :: u).
Proof. constructor; assumption. Qed.
Lemma al_eqb ex k x y : inGroups ex k = false -> Alike ex x y -> (x =? k)%N = (y =? k)%N.
Proof.
  intros G H. destruct (N.eqb_spec x k) as [->|A]; [symmetry; apply N.eqb_eq; symmetry; exact (alike_fix ex k y G H)|].
  symmetry. apply N.eqb_neq. intros ->. apply A. symmetry. exact (alike_fix ex k x G (alike_sym _ _ _ H)).
Qed.
Lemma ta_n ex : TextAlike ex [] [].
Proof. constructor. Qed.
Ltac ta := repeat first [assumption|apply ta_c|apply ta_n].
Ltac inv2 := repeat match goal with
  | H : TextAlike _ [] _ |- _ => apply ta_nil in H; subst
  | H : TextAlike _ (_ :: _) _ |- _ => let E := fresh "E" in apply ta_cons in H; destruct H as (? & ? & E & ? & ?); try (injection E as; subst); subst
  end.
Ltac inG := apply inG; vm_compute; reflexivity.
Ltac fixc := repeat match goal with
  | H : Alike ?e ?c ?y |- _ => is_const c; let E := fresh "E" in assert (E : c = y) by (apply (alike_fix e); [inG|exact H]); clear H; subst y
  end.
Ltac wholes := apply whole_by; match goal with |- forallb _ (pairs ?e) = true => destruct e end; vm_compute; reflexivity.

Lemma mark_like ex t t' m r : mark t = (m, r) -> TextAlike ex t t' ->
  exists m' r', mark t' = (m', r') /\ MarkAlike ex m m' /\ TextAlike ex r r'.
Proof.
  intros E H. destruct H as [|c d t t' C H]; cbn in E |- *.
  - injection E as <- <-. exists SAMAN, []. split; [reflexivity|]. split; [apply mark_refl|constructor].
  - rewrite <- (al_isMark _ _ _ C). destruct (isMark c); injection E as <- <-.
    + eexists _, _. split; [reflexivity|]. split; [apply al_mark, C|exact H].
    + eexists _, _. split; [reflexivity|]. split; [apply mark_refl|constructor; assumption].
Qed.
Lemma silent_like ex t t' : TextAlike ex t t' -> TextAlike ex (silent t) (silent t').
Proof.
  intros H. destruct H as [|c d t t' C H]; [constructor|]. destruct H as [|c1 d1 t t' C1 H]; cbn; [ta|].
  rewrite <- (al_consonant _ _ _ C), <- (al_eqb ex UTH_THANTHAKHAT c1 d1) by (assumption || inG).
  destruct (_ && _); [exact H|]. ta.
Qed.
Lemma silentIU_like ex t t' : TextAlike ex t t' -> TextAlike ex (silentIU t) (silentIU t').
Proof.
  intros H. destruct H as [|c d t t' C H]; [constructor|]. destruct H as [|c1 d1 t t' C1 H]; [cbn; ta|].
  destruct H as [|c2 d2 t t' C2 H]; cbn; [ta|].
  rewrite <- (al_consonant _ _ _ C), <- (al_eqb ex UTH_THANTHAKHAT c2 d2), <- (al_eqb ex UTH_SARA_I c1 d1), <- (al_eqb ex UTH_SARA_U c1 d1) by (assumption || inG).
  destruct (_ && _); [exact H|]. ta.
Qed.
Lemma silent2_like ex t t' : TextAlike ex t t' -> TextAlike ex (silent2 t) (silent2 t').
Proof.
  intros H. destruct H as [|c d t t' C H]; [constructor|]. destruct H as [|c1 d1 t t' C1 H]; [cbn; ta|].
  destruct H as [|c2 d2 t t' C2 H]; cbn; [ta|].
  rewrite <- (al_consonant _ _ _ C), <- (al_consonant _ _ _ C1), <- (al_eqb ex UTH_THANTHAKHAT c2 d2) by (assumption || inG).
  destruct (_ && _); [exact H|]. ta.
Qed.
Lemma if_like ex (b b' : bool) x x' y y' : b = b' -> TextAlike ex x x' -> TextAlike ex y y' -> TextAlike ex (if b then x else y) (if b' then x' else y').
Proof. intros <- A B. destruct b; assumption. Qed.
Lemma silentAny_like ex t t' : TextAlike ex t t' -> TextAlike ex (silentAny t) (silentAny t').
Proof.
  intros H. pose proof (silent_like _ _ _ H) as A. pose proof (silentIU_like _ _ _ H) as B. pose proof (silent2_like _ _ _ H) as C.
  unfold silentAny. cbv zeta. rewrite <- (ta_len _ _ _ H), <- (ta_len _ _ _ A), <- (ta_len _ _ _ B).
  apply if_like; [reflexivity|exact A|]. apply if_like; [reflexivity|exact B|exact C].
Qed.
Lemma silentOr_like ex t t' : TextAlike ex t t' -> TextAlike ex (if length (silent t) <? length t then silent t else silentIU t)
  (if length (silent t') <? length t' then silent t' else silentIU t').
Proof.
  intros H. rewrite <- (ta_len _ _ _ H), <- (ta_len _ _ _ (silent_like _ _ _ H)). apply if_like; [reflexivity|apply silent_like, H|apply silentIU_like, H].
Qed.
(** Nothing is silent here, nor there. *)
Lemma short_id (f : list N -> list N) ex t t' : (forall u, f u = u \/ length (f u) < length u) ->
  (forall u u', TextAlike ex u u' -> TextAlike ex (f u) (f u')) -> TextAlike ex t t' -> f t = t -> f t' = t'.
Proof.
  intros S F H E. destruct (S t') as [X|X]; [exact X|]. pose proof (ta_len _ _ _ (F _ _ H)) as A. pose proof (ta_len _ _ _ H) as B. rewrite E in A. lia.
Qed.
Lemma silent_short u : silent u = u \/ length (silent u) < length u.
Proof. destruct u as [|a [|b u]]; cbn; auto. destruct (_ && _); cbn; auto. Qed.
Lemma silentIU_short u : silentIU u = u \/ length (silentIU u) < length u.
Proof. destruct u as [|a [|b [|c u]]]; cbn; auto. destruct (_ && _); cbn; auto. Qed.
Lemma silent2_short u : silent2 u = u \/ length (silent2 u) < length u.
Proof. destruct u as [|a [|b [|c u]]]; cbn; auto. destruct (_ && _); cbn; auto. Qed.
Lemma silentAny_short u : silentAny u = u \/ length (silentAny u) < length u.
Proof.
  unfold silentAny. cbv zeta. destruct (Nat.ltb_spec (length (silent u)) (length u)); [auto|]. destruct (Nat.ltb_spec (length (silentIU u)) (length u)); [auto|].
  apply silent2_short.
Qed.
Lemma silent_id ex t t' : TextAlike ex t t' -> silent t = t -> silent t' = t'.
Proof. apply short_id; [exact silent_short|apply silent_like]. Qed.
Lemma silentIU_id ex t t' : TextAlike ex t t' -> silentIU t = t -> silentIU t' = t'.
Proof. apply short_id; [exact silentIU_short|apply silentIU_like]. Qed.
Lemma silentAny_id ex t t' : TextAlike ex t t' -> silentAny t = t -> silentAny t' = t'.
Proof. apply short_id; [exact silentAny_short|apply silentAny_like]. Qed.
Lemma endOrSyl_like ex t t' : TextAlike ex t t' -> endOrSyl t -> endOrSyl t'.
Proof. intros [|c d u u' C H]; [auto|]. cbn. rewrite (al_starts _ _ _ C). auto. Qed.
Lemma noRo_like ex t t' : TextAlike ex t t' -> noRo t -> noRo t'.
Proof. intros [|c d u u' C H]; [auto|]. cbn. intros X ->. apply X. apply alike_sym in C. fixc. reflexivity. Qed.
Lemma noLong_like ex t t' : TextAlike ex t t' -> noLong t -> noLong t'.
Proof. intros [|c d u u' C H]; [auto|]. cbn. intros (X & Y). apply alike_sym in C. split; intros ->; [apply X|apply Y]; fixc; reflexivity. Qed.
Lemma hd_like ex k t t' : inGroups ex k = false -> TextAlike ex t t' -> hd_error t <> Some k -> hd_error t' <> Some k.
Proof. intros G [|c d u u' C H]; [auto|]. cbn. intros X Y. injection Y as ->. apply X. f_equal. symmetry. apply (alike_fix ex); [exact G|apply alike_sym, C]. Qed.
Lemma canEnd_like ex c d : Alike ex c d -> canEnd c -> canEnd d.
Proof. intros C (A & B). split; [rewrite <- (al_consonant _ _ _ C); exact A|rewrite <- (al_final _ _ _ C); exact B]. Qed.
Lemma cons_like ex c d : Alike ex c d -> consonant c = true -> consonant d = true.
Proof. intros C. rewrite (al_consonant _ _ _ C). auto. Qed.

Lemma Final_like ex no t t' e r : whole ex no -> Final no t e r -> TextAlike ex t t' -> exists r', Final no t' e r' /\ TextAlike ex r r'.
Proof.
  intros W [c u C N] H. inv2. eexists. split; [|apply silentAny_like; eassumption]. 
  match goal with A : Alike _ c ?d |- _ => rewrite (al_final _ _ _ A); constructor; [exact (canEnd_like _ _ _ A C)|exact (whole_not _ _ _ _ W A N)] end.
Qed.
Lemma whole_oneOf ex s x y : whole ex (letters s) -> Alike ex x y -> oneOf s x -> oneOf s y.
Proof. intros W A. apply W, A. Qed.
Ltac one := match goal with A : Alike ?e ?c ?d |- oneOf ?s ?d => apply (whole_oneOf e s c d); [wholes|exact A|assumption] end.
Lemma link_like ex x y : Alike ex x y -> linkVowel x -> linkVowel y.
Proof. intros A H. unfold linkVowel in *. one. Qed.
Lemma Shared_like ex c d t t' : Shared c t -> Alike ex c d -> TextAlike ex t t' -> Shared d t'.
Proof.
  intros [x u V N|x y u C V] A H; inv2.
  - apply Sh_vowel; [eapply link_like; eassumption|]. intros (-> & X & Y). apply N.
    assert (u = []) as -> by (match goal with T : TextAlike _ u [] |- _ => apply ta_sym, ta_nil in T; exact T end).
    split; [reflexivity|]. split; [apply alike_sym in A; one|]. match goal with B : Alike _ x _ |- _ => apply alike_sym in B end. one.
  - apply Sh_cons; [eapply cons_like; eassumption|]. destruct V as [V|V]; [left; eapply link_like; eassumption|right; eapply cons_like; eassumption].
Qed.
Lemma FS_like ex no t t' e r b : whole ex no -> FinalOrShared no t e r b -> TextAlike ex t t' ->
  exists r', FinalOrShared no t' e r' b /\ TextAlike ex r r'.
Proof.
  intros W H T. destruct H as [t e r F|c r C N S O E|c v r C N O V E|c t C N S Sh].
  - destruct (Final_like _ _ _ _ _ _ W F T) as (r' & F' & T'). exists r'. split; [apply FS_final, F'|exact T'].
  - inv2. fixc. eexists. split; [|eassumption].
    match goal with A : Alike _ c ?d |- _ => rewrite (al_final _ _ _ A); apply FS_ro; [exact (canEnd_like _ _ _ A C)|exact (whole_not _ _ _ _ W A N)| |one|] end.
    + eapply silentAny_id; [|exact S]. constructor; [apply alike_refl|eassumption].
    + eapply endOrSyl_like; eassumption.
  - inv2. eexists. split; [|eassumption].
    match goal with A : Alike _ c ?d |- _ => rewrite (al_final _ _ _ A); apply FS_iu; [exact (canEnd_like _ _ _ A C)|exact (whole_not _ _ _ _ W A N)| | |] end.
    + clear V. one.
    + clear O. one.
    + eapply endOrSyl_like; eassumption.
  - inv2. eexists. split; [|constructor; eassumption].
    match goal with A : Alike _ c ?d |- _ => rewrite (al_final _ _ _ A); apply FS_shared; [exact (canEnd_like _ _ _ A C)|exact (whole_not _ _ _ _ W A N)| |] end.
    + eapply silentAny_id; eassumption.
    + eapply Shared_like; eassumption.
Qed.

(** ** Initials *)
Definition optAlike {A} (R : A -> A -> Prop) (a b : option A) : Prop :=
  match a, b with None, None => True | Some x, Some y => R x y | _, _ => False end.
Record InitAlike (ex : bool) (o o' : Initial) : Prop := {
  ia_lead : optAlike (Alike ex) (oLead o) (oLead o');
  ia_sound : oSound o = oSound o';
  ia_class : ClassAlike ex (oClass o) (oClass o');
  ia_second : oSecond o = oSecond o';
  ia_vowel : oVowel o = oVowel o'
}.
Lemma plain_like ex c d s : Alike ex c d -> InitAlike ex (plainOf c s) (plainOf d s).
Proof. intros A. constructor; cbn; auto using al_class. eapply al_sound; eassumption. Qed.
Lemma lead_class ex c c' d d' : Alike ex c c' -> Alike ex d d' ->
  ClassAlike ex (match classOf d with LOWS => classOf c | k => k end) (match classOf d' with LOWS => classOf c' | k => k end).
Proof.
  intros A B. apply al_class in A, B. destruct B as (B1 & B2 & B3).
  destruct (classOf d) eqn:E, (classOf d') eqn:E'; try exact A; try (exfalso; apply B1; reflexivity); try (exfalso; discriminate (proj1 B1 eq_refl)); try (exfalso; discriminate (proj2 B1 eq_refl));
    (split; [|split]; assumption).
Qed.
Ltac oneN := match goal with A : Alike ?e ?c ?d |- ~ oneOf ?s ?d => apply (whole_not e (letters s) c d); [wholes|exact A|assumption] end.
Ltac likes := first [reflexivity|eassumption|eapply cons_like; eassumption|eapply canEnd_like; eassumption|eapply noRo_like; eassumption|eapply noLong_like; eassumption|
  eapply endOrSyl_like; eassumption|one|oneN].
Ltac mk := constructor; cbn; first [exact I|reflexivity|eapply al_sound; eassumption|apply al_class; assumption|apply class_refl|apply lead_class; assumption|assumption].
Lemma Initial_like ex lk t t' o r : InitialAt lk t o r -> TextAlike ex t t' ->
  exists o' r', InitialAt lk t' o' r' /\ InitAlike ex o o' /\ TextAlike ex r r'.
Proof.
  intros H T. destruct H; inv2; fixc; eexists _, _.
  - split; [apply I_one; likes|]. split; [apply plain_like; assumption|assumption].
  - split; [apply I_false; likes|]. split; [apply plain_like; assumption|assumption].
  - split; [apply I_ra; [|likes]|split; [apply plain_like; assumption|assumption]].
    match goal with O : _ \/ _ |- _ => destruct O as [O|(X & O)]; [left; one|right; split; [first [exact X|reflexivity]|one]] end.
  - split; [apply I_la; likes|]. split; [apply plain_like; assumption|assumption].
  - split; [apply I_wa; likes|]. split; [apply plain_like; assumption|assumption].
  - split; [apply I_ho; [likes| |]|split; [mk|assumption]].
    + match goal with A : Alike _ ?d ?x |- classOf ?x = LOWS => apply (proj1 (al_class _ _ _ A)); assumption end.
    + intros ->. match goal with A : Alike _ ?d UTH_RO_RUA |- _ => apply alike_sym in A end. fixc. eapply noRo_like; [eassumption|]. auto.
  - split; [apply I_lead; [likes|likes|]|split; [mk|assumption]].
    intros ->. match goal with A : Alike _ ?d UTH_RO_RUA |- _ => apply alike_sym in A end. fixc. eapply noRo_like; [eassumption|]. auto.
  - split; [apply I_ru_ri; likes|]. split; [mk|assumption].
  - split; [apply I_ru_si; likes|]. split; [mk|assumption].
  - split; [apply I_ru_sari; likes|]. split; [mk|assumption].
  - split; [apply I_ru_wrue; likes|]. split; [mk|assumption].
  - split; [apply I_ru_narue; likes|]. split; [mk|assumption].
  - split; [apply I_ru_khrue; likes|]. split; [mk|ta].
  - split; [apply (I_ru_any _ _ v); likes|]. split; [mk|assumption].
  - split; [apply (I_ru_any_lead _ _ v); likes|]. split; [mk|assumption].
Qed.

(** ** Rimes *)
Lemma ma_saman ex m : MarkAlike ex SAMAN m -> m = SAMAN.
Proof. intros (A & _). apply A. reflexivity. Qed.
Ltac marks ex := repeat match goal with
  | M : mark ?t = (?m, ?r), T : TextAlike ex ?t ?t' |- _ =>
      let m' := fresh "m" in let r' := fresh "r" in let M' := fresh "M" in let A := fresh "A" in let R := fresh "R" in
      destruct (mark_like ex t t' m r M T) as (m' & r' & M' & A & R); clear M
  end; inv2; fixc; repeat match goal with A : MarkAlike _ SAMAN ?m |- _ => apply ma_saman in A; subst m end.
Lemma no_i_whole ex (s : N) : whole ex (if (s =? UTH_SARA_I)%N || (s =? UTH_SARA_II)%N then letters "ย" else []).
Proof. destruct (_ || _); [wholes|apply whole_nil]. Qed.
Ltac whl := first [apply whole_nil|apply no_i_whole|wholes].
Ltac finals ex := match goal with
  | F : Final ?no (silent ?t) ?e ?r, T : TextAlike ex ?t ?t' |- _ =>
      let F' := fresh "F" in let r' := fresh "r" in let R := fresh "R" in
      destruct (Final_like ex no _ _ e r ltac:(whl) F (silent_like _ _ _ T)) as (r' & F' & R); clear F
  | F : Final ?no ?t ?e ?r, T : TextAlike ex ?t ?t' |- _ =>
      let F' := fresh "F" in let r' := fresh "r" in let R := fresh "R" in
      destruct (Final_like ex no _ _ e r ltac:(whl) F T) as (r' & F' & R); clear F
  | F : FinalOrShared ?no (silent ?t) ?e ?r ?b, T : TextAlike ex ?t ?t' |- _ =>
      let F' := fresh "F" in let r' := fresh "r" in let R := fresh "R" in
      destruct (FS_like ex no _ _ e r b ltac:(whl) F (silent_like _ _ _ T)) as (r' & F' & R); clear F
  | F : FinalOrShared ?no ?t ?e ?r ?b, T : TextAlike ex ?t ?t' |- _ =>
      let F' := fresh "F" in let r' := fresh "r" in let R := fresh "R" in
      destruct (FS_like ex no _ _ e r b ltac:(whl) F T) as (r' & F' & R); clear F
  end.
Ltac fin := first [eassumption|apply silent_like; eassumption|apply silentOr_like; eassumption|apply mark_refl|apply ta_n|ta].
Ltac hd := match goal with T : TextAlike ?e ?r ?r' |- hd_error ?r' <> Some ?k => apply (hd_like e k r r'); [inG|exact T|assumption] end.
Lemma signs_fix ex s (v : EVowel) l x : In (s, v) l -> forallb (fun p => negb (inGroups true (fst p) || inGroups false (fst p))) l = true ->
  Alike ex s x -> s = x.
Proof. intros I H. rewrite forallb_forall in H. specialize (H _ I). apply (alike_fix ex). apply inG. apply negb_true_iff in H. exact H. Qed.
Lemma ran_like ex o o' r r' u : InitAlike ex o o' -> TextAlike ex r r' -> (if ics_eqb (oSound o) RA then r else silent r) = UTH_RO_RUA :: u ->
  exists u', (if ics_eqb (oSound o') RA then r' else silent r') = UTH_RO_RUA :: u' /\ TextAlike ex u u'.
Proof.
  intros O T E. pose proof (if_like ex _ _ _ _ _ _ (f_equal (fun s => ics_eqb s RA) (ia_sound _ _ _ O)) T (silent_like _ _ _ T)) as X.
  cbv beta in X. rewrite E in X. apply ta_cons in X. destruct X as (d & u' & -> & A & B). fixc. eauto.
Qed.
Lemma bare_like ex t t' : TextAlike ex t t' -> match t with [] => True | c :: _ => leadVowel c = true end ->
  match t' with [] => True | c :: _ => leadVowel c = true end.
Proof. intros [|c d u u' C H]; [auto|]. rewrite (al_lead _ _ _ C). auto. Qed.
Lemma Rime_like ex lk o o' t t' v e m r b : Rime lk o t v e m r b -> InitAlike ex o o' -> TextAlike ex t t' ->
  exists m' r', Rime lk o' t' v e m' r' b /\ MarkAlike ex m m' /\ TextAlike ex r r'.
Proof.
  intros H O T. destruct H; inv2; fixc.
  all: try match goal with I : In (_, _) _, A : Alike _ ?s ?x |- _ =>
    let E := fresh in pose proof (signs_fix _ _ _ _ _ I eq_refl A) as E; clear A; subst x end.
  all: marks ex.
  all: try finals ex.
  - eexists _, _. split; [eapply R_ua; fin|split; fin].
  - eexists _, _. split; [eapply R_uaa; [fin|hd]|split; fin].
  - eexists _, _. split; [eapply R_an; fin|split; fin].
  - eexists _, _. split; [eapply R_an_marked; [fin| |fin]|split; fin]. intros ->.
    match goal with N : ?m <> SAMAN, A : MarkAlike _ ?m SAMAN |- _ => exact (N (proj2 (proj1 A) eq_refl)) end.
  - eexists _, _. split; [eapply R_above_open; fin|split; fin].
  - eexists _, _. split; [eapply R_above_shared; [fin|fin|eapply silentIU_id; eassumption|fin]|split; fin].
  - eexists _, _. split; [eapply R_above_final; [fin|fin|eapply silentIU_id; eassumption|fin]|split; fin].
  - eexists _, _. split; [eapply R_uee; fin|split; fin].
  - eexists _, _. split; [eapply R_uee_bare; [fin|eapply bare_like; eassumption]|split; fin].
  - eexists _, _. split; [eapply R_uee_final; fin|split; fin].
  - eexists _, _. split; [eapply R_au; fin|split; fin].
  - eexists _, _. split; [eapply R_a; fin|split; fin].
  - eexists _, _. split; [eapply R_aa; fin|split; fin].
  - eexists _, _. split; [eapply R_aa_final; fin|split; fin].
  - eexists _, _. split; [eapply R_am; fin|split; fin].
  - eexists _, _. split; [eapply R_ua_final; fin|split; fin].
  - eexists _, _. split; [eapply R_auu; fin|split; fin].
  - eexists _, _. split; [eapply R_auu_final; fin|split; fin].
  - eexists _, _. split; [eapply R_on; [fin|]|split; fin]. rewrite <- (ia_sound _ _ _ O). assumption.
  - match goal with E : (if _ then _ else _) = _, R : TextAlike _ r _ |- _ => destruct (ran_like _ _ _ _ _ _ O R E) as (y & Ey & Ty) end.
    eexists _, _. split; [eapply R_ran; fin|split; fin].
  - match goal with E : (if _ then _ else _) = _, R : TextAlike _ r _ |- _ => destruct (ran_like _ _ _ _ _ _ O R E) as (y & Ey & Ty) end.
    finals ex. eexists _, _. split; [eapply R_rac; [fin|fin|eapply silent_id; eassumption|fin]|split; fin].
  - eexists _, _. split; [eapply R_o; [fin| | |fin|fin]|split; fin]; [rewrite <- (ia_vowel _ _ _ O); assumption|rewrite <- (ia_second _ _ _ O); assumption].
  - eexists _, _. split; [eapply R_ru; [fin| |likes|oneN]|split; fin]. rewrite <- (ia_vowel _ _ _ O). assumption.
  - eexists _, _. split; [eapply R_ru_final; [fin| |fin]|split; fin]. rewrite <- (ia_vowel _ _ _ O). assumption.
Qed.

Lemma ledA_like ex o o' : InitAlike ex o o' -> notLedA o -> notLedA o'.
Proof.
  intros O [X|X]; [left|right].
  - pose proof (ia_lead _ _ _ O) as L. rewrite X in L. destruct (oLead o'); [contradiction|reflexivity].
  - rewrite <- (ia_sound _ _ _ O). exact X.
Qed.
Lemma notYa_like ex c c' r r' : Alike ex c c' -> TextAlike ex r r' -> ~ (c = UTH_YO_YAK /\ endOrSyl r) -> ~ (c' = UTH_YO_YAK /\ endOrSyl r').
Proof.
  intros A R N (-> & E). apply N. apply alike_sym in A. fixc. split; [reflexivity|]. eapply endOrSyl_like; [apply ta_sym|]; eassumption.
Qed.
Lemma RimeE_like ex o o' t t' v e m r b : RimeE o t v e m r b -> InitAlike ex o o' -> TextAlike ex t t' ->
  exists m' r', RimeE o' t' v e m' r' b /\ MarkAlike ex m m' /\ TextAlike ex r r'.
Proof.
  intros H O T. destruct H; inv2; fixc; marks ex; try finals ex.
  - eexists _, _. split; [eapply E_end; eapply ledA_like; eassumption|split; fin].
  - eexists _, _. split; [eapply E_end_marked|split; [|fin]]; [|apply al_mark; assumption].
    match goal with A : Alike _ c ?d |- _ => rewrite <- (al_isMark _ _ _ A); assumption end.
  - eexists _, _. split; [eapply E_oe_final; fin|split; fin].
  - eexists _, _. split; [eapply E_ia; fin|split; fin].
  - eexists _, _. split; [eapply E_iaa; [fin|hd]|split; fin].
  - eexists _, _. split; [eapply E_iaa_final; [fin|hd|fin]|split; fin].
  - eexists _, _. split; [eapply E_uea; fin|split; fin].
  - eexists _, _. split; [eapply E_ueaa; [fin|hd]|split; fin].
  - eexists _, _. split; [eapply E_ueaa_final; [fin|hd|fin]|split; fin].
  - eexists _, _. split; [eapply E_e_final; fin|split; fin].
  - eexists _, _. split; [eapply E_oe; fin|split; fin].
  - eexists _, _. split; [eapply E_oee; [fin|hd]|split; fin].
  - eexists _, _. split; [eapply E_e; [fin|eapply ledA_like; eassumption]|split; fin].
  - eexists _, _. split; [eapply E_au; fin|split; fin].
  - eexists _, _. split; [eapply E_ao; [fin|hd]|split; fin].
  - eexists _, _. split; [eapply E_oey; [fin|likes]|split; fin].
  - match goal with A : Alike _ c ?d, R : TextAlike _ r ?u |- _ => rename A into Ac, R into Rr; set (d' := d) in *; set (u' := u) in * end.
    eexists _, _. split; [eapply E_ee; [fin|eapply ledA_like; eassumption|oneN| |eapply notYa_like; eassumption]|split; [fin|apply silent_like; ta]].
    intros ->. match goal with S : ?m = SAMAN -> ~ oneOf "ิีื็" c, A : MarkAlike _ ?m SAMAN |- _ => specialize (S (proj2 (proj1 A) eq_refl)) end. oneN.
  - match goal with A : Alike _ c ?d, R : TextAlike _ r ?u |- _ => rename A into Ac, R into Rr end.
    match goal with F : FinalOrShared _ (silent (c :: r)) _ _ _ |- _ =>
      destruct (FS_like ex _ _ _ _ _ _ ltac:(whl) F (silent_like _ _ _ (ta_c _ _ _ _ _ Ac Rr))) as (y & F' & Ty) end.
    eexists _, _. split; [eapply E_ee_final; [fin|eapply ledA_like; eassumption| |eapply notYa_like; eassumption|fin]|split; fin].
    intros ->. apply alike_sym in Ac. fixc. congruence.
Qed.
Lemma RimeL_like ex l t t' v e m r b : RimeL l t v e m r b -> TextAlike ex t t' ->
  inGroups ex l = false /\ exists m' r', RimeL l t' v e m' r' b /\ MarkAlike ex m m' /\ TextAlike ex r r'.
Proof.
  intros H T. destruct H; marks ex; try finals ex; (split; [inG|]).
  - eexists _, _. split; [eapply L_ae; fin|split; fin].
  - eexists _, _. split; [eapply L_ae_final; fin|split; fin].
  - eexists _, _. split; [eapply L_aee; [fin|hd|hd]|split; fin].
  - eexists _, _. split; [eapply L_aee_final; fin|split; fin].
  - eexists _, _. split; [eapply L_o; fin|split; fin].
  - eexists _, _. split; [eapply L_oo; [fin|hd]|split; fin].
  - eexists _, _. split; [eapply L_oo_final; [fin|eapply silentIU_id; eassumption|fin]|split; fin].
  - eexists _, _. split; [eapply L_ai; fin|split; fin].
  - eexists _, _. split; [eapply L_aiy; [fin|likes]|split; fin].
  - eexists _, _. split; [eapply L_aimuan; fin|split; fin].
Qed.

(** ** Syllables *)
Definition SaidAlike (ex : bool) (x y : Said) : Prop :=
  saSound x = saSound y /\ saSecond x = saSecond y /\ saVowel x = saVowel y /\ saFinal x = saFinal y /\ (ex = true -> saTone x = saTone y).
Lemma said_refl ex x : SaidAlike ex x x.
Proof. repeat split. Qed.
Lemma toned_like ex k k' m m' d s t : toned k m d s t -> ClassAlike ex k k' -> MarkAlike ex m m' ->
  exists t', toned k' m' d s t' /\ (ex = true -> t = t').
Proof.
  intros H K M. destruct ex eqn:E.
  - exists t. destruct K as (_ & _ & K), M as (_ & _ & M). rewrite <- (K eq_refl), <- (M eq_refl). auto.
  - assert (V : k <> IC_INVALID /\ m <> T_INVALID).
    { destruct H as [H|((A & B) & _)]; [destruct H; split; try intros X; try discriminate X; intuition congruence|].
      split; intros ->; [destruct A as [A|[A|A]]|destruct B as [B|B]]; discriminate. }
    exists (ToneFromWritten k' m' d s). split; [|discriminate]. apply toned_ok; [| |reflexivity]; [rewrite <- (proj1 (proj2 K))|rewrite <- (proj1 (proj2 M))]; tauto.
Qed.
Lemma SaysA_like ex c d p : SaysA c p -> Alike ex c d -> exists p', SaysA d p' /\ SaidAlike ex p p'.
Proof.
  intros [t T] A. destruct (toned_like ex _ (classOf d) _ SAMAN _ _ _ T (al_class _ _ _ A) (mark_refl _ _)) as (t' & T' & E).
  eexists. split; [constructor; exact T'|]. repeat split; cbn; auto. eapply al_sound; eassumption.
Qed.
Lemma SaysAuu_like ex c d p : SaysAuu c p -> Alike ex c d -> exists p', SaysAuu d p' /\ SaidAlike ex p p'.
Proof.
  intros [t T] A. destruct (toned_like ex _ (classOf d) _ SAMAN _ _ _ T (al_class _ _ _ A) (mark_refl _ _)) as (t' & T' & E).
  eexists. split; [constructor; exact T'|]. repeat split; cbn; auto. eapply al_sound; eassumption.
Qed.
Lemma Implied_like ex t t' p x r : Implied t p x r -> TextAlike ex t t' ->
  exists p' x' r', Implied t' p' x' r' /\ optAlike (SaidAlike ex) p p' /\ SaidAlike ex x x' /\ TextAlike ex r r'.
Proof.
  intros H T. destruct H; inv2; fixc.
  - match goal with S : SaysAuu c p, A : Alike _ c ?d |- _ => destruct (SaysAuu_like _ _ _ _ S A) as (p' & S' & P') end.
    eexists (Some p'), _, _. split; [eapply M_aura; [one| | |exact S']|split; [exact P'|split; [apply said_refl|ta]]].
    + match goal with A : Alike _ x ?d |- _ => rewrite <- (al_starts _ _ _ A); assumption end.
    + intros ->. match goal with A : Alike _ x _ |- _ => apply alike_sym in A end. fixc. congruence.
  - eexists (Some p), _, _. split; [eapply M_bori; assumption|split; [apply said_refl|split; [apply said_refl|ta]]].
  - eexists (Some p), _, _. split; [eapply M_jora; assumption|split; [apply said_refl|split; [apply said_refl|ta]]].
  - match goal with X : _ \/ _ |- _ => destruct X as [->| ->] end; fixc;
      (eexists None, p, _; split; [eapply M_bodi; [auto|assumption]|split; [exact I|split; [apply said_refl|ta]]]); apply alike_refl.
  - match goal with S : SaysA c p, A : Alike _ c ?d |- _ => destruct (SaysA_like _ _ _ _ S A) as (p' & S' & P') end.
    eexists None, p', _. split; [eapply M_a; [likes| |exact S']|split; [exact I|split; [exact P'|ta]]].
    match goal with A : Alike _ x ?d |- _ => rewrite <- (al_starts _ _ _ A); assumption end.
  - match goal with S : SaysA c p, A : Alike _ c ?d |- _ => destruct (SaysA_like _ _ _ _ S A) as (p' & S' & P') end.
    eexists (Some p'), _, _. split; [eapply M_rue; [likes|oneN| | |exact S']|split; [exact P'|split; [apply said_refl|ta]]].
    + apply (noLong_like ex (x :: t)); [ta|assumption].
    + intros (X & Y). match goal with N : ~ (oneOf _ c /\ _) |- _ => apply N end.
      repeat match goal with A : Alike _ _ _ |- _ => apply alike_sym in A; revert A end. intros. split; [one|eapply canEnd_like; eassumption].
Qed.
Lemma RimeRu_like ex t t' v e r b : RimeRu t v e r b -> TextAlike ex t t' -> exists r', RimeRu t' v e r' b /\ TextAlike ex r r'.
Proof.
  intros H T. destruct H.
  - inv2. eexists. split; [apply U_end|ta].
  - inv2. match goal with X : _ \/ _ |- _ => destruct X as [->| ->] end; fixc; (eexists; split; [apply U_long; auto|assumption]).
  - inv2. match goal with A : Alike _ c ?d |- _ => rename A into Ac end. eexists. split; [apply U_open; [likes|]|ta].
    intros (X & Y). match goal with N : ~ (finalOf c <> _ /\ _) |- _ => apply N end. split; [rewrite (al_final _ _ _ Ac); exact X|].
    eapply endOrSyl_like; [apply ta_sym|]; eassumption.
  - match goal with F : FinalOrShared _ _ _ _ _ |- _ => destruct (FS_like ex _ _ _ _ _ _ ltac:(whl) F T) as (y & F' & Ty) end. inv2.
    match goal with A : Alike _ c ?d |- _ => rename A into Ac end. eexists. split; [|exact Ty].
    match goal with |- RimeRu (?d :: ?u) _ _ _ _ => replace (memN c (letters "ณทษ")) with (memN d (letters "ณทษ")) end.
    + apply U_closed; [eapply endOrSyl_like; eassumption|exact F'].
    + apply eq_true_iff_eq. rewrite !memN_In. split; intros X; [apply alike_sym in Ac|]; (eapply (whole_by ex (letters "ณทษ")); [destruct ex; vm_compute; reflexivity|exact Ac|exact X]).
Qed.
Lemma Sounds_like ex o o' v e m m' x : Sounds o v e m x -> InitAlike ex o o' -> MarkAlike ex m m' -> exists x', Sounds o' v e m' x' /\ SaidAlike ex x x'.
Proof.
  intros [t T] O M. destruct (toned_like ex _ (oClass o') _ m' _ _ _ T (ia_class _ _ _ O) M) as (t' & T' & E).
  eexists. split; [constructor; exact T'|]. repeat split; cbn; auto; [apply (ia_sound _ _ _ O)|apply (ia_second _ _ _ O)].
Qed.
Lemma Leads_like ex o o' p : Leads o p -> InitAlike ex o o' -> exists p', Leads o' p' /\ optAlike (SaidAlike ex) p p'.
Proof.
  intros [E|c p' E S] O; pose proof (ia_lead _ _ _ O) as L; rewrite E in L; destruct (oLead o') as [d|] eqn:E'; try contradiction.
  - exists None. split; [apply Le_none, E'|exact I].
  - destruct (SaysA_like _ _ _ _ S L) as (q & Sq & Q). exists (Some q). split; [exact (Le_some _ _ _ E' Sq)|exact Q].
Qed.
Lemma ru_fix ex c d : isRu c -> Alike ex c d -> d = c.
Proof. intros [->| ->] A; fixc; reflexivity. Qed.
Lemma Reads_like ex lk t t' p x r b : Reads lk t p x r b -> TextAlike ex t t' ->
  exists p' x' r', Reads lk t' p' x' r' b /\ optAlike (SaidAlike ex) p p' /\ SaidAlike ex x x' /\ TextAlike ex r r'.
Proof.
  intros H T. destruct H as [t o t1 v e m r b p x A B C D|t o t1 v e m r b p x A B C D|l t o t1 v e m r b p x A B C D|t p x r A|c t v e r b tn A B C].
  - destruct (Initial_like _ _ _ _ _ _ A T) as (o' & t1' & A' & O & T1). destruct (Rime_like _ _ _ _ _ _ _ _ _ _ _ B O T1) as (m' & r' & B' & M & R).
    destruct (Leads_like _ _ _ _ C O) as (p' & C' & P). destruct (Sounds_like _ _ _ _ _ _ _ _ D O M) as (x' & D' & X).
    exists p', x', r'. split; [exact (Rd_plain _ _ _ _ _ _ _ _ _ _ _ A' B' C' D')|auto].
  - inv2. fixc. match goal with Y : TextAlike _ t _ |- _ => rename Y into Tt end.
    destruct (Initial_like _ _ _ _ _ _ A Tt) as (o' & t1' & A' & O & T1). destruct (RimeE_like _ _ _ _ _ _ _ _ _ _ B O T1) as (m' & r' & B' & M & R).
    destruct (Leads_like _ _ _ _ C O) as (p' & C' & P). destruct (Sounds_like _ _ _ _ _ _ _ _ D O M) as (x' & D' & X).
    exists p', x', r'. split; [exact (Rd_e _ _ _ _ _ _ _ _ _ _ _ A' B' C' D')|auto].
  - inv2. match goal with Y : TextAlike _ t _ |- _ => rename Y into Tt end.
    destruct (Initial_like _ _ _ _ _ _ A Tt) as (o' & t1' & A' & O & T1). destruct (RimeL_like _ _ _ _ _ _ _ _ _ B T1) as (G & m' & r' & B' & M & R).
    destruct (Leads_like _ _ _ _ C O) as (p' & C' & P). destruct (Sounds_like _ _ _ _ _ _ _ _ D O M) as (x' & D' & X).
    match goal with Y : Alike _ l ?z |- _ => apply (alike_fix ex) in Y; [subst z|exact G] end.
    exists p', x', r'. split; [exact (Rd_lead _ _ _ _ _ _ _ _ _ _ _ _ A' B' C' D')|auto].
  - destruct (Implied_like _ _ _ _ _ _ A T) as (p' & x' & r' & A' & P & X & R). exists p', x', r'. split; [exact (Rd_implied _ _ _ _ _ A')|auto].
  - inv2. match goal with Y : TextAlike _ t _ |- _ => rename Y into Tt end. match goal with Y : Alike _ c ?z |- _ => apply (ru_fix _ _ _ A) in Y; subst z end.
    destruct (RimeRu_like _ _ _ _ _ _ _ B Tt) as (r' & B' & R). eexists None, _, r'. split; [exact (Rd_ru _ _ _ _ _ _ _ _ A B' C)|].
    split; [exact I|]. split; [apply said_refl|exact R].
Qed.

(** ** Readings of a text *)
Lemma syl_refl ex v : SylAlike ex v v.
Proof. repeat split. Qed.
Definition MoveAlike (ex : bool) (a b : Z * Syl) : Prop := fst a = fst b /\ SylAlike ex (snd a) (snd b).
Lemma moves_refl ex l : Forall2 (MoveAlike ex) l l.
Proof. induction l; constructor; [split; [reflexivity|apply syl_refl]|assumption]. Qed.
Lemma syls_refl ex l : Forall2 (SylAlike ex) l l.
Proof. induction l; constructor; [apply syl_refl|assumption]. Qed.
Lemma al_foreign ex x y : Alike ex x y -> thaiChar x = false -> x = y.
Proof.
  intros H F. apply alike_pairs in H. destruct H as [E|I]; [exact E|]. exfalso.
  assert (P : forallb (fun p => thaiChar (fst p)) (pairs ex) = true) by (destruct ex; vm_compute; reflexivity).
  rewrite forallb_forall in P. specialize (P _ I). cbn [fst] in P. congruence.
Qed.
Lemma ta_nth ex w w' i c : TextAlike ex w w' -> nth_error w i = Some c -> exists d, nth_error w' i = Some d /\ Alike ex c d.
Proof.
  intros H. revert i. induction H as [|x y w w' A H IH]; intros [|i] E; try discriminate E; cbn in *; [injection E as ->; eauto|auto].
Qed.
Lemma ta_nth0 ex w w' i : TextAlike ex w w' -> nth_error w i = None -> nth_error w' i = None.
Proof. intros H E. apply nth_error_None. rewrite <- (ta_len _ _ _ H). apply nth_error_None, E. Qed.
Lemma ta_firstn ex w w' n : TextAlike ex w w' -> TextAlike ex (firstn n w) (firstn n w').
Proof. intros H. revert n. induction H; intros [|n]; cbn; try apply ta_n. apply ta_c; [assumption|apply IHForall2]. Qed.
Lemma ta_skipn ex w w' n : TextAlike ex w w' -> TextAlike ex (skipn n w) (skipn n w').
Proof. intros H. revert n. induction H as [|x y w w' A H IH]; intros [|n]; cbn; try apply ta_n; [apply ta_c; assumption|apply IH]. Qed.
Lemma ta_between ex w w' p q : TextAlike ex w w' -> TextAlike ex (between w p q) (between w' p q).
Proof. intros H. apply ta_firstn, ta_skipn, H. Qed.
Lemma thaiAt_like ex w w' p : TextAlike ex w w' -> thaiAt w p -> thaiAt w' p.
Proof.
  intros H (c & E & T). destruct (ta_nth _ _ _ _ _ H E) as (d & E' & A). exists d. split; [exact E'|]. rewrite <- (al_thai _ _ _ A). exact T.
Qed.
Lemma thaiAt_not ex w w' p : TextAlike ex w w' -> ~ thaiAt w p -> ~ thaiAt w' p.
Proof. intros H N T. apply N. exact (thaiAt_like _ _ _ _ (ta_sym _ _ _ H) T). Qed.
Lemma wordTo_like ex w w' brk p q : TextAlike ex w w' -> wordTo w brk p q -> wordTo w' brk p q.
Proof.
  intros H [A B C D E]. constructor; [exact A|rewrite <- (ta_len _ _ _ H); exact B| |exact D|].
  - intros k K. exact (thaiAt_like _ _ _ _ H (C k K)).
  - rewrite <- (ta_len _ _ _ H). destruct E as [E|[E|E]]; [auto|auto|right; right; exact (thaiAt_not _ _ _ _ H E)].
Qed.
Lemma foreign_same ex (t t' : list N) : TextAlike ex t t' -> Forall (fun c => thaiChar c = false) t -> t = t'.
Proof.
  induction 1 as [|x y t t' A H IH]; intros F; [reflexivity|]. inversion F; subst. rewrite (al_foreign _ _ _ A) by assumption. f_equal. auto.
Qed.
Lemma foreignTo_like ex w w' p q : TextAlike ex w w' -> foreignTo w p q -> foreignTo w' p q /\ between w p q = between w' p q.
Proof.
  intros H [A B C D]. split.
  - constructor; [exact A|rewrite <- (ta_len _ _ _ H); exact B| |].
    + intros k K. exact (thaiAt_not _ _ _ _ H (C k K)).
    + rewrite <- (ta_len _ _ _ H). destruct D as [D|D]; [auto|right; exact (thaiAt_like _ _ _ _ H D)].
  - apply (foreign_same ex); [apply ta_between, H|]. apply Forall_forall. intros c I. apply In_nth_error in I. destruct I as (i & E).
    assert (L : i < q - p). { rewrite <- (between_len w p q) by lia. apply nth_error_Some. congruence. }
    rewrite between_nth in E by lia. destruct (thaiChar c) eqn:T; [|reflexivity]. exfalso. apply (C (p + i)); [lia|]. exists c. auto.
Qed.
Lemma namePlace_like ex w w' p : TextAlike ex w w' -> namePlace w p -> namePlace w' p.
Proof.
  intros H [->|(c & E & K)]; [left; reflexivity|right]. destruct (ta_nth _ _ _ _ _ H E) as (d & E' & A). exists d. split; [exact E'|].
  rewrite <- (alike_fix ex c d); [exact K| |exact A]. destruct K as [->| ->]; inG.
Qed.
Lemma seen_like ex w w' p q : TextAlike ex w w' -> seenTo w' p q = seenTo w p q.
Proof.
  intros H. unfold seenTo. destruct (nth_error w p) as [c|] eqn:E.
  - destruct (ta_nth _ _ _ _ _ H E) as (d & -> & A). replace (memN d (letters "แโใไ")) with (memN c (letters "แโใไ")); [reflexivity|].
    apply eq_true_iff_eq. rewrite !memN_In. split; intros X; [|apply alike_sym in A]; (eapply (whole_by ex (letters "แโใไ")); [destruct ex; vm_compute; reflexivity|exact A|exact X]).
  - rewrite (ta_nth0 _ _ _ _ H E). reflexivity.
Qed.
Lemma tacit_like ex w w' p : TextAlike ex w w' -> tacit w p -> tacit w' p.
Proof.
  intros H (E & N). split.
  - destruct (ta_nth _ _ _ _ _ H E) as (d & E' & A). rewrite E'. f_equal. symmetry. apply (alike_fix ex); [inG|exact A].
  - intros X. apply N. exact (namePlace_like _ _ _ _ (ta_sym _ _ _ H) X).
Qed.
Lemma name_like ex c d e : Alike ex c d -> SylAlike ex (nameOf c e) (nameOf d e).
Proof.
  intros A. unfold nameOf. repeat split; cbn; [eapply al_sound; eassumption|]. intros X. rewrite (proj2 (proj2 (al_class _ _ _ A)) X). reflexivity.
Qed.
Lemma names_like ex g g' p : TextAlike ex g g' -> Forall2 (SylAlike ex) (names p g) (names p g').
Proof.
  intros H. revert p. induction H as [|c d g g' A H IH]; intros p; [constructor|]. destruct H as [|c1 d1 g g' A1 H]; cbn [names].
  - constructor; [apply name_like, A|constructor].
  - constructor; [apply name_like, A|apply IH].
Qed.
Lemma ta_split ex a b t' : TextAlike ex (a ++ b) t' -> exists a' b', t' = a' ++ b' /\ TextAlike ex a a' /\ TextAlike ex b b'.
Proof.
  intros H. apply Forall2_app_inv_l in H. destruct H as (a' & b' & A & B & ->). eauto.
Qed.
Lemma Spelled_like ex p t t' s r : Spelled p t s r -> TextAlike ex t t' ->
  exists s' r', Spelled p t' s' r' /\ Forall2 (SylAlike ex) s s' /\ TextAlike ex r r'.
Proof.
  intros H T. destruct H as [g r N L F|r|c C].
  - apply ta_split in T. destruct T as (g' & y & -> & G & Y). inv2. match goal with A : Alike _ fullStop ?d |- _ => pose proof (alike_fix ex fullStop d ltac:(inG) A); subst d end.
    eexists _, _. split; [apply Spl_group|split; [apply names_like, G|eassumption]].
    + intros ->. apply N. apply ta_sym, ta_nil in G. exact G.
    + rewrite <- (ta_len _ _ _ G). exact L.
    + clear -G F. induction G; [constructor|]. inversion F; subst. constructor; [eapply cons_like; eassumption|auto].
  - inv2. match goal with A : Alike _ fullStop ?d |- _ => pose proof (alike_fix ex fullStop d ltac:(inG) A); subst d end.
    eexists _, _. split; [apply Spl_stop|split; [apply syls_refl|eassumption]].
  - inv2. eexists _, _. split; [apply Spl_one; eapply cons_like; eassumption|split; [|ta]]. constructor; [apply name_like; assumption|constructor].
Qed.

Lemma along_like ex p s s' : Forall2 (SylAlike ex) s s' -> Forall2 (MoveAlike ex) (along p s) (along p s').
Proof.
  intros H. revert p. induction H as [|x y s s' A H IH]; intros p; [constructor|]. cbn. constructor; [split; [reflexivity|exact A]|].
  destruct A as (_ & _ & _ & _ & _ & E & _). rewrite <- E. apply IH.
Qed.
Lemma sylAt_like ex x y e : SaidAlike ex x y -> SylAlike ex (sylAt x e) (sylAt y e).
Proof. intros (A & B & C & D & E). repeat split; assumption. Qed.
Lemma moves_like ex p a a' x x' e : optAlike (SaidAlike ex) a a' -> SaidAlike ex x x' -> Forall2 (MoveAlike ex) (moves p a x e) (moves p a' x' e).
Proof.
  intros A X. destruct a as [a|], a' as [a'|]; try contradiction; cbn; repeat (constructor; [split; [reflexivity|apply sylAt_like; assumption]|]); constructor.
Qed.
Lemma extend_like ex p es es' : Forall2 (MoveAlike ex) es es' -> Forall2 (MoveAlike ex) (extend p es) (extend p es').
Proof.
  induction 1 as [|a b es es' (A & B) H IH]; [constructor|]. cbn. constructor; [|exact IH]. destruct B as (B1 & B2 & B3 & B4 & B5 & B6 & B7).
  rewrite <- B6. destruct (_ =? _)%Z; cbn; (split; [exact A|]); repeat split; assumption.
Qed.

Section Reading.
Variable ex : bool.
Variable D : list N -> list SylString -> Prop.
Variables w w' : list N.
Variable brk : list nat.
Hypothesis like : TextAlike ex w w'.
Hypothesis words : forall p q strs, D (between w p q) strs <-> D (between w' p q) strs.
Notation n := (length w).
Lemma listed_like p q k r strs : q <= n -> listedWord D (between w p q) k r strs ->
  exists k' r', listedWord D (between w' p q) k' r' strs /\ length k' = length k.
Proof.
  intros L ((E & O & Dk) & N & F). pose proof (ta_between ex w w' p q like) as T. rewrite E in T. apply ta_split in T. destruct T as (k' & r' & E' & K & R).
  exists k', r'. split; [|symmetry; exact (ta_len _ _ _ K)]. split; [split; [exact E'|split]|split].
  - exact (endOrSyl_like _ _ _ R O).
  - assert (X : forall (u : list BinNums.N) a b, length u = n -> between u p q = a ++ b -> a = between u p (p + length a)).
    { intros u a b Lu X. unfold between in *. replace (p + length a - p) with (length a) by lia.
      assert (Y : firstn (length a) (firstn (q - p) (skipn p u)) = a) by (rewrite X, firstn_app, Nat.sub_diag, firstn_all, app_nil_r; reflexivity).
      rewrite firstn_firstn in Y. rewrite <- Y at 1. f_equal. apply Nat.min_l.
      apply (f_equal (@length BinNums.N)) in X. rewrite firstn_length, app_length in X. lia. }
    rewrite (X w' k' r' (eq_sym (ta_len _ _ _ like)) E'). rewrite (X w k r eq_refl E) in Dk. rewrite (ta_len _ _ _ K) in Dk. apply words, Dk.
  - intros ->. apply N. apply ta_sym, ta_nil in K. exact K.
  - intros I. apply F. apply In_nth_error in I. destruct I as (i & I). destruct (ta_nth _ _ _ _ _ (ta_sym _ _ _ K) I) as (d & E2 & A).
    rewrite (alike_fix ex fullStop d ltac:(inG) A). exact (nth_error_In _ _ E2).
Qed.
End Reading.

Section Reading2.
Variable ex : bool.
Variable D : list N -> list SylString -> Prop.
Variables w w' : list N.
Variable brk : list nat.
Hypothesis like : TextAlike ex w w'.
Hypothesis words : forall p q strs, D (between w p q) strs <-> D (between w' p q) strs.
Let like' : TextAlike ex w' w := ta_sym _ _ _ like.
Let words' : forall p q strs, D (between w' p q) strs <-> D (between w p q) strs := fun p q strs => iff_sym (words p q strs).
Let len : length w = length w' := ta_len _ _ _ like.
Lemma unlisted_like p q : q <= length w -> (forall k r strs, ~ listedWord D (between w p q) k r strs) -> forall k r strs, ~ listedWord D (between w' p q) k r strs.
Proof.
  intros L N k r strs H. destruct (listed_like ex D w' w like' words' p q k r strs ltac:(lia) H) as (k' & r' & X & _). exact (N _ _ _ X).
Qed.
Lemma pass_like p lk es e lk' : Pass D w brk p lk es e lk' -> exists es', Pass D w' brk p lk es' e lk' /\ Forall2 (MoveAlike ex) es es'.
Proof.
  intros H. destruct H as [q F|q k r strs W LW|q s r W NL NP Sp|q pre x r lk' W NL NS Se R].
  - destruct (foreignTo_like _ _ _ _ _ like F) as (F' & ->). eexists. split; [apply P_foreign, F'|apply moves_refl].
  - destruct (listed_like ex D w w' like words p q k r strs (wt_le _ _ _ _ W) LW) as (k' & r' & LW' & E). rewrite <- E.
    eexists. split; [exact (P_word _ _ _ _ _ _ _ _ _ (wordTo_like _ _ _ _ _ _ like W) LW')|apply moves_refl].
  - destruct (Spelled_like ex _ _ _ _ _ Sp (ta_between ex w w' p q like)) as (s' & r' & Sp' & S & R). rewrite (ta_len _ _ _ R).
    eexists. split; [exact (P_names _ _ _ _ _ _ _ _ (wordTo_like _ _ _ _ _ _ like W) (unlisted_like p q (wt_le _ _ _ _ W) NL) (namePlace_like _ _ _ _ like NP) Sp')|apply along_like, S].
  - rewrite <- (seen_like ex w w' p q like) in *.
    destruct (Reads_like ex _ _ _ _ _ _ _ R (ta_between ex w w' p (seenTo w' p q) like)) as (pre' & x' & r' & R' & P & X & T). rewrite (ta_len _ _ _ T).
    eexists. split; [eapply P_read; [exact (wordTo_like _ _ _ _ _ _ like W)|exact (unlisted_like p q (wt_le _ _ _ _ W) NL)| | |]|apply moves_like; eassumption].
    + intros (NP & s & r0 & Sp). apply NS. split; [exact (namePlace_like _ _ _ _ like' NP)|].
      destruct (Spelled_like ex _ _ _ _ _ Sp (ta_between ex w' w p q like')) as (s' & r1 & Sp' & _). eauto.
    + rewrite <- len. exact Se.
    + exact R'.
Qed.
Lemma step_like p lk es e lk' : Step D w brk p lk es e lk' -> exists es', Step D w' brk p lk es' e lk' /\ Forall2 (MoveAlike ex) es es'.
Proof.
  intros [es0 e0 lk0 P T|es0 e0 lk0 P T]; destruct (pass_like _ _ _ _ _ P) as (es' & P' & M).
  - exists es'. split; [apply St_plain; [exact P'|]|exact M]. intros X. exact (T (tacit_like _ _ _ _ like' X)).
  - exists (extend e0 es'). split; [apply St_stop; [exact P'|exact (tacit_like _ _ _ _ like T)]|apply extend_like, M].
Qed.
Lemma comes_like p lk : Comes D w brk p lk -> Comes D w' brk p lk.
Proof. induction 1 as [|p lk es e lk' C IH S]; [apply Co_start|]. destruct (step_like _ _ _ _ _ S) as (es' & S' & _). exact (Co_step _ _ _ _ _ _ _ _ IH S'). Qed.
Lemma ends_like p lk : Ends D w brk p lk -> Ends D w' brk p lk.
Proof. induction 1 as [|p lk es e lk' S E IH]; [rewrite len; apply En_end|]. destruct (step_like _ _ _ _ _ S) as (es' & S' & _). exact (En_step _ _ _ _ _ _ _ _ S' IH). Qed.
Lemma onWay_like f v : OnWay D w brk f v -> exists v', OnWay D w' brk f v' /\ SylAlike ex v v'.
Proof.
  intros (p & lk & es & e & lk' & C & S & E & I). destruct (step_like _ _ _ _ _ S) as (es' & S' & M).
  assert (X : exists v', In (f, v') es' /\ SylAlike ex v v').
  { clear -M I. induction M as [|a b es es' (A & B) M IH]; [contradiction|]. destruct I as [->|I].
    - destruct b as (g & v'). cbn in A, B. subst g. exists v'. split; [left; reflexivity|exact B].
    - destruct (IH I) as (v' & I' & V). exists v'. split; [right; exact I'|exact V]. }
  destruct X as (v' & I' & V). exists v'. split; [|exact V]. exists p, lk, es', e, lk'. split; [apply comes_like, C|]. split; [exact S'|]. split; [apply ends_like, E|exact I'].
Qed.
Lemma reading_like s : Reading D w brk s -> exists s', Reading D w' brk s' /\ Forall2 (SylAlike ex) s s'.
Proof.
  intros (N & P). assert (X : forall s f e, Path D w brk f s e -> exists s', Path D w' brk f s' e /\ Forall2 (SylAlike ex) s s').
  { clear s N P. induction s as [|v s IH]; intros f e P; [exists []; split; [exact P|constructor]|]. destruct P as (O & P).
    destruct (onWay_like _ _ O) as (v' & O' & V). destruct (IH _ _ P) as (s' & P' & S). exists (v' :: s'). split; [|constructor; assumption].
    split; [exact O'|]. destruct V as (_ & _ & _ & _ & _ & E & _). rewrite <- E. exact P'. }
  destruct (X _ _ _ P) as (s' & P' & S). exists s'. split; [|exact S]. split; [intros ->; inversion S; subst; apply N; reflexivity|]. rewrite <- len. exact P'.
Qed.
Lemma stuck_like : stuck D w brk -> stuck D w' brk.
Proof.
  intros (p & lk & c & C & L & E & V & NL). destruct (ta_nth _ _ _ _ _ like E) as (d & E' & A).
  exists p, lk, d. split; [apply comes_like, C|]. split; [rewrite <- len; exact L|]. split; [exact E'|].
  assert (B : forall (u : list N) x, nth_error u p = Some x -> length u = p + 1 -> between u p (p + 1) = [x]).
  { intros u x Eu Lu. unfold between. replace (p + 1 - p) with 1 by lia.
    pose proof (nth_error_split u p Eu) as (a & b & -> & La). rewrite <- La, skipn_app, skipn_all, Nat.sub_diag. cbn. reflexivity. }
  split; [unfold eagerVowel in *; match goal with |- oneOf ?s ?d => apply (whole_oneOf ex s c d); [wholes|exact A|exact V] end|].
  rewrite <- (B w' d E' ltac:(lia)). apply unlisted_like; [lia|]. rewrite (B w c E ltac:(lia)). exact NL.
Qed.
End Reading2.

(** ** C100: letters that take each other's place *)
(** Every pronunciation of the one list has one of the other list that is the
    same syllable by syllable. *)
Definition ListsAlike (ex : bool) (l l' : list SylString) : Prop :=
  (forall s, In s l -> exists s', In s' l' /\ Forall2 (SylAlike ex) s s') /\
  (forall s', In s' l' -> exists s, In s l /\ Forall2 (SylAlike ex) s s').
Lemma sylAlike_sym ex x y : SylAlike ex x y -> SylAlike ex y x.
Proof. intros (A & B & C & D & E & F & G). unfold SylAlike. rewrite A, B, C, D, E, F. repeat (split; [reflexivity|]). intros X. symmetry. exact (G X). Qed.
Lemma sylsAlike_sym ex s s' : Forall2 (SylAlike ex) s s' -> Forall2 (SylAlike ex) s' s.
Proof. induction 1; constructor; [apply sylAlike_sym; assumption|assumption]. Qed.
Lemma sylsAlike_eq s s' : Forall2 (SylAlike true) s s' -> s = s'.
Proof.
  induction 1 as [|x y s s' (A & B & C & D & E & F & G) _ IH]; [reflexivity|]. rewrite IH. f_equal. specialize (G eq_refl).
  destruct x, y. cbn in *. congruence.
Qed.
Lemma C100_lemma ex w w' dict brk : dictOKo dict -> StronglySorted lt brk -> Forall (fun x => x <= length w) brk ->
  TextAlike ex w w' -> (forall p q strs, entry dict (between w p q) strs <-> entry dict (between w' p q) strs) ->
  ((exists l, pronounced libthai_ct w dict brk l) <-> (exists l', pronounced libthai_ct w' dict brk l')) /\
  (forall l l', pronounced libthai_ct w dict brk l -> pronounced libthai_ct w' dict brk l' -> ListsAlike ex l l').
Proof.
  intros D S I T W. assert (T' : TextAlike ex w' w) by (apply ta_sym; exact T).
  assert (W' : forall p q strs, entry dict (between w' p q) strs <-> entry dict (between w p q) strs) by (intros; apply iff_sym, W).
  assert (I' : Forall (fun x => x <= length w') brk) by (rewrite <- (ta_len _ _ _ T); exact I).
  assert (One : forall u u' k, Forall (fun x => x <= length u) brk -> Forall (fun x => x <= length u') brk -> TextAlike ex u u' ->
    (forall p q strs, entry dict (between u p q) strs <-> entry dict (between u' p q) strs) ->
    pronounced libthai_ct u dict brk k -> exists l', pronounced libthai_ct u' dict brk l').
  { intros u u' k Iu Iu' Tu Wu (f0 & d0 & E & _). destruct (C71_lemma2 u' dict brk D S Iu') as [(St & _)|(_ & X)]; [exfalso|exact X].
    destruct (C71_lemma2 u dict brk D S Iu) as [(_ & f1 & Th)|(NS & _)].
    - destruct (C23_lemma libthai_ct u dict brk) as (r & f & _ & _ & A). pose proof (Th f1 (le_n _)) as E1.
      destruct (A f0) as [B|B]; rewrite E in B; [discriminate B|]. destruct (A f1) as [C|C]; rewrite E1 in C; [discriminate C|]. rewrite <- B in C. discriminate C.
    - apply NS. apply (stuck_like ex (entry dict) u' u brk); [apply ta_sym, Tu|intros; apply iff_sym, Wu|exact St]. }
  split.
  - split; intros (l & P); [exact (One w w' l I I' T W P)|exact (One w' w l I' I T' W' P)].
  - intros l l' P P'. split; intros s Hs.
    + apply (C71_lemma w dict brk l D S I P) in Hs. destruct (reading_like ex (entry dict) w w' brk T W s Hs) as (s' & R & A).
      exists s'. split; [apply (C71_lemma w' dict brk l' D S I' P'), R|exact A].
    + apply (C71_lemma w' dict brk l' D S I' P') in Hs. destruct (reading_like ex (entry dict) w' w brk T' W' s Hs) as (s' & R & A).
      exists s'. split; [apply (C71_lemma w dict brk l D S I P), R|apply sylsAlike_sym, A].
Qed.
(** Two texts that differ only in letters of the groups have the same
    pronunciations but for the tones - provided the dictionary has the same
    entries at the same places of both. *)
Theorem C100_alike ex w w' dict brk : dictOKo dict -> StronglySorted lt brk -> Forall (fun x => x <= length w) brk ->
  TextAlike ex w w' -> (forall p q strs, entry dict (between w p q) strs <-> entry dict (between w' p q) strs) ->
  ((exists l, pronounced libthai_ct w dict brk l) <-> (exists l', pronounced libthai_ct w' dict brk l')) /\
  (forall l l', pronounced libthai_ct w dict brk l -> pronounced libthai_ct w' dict brk l' -> ListsAlike ex l l').
Proof. exact (C100_lemma ex w w' dict brk). Qed.
Print Assumptions C100_alike.
Lemma entry_none k strs : ~ entry None k strs.
Proof. intros (d & v & E & _). discriminate E. Qed.
Lemma none_ok : dictOKo None.
Proof. intros d X. discriminate X. Qed.
Lemma C100_lemma2 w w' brk l l' : StronglySorted lt brk -> Forall (fun x => x <= length w) brk -> TextAlike true w w' ->
  pronounced libthai_ct w None brk l -> pronounced libthai_ct w' None brk l' -> forall s, In s l <-> In s l'.
Proof.
  intros S I T P P' s.
  destruct (C100_lemma true w w' None brk none_ok S I T) as (_ & H); [intros; split; intros X; destruct (entry_none _ _ X)|].
  destruct (H l l' P P') as (A & B). split; intros X.
  - destruct (A s X) as (s' & Y & E). rewrite (sylsAlike_eq _ _ E). exact Y.
  - destruct (B s X) as (s' & Y & E). rewrite <- (sylsAlike_eq _ _ E). exact Y.
Qed.
(** Without a dictionary "ฅ" and "ฆ", "ฐ" and "ถ" are the same letter twice. *)
Theorem C100_same w w' brk l l' : StronglySorted lt brk -> Forall (fun x => x <= length w) brk -> TextAlike true w w' ->
  pronounced libthai_ct w None brk l -> pronounced libthai_ct w' None brk l' -> forall s, In s l <-> In s l'.
Proof. exact (C100_lemma2 w w' brk l l'). Qed.
Print Assumptions C100_same.

(** ** There are no other such letters *)
(** The letter [y] may be put in place of [x], whatever stands around it. *)
Definition Interchangeable (ex : bool) (x y : N) : Prop := forall u v,
  ((exists l, pronounced libthai_ct (u ++ x :: v) None [] l) <-> (exists l', pronounced libthai_ct (u ++ y :: v) None [] l')) /\
  (forall l l', pronounced libthai_ct (u ++ x :: v) None [] l -> pronounced libthai_ct (u ++ y :: v) None [] l' -> ListsAlike ex l l').
Definition thaiChars : list N := fullStop :: filter thaiChar (map N.of_nat (seq 0xe01 76)).
Lemma thaiChars_all c : thaiChar c = true -> In c thaiChars.
Proof.
  intros H. unfold thaiChars. pose proof H as G. unfold thaiChar in G. apply orb_prop in G. destruct G as [G|G].
  - apply in_cons. apply filter_In. split; [exact (letter_in c G)|exact H].
  - apply N.eqb_eq in G. rewrite G. apply in_eq.
Qed.
(** Surroundings that tell the letters apart: all of them, and the letters
    that only the tone tells apart. *)
Definition places : list (list N * list N) :=
  map (fun p => (letters (fst p), letters (snd p)))
    [("กก", "รกา"); ("กรร", "รา"); ("เก", "ร"); ("เก", "ิ"); ("", "ฤก"); ("", "กย")].
Definition tonePlaces : list (list N * list N) :=
  map (fun p => (letters (fst p), letters (snd p))) [("", "า"); ("ก", "า")].
Definition listed500 (w : list N) : Res (list SylString) := (d <- ParseU16F libthai_ct 500 w None [] ;; DAGSylStrings d 0)%res.
Definition sameSyl (ex : bool) (x y : Syl) : bool :=
  ics_eqb (iCons1 x) (iCons1 y) && Z.eqb (iCons2 x) (iCons2 y) && Z.eqb (vowel x) (vowel y) && ec_eqb (eCons x) (eCons y) &&
  (if list_eq_dec N.eq_dec (literal x) (literal y) then true else false) && Z.eqb (endPos x) (endPos y) && (negb ex || tone_eqb (tone x) (tone y)).
Fixpoint sameSyls (ex : bool) (a b : SylString) : bool :=
  match a, b with [], [] => true | x :: a, y :: b => sameSyl ex x y && sameSyls ex a b | _, _ => false end.
Definition differ (ex : bool) (a b : Res (list SylString)) : bool :=
  match a, b with
  | Ok l, Ok l' => existsb (fun s => negb (existsb (sameSyls ex s) l')) l || existsb (fun s => negb (existsb (sameSyls ex s) l)) l'
  | _, _ => false
  end.
Fixpoint someDiffer (ex : bool) (a b : list (Res (list SylString))) : bool :=
  match a, b with x :: a, y :: b => differ ex x y || someDiffer ex a b | _, _ => false end.
Definition alikeb (ps : list (N * N)) (x y : N) : bool := N.eqb x y || existsb (fun p => N.eqb x (fst p) && N.eqb y (snd p)) ps.
Definition toldApart (ex : bool) (ps : list (N * N)) (pl : list (list N * list N)) (cs : list N) : bool :=
  let rows := map (fun x => (x, map (fun p => listed500 (fst p ++ x :: snd p)) pl)) cs in
  forallb (fun a => forallb (fun b => alikeb ps (fst a) (fst b) || someDiffer ex (snd a) (snd b)) rows) rows.
Lemma toldApart_all : toldApart false (pairs false) places thaiChars = true.
Proof. vm_compute. reflexivity. Qed.
Lemma toldApart_tone : forallb (fun g => toldApart true (pairs true) tonePlaces (letters g)) (alikeGroups false) = true.
Proof. vm_compute. reflexivity. Qed.

Lemma sameSyls_ok ex s s' : Forall2 (SylAlike ex) s s' -> sameSyls ex s s' = true.
Proof.
  induction 1 as [|x y s s' (A & B & C & D & E & F & G) _ IH]; [reflexivity|]. cbn [sameSyls]. rewrite IH, andb_true_r.
  unfold sameSyl. rewrite A, B, C, D, E, F. rewrite (proj2 (ics_eqb_eq _ _) eq_refl), (proj2 (ec_eqb_eq _ _) eq_refl), !Z.eqb_refl.
  destruct (list_eq_dec N.eq_dec (literal y) (literal y)) as [_|X]; [|destruct (X eq_refl)]. cbn [andb].
  destruct ex; [|reflexivity]. rewrite (G eq_refl). destruct (tone y); reflexivity.
Qed.
Lemma listed500_pronounced w l : listed500 w = Ok l -> pronounced libthai_ct w None [] l.
Proof.
  unfold listed500. destruct (ParseU16F libthai_ct 500 w None []) as [d| | |] eqn:E; cbn [bind]; try discriminate.
  intros H. exists 500, d. auto.
Qed.
Lemma differ_not ex w w' : differ ex (listed500 w) (listed500 w') = true ->
  exists l l', pronounced libthai_ct w None [] l /\ pronounced libthai_ct w' None [] l' /\ ~ ListsAlike ex l l'.
Proof.
  destruct (listed500 w) as [l| | |] eqn:E, (listed500 w') as [l'| | |] eqn:E'; cbn [differ]; try discriminate.
  intros H. exists l, l'. split; [apply listed500_pronounced, E|]. split; [apply listed500_pronounced, E'|]. intros (A & B).
  apply orb_prop in H. destruct H as [H|H]; apply existsb_exists in H; destruct H as (s & I & N); apply negb_true_iff in N.
  - destruct (A s I) as (s' & I' & F). assert (X : existsb (sameSyls ex s) l' = true) by (apply existsb_exists; exists s'; split; [exact I'|apply sameSyls_ok, F]).
    rewrite X in N. discriminate N.
  - destruct (B s I) as (s' & I' & F). assert (X : existsb (sameSyls ex s) l = true) by (apply existsb_exists; exists s'; split; [exact I'|apply sameSyls_ok, sylsAlike_sym, F]).
    rewrite X in N. discriminate N.
Qed.
Lemma someDiffer_in ex x y pl : someDiffer ex (map (fun p => listed500 (fst p ++ x :: snd p)) pl) (map (fun p => listed500 (fst p ++ y :: snd p)) pl) = true ->
  exists u v, differ ex (listed500 (u ++ x :: v)) (listed500 (u ++ y :: v)) = true.
Proof.
  induction pl as [|(u & v) pl IH]; cbn [map someDiffer]; [discriminate|]. intros H. apply orb_prop in H. destruct H as [H|H]; [|apply IH, H].
  exists u, v. exact H.
Qed.
Lemma alikeb_ok ex x y : alikeb (pairs ex) x y = true -> Alike ex x y.
Proof.
  intros H. apply alike_pairs. unfold alikeb in H. apply orb_prop in H. destruct H as [H|H]; [left; apply N.eqb_eq, H|right].
  apply existsb_exists in H. destruct H as ((a & b) & I & H). cbn [fst snd] in H. apply andb_prop in H. destruct H as (A & B).
  apply N.eqb_eq in A, B. subst a b. exact I.
Qed.
Lemma told ex pl cs x y : toldApart ex (pairs ex) pl cs = true -> In x cs -> In y cs -> Interchangeable ex x y -> Alike ex x y.
Proof.
  intros H X Y I. unfold toldApart in H. cbv zeta in H. rewrite forallb_forall in H.
  specialize (H _ (in_map _ _ _ X)). rewrite forallb_forall in H. specialize (H _ (in_map _ _ _ Y)). cbn [fst snd] in H.
  apply orb_prop in H. destruct H as [H|H]; [apply alikeb_ok, H|exfalso].
  destruct (someDiffer_in _ _ _ _ H) as (u & v & D). destruct (differ_not _ _ _ D) as (l & l' & P & P' & N). apply N. exact (proj2 (I u v) l l' P P').
Qed.
Lemma lists_weaker ex l l' : ListsAlike ex l l' -> ListsAlike false l l'.
Proof.
  assert (W : forall s s', Forall2 (SylAlike ex) s s' -> Forall2 (SylAlike false) s s').
  { induction 1 as [|x y s s' (A & B & C & D & E & F & _) _ IH]; constructor; [|exact IH]. repeat (split; [assumption|]). intros X. discriminate X. }
  intros (A & B). split; intros s H; [destruct (A s H) as (s' & I & F)|destruct (B s H) as (s' & I & F)]; exists s'; split; auto.
Qed.
Lemma inter_sym ex x y : Interchangeable ex x y -> Interchangeable ex y x.
Proof.
  intros H u v. destruct (H u v) as (A & B). split; [apply iff_sym, A|]. intros l l' P P'. destruct (B l' l P' P) as (C & D).
  split; intros s I; [destruct (D s I) as (s' & I' & F)|destruct (C s I) as (s' & I' & F)]; exists s'; (split; [exact I'|apply sylsAlike_sym, F]).
Qed.
(** A character that is not Thai is read as itself. *)
Lemma foreign_single x : thaiChar x = false -> pronounced libthai_ct [x] None [] [[SylLiteral 1 [x]]].
Proof.
  intros H. destruct (C29_lemma libthai_ct [x] None [] 1) as (d & E & L); [|intros X; discriminate X|auto|exists 1, d; auto].
  intros k T. apply thai_tok in T. destruct T as (c & E & T). destruct k as [|[|k]]; cbn in E; [|discriminate E|discriminate E]. injection E as <-. congruence.
Qed.
Definition literals (w : list N) : list (list N) :=
  match listed500 w with Ok l => flat_map (map literal) l | _ => [] end.
Lemma thai_literals : forallb (fun c => forallb (fun t => match t with [] => true | [x] => thaiChar x | _ => false end) (literals [c])) thaiChars = true.
Proof. vm_compute. reflexivity. Qed.
Lemma thai_runs : forallb (fun c => match listed500 [c] with NoFuel => false | _ => true end) thaiChars = true.
Proof. vm_compute. reflexivity. Qed.
Lemma thai_single y l : thaiChar y = true -> pronounced libthai_ct [y] None [] l -> forall s v, In s l -> In v s -> 
  literal v = [] \/ exists x, literal v = [x] /\ thaiChar x = true.
Proof.
  intros T (f & d & E & L) s v I J. apply thaiChars_all in T.
  assert (X : listed500 [y] = Ok l).
  { pose proof thai_runs as R. rewrite forallb_forall in R. specialize (R y T). unfold listed500 in *.
    destruct (C23_lemma libthai_ct [y] None []) as (r & f0 & _ & _ & A). destruct (A f) as [B|B]; rewrite E in B; [discriminate B|].
    destruct (A 500) as [C|C]; [rewrite C in R; discriminate R|]. rewrite C, <- B. cbn [bind]. exact L. }
  pose proof thai_literals as R. rewrite forallb_forall in R. specialize (R y T). rewrite forallb_forall in R.
  assert (K : In (literal v) (literals [y])).
  { unfold literals. rewrite X. apply in_flat_map. exists s. split; [exact I|]. apply in_map. exact J. }
  specialize (R _ K). destruct (literal v) as [|x [|z t]]; [left; reflexivity| |discriminate R]. right. exists x. auto.
Qed.
Lemma pron_one w dict brk a b : pronounced libthai_ct w dict brk a -> pronounced libthai_ct w dict brk b -> a = b.
Proof.
  intros (f1 & d1 & E1 & L1) (f2 & d2 & E2 & L2). destruct (C23_lemma libthai_ct w dict brk) as (r & f & _ & _ & A).
  destruct (A f1) as [Y|Y], (A f2) as [Z|Z]; congruence.
Qed.
Lemma foreign_inter ex x y : thaiChar x = false -> Interchangeable ex x y -> x = y.
Proof.
  intros T H. pose proof (foreign_single x T) as P. destruct (H [] []) as (A & B). cbn [app] in A, B.
  destruct (proj1 A (ex_intro _ _ P)) as (l' & P'). destruct (B _ _ P P') as (C & _).
  destruct (C _ (or_introl eq_refl)) as (s' & I & F). inversion F as [|a b s0 s1 V F']; subst. inversion F'; subst.
  destruct V as (_ & _ & _ & _ & V & _). cbn [literal SylLiteral] in V.
  destruct (thaiChar y) eqn:Ty.
  - destruct (thai_single y l' Ty P' [b] b I (or_introl eq_refl)) as [E|(z & E & Tz)]; rewrite E in V; [discriminate V|]. injection V as ->. congruence.
  - pose proof (foreign_single y Ty) as Q. assert (E : l' = [[SylLiteral 1 [y]]]) by (exact (pron_one [y] None [] l' _ P' Q)). subst l'.
    destruct I as [I|[]]. injection I as <-. cbn [literal SylLiteral] in V. injection V as ->. reflexivity.
Qed.
Lemma inter_alike ex x y : Interchangeable ex x y -> Alike ex x y.
Proof.
  intros H. destruct (thaiChar x) eqn:Tx; [|left; exact (foreign_inter ex x y Tx H)].
  destruct (thaiChar y) eqn:Ty; [|left; symmetry; exact (foreign_inter ex y x Ty (inter_sym _ _ _ H))].
  assert (G : Alike false x y).
  { apply (told false places thaiChars); [exact toldApart_all|apply thaiChars_all, Tx|apply thaiChars_all, Ty|].
    intros u v. destruct (H u v) as (A & B). split; [exact A|]. intros l l' P P'. exact (lists_weaker _ _ _ (B l l' P P')). }
  destruct ex; [|exact G]. destruct G as [E|(g & I & X & Y)]; [left; exact E|].
  pose proof toldApart_tone as R. rewrite forallb_forall in R. exact (told true tonePlaces (letters g) x y (R g I) X Y H).
Qed.
Lemma C100_lemma3 ex x y : Interchangeable ex x y <-> Alike ex x y.
Proof.
  split; [apply inter_alike|]. intros H u v. apply C100_lemma; [exact none_ok|constructor|constructor| |].
  - apply Forall2_app; [apply ta_refl|]. constructor; [exact H|apply ta_refl].
  - intros p q strs. split; intros X; destruct (entry_none _ _ X).
Qed.
(** Of all characters there are, exactly those of a group may stand for each
    other in every text. *)
Theorem C100_exactly ex x y : Interchangeable ex x y <-> Alike ex x y.
Proof. exact (C100_lemma3 ex x y). Qed.
Print Assumptions C100_exactly.

(** The dictionary has the same entries at the same places if no letter of the
    groups occurs in its words. *)
Lemma C100_lemma4 ex w w' dict : TextAlike ex w w' -> (forall k strs, entry dict k strs -> forall c, In c k -> inGroups ex c = false) ->
  forall p q strs, entry dict (between w p q) strs <-> entry dict (between w' p q) strs.
Proof.
  intros T F p q strs.
  assert (X : forall u u', TextAlike ex u u' -> (forall c, In c u -> inGroups ex c = false) -> u = u').
  { clear. induction 1 as [|c d u u' A _ IH]; intros G; [reflexivity|]. rewrite (IH (fun c I => G c (or_intror I))).
    rewrite (alike_fix ex c d (G c (or_introl eq_refl)) A). reflexivity. }
  split; intros E.
  - rewrite <- (X _ _ (ta_between ex w w' p q T) (F _ _ E)). exact E.
  - rewrite <- (X _ _ (ta_between ex w' w p q (ta_sym _ _ _ T)) (F _ _ E)). exact E.
Qed.
Theorem C100_free_words ex w w' dict : TextAlike ex w w' -> (forall k strs, entry dict k strs -> forall c, In c k -> inGroups ex c = false) ->
  forall p q strs, entry dict (between w p q) strs <-> entry dict (between w' p q) strs.
Proof. exact (C100_lemma4 ex w w' dict). Qed.
Print Assumptions C100_free_words.

(** The hypotheses are met, with a dictionary and breaks, by texts with several
    pronunciations. *)
Definition thawText : list N := letters "ถมอฆ่าตาก".
Definition thawText' : list N := letters "ฐมอฃ๊าตาก".
Definition thawDict : option Dict := Some (oneWord "ตาก" "t_Ak1@3").
Lemma oneWord_entry k0 data k strs : entry (Some (oneWord k0 data)) k strs -> k = letters k0.
Proof.
  intros (d & v & E & (t & Et & t1 & t2 & S & _) & _). injection E as <-. cbn in Et. injection Et as <-.
  destruct t1 as [|a [|b t1]]; cbn in S; [injection S; congruence|discriminate S|discriminate S].
Qed.
Lemma textAlike_by ex w w' : forallb (fun p => alikeb (pairs ex) (fst p) (snd p)) (combine w w') && Nat.eqb (length w) (length w') = true -> TextAlike ex w w'.
Proof.
  intros H. apply andb_prop in H. destruct H as (H & L). apply Nat.eqb_eq in L. revert w' H L. unfold TextAlike.
  induction w as [|x w IH]; intros [|y w'] H L; try discriminate L; [constructor|]. cbn [combine forallb fst snd] in H. apply andb_prop in H. destruct H as (A & B).
  constructor; [apply alikeb_ok, A|apply IH; [exact B|injection L as L; exact L]].
Qed.
Example C100_case : dictOKo thawDict /\ StronglySorted lt [6] /\ Forall (fun x => x <= length thawText) [6] /\ TextAlike false thawText thawText' /\
  (forall p q strs, entry thawDict (between thawText p q) strs <-> entry thawDict (between thawText' p q) strs) /\
  (exists l l', pronounced libthai_ct thawText thawDict [6] l /\ pronounced libthai_ct thawText' thawDict [6] l' /\ length l = 6 /\ length l' = 6 /\ l <> l').
Proof.
  assert (T : TextAlike false thawText thawText') by (apply textAlike_by; vm_compute; reflexivity).
  split; [intros d X; injection X as <-; eapply dictCheck_sound; [reflexivity|vm_compute; reflexivity]|].
  split; [repeat constructor|]. split; [repeat constructor; vm_compute; lia|]. split; [exact T|].
  split.
  { apply (C100_free_words false _ _ _ T). intros k strs E c I. rewrite (oneWord_entry _ _ _ _ E) in I.
    assert (F : forallb (fun c => negb (inGroups false c)) (letters "ตาก") = true) by (vm_compute; reflexivity).
    rewrite forallb_forall in F. apply negb_true_iff. exact (F c I). }
  eexists. eexists. split; [apply listing_pronounced; vm_compute; reflexivity|]. split; [apply listing_pronounced; vm_compute; reflexivity|].
  split; [reflexivity|]. split; [reflexivity|]. discriminate.
Qed.
(** Texts alike in every letter, and letters of one sound that are not alike:
    KHO KHWAI and KHO RAKHANG, SO SALA and SO SUEA, the two signs of AI. *)
Example C100_case2 : TextAlike true (letters "รัฐเฆี่ยน") (letters "รัถเฅี่ยน") /\
  ~ Interchangeable false UTH_KHO_KHWAI UTH_KHO_RAKHANG /\ ~ Interchangeable false UTH_SO_SALA UTH_SO_SUA /\
  ~ Interchangeable false UTH_SARA_AI_MAIMALAI UTH_SARA_AI_MAIMUAN.
Proof.
  assert (X : forall x y, inGroups false x = false -> x <> y -> ~ Interchangeable false x y).
  { intros x y G N I. apply N. exact (alike_fix false x y G (proj1 (C100_exactly false x y) I)). }
  split; [apply textAlike_by; vm_compute; reflexivity|].
  split; [apply X; [vm_compute; reflexivity|intros E; discriminate E]|].
  split; apply X; first [vm_compute; reflexivity|intros E; discriminate E].
Qed.

Lemma C100_lemma5 : exists dict w w' l l', dictOKo dict /\ TextAlike true w w' /\ pronounced libthai_ct w dict [] l /\
  pronounced libthai_ct w' dict [] l' /\ ~ ListsAlike false l l'.
Proof.
  exists (Some (oneWord "ฆา" "k_A_0@2")), (letters "ฆา"), (letters "ฅา"). eexists. eexists.
  split; [intros d X; injection X as <-; eapply dictCheck_sound; [reflexivity|vm_compute; reflexivity]|].
  split; [apply textAlike_by; vm_compute; reflexivity|].
  split; [apply listing_pronounced; vm_compute; reflexivity|]. split; [apply listing_pronounced; vm_compute; reflexivity|].
  intros (A & _). destruct (A _ (or_introl eq_refl)) as (s' & I & F). apply sameSyls_ok in F.
  repeat (destruct I as [<-|I]; [vm_compute in F; discriminate F|]). destruct I.
Qed.
(** The condition on the dictionary is needed. *)
Theorem C100_dictionary_matters : exists dict w w' l l', dictOKo dict /\ TextAlike true w w' /\ pronounced libthai_ct w dict [] l /\
  pronounced libthai_ct w' dict [] l' /\ ~ ListsAlike false l l'.
Proof. exact C100_lemma5. Qed.
Print Assumptions C100_dictionary_matters.

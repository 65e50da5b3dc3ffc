(** Prop_Syl.v - property theorems C01-C04, C06, C07: tone rules, consonant
    tables, ordering and equality of syllables, shifting, fractions. *)
From Coq Require Import String List ZArith NArith Bool Lia Sorted.
From Verif Require Import Base ThUni ThCons Syl Lattice Utf Spec OrderProofs LatticeProofs.
Import ListNotations.
Local Open Scope Z_scope.

(** ** C01: spoken tone follows the Thai tone rules *)
(** The textbook table.  Written tones are named by the mark (SAMAN = no
    mark); the result is the spoken tone. *)
Inductive Textbook : EInitConsClass -> ETone -> bool -> bool -> ETone -> Prop :=
(* middle class: live -> mid, dead -> low; marks keep their names *)
| TB_mid_live sh : Textbook MID SAMAN false sh SAMAN
| TB_mid_dead sh : Textbook MID SAMAN true sh EK
| TB_mid_ek d sh : Textbook MID EK d sh EK
| TB_mid_tho d sh : Textbook MID THO d sh THO
| TB_mid_tri d sh : Textbook MID TRI d sh TRI
| TB_mid_chattawa d sh : Textbook MID CHATTAWA d sh CHATTAWA
(* high class: live -> rising, dead -> low; mai ek -> low, mai tho -> falling *)
| TB_high_live sh : Textbook HIGH SAMAN false sh CHATTAWA
| TB_high_dead sh : Textbook HIGH SAMAN true sh EK
| TB_high_ek d sh : Textbook HIGH EK d sh EK
| TB_high_tho d sh : Textbook HIGH THO d sh THO
(* low class: live -> mid, dead short -> high, dead long -> falling;
   mai ek -> falling, mai tho -> high *)
| TB_low_live k sh : k = LOWP \/ k = LOWS -> Textbook k SAMAN false sh SAMAN
| TB_low_dead_short k : k = LOWP \/ k = LOWS -> Textbook k SAMAN true true TRI
| TB_low_dead_long k : k = LOWP \/ k = LOWS -> Textbook k SAMAN true false THO
| TB_low_ek k d sh : k = LOWP \/ k = LOWS -> Textbook k EK d sh THO
| TB_low_tho k d sh : k = LOWP \/ k = LOWS -> Textbook k THO d sh TRI.

(** The combinations the textbook does not allow. *)
Definition unspellable (k : EInitConsClass) (w : ETone) : Prop :=
  (k = HIGH \/ k = LOWP \/ k = LOWS) /\ (w = TRI \/ w = CHATTAWA).

Lemma tone_rules_lemma k w d sh : k <> IC_INVALID -> w <> T_INVALID ->
  (~ unspellable k w -> Textbook k w d sh (ToneFromWritten k w d sh)) /\
  (forall t, Textbook k w d sh t -> ToneFromWritten k w d sh = t) /\
  ToneFromWritten k w d sh <> T_INVALID /\
  (unspellable k w -> ToneFromWritten k w d sh = w).
Proof.
  intros Hk Hw. split; [|split; [|split]].
  - intros U. unfold unspellable in U.
    destruct k, w, d, sh; try congruence; try (exfalso; apply U; auto 6; fail); constructor; auto.
  - intros t H. inversion H; subst; try reflexivity;
      match goal with H : _ \/ _ |- _ => destruct H; subst end; reflexivity.
  - destruct k, w, d, sh; discriminate || congruence.
  - intros [[->|[->| ->]] [->| ->]]; reflexivity.
Qed.
Theorem C01_tone_rules k w d sh : k <> IC_INVALID -> w <> T_INVALID ->
  (~ unspellable k w -> Textbook k w d sh (ToneFromWritten k w d sh)) /\
  (forall t, Textbook k w d sh t -> ToneFromWritten k w d sh = t) /\
  ToneFromWritten k w d sh <> T_INVALID /\
  (unspellable k w -> ToneFromWritten k w d sh = w).
Proof. exact (tone_rules_lemma k w d sh). Qed.
Print Assumptions C01_tone_rules.
(* "rak": low class, no mark, dead, short -> high tone *)
Example C01_case : LOWS <> IC_INVALID /\ SAMAN <> T_INVALID /\ ~ unspellable LOWS SAMAN /\
  ToneFromWritten LOWS SAMAN true true = TRI.
Proof. repeat split; try discriminate. intros [_ [H|H]]; discriminate. Qed.

(** ** C02: consonant tables *)
(** A list of Thai letters written as UTF-8 text. *)
Definition letters (s : string) : list N :=
  match from_bytes s with Ok l => l | _ => [] end.
Definition thaiConsonant (c : N) : Prop :=
  (0x0e01 <= c <= 0x0e2e)%N /\ c <> 0x0e24%N /\ c <> 0x0e26%N.
Definition classGroups : list (EInitConsClass * string) :=
  [ (HIGH, "ขฃฉฐถผฝศษสห"); (MID, "กจฎฏดตบปอ");
    (LOWP, "คฅฆชซฌฑฒทธพฟภฮ"); (LOWS, "งญณนมยรลวฬ") ]%string.
Definition soundGroups : list (EInitConsSound * string) :=
  [ (KA, "ก"); (KHA, "ขฃคฅฆ"); (NGA, "ง"); (JA, "จ"); (CHA, "ฉชฌ"); (YA, "ญย");
    (DA, "ฎด"); (TA, "ฏต"); (THA, "ฐฑฒถทธ"); (NA, "ณน"); (BA, "บ"); (PA, "ป");
    (PHA, "ผพภ"); (FA, "ฝฟ"); (MA, "ม"); (RA, "ร"); (LA, "ลฬ"); (WA, "ว");
    (SA, "ซศษส"); (HA, "หฮ"); (ICS_A, "อ") ]%string.
Definition endGroups : list (EEndConsClass * string) :=
  [ (KOK, "กขฃคฅฆ"); (KOT, "จฉชซฌฎฏฐฑฒดตถทธศษส"); (KOP, "บปผฝพฟภ");
    (KONG, "ง"); (KON, "ญณนรลฬ"); (KOM, "ม"); (KOEY, "ย"); (KOEW, "ว");
    (EC_NONE, "หอฮ") ]%string.
(** [c] is listed under [k]. *)
Definition listed {K} (groups : list (K * string)) (k : K) (c : N) : Prop :=
  exists ls, In (k, ls) groups /\ In c (letters ls).

Definition listedIn {K} (keqb : K -> K -> bool) (groups : list (K * string)) (k : K) (c : N) : bool :=
  existsb (fun p => keqb k (fst p) && memN c (letters (snd p))) groups.
Lemma memN_In c l : memN c l = true <-> In c l.
Proof.
  unfold memN. rewrite existsb_exists. split.
  - intros (x & H1 & H2). apply N.eqb_eq in H2. congruence.
  - intros H. exists c. split; auto. apply N.eqb_refl.
Qed.
Lemma listedIn_iff {K} (keqb : K -> K -> bool) (E : forall a b, keqb a b = true <-> a = b) groups k c :
  listedIn keqb groups k c = true <-> listed groups k c.
Proof.
  unfold listedIn, listed. rewrite existsb_exists. split.
  - intros ([k' ls] & I & H). apply andb_true_iff in H. destruct H as [H1 H2].
    apply E in H1. simpl in H1. subst k'. exists ls. split; auto. apply memN_In. auto.
  - intros (ls & I & H). exists (k, ls). split; auto. apply andb_true_iff. split.
    + apply E. reflexivity.
    + apply memN_In. auto.
Qed.
Definition allCons : list N :=
  filter (fun c => negb (N.eqb c 0x0e24) && negb (N.eqb c 0x0e26))
         (map (fun n => (0x0e01 + N.of_nat n)%N) (seq 0 46)).
Lemma allCons_in c : thaiConsonant c -> In c allCons.
Proof.
  intros ((H1 & H2) & H3 & H4). apply filter_In. split.
  - apply in_map_iff. exists (N.to_nat (c - 0x0e01)). split; [lia|]. apply in_seq. lia.
  - apply andb_true_iff. rewrite !negb_true_iff, !N.eqb_neq. auto.
Qed.
Definition allIC := [IC_INVALID; HIGH; MID; LOWP; LOWS].
Definition allICS := [ICS_INVALID; KA; KHA; NGA; JA; CHA; YA; DA; TA; THA; NA; BA; PA; PHA; FA; MA; RA; LA; WA; SA; HA; ICS_A].
Definition allEC := [EC_NONE; KOK; KOT; KOP; KONG; KON; KOM; KOEY; KOEW].
Definition resEqb {A} (eqb : A -> A -> bool) (r : Res A) (a : A) : bool :=
  match r with Ok x => eqb x a | _ => false end.
Definition tblCheck {K} (keqb : K -> K -> bool) all (groups : list (K * string)) (f : N -> Res K) cs : bool :=
  forallb (fun c => existsb (fun k => resEqb keqb (f c) k) all &&
             forallb (fun k => Bool.eqb (resEqb keqb (f c) k) (listedIn keqb groups k c)) all) cs.
Lemma tblCheck_ok {K} (keqb : K -> K -> bool) (E : forall a b, keqb a b = true <-> a = b) all
    (A : forall k, In k all) groups f cs :
  tblCheck keqb all groups f cs = true ->
  forall c, In c cs -> (exists k, f c = Ok k) /\ forall k, f c = Ok k <-> listed groups k c.
Proof.
  intros H c Hc. unfold tblCheck in H. rewrite forallb_forall in H.
  specialize (H c Hc). apply andb_true_iff in H. destruct H as [H1 H2].
  split.
  - apply existsb_exists in H1. destruct H1 as (k & _ & H1). destruct (f c); try discriminate. eauto.
  - intros k. rewrite forallb_forall in H2. specialize (H2 k (A k)).
    apply Bool.eqb_prop in H2. rewrite <- (listedIn_iff keqb E), <- H2.
    unfold resEqb. destruct (f c) as [x| | |]; try (split; discriminate).
    rewrite E. split; congruence.
Qed.
Lemma cons_tables_lemma c : thaiConsonant c ->
  ((exists k, InitConsClass c = Ok k) /\ forall k, InitConsClass c = Ok k <-> listed classGroups k c) /\
  ((exists k, InitConsSound c = Ok k) /\ forall k, InitConsSound c = Ok k <-> listed soundGroups k c) /\
  ((exists k, EndConsClass c = Ok k) /\ forall k, EndConsClass c = Ok k <-> listed endGroups k c).
Proof.
  intros Hc. apply allCons_in in Hc. split; [|split].
  - refine (tblCheck_ok ic_eqb ic_eqb_eq allIC _ classGroups InitConsClass allCons _ c Hc); [intros []; cbn; repeat first [left; reflexivity | right] | vm_compute; reflexivity].
  - refine (tblCheck_ok ics_eqb ics_eqb_eq allICS _ soundGroups InitConsSound allCons _ c Hc); [intros []; cbn; repeat first [left; reflexivity | right] | vm_compute; reflexivity].
  - refine (tblCheck_ok ec_eqb ec_eqb_eq allEC _ endGroups EndConsClass allCons _ c Hc); [intros []; cbn; repeat first [left; reflexivity | right] | vm_compute; reflexivity].
Qed.
(** Every consonant letter has a class, an initial sound and an end class, and
    they are those of the groups above (no letter is listed as invalid). *)
Theorem C02_consonant_tables c : thaiConsonant c ->
  ((exists k, InitConsClass c = Ok k) /\ forall k, InitConsClass c = Ok k <-> listed classGroups k c) /\
  ((exists k, InitConsSound c = Ok k) /\ forall k, InitConsSound c = Ok k <-> listed soundGroups k c) /\
  ((exists k, EndConsClass c = Ok k) /\ forall k, EndConsClass c = Ok k <-> listed endGroups k c).
Proof. exact (cons_tables_lemma c). Qed.
Print Assumptions C02_consonant_tables.
Example C02_case : thaiConsonant UTH_HO_HIP /\ listed soundGroups HA UTH_HO_HIP /\
  letters "กฮ" = [UTH_KO_KAI; UTH_HO_NOKHUK].
Proof.
  split; [|split].
  - unfold thaiConsonant, UTH_HO_HIP. lia.
  - exists "หฮ"%string. split; cbn [In soundGroups]; [repeat first [left; reflexivity | right] | vm_compute; auto].
  - vm_compute. reflexivity.
Qed.

(** ** C03: ordering is a strict total order *)
Lemma order_syl_lemma :
  (forall a, syl_ltb a a = false) /\
  (forall a b c, syl_ltb a b = true -> syl_ltb b c = true -> syl_ltb a c = true) /\
  (forall a b, syl_ltb a b = false -> syl_ltb b a = false -> sameVal a b) /\
  (forall a b, syl_gtb a b = syl_ltb b a) /\
  (forall a b, syl_leb a b = negb (syl_ltb b a)) /\
  (forall a b, syl_geb a b = negb (syl_ltb a b)).
Proof.
  repeat split.
  - apply syl_ltb_irrefl.
  - apply syl_ltb_trans.
  - apply syl_ltb_total; auto.
  - apply syl_ltb_total; auto.
  - apply syl_gtb_ltb.
  - intros. unfold syl_leb. rewrite syl_gtb_ltb. auto.
Qed.
Theorem C03_order_syllables :
  (forall a, syl_ltb a a = false) /\
  (forall a b c, syl_ltb a b = true -> syl_ltb b c = true -> syl_ltb a c = true) /\
  (forall a b, syl_ltb a b = false -> syl_ltb b a = false -> sameVal a b) /\
  (forall a b, syl_gtb a b = syl_ltb b a) /\
  (forall a b, syl_leb a b = negb (syl_ltb b a)) /\
  (forall a b, syl_geb a b = negb (syl_ltb a b)).
Proof. exact order_syl_lemma. Qed.
Print Assumptions C03_order_syllables.

Lemma order_str_lemma :
  (forall a, str_ltb a a = false) /\
  (forall a b c, str_ltb a b = true -> str_ltb b c = true -> str_ltb a c = true) /\
  (forall a b, str_ltb a b = false -> str_ltb b a = false -> Forall2 sameVal a b) /\
  (forall a b, str_gtb a b = str_ltb b a) /\
  (forall a b, str_leb a b = negb (str_ltb b a)) /\
  (forall a b, str_geb a b = negb (str_ltb a b)) /\
  (forall a b, str_ltb a b = true <->
     (exists p y b', Forall2 sameVal a p /\ b = p ++ y :: b') \/
     (exists p q x y a' b', a = p ++ x :: a' /\ b = q ++ y :: b' /\
                            Forall2 sameVal p q /\ syl_ltb x y = true)).
Proof.
  split; [apply str_ltb_irrefl|]. split; [apply str_ltb_trans|]. split; [|split; [|split; [|split]]].
  - intros a b H1 H2. apply map_key_Forall2. apply (tl_total _ strkey_total); rewrite <- str_ltb_key; auto.
  - apply str_gtb_ltb.
  - intros. unfold str_leb. rewrite str_gtb_ltb. auto.
  - reflexivity.
  - apply str_ltb_lex.
Qed.
Theorem C03_order_strings :
  (forall a, str_ltb a a = false) /\
  (forall a b c, str_ltb a b = true -> str_ltb b c = true -> str_ltb a c = true) /\
  (forall a b, str_ltb a b = false -> str_ltb b a = false -> Forall2 sameVal a b) /\
  (forall a b, str_gtb a b = str_ltb b a) /\
  (forall a b, str_leb a b = negb (str_ltb b a)) /\
  (forall a b, str_geb a b = negb (str_ltb a b)) /\
  (forall a b, str_ltb a b = true <->
     (exists p y b', Forall2 sameVal a p /\ b = p ++ y :: b') \/
     (exists p q x y a' b', a = p ++ x :: a' /\ b = q ++ y :: b' /\
                            Forall2 sameVal p q /\ syl_ltb x y = true)).
Proof. exact order_str_lemma. Qed.
Print Assumptions C03_order_strings.
Definition exKa (pos : Z) : Syl := SylOf KA SEC_NONE V_AA EC_NONE SAMAN pos.
Definition exNa (pos : Z) : Syl := SylOf NA SEC_NONE V_A KOK EK pos.
Definition exLit (pos : Z) : Syl := SylLiteral pos [65; 66]%N.
Example C03_case :
  syl_ltb (exLit 2) (exKa 2) = true /\ syl_ltb (exKa 2) (exKa 3) = true /\
  syl_ltb (exKa 3) (exNa 1) = true /\ str_ltb [exKa 2] [exKa 2; exNa 4] = true /\
  str_ltb [exKa 2; exLit 3] [exKa 2; exNa 4; exKa 5] = true.
Proof. vm_compute. auto. Qed.

(** ** C04: equality *)
Lemma eq_lemma :
  (forall a b, syl_eqb a b = true <-> spoken a = spoken b) /\
  (forall a b, str_eqb a b = true <-> strEq a b) /\
  (forall a, syl_eqb a a = true) /\ (forall a b, syl_eqb a b = syl_eqb b a) /\
  (forall a b c, syl_eqb a b = true -> syl_eqb b c = true -> syl_eqb a c = true) /\
  (forall a, str_eqb a a = true) /\ (forall a b, str_eqb a b = str_eqb b a) /\
  (forall a b c, str_eqb a b = true -> str_eqb b c = true -> str_eqb a c = true) /\
  (forall a b p q, syl_eqb (setEndPos a p) (setEndPos b q) = syl_eqb a b).
Proof.
  assert (S : forall a b, syl_eqb a b = syl_eqb b a).
  { intros a b. apply eq_true_iff_eq. rewrite !syl_eqb_spoken. split; auto. }
  assert (S2 : forall a b, str_eqb a b = str_eqb b a).
  { intros a b. apply eq_true_iff_eq. rewrite !str_eqb_spoken. split; auto. }
  split; [apply syl_eqb_spoken|]. split; [apply str_eqb_spoken|].
  split; [intros; apply syl_eqb_spoken; auto|]. split; [exact S|].
  split; [intros a b c; rewrite !syl_eqb_spoken; congruence|].
  split; [intros; apply str_eqb_spoken; auto|]. split; [exact S2|].
  split; [intros a b c; rewrite !str_eqb_spoken; congruence|].
  reflexivity.
Qed.
Theorem C04_equality :
  (forall a b, syl_eqb a b = true <-> spoken a = spoken b) /\
  (forall a b, str_eqb a b = true <-> strEq a b) /\
  (forall a, syl_eqb a a = true) /\ (forall a b, syl_eqb a b = syl_eqb b a) /\
  (forall a b c, syl_eqb a b = true -> syl_eqb b c = true -> syl_eqb a c = true) /\
  (forall a, str_eqb a a = true) /\ (forall a b, str_eqb a b = str_eqb b a) /\
  (forall a b c, str_eqb a b = true -> str_eqb b c = true -> str_eqb a c = true) /\
  (forall a b p q, syl_eqb (setEndPos a p) (setEndPos b q) = syl_eqb a b).
Proof. exact eq_lemma. Qed.
Print Assumptions C04_equality.
(** Equality is not consistent with the sort order. *)
Theorem C04_consistent_with_order_refuted :
  exists a b, syl_eqb a b = true /\ syl_ltb a b = true.
Proof. exists (exKa 2), (exKa 3). vm_compute. auto. Qed.
Print Assumptions C04_consistent_with_order_refuted.
Example C04_case : syl_eqb (exKa 2) (exKa 7) = true /\ syl_eqb (exKa 2) (exNa 2) = false /\
  syl_eqb (exLit 2) (exKa 2) = false.
Proof. vm_compute. auto. Qed.

(** ** C06: shifting *)
Lemma shift_lemma off s : 0 <= off ->
  length (shiftEndPos off s) = length s /\ strEq (shiftEndPos off s) s /\
  (forall i x, nth_error s i = Some x ->
     exists y, nth_error (shiftEndPos off s) i = Some y /\ spoken y = spoken x /\
       (0 <= endPos x -> endPos y = endPos x + off) /\
       (forall b e, 0 <= b < e -> endPos x = preNode b e -> endPos y = preNode (b + off) (e + off))) /\
  (forall off', 0 <= off' -> shiftEndPos off' (shiftEndPos off s) = shiftEndPos (off' + off) s).
Proof.
  intros H. split; [apply shift_length|]. split; [apply shift_spoken|]. split.
  - intros i x Hx. exists (setEndPos x (shiftPos off (endPos x))). split.
    + unfold shiftEndPos. rewrite nth_error_map, Hx. reflexivity.
    + split; [reflexivity|]. split.
      * intros P. simpl. unfold shiftPos. destruct (Z.ltb_spec (endPos x) 0); lia.
      * intros b e B E. simpl. rewrite E. unfold shiftPos, preNode.
        destruct (Z.ltb_spec (- (b * 100 + e)) 0); lia.
  - intros off' H'. apply shift_compose; auto.
Qed.
Theorem C06_shift off s : 0 <= off ->
  length (shiftEndPos off s) = length s /\ strEq (shiftEndPos off s) s /\
  (forall i x, nth_error s i = Some x ->
     exists y, nth_error (shiftEndPos off s) i = Some y /\ spoken y = spoken x /\
       (0 <= endPos x -> endPos y = endPos x + off) /\
       (forall b e, 0 <= b < e -> endPos x = preNode b e -> endPos y = preNode (b + off) (e + off))) /\
  (forall off', 0 <= off' -> shiftEndPos off' (shiftEndPos off s) = shiftEndPos (off' + off) s).
Proof. exact (shift_lemma off s). Qed.
Print Assumptions C06_shift.
Example C06_case : map endPos (shiftEndPos 7 [exKa (preNode 2 5); exNa 5; exKa 9]) = [preNode 9 12; 12; 16].
Proof. reflexivity. Qed.

(** ** C07: fractions *)
(** A fraction after inserting the strings of [h] in order into an empty one. *)
Definition inserted (h : list SylString) : PronunFrac := fold_left fracAddStr h fracEmpty.
Lemma fraction_lemma h :
  StronglySorted strLt (alts (inserted h)) /\
  (forall x, In x (alts (inserted h)) -> In x h) /\
  (forall s, In s h -> exists x, In x (alts (inserted h)) /\ strEq x s).
Proof.
  change (inserted h) with (insertAll h fracEmpty). split; [|split].
  - apply insertAll_sorted. constructor.
  - intros x H. apply insertAll_in_inv in H. destruct H as [H|[]]; auto.
  - intros s H. apply insertAll_in_new. auto.
Qed.
Theorem C07_fraction_sorted_complete h :
  StronglySorted strLt (alts (inserted h)) /\
  (forall x, In x (alts (inserted h)) -> In x h) /\
  (forall s, In s h -> exists x, In x (alts (inserted h)) /\ strEq x s).
Proof. exact (fraction_lemma h). Qed.
Print Assumptions C07_fraction_sorted_complete.
(** When strings that say the same also carry the same positions, no two
    alternatives are equal. *)
Lemma fraction_unique_lemma h :
  (forall a b, In a h -> In b h -> strEq a b -> map endPos a = map endPos b) ->
  forall i j a b, nth_error (alts (inserted h)) i = Some a -> nth_error (alts (inserted h)) j = Some b ->
    i <> j -> str_eqb a b = false.
Proof.
  intros U i j a b Ha Hb N.
  destruct (str_eqb a b) eqn:E; auto. exfalso. apply str_eqb_spoken in E.
  destruct (fraction_lemma h) as (S & I & _).
  assert (strLt a b \/ strLt b a) as L.
  { clear - S Ha Hb N. revert i j Ha Hb N. induction S as [|x l S IH F]; intros i j Ha Hb N.
    - destruct i; discriminate.
    - destruct i as [|i], j as [|j]; simpl in *; try congruence.
      + injection Ha as ->. left. rewrite Forall_forall in F. apply F. eapply nth_error_In; eauto.
      + injection Hb as ->. right. rewrite Forall_forall in F. apply F. eapply nth_error_In; eauto.
      + eapply IH; eauto. }
  assert (map endPos a = map endPos b) as P.
  { apply U; auto; apply I; eapply nth_error_In; eauto. }
  assert (map sylKey a = map sylKey b) as K.
  { apply strKey_spoken. auto. }
  unfold strLt in L. rewrite !str_ltb_key, K in L.
  destruct L as [L|L]; rewrite (tl_irrefl _ strkey_total) in L; discriminate.
Qed.
Theorem C07_fraction_unique h :
  (forall a b, In a h -> In b h -> strEq a b -> map endPos a = map endPos b) ->
  forall i j a b, nth_error (alts (inserted h)) i = Some a -> nth_error (alts (inserted h)) j = Some b ->
    i <> j -> str_eqb a b = false.
Proof. exact (fraction_unique_lemma h). Qed.
Print Assumptions C07_fraction_unique.
(** In general the promised uniqueness fails: the same string with two
    positions is kept twice, depending on the insertion order. *)
Theorem C07_fraction_unique_refuted :
  exists h i j a b, nth_error (alts (inserted h)) i = Some a /\ nth_error (alts (inserted h)) j = Some b /\
    i <> j /\ str_eqb a b = true.
Proof. exists [[exKa 1]; [exKa 2]], 0%nat, 1%nat, [exKa 1], [exKa 2]. repeat split; discriminate. Qed.
Print Assumptions C07_fraction_unique_refuted.
Example C07_case : alts (inserted [[exNa 4]; [exKa 4]; [exNa 4]; [exLit 4]]) = [[exLit 4]; [exKa 4]; [exNa 4]] /\
  (forall a b, In a [[exNa 4]; [exKa 4]] -> In b [[exNa 4]; [exKa 4]] -> strEq a b -> map endPos a = map endPos b).
Proof.
  split; [reflexivity|]. intros a b [<-|[<-|[]]] [<-|[<-|[]]] _; reflexivity.
Qed.

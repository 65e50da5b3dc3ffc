(** ParserRules.v - what the syllable rules of parser/parser.cxx add: bounds on
    positions and the origin of every component.  [F] is an excuse for failing
    outcomes; with [ctype_ok] there is none except a leading vowel other than
    SARA E at the very end of the text. *)
From Coq Require Import List NArith ZArith Bool Arith Lia.
From Verif Require Import Base ThUni ThCons Syl Parser Wp ParserSpec.
Import ListNotations.
Local Open Scope nat_scope.

Section Rules.
Variable ct : CType.
Variable w : list N.
Variable F : Prop.
Hypothesis ctOK : F \/ ctype_ok ct.
(** 1 where one letter beyond the stop position may be taken (see [inB]). *)
Variable ov : nat.
Notation n := (length w).
Notation isCons := (th_wcisthcons ct).

Lemma tbl_sat {A} (tbl : list A) c : length tbl = 46 -> isCons c = true ->
  Sat F (tblAt tbl c) (fun x => tblAt tbl c = Ok x).
Proof.
  intros L Hc. unfold Sat. destruct (tblAt tbl c) eqn:E; auto.
  - unfold tblAt in E. destruct (N.ltb c UTH_KO_KAI); [discriminate|].
    destruct (nth_error tbl _); discriminate.
  - destruct ctOK as [f|OK]; [exact f|exfalso].
    destruct (cons_range _ OK c Hc) as (A1 & A2 & _).
    unfold tblAt in E. destruct (N.ltb_spec c UTH_KO_KAI) as [H|H]; [lia|].
    destruct (nth_error tbl _) eqn:E2; [discriminate|].
    apply nth_error_None in E2. unfold UTH_KO_KAI, UTH_HO_NOKHUK in *. lia.
  - unfold tblAt in E. destruct (N.ltb c UTH_KO_KAI); [discriminate|].
    destruct (nth_error tbl _); discriminate.
Qed.
Lemma sound_sat c : isCons c = true ->
  Sat F (InitConsSound c) (fun x => InitConsSound c = Ok x).
Proof. apply tbl_sat. reflexivity. Qed.
Lemma class_sat c : isCons c = true ->
  Sat F (InitConsClass c) (fun x => InitConsClass c = Ok x).
Proof. apply tbl_sat. reflexivity. Qed.
Lemma end_sat c : isCons c = true ->
  Sat F (EndConsClass c) (fun x => EndConsClass c = Ok x).
Proof. apply tbl_sat. reflexivity. Qed.

Lemma toneFromWritten_valid k t a b : t <> T_INVALID -> ToneFromWritten k t a b <> T_INVALID.
Proof. destruct k, t, a, b; cbn; congruence. Qed.

(** ** The unchanging part of a partial syllable *)
Definition StatM (b m : nat) (p : PartialSyl) : Prop :=
  soundIn ct w b m (iConsSound p) /\ classIn ct w b m (iConsClass p) /\
  validSec (pCons2 p) /\ (forall s, preSyl p = Some s -> preOk ct w b m s).
Definition VP (p : PartialSyl) : Prop := pVowel p = V_INVALID \/ validVowel (pVowel p).

(** A partial syllable produced by [MatchInitCons] at position [q]. *)
Record PG (b q stop : nat) (p : PartialSyl) : Prop := {
  pg_stat : StatM b (pPos p) p;
  pg_lo : q < pPos p;
  pg_hi : pPos p <= q + 3;
  pg_n : pPos p <= n;
  pg_stop : q < stop -> pPos p <= stop;
  pg_over : stop <= q -> pPos p = q + 1;
  pg_vowel : VP p;
  pg_end : eConsClass p = EC_NONE;
  pg_complete : isComplete p = true -> validVowel (pVowel p) /\ pTone p = SAMAN
}.

Ltac bools := repeat match goal with
  | H : (_ <=? _) = true |- _ => apply Nat.leb_le in H
  | H : (_ <=? _) = false |- _ => apply Nat.leb_gt in H
  | H : (_ <? _) = true |- _ => apply Nat.ltb_lt in H
  | H : (_ <? _) = false |- _ => apply Nat.ltb_ge in H
  | H : (_ =? _) = true |- _ => apply Nat.eqb_eq in H
  | H : (_ =? _) = false |- _ => apply Nat.eqb_neq in H
  | H : (_ =? _)%N = true |- _ => apply N.eqb_eq in H
  | H : Z.eqb _ _ = true |- _ => apply Z.eqb_eq in H
  | H : Z.eqb _ _ = false |- _ => apply Z.eqb_neq in H
  | H : negb _ = true |- _ => apply negb_true_iff in H
  | H : negb _ = false |- _ => apply negb_false_iff in H
  | H : _ && _ = true |- _ => apply andb_true_iff in H; destruct H
  end.
Ltac dif E := match goal with
  | |- Sat _ (if ?x then _ else _) _ => destruct x eqn:E
  | |- Forall _ (if ?x then _ else _) => destruct x eqn:E
  | |- context [if ?x then _ else _] => destruct x eqn:E
  end.
Ltac fall := repeat (apply Forall_cons; [auto|]); apply Forall_nil.
Ltac flds := cbn [pPos preSyl iConsSound iConsClass pCons2 pVowel eConsClass pTone
  isComplete setPos setVowel setEnd setTone bump emPos emSyl emLinked partial
  completePartial hasPreSyl] in *.

(** ** [MatchInitCons] *)
Section Init.
Variables (b q stop : nat) (linked : bool).
Hypothesis Hbq : b <= q.
Hypothesis Hn : stop <= n.
Variables (c0 : N) (s0 : EInitConsSound) (k0 : EInitConsClass).
Hypothesis Hc0 : nth_error w q = Some c0.
Hypothesis Hcons0 : isCons c0 = true.
Hypothesis Hs0 : InitConsSound c0 = Ok s0.
Hypothesis Hk0 : InitConsClass c0 = Ok k0.

Lemma q_lt : q < n.
Proof. apply nth_error_Some. congruence. Qed.

Lemma ch0 m : q < m -> charIn w b m c0.
Proof. intros H. exists q. split; [lia|exact Hc0]. Qed.
Lemma snd0 m : q < m -> soundIn ct w b m s0.
Proof. intros H. left. exists c0. split; [apply ch0; exact H|auto]. Qed.
Lemma cls0 m : q < m -> classIn ct w b m k0.
Proof. intros H. left. exists c0. split; [apply ch0; exact H|auto]. Qed.
Lemma pre_ok m s : q < m ->
  s = preA s0 k0 \/ s = preAuu s0 k0 -> preOk ct w b m s.
Proof.
  intros H E. destruct E; subst s; unfold preOk, preA, preAuu, SylOf;
    cbn [literal iCons1 iCons2 vowel eCons tone];
    repeat (split; [auto; fail|]); exists c0, k0;
    (split; [apply ch0; exact H|]); auto.
Qed.

Lemma secNone : validSec SEC_NONE. Proof. left; reflexivity. Qed.
Lemma secRa : validSec SEC_RA. Proof. right; left; reflexivity. Qed.
Lemma secLa : validSec SEC_LA. Proof. right; right; left; reflexivity. Qed.
Lemma secWa : validSec SEC_WA. Proof. right; right; right; left; reflexivity. Qed.

(** A partial syllable with the first consonant's sound. *)
Lemma PG_own pos c2 v :
  (pos = q + 1 \/ pos = q + 2) -> pos <= stop -> validSec c2 ->
  (v = V_INVALID \/ validVowel v) ->
  PG b q stop (partial pos None s0 k0 c2 v).
Proof.
  intros Hp Hst H2 Hv. pose proof q_lt.
  constructor; unfold VP, StatM; flds; try lia; try congruence; auto.
  repeat split; try (intros; discriminate); auto;
    [apply snd0|apply cls0]; lia.
Qed.
Lemma PG_single : PG b q stop (partial (q + 1) None s0 k0 SEC_NONE V_INVALID).
Proof.
  pose proof q_lt.
  constructor; unfold VP, StatM; flds; try lia; try congruence; auto.
  repeat split; try (intros; discriminate); auto using secNone;
    [apply snd0|apply cls0]; lia.
Qed.

Section Second.
Variable c1 : N.
Hypothesis Hc1 : nth_error w (q + 1) = Some c1.
Hypothesis Hst1 : q + 1 < stop.

Lemma ch1 m : q + 1 < m -> charIn w b m c1.
Proof. intros H. exists (q + 1). split; [lia|exact Hc1]. Qed.

(** With the sound [s1] and class [k1] found at the second letter (or the
    first one's class). *)
Lemma PG_pre pos pre s1 k1 c2 v (cpl : bool) t :
  (pos = q + 2 \/ pos = q + 3 /\ q + 2 < stop) ->
  (forall m, q + 1 < m -> soundIn ct w b m s1) ->
  (forall m, q + 1 < m -> classIn ct w b m k1) ->
  (forall s, pre = Some s -> s = preA s0 k0 \/ s = preAuu s0 k0) ->
  validSec c2 -> (v = V_INVALID \/ validVowel v) ->
  (cpl = true -> validVowel v /\ t = SAMAN) ->
  PG b q stop (mkPartial pos pre s1 k1 c2 v EC_NONE t cpl).
Proof.
  intros Hp Hs Hk Hpre H2 Hv Hcpl. pose proof q_lt.
  constructor; unfold VP, StatM; flds; try lia; try congruence; auto.
  split; [|split; [|split; [exact H2|]]].
  - apply Hs. lia.
  - apply Hk. lia.
  - intros s E. apply pre_ok; [lia|auto].
Qed.

Lemma notRoAt_sat i : Sat F (notRoAt w i stop) (fun _ => True).
Proof.
  unfold notRoAt. destruct (stop <=? i) eqn:E; bools; cbn [Sat]; auto.
  apply Sat_bind, Sat_at16; [lia|]. intros; cbn [Sat]; auto.
Qed.

Lemma vA : validVowel V_A. Proof. compute; tauto. Qed.
Lemma vI : validVowel V_I. Proof. compute; tauto. Qed.
Lemma vUE : validVowel V_UE. Proof. compute; tauto. Qed.
Lemma vAUU : validVowel V_AUU. Proof. compute; tauto. Qed.

Hint Resolve vA vI vUE vAUU secNone secRa secLa secWa : core.

Lemma clusterRo_sat : Sat F (clusterRo w q stop linked c0 s0 k0) (Forall (PG b q stop)).
Proof.
  unfold clusterRo.
  let H := fresh in dif H.
  - destruct linked; cbn [Sat]; [constructor|].
    apply Sat_bind. eapply Sat_mono; [apply notRoAt_sat|]. intros x _ _. cbn [Sat].
    destruct x; constructor; [apply PG_own; auto; lia|constructor].
  - let H := fresh in dif H; cbn [Sat]; [constructor|].
    let H := fresh in dif H; cbn [Sat]; [|constructor].
    apply Sat_bind. eapply Sat_mono; [apply notRoAt_sat|]. intros x _ _. cbn [Sat].
    destruct x; constructor; [apply PG_own; auto; lia|constructor].
Qed.

Lemma raSound m : c1 = UTH_RO_RUA -> isCons c1 = true -> q + 1 < m -> soundIn ct w b m RA.
Proof.
  intros E Hc H. left. exists c1. split; [apply ch1; exact H|].
  split; [exact Hc|]. subst c1. reflexivity.
Qed.
Lemma raClass m : c1 = UTH_RO_RUA -> isCons c1 = true -> q + 1 < m -> classIn ct w b m LOWS.
Proof.
  intros E Hc H. left. exists c1. split; [apply ch1; exact H|].
  split; [exact Hc|]. subst c1. reflexivity.
Qed.

Lemma auraPart_sat : c1 = UTH_RO_RUA -> isCons c1 = true ->
  Sat F (auraPart ct w q stop c0 s0 k0) (Forall (PG b q stop)).
Proof.
  intros E Hc.
  assert (G : forall pos v, (pos = q + 2 \/ pos = q + 3 /\ q + 2 < stop) ->
              validVowel v ->
              PG b q stop (completePartial pos (Some (preAuu s0 k0)) RA LOWS v)).
  { intros pos v Hp Hv. apply PG_pre; auto.
    - intros; apply raSound; auto.
    - intros; apply raClass; auto.
    - intros s Es. inversion Es. auto. }
  unfold auraPart. dif H1; bools; cbn [Sat]; [|constructor].
  apply Sat_bind, Sat_at16; [lia|]. intros c Hcc.
  let H := fresh in dif H; cbn [Sat]; [constructor|].
  destruct (IsSylStart ct c); cbn [Sat].
  - let H := fresh in dif H; [apply Forall_cons; [|constructor]|constructor]. apply G; auto.
  - let H := fresh in dif H; cbn [Sat]; [constructor; [apply G; auto|constructor]|].
    let H := fresh in dif H; cbn [Sat]; [constructor; [apply G; auto|constructor]|constructor].
Qed.

Lemma clusters_sat : isCons c1 = true ->
  Sat F (clusters ct w q stop linked c0 c1 s0 k0) (Forall (PG b q stop)).
Proof.
  intros Hc. unfold clusters. destruct (c1 =? UTH_RO_RUA)%N eqn:E1; bools.
  - apply Sat_bind. eapply Sat_mono; [apply clusterRo_sat|]. intros l1 _ H1.
    apply Sat_bind. eapply Sat_mono; [apply auraPart_sat; auto|]. intros l2 _ H2.
    cbn [Sat]. apply Forall_app; auto.
  - let H := fresh in dif H; [|let H := fresh in dif H]; cbn [Sat].
    + unfold clusterLo. let H := fresh in dif H; [|constructor]. apply Forall_cons; [|constructor].
      apply PG_own; auto; lia.
    + unfold clusterWo. let H := fresh in dif H; [|constructor]. apply Forall_cons; [|constructor].
      apply PG_own; auto; lia.
    + constructor.
Qed.

Lemma notRoHan_sat : Sat F (notRoHan w q stop c1) (fun _ => True).
Proof. unfold notRoHan. let H := fresh in dif H; [apply notRoAt_sat|exact I]. Qed.

Section SecCons.
Variables (s1 : EInitConsSound) (k1 : EInitConsClass).
Hypothesis Hcons1 : isCons c1 = true.
Hypothesis Hs1 : InitConsSound c1 = Ok s1.
Hypothesis Hk1 : InitConsClass c1 = Ok k1.

Lemma snd1 m : q + 1 < m -> soundIn ct w b m s1.
Proof. intros H. left. exists c1. split; [apply ch1; exact H|auto]. Qed.
Lemma cls1 m : q + 1 < m -> classIn ct w b m k1.
Proof. intros H. left. exists c1. split; [apply ch1; exact H|auto]. Qed.

Lemma hoNam_sat : Sat F (hoNam w q stop c0 c1 s1 k1) (Forall (PG b q stop)).
Proof.
  unfold hoNam. dif E; bools; cbn [Sat]; [|constructor].
  apply Sat_bind. eapply Sat_mono; [apply notRoHan_sat|]. intros x _ _. cbn [Sat].
  destruct x; [apply Forall_cons; [|constructor]|constructor].
  apply PG_pre; auto using snd1; try discriminate.
  intros m Hm. left. exists c0. split; [apply ch0; lia|].
  split; [exact Hcons0|]. subst c0. reflexivity.
Qed.
Lemma aKung_sat : Sat F (aKung w q stop c1 s0 k0 s1 k1) (Forall (PG b q stop)).
Proof.
  unfold aKung.
  apply Sat_bind. eapply Sat_mono; [apply notRoHan_sat|]. intros x _ _. cbn [Sat].
  destruct x; [apply Forall_cons; [|constructor]|constructor].
  apply PG_pre; auto using snd1; try discriminate.
  - intros m Hm. destruct (ic_eqb LOWS k1); [apply cls0; lia|apply cls1; exact Hm].
  - intros s Es. inversion Es. auto.
Qed.
Lemma badi_sat : Sat F (badi w q stop c0 c1 s0 k0) (Forall (PG b q stop)).
Proof.
  unfold badi. dif E; bools; cbn [Sat]; [|constructor].
  apply Sat_bind, Sat_at16; [lia|]. intros c _. cbn [Sat].
  let H := fresh in dif H; [apply Forall_cons; [|constructor]|constructor]. pose proof q_lt.
  constructor; unfold VP, StatM; flds; try lia; try congruence; auto.
  repeat split; try (intros; discriminate); auto;
    [apply snd0|apply cls0]; lia.
Qed.
End SecCons.

Lemma ruPart_sat : c1 = UTH_RU ->
  Sat F (ruPart ct w q stop c0 s0 k0) (Forall (PG b q stop)).
Proof.
  intros E.
  assert (RS : forall m, q + 1 < m -> soundIn ct w b m RA).
  { intros m H. right; left. split; [|reflexivity]. rewrite <- E. apply ch1. exact H. }
  assert (RC : forall m, q + 1 < m -> classIn ct w b m LOWS).
  { intros m H. right. split; [|reflexivity]. left. rewrite <- E. apply ch1. exact H. }
  assert (RK : forall m, q + 1 < m -> classIn ct w b m k0) by (intros; apply cls0; lia).
  assert (O : forall c2 v, validSec c2 -> validVowel v ->
              PG b q stop (partial (q + 2) None s0 k0 c2 v))
    by (intros; apply PG_own; auto; lia).
  assert (P : forall k v, k = k0 \/ k = LOWS -> validVowel v ->
              PG b q stop (partial (q + 2) (Some (preA s0 k0)) RA k SEC_NONE v)).
  { intros k v Hk Hv. apply PG_pre; auto; try discriminate.
    - destruct Hk; subst; auto.
    - intros s Es. inversion Es. auto. }
  assert (C : forall v, validVowel v ->
              PG b q stop (completePartial (q + 2) (Some (preA s0 k0)) RA LOWS v)).
  { intros v Hv. apply PG_pre; auto. intros s Es. inversion Es. auto. }
  unfold ruPart. apply Sat_bind.
  apply (Sat_mono F _ (fun _ => True)).
  { destruct (stop <=? q + 2) eqn:H2; bools; [exact I|].
    apply Sat_bind, Sat_at16; [lia|]. intros c Hc. exact I. }
  intros go _ _. destruct (negb go); cbn [Sat]; [constructor|].
  let H := fresh in dif H; cbn [Sat]; [fall|].
  let H := fresh in dif H; cbn [Sat]; [fall|].
  let H := fresh in dif H; cbn [Sat]; [fall|].
  let H := fresh in dif H; cbn [Sat]; [fall|].
  let H := fresh in dif H; cbn [Sat].
  - apply Sat_bind. apply (Sat_mono F _ (fun _ => True)).
    { destruct (q + 2 <? stop) eqn:H22; bools; [|exact I].
      apply Sat_bind, Sat_at16; [lia|]. intros c Hc.
      destruct (isCons c) eqn:Ec; [|exact I].
      apply Sat_bind. eapply Sat_mono; [apply end_sat; exact Ec|]. intros; exact I. }
    intros x _ _. cbn [Sat]. destruct x; fall.
  - destruct (UTH_HO_HIP =? c0)%N; cbn [app]; fall.
Qed.
End Second.

Lemma secondPart_sat : Sat F (secondPart ct w q stop linked c0 s0 k0) (Forall (PG b q stop)).
Proof.
  unfold secondPart. dif H1; bools; cbn [Sat]; [|constructor].
  apply Sat_bind, Sat_at16; [lia|]. intros c1 Hc1.
  destruct (isCons c1) eqn:Ec.
  - apply Sat_bind. eapply Sat_mono; [apply sound_sat; exact Ec|]. intros s1 _ Hs1.
    apply Sat_bind. eapply Sat_mono; [apply class_sat; exact Ec|]. intros k1 _ Hk1.
    apply Sat_bind. eapply Sat_mono; [apply clusters_sat; auto|]. intros l1 _ L1.
    apply Sat_bind. eapply Sat_mono; [eapply hoNam_sat; eauto|]. intros l2 _ L2.
    apply Sat_bind. eapply Sat_mono; [apply aKung_sat; auto|]. intros l3 _ L3.
    apply Sat_bind. eapply Sat_mono; [apply badi_sat; auto|]. intros l4 _ L4.
    cbn [Sat]. repeat (apply Forall_app; split); auto.
  - dif E; bools; cbn [Sat]; [|constructor].
    eapply ruPart_sat; eauto.
Qed.

Lemma paliPart_sat : Sat F (paliPart ct w q stop s0 k0) (Forall (PG b q stop)).
Proof.
  unfold paliPart. dif H1; bools; cbn [Sat]; [|constructor].
  apply Sat_bind, Sat_at16; [lia|]. intros c1 Hc1. cbn [Sat].
  destruct (IsSylStart ct c1); [apply Forall_cons; [|constructor]|constructor]. pose proof q_lt.
  constructor; unfold VP, StatM; flds; try lia; try congruence; auto using vA, secNone.
  repeat split; try (intros; discriminate); auto using secNone;
    [apply snd0|apply cls0]; lia.
Qed.
End Init.

Lemma MatchInitCons_sat b q stop linked :
  b <= q -> stop <= n -> (n <= q -> F) ->
  Sat F (MatchInitCons ct w q stop linked) (Forall (PG b q stop)).
Proof.
  intros Hb Hn Hq. unfold MatchInitCons. apply Sat_bind, Sat_at16'; [exact Hq|].
  intros c0 Hc0. destruct (isCons c0) eqn:Ec; cbn [negb Sat]; [|constructor].
  apply Sat_bind. eapply Sat_mono; [apply sound_sat; exact Ec|]. intros s0 _ Hs0.
  apply Sat_bind. eapply Sat_mono; [apply class_sat; exact Ec|]. intros k0 _ Hk0.
  apply Sat_bind. eapply Sat_mono; [eapply secondPart_sat; eauto|]. intros l _ L.
  apply Sat_bind. eapply Sat_mono; [eapply paliPart_sat; eauto|]. intros l' _ L'.
  cbn [Sat]. apply Forall_app; split; [exact L|].
  apply Forall_app; split; [|exact L'].
  constructor; [eapply PG_single; eauto|constructor].
Qed.

(** ** Silenced letters *)
Lemma karanSimple_sat i stop : stop <= n ->
  Sat F (MatchKaranSimple ct w i stop)
      (fun k => k = i \/ k = i + 2 /\ i + 1 < stop).
Proof.
  intros Hn. unfold MatchKaranSimple. dif H; bools; cbn [Sat]; [|auto].
  apply Sat_bind, Sat_at16; [lia|]. intros c1 _. let H := fresh in dif H; cbn [Sat]; [|auto].
  apply Sat_bind, Sat_at16; [lia|]. intros c0 _. cbn [Sat].
  destruct (isCons c0); auto.
Qed.
Lemma karanIU_sat i stop : stop <= n ->
  Sat F (MatchKaranIU ct w i stop) (fun k => k = i \/ k = i + 3 /\ i + 2 < stop).
Proof.
  intros Hn. unfold MatchKaranIU. dif H; bools; cbn [Sat]; [|auto].
  apply Sat_bind, Sat_at16; [lia|]. intros c1 _. let H := fresh in dif H; cbn [Sat]; [|auto].
  apply Sat_bind, Sat_at16; [lia|]. intros c0 _. destruct (isCons c0); cbn [Sat]; [|auto].
  apply Sat_bind, Sat_at16; [lia|]. intros c2 _. cbn [Sat]. let H := fresh in dif H; auto.
Qed.
Lemma karanComplex_sat i stop : stop <= n ->
  Sat F (MatchKaranComplex ct w i stop)
      (fun k => k = i \/ i < k <= i + 3 /\ k <= stop).
Proof.
  intros Hn. unfold MatchKaranComplex. apply Sat_bind.
  eapply Sat_mono; [apply karanSimple_sat; exact Hn|]. intros k _ Hk.
  cbv beta in Hk. destruct (negb (k =? i)) eqn:E; bools; cbn [Sat]; [right; lia|].
  dif H; bools; cbn [Sat]; [|auto].
  apply Sat_bind, Sat_at16; [lia|]. intros c1 _. let H := fresh in dif H; cbn [Sat]; [|auto].
  apply Sat_bind, Sat_at16; [lia|]. intros c0 _. destruct (isCons c0); cbn [Sat]; [|auto].
  apply Sat_bind, Sat_at16; [lia|]. intros c2 _. cbn [Sat].
  let H := fresh in dif H; [right; lia|auto].
Qed.

(** ** Emissions *)
(** The end position of an emission: within the stop position, except that a
    leading vowel directly before it makes [ParseOtherLV] take one letter more. *)
Definition inB (b stop k : nat) : Prop := k <= stop \/ k = b + 2 /\ stop = b + 1 /\ ov = 1.

Record EmG (b stop : nat) (e : Emission) : Prop := {
  eg_sound : soundIn ct w b (emPos e) (iConsSound (emSyl e));
  eg_class : classIn ct w b (emPos e) (iConsClass (emSyl e));
  eg_sec : validSec (pCons2 (emSyl e));
  eg_pre : forall s, preSyl (emSyl e) = Some s -> preOk ct w b (emPos e) s;
  eg_vowel : validVowel (pVowel (emSyl e));
  eg_tone : toneIn w b (emPos e) (pTone (emSyl e));
  eg_endc : endIn w b (emPos e + (if emLinked e then 1 else 0)) (eConsClass (emSyl e));
  eg_lo : b < emPos e;
  eg_hi : emPos e <= b + 20;
  eg_n : emPos e <= n;
  eg_stop : inB b stop (emPos e);
  eg_link : emLinked e = true -> emPos e < stop /\
            exists c, nth_error w (emPos e) = Some c /\ isCons c = true
}.

Record Live (b : nat) (p : PartialSyl) : Prop := {
  lv_stat : StatM b (pPos p) p;
  lv_tone : toneIn w b (pPos p) (pTone p);
  lv_lo : b < pPos p;
  lv_n : pPos p <= n
}.

Lemma StatM_mono b m m' p : StatM b m p -> m <= m' -> StatM b m' p.
Proof.
  intros (A & B & C & D) H. split; [|split; [|split; [exact C|]]].
  - eapply soundIn_mono; eauto.
  - eapply classIn_mono; eauto.
  - intros s E. eapply preOk_mono; [apply D; exact E| |]; auto.
Qed.
Lemma Live_setPos b p k : Live b p -> pPos p <= k -> k <= n -> Live b (setPos p k).
Proof.
  intros [A B C D] H1 H2. constructor; flds; try lia.
  - apply (StatM_mono _ (pPos p)); [exact A|lia].
  - eapply toneIn_mono; [exact B|lia|lia].
Qed.
Lemma Live_bump b p : Live b p -> pPos p < n -> Live b (bump p).
Proof. intros H1 H2. apply Live_setPos; [exact H1|lia|lia]. Qed.
Lemma Live_setVowel b p v : Live b p -> Live b (setVowel p v).
Proof. intros [A B C D]. constructor; assumption. Qed.
Lemma Live_setEnd b p v : Live b p -> Live b (setEnd p v).
Proof. intros [A B C D]. constructor; assumption. Qed.
Lemma Live_setTone b p : StatM b (pPos p) p -> b < pPos p -> pPos p <= n ->
  Live b (setTone p SAMAN).
Proof. intros A B C. constructor; flds; auto. left; reflexivity. Qed.

Lemma EmG_intro b stop k p :
  Live b p -> pPos p <= k -> k <= b + 20 -> k <= n -> inB b stop k ->
  validVowel (pVowel p) -> endIn w b k (eConsClass p) ->
  EmG b stop (mkEm k p false).
Proof.
  intros [A B C D] H1 H2 H3 H4 H5 H6.
  destruct (StatM_mono _ _ k _ A H1) as (A1 & A2 & A3 & A4).
  constructor; flds; auto; try lia; try discriminate.
  - eapply toneIn_mono; [exact B|lia|lia].
  - rewrite Nat.add_0_r. exact H6.
Qed.
Lemma EmG_link b stop p c :
  Live b p -> pPos p <= b + 20 -> pPos p < stop -> stop <= n ->
  validVowel (pVowel p) -> nth_error w (pPos p) = Some c -> isCons c = true ->
  EndConsClass c = Ok (eConsClass p) ->
  EmG b stop (mkEm (pPos p) p true).
Proof.
  intros [A B C D] H1 H2 H3 H4 H5 H6 H7.
  destruct A as (A1 & A2 & A3 & A4).
  constructor; flds; auto; try lia.
  - right; left. exists c. split; [|exact H7]. exists (pPos p). split; [lia|exact H5].
  - left; lia.
  - intros _. split; [lia|]. exists c. auto.
Qed.

(** Vowels and ends used by the rules. *)
Ltac vv := unfold validVowel, vowelCodes; cbn [In]; tauto.
Lemma endNone b k : endIn w b k EC_NONE. Proof. left; reflexivity. Qed.

Lemma tone_sat c : th_wcisthtone ct c = true ->
  Sat F (ThCharToTone c) (fun t => toneSign c = Some t).
Proof.
  intros H. unfold Sat. destruct ctOK as [f|OK].
  - unfold ThCharToTone, assocAt, ThCharToToneTbl_, toneSign.
    unfold UTH_MAI_EK, UTH_MAI_THO, UTH_MAI_TRI, UTH_MAI_CHATTAWA.
    repeat (match goal with |- context [if ?x then _ else _] => destruct x end;
            [reflexivity|]).
    exact f.
  - destruct (tone_range _ OK c H) as [E|[E|[E|E]]]; subst c; reflexivity.
Qed.

Lemma readTone_sat b p : Live b p -> pPos p < n ->
  Sat F (readTone ct w p) (fun p' => Live b p' /\ pPos p <= pPos p' <= pPos p + 1 /\
      pVowel p' = pVowel p /\ eConsClass p' = eConsClass p).
Proof.
  intros L H. unfold readTone. apply Sat_bind, Sat_at16; [exact H|]. intros c Hc.
  dif E; cbn [Sat]; [|split; [exact L|repeat split; auto; lia]].
  apply Sat_bind. eapply Sat_mono; [apply tone_sat; exact E|]. intros t _ Ht. cbn [Sat].
  destruct L as [A B C D]. split; [|flds; repeat split; lia].
  constructor; flds; try lia.
  - apply (StatM_mono _ (pPos p)); [exact A|lia].
  - right. exists c. split; [|exact Ht]. exists (pPos p). split; [lia|exact Hc].
Qed.

Lemma nextIs_sat stop p ch : stop <= n ->
  Sat F (nextIs w stop p ch)
      (fun r => r = true -> pPos p < stop /\ nth_error w (pPos p) = Some ch).
Proof.
  intros Hn. unfold nextIs. dif E; bools; cbn [Sat]; [|discriminate].
  apply Sat_bind, Sat_at16; [lia|]. intros c Hc. cbn [Sat].
  intros Ec. bools. subst. auto.
Qed.
Lemma stopOrSylStart_sat i stop : stop <= n ->
  Sat F (stopOrSylStart ct w i stop) (fun _ => True).
Proof.
  intros Hn. unfold stopOrSylStart. dif E; bools; cbn [Sat]; auto.
  apply Sat_bind, Sat_at16; [lia|]. intros; exact I.
Qed.

Lemma karanEmit_sat b stop p :
  Live b p -> stop <= n -> pPos p <= b + 18 -> inB b stop (pPos p) ->
  validVowel (pVowel p) -> endIn w b (pPos p) (eConsClass p) ->
  Sat F (karanEmit ct w stop p) (fun r => EmG b stop (fst r) /\
     snd r = setPos p (pPos (snd r)) /\ Live b (snd r) /\
     pPos p <= pPos (snd r) <= pPos p + 2 /\ inB b stop (pPos (snd r))).
Proof.
  intros L Hn H1 H2 H3 H4. unfold karanEmit. apply Sat_bind.
  eapply Sat_mono; [apply karanSimple_sat; exact Hn|]. cbv beta. intros k _ Hk.
  cbn [Sat fst snd]. assert (Hkn : pPos p <= k <= n) by (pose proof (lv_n _ _ L); lia).
  assert (HB : inB b stop k) by (unfold inB in *; lia).
  assert (L' : Live b (setPos p k)) by (apply Live_setPos; [exact L|lia|lia]).
  split; [|split; [reflexivity|split; [exact L'|split; [flds; lia|exact HB]]]].
  apply EmG_intro; flds; auto; try lia. eapply endIn_mono; [exact H4|lia].
Qed.

Section Eat.
Variables (b stop : nat).
Hypothesis Hn : stop <= n.

Lemma endConsAt_sat i excl : i < n ->
  Sat F (endConsAt ct w i excl) (fun r => forall c e, r = Some (c, e) ->
    nth_error w i = Some c /\ isCons c = true /\ EndConsClass c = Ok e).
Proof.
  intros Hi. unfold endConsAt. apply Sat_bind, Sat_at16; [exact Hi|]. intros c Hc.
  dif E; cbn [Sat]; [|discriminate].
  apply Sat_bind. eapply Sat_mono; [apply end_sat; exact E|]. cbv beta. intros e _ He.
  cbn [Sat]. intros c' e' H. destruct (_ && _) in H; [|discriminate].
  inversion H; subst. auto.
Qed.

Lemma endCons_in i k c e : b <= i < k -> nth_error w i = Some c -> EndConsClass c = Ok e ->
  endIn w b k e.
Proof.
  intros Hi Hc He. right; left. exists c. split; [|exact He]. exists i. auto.
Qed.

Lemma eatSimple_sat p excl :
  Live b p -> pPos p < stop -> pPos p <= b + 16 -> validVowel (pVowel p) ->
  Sat F (EatEndConsSimple ct w stop p excl) (Forall (EmG b stop)).
Proof.
  intros L H1 H2 H3. unfold EatEndConsSimple. apply Sat_bind.
  eapply Sat_mono; [apply endConsAt_sat; lia|]. cbv beta. intros r _ Hr.
  destruct r as [(c & e)|]; cbn [Sat]; [|constructor].
  destruct (Hr _ _ eq_refl) as (Hc & Hcc & He).
  apply Sat_bind. eapply Sat_mono; [apply karanComplex_sat; exact Hn|]. cbv beta.
  intros k _ Hk. cbn [Sat]. constructor; [|constructor].
  pose proof (lv_lo _ _ L).
  apply EmG_intro; flds; auto; try lia.
  - apply Live_setEnd; exact L.
  - left; lia.
  - eapply endCons_in; [|exact Hc|exact He]. lia.
Qed.

Lemma eatComplex_sat p excl :
  Live b p -> pPos p < stop -> pPos p <= b + 16 -> validVowel (pVowel p) ->
  Sat F (EatEndConsComplex ct w stop p excl) (Forall (EmG b stop)).
Proof.
  intros L H1 H2 H3. unfold EatEndConsComplex. apply Sat_bind.
  eapply Sat_mono; [apply endConsAt_sat; lia|]. cbv beta. intros r _ Hr.
  destruct r as [(c & e)|]; cbn [Sat]; [|constructor].
  destruct (Hr _ _ eq_refl) as (Hc & Hcc & He).
  cbv zeta. set (p' := setEnd p e).
  pose proof (lv_lo _ _ L).
  assert (L' : Live b p') by (apply Live_setEnd; exact L).
  assert (Ep : pPos p' = pPos p) by reflexivity.
  assert (Ev : pVowel p' = pVowel p) by reflexivity.
  assert (Ee : eConsClass p' = e) by reflexivity.
  clearbody p'.
  assert (G : forall k, pPos p + 1 <= k -> k <= pPos p + 4 -> k <= stop ->
              EmG b stop (mkEm k p' false)).
  { intros k K1 K2 K3. apply EmG_intro; auto; try lia.
    - left; lia.
    - rewrite Ev; exact H3.
    - rewrite Ee. eapply endCons_in; [|exact Hc|exact He]. lia. }
  assert (K : EmG b stop (mkEm (pPos p') p' true)).
  { eapply EmG_link; eauto; try lia; rewrite ?Ep, ?Ev, ?Ee; auto. }
  apply Sat_bind. eapply Sat_mono; [apply karanComplex_sat; exact Hn|]. cbv beta.
  intros k _ Hk. rewrite Ep in *.
  dif E; bools; cbn [Sat]; [constructor; [|constructor]; apply G; lia|].
  apply Sat_bind. apply (Sat_mono F _ (Forall (EmG b stop))).
  2:{ intros l _ Hl. cbn [Sat]. constructor; [apply G; lia|exact Hl]. }
  assert (KL : forall ch, Forall (EmG b stop) (linkIf ct p' ch)).
  { intros ch. unfold linkIf. dif E2; [|constructor]. constructor; [|constructor].
    rewrite Ep. exact K. }
  unfold linkPart. rewrite Ep. cbv zeta. dif E1; bools; cbn [Sat]; [|constructor].
  apply Sat_bind, Sat_at16; [lia|]. intros c1 Hc1. dif E2.
  - apply Sat_bind. apply (Sat_mono F _ (Forall (EmG b stop))).
    + dif E3; cbn [Sat]; [|constructor]. apply Sat_bind.
      eapply Sat_mono; [apply stopOrSylStart_sat; exact Hn|]. intros x _ _. cbn [Sat].
      dif E4; [|constructor]. constructor; [|constructor]. apply G; lia.
    + intros a _ Ha. dif E3; bools; cbn [Sat]; [exact Ha|].
      apply Sat_bind, Sat_at16; [lia|]. intros c2 _. cbn [Sat].
      apply Forall_app; auto.
  - dif E3; cbn [Sat]; [|apply KL].
    apply Sat_bind. apply (Sat_mono F _ (fun _ => True)).
    + dif E4; [apply stopOrSylStart_sat; exact Hn|exact I].
    + intros x _ _. dif E4; cbn [Sat]; [|apply KL].
      dif E5; bools; cbn [Sat].
      * constructor; [apply G; lia|constructor].
      * constructor; [apply G; lia|apply KL].
Qed.

Notation Em := (Forall (EmG b stop)).
Ltac lv_ := repeat first
  [ assumption | apply Live_setEnd | apply Live_setVowel
  | apply Live_bump; [|flds; lia] ].
Ltac seq H := apply Sat_bind; eapply Sat_mono; [apply H|]; cbv beta.
Ltac one := apply Forall_cons; [|apply Forall_nil].

(** [karanEmit] as a last step. *)
Lemma karanLast p : Live b p -> pPos p <= b + 18 -> inB b stop (pPos p) ->
  validVowel (pVowel p) -> endIn w b (pPos p) (eConsClass p) ->
  Sat F (bind (karanEmit ct w stop p) (fun x => match x with (e, _) => Ok [e] end)) Em.
Proof.
  intros H1 H2 H3 H4 H5. apply Sat_bind.
  eapply Sat_mono; [apply (karanEmit_sat b); auto|]. cbv beta.
  intros (e & p') _ (A & _). cbn [Sat fst snd] in *. one. exact A.
Qed.

Lemma thMaiHanAkat_sat p : Live b p -> pPos p < stop -> pPos p <= b + 4 ->
  Sat F (thMaiHanAkat ct w stop p) Em.
Proof.
  intros L H1 H2. unfold thMaiHanAkat. cbv zeta. flds. dif E; bools; [constructor|].
  seq (readTone_sat b (bump p)); [lv_|flds; lia|]. intros p1 _ (L1 & B1 & V1 & E1). flds.
  dif E2; bools; [constructor|]. apply Sat_bind, Sat_at16; [lia|]. intros c Hc.
  dif E3.
  - seq (nextIs_sat stop (bump p1) UTH_SARA_A Hn). intros sa _ Hsa. flds.
    destruct sa.
    + destruct Hsa as (S1 & _); [reflexivity|].
      apply karanLast; flds; try lia; try (unfold inB; lia); try vv; [|apply endNone].
      lv_.
    + apply karanLast; flds; try lia; try (unfold inB; lia); try vv; [|apply endNone].
      lv_.
  - dif E4; [apply eatComplex_sat|apply eatSimple_sat]; flds; try lia; try vv; lv_.
Qed.

Lemma thUpDownEnd_sat p : Live b p -> pPos p <= b + 12 -> validVowel (pVowel p) ->
  Sat F (thUpDownEnd ct w stop p) Em.
Proof.
  intros L H1 H2. unfold thUpDownEnd. cbv zeta. dif E; bools; [|constructor].
  apply Sat_bind, Sat_at16; [lia|]. intros c Hc. dif E1; [constructor|].
  dif E2.
  - dif E3; [|apply eatSimple_sat; auto; lia].
    apply karanLast; flds; try lia; try (unfold inB; lia); auto; [|apply endNone]. lv_.
  - dif E3; [apply eatSimple_sat|apply eatComplex_sat]; auto; lia.
Qed.

Lemma upDown_sat c : th_wcisupvowel ct c || th_wcisblvowel ct c = true ->
  (UTH_MAI_HAN_AKAT =? c)%N = false ->
  Sat F (ThCharToAboveBelowVowel c) validVowel.
Proof.
  intros H HM. destruct ctOK as [f|OK].
  - unfold Sat, ThCharToAboveBelowVowel, assocAt, ThCharToAboveBelowVowelTbl_.
    repeat (match goal with |- context [if ?x then _ else _] => destruct x end; [vv|]).
    exact f.
  - apply orb_true_iff in H. destruct H as [H|H].
    + destruct (upvowel_range _ OK c H) as [E|[E|[E|[E|E]]]]; subst c;
        [discriminate| | | |]; unfold validVowel; cbn; tauto.
    + destruct (blvowel_range _ OK c H) as [E|E]; subst c; unfold validVowel; cbn; tauto.
Qed.

Lemma thUpDown_sat p c : Live b p -> pPos p < stop -> pPos p <= b + 4 ->
  th_wcisupvowel ct c || th_wcisblvowel ct c = true ->
  (UTH_MAI_HAN_AKAT =? c)%N = false ->
  Sat F (thUpDown ct w stop p c) Em.
Proof.
  intros L H1 H2 Hc HM. unfold thUpDown. cbv zeta.
  seq (upDown_sat c Hc HM). intros v _ Hv.
  apply Sat_bind. apply (Sat_mono F _ (fun p' => Live b p' /\
    pPos p + 1 <= pPos p' <= pPos p + 2 /\ pVowel p' = v /\ pPos p' <= stop)).
  { dif E; flds; bools.
    - eapply Sat_mono; [apply (readTone_sat b); [lv_|flds; lia]|]. cbv beta. flds.
      intros p' _ (A & B & C & D). split; [exact A|]. repeat split; auto; lia.
    - cbn [Sat]. flds. split; [lv_|]. repeat split; lia. }
  cbv beta. intros p1 _ (L1 & B1 & V1 & S1).
  apply Sat_bind. apply (Sat_mono F _ (fun _ => True)).
  { dif E; bools; [exact I|]. apply Sat_bind, Sat_at16; [lia|]. intros; exact I. }
  intros op _ _. assert (V1' : validVowel (pVowel p1)) by (rewrite V1; exact Hv).
  assert (Q : forall k, pPos p1 <= k -> k <= pPos p1 + 4 -> k <= stop ->
     forall p2, Live b p2 -> pPos p2 <= k -> pVowel p2 = v -> eConsClass p2 = EC_NONE ->
     EmG b stop (mkEm k p2 false)).
  { intros k K1 K2 K3 p2 P1 P2 P3 P4. apply EmG_intro; auto; try lia.
    - left; lia.
    - rewrite P3; exact Hv.
    - rewrite P4. apply endNone. }
  dif E; [|apply thUpDownEnd_sat; auto; lia].
  seq (karanSimple_sat (pPos (setEnd p1 EC_NONE)) stop Hn). flds. intros k _ Hk.
  apply Sat_bind. apply (Sat_mono F _ (fun k' => k' = pPos p1 \/
     k' = pPos p1 + 3 /\ pPos p1 + 2 < stop)).
  { dif E1; [apply karanIU_sat; exact Hn|]. cbn [Sat]. auto. }
  cbv beta. intros k' _ Hk'. dif E2; bools.
  - one. apply Q; flds; try lia; auto. lv_.
  - assert (Lk : Live b (setPos (setEnd p1 EC_NONE) k))
      by (apply Live_setPos; flds; [lv_|lia|lia]).
    seq (thUpDownEnd_sat (setPos (setEnd p1 EC_NONE) k)); flds; try lia; auto.
    intros l _ Hl. cbn [Sat]. constructor; [|exact Hl]. apply Q; flds; try lia; auto.
Qed.

Lemma thMaitaikhu_sat p : Live b p -> pPos p < stop -> pPos p <= b + 4 ->
  Sat F (thMaitaikhu ct w stop p) Em.
Proof.
  intros L H1 H2. unfold thMaitaikhu, ifRoom. cbv zeta.
  seq (nextIs_sat stop (bump p) UTH_O_ANG Hn). flds. intros x _ Hx.
  dif E; [|constructor]. destruct Hx as (X & _); [reflexivity|].
  dif E1; bools; [constructor|].
  seq (karanSimple_sat (pPos p + 1 + 1) stop Hn). intros k _ Hk. flds.
  dif E2; bools; [|constructor].
  apply eatSimple_sat; flds; try lia; try vv. apply Live_setPos; flds; [lv_|lia|lia].
Qed.

Lemma thRoRua_sat p : Live b p -> pPos p < stop -> pPos p <= b + 5 ->
  nth_error w (pPos p) = Some UTH_RO_RUA ->
  Sat F (thRoRua ct w stop p) Em.
Proof.
  intros L H1 H2 Hc. unfold thRoRua. cbv zeta. pose proof (lv_lo _ _ L).
  apply Sat_bind. apply (Sat_mono F _ (fun r => Em (fst r) /\ Live b (snd r) /\
     pPos p + 1 <= pPos (snd r) <= pPos p + 3 /\ pPos (snd r) <= stop)).
  { dif E.
    - seq (karanEmit_sat b stop (setEnd (setVowel (bump p) V_AUU) KON)); flds;
        try lia; try (unfold inB; lia); try vv; [lv_| |].
      + eapply endCons_in; [|exact Hc|reflexivity]. lia.
      + intros (e & p') _ (A & B & C & D & G). cbn [Sat fst snd] in *.
        split; [one; exact A|]. split; [exact C|]. unfold inB in G. lia.
    - cbn [Sat fst snd]. flds. split; [constructor|]. split; [lv_|lia]. }
  cbv beta. intros (a & p1) _ (A & L1 & B1 & S1). cbn [fst snd] in *.
  seq (nextIs_sat stop p1 UTH_RO_RUA Hn). intros x _ Hx.
  dif E; [|exact A]. destruct Hx as (X & Hc1); [reflexivity|].
  seq (karanSimple_sat (pPos p1 + 1) stop Hn). flds. intros k _ Hk.
  apply Sat_bind. apply (Sat_mono F _ Em).
  { dif E1; bools; [|constructor]. apply eatComplex_sat; flds; try lia; try vv. lv_. }
  intros l _ Hl. cbn [Sat]. apply Forall_app; split; [exact A|].
  constructor; [|exact Hl]. apply EmG_intro; flds; try lia; try vv.
  - lv_.
  - left; lia.
  - eapply endCons_in; [|exact Hc1|reflexivity]. lia.
Qed.

Lemma thDefault_sat linked p c : Live b p -> pPos p < stop -> pPos p <= b + 5 -> VP p ->
  Sat F (thDefault ct w stop linked p c) Em.
Proof.
  intros L H1 H2 HV. unfold thDefault. cbv zeta. dif E; [|constructor].
  dif E1.
  - seq (end_sat c E). intros e _ _. dif E2; [|constructor].
    apply eatSimple_sat; flds; try lia; try vv. lv_.
  - assert (V : validVowel (pVowel p)).
    { destruct HV as [H|H]; [|exact H]. rewrite H in E1. discriminate. }
    seq (eatComplex_sat (setEnd p EC_NONE) [UTH_WO_WAEN]); flds; try lia; auto; [lv_|].
    intros l _ Hl. cbn [Sat]. constructor; [|exact Hl].
    apply EmG_intro; flds; try lia; auto; [lv_|left; lia|apply endNone].
Qed.

Lemma VP_eq p q : VP p -> pVowel q = pVowel p -> VP q.
Proof. unfold VP. intros H E. rewrite E. exact H. Qed.

Lemma thOther_sat linked p : Live b p -> pPos p < stop -> pPos p <= b + 4 -> VP p ->
  Sat F (thOther ct w stop linked p) Em.
Proof.
  intros L H1 H2 HV. unfold thOther, ifRoom. cbv zeta.
  seq (readTone_sat b p); [exact L|lia|]. intros p1 _ (L1 & B1 & V1 & _).
  dif E; bools; [constructor|]. apply Sat_bind, Sat_at16; [lia|]. intros c Hc.
  pose proof (lv_lo _ _ L1).
  assert (K : forall v e, validVowel v -> endIn w b (pPos p1 + 1) e ->
     Sat F (karanEmit ct w stop (setEnd (setVowel (bump p1) v) e))
       (fun r => EmG b stop (fst r) /\ Live b (snd r) /\ pPos (snd r) <= b + 10 /\
                 pVowel (snd r) = v)).
  { intros v e Hv He. eapply Sat_mono; [apply (karanEmit_sat b)|]; flds;
      try lia; try (unfold inB; lia); auto; [lv_|].
    intros (x & p') _ (A & B & C & D & G). cbn [fst snd] in *. rewrite B. flds.
    split; [exact A|]. split; [rewrite <- B; exact C|]. split; [lia|reflexivity]. }
  dif E1; [|dif E2; [|dif E3; [|dif E4; [|dif E5; [|dif E6]]]]]; bools; try subst c.
  - seq (K V_A EC_NONE); [vv|apply endNone|]. intros (e & p') _ (A & _). one. exact A.
  - seq (K V_AA EC_NONE); [vv|apply endNone|]. intros (e & p') _ (A & B & C & D).
    cbn [fst snd] in *. apply Sat_bind. apply (Sat_mono F _ Em).
    + dif E3; bools; [|constructor]. apply eatComplex_sat; auto; try lia. rewrite D. vv.
    + intros l _ Hl. constructor; auto.
  - seq (K V_A KOM); [vv| |].
    + right; right; left. split; [|reflexivity]. exists (pPos p1). split; [lia|exact Hc].
    + intros (e & p') _ (A & _). one. exact A.
  - dif E5; flds; bools; [|constructor].
    apply eatSimple_sat; flds; try lia; try vv. lv_.
  - seq (K V_AUU EC_NONE); [vv|apply endNone|]. intros (e & p') _ (A & B & C & D).
    cbn [fst snd] in *. apply Sat_bind. apply (Sat_mono F _ Em).
    + dif E6; bools; [|constructor]. apply eatSimple_sat; auto; try lia. rewrite D. vv.
    + intros l _ Hl. constructor; auto.
  - apply thRoRua_sat; auto; lia.
  - apply thDefault_sat; auto; try lia. eapply VP_eq; eauto.
Qed.

Lemma thPartial_sat linked p : b < stop -> PG b b stop p ->
  Sat F (thPartial ct w stop linked p) Em.
Proof.
  intros Hb [A B C D G G' V EE EC]. unfold thPartial. cbv zeta.
  dif E; bools; [constructor|]. dif E1.
  - destruct (EC eq_refl) as (V1 & T1). one. apply EmG_intro; auto; try lia.
    + constructor; auto; try lia. rewrite T1. left; reflexivity.
    + left; lia.
    + rewrite EE. apply endNone.
  - apply Sat_bind, Sat_at16; [lia|]. intros c Hc.
    assert (L : Live b (setTone p SAMAN)) by (apply Live_setTone; auto; lia).
    dif E2; [|dif E3; [|dif E4]].
    + apply thMaiHanAkat_sat; flds; auto; lia.
    + apply thUpDown_sat; flds; auto; lia.
    + apply thMaitaikhu_sat; flds; auto; lia.
    + apply thOther_sat; flds; auto; lia.
Qed.

Lemma ParseThCons_sat linked : b < stop ->
  Sat F (ParseThCons ct w b stop linked) Em.
Proof.
  intros Hb. unfold ParseThCons.
  seq (MatchInitCons_sat b b stop linked); auto; [lia|]. intros l _ Hl.
  apply Sat_forPartials. intros p Hp. apply thPartial_sat; [exact Hb|].
  rewrite Forall_forall in Hl. auto.
Qed.

(** ** SARA E *)
Lemma eSaraI_sat p : Live b p -> pPos p < stop -> pPos p <= b + 4 ->
  Sat F (eSaraI ct w stop p) Em.
Proof.
  intros L H1 H2. unfold eSaraI, ifRoom. cbv zeta. flds. dif E; bools; [constructor|].
  seq (readTone_sat b (setVowel (bump p) V_OEE)); [lv_|flds; lia|]. flds.
  intros p1 _ (L1 & B1 & V1 & _).
  seq (karanSimple_sat (pPos p1) stop Hn). intros k _ Hk. flds.
  dif E2; bools; [|constructor]. apply eatSimple_sat; flds; try lia.
  - apply Live_setPos; [exact L1|lia|lia].
  - rewrite V1. vv.
Qed.

Lemma eTriple_sat p need short long eat : Live b p -> pPos p < stop -> pPos p <= b + 4 ->
  validVowel short -> validVowel long ->
  (forall p', Live b p' -> pPos p' < stop -> pPos p' <= b + 16 -> validVowel (pVowel p') ->
     Sat F (eat p') Em) ->
  Sat F (eTriple ct w stop p need short long eat) Em.
Proof.
  intros L H1 H2 HS HL HE. unfold eTriple, ifRoom. cbv zeta. flds.
  dif E; bools; [constructor|].
  seq (readTone_sat b (bump p)); [lv_|flds; lia|]. flds.
  intros p1 _ (L1 & B1 & V1 & _).
  seq (nextIs_sat stop p1 need Hn). intros x _ Hx.
  destruct x; cbn [negb]; [|constructor]. destruct Hx as (X & _); [reflexivity|].
  seq (nextIs_sat stop (bump p1) UTH_SARA_A Hn). flds. intros sa _ Hsa.
  apply Sat_bind. apply (Sat_mono F _ (fun r => EmG b stop (fst r) /\ Live b (snd r) /\
     pPos (snd r) <= b + 12 /\ validVowel (pVowel (snd r)))).
  { destruct sa.
    - destruct Hsa as (S1 & _); [reflexivity|].
      eapply Sat_mono; [apply (karanEmit_sat b)|]; flds;
        try lia; try (unfold inB; lia); auto using endNone; [lv_|].
      intros (e & p') _ (A & B & C & D & G). cbn [fst snd] in *. rewrite B. flds.
      split; [exact A|]. split; [rewrite <- B; exact C|]. split; [lia|exact HS].
    - eapply Sat_mono; [apply (karanEmit_sat b)|]; flds;
        try lia; try (unfold inB; lia); auto using endNone; [lv_|].
      intros (e & p') _ (A & B & C & D & G). cbn [fst snd] in *. rewrite B. flds.
      split; [exact A|]. split; [rewrite <- B; exact C|]. split; [lia|exact HL]. }
  cbv beta. intros (e & p') _ (A & B & C & D). cbn [fst snd] in *.
  apply Sat_bind. apply (Sat_mono F _ Em).
  - dif E1; [|constructor]. dif E2; bools; [|constructor]. apply HE; auto; lia.
  - intros l _ Hl. constructor; auto.
Qed.

Lemma eOAng_sat p : Live b p -> pPos p < stop -> pPos p <= b + 5 ->
  Sat F (eOAng ct w stop p) Em.
Proof.
  intros L H1 H2. unfold eOAng. cbv zeta.
  apply Sat_bind. apply (Sat_mono F _ (fun r => Em (fst r) /\ Live b (snd r) /\
     pPos (snd r) = pPos p)).
  { dif E.
    - seq (karanSimple_sat (pPos (setEnd (setVowel p V_EE) EC_NONE)) stop Hn).
      flds. intros k _ Hk. cbn [Sat fst snd]. flds.
      split; [|split; [lv_|reflexivity]]. one.
      apply EmG_intro; flds; try lia; try vv; [lv_|left; lia|apply endNone].
    - cbn [Sat fst snd]. split; [constructor|]. auto. }
  cbv beta. intros (a & p1) _ (A & L1 & E1). cbn [fst snd] in *.
  seq (nextIs_sat stop (bump p1) UTH_SARA_A Hn). flds. intros sa _ Hsa.
  apply Sat_bind. apply (Sat_mono F _ (fun r => EmG b stop (fst r))).
  { destruct sa.
    - destruct Hsa as (S1 & _); [reflexivity|].
      eapply Sat_mono; [apply (karanEmit_sat b)|]; flds;
        try lia; try (unfold inB; lia); try vv; auto using endNone; lv_.
    - eapply Sat_mono; [apply (karanEmit_sat b)|]; flds;
        try lia; try (unfold inB; lia); try vv; auto using endNone; lv_. }
  cbv beta. intros (e & p') _ X. cbn [fst] in X. apply Forall_app; split; [exact A|].
  one. exact X.
Qed.

Lemma eSaraA_sat p : Live b p -> pPos p < stop -> pPos p <= b + 5 ->
  Sat F (eSaraA ct w stop p) Em.
Proof.
  intros L H1 H2. unfold eSaraA. dif E; [|constructor].
  apply karanLast; flds; try lia; try (unfold inB; lia); try vv; [lv_|apply endNone].
Qed.

Lemma eSaraAA_sat p : nth_error w b = Some UTH_SARA_E ->
  Live b p -> pPos p < stop -> pPos p <= b + 5 ->
  nth_error w (pPos p) = Some UTH_SARA_AA ->
  Sat F (eSaraAA ct w stop p) Em.
Proof.
  intros HE L H1 H2 Hc. unfold eSaraAA. cbv zeta. pose proof (lv_lo _ _ L).
  seq (nextIs_sat stop (bump p) UTH_SARA_A Hn). flds. intros sa _ Hsa.
  destruct sa.
  - destruct Hsa as (S1 & _); [reflexivity|].
    apply karanLast; flds; try lia; try (unfold inB; lia); try vv; [lv_|apply endNone].
  - apply karanLast; flds; try lia; try (unfold inB; lia); try vv; [lv_|].
    right; right; right; left. split; [exact HE|]. split; [|reflexivity].
    exists (pPos p). split; [lia|exact Hc].
Qed.

Lemma eDefault_sat p : Live b p -> pPos p < stop -> pPos p <= b + 5 ->
  Sat F (eDefault ct w stop p) Em.
Proof.
  intros L H1 H2. unfold eDefault, ifRoom. dif E; [|constructor].
  seq (karanEmit_sat b stop (setEnd (setVowel p V_EE) EC_NONE)); flds;
    try lia; try (unfold inB; lia); try vv; auto using endNone; [lv_|].
  intros (e & p') _ (A & B & C & D & G). cbn [fst snd] in *.
  assert (V : validVowel (pVowel p')) by (rewrite B; flds; vv).
  apply Sat_bind. apply (Sat_mono F _ Em).
  - dif E1; bools; [|constructor]. apply eatComplex_sat; auto; lia.
  - intros l _ Hl. constructor; auto.
Qed.

Lemma eYoYak_sat p : Live b p -> pPos p < stop -> pPos p <= b + 5 ->
  nth_error w (pPos p) = Some UTH_YO_YAK ->
  Sat F (eYoYak ct w stop p) Em.
Proof.
  intros L H1 H2 Hc. unfold eYoYak. cbv zeta. pose proof (lv_lo _ _ L).
  seq (stopOrSylStart_sat (pPos p + 1) stop Hn). intros x _ _.
  dif E; [|apply eDefault_sat; auto].
  apply karanLast; flds; try lia; try (unfold inB; lia); try vv; [lv_|].
  eapply endCons_in; [|exact Hc|reflexivity]. lia.
Qed.

Lemma eOther_sat p c : nth_error w b = Some UTH_SARA_E ->
  Live b p -> pPos p < stop -> pPos p <= b + 4 -> nth_error w (pPos p) = Some c ->
  Sat F (eOther ct w stop p c) Em.
Proof.
  intros HE L H1 H2 Hc0. unfold eOther. cbv zeta.
  apply Sat_bind. apply (Sat_mono F _ (fun p' => Live b p' /\
     pPos p <= pPos p' <= pPos p + 1 /\ (th_wcisthtone ct c = false -> pPos p' = pPos p))).
  { assert (R2 : Sat F (readTone ct w p)
        (fun p' => th_wcisthtone ct c = false -> pPos p' = pPos p)).
    { unfold readTone, at16. rewrite Hc0. cbn [bind]. dif E.
      + seq (tone_sat c E). intros t _ _. cbn [Sat]. discriminate.
      + cbn [Sat]. auto. }
    assert (R1 := readTone_sat b p L ltac:(lia)).
    eapply Sat_mono; [exact (Sat_conj _ _ _ _ R1 R2)|].
    cbv beta. intros p' _ ((A & B & _) & C). auto. }
  cbv beta. intros p1 _ (L1 & B1 & T1).
  dif E.
  - bools. one. apply EmG_intro; flds; try lia; try vv.
    + lv_.
    + left; lia.
    + apply endNone.
  - assert (P1 : pPos p1 < stop).
    { apply andb_false_iff in E. destruct E as [E|E]; bools; [|exact E].
      rewrite (T1 E). exact H1. }
    apply Sat_bind, Sat_at16; [lia|]. intros c1 Hc.
    dif E1; [|dif E2; [|dif E3; [|dif E4]]]; bools; try subst c1.
    + apply eOAng_sat; auto; lia.
    + apply eSaraA_sat; auto; lia.
    + apply eSaraAA_sat; auto; lia.
    + apply eYoYak_sat; auto; lia.
    + apply eDefault_sat; auto; lia.
Qed.

Lemma ePartial_sat p : nth_error w b = Some UTH_SARA_E -> b + 1 < stop ->
  PG b (b + 1) stop p -> Sat F (ePartial ct w stop p) Em.
Proof.
  intros HE Hb [A B C D G G' V EE EC]. unfold ePartial, eMaitaikhu, ifRoom. cbv zeta.
  dif E; [constructor|].
  assert (L : Live b (setTone p SAMAN)) by (apply Live_setTone; auto; lia).
  dif E1; flds; bools.
  - cbn [Sat]. dif E2; [|constructor]. one.
    apply EmG_intro; flds; try lia; try vv; [lv_|left; lia|apply endNone].
  - apply Sat_bind, Sat_at16; [lia|]. intros c Hc.
    dif E2; [|dif E3; [|dif E4; [|dif E5]]]; bools.
    + apply eSaraI_sat; flds; auto; lia.
    + apply eTriple_sat; flds; try lia; try vv; auto. intros. apply eatComplex_sat; auto.
    + apply eTriple_sat; flds; try lia; try vv; auto. intros. apply eatSimple_sat; auto.
    + dif E6; bools; [|constructor]. apply eatSimple_sat; flds; try lia; try vv. lv_.
    + apply eOther_sat; flds; auto; lia.
Qed.

Lemma ParseSaraE_sat linked : nth_error w b = Some UTH_SARA_E ->
  Sat F (ParseSaraE ct w b stop linked) Em.
Proof.
  intros HE. unfold ParseSaraE. dif E; bools; [constructor|].
  seq (MatchInitCons_sat b (b + 1) stop linked); auto; try lia. intros l _ Hl.
  apply Sat_forPartials. intros p Hp. apply ePartial_sat; auto.
  rewrite Forall_forall in Hl. auto.
Qed.

(** ** The other leading vowels *)
Section Ldv.
Variable p : PartialSyl.
Hypothesis L : Live b p.
Hypothesis HB : inB b stop (pPos p).
Hypothesis Hb : b < stop.
Hypothesis H2 : pPos p <= b + 5.

Lemma lvAe_sat : Sat F (lvAe ct w stop p) Em.
Proof.
  unfold lvAe, ifRoom. cbv zeta.
  seq (nextIs_sat stop p UTH_SARA_A Hn). intros sa _ Hsa.
  seq (nextIs_sat stop p UTH_MAITAIKHU Hn). intros mk _ Hmk.
  set (p1 := if sa then _ else _).
  assert (P1 : Live b p1 /\ pPos p1 <= b + 6 /\ inB b stop (pPos p1) /\
               validVowel (pVowel p1)).
  { unfold inB in *. subst p1. destruct sa; [|destruct mk].
    - destruct Hsa as (S1 & _); [reflexivity|].
      split; [lv_|]. flds. repeat split; try lia. vv.
    - destruct Hmk as (S1 & _); [reflexivity|].
      split; [lv_|]. flds. repeat split; try lia. vv.
    - split; [lv_|]. flds. repeat split; try lia. vv. }
  destruct P1 as (L1 & B1 & I1 & V1). clearbody p1.
  apply Sat_bind. apply (Sat_mono F _ (fun r => Em (fst r) /\ Live b (snd r) /\
     pPos (snd r) <= b + 8 /\ validVowel (pVowel (snd r)))).
  { destruct mk; cbn [Sat fst snd].
    - split; [constructor|]. split; [exact L1|]. split; [lia|exact V1].
    - seq (karanEmit_sat b stop (setEnd p1 EC_NONE)); flds; try lia; auto using endNone; [lv_|].
      intros (e & p') _ (A & B & C & D & G). cbn [Sat fst snd] in *.
      split; [one; exact A|]. split; [exact C|]. split; [lia|]. rewrite B. exact V1. }
  cbv beta. intros (a & p2) _ (A & L2 & B2 & V2). cbn [fst snd] in *.
  apply Sat_bind. apply (Sat_mono F _ Em).
  - dif E1; [|constructor]. dif E2; bools; [|constructor]. apply eatSimple_sat; auto; lia.
  - intros l _ Hl. apply Forall_app; auto.
Qed.

Lemma lvO_sat : Sat F (lvO ct w stop p) Em.
Proof.
  unfold lvO, ifRoom. cbv zeta.
  seq (nextIs_sat stop p UTH_SARA_A Hn). intros sa _ Hsa.
  set (p1 := setEnd _ EC_NONE).
  assert (P1 : Live b p1 /\ pPos p1 <= b + 6 /\ inB b stop (pPos p1) /\
               validVowel (pVowel p1) /\ eConsClass p1 = EC_NONE).
  { unfold inB in *. subst p1. destruct sa.
    - destruct Hsa as (S1 & _); [reflexivity|].
      split; [lv_|]. flds. repeat split; try lia. vv.
    - split; [lv_|]. flds. repeat split; try lia. vv. }
  destruct P1 as (L1 & B1 & I1 & V1 & E1). clearbody p1.
  pose proof (lv_n _ _ L1).
  seq (karanSimple_sat (pPos p1) stop Hn). intros k _ Hk.
  apply Sat_bind. apply (Sat_mono F _ (fun k' => k' = pPos p1 \/
     k' = pPos p1 + 3 /\ pPos p1 + 2 < stop)).
  { dif E2; [apply karanIU_sat; exact Hn|]. cbn [Sat]. auto. }
  cbv beta. intros k' _ Hk'. dif E3; bools.
  - one. apply EmG_intro; auto; try lia; [unfold inB in *; lia|rewrite E1; apply endNone].
  - assert (Lk : Live b (setPos p1 k)) by (apply Live_setPos; [exact L1|lia|lia]).
    apply Sat_bind. apply (Sat_mono F _ Em).
    + dif E4; [|constructor]. dif E5; flds; bools; [|constructor].
      apply eatComplex_sat; flds; auto; lia.
    + intros l _ Hl. constructor; [|exact Hl].
      apply EmG_intro; flds; auto; try lia; [unfold inB in *; lia|rewrite E1; apply endNone].
Qed.

Hypothesis HE : nth_error w b = Some UTH_SARA_AI_MAIMUAN
                \/ nth_error w b = Some UTH_SARA_AI_MAIMALAI.

Lemma endAi k : endIn w b k KOEY.
Proof. right; right; right; right. split; [exact HE|reflexivity]. Qed.

Lemma lvMaimalai_sat : Sat F (lvMaimalai ct w stop p) Em.
Proof.
  unfold lvMaimalai. cbv zeta.
  seq (nextIs_sat stop (setEnd (setVowel p V_A) KOEY) UTH_YO_YAK Hn). flds.
  intros x _ Hx. apply Sat_bind. apply (Sat_mono F _ (fun y => y = true -> pPos p + 1 <= stop)).
  { destruct x; cbn [Sat]; [|discriminate]. destruct Hx as (X & _); [reflexivity|].
    dif E; cbn [Sat]; [lia|]. bools. apply Sat_bind, Sat_at16; [lia|]. intros; cbn [Sat]. lia. }
  cbv beta. intros y _ Hy.
  seq (karanEmit_sat b stop (setEnd (setVowel p V_A) KOEY)); flds; try lia; try vv; auto;
    [lv_|apply endAi|].
  intros (e & p') _ (A & _). cbn [fst] in A. apply Forall_app; split; [|one; exact A].
  dif E; [|constructor]. one. apply EmG_intro; flds; try lia; try vv; auto.
  - lv_.
  - left; lia.
  - apply endAi.
Qed.

Lemma lvMaimuan_sat : Sat F (lvMaimuan ct w stop p) Em.
Proof.
  unfold lvMaimuan. apply karanLast; flds; try lia; try vv; auto; [lv_|apply endAi].
Qed.
End Ldv.

Lemma lvPartial_sat ldv p : ov = 1 -> b < stop -> nth_error w b = Some ldv ->
  PG b (b + 1) stop p -> Sat F (lvPartial ct w stop ldv p) Em.
Proof.
  intros Hov Hb Hl [A B C D G G' V EE EC]. unfold lvPartial. cbv zeta. dif E; [constructor|].
  assert (L : Live b (setTone p SAMAN)) by (apply Live_setTone; auto; lia).
  apply Sat_bind. apply (Sat_mono F _ (fun p' => Live b p' /\ inB b stop (pPos p') /\
    pPos p' <= b + 5)).
  { unfold inB. dif E1; flds; bools.
    - eapply Sat_mono; [apply (readTone_sat b); [exact L|flds; lia]|]. cbv beta. flds.
      intros p' _ (L' & B' & _). split; [exact L'|]. lia.
    - cbn [Sat]. split; [exact L|]. flds. lia. }
  cbv beta. intros p1 _ (L1 & I1 & B1).
  dif E1; [|dif E2; [|dif E3; [|dif E4]]]; bools; try subst ldv.
  - apply lvAe_sat; auto.
  - apply lvO_sat; auto.
  - apply lvMaimalai_sat; auto.
  - apply lvMaimuan_sat; auto.
  - constructor.
Qed.

Lemma ParseOtherLV_sat linked : ov = 1 -> b < stop -> (n <= b + 1 -> F) ->
  Sat F (ParseOtherLV ct w b stop linked) Em.
Proof.
  intros Hov Hb HF. unfold ParseOtherLV. apply Sat_bind, Sat_at16; [lia|]. intros ldv Hl.
  seq (MatchInitCons_sat b (b + 1) stop linked); auto; try lia. intros l _ Hl'.
  apply Sat_forPartials. intros p Hp. apply lvPartial_sat; auto.
  rewrite Forall_forall in Hl'. auto.
Qed.

(** ** RU and LU *)
Lemma ParseRuLu_sat c : b < stop -> nth_error w b = Some c ->
  (c = UTH_RU \/ c = UTH_LU) ->
  Sat F (ParseRuLu ct w b stop) Em.
Proof.
  intros Hb Hc HRL. unfold ParseRuLu, at16. rewrite Hc. cbn [bind]. cbv zeta.
  set (p := setTone _ SAMAN).
  assert (L : Live b p).
  { assert (CI : charIn w b (b + 1) c) by (exists b; split; [lia|exact Hc]).
    constructor; subst p; flds; try lia; [|left; reflexivity].
    split; [|split; [|split; [left; reflexivity|intros; discriminate]]]; flds.
    - destruct HRL; subst c; [right; left|right; right]; auto.
    - right. split; [|reflexivity]. destruct HRL; subst c; auto. }
  assert (P : pPos p = b + 1) by reflexivity. clearbody p.
  assert (Q : forall k v, b + 1 <= k -> k <= b + 2 -> k <= stop -> validVowel v ->
              EmG b stop (mkEm k (setEnd (setVowel p v) EC_NONE) false)).
  { intros k v K1 K2 K3 Hv. apply EmG_intro; flds; auto; try lia;
      [lv_|left; lia|apply endNone]. }
  dif E; bools; [one; apply Q; try lia; vv|].
  apply Sat_bind, (Sat_at16 F w (b + 1)); [lia|]. intros c1 Hc1.
  dif E1; [one; apply Q; try lia; vv|].
  dif E2; [|constructor].
  seq (end_sat c1 E2). intros e _ He.
  apply Sat_bind. apply (Sat_mono F _ (fun _ => True)).
  { dif E3; [exact I|]. dif E4; bools; [|exact I].
    apply Sat_bind, (Sat_at16 F w (b + 2)); [lia|]. intros; exact I. }
  intros solo _ _. dif E3; [one; apply Q; try lia; vv|].
  dif E4; apply eatComplex_sat; flds; try lia; try vv; lv_.
Qed.
End Eat.
End Rules.

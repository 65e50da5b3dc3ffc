(** Prop_Pool.v - how long the main loop runs. *)
From Coq Require Import String List NArith ZArith Bool Arith Lia Sorted.
From Verif Require Import Spec Base ThUni ThCons Syl OrderProofs Lattice LatticeProofs
  Dag DagProofs PronDag Dict DictProofs Utf Parser Wp
  ParserSpec ParserActs ParserLoop ParserFacts ParserInv ParserResult
  ParserPool ParserShift ParserLocal ParserProduct Prop_Syl Prop_Parser Grammar GrammarRun GrammarIff GrammarWord TextGrammar TextProof PoolGrowth Prop_Every.
Import ListNotations.
Local Open Scope nat_scope.
Local Notation ct := libthai_ct.

(** ** Texts without links *)
Section Linear.
Variable w : list N.
Variable dict : option Dict.
Variable brk : list nat.
Notation n := (List.length w).
Hypothesis sorted : StronglySorted lt brk.
Hypothesis inside : Forall (fun x => x <= n) brk.
Hypothesis dictWF : dictOKo dict.
Hypothesis noLink : forall p, ~ Comes (entry dict) w brk p true.

Definition rank (s : ParseState) : nat := 2 * sPos s + (if sPos s <? sStop s then 1 else 0).
Definition Good (r : nat) (s : ParseState) : Prop := SI ct w brk s /\ Stands w dict brk s /\ r < S (rank s).
Lemma good_merge r : mergeOK (Good r).
Proof.
  intros a b (A & B & C) (A' & B' & C') E L. split; [|split; [|exact C]].
  - exact (SI_merge ct w brk a b A A' E L).
  - exact B.
Qed.
Lemma unlinked r s : Good r s -> sLinked s = false.
Proof.
  intros (_ & St & _). destruct (sLinked s) eqn:L; [|reflexivity]. exfalso. destruct St as [(_ & C)|(T & p & lk & es & C & P)].
  - rewrite L in C. exact (noLink _ C).
  - rewrite L in P. apply (noLink (sPos s + 1)). eapply Co_step; [exact C|]. apply St_stop; eassumption.
Qed.
Definition Before (a b : ParseState) : Prop := sPos a < sPos b.
Lemma add_sorted r pool s : Forall (Good r) pool -> Good r s -> StronglySorted Before pool ->
  StronglySorted Before (poolAdd pool s).
Proof.
  intros FP Gs. induction 1 as [|it pool H IH F]; cbn [poolAdd]; [constructor; constructor|].
  apply Forall_cons_iff in FP. destruct FP as (Gi & FP).
  rewrite (unlinked _ _ Gi), (unlinked _ _ Gs). cbn [Bool.eqb]. rewrite andb_true_r.
  destruct (Nat.eqb_spec (sPos it) (sPos s)) as [E|E].
  { constructor; [exact H|exact F]. }
  destruct (Nat.leb_spec (sPos s) (sPos it)) as [L|L].
  - constructor; [constructor; assumption|]. constructor; [unfold Before; lia|].
    eapply Forall_impl; [|exact F]. unfold Before. intros; lia.
  - constructor; [apply IH; exact FP|]. clear IH H FP. unfold Before in *.
    induction pool as [|y pool IHp]; cbn [poolAdd]; [auto|]. apply Forall_cons_iff in F. destruct F as (F1 & F2).
    destruct (_ && _); [auto|]. destruct (_ <=? _); auto.
Qed.
Lemma adds_sorted r l : forall pool, Forall (Good r) pool -> Forall (Good r) l -> StronglySorted Before pool ->
  StronglySorted Before (fold_left poolAdd l pool).
Proof.
  induction l as [|s l IH]; intros pool FP FL S; [exact S|]. cbn [fold_left]. apply Forall_cons_iff in FL. destruct FL as (F1 & F2).
  apply IH; [|exact F2|eapply add_sorted; eauto]. apply poolAdd_Forall; auto using good_merge.
Qed.
Lemma step_rank s l s1 : SI ct w brk s -> Stands w dict brk s -> sPos s < n -> stepStates ct w dict brk s = Ok l -> In s1 l ->
  Good (S (rank s)) s1.
Proof.
  intros HS St L E I1. split; [eapply SI_step; eauto|]. split; [eapply stands_step; eauto|].
  assert (A : sPos s < sPos s1 -> S (rank s) < S (rank s1)).
  { unfold rank. intros X. destruct (sPos s <? sStop s), (sPos s1 <? sStop s1); lia. }
  destruct (le_lt_dec (sStop s) (sPos s)) as [G|G].
  - destruct (step_gap w dict brk sorted inside dictWF s HS G L) as [(T & q & W & X)|(T & q & s' & F & X & (N1 & _))];
      rewrite E in X; injection X as ->; destruct I1 as [<-|[]].
    + unfold rank. cbn [sPos sStop]. destruct W as [W1 _ _ _ _].
      destruct (Nat.ltb_spec (sPos s) (sStop s)); [lia|]. destruct (Nat.ltb_spec (sPos s) q); lia.
    + apply A. rewrite N1. destruct F; lia.
  - destruct (tacit_dec w (sPos s)) as [T|T].
    + destruct (step_dot w dict brk sorted dictWF s HS G T) as (s' & X & P1 & _). rewrite E in X. injection X as ->.
      destruct I1 as [<-|[]]. apply A. lia.
    + destruct (step_pass w dict brk sorted dictWF s l HS G T E) as (B & _).
      destruct (B s1 I1) as (es & e & lk' & _ & Lt & (N1 & _)). apply A. lia.
Qed.
Lemma loop_linear fuel : forall r pool acc, Forall (Good r) pool -> StronglySorted Before pool ->
  2 * n + 1 <= fuel + r -> parseLoop ct fuel w dict brk pool acc <> NoFuel.
Proof.
  induction fuel as [|fuel IH]; intros r pool acc FP S B.
  - destruct pool as [|s pool]; [discriminate|]. exfalso. apply Forall_cons_iff in FP.
    destruct FP as (((_ & Lp & _ & W) & _ & R) & _). unfold rank in R.
    destruct (Nat.ltb_spec (sPos s) (sStop s)) as [L|L]; [|lia]. specialize (W L). destruct W; lia.
  - destruct pool as [|s pool]; [discriminate|]. cbn [parseLoop].
    apply Forall_cons_iff in FP. destruct FP as ((HS & St & R) & FP). inversion S as [|? ? S' F]; subst.
    destruct (Nat.leb_spec n (sPos s)) as [L|L].
    + destruct pool as [|y pool]; [destruct fuel; discriminate|]. exfalso. apply Forall_cons_iff in FP.
      destruct FP as (((_ & Lp & _) & _) & _). apply Forall_cons_iff in F. destruct F as (F & _). unfold Before in F. lia.
    + destruct (step_outcome w dict brk sorted inside dictWF s HS L) as [(l & E)|(E & _)]; rewrite E; cbn [bind]; [|discriminate].
      assert (Gl : Forall (Good (Datatypes.S r)) l).
      { apply Forall_forall. intros s1 I1. destruct (step_rank s l s1 HS St L E I1) as (A1 & A2 & A3). split; [exact A1|]. split; [exact A2|]. lia. }
      assert (Gp : Forall (Good (Datatypes.S r)) pool).
      { apply Forall_forall. intros y Hy. rewrite Forall_forall in FP, F. destruct (FP y Hy) as (A1 & A2 & A3). specialize (F y Hy).
        split; [exact A1|]. split; [exact A2|]. unfold Before, rank in *. destruct (sPos s <? sStop s), (sPos y <? sStop y); lia. }
      apply (IH (Datatypes.S r)); [|eapply adds_sorted; eauto|lia].
      apply poolAdds_Forall; auto using good_merge.
Qed.
Lemma parse_linear fuel : 2 * n + 1 <= fuel -> ParseU16F ct fuel w dict brk <> NoFuel.
Proof.
  intros Lf. unfold ParseU16F. destruct (start_ok w dict brk sorted inside dictWF) as (b & Eb). fold s0. rewrite Eb. cbn [bind poolAdd].
  apply (loop_linear fuel 0); [|constructor; constructor|lia].
  constructor; [|constructor]. split; [eapply SI_start; eauto|]. split; [|lia].
  apply run_stands; auto. exists b. split; [exact Eb|constructor].
Qed.
End Linear.

(** ** C73: the number of iterations *)
Lemma C73_lemma w dict brk fuel : dictOKo dict -> StronglySorted lt brk -> Forall (fun x => x <= List.length w) brk ->
  (forall p, ~ Comes (entry dict) w brk p true) -> 2 * List.length w + 1 <= fuel ->
  ParseU16F ct fuel w dict brk <> NoFuel.
Proof. intros D S I NL L. exact (parse_linear w dict brk S I D NL fuel L). Qed.
(** If on no reading of the text a consonant both closes a syllable and opens
    the next, the main loop ends within two iterations for every character and
    one more. *)
Theorem C73_unlinked_linear w dict brk fuel : dictOKo dict -> StronglySorted lt brk -> Forall (fun x => x <= List.length w) brk ->
  (forall p, ~ Comes (entry dict) w brk p true) -> 2 * List.length w + 1 <= fuel ->
  ParseU16F ct fuel w dict brk <> NoFuel.
Proof. exact (C73_lemma w dict brk fuel). Qed.
Print Assumptions C73_unlinked_linear.

(** The word "กา" [n] times: exactly [2 ^ n + n - 1] iterations. *)
Fixpoint times (n : nat) (t : list N) : list N :=
  match n with
  | O => []
  | S n => t ++ times n t
  end.
Lemma times_kaa n : times n (letters "กา") = kaa n.
Proof. induction n as [|n IH]; [reflexivity|]. cbn [times kaa]. rewrite IH. reflexivity. Qed.
Lemma C73_lemma2 n fuel : 1 <= n ->
  ParseU16F ct fuel (times n (letters "กา")) None [] = NoFuel <-> fuel < 2 ^ n + n - 1.
Proof.
  intros Hn. rewrite times_kaa. destruct (growth_parse n Hn) as (A & B). split; [|apply A].
  intros E. destruct (Nat.lt_ge_cases fuel (2 ^ n + n - 1)) as [L|L]; [exact L|]. destruct (B fuel L) as (d & X). congruence.
Qed.
Theorem C73_doubling n fuel : 1 <= n ->
  ParseU16F ct fuel (times n (letters "กา")) None [] = NoFuel <-> fuel < 2 ^ n + n - 1.
Proof. exact (C73_lemma2 n fuel). Qed.
Print Assumptions C73_doubling.

(** So no bound linear in the length of the text, nor one of any power, holds
    for all texts. *)
Lemma pow_beats : forall d c, exists n, 1 <= n /\ c * (2 * n + 1) ^ d < 2 ^ n + n - 1.
Proof.
  assert (lin : forall m, m < 2 ^ m) by (intros m; apply Nat.pow_gt_lin_r; lia).
  (* with n = 2^m: c (2n+1)^d <= 2^c 2^((m+2) d) *)
  intros d c. assert (exists m, c + (m + 2) * d < 2 ^ m) as (m & Hm).
  { assert (sq : forall j, 4 <= j -> j * j <= 2 ^ j).
    { induction j as [|j IH]; intros Hj; [lia|]. destruct (Nat.eq_dec j 3) as [->|]; [cbn; lia|].
      specialize (IH ltac:(lia)). cbn [Nat.pow]. nia. }
    exists (c + 3 * d + 4). specialize (sq (c + 3 * d + 4) ltac:(lia)). nia. }
  exists (2 ^ m). pose proof (Nat.pow_nonzero 2 m ltac:(lia)) as Z. split; [lia|].
  apply Nat.lt_le_trans with (2 ^ 2 ^ m); [|lia].
  apply Nat.le_lt_trans with (2 ^ (c + (m + 2) * d)); [|apply Nat.pow_lt_mono_r; lia].
  rewrite Nat.pow_add_r, Nat.pow_mul_r. apply Nat.mul_le_mono; [apply Nat.lt_le_incl, lin|].
  apply Nat.pow_le_mono_l. rewrite Nat.pow_add_r. cbn [Nat.pow]. lia.
Qed.
Lemma C73_lemma3 : ~ exists c d, forall w dict brk, dictOKo dict -> StronglySorted lt brk -> Forall (fun x => x <= List.length w) brk ->
  ParseU16F ct (c * (List.length w + 1) ^ d) w dict brk <> NoFuel.
Proof.
  intros (c & d & H). destruct (pow_beats d c) as (n & Hn & L). apply (H (times n (letters "กา")) None []).
  - intros d0 E. discriminate E.
  - constructor.
  - constructor.
  - apply C73_lemma2; [exact Hn|]. rewrite times_kaa, kaa_length. exact L.
Qed.
Theorem C73_polynomial_refuted : ~ exists c d, forall w dict brk, dictOKo dict -> StronglySorted lt brk -> Forall (fun x => x <= List.length w) brk ->
  ParseU16F ct (c * (List.length w + 1) ^ d) w dict brk <> NoFuel.
Proof. exact C73_lemma3. Qed.
Print Assumptions C73_polynomial_refuted.

(** ** A text without links *)
(** A set of positions, stops and link flags that no state leaves. *)
Definition keyIn (K : list (nat * nat * bool)) (p q : nat) (lk : bool) : bool :=
  existsb (fun x => (fst (fst x) =? p) && (snd (fst x) =? q) && Bool.eqb (snd x) lk) K.
Definition closed (w : list N) dict brk (K : list (nat * nat * bool)) : bool :=
  keyIn K 0 0 false &&
  forallb (fun x => (List.length w <=? fst (fst x)) ||
    match acts ct w dict brk (fst (fst x)) (snd (fst x)) (snd x) with
    | Ok l => forallb (fun a => keyIn K (aPos a) (aStop a) (aLinked a)) l
    | _ => false
    end) K.
Lemma keyIn_In K p q lk : keyIn K p q lk = true <-> In (p, q, lk) K.
Proof.
  unfold keyIn. rewrite existsb_exists. split.
  - intros (((p', q'), lk') & I1 & E). cbn [fst snd] in E. rewrite !andb_true_iff, !Nat.eqb_eq in E.
    destruct E as ((-> & ->) & E). apply eqb_prop in E. subst lk'. exact I1.
  - intros I1. eexists. split; [exact I1|]. cbn [fst snd]. rewrite !Nat.eqb_refl, Bool.eqb_reflx. reflexivity.
Qed.
Lemma acts_keys s s1 : forall l r, mapM (applyAct s) l = Ok r -> In s1 r ->
  exists a, In a l /\ sPos s1 = aPos a /\ sStop s1 = aStop a /\ sLinked s1 = aLinked a.
Proof.
  induction l as [|a l IH]; cbn [mapM]; intros r E I1; [injection E as <-; destruct I1|].
  destruct (applyAct s a) as [x| | |] eqn:Ex; cbn [bind] in E; try discriminate.
  destruct (mapM (applyAct s) l) as [xs| | |]; cbn [bind] in E; try discriminate. injection E as <-. destruct I1 as [<-|I1].
  - exists a. split; [left; reflexivity|]. unfold applyAct in Ex. destruct (aStretch a).
    + destruct (stretch (sDag s) (sPos s)); cbn [bind] in Ex; try discriminate. injection Ex as <-. auto.
    + injection Ex as <-. auto.
  - destruct (IH xs eq_refl I1) as (b & A & B). exists b. split; [right; exact A|exact B].
Qed.
Lemma closed_step w dict brk K s l s1 : closed w dict brk K = true -> In (sPos s, sStop s, sLinked s) K -> sPos s < List.length w ->
  stepStates ct w dict brk s = Ok l -> In s1 l -> In (sPos s1, sStop s1, sLinked s1) K.
Proof.
  intros C H L E I1. unfold closed in C. apply andb_true_iff in C. destruct C as (_ & C).
  rewrite forallb_forall in C. specialize (C _ H). cbn [fst snd] in C.
  destruct (Nat.leb_spec (List.length w) (sPos s)); [lia|]. cbn [orb] in C.
  rewrite stepStates_acts in E. destruct (acts ct w dict brk (sPos s) (sStop s) (sLinked s)) as [al| | |]; try discriminate.
  cbn [bind] in E. destruct (acts_keys s s1 al l E I1) as (a & Ia & -> & -> & ->).
  rewrite forallb_forall in C. apply keyIn_In, C, Ia.
Qed.
Lemma closed_comes w dict brk K p lk : dictOKo dict -> StronglySorted lt brk -> Forall (fun x => x <= List.length w) brk ->
  0 < List.length w -> closed w dict brk K = true -> (exists fuel d, ParseU16F ct fuel w dict brk = Ok d) ->
  Comes (entry dict) w brk p lk -> exists q, In (p, q, lk) K.
Proof.
  intros D S I Lw C (fuel & d & E) Co.
  pose proof (defined_Rs w dict brk S I D fuel d E) as Df.
  destruct (comes_run w dict brk S I D Df p lk Co) as (_ & s & R & <- & <-). exists (sStop s).
  assert (C0 : In (0, 0, false) K) by (apply keyIn_In; unfold closed in C; apply andb_true_iff in C; tauto).
  destruct R as [->|(b & Eb & RF)]; [exact C0|].
  assert (Hb : In (sPos b, sStop b, sLinked b) K).
  { destruct (Df s0 (or_introl eq_refl) ltac:(cbn; lia)) as (l & El). destruct (step_s0 w dict brk l El) as (b' & -> & Eb').
    rewrite Eb in Eb'. injection Eb' as <-. eapply (closed_step w dict brk K s0); eauto; left; reflexivity. }
  clear Eb Co. induction RF as [s|s l s1 s2 H1 H2 H3 H4 IH]; [exact Hb|]. apply IH. eapply closed_step; eauto.
Qed.

(** The bound for this text is 23. *)
Example C73_case : let w := letters "ใจ กา เรือ." in
  dictOKo (Some exDict) /\ StronglySorted lt [3] /\ Forall (fun x => x <= List.length w) [3] /\
  (forall p, ~ Comes (entry (Some exDict)) w [3] p true) /\ List.length w = 11 /\
  ParseU16F ct 6 w (Some exDict) [3] = NoFuel /\ exists d, ParseU16F ct 7 w (Some exDict) [3] = Ok d.
Proof.
  cbv zeta. assert (S : StronglySorted lt [3]) by repeat constructor.
  assert (L : List.length (letters "ใจ กา เรือ.") = 11) by (vm_compute; reflexivity).
  assert (I : Forall (fun x => x <= List.length (letters "ใจ กา เรือ.")) [3]) by (rewrite L; constructor; [lia|constructor]).
  assert (E : exists d, ParseU16F ct 7 (letters "ใจ กา เรือ.") (Some exDict) [3] = Ok d) by (eexists; vm_compute; reflexivity).
  split; [exact exDict_ok|]. split; [exact S|]. split; [exact I|]. split; [|split; [exact L|split; [vm_compute; reflexivity|exact E]]].
  intros p C.
  destruct (closed_comes _ _ _ [(11, 11, false); (10, 11, false); (6, 11, false); (5, 5, false); (3, 5, false); (2, 2, false);
    (0, 2, false); (0, 0, false)] p true exDict_ok S I ltac:(rewrite L; lia) ltac:(vm_compute; reflexivity) (ex_intro _ 7 E) C) as (q & H).
  cbn [In] in H. intuition congruence.
Qed.
Example C73_doubling_case : times 5 (letters "กา") = letters "กากากากากา" /\
  ParseU16F ct 35 (letters "กากากากากา") None [] = NoFuel /\ exists d, ParseU16F ct 36 (letters "กากากากากา") None [] = Ok d.
Proof. split; [reflexivity|]. split; [vm_compute; reflexivity|]. eexists. vm_compute. reflexivity. Qed.

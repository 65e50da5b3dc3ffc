(** PoolGrowth.v - how many states the main loop pops.  The merging of
    [StatePool::add] (parser/parser.cxx:124-138) looks no further than the
    first state at the position of the new one, so two states alike in
    position and link flag can both stay in the pool.  On the repetitions of
    a short word the number of states doubles with every repetition. *)
From Coq Require Import String List NArith ZArith Bool Arith Lia.
From Verif Require Import Spec Base ThUni ThCons Syl Lattice Dag PronDag Dict Parser Wp
  ParserActs ParserShift Prop_Syl Prop_Parser.
Import ListNotations.
Local Open Scope nat_scope.

Local Notation ct := libthai_ct.

(** The text: [n] times the two letters of "กา". *)
Fixpoint kaa (n : nat) : list N :=
  match n with
  | O => []
  | S n => 3585%N :: 3634%N :: kaa n
  end.
Lemma kaa_length n : length (kaa n) = 2 * n.
Proof. induction n; cbn [kaa length]; lia. Qed.
Lemma kaa_app a b : kaa (a + b) = kaa a ++ kaa b.
Proof. induction a; cbn [kaa app Nat.add]; congruence. Qed.
Lemma kaa_even n k : k < n -> nth_error (kaa n) (2 * k) = Some 3585%N.
Proof.
  revert k. induction n as [|n IH]; intros [|k] L; try lia; [reflexivity|].
  replace (2 * S k) with (S (S (2 * k))) by lia. cbn [kaa nth_error]. apply IH. lia.
Qed.
Lemma kaa_odd n k : k < n -> nth_error (kaa n) (2 * k + 1) = Some 3634%N.
Proof.
  revert k. induction n as [|n IH]; intros [|k] L; try lia; [reflexivity|].
  replace (2 * S k + 1) with (S (S (2 * k + 1))) by lia. cbn [kaa nth_error]. apply IH. lia.
Qed.
Lemma kaa_thai n p : p < 2 * n -> exists c, nth_error (kaa n) p = Some c /\ IsThaiTokenChar ct c = true.
Proof.
  intros L. destruct (Nat.Even_or_Odd p) as [(k & ->)|(k & ->)].
  - exists 3585%N. split; [apply kaa_even; lia|reflexivity].
  - exists 3634%N. split; [apply kaa_odd; lia|reflexivity].
Qed.

(** ** What a state does *)

Definition actKey (a : Act) : nat * bool := (aPos a, aLinked a).
Definition key (s : ParseState) : nat * bool := (sPos s, sLinked s).

Lemma first_acts m lk :
  exists l, ParseThCons ct (kaa (S (S m))) 0 (2 * S (S m)) lk = Ok l /\
    map (fun e => (emPos e, emLinked e)) l = [(2, false); (3, false); (2, true)].
Proof.
  destruct m as [|m]; [eexists; split; vm_compute; reflexivity|].
  replace (2 * S (S (S m))) with (S (S (S (S (S (S (2 * m))))))) by lia.
  change (kaa (S (S (S m)))) with
    (3585 :: 3634 :: 3585 :: 3634 :: 3585 :: 3634 :: kaa m)%N.
  generalize (kaa m) as rest. generalize (2 * m) as q. clear m. intros q rest.
  eexists; split; vm_compute; reflexivity.
Qed.
Lemma last_acts lk :
  exists l, ParseThCons ct (kaa 1) 0 2 lk = Ok l /\
    map (fun e => (emPos e, emLinked e)) l = [(2, false)].
Proof. eexists; split; vm_compute; reflexivity. Qed.

Lemma kaa_abbr n k : k < n -> abbrAct ct (kaa n) (2 * k) (2 * n) = Ok None.
Proof.
  intros L. destruct k as [|k].
  - destruct n as [|n]; [lia|]. replace (2 * S n) with (S (S (2 * n))) by lia.
    cbn [kaa]. generalize (kaa n) as r. generalize (2 * n) as m. intros m r. vm_compute. reflexivity.
  - unfold abbrAct. replace (2 * S k) with (S (2 * k + 1)) by lia.
    unfold at16. rewrite (kaa_odd n k) by lia. reflexivity.
Qed.
Lemma kaa_abbr_odd n k : k < n -> abbrAct ct (kaa n) (2 * k + 1) (2 * n) = Ok None.
Proof.
  intros L. unfold abbrAct. replace (2 * k + 1) with (S (2 * k)) by lia.
  unfold at16. rewrite (kaa_even n k) by lia. reflexivity.
Qed.
Lemma acts_even n k lk : k < n ->
  exists l, acts ct (kaa n) None [] (2 * k) (2 * n) lk = Ok l /\
    Forall (fun a => aStop a = 2 * n /\ aStretch a = false) l /\
    map actKey l = if S k =? n then [(2 * n, false)]
                   else [(2 * k + 2, false); (2 * k + 3, false); (2 * k + 2, true)].
Proof.
  intros L. unfold acts. destruct (Nat.leb_spec (2 * n) (2 * k)); [lia|]. cbn [bind].
  rewrite (kaa_abbr n k L). cbn [bind]. unfold ruleActs, at16. rewrite (kaa_even n k L). cbn [bind].
  change (isRuleChar ct 3585) with true. cbn [negb andb].
  unfold ruleEms. change (th_wcisthcons ct 3585) with true. cbv iota.
  assert (exists l, ParseThCons ct (kaa n) (2 * k) (2 * n) lk = Ok l /\
    map (fun e => (emPos e, emLinked e)) l = if S k =? n then [(2 * n, false)]
                   else [(2 * k + 2, false); (2 * k + 3, false); (2 * k + 2, true)]) as (l & E & K).
  { pose proof (sim_ParseThCons ct (kaa k) (kaa (n - k)) [] 0 (2 * (n - k)) lk) as S.
    rewrite app_nil_r, <- kaa_app, kaa_length in S.
    replace (k + (n - k)) with n in S by lia. replace (2 * k + 0) with (2 * k) in S by lia.
    replace (2 * k + 2 * (n - k)) with (2 * n) in S by lia.
    destruct (Nat.eqb_spec (Datatypes.S k) n) as [Q|Q].
    - replace (n - k) with 1 in S by lia. destruct (last_acts lk) as (l & E & K).
      exists (map (mv (2 * k)) l). split; [exact (S l E)|].
      destruct l as [|e [|]]; try discriminate. cbn in K. injection K as P1 L1.
      cbn [map mv mv_em emPos emLinked]. rewrite P1, L1. replace (2 * n) with (2 * k + 2) by lia. reflexivity.
    - replace (n - k) with (Datatypes.S (Datatypes.S (n - k - 2))) in S by lia.
      destruct (first_acts (n - k - 2) lk) as (l & E & K).
      exists (map (mv (2 * k)) l). split; [exact (S l E)|].
      destruct l as [|e1 [|e2 [|e3 [|]]]]; try discriminate. cbn in K. injection K as P1 L1 P2 L2 P3 L3.
      cbn [map mv mv_em emPos emLinked]. rewrite P1, L1, P2, L2, P3, L3. reflexivity. }
  rewrite E. cbn [bind]. eexists. split; [reflexivity|]. split.
  - apply Forall_forall. intros a Ha. apply in_map_iff in Ha. destruct Ha as (e & <- & _). split; reflexivity.
  - rewrite map_map. rewrite <- K. reflexivity.
Qed.
Lemma acts_odd n k lk : k < n -> acts ct (kaa n) None [] (2 * k + 1) (2 * n) lk = Ok [].
Proof.
  intros L. unfold acts. destruct (Nat.leb_spec (2 * n) (2 * k + 1)); [lia|]. cbn [bind].
  rewrite (kaa_abbr_odd n k L). cbn [bind]. unfold ruleActs, at16. rewrite (kaa_odd n k L). reflexivity.
Qed.

(** ** The keys of the pool *)
Fixpoint keyAdd (pool : list (nat * bool)) (s : nat * bool) : list (nat * bool) :=
  match pool with
  | [] => [s]
  | it :: pool' =>
      if (fst it =? fst s) && Bool.eqb (snd it) (snd s) then pool
      else if fst s <=? fst it then s :: pool
      else it :: keyAdd pool' s
  end.
Lemma keyAdd_pool pool s : map key (poolAdd pool s) = keyAdd (map key pool) (key s).
Proof.
  induction pool as [|it pool IH]; [reflexivity|]. cbn [poolAdd map keyAdd key fst snd].
  destruct (_ && _); [reflexivity|]. destruct (_ <=? _); [reflexivity|]. cbn [map]. rewrite IH. reflexivity.
Qed.
Lemma keyAdd_pools l pool : map key (fold_left poolAdd l pool) = fold_left keyAdd (map key l) (map key pool).
Proof.
  revert pool. induction l as [|s l IH]; intros pool; [reflexivity|]. cbn [fold_left map].
  rewrite IH, keyAdd_pool. reflexivity.
Qed.
Lemma poolAdd_stops (N : nat) pool s : sStop s = N -> Forall (fun s => sStop s = N) pool ->
  Forall (fun s => sStop s = N) (poolAdd pool s).
Proof.
  intros Hs H. induction H as [|it pool Hi H IH]; cbn [poolAdd]; [auto|].
  destruct (_ && _); [constructor; auto|]. destruct (_ <=? _); constructor; auto.
Qed.
Lemma poolAdds_stops (N : nat) l pool : Forall (fun s => sStop s = N) l -> Forall (fun s => sStop s = N) pool ->
  Forall (fun s => sStop s = N) (fold_left poolAdd l pool).
Proof.
  intros H. revert pool. induction H as [|s l Hs H IH]; intros pool P; [exact P|]. cbn [fold_left].
  apply IH, poolAdd_stops; auto.
Qed.

Lemma mapM_keys s l : Forall (fun a => aStop a = sStop s /\ aStretch a = false) l ->
  exists r, mapM (applyAct s) l = Ok r /\ map key r = map actKey l /\
    Forall (fun s' => sStop s' = sStop s) r.
Proof.
  induction 1 as [|a l (H1 & H2) H (r & E & K & F)]; cbn [mapM map].
  - exists []. auto.
  - unfold applyAct at 1. rewrite H2. cbn [bind]. rewrite E. cbn [bind]. eexists. split; [reflexivity|].
    split; [cbn [map]; rewrite K; reflexivity|]. constructor; [exact H1|exact F].
Qed.

Section Growth.
Variable n : nat.
Notation w := (kaa n).
Notation loop f p a := (parseLoop ct f w None [] p a).
(** The pool, read as keys. *)
Definition Pool (l : list (nat * bool)) (pool : list ParseState) : Prop :=
  map key pool = l /\ Forall (fun s => sStop s = 2 * n) pool.

Lemma cons_eq {A} (a b : A) l m : a :: l = b :: m -> a = b /\ l = m.
Proof. intros E. injection E as -> ->. auto. Qed.
Lemma key_eq s p lk : key s = (p, lk) -> sPos s = p /\ sLinked s = lk.
Proof. unfold key. intros E. split; [exact (f_equal fst E)|exact (f_equal snd E)]. Qed.
Lemma loop_pop x l pool : Pool (x :: l) pool ->
  exists s pool', pool = s :: pool' /\ key s = x /\ sStop s = 2 * n /\ Pool l pool'.
Proof.
  intros (K & F). destruct pool as [|s pool']; [discriminate|]. cbn [map] in K. apply cons_eq in K. destruct K as (K1 & K2).
  apply Forall_cons_iff in F. destruct F as (F1 & F2). exists s, pool'. split; [reflexivity|].
  split; [exact K1|]. split; [exact F1|]. split; auto.
Qed.
Lemma loop_even k lk l pool acc fuel : k < n -> Pool ((2 * k, lk) :: l) pool ->
  exists pool', loop (S fuel) pool acc = loop fuel pool' acc /\
    Pool (fold_left keyAdd (if S k =? n then [(2 * n, false)]
                   else [(2 * k + 2, false); (2 * k + 3, false); (2 * k + 2, true)]) l) pool'.
Proof.
  intros L P. destruct (loop_pop _ _ _ P) as (s & pool' & -> & K & H & Pl). apply key_eq in K. destruct K as (Kp & Kl).
  cbn [parseLoop]. rewrite kaa_length, Kp. destruct (Nat.leb_spec (2 * n) (2 * k)); [lia|].
  rewrite stepStates_acts, Kp, Kl, H. destruct (acts_even n k lk L) as (al & E & F & KA). rewrite E. cbn [bind].
  destruct (mapM_keys s al) as (r & Er & Kr & Fr).
  { eapply Forall_impl; [|exact F]. cbv beta. intros a (A1 & A2). split; [rewrite A1; symmetry; exact H|exact A2]. }
  rewrite Er. cbn [bind]. eexists. split; [reflexivity|]. destruct Pl as (Pk & Ps). split.
  - rewrite keyAdd_pools, Kr, KA, Pk. reflexivity.
  - apply poolAdds_stops; [|exact Ps]. eapply Forall_impl; [|exact Fr]. cbv beta. intros s1 Q1. rewrite Q1; exact H.
Qed.
Lemma loop_odd k lk l pool acc fuel : k < n -> Pool ((2 * k + 1, lk) :: l) pool ->
  exists pool', loop (S fuel) pool acc = loop fuel pool' acc /\ Pool l pool'.
Proof.
  intros L P. destruct (loop_pop _ _ _ P) as (s & pool' & -> & K & H & Pl). apply key_eq in K. destruct K as (Kp & Kl).
  cbn [parseLoop]. rewrite kaa_length, Kp. destruct (Nat.leb_spec (2 * n) (2 * k + 1)); [lia|].
  rewrite stepStates_acts, Kp, Kl, H, (acts_odd n k lk L). cbn [bind mapM fold_left].
  exists pool'. auto.
Qed.

(** Pairs of a linked and an unlinked state. *)
Fixpoint pairs (j p : nat) : list (nat * bool) :=
  match j with
  | O => []
  | S j => (p, true) :: (p, false) :: pairs j p
  end.
Lemma pairs_length j p : length (pairs j p) = 2 * j.
Proof. induction j; cbn [pairs length]; lia. Qed.
Lemma pairs_at j p : Forall (fun x => fst x = p) (pairs j p).
Proof. induction j; cbn [pairs]; auto. Qed.
Lemma keyAdd_past l1 l2 s : Forall (fun x => fst x < fst s) l1 -> keyAdd (l1 ++ l2) s = l1 ++ keyAdd l2 s.
Proof.
  induction 1 as [|x l1 H F IH]; [reflexivity|]. cbn [keyAdd app].
  destruct (Nat.eqb_spec (fst x) (fst s)); [lia|]. cbn [andb].
  destruct (Nat.leb_spec (fst s) (fst x)); [lia|]. rewrite IH. reflexivity.
Qed.
(** The pool while the states at [2 * k] are popped. *)
Definition tailAt (j k : nat) : list (nat * bool) :=
  match j with
  | O => []
  | S _ => pairs j (2 * k + 2) ++ [(2 * k + 3, false)]
  end.
Lemma tail_step j k l : Forall (fun x => fst x < 2 * k + 2) l ->
  fold_left keyAdd [(2 * k + 2, false); (2 * k + 3, false); (2 * k + 2, true)] (l ++ tailAt j k)
  = l ++ tailAt (S j) k.
Proof.
  intros F. cbn [fold_left]. rewrite keyAdd_past by exact F.
  rewrite keyAdd_past by (eapply Forall_impl; [|exact F]; cbn; intros; lia).
  rewrite keyAdd_past by exact F. f_equal. destruct j as [|j].
  - cbn [tailAt keyAdd fst snd pairs app]. repeat (cbn [keyAdd fst snd Bool.eqb andb app];
      match goal with
      | |- context [?a =? ?b] => destruct (Nat.eqb_spec a b); try lia
      | |- context [?a <=? ?b] => destruct (Nat.leb_spec a b); try lia
      end); reflexivity.
  - assert (A : keyAdd (tailAt (S j) k) (2 * k + 2, false) = (2 * k + 2, false) :: tailAt (S j) k).
    { cbn [tailAt keyAdd fst snd pairs app]. rewrite Nat.eqb_refl, Nat.leb_refl. reflexivity. }
    rewrite A. cbn [tailAt]. rewrite app_comm_cons, keyAdd_past.
    + cbn [keyAdd fst snd]. rewrite Nat.eqb_refl. cbn [Bool.eqb andb].
      cbn [keyAdd fst snd pairs app]. rewrite Nat.eqb_refl, Nat.leb_refl. reflexivity.
    + constructor; [cbn; lia|]. eapply Forall_impl; [|apply pairs_at]. cbn. intros; lia.
Qed.

(** All states at [2 * k], followed by those that lead nowhere. *)
Definition odd1 (k : nat) (o : list (nat * bool)) : Prop := o = [] \/ o = [(2 * k + 1, false)].
Lemma odd1_at k o : odd1 k o -> Forall (fun x => fst x < 2 * k + 2) o.
Proof. intros [->| ->]; auto. constructor; [cbn; lia|auto]. Qed.
Lemma stage k L o : S k < n -> Forall (fun x => fst x = 2 * k) L -> odd1 k o ->
  forall j pool acc fuel, Pool (L ++ o ++ tailAt j k) pool ->
  (fuel < length L -> loop fuel pool acc = NoFuel) /\
  exists pool', loop (length L + fuel) pool acc = loop fuel pool' acc /\
    Pool (o ++ tailAt (length L + j) k) pool'.
Proof.
  intros Hk HL Ho. induction HL as [|x L Hx HL IH]; intros j pool acc fuel P.
  - cbn [length Nat.add app] in *. split; [lia|]. exists pool. auto.
  - destruct x as [p lk]. cbn in Hx. subst p. cbn [length app] in *.
    assert (T : fold_left keyAdd [(2 * k + 2, false); (2 * k + 3, false); (2 * k + 2, true)]
        (L ++ o ++ tailAt j k) = L ++ o ++ tailAt (S j) k).
    { rewrite !app_assoc. apply tail_step. apply Forall_app. split; [|apply odd1_at; exact Ho].
      eapply Forall_impl; [|exact HL]. cbn. intros; lia. }
    assert (St : forall fuel, exists pool', loop (S fuel) pool acc = loop fuel pool' acc /\
        Pool (L ++ o ++ tailAt (S j) k) pool').
    { intros f. destruct (loop_even k lk _ _ acc f ltac:(lia) P) as (pool' & E & P').
      destruct (Nat.eqb_spec (S k) n); [lia|]. rewrite T in P'. eauto. }
    split.
    + intros Lf. destruct fuel as [|fuel].
      * destruct (loop_pop _ _ _ P) as (s & pool' & -> & _). reflexivity.
      * destruct (St fuel) as (pool' & E & P'). rewrite E. apply (proj1 (IH (S j) pool' acc fuel P')). lia.
    + destruct (St (length L + fuel)) as (pool' & E & P'). cbn [Nat.add].
      rewrite E. destruct (proj2 (IH (S j) pool' acc fuel P')) as (p2 & E2 & P2). exists p2. split; [exact E2|].
      replace (S (length L + j)) with (length L + S j) by lia. exact P2.
Qed.
Lemma keyAdd_end L o e : Forall (fun x => fst x < fst e) (L ++ o) ->
  keyAdd (L ++ o) e = L ++ o ++ [e] /\ keyAdd (L ++ o ++ [e]) e = L ++ o ++ [e].
Proof.
  intros F. rewrite !app_assoc. split.
  - rewrite <- (app_nil_r (L ++ o)) at 1. rewrite keyAdd_past by exact F. reflexivity.
  - rewrite keyAdd_past by exact F. cbn [keyAdd]. rewrite Nat.eqb_refl, Bool.eqb_reflx. reflexivity.
Qed.
(** The last repetition. *)
Lemma final_stage k L o : S k = n -> Forall (fun x => fst x = 2 * k) L -> odd1 k o ->
  forall e pool acc fuel, (e = [] \/ e = [(2 * n, false)]) -> Pool (L ++ o ++ e) pool ->
  (fuel < length L -> loop fuel pool acc = NoFuel) /\
  exists pool', loop (length L + fuel) pool acc = loop fuel pool' acc /\
    Pool (o ++ match L with [] => e | _ => [(2 * n, false)] end) pool'.
Proof.
  intros Hk HL Ho. induction HL as [|x L Hx HL IH]; intros e pool acc fuel He P.
  - cbn [length Nat.add app] in *. split; [lia|]. exists pool. auto.
  - destruct x as [p lk]. cbn in Hx. subst p. cbn [length app] in *.
    assert (T : fold_left keyAdd [(2 * n, false)] (L ++ o ++ e) = L ++ o ++ [(2 * n, false)]).
    { cbn [fold_left]. destruct (keyAdd_end L o (2 * n, false)) as (A & B).
      - apply Forall_app. split; [eapply Forall_impl; [|exact HL]; cbn; intros; lia|].
        eapply Forall_impl; [|apply odd1_at; exact Ho]. cbn. intros; lia.
      - destruct He as [->| ->]; [rewrite app_nil_r; exact A|exact B]. }
    assert (St : forall fuel, exists pool', loop (S fuel) pool acc = loop fuel pool' acc /\
        Pool (L ++ o ++ [(2 * n, false)]) pool').
    { intros f. destruct (loop_even k lk _ _ acc f ltac:(lia) P) as (pool' & E & P').
      destruct (Nat.eqb_spec (S k) n); [|lia]. rewrite T in P'. eauto. }
    split.
    + intros Lf. destruct fuel as [|fuel].
      * destruct (loop_pop _ _ _ P) as (s & pool' & -> & _). reflexivity.
      * destruct (St fuel) as (pool' & E & P'). rewrite E.
        apply (proj1 (IH [(2 * n, false)] pool' acc fuel (or_intror eq_refl) P')). lia.
    + destruct (St (length L + fuel)) as (pool' & E & P'). cbn [Nat.add].
      rewrite E. destruct (proj2 (IH [(2 * n, false)] pool' acc fuel (or_intror eq_refl) P')) as (p2 & E2 & P2).
      exists p2. split; [exact E2|]. destruct L; exact P2.
Qed.
(** Those that lead nowhere. *)
Lemma odd_stage k o l pool acc : k < n -> odd1 k o -> Pool (o ++ l) pool ->
  (forall fuel, fuel < length o -> loop fuel pool acc = NoFuel) /\
  forall fuel, exists pool', loop (length o + fuel) pool acc = loop fuel pool' acc /\ Pool l pool'.
Proof.
  intros Hk [->| ->] P; cbn [length app] in *.
  - split; [intros; lia|]. intros fuel. exists pool. auto.
  - split.
    + intros [|f] Lf; [|lia]. destruct (loop_pop _ _ _ P) as (s & pool' & -> & _). reflexivity.
    + intros fuel. destruct (loop_odd k false l pool acc fuel Hk P) as (pool' & E & P'). exists pool'. auto.
Qed.

Definition need (m L o : nat) : nat := L * (2 ^ m - 1) + o + m.
Lemma growth m : forall k L o pool acc, 1 <= m -> k + m = n -> L <> [] ->
  Forall (fun x => fst x = 2 * k) L -> odd1 k o -> Pool (L ++ o) pool ->
  (forall fuel, fuel < need m (length L) (length o) -> loop fuel pool acc = NoFuel) /\
  (forall fuel, need m (length L) (length o) <= fuel -> exists d, loop fuel pool acc = Ok d).
Proof.
  induction m as [|m IH]; intros k L o pool acc Hm Hk HL FL Ho P; [lia|].
  destruct (Nat.eq_dec m 0) as [->|Z].
  - assert (N1 : need 1 (length L) (length o) = length L + (length o + 1)).
    { unfold need. change (2 ^ 1 - 1) with 1. lia. }
    rewrite N1. rewrite <- (app_nil_r o) in P.
    pose proof (final_stage k L o ltac:(lia) FL Ho [] pool acc) as A.
    assert (B : forall fuel, loop fuel pool acc = NoFuel /\ fuel < length L \/
       exists f pool', fuel = length L + f /\ loop fuel pool acc = loop f pool' acc /\ Pool (o ++ [(2 * n, false)]) pool').
    { intros fuel. destruct (Nat.lt_ge_cases fuel (length L)).
      - left. split; [|assumption]. apply (A fuel (or_introl eq_refl) P). assumption.
      - right. destruct (proj2 (A (fuel - length L) (or_introl eq_refl) P)) as (p2 & E & P2).
        exists (fuel - length L), p2. split; [lia|]. replace (length L + (fuel - length L)) with fuel in E by lia.
        split; [exact E|]. destruct L; [congruence|exact P2]. }
    assert (C : forall f pool', Pool (o ++ [(2 * n, false)]) pool' ->
       (f < length o + 1 -> loop f pool' acc = NoFuel) /\ (length o + 1 <= f -> exists d, loop f pool' acc = Ok d)).
    { intros f pool' P'. destruct (odd_stage k o _ pool' acc ltac:(lia) Ho P') as (D1 & D2). split; intros Lf.
      - destruct (Nat.lt_ge_cases f (length o)); [apply D1; assumption|].
        destruct (D2 0) as (p2 & E & P2). replace f with (length o + 0) by lia. rewrite E.
        destruct (loop_pop _ _ _ P2) as (s & p3 & -> & _). reflexivity.
      - destruct (D2 (f - length o)) as (p2 & E & P2). replace (length o + (f - length o)) with f in E by lia. rewrite E.
        destruct (loop_pop _ _ _ P2) as (s & p3 & -> & K & _ & (P3 & _)). apply key_eq in K. destruct K as (Kp & _).
        destruct p3; [|discriminate]. destruct (f - length o) as [|f'] eqn:Ef; [lia|].
        cbn [parseLoop]. rewrite kaa_length, Kp, Nat.leb_refl. destruct f'; cbn [parseLoop]; eauto. }
    split; intros fuel Lf; destruct (B fuel) as [(E & Q)|(f & p2 & -> & E & P2)].
    + exact E.
    + rewrite E. apply (C f p2 P2). lia.
    + lia.
    + rewrite E. apply (C f p2 P2). lia.
  - pose proof (stage k L o ltac:(lia) FL Ho 0 pool acc) as A. cbn [tailAt] in A. rewrite app_nil_r in A.
    assert (T : tailAt (length L + 0) k = pairs (length L) (2 * S k) ++ [(2 * S k + 1, false)]).
    { rewrite Nat.add_0_r. destruct L; [congruence|]. cbn [length tailAt].
      replace (2 * S k) with (2 * k + 2) by lia. replace (2 * k + 2 + 1) with (2 * k + 3) by lia. reflexivity. }
    assert (NS : need (S m) (length L) (length o) =
      length L + (length o + need m (length (pairs (length L) (2 * S k))) 1)).
    { unfold need. rewrite pairs_length. cbn [Nat.pow]. pose proof (Nat.pow_nonzero 2 m ltac:(lia)). nia. }
    rewrite NS.
    assert (G : forall p, Pool (tailAt (length L + 0) k) p ->
      (forall fuel, fuel < need m (length (pairs (length L) (2 * S k))) 1 -> loop fuel p acc = NoFuel) /\
      (forall fuel, need m (length (pairs (length L) (2 * S k))) 1 <= fuel -> exists d, loop fuel p acc = Ok d)).
    { intros p Pp. rewrite T in Pp. apply (IH (S k) _ [(2 * S k + 1, false)]); try lia; auto.
      - destruct L; [congruence|discriminate].
      - apply pairs_at.
      - right. reflexivity. }
    clear NS. set (R := need m _ 1) in *. clearbody R.
    assert (C : forall f p, Pool (o ++ tailAt (length L + 0) k) p ->
      (f < length o + R -> loop f p acc = NoFuel) /\ (length o + R <= f -> exists d, loop f p acc = Ok d)).
    { intros f p Pp. destruct (odd_stage k o _ p acc ltac:(lia) Ho Pp) as (D1 & D2).
      split; intros Lf.
      - destruct (Nat.lt_ge_cases f (length o)); [apply D1; assumption|].
        destruct (D2 (f - length o)) as (p2 & E & P2). replace (length o + (f - length o)) with f in E by lia.
        rewrite E. apply (G p2 P2). lia.
      - destruct (D2 (f - length o)) as (p2 & E & P2). replace (length o + (f - length o)) with f in E by lia.
        rewrite E. apply (G p2 P2). lia. }
    split; intros fuel Lf.
    + destruct (Nat.lt_ge_cases fuel (length L)); [apply (A fuel P); assumption|].
      destruct (proj2 (A (fuel - length L) P)) as (p2 & E & P2). replace (length L + (fuel - length L)) with fuel in E by lia.
      rewrite E. apply (C _ _ P2). lia.
    + destruct (proj2 (A (fuel - length L) P)) as (p2 & E & P2). replace (length L + (fuel - length L)) with fuel in E by lia.
      rewrite E. apply (C _ _ P2). lia.
Qed.

Lemma stop_kaa j : forall p, p + j = 2 * n -> wordStopF ct j w p = Ok (2 * n).
Proof.
  induction j as [|j IH]; intros p E; cbn [wordStopF]; [f_equal; lia|].
  destruct (kaa_thai n p ltac:(lia)) as (c & X & T). unfold at16. rewrite X. cbn [bind]. rewrite T. apply IH. lia.
Qed.
Lemma start_kaa : 1 <= n -> skipGap ct w [] (mkState 0 0 dagEmpty false) = Ok (mkState 0 (2 * n) dagEmpty false).
Proof.
  intros Hn. unfold skipGap. cbn [sPos sStop sDag sLinked].
  assert (E : SkipNonThai ct w 0 = 0).
  { unfold SkipNonThai. rewrite kaa_length. destruct n as [|m]; [lia|]. reflexivity. }
  rewrite E, Nat.ltb_irrefl. cbn [sPos sStop sDag sLinked]. unfold NextWordStop. cbn [nextBrk].
  rewrite kaa_length. destruct (Nat.ltb_spec 0 (2 * n)); [|lia]. rewrite Nat.sub_0_r.
  rewrite (stop_kaa (2 * n) 0) by lia. reflexivity.
Qed.
Lemma growth_parse : 1 <= n ->
  (forall fuel, fuel < 2 ^ n + n - 1 -> ParseU16F ct fuel w None [] = NoFuel) /\
  (forall fuel, 2 ^ n + n - 1 <= fuel -> exists d, ParseU16F ct fuel w None [] = Ok d).
Proof.
  intros Hn. unfold ParseU16F. rewrite start_kaa by exact Hn. cbn [bind poolAdd].
  pose proof (growth n 0 [(0, false)] [] [mkState 0 (2 * n) dagEmpty false] dagEmpty Hn eq_refl) as G.
  unfold need in G. cbn [length] in G.
  replace (1 * (2 ^ n - 1) + 0 + n) with (2 ^ n + n - 1) in G by (pose proof (Nat.pow_nonzero 2 n ltac:(lia)); lia).
  apply G.
  - discriminate.
  - constructor; [reflexivity|constructor].
  - left. reflexivity.
  - split; [reflexivity|]. constructor; [reflexivity|constructor].
Qed.
End Growth.

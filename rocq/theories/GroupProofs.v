(** GroupProofs.v - the grouping pipeline (fracDAG, lattice) and the flat
    enumeration. *)
From Coq Require Import List ZArith Bool Lia Permutation Sorted.
From Verif Require Import Spec Base ThCons Syl OrderProofs Lattice LatticeProofs Dag
  DagProofs PathProofs PronDag.
Import ListNotations.
Local Open Scope Z_scope.

Lemma syl_eqb_refl x : syl_eqb x x = true.
Proof. apply syl_eqb_spoken. auto. Qed.
Lemma syl_eqb_sym x y : syl_eqb x y = true -> syl_eqb y x = true.
Proof. rewrite !syl_eqb_spoken. auto. Qed.
Lemma syl_eqb_trans x y z : syl_eqb x y = true -> syl_eqb y z = true -> syl_eqb x z = true.
Proof. rewrite !syl_eqb_spoken. congruence. Qed.

Definition pwf (d : PronunDAG) := dwf syl_eqb d.
Definition fwf (d : FracDAG) := dwf frac_eqb d.

Lemma DAGSylStringsF_enum fuel d root : DAGSylStringsF fuel d root = enumF fuel d root.
Proof. reflexivity. Qed.
Lemma nodeLattice_enum fuel d root : nodeLattice fuel d root = enumF fuel d root.
Proof. reflexivity. Qed.

(** ** Languages *)
Definition LSub (L M : SylString -> Prop) : Prop := forall s, L s -> upTo M s.

Lemma LEq_refl L : LEq L L. Proof. intros s. tauto. Qed.
Lemma LEq_sym L M : LEq L M -> LEq M L. Proof. intros H s. rewrite (H s). tauto. Qed.
Lemma LEq_trans L M N : LEq L M -> LEq M N -> LEq L N.
Proof. intros H1 H2 s. rewrite (H1 s). apply H2. Qed.
Lemma LEq_intro L M : LSub L M -> LSub M L -> LEq L M.
Proof.
  intros H1 H2 s. split; intros (t & Ht & E).
  - apply H1 in Ht. destruct Ht as (u & Hu & E'). exists u. split; auto. eapply strEq_trans; eauto.
  - apply H2 in Ht. destruct Ht as (u & Hu & E'). exists u. split; auto. eapply strEq_trans; eauto.
Qed.

(** ** Enumeration *)
Lemma DAGSylStrings_spec d n : Acyclic d ->
  exists paths, enumP (pathFuel d) d n = Ok paths /\
    DAGSylStrings d n = Ok (map (map edgeVal) paths) /\
    (forall p, In p paths <-> p <> [] /\ MaxPath d n p).
Proof.
  intros A. destruct (enumP_ok _ (pathFuel d) d n (acyclic_depth _ d n A)) as [r Hr].
  exists r. split; auto. split.
  - unfold DAGSylStrings. rewrite DAGSylStringsF_enum, enumF_enumP, Hr. auto.
  - apply enumP_correct with (fuel := pathFuel d). auto.
Qed.

Lemma nodeLattice_spec d n : Acyclic d ->
  exists paths, nodeLattice (pathFuel d) d n = Ok (map (map edgeVal) paths) /\
    (forall p, In p paths <-> p <> [] /\ MaxPath d n p).
Proof.
  intros A. destruct (enumP_ok _ (pathFuel d) d n (acyclic_depth _ d n A)) as [r Hr].
  exists r. split.
  - rewrite nodeLattice_enum, enumF_enumP, Hr. auto.
  - apply enumP_correct with (fuel := pathFuel d). auto.
Qed.

Lemma out_nodup {T} (veqb : T -> T -> bool) (R : forall x, veqb x x = true) (d : DAG T) n :
  dwf veqb d -> NoDup (outEdges d n).
Proof.
  intros W. assert (NoDup (edgesF d)) as ND by (apply (FOP_NoDup _ veqb R); apply (dwf_nodup _ _ _ W)).
  unfold edgesF in ND. unfold outEdges, mmRange.
  induction (mFrom d) as [|[k e] m IH]; simpl in *; [constructor|].
  inversion ND; subst. destruct (Z.eqb_spec k n); simpl; auto.
  subst. constructor; auto. intros Hin. apply H1.
  change (map snd (filter (fun p : Z * DAGEdge T => fst p =? n) m)) with (mmRange m n) in Hin.
  apply in_range in Hin. apply in_map_iff. exists (n, e). auto.
Qed.

(** ** Merging a node with one edge in and one edge out *)
Section MergeSingle.
Variables (d d' : FracDAG) (n src dst : Z) (f1 f2 nf : PronunFrac) (a b : SylString).
Hypothesis Hin : forall x v, InE d x n v <-> x = src /\ v = f1.
Hypothesis Hout : forall y v, InE d n y v <-> y = dst /\ v = f2.
Hypothesis Hsn : src <> n.
Hypothesis Hdn : dst <> n.
Hypothesis Ha : alts f1 = [a].
Hypothesis Hb : alts f2 = [b].
Hypothesis Hnf : alts nf = [a ++ b].
Hypothesis Hd' : forall x y v,
  InE d' x y v <-> (InE d x y v /\ x <> n /\ y <> n) \/
                   (x = src /\ y = dst /\ v = nf /\ ~ Has frac_eqb d src dst nf).
Hypothesis Hnew : exists v, InE d' src dst v /\ frac_eqb v nf = true.

Lemma ms_in1 : InE d src n f1. Proof. apply Hin. auto. Qed.
Lemma ms_out1 : InE d n dst f2. Proof. apply Hout. auto. Qed.

Lemma ms_back k p m : Path d' k p m ->
  exists q, Path d k q m /\ (p <> [] -> q <> []) /\ (k <> n -> m <> n) /\
            (forall s, ChainDen (map edgeVal p) s -> ChainDen (map edgeVal q) s).
Proof.
  induction 1 as [k|k e p m He Hp (q & Q1 & Q2 & Q3 & Q4)].
  - exists []. repeat split; auto. constructor.
  - apply out_InE in He. apply Hd' in He.
    destruct He as [(He & N1 & N2)|(-> & Ht & Hv & _)].
    + exists (e :: q). repeat split; auto.
      * constructor; auto. apply out_InE; auto.
      * discriminate.
      * simpl. intros s Hs. apply chain_cons_inv in Hs. destruct Hs as (u & t & U & C & ->).
        constructor; auto.
    + exists (mkEdge n f1 :: mkEdge dst f2 :: q). repeat split.
      * constructor; [apply out_InE; apply ms_in1|]. constructor; [apply out_InE; apply ms_out1|].
        simpl. rewrite <- Ht. auto.
      * discriminate.
      * intros _. apply Q3. rewrite Ht. auto.
      * simpl. intros s Hs. apply chain_cons_inv in Hs. destruct Hs as (u & t & U & C & ->).
        rewrite Hv, Hnf in U. destruct U as [<-|[]]. rewrite <- app_assoc.
        constructor; [simpl; rewrite Ha; left; auto|]. constructor; auto. simpl; rewrite Hb; left; auto.
Qed.

Lemma ms_noout_fwd m : NoOut d m -> NoOut d' m.
Proof.
  unfold NoOut. intros H. destruct (outEdges d' m) as [|e l] eqn:E; auto.
  assert (In e (outEdges d' m)) as I by (rewrite E; left; auto).
  apply out_InE, Hd' in I. destruct I as [(I & _)|(-> & _)].
  - apply out_InE in I. rewrite H in I. destruct I.
  - pose proof ms_in1 as I. change f1 with (edgeVal (mkEdge n f1)) in I.
    change n with (target (mkEdge n f1)) in I at 1. apply out_InE in I. rewrite H in I. destruct I.
Qed.

Lemma ms_noout_back m : m <> n -> NoOut d' m -> NoOut d m.
Proof.
  unfold NoOut. intros N H. destruct (outEdges d m) as [|e l] eqn:E; auto.
  assert (In e (outEdges d m)) as I by (rewrite E; left; auto).
  apply out_InE in I. exfalso.
  destruct (Z.eq_dec (target e) n) as [Et|Et].
  - rewrite Et in I. apply Hin in I. destruct I as [-> _].
    destruct Hnew as (v & I & _).
    assert (In (mkEdge dst v) (outEdges d' src)) as X by (apply out_InE; auto).
    rewrite H in X. destruct X.
  - assert (In e (outEdges d' m)) as X.
    { apply out_InE. apply Hd'. left. auto. }
    rewrite H in X. destruct X.
Qed.

Lemma ms_fwd : forall len p, (length p <= len)%nat -> forall k m s,
  Path d k p m -> k <> n -> m <> n -> ChainDen (map edgeVal p) s ->
  exists q s', Path d' k q m /\ ChainDen (map edgeVal q) s' /\ strEq s' s /\ (p <> [] -> q <> []).
Proof.
  induction len as [|len IH]; intros p Hlen k m s Hp Nk Nm Hs.
  - destruct p; simpl in Hlen; [|lia]. inversion Hp; subst. inversion Hs; subst.
    exists [], []. repeat split; auto. constructor.
  - inversion Hp; subst.
    + inversion Hs; subst. exists [], []. repeat split; auto. constructor.
    + simpl in Hs, Hlen. apply chain_cons_inv in Hs. destruct Hs as (u & t & U & C & ->).
      apply out_InE in H. destruct (Z.eq_dec (target e) n) as [Et|Et].
      * rewrite Et in H. apply Hin in H. destruct H as [-> Hv].
        rewrite Hv, Ha in U. destruct U as [<-|[]].
        rewrite Et in H0. inversion H0; subst; [congruence|].
        apply out_InE in H. apply Hout in H. destruct H as [Ht2 Hv2].
        simpl in C, Hlen. apply chain_cons_inv in C. destruct C as (u2 & t2 & U2 & C2 & ->).
        rewrite Hv2, Hb in U2. destruct U2 as [<-|[]].
        rewrite Ht2 in H1.
        assert (length p <= len)%nat as Hl by lia.
        destruct (IH p Hl dst m t2) as (q & s' & Q1 & Q2 & Q3 & _); auto.
        destruct Hnew as (v & I & V).
        assert (exists ab, In ab (alts v) /\ strEq ab (a ++ b)) as (ab & A1 & A2).
        { unfold frac_eqb in V. apply alts_eqb_iff in V. rewrite Hnf in V.
          inversion V; subst. inversion H5; subst. exists x. split; auto. left; auto. }
        exists (mkEdge dst v :: q), (ab ++ s'). repeat split.
        -- constructor; auto. apply out_InE. auto.
        -- simpl. constructor; auto.
        -- rewrite app_assoc. apply strEq_app; auto.
        -- discriminate.
      * assert (length p0 <= len)%nat as Hl by lia.
        destruct (IH p0 Hl (target e) m t) as (q & s' & Q1 & Q2 & Q3 & _); auto.
        exists (e :: q), (u ++ s'). repeat split.
        -- constructor; auto. apply out_InE, Hd'. left. auto.
        -- simpl. constructor; auto.
        -- apply strEq_app; auto. reflexivity.
        -- discriminate.
Qed.

Lemma ms_lang : n <> 0 -> LEq (FLang d) (FLang d').
Proof.
  intros N0. apply LEq_intro.
  - intros s (p & Np & (m & Hp & Hm) & Hs).
    assert (m <> n) as Nm.
    { intros ->. pose proof ms_out1 as I.
      assert (In (mkEdge dst f2) (outEdges d n)) as X by (apply out_InE; auto).
      rewrite Hm in X. destruct X. }
    destruct (ms_fwd (length p) p (le_n _) 0 m s) as (q & s' & Q1 & Q2 & Q3 & Q4); auto.
    exists s'. split; auto. exists q. repeat split; auto. exists m. split; auto.
    apply ms_noout_fwd; auto.
  - intros s (p & Np & (m & Hp & Hm) & Hs).
    destruct (ms_back _ _ _ Hp) as (q & Q1 & Q2 & Q3 & Q4).
    exists s. split; [|reflexivity]. exists q. repeat split; auto.
    exists m. split; auto. apply ms_noout_back; auto.
Qed.

Lemma ms_acyclic : Acyclic d -> Acyclic d'.
Proof.
  intros A k p Hp. destruct (ms_back _ _ _ Hp) as (q & Q1 & Q2 & _).
  apply A in Q1. destruct p; auto. exfalso. apply Q2; auto. discriminate.
Qed.
End MergeSingle.

Definition AllSingle (d : FracDAG) : Prop := forall x y v, InE d x y v -> exists s, alts v = [s] /\ s <> [].
Definition NoIn (d : FracDAG) (n : Z) : Prop := forall x v, ~ InE d x n v.

Record GInv (d : FracDAG) : Prop := {
  g_wf : fwf d;
  g_acy : Acyclic d;
  g_single : AllSingle d
}.

Lemma degree1_out (d : FracDAG) n e : fwf d ->
  outDegree d n = 1%nat -> In e (outEdges d n) ->
  forall y v, InE d n y v <-> y = target e /\ v = edgeVal e.
Proof.
  intros W D I y v. unfold outDegree, mmCount in D. unfold outEdges in *.
  destruct (mmRange (mFrom d) n) as [|e0 [|e1 l]] eqn:E; simpl in D; try lia.
  destruct I as [->|[]].
  assert (InE d n y v <-> In (mkEdge y v) (outEdges d n)) as ->.
  { rewrite out_InE. reflexivity. }
  unfold outEdges. rewrite E. split.
  - intros [->|[]]. auto.
  - intros [-> ->]. left. destruct e; auto.
Qed.
Lemma degree1_in (d : FracDAG) n e : fwf d ->
  inDegree d n = 1%nat -> In e (inEdges d n) ->
  forall x v, InE d x n v <-> x = target e /\ v = edgeVal e.
Proof.
  intros W D I y v. unfold inDegree, mmCount in D. unfold inEdges in *.
  destruct (mmRange (mTo d) n) as [|e0 [|e1 l]] eqn:E; simpl in D; try lia.
  destruct I as [->|[]].
  assert (InE d y n v <-> In (mkEdge y v) (inEdges d n)) as ->.
  { rewrite (in_InE _ _ _ _ _ W). reflexivity. }
  unfold inEdges. rewrite E. split.
  - intros [->|[]]. auto.
  - intros [-> ->]. left. destruct e; auto.
Qed.

Lemma fracOf_alts pos s : alts (fracOf pos s) = [s].
Proof. reflexivity. Qed.

Lemma acyclic_noself {T} (d : DAG T) x v : Acyclic d -> ~ InE d x x v.
Proof.
  intros A I. assert (Path d x [mkEdge x v] x) as P.
  { constructor; [apply out_InE; auto|constructor]. }
  apply A in P. discriminate.
Qed.

Lemma edges_len {T} (d : DAG T) : length (edgesF d) = length (mFrom d).
Proof. apply map_length. Qed.

Lemma mergeSingleAt_ok d n e : GInv d ->
  In (n, e) (mFrom d) -> outDegree d n = 1%nat -> inDegree d n = 1%nat ->
  exists d', mergeSingleAt d n e = Ok d' /\ GInv d' /\
             (NoIn d 0 -> LEq (FLang d) (FLang d') /\ NoIn d' 0) /\
             (length (mFrom d') < length (mFrom d))%nat.
Proof.
  intros G I Do Di. destruct G as [W A AS].
  assert (In e (outEdges d n)) as Ie by (apply in_range; auto).
  pose proof (degree1_out _ _ _ W Do Ie) as Hout.
  unfold mergeSingleAt.
  destruct (inEdges d n) as [|inE l] eqn:EI.
  { unfold inDegree, mmCount in Di. unfold inEdges in EI. rewrite EI in Di. discriminate. }
  assert (In inE (inEdges d n)) as Ii by (rewrite EI; left; auto).
  pose proof (degree1_in _ _ _ W Di Ii) as Hin.
  set (src := target inE) in *. set (dst := target e) in *.
  set (f1 := edgeVal inE) in *. set (f2 := edgeVal e) in *.
  assert (InE d src n f1) as I1 by (apply Hin; auto).
  assert (InE d n dst f2) as I2 by (apply Hout; auto).
  destruct (AS _ _ _ I1) as (a & Ha & Na). destruct (AS _ _ _ I2) as (b & Hb & Nb).
  unfold firstAlt. rewrite Ha, Hb. cbv beta iota delta [bind].
  assert (src <> n) as Nsn. { intros E. rewrite E in I1. eapply acyclic_noself; eauto. }
  assert (dst <> n) as Ndn. { intros E. rewrite E in I2. eapply acyclic_noself; eauto. }
  assert (src <> dst) as Nsd.
  { intros E. assert (Path d src [mkEdge n f1; mkEdge dst f2] src) as P.
    { constructor; [apply out_InE; auto|]. constructor; [apply out_InE; auto|].
      simpl. rewrite <- E. constructor. }
    apply A in P. discriminate. }
  destruct (Z.eqb_spec src n) as [|_]; [contradiction|].
  set (nf := fracOf dst (a ++ b)).
  set (d1 := fst (fRemoveEdge d src n f1)).
  set (d2 := fst (fRemoveEdge d1 n dst f2)).
  set (d3 := fst (fAddEdge d2 src dst nf)).
  assert (fwf d1) as W1.
  { apply remove_dwf; auto using frac_eqb_refl, frac_eqb_sym. exact frac_eqb_trans. }
  assert (fwf d2) as W2.
  { apply remove_dwf; auto using frac_eqb_refl, frac_eqb_sym. exact frac_eqb_trans. }
  assert (fwf d3) as W3.
  { apply add_dwf; auto using frac_eqb_refl, frac_eqb_sym. }
  assert (forall x y v, InE d1 x y v <-> InE d x y v /\ y <> n) as E1.
  { intros x y v. unfold d1, fRemoveEdge.
    rewrite remove_InE by (auto using frac_eqb_refl, frac_eqb_sym; exact frac_eqb_trans).
    split; intros [X1 X2]; split; auto.
    - intros ->. apply Hin in X1. destruct X1 as [-> ->]. apply X2. auto using frac_eqb_refl.
    - intros (-> & -> & _). auto. }
  assert (forall x y v, InE d2 x y v <-> InE d x y v /\ x <> n /\ y <> n) as E2.
  { intros x y v. unfold d2, fRemoveEdge.
    rewrite remove_InE by (auto using frac_eqb_refl, frac_eqb_sym; exact frac_eqb_trans).
    rewrite E1. split; intros [X1 X2]; repeat split; try tauto.
    - intros ->. destruct X1 as [X1 X3]. apply Hout in X1. destruct X1 as [-> ->].
      apply X2. auto using frac_eqb_refl. }
  assert (Has frac_eqb d2 src dst nf <-> Has frac_eqb d src dst nf) as HH.
  { unfold Has. split; intros (v & X & V); exists v; split; auto; apply E2 in X || apply E2; tauto. }
  assert (forall x y v, InE d3 x y v <-> (InE d x y v /\ x <> n /\ y <> n) \/
            (x = src /\ y = dst /\ v = nf /\ ~ Has frac_eqb d src dst nf)) as E3.
  { intros x y v. unfold d3, fAddEdge. rewrite add_InE, E2, HH by auto using frac_eqb_refl, frac_eqb_sym. tauto. }
  assert (exists v, InE d3 src dst v /\ frac_eqb v nf = true) as New.
  { assert (Has frac_eqb d3 src dst nf) as X.
    { unfold d3, fAddEdge. apply add_Has; auto using frac_eqb_refl, frac_eqb_sym. exact frac_eqb_trans. }
    exact X. }
  exists d3. split; [reflexivity|]. split; [split|split].
  - auto.
  - eapply ms_acyclic with (n := n) (src := src) (dst := dst) (f1 := f1) (f2 := f2) (nf := nf); eauto.
  - intros x y v X. apply E3 in X. destruct X as [(X & _)|(_ & _ & -> & _)].
    + eapply AS; eauto.
    + exists (a ++ b). split; [reflexivity|]. destruct a; [contradiction|discriminate].
  - intros S0. assert (n <> 0) as N0. { intros ->. eapply S0; eauto. }
    split.
    + eapply ms_lang with (n := n) (src := src) (dst := dst) (f1 := f1) (f2 := f2) (nf := nf); eauto.
    + intros x v X. apply E3 in X. destruct X as [(X & _)|(_ & X & _)].
      * eapply S0; eauto.
      * rewrite <- X in I2. eapply S0; eauto.
  - rewrite <- !edges_len.
    destruct (remove_spec _ _ frac_eqb_sym frac_eqb_trans d src n f1 W) as [R1 _].
    destruct R1 as (v1 & _ & _ & P1 & _). { exists f1. auto using frac_eqb_refl. }
    destruct (remove_spec _ _ frac_eqb_sym frac_eqb_trans d1 n dst f2 W1) as [R2 _].
    destruct R2 as (v2 & _ & _ & P2 & _). { exists f2. split; [apply E1; auto|apply frac_eqb_refl]. }
    apply Permutation_length in P1, P2.
    change (fst (removeEdge frac_eqb d src n f1)) with d1 in P1.
    change (fst (removeEdge frac_eqb d1 n dst f2)) with d2 in P2.
    simpl in P1, P2.
    assert (length (edgesF d3) <= S (length (edgesF d2)))%nat as P3.
    { destruct (Has_dec _ frac_eqb d2 src dst nf) as [X|X].
      - unfold d3, fAddEdge, addEdge. apply exist_Has in X. rewrite X. simpl. lia.
      - unfold d3, fAddEdge. rewrite (Permutation_length (add_edges _ _ d2 src dst nf X)). auto. }
    lia.
Qed.

(** Scan index plus remaining edges bound the number of loop turns. *)
Definition need (L : nat) (d : FracDAG) (i : nat) : nat :=
  (length (mFrom d) * S L + (length (mFrom d) - i) + 1)%nat.

Lemma mergeSinglesLoop_ok L : forall fuel d i, GInv d ->
  (length (mFrom d) <= L)%nat -> (need L d i <= fuel)%nat ->
  exists d', mergeSinglesLoop fuel d i = Ok d' /\ GInv d' /\
             (NoIn d 0 -> LEq (FLang d) (FLang d') /\ NoIn d' 0) /\
             (length (mFrom d') <= length (mFrom d))%nat.
Proof.
  induction fuel as [|fuel IH]; intros d i G HL HN; [unfold need in HN; lia|].
  simpl. destruct (nth_error (mFrom d) i) as [[n e]|] eqn:E.
  2:{ exists d. split; [reflexivity|]. split; [exact G|]. split; [|lia].
      intros N. split; [apply LEq_refl|exact N]. }
  assert (i < length (mFrom d))%nat as Hi by (apply nth_error_Some; congruence).
  destruct ((outDegree d n =? 1)%nat && (inDegree d n =? 1)%nat) eqn:D.
  - apply andb_true_iff in D. destruct D as [D1 D2]. apply Nat.eqb_eq in D1, D2.
    destruct (mergeSingleAt_ok d n e G (nth_error_In _ _ E) D1 D2) as (d1 & -> & G1 & L1 & LT).
    cbv beta iota delta [bind].
    destruct (IH d1 0%nat) as (d2 & -> & G2 & L2 & LT2); auto.
    + lia.
    + unfold need in *. nia.
    + exists d2. split; [reflexivity|]. split; [exact G2|]. split; [|lia].
      intros N. destruct (L1 N) as [L1' N1]. destruct (L2 N1) as [L2' N2].
      split; [eapply LEq_trans; eauto|exact N2].
  - apply IH; auto. unfold need in *. lia.
Qed.

(** ** Merging parallel edges *)
Section MergeParallel.
Variables (d d' : FracDAG) (from to : Z) (mf : PronunFrac).
Hypothesis Hd' : forall x y v,
  InE d' x y v <-> (InE d x y v /\ ~ (x = from /\ y = to)) \/ (x = from /\ y = to /\ v = mf).
Hypothesis Hmf1 : forall s, In s (alts mf) -> exists v, InE d from to v /\ In s (alts v).
Hypothesis Hmf2 : forall s v, InE d from to v -> In s (alts v) -> exists s', In s' (alts mf) /\ strEq s' s.
Hypothesis Hne : exists v, InE d from to v.

Lemma mp_noout m : NoOut d m <-> NoOut d' m.
Proof.
  assert (forall g k, NoOut g k <-> forall y v, ~ InE (T := PronunFrac) g k y v) as X.
  { intros g k. unfold NoOut. split.
    - intros H y v I. assert (In (mkEdge y v) (outEdges g k)) as J by (apply out_InE; auto).
      rewrite H in J. destruct J.
    - intros H. destruct (outEdges g k) as [|e l] eqn:E; auto. exfalso.
      apply (H (target e) (edgeVal e)). apply out_InE. rewrite E. left; auto. }
  rewrite !X. split; intros H y v I.
  - apply Hd' in I. destruct I as [(I & _)|(-> & -> & _)].
    + eapply H; eauto.
    + destruct Hne as [w I]. eapply H; eauto.
  - destruct (Z.eq_dec m from) as [->|N1].
    + destruct (Z.eq_dec y to) as [->|N2].
      * apply (H to mf). apply Hd'. auto.
      * apply (H y v). apply Hd'. left. tauto.
    + apply (H y v). apply Hd'. left. tauto.
Qed.

Lemma mp_back k p m : Path d' k p m -> forall s, ChainDen (map edgeVal p) s ->
  exists q, Path d k q m /\ (p <> [] -> q <> []) /\ ChainDen (map edgeVal q) s.
Proof.
  induction 1 as [k|k e p m He Hp IH]; simpl; intros s Hs.
  - exists []. repeat split; auto. constructor.
  - apply chain_cons_inv in Hs. destruct Hs as (u & t & U & C & ->).
    destruct (IH _ C) as (q & Q1 & _ & Q3).
    apply out_InE in He. apply Hd' in He. destruct He as [(He & _)|(-> & Ht & Hv)].
    + exists (e :: q). repeat split; try discriminate; [|simpl; constructor; auto].
      constructor; auto. apply out_InE; auto.
    + rewrite Hv in U. apply Hmf1 in U. destruct U as (v & I & U).
      exists (mkEdge to v :: q). repeat split; try discriminate; [|simpl; constructor; auto].
      constructor; [apply out_InE; auto|]. simpl. rewrite <- Ht. auto.
Qed.

Lemma mp_back_path k p m : Path d' k p m ->
  exists q, Path d k q m /\ (p <> [] -> q <> []).
Proof.
  induction 1 as [k|k e p m He Hp (q & Q1 & Q2)].
  - exists []. repeat split; auto. constructor.
  - apply out_InE in He. apply Hd' in He. destruct He as [(He & _)|(-> & Ht & Hv)].
    + exists (e :: q). split; [|discriminate]. constructor; auto. apply out_InE; auto.
    + destruct Hne as [v I]. exists (mkEdge to v :: q). split; [|discriminate].
      constructor; [apply out_InE; auto|]. simpl. rewrite <- Ht. auto.
Qed.

Lemma mp_fwd k p m : Path d k p m -> forall s, ChainDen (map edgeVal p) s ->
  exists q s', Path d' k q m /\ (p <> [] -> q <> []) /\ ChainDen (map edgeVal q) s' /\ strEq s' s.
Proof.
  induction 1 as [k|k e p m He Hp IH]; simpl; intros s Hs.
  - inversion Hs; subst. exists [], []. repeat split; auto; constructor.
  - apply chain_cons_inv in Hs. destruct Hs as (u & t & U & C & ->).
    destruct (IH _ C) as (q & s' & Q1 & _ & Q3 & Q4).
    apply out_InE in He.
    destruct (Z.eq_dec k from) as [->|N1]; [destruct (Z.eq_dec (target e) to) as [Et|N2]|].
    + rewrite Et in He. destruct (Hmf2 _ _ He U) as (u' & U' & EU).
      exists (mkEdge to mf :: q), (u' ++ s'). repeat split; try discriminate.
      * constructor; [apply out_InE, Hd'; auto|]. simpl. rewrite <- Et. auto.
      * simpl. constructor; auto.
      * apply strEq_app; auto.
    + exists (e :: q), (u ++ s'). repeat split; try discriminate.
      * constructor; auto. apply out_InE, Hd'. left. tauto.
      * simpl. constructor; auto.
      * apply strEq_app; auto. reflexivity.
    + exists (e :: q), (u ++ s'). repeat split; try discriminate.
      * constructor; auto. apply out_InE, Hd'. left. tauto.
      * simpl. constructor; auto.
      * apply strEq_app; auto. reflexivity.
Qed.

Lemma mp_lang : LEq (FLang d) (FLang d').
Proof.
  apply LEq_intro.
  - intros s (p & Np & (m & Hp & Hm) & Hs).
    destruct (mp_fwd _ _ _ Hp _ Hs) as (q & s' & Q1 & Q2 & Q3 & Q4).
    exists s'. split; auto. exists q. repeat split; auto. exists m. split; auto. apply mp_noout; auto.
  - intros s (p & Np & (m & Hp & Hm) & Hs).
    destruct (mp_back _ _ _ Hp _ Hs) as (q & Q1 & Q2 & Q3).
    exists s. split; [|reflexivity]. exists q. repeat split; auto. exists m. split; auto. apply mp_noout; auto.
Qed.

Lemma mp_acyclic : Acyclic d -> Acyclic d'.
Proof.
  intros A k p Hp. destruct (mp_back_path _ _ _ Hp) as (q & Q1 & Q2).
  apply A in Q1. destruct p; auto. exfalso. apply Q2; auto. discriminate.
Qed.
End MergeParallel.

Definition mstep (to : Z) (acc : PronunFrac * nat) (e : DAGEdge PronunFrac) :=
  if target e =? to then (fracAdd (fst acc) (edgeVal e), S (snd acc)) else acc.

Lemma mstep_fold to l acc :
  let r := fold_left (mstep to) l acc in
  (forall s, In s (alts (fst r)) ->
     In s (alts (fst acc)) \/ exists e, In e l /\ target e = to /\ In s (alts (edgeVal e))) /\
  (forall s, In s (alts (fst acc)) -> In s (alts (fst r))) /\
  (forall e s, In e l -> target e = to -> In s (alts (edgeVal e)) ->
     exists s', In s' (alts (fst r)) /\ strEq s' s) /\
  (snd r = snd acc + length (filter (fun e => (target e =? to)%Z) l))%nat /\
  (StronglySorted strLt (alts (fst acc)) -> StronglySorted strLt (alts (fst r))).
Proof.
  revert acc. induction l as [|e l IH]; simpl; intros acc.
  - repeat split; auto. tauto.
  - destruct (Z.eqb_spec (target e) to) as [E|N].
    + assert (mstep to acc e = (insertAll (alts (edgeVal e)) (fst acc), S (snd acc))) as M.
      { unfold mstep. rewrite (proj2 (Z.eqb_eq _ _) E). auto. }
      rewrite M.
      destruct (IH (insertAll (alts (edgeVal e)) (fst acc), S (snd acc))) as (H1 & H2 & H3 & H4 & H5).
      simpl in *. repeat split.
      * intros s Hs. apply H1 in Hs. destruct Hs as [Hs|(e' & ? & ? & ?)].
        -- apply insertAll_in_inv in Hs. destruct Hs as [Hs|Hs]; auto. right. exists e. auto.
        -- right. exists e'. auto.
      * intros s Hs. apply H2. apply insertAll_in_old; auto.
      * intros e' s [<-|He'] Et Hs.
        -- destruct (insertAll_in_new (alts (edgeVal e)) (fst acc) s Hs) as (x & X1 & X2).
           exists x. auto.
        -- eauto.
      * rewrite H4. simpl. lia.
      * intros Hs. apply H5. apply insertAll_sorted; auto.
    + assert (mstep to acc e = acc) as M.
      { unfold mstep. rewrite (proj2 (Z.eqb_neq _ _) N). auto. }
      rewrite M. destruct (IH acc) as (H1 & H2 & H3 & H4 & H5).
      repeat split; auto.
      * intros s Hs. apply H1 in Hs. destruct Hs as [Hs|(e' & ? & ? & ?)]; auto. right. exists e'. auto.
      * intros e' s [<-|He'] Et Hs; [contradiction|eauto].
Qed.

Definition NonEmptyAlts (d : FracDAG) : Prop :=
  forall x y v, InE d x y v -> alts v <> [] /\ Forall (fun s => s <> []) (alts v).
Record PInv (d : FracDAG) : Prop := {
  p_wf : fwf d;
  p_acy : Acyclic d;
  p_alts : NonEmptyAlts d;
  p_sorted : forall x y v, InE d x y v -> StronglySorted strLt (alts v)
}.

Lemma GInv_PInv d : GInv d -> PInv d.
Proof.
  intros [W A AS]. split; auto.
  - intros x y v I. destruct (AS _ _ _ I) as (s & E & N). rewrite E. split; [discriminate|]. repeat constructor. auto.
  - intros x y v I. destruct (AS _ _ _ I) as (s & E & N). rewrite E. repeat constructor.
Qed.


Lemma between_out (d : FracDAG) f t :
  between d f t = length (filter (fun e => target e =? t) (outEdges d f)).
Proof.
  unfold between, edgesF, outEdges, mmRange. induction (mFrom d) as [|[k e] m IH]; simpl; auto.
  unfold direct at 1. simpl. destruct (k =? f); simpl; auto.
  destruct (target e =? t); simpl; auto.
Qed.

Lemma filter_split_len {A} (g : A -> bool) l :
  (length (filter g l) + length (filter (fun x => negb (g x)) l) = length l)%nat.
Proof. induction l; simpl; auto. destruct (g a); simpl; lia. Qed.

Lemma mergeParallelAt_ok d from to : PInv d -> (1 < between d from to)%nat ->
  let '(mf, cnt) := mergedFracOf d from to in
  cnt = between d from to /\
  let d2 := fst (fAddEdge (fst (removeDirectEdges d from to)) from to mf) in
  PInv d2 /\ LEq (FLang d) (FLang d2) /\
  (length (mFrom d2) < length (mFrom d))%nat /\
  (forall x y v, InE d2 x y v <-> (InE d x y v /\ ~ (x = from /\ y = to)) \/ (x = from /\ y = to /\ v = mf)).
Proof.
  intros [W A NE SO] HB. unfold mergedFracOf.
  change (fun (acc : PronunFrac * nat) (e : DAGEdge PronunFrac) =>
            if target e =? to then (fracAdd (fst acc) (edgeVal e), S (snd acc)) else acc)
    with (mstep to).
  destruct (mstep_fold to (outEdges d from) (fracEmpty, O)) as (H1 & H2 & H3 & H4 & H5).
  destruct (fold_left (mstep to) (outEdges d from) (fracEmpty, O)) as [mf cnt].
  simpl in *. split; [rewrite H4, between_out; auto|].
  set (d1 := fst (removeDirectEdges d from to)).
  set (d2 := fst (fAddEdge d1 from to mf)).
  assert (fwf d1) as W1 by (apply rd_dwf; auto).
  assert (forall x y v, InE d1 x y v <-> InE d x y v /\ ~ (x = from /\ y = to)) as E1.
  { intros. unfold d1. apply rd_InE. }
  assert (~ Has frac_eqb d1 from to mf) as NH.
  { intros (v & I & _). apply E1 in I. tauto. }
  assert (fwf d2) as W2. { apply add_dwf; auto using frac_eqb_refl, frac_eqb_sym. }
  assert (forall x y v, InE d2 x y v <-> (InE d x y v /\ ~ (x = from /\ y = to)) \/ (x = from /\ y = to /\ v = mf)) as E2.
  { intros x y v. unfold d2, fAddEdge. rewrite add_InE by auto using frac_eqb_refl, frac_eqb_sym.
    rewrite E1. tauto. }
  assert (exists v, InE d from to v) as Hne.
  { unfold between in HB. destruct (filter (direct PronunFrac from to) (edgesF d)) as [|[[x y] v] l] eqn:E; simpl in HB; [lia|].
    assert (In (x, y, v) (filter (direct PronunFrac from to) (edgesF d))) as I by (rewrite E; left; auto).
    apply filter_In in I. destruct I as [I D]. unfold direct in D; simpl in D.
    apply andb_true_iff in D. destruct D as [D1 D2]. apply Z.eqb_eq in D1, D2. subst. exists v. auto. }
  assert (forall s, In s (alts mf) -> exists v, InE d from to v /\ In s (alts v)) as M1.
  { intros s Hs. destruct (H1 s Hs) as [[]|(e & I & Et & U)]. exists (edgeVal e). split; auto.
    apply out_InE in I. rewrite Et in I. auto. }
  assert (forall s v, InE d from to v -> In s (alts v) -> exists s', In s' (alts mf) /\ strEq s' s) as M2.
  { intros s v I U. apply (H3 (mkEdge to v) s); auto. apply out_InE. auto. }
  split; [split|split; [|split]]; auto.
  - eapply mp_acyclic; eauto.
  - intros x y v I. apply E2 in I. destruct I as [(I & _)|(_ & _ & ->)]; [eapply NE; eauto|].
    destruct Hne as [v I]. destruct (NE _ _ _ I) as [NE1 NE2]. split.
    + destruct (alts v) as [|u r] eqn:Ev; [congruence|].
      destruct (M2 u v I) as (s' & X & _); [rewrite Ev; left; auto|]. intros Z0. rewrite Z0 in X. destruct X.
    + rewrite Forall_forall. intros s Hs. destruct (M1 s Hs) as (w & Iw & Uw).
      destruct (NE _ _ _ Iw) as [_ NE3]. rewrite Forall_forall in NE3. auto.
  - intros x y v I. apply E2 in I. destruct I as [(I & _)|(_ & _ & ->)]; [eapply SO; eauto|].
    apply H5. constructor.
  - eapply mp_lang; eauto.
  - pose proof (Permutation_length (add_edges _ _ d1 from to mf NH)) as P.
    change (fst (addEdge frac_eqb d1 from to mf)) with d2 in P. simpl in P.
    unfold d1 in P. rewrite rd_edgesF in P. unfold between in HB.
    pose proof (filter_split_len (direct PronunFrac from to) (edgesF d)) as P2.
    pose proof (edges_len d2). pose proof (edges_len d). change (length (mFrom d2) < length (mFrom d))%nat. lia.
Qed.


Lemma between_nth (d : FracDAG) i j f e e' :
  nth_error (mFrom d) i = Some (f, e) -> nth_error (mFrom d) j = Some (f, e') ->
  target e = target e' -> i <> j -> (1 < between d f (target e))%nat.
Proof.
  unfold between, edgesF. intros Hi Hj Et N. revert i j Hi Hj N.
  induction (mFrom d) as [|[k x] m IH]; intros i j Hi Hj N.
  - destruct i; discriminate.
  - destruct i as [|i], j as [|j]; simpl in Hi, Hj; try lia.
    + injection Hi as -> ->. simpl. unfold direct at 1. simpl. rewrite !Z.eqb_refl. simpl.
      assert (0 < length (filter (direct PronunFrac f (target e)) (map fwd m)))%nat; [|lia].
      apply nth_error_In in Hj.
      destruct (filter (direct PronunFrac f (target e)) (map fwd m)) eqn:E; simpl; [|lia].
      assert (In (fwd (f, e')) (filter (direct PronunFrac f (target e)) (map fwd m))) as I.
      { apply filter_In. split; [apply in_map; auto|]. unfold direct, fwd; simpl. rewrite Et, !Z.eqb_refl. auto. }
      rewrite E in I. destruct I.
    + injection Hj as -> ->. simpl. unfold direct at 1. simpl. rewrite Et, !Z.eqb_refl. simpl.
      assert (0 < length (filter (direct PronunFrac f (target e')) (map fwd m)))%nat; [|lia].
      apply nth_error_In in Hi.
      destruct (filter (direct PronunFrac f (target e')) (map fwd m)) eqn:E; simpl; [|lia].
      assert (In (fwd (f, e)) (filter (direct PronunFrac f (target e')) (map fwd m))) as I.
      { apply filter_In. split; [apply in_map; auto|]. unfold direct, fwd; simpl. rewrite Et, !Z.eqb_refl. auto. }
      rewrite E in I. destruct I.
    + simpl. assert (1 < length (filter (direct PronunFrac f (target e)) (map fwd m)))%nat as X by (eapply IH; eauto).
      destruct (direct PronunFrac f (target e) (fwd (k, x))); simpl; lia.
Qed.

(** Two stored edges between the same nodes sit at two indexes. *)
Lemma between_two (d : FracDAG) f t : (1 < between d f t)%nat ->
  exists i j e e', i <> j /\ nth_error (mFrom d) i = Some (f, e) /\ target e = t /\
                   nth_error (mFrom d) j = Some (f, e') /\ target e' = t.
Proof.
  unfold between, edgesF. generalize (mFrom d). intros m.
  assert (forall m, (0 < length (filter (direct PronunFrac f t) (map fwd m)))%nat ->
            exists i e, nth_error m i = Some (f, e) /\ target e = t) as One.
  { clear m. induction m as [|[k x] m IH]; simpl; intros H; [lia|].
    unfold direct at 1 in H. simpl in H.
    destruct (Z.eqb_spec k f); simpl in H.
    - destruct (Z.eqb_spec (target x) t); simpl in H.
      + subst. exists O, x. auto.
      + destruct (IH H) as (i & e0 & ? & ?). exists (S i), e0. auto.
    - destruct (IH H) as (i & e0 & ? & ?). exists (S i), e0. auto. }
  induction m as [|[k x] m IH]; simpl; intros H; [lia|].
  unfold direct at 1 in H. simpl in H.
  destruct (Z.eqb_spec k f); simpl in H; [destruct (Z.eqb_spec (target x) t); simpl in H|].
  - subst. destruct (One m) as (j & e' & ? & ?); [lia|].
    exists O, (S j), x, e'. repeat split; auto.
  - destruct (IH H) as (i & j & e0 & e' & ? & ? & ? & ? & ?). exists (S i), (S j), e0, e'. repeat split; auto.
  - destruct (IH H) as (i & j & e0 & e' & ? & ? & ? & ? & ?). exists (S i), (S j), e0, e'. repeat split; auto.
Qed.

Definition scanned (d : FracDAG) (i : nat) : Prop :=
  forall j f e, (1 <= j < i)%nat -> nth_error (mFrom d) j = Some (f, e) ->
    (between d f (target e) <= 1)%nat.

Lemma mergedFracOf_cnt d from to :
  snd (mergedFracOf d from to) = between d from to.
Proof.
  unfold mergedFracOf.
  change (fun (acc : PronunFrac * nat) (e : DAGEdge PronunFrac) =>
            if target e =? to then (fracAdd (fst acc) (edgeVal e), S (snd acc)) else acc)
    with (mstep to).
  destruct (mstep_fold to (outEdges d from) (fracEmpty, O)) as (_ & _ & _ & H4 & _).
  simpl in H4. rewrite H4, between_out. auto.
Qed.

Lemma between_le_out (d : FracDAG) f t : (between d f t <= outDegree d f)%nat.
Proof.
  rewrite between_out. unfold outDegree, mmCount. fold (outEdges d f).
  generalize (outEdges d f). induction l; simpl; auto. destruct (target a =? t); simpl; lia.
Qed.

Lemma mergeParallelsLoop_ok L : forall fuel d i, PInv d -> scanned d i ->
  (length (mFrom d) <= L)%nat -> (need L d i <= fuel)%nat ->
  exists d', mergeParallelsLoop fuel d i = Ok d' /\ PInv d' /\ LEq (FLang d) (FLang d') /\
             NoParallel d' /\ (NoIn d 0 -> NoIn d' 0).
Proof.
  induction fuel as [|fuel IH]; intros d i G SC HL HN; [unfold need in HN; lia|].
  cbn [mergeParallelsLoop]. destruct (nth_error (mFrom d) i) as [[from e]|] eqn:E.
  2:{ exists d. split; auto. split; auto. split; [apply LEq_refl|]. split; auto.
      apply nth_error_None in E.
      intros f t. destruct (Nat.le_gt_cases (between d f t) 1) as [|B]; auto. exfalso.
      destruct (between_two _ _ _ B) as (j & k & e1 & e2 & N & J1 & J2 & K1 & K2).
      assert (j < length (mFrom d))%nat by (apply nth_error_Some; congruence).
      assert (k < length (mFrom d))%nat by (apply nth_error_Some; congruence).
      destruct j as [|j].
      - assert (between d f (target e2) <= 1)%nat by (eapply (SC k); eauto; lia). rewrite K2 in H1. lia.
      - assert (between d f (target e1) <= 1)%nat by (eapply (SC (S j)); eauto; lia). rewrite J2 in H1. lia. }
  assert (i < length (mFrom d))%nat as Hi by (apply nth_error_Some; congruence).
  assert ((between d from (target e) <= 1)%nat -> scanned d (S i)) as Snext.
  { intros B j f e0 Hj Hn. destruct (Nat.eq_dec j i) as [->|N].
    - rewrite E in Hn. injection Hn as <- <-. auto.
    - apply (SC j); auto. lia. }
  destruct (Nat.eqb_spec (outDegree d from) 1) as [D|D].
  - apply IH; auto.
    + apply Snext. pose proof (between_le_out d from (target e)). lia.
    + unfold need in *. lia.
  - pose proof (mergedFracOf_cnt d from (target e)) as Ec.
    pose proof (mergeParallelAt_ok d from (target e) G) as MP.
    destruct (mergedFracOf d from (target e)) as [mf cnt]. simpl in Ec. subst cnt.
    destruct (Nat.ltb_spec 1 (between d from (target e))) as [B|B].
    + destruct (MP B) as (_ & G2 & L2 & LT & E2). clear MP.
      set (d2 := fst (fAddEdge (fst (removeDirectEdges d from (target e))) from (target e) mf)) in *.
      destruct (IH d2 1%nat) as (d3 & -> & G3 & L3 & NP & NI); auto.
      * intros j f e0 Hj. lia.
      * lia.
      * unfold need in *. nia.
      * exists d3. split; [reflexivity|]. split; auto. split; [eapply LEq_trans; eauto|]. split; auto.
        intros H. apply NI. intros x v I. apply E2 in I. destruct I as [(I & _)|(-> & Ht & _)].
        -- eapply H; eauto.
        -- apply nth_error_In in E. destruct e as [t w]. simpl in *. subst t.
           apply InE_mFrom in E. eapply H; eauto.
    + apply IH; auto. unfold need in *. lia.
Qed.

(** ** The initial fraction graph *)
Lemma init_fold (l : list (Z * DAGEdge Syl)) acc : fwf acc ->
  let r := fold_left (fun a p => fst (fAddEdge a (fst p) (target (snd p))
                        (fracOf (target (snd p)) [edgeVal (snd p)]))) l acc in
  fwf r /\
  (forall x y v, InE r x y v -> InE acc x y v \/
     exists s, In (x, mkEdge y s) l /\ v = fracOf y [s]) /\
  (forall x y v, InE acc x y v -> InE r x y v) /\
  (forall x y s, In (x, mkEdge y s) l -> Has frac_eqb r x y (fracOf y [s])).
Proof.
  revert acc. induction l as [|[k e] l IH]; simpl; intros acc W.
  - repeat split; try apply W; auto; try tauto.
  - set (acc' := fst (fAddEdge acc k (target e) (fracOf (target e) [edgeVal e]))).
    assert (fwf acc') as W'. { apply add_dwf; auto using frac_eqb_refl, frac_eqb_sym. }
    destruct (IH acc' W') as (H1 & H2 & H3 & H4). split; auto. split; [|split].
    + intros x y v I. apply H2 in I. destruct I as [I|(s & I & ->)].
      * unfold acc', fAddEdge in I. apply add_InE in I; auto using frac_eqb_refl, frac_eqb_sym.
        destruct I as [I|(_ & -> & -> & ->)]; auto. right. exists (edgeVal e). split; auto.
        left. destruct e; auto.
      * right. exists s. auto.
    + intros x y v I. apply H3. unfold acc', fAddEdge. apply add_InE; auto using frac_eqb_refl, frac_eqb_sym.
    + intros x y s [I|I]; [|auto]. injection I as -> ->. simpl in *.
      assert (Has frac_eqb acc' x y (fracOf y [s])) as (v & J & V).
      { unfold acc', fAddEdge. apply add_Has; auto using frac_eqb_refl, frac_eqb_sym. exact frac_eqb_trans. }
      exists v. split; auto.
Qed.

Lemma init_spec d :
  fwf (fracDAGInit d) /\
  (forall x y v, InE (fracDAGInit d) x y v -> exists s, InE d x y s /\ v = fracOf y [s]) /\
  (forall x y s, InE d x y s -> exists v, InE (fracDAGInit d) x y v /\ frac_eqb v (fracOf y [s]) = true).
Proof.
  destruct (init_fold (mFrom d) dagEmpty) as (H1 & H2 & H3 & H4); [apply dwf_empty|].
  fold (fracDAGInit d) in *. split; auto. split.
  - intros x y v I. apply H2 in I. destruct I as [[]|(s & I & ->)].
    exists s. split; auto. apply InE_mFrom; auto.
  - intros x y s I. apply InE_mFrom in I. apply H4 in I. exact I.
Qed.

Lemma init_noout d m : NoOut d m <-> NoOut (fracDAGInit d) m.
Proof.
  destruct (init_spec d) as (_ & H1 & H2). unfold NoOut. split; intros H.
  - destruct (outEdges (fracDAGInit d) m) as [|e l] eqn:E; auto. exfalso.
    assert (In e (outEdges (fracDAGInit d) m)) as I by (rewrite E; left; auto).
    apply out_InE, H1 in I. destruct I as (s & I & _).
    assert (In (mkEdge (target e) s) (outEdges d m)) as J by (apply out_InE; auto).
    rewrite H in J. destruct J.
  - destruct (outEdges d m) as [|e l] eqn:E; auto. exfalso.
    assert (In e (outEdges d m)) as I by (rewrite E; left; auto).
    apply out_InE, H2 in I. destruct I as (v & I & _).
    assert (In (mkEdge (target e) v) (outEdges (fracDAGInit d) m)) as J by (apply out_InE; auto).
    rewrite H in J. destruct J.
Qed.

Lemma init_fwd d k p m : Path d k p m ->
  exists q s', Path (fracDAGInit d) k q m /\ (p <> [] -> q <> []) /\
               ChainDen (map edgeVal q) s' /\ strEq s' (map edgeVal p).
Proof.
  destruct (init_spec d) as (_ & H1 & H2).
  induction 1 as [k|k e p m He Hp (q & s' & Q1 & _ & Q3 & Q4)].
  - exists [], []. repeat split; auto; constructor.
  - apply out_InE, H2 in He. destruct He as (v & I & V).
    unfold frac_eqb in V. apply alts_eqb_iff in V. rewrite fracOf_alts in V.
    inversion V; subst. inversion H5; subst.
    exists (mkEdge (target e) v :: q), (x ++ s'). repeat split; try discriminate.
    + constructor; auto. apply out_InE. auto.
    + simpl. constructor; auto. rewrite <- H. left; auto.
    + change (map edgeVal (e :: p)) with ([edgeVal e] ++ map edgeVal p).
      apply strEq_app; auto.
Qed.

Lemma init_back d k p m : Path (fracDAGInit d) k p m ->
  exists q, Path d k q m /\ (p <> [] -> q <> []) /\
            (forall s, ChainDen (map edgeVal p) s -> s = map edgeVal q).
Proof.
  destruct (init_spec d) as (_ & H1 & H2).
  induction 1 as [k|k e p m He Hp (q & Q1 & _ & Q3)].
  - exists []. repeat split; auto; [constructor|]. intros s Hs. inversion Hs; auto.
  - apply out_InE, H1 in He. destruct He as (s & I & V).
    exists (mkEdge (target e) s :: q). repeat split; try discriminate.
    + constructor; auto. apply out_InE. auto.
    + simpl. intros u Hu. apply chain_cons_inv in Hu. destruct Hu as (a & t & U & C & ->).
      rewrite V, fracOf_alts in U. destruct U as [<-|[]]. simpl. f_equal. auto.
Qed.

Lemma init_lang d : LEq (PLang d) (FLang (fracDAGInit d)).
Proof.
  apply LEq_intro.
  - intros s (p & Np & (m & Hp & Hm) & ->).
    destruct (init_fwd _ _ _ _ Hp) as (q & s' & Q1 & Q2 & Q3 & Q4).
    exists s'. split; auto. exists q. repeat split; auto. exists m. split; auto. apply init_noout; auto.
  - intros s (p & Np & (m & Hp & Hm) & Hs).
    destruct (init_back _ _ _ _ Hp) as (q & Q1 & Q2 & Q3).
    exists s. split; [|reflexivity]. exists q. repeat split; auto. exists m. split; auto. apply init_noout; auto.
Qed.

Lemma init_GInv d : Acyclic d -> GInv (fracDAGInit d).
Proof.
  intros A. destruct (init_spec d) as (W & H1 & H2). split; auto.
  - intros k p Hp. destruct (init_back _ _ _ _ Hp) as (q & Q1 & Q2 & _).
    apply A in Q1. destruct p; auto. exfalso. apply Q2; auto. discriminate.
  - intros x y v I. apply H1 in I. destruct I as (s & I & ->). exists [s]. split; auto. discriminate.
Qed.
Lemma init_NoIn d : (forall x v, ~ InE d x 0 v) -> NoIn (fracDAGInit d) 0.
Proof.
  intros N x v I. destruct (init_spec d) as (W & H1 & H2).
  apply H1 in I. destruct I as (s & I & _). eapply N; eauto.
Qed.

Lemma mergeFuel_need d : (need (length (mFrom d)) d 0 <= mergeFuel d)%nat.
Proof. unfold need, mergeFuel. nia. Qed.

Lemma fracDAG_ok d : Acyclic d ->
  exists fd, fracDAG d = Ok fd /\ PInv fd /\ NoParallel fd /\
    ((forall x v, ~ InE d x 0 v) -> LEq (PLang d) (FLang fd) /\ NoIn fd 0).
Proof.
  intros A. pose proof (init_GInv d A) as G. unfold fracDAG, mergeFractions.
  destruct (mergeSinglesLoop_ok _ (mergeFuel (fracDAGInit d)) (fracDAGInit d) 0 G (le_n _)
              (mergeFuel_need _)) as (d1 & -> & G1 & L1 & _).
  cbv beta iota delta [bind].
  destruct (mergeParallelsLoop_ok (length (mFrom d1)) (mergeFuel d1) d1 0 (GInv_PInv _ G1))
    as (d2 & -> & G2 & L2 & NP & NI).
  - intros j f e Hj. lia.
  - lia.
  - apply mergeFuel_need.
  - exists d2. split; [reflexivity|]. split; [auto|]. split; [auto|].
    intros N. destruct (L1 (init_NoIn _ N)) as [L1' N1]. split; [|auto].
    eapply LEq_trans; [apply init_lang|]. eapply LEq_trans; eauto.
Qed.

Lemma fracLattice_ok fd : Acyclic fd ->
  exists l, fracLattice fd = Ok l /\ LEq (FLang fd) (LDen l) /\
            (forall c, In c l -> noAdjSingles c) /\
            (forall s, LDen l s <-> FLang fd s) /\
            (forall c, In c l -> exists p, p <> [] /\ MaxPath fd 0 p /\ c = chainMergeSingles (map edgeVal p)).
Proof.
  intros A. destruct (nodeLattice_spec fd 0 A) as (paths & E & Hp).
  unfold fracLattice. rewrite E. cbv beta iota delta [bind].
  exists (lattMergeSingles (map (map edgeVal) paths)).
  assert (forall s, LDen (lattMergeSingles (map (map edgeVal) paths)) s <-> FLang fd s) as X.
  { intros s. unfold LDen, FLang, lattMergeSingles. split.
    - intros (c & I & C). apply in_map_iff in I. destruct I as (c0 & <- & I).
      apply in_map_iff in I. destruct I as (p & <- & I). apply Hp in I.
      exists p. destruct I as [I1 I2]. split; [exact I1|]. split; [exact I2|]. apply (proj1 (chainMergeSingles_den _ _)) in C. exact C.
    - intros (p & N & M & C). exists (chainMergeSingles (map edgeVal p)). split.
      + apply in_map. apply in_map. apply Hp. auto.
      + apply chainMergeSingles_den. auto. }
  split; [reflexivity|]. split; [|split; [|split]].
  - apply LEq_intro; intros s Hs; exists s; split; try reflexivity; apply X; auto.
  - intros c I. apply in_map_iff in I. destruct I as (c0 & <- & _). apply chainMergeSingles_noAdj.
  - exact X.
  - intros c I. apply in_map_iff in I. destruct I as (c0 & <- & I).
    apply in_map_iff in I. destruct I as (p & <- & I). apply Hp in I. exists p. tauto.
Qed.

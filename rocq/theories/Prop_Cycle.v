(** Prop_Cycle.v - the listing and graphs with cycles (C80). *)
From Coq Require Import String List NArith ZArith Bool Arith Lia.
From Verif Require Import Spec Base ThUni ThCons Syl Prop_Syl OrderProofs Lattice LatticeProofs
  Dag DagProofs PronDag PathProofs GroupProofs ListDagProofs Dict DictProofs Utf SylOut ThaiOut Parser Wp
  ParserSpec ParserRules ParserActs ParserLoop ParserFacts ParserInv ParserDict ParserPool Output
  Prop_Parser Prop_Notation Prop_RawRead.
Import ListNotations.
Local Open Scope nat_scope.

(** No way leads from [root] to a node that can come back to itself. *)
Definition CycleFree {T} (d : DAG T) (root : Z) : Prop :=
  forall p n q, Path d root p n -> Path d n q n -> q = [].

Section Any.
Variable T : Type.
Implicit Types d : DAG T.
Lemma free_step d n e : CycleFree d n -> In e (outEdges d n) -> CycleFree d (target e).
Proof. intros H He p m q P Q. apply (H (e :: p) m q); [constructor; assumption|exact Q]. Qed.
Lemma free_srcs d n p m : CycleFree d n -> Path d n p m -> NoDup (srcs T n p).
Proof.
  intros A H. revert A. induction H as [n|n e p m He Hp IH]; intros A; cbn [srcs]; constructor; [|apply IH; eapply free_step; eauto].
  intros Hin. destruct (srcs_split T _ _ _ _ _ Hp Hin) as (p1 & p2 & -> & H1 & H2 & H3).
  assert (C : Path d n (e :: p1) n) by (constructor; auto).
  apply (A [] n _ (P_nil _ _)) in C. discriminate C.
Qed.
Lemma free_nodes d n p m : CycleFree d n -> Path d n p m -> NoDup (n :: map target p).
Proof.
  intros A H. revert A. induction H as [n|n e p m He Hp IH]; intros A; [repeat constructor; intros []|].
  cbn [map]. constructor; [|apply IH; eapply free_step; eauto].
  intros [X|X].
  - assert (C : Path d n [e] n) by (constructor; [exact He|rewrite X; constructor]).
    apply (A [] n _ (P_nil _ _)) in C. discriminate C.
  - apply in_map_iff in X. destruct X as (e' & X & I). apply in_split in I. destruct I as (a & b & ->).
    destruct (Path_app_inv T _ _ _ _ _ Hp) as (k & P1 & P2). inversion P2; subst.
    assert (C : Path d (target e') (e :: a ++ [e']) (target e')).
    { constructor; [assumption|]. eapply Path_app; [exact P1|]. constructor; [assumption|constructor]. }
    apply (A [] _ _ (P_nil _ _)) in C. discriminate C.
Qed.
Lemma free_depth d n : CycleFree d n -> depthOK T d n (S (length (mFrom d))).
Proof.
  intros A p m H. rewrite <- (srcs_length T n p). apply Nat.lt_succ_r. rewrite <- (map_length fst (mFrom d)).
  apply NoDup_incl_length; [eapply free_srcs; eauto|eapply srcs_incl; eauto].
Qed.
Lemma mapM_two {A B} (f : A -> Res B) l : (forall a, In a l -> (exists b, f a = Ok b) \/ f a = NoFuel) ->
  (exists r, mapM f l = Ok r) \/ mapM f l = NoFuel.
Proof.
  induction l as [|a l IH]; intros H; cbn [mapM]; [left; eauto|].
  destruct (H a (or_introl eq_refl)) as [(b & ->)| ->]; cbn [bind]; [|auto].
  destruct IH as [(r & ->)| ->]; [intros x X; apply H; right; exact X| |]; cbn [bind]; eauto.
Qed.
Lemma enum_two fuel d : forall n, (exists r, enumP fuel d n = Ok r) \/ enumP fuel d n = NoFuel.
Proof.
  induction fuel as [|f IH]; intros n; cbn [enumP]; [auto|].
  destruct (mapM_two (fun e => (child <- enumP f d (target e);;
     Ok match child with [] => [[e]] | _ :: _ => map (fun s => e :: s) child end)%res) (outEdges d n)) as [(r & ->)| ->].
  - intros e _. destruct (IH (target e)) as [(r & ->)| ->]; cbn [bind]; eauto.
  - cbn [bind]. eauto.
  - cbn [bind]. auto.
Qed.
Lemma enum_depth fuel d : forall n r, enumP fuel d n = Ok r -> depthOK T d n fuel.
Proof.
  induction fuel as [|f IH]; intros n r H; [discriminate H|]. cbn [enumP] in H.
  destruct (mapM _ (outEdges d n)) as [parts| | |] eqn:E; try discriminate H. clear H.
  apply mapM_Ok_iff in E. intros p m P. inversion P as [|? e q ? He Q]; subst; [cbn; lia|].
  destruct (Forall2_in_l _ _ _ _ E He) as (y & _ & Y).
  destruct (enumP f d (target e)) as [c| | |] eqn:Ec; try discriminate Y.
  specialize (IH _ _ Ec q m Q). cbn [length]. lia.
Qed.
Fixpoint times (k : nat) (q : list (DAGEdge T)) : list (DAGEdge T) :=
  match k with O => [] | S k' => q ++ times k' q end.
Lemma times_path d n q k : Path d n q n -> Path d n (times k q) n.
Proof. intros H. induction k as [|k IH]; cbn [times]; [constructor|eapply Path_app; eauto]. Qed.
Lemma times_length q k : q <> [] -> k <= length (times k q).
Proof.
  intros N. induction k as [|k IH]; cbn [times]; [lia|]. rewrite app_length. destruct q; [congruence|]. cbn [length]. lia.
Qed.
Lemma depth_free d n fuel : depthOK T d n fuel -> CycleFree d n.
Proof.
  intros D p m q P Q. destruct q as [|e q]; [reflexivity|exfalso].
  specialize (D (p ++ times fuel (e :: q)) m). rewrite app_length in D.
  pose proof (times_length (e :: q) fuel ltac:(discriminate)) as L.
  assert (X : Path d n (p ++ times fuel (e :: q)) m) by (eapply Path_app; [exact P|apply times_path; exact Q]).
  specialize (D X). lia.
Qed.
Lemma enum_more fuel d : forall n r, enumP fuel d n = Ok r -> forall f', fuel <= f' -> enumP f' d n = Ok r.
Proof.
  induction fuel as [|f IH]; intros n r H [|f'] L; try discriminate H; [lia|]. cbn [enumP] in *.
  destruct (mapM _ (outEdges d n)) as [parts| | |] eqn:E; try discriminate H.
  assert (X : mapM (fun e => (child <- enumP f' d (target e);;
     Ok match child with [] => [[e]] | _ :: _ => map (fun s => e :: s) child end)%res) (outEdges d n) = Ok parts); [|rewrite X; exact H].
  apply mapM_Ok_iff in E. apply mapM_Ok_iff. clear H. induction E as [|e part l parts He F IHF]; constructor; [|exact IHF].
  cbv beta in *. destruct (enumP f d (target e)) as [c| | |] eqn:Ec; try discriminate He.
  rewrite (IH _ _ Ec f' ltac:(lia)). exact He.
Qed.
(** The whole picture for the shape shared by both listings. *)
Lemma enum_all d root :
  (CycleFree d root -> exists paths, (forall p, In p paths <-> p <> [] /\ MaxPath d root p) /\
     forall fuel, S (length (mFrom d)) <= fuel -> enumF fuel d root = Ok (map (map edgeVal) paths)) /\
  (forall fuel l, enumF fuel d root = Ok l -> CycleFree d root) /\
  (forall p n q, Path d root p n -> Path d n q n -> q <> [] -> forall fuel, enumF fuel d root = NoFuel).
Proof.
  assert (O : forall fuel l, enumF fuel d root = Ok l -> CycleFree d root).
  { intros fuel l H. rewrite enumF_enumP in H. destruct (enumP fuel d root) as [r| | |] eqn:E; try discriminate H.
    eapply depth_free, enum_depth; eauto. }
  split; [|split; [exact O|]].
  - intros A. destruct (enumP_ok T _ _ _ (free_depth d root A)) as (paths & E). exists paths.
    split; [apply (enumP_correct T _ _ _ _ E)|]. intros fuel L. rewrite enumF_enumP, (enum_more _ _ _ _ E fuel L). reflexivity.
  - intros p n q P Q N fuel. rewrite enumF_enumP. destruct (enum_two fuel d root) as [(r & E)| ->]; [|reflexivity].
    exfalso. apply N. apply (depth_free d root fuel (enum_depth _ _ _ _ E) p n q P Q).
Qed.
End Any.

Lemma C80_lemma (d : PronunDAG) root :
  (CycleFree d root -> exists paths, (forall p, In p paths <-> p <> [] /\ MaxPath d root p) /\
     forall fuel, S (length (mFrom d)) <= fuel -> DAGSylStringsF fuel d root = Ok (map (map edgeVal) paths)) /\
  (forall fuel l, DAGSylStringsF fuel d root = Ok l -> CycleFree d root) /\
  (forall p n q, Path d root p n -> Path d n q n -> q <> [] -> forall fuel, DAGSylStringsF fuel d root = NoFuel).
Proof.
  destruct (enum_all Syl d root) as (A & B & C). split; [|split].
  - intros F. destruct (A F) as (paths & X & Y). exists paths. split; [exact X|]. intros fuel L. rewrite DAGSylStringsF_enum. apply Y. exact L.
  - intros fuel l H. rewrite DAGSylStringsF_enum in H. exact (B _ _ H).
  - intros p n q P Q N fuel. rewrite DAGSylStringsF_enum. exact (C p n q P Q N fuel).
Qed.
(** The flat listing of any graph: it ends exactly when no cycle can be
    reached from its start, and then gives the complete paths; otherwise it
    goes deeper than any bound. *)
Theorem C80_listing_ends (d : PronunDAG) root :
  (CycleFree d root -> exists paths, (forall p, In p paths <-> p <> [] /\ MaxPath d root p) /\
     forall fuel, S (length (mFrom d)) <= fuel -> DAGSylStringsF fuel d root = Ok (map (map edgeVal) paths)) /\
  (forall fuel l, DAGSylStringsF fuel d root = Ok l -> CycleFree d root) /\
  (forall p n q, Path d root p n -> Path d n q n -> q <> [] -> forall fuel, DAGSylStringsF fuel d root = NoFuel).
Proof. exact (C80_lemma d root). Qed.
Print Assumptions C80_listing_ends.
Lemma C80_lemma2 (d : FracDAG) root :
  (CycleFree d root -> exists paths, (forall p, In p paths <-> p <> [] /\ MaxPath d root p) /\
     forall fuel, S (length (mFrom d)) <= fuel -> nodeLattice fuel d root = Ok (map (map edgeVal) paths)) /\
  (forall fuel l, nodeLattice fuel d root = Ok l -> CycleFree d root) /\
  (forall p n q, Path d root p n -> Path d n q n -> q <> [] -> forall fuel, nodeLattice fuel d root = NoFuel).
Proof.
  destruct (enum_all PronunFrac d root) as (A & B & C). split; [|split].
  - intros F. destruct (A F) as (paths & X & Y). exists paths. split; [exact X|]. intros fuel L. rewrite nodeLattice_enum. apply Y. exact L.
  - intros fuel l H. rewrite nodeLattice_enum in H. exact (B _ _ H).
  - intros p n q P Q N fuel. rewrite nodeLattice_enum. exact (C p n q P Q N fuel).
Qed.
(** Likewise the grouped listing. *)
Theorem C80_lattice_ends (d : FracDAG) root :
  (CycleFree d root -> exists paths, (forall p, In p paths <-> p <> [] /\ MaxPath d root p) /\
     forall fuel, S (length (mFrom d)) <= fuel -> nodeLattice fuel d root = Ok (map (map edgeVal) paths)) /\
  (forall fuel l, nodeLattice fuel d root = Ok l -> CycleFree d root) /\
  (forall p n q, Path d root p n -> Path d n q n -> q <> [] -> forall fuel, nodeLattice fuel d root = NoFuel).
Proof. exact (C80_lemma2 d root). Qed.
Print Assumptions C80_lattice_ends.

(** ** Dictionary entries that come back to a position *)
Lemma loop_keeps ct w dict brk fuel : forall pool acc g, parseLoop ct fuel w dict brk pool acc = Ok g ->
  (forall f t v, Has syl_eqb acc f t v -> Has syl_eqb g f t v) /\
  (forall s, In s pool -> length w <= sPos s -> forall f t v, Has syl_eqb (sDag s) f t v -> Has syl_eqb g f t v).
Proof.
  induction fuel as [|fuel IH]; intros pool acc g H.
  - destruct pool as [|s pool]; cbn [parseLoop] in H; [|discriminate H]. injection H as <-. split; [auto|intros s []].
  - destruct pool as [|s pool]; cbn [parseLoop] in H; [injection H as <-; split; [auto|intros s []]|].
    destruct (Nat.leb_spec (length w) (sPos s)) as [L|L].
    + destruct (IH _ _ _ H) as (A & B). split.
      * intros f t v X. apply A. apply punion_Has. auto.
      * intros s' [<-|I'] L' f t v X; [apply A; apply punion_Has; auto|exact (B s' I' L' f t v X)].
    + destruct (stepStates ct w dict brk s) as [l| | |]; cbn [bind] in H; try discriminate H.
      destruct (IH _ _ _ H) as (A & B). split; [exact A|].
      intros s' [<-|I'] L'; [lia|]. destruct (poolAdds_keeps l pool s' I') as (x & X1 & (X2 & _ & X3)).
      intros f t v X. apply (B x X1); [lia|]. apply X3. exact X.
Qed.
Lemma shift0 s : shiftEndPos 0 s = s.
Proof.
  unfold shiftEndPos. induction s as [|v s IH]; [reflexivity|]. cbn [map]. rewrite IH. f_equal.
  destruct v as [a b c e f g z]. unfold setEndPos, shiftPos. cbn [iCons1 iCons2 vowel eCons tone literal endPos]. f_equal.
  destruct (Z.ltb_spec z 0); lia.
Qed.
Lemma str_walk d x s : (forall a b v, In (a, b, v) (strEdges x s) -> Has syl_eqb d a b v) ->
  exists p m, Path d x p m /\ map target p = map endPos s.
Proof.
  revert x. induction s as [|v s IH]; intros x H; [exists [], x; split; [constructor|reflexivity]|].
  destruct (H x (endPos v) v) as (v' & I & _); [left; reflexivity|].
  destruct (IH (endPos v)) as (p & m & P1 & P2); [intros a b u Hu; apply H; right; exact Hu|].
  exists (mkEdge (endPos v) v' :: p), m. split; [constructor; [apply out_InE; exact I|exact P1]|]. cbn [map target]. now rewrite P2.
Qed.
Lemma C80_lemma3 ct w d brk fuel strs str g :
  wordEnd ct w brk 0 (length w) -> applicable ct w d 0 (length w) w -> listed d w strs -> In str strs ->
  ~ NoDup (0%Z :: map endPos str) -> ParseU16F ct fuel w (Some d) brk = Ok g ->
  forall fuel', DAGSylStringsF fuel' g 0 = NoFuel.
Proof.
  intros E A Ls Is ND H. unfold ParseU16F in H.
  destruct (skipGap ct w brk (mkState 0 0 dagEmpty false)) as [s| | |] eqn:G; cbn [bind] in H; try discriminate H.
  apply (first_gap ct w brk (length w) s E) in G. subst s.
  pose proof (we_lt _ _ _ _ _ E) as E1.
  change (poolAdd [] (mkState 0 (length w) dagEmpty false)) with [mkState 0 (length w) dagEmpty false] in H.
  destruct fuel as [|f]; cbn [parseLoop] in H; [discriminate H|]. cbn [sPos] in H.
  destruct (Nat.leb_spec (length w) 0) as [L|_]; [lia|].
  destruct (stepStates ct w (Some d) brk (mkState 0 (length w) dagEmpty false)) as [l| | |] eqn:S; cbn [bind] in H; try discriminate H.
  destruct (exc_exact ct w d brk (mkState 0 (length w) dagEmpty false) l w E1 (le_n _) A S) as (_ & X).
  destruct (X w A) as (strs' & s' & L' & I' & T1 & _ & _ & T2).
  assert (strs' = strs) as ->.
  { destruct Ls as (x & X1 & X2), L' as (y & Y1 & Y2). congruence. }
  destruct (poolAdds_self l [] s' I') as (y & Y1 & (Y2 & _ & Y3)).
  destruct (loop_keeps _ _ _ _ _ _ _ _ H) as (_ & K). cbn [sPos] in T1.
  assert (W : forall a b v, In (a, b, v) (strEdges 0 str) -> Has syl_eqb g a b v).
  { intros a b v I0. apply (K y Y1); [lia|]. apply Y3, T2. right. exists str, v. cbn [sPos]. rewrite shift0.
    split; [exact Is|]. split; [exact I0|apply syl_eqb_refl]. }
  destruct (str_walk g 0 str W) as (p & m & P1 & P2).
  intros fuel'. destruct (enum_two Syl fuel' g 0) as [(r & Q)|Q].
  - exfalso. apply ND. rewrite <- P2. eapply free_nodes; [|exact P1]. eapply depth_free, enum_depth; eauto.
  - rewrite DAGSylStringsF_enum, enumF_enumP, Q. reflexivity.
Qed.
(** A word that is the whole text and has a reading that comes back to a
    position it has left: if the parser succeeds, the listing never ends. *)
Theorem C80_entry_loops ct w d brk fuel strs str g :
  wordEnd ct w brk 0 (length w) -> applicable ct w d 0 (length w) w -> listed d w strs -> In str strs ->
  ~ NoDup (0%Z :: map endPos str) -> ParseU16F ct fuel w (Some d) brk = Ok g ->
  forall fuel', DAGSylStringsF fuel' g 0 = NoFuel.
Proof. exact (C80_lemma3 ct w d brk fuel strs str g). Qed.
Print Assumptions C80_entry_loops.

(** The data of one-word dictionaries. *)
Definition oneWord (k data : string) : Dict := mkDict (Some [(letters k, 0%Z)]) (Some (data ++ nul)%string).
(** A code without position ends in a place of its own: the rest of the text
    is not pronounced.  A reading with a position given twice never ends. *)
Lemma C80_lemma4 : exists d w g, ParseU16F libthai_ct 100 w (Some d) [] = Ok g /\ w = letters "กามา" /\
  listed d (letters "กา") [[SylOf KA SEC_NONE V_AA EC_NONE SAMAN (-1)]] /\
  DAGSylStrings g 0 = Ok [[SylOf KA SEC_NONE V_AA EC_NONE SAMAN (-1)]].
Proof.
  exists (oneWord "กา" "k_A_0"), (letters "กามา"). eexists. split; [vm_compute; reflexivity|]. split; [reflexivity|].
  split; [exists "k_A_0"%string; split; vm_compute; reflexivity|vm_compute; reflexivity].
Qed.
Theorem C80_rest_kept_refuted : exists d w g, ParseU16F libthai_ct 100 w (Some d) [] = Ok g /\ w = letters "กามา" /\
  listed d (letters "กา") [[SylOf KA SEC_NONE V_AA EC_NONE SAMAN (-1)]] /\
  DAGSylStrings g 0 = Ok [[SylOf KA SEC_NONE V_AA EC_NONE SAMAN (-1)]].
Proof. exact C80_lemma4. Qed.
Print Assumptions C80_rest_kept_refuted.
Lemma C80_lemma5 : exists d w g, ParseU16F libthai_ct 100 w (Some d) [] = Ok g /\ w = letters "กา" /\
  (forall fuel, DAGSylStringsF fuel g 0 = NoFuel) /\
  listed d w [[SylOf KA SEC_NONE V_AA EC_NONE SAMAN 2; SylOf MA SEC_NONE V_AA EC_NONE SAMAN 2]].
Proof.
  set (w := letters "กา"). set (d := oneWord "กา" "k_A_0@2,m_A_0@2").
  assert (L : listed d w [[SylOf KA SEC_NONE V_AA EC_NONE SAMAN 2; SylOf MA SEC_NONE V_AA EC_NONE SAMAN 2]]).
  { exists "k_A_0@2,m_A_0@2"%string. split; vm_compute; reflexivity. }
  destruct (ParseU16F libthai_ct 100 w (Some d) []) as [g| | |] eqn:P; try (vm_compute in P; discriminate P).
  exists d, w, g. split; [exact P|]. split; [reflexivity|]. split; [|exact L].
  assert (X : ~ NoDup [0; 2; 2]%Z).
  { intros N. inversion N as [|? ? _ N']; subst. inversion N' as [|? ? I _]; subst. apply I. left. reflexivity. }
  refine (C80_lemma3 libthai_ct w d [] 100 _ _ g _ _ L (or_introl eq_refl) X P).
  - constructor; [cbn; lia|lia| | |left; reflexivity].
    + intros k Hk. change (length w) with 2 in Hk. do 2 (destruct k as [|k]; [eexists; split; [reflexivity|vm_compute; reflexivity]|]). lia.
    + intros x (l1 & l2 & Y & _). destruct l1; discriminate Y.
  - split; [|split; [discriminate|split; [|split; [|split; [lia|]]]]].
    + exists 0%Z. eexists. split; [reflexivity|]. exists [], []. split; [reflexivity|]. intros v' [].
    + intros c Hc. vm_compute in Hc. destruct Hc as [<-|[<-|[]]]; vm_compute; split; discriminate.
    + exists []. reflexivity.
    + left. reflexivity.
Qed.
Theorem C80_ends_refuted : exists d w g, ParseU16F libthai_ct 100 w (Some d) [] = Ok g /\ w = letters "กา" /\
  (forall fuel, DAGSylStringsF fuel g 0 = NoFuel) /\
  listed d w [[SylOf KA SEC_NONE V_AA EC_NONE SAMAN 2; SylOf MA SEC_NONE V_AA EC_NONE SAMAN 2]].
Proof. exact C80_lemma5. Qed.
Print Assumptions C80_ends_refuted.
(** A cycle that cannot be reached does no harm. *)
Example C80_case :
  let ka := SylOf KA SEC_NONE V_AA EC_NONE SAMAN 2 in let ma := SylOf MA SEC_NONE V_AA EC_NONE SAMAN 5 in
  let d := fst (pAddEdge (fst (pAddEdge dagEmpty 0 2 ka)) 5 5 ma) in
  CycleFree d 0 /\ ~ Acyclic d /\ DAGSylStrings d 0 = Ok [[ka]] /\
  (exists q, q <> [] /\ Path d 5 q 5) /\ (forall fuel, DAGSylStringsF fuel d 5 = NoFuel).
Proof.
  cbv zeta. set (d := fst _).
  assert (L : Path d 5 [mkEdge 5 (SylOf MA SEC_NONE V_AA EC_NONE SAMAN 5)] 5).
  { constructor; [vm_compute; left; reflexivity|constructor]. }
  assert (E : DAGSylStrings d 0 = Ok [[SylOf KA SEC_NONE V_AA EC_NONE SAMAN 2]]) by reflexivity.
  split; [eapply C80_lemma; exact E|]. split; [intros A; apply A in L; discriminate L|]. split; [exact E|].
  split; [eexists; split; [|exact L]; discriminate|].
  destruct (C80_lemma d 5) as (_ & _ & C). apply (C [] 5%Z _ (P_nil _ _) L). discriminate.
Qed.

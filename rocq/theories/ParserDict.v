(** ParserDict.v - the exception dictionary inside the parser: exactness of the
    dictionary step, and an executable check of a dictionary. *)
From Coq Require Import String List NArith ZArith Bool Arith Lia Sorted.
From Verif Require Import Spec Base ThUni ThCons Syl OrderProofs Lattice LatticeProofs
  Dag DagProofs PronDag PathProofs GroupProofs ListDagProofs Dict DictProofs Parser Wp
  ParserSpec ParserRules ParserActs ParserLoop ParserFacts ParserInv.
Import ListNotations.
Local Open Scope nat_scope.

Section Step.
Variable ct : CType.
Variable w : list N.
Variable d : Dict.
Variable brk : list nat.
Notation n := (length w).

(** State [s'] continues [s] by the dictionary word [k] read in the ways [strs]. *)
Definition takesWord (s : ParseState) (k : list N) (strs : list SylString) (s' : ParseState) : Prop :=
  sPos s' = sPos s + length k /\ sStop s' = sStop s /\ sLinked s' = false /\
  forall f t v, Has syl_eqb (sDag s') f t v <->
    Has syl_eqb (sDag s) f t v \/
    exists str v0, In str strs /\
      In (f, t, v0) (strEdges (Z.of_nat (sPos s)) (shiftEndPos (Z.of_nat (sPos s)) str)) /\
      syl_eqb v0 v = true.

Lemma plain_takes s k strs :
  takesWord s k strs
    (plain s (mkAct (sPos s + length k) (sStop s) false false (excEdges (sPos s) strs))).
Proof.
  repeat (split; [reflexivity|]). intros f t v. cbn [plain sDag aEdges]. rewrite addAll_Has.
  unfold excEdges. split; (intros [H|H]; [left; exact H|right]).
  - destruct H as (v0 & H & E). apply in_concat in H. destruct H as (es & H1 & H2).
    apply in_map_iff in H1. destruct H1 as (str & <- & Hs). exists str, v0. auto.
  - destruct H as (str & v0 & H1 & H2 & E). exists v0. split; [|exact E].
    apply in_concat. eexists. split; [apply in_map_iff; exists str; split; [reflexivity|exact H1]|exact H2].
Qed.

Lemma excAct_some pos stop m a : excAct ct w pos stop d m = Ok (Some a) ->
  exists strs, listed d (mPre m) strs /\
    a = mkAct (mCurPos m) stop false false (excEdges pos strs).
Proof.
  unfold excAct. destruct (stop <? mCurPos m); [discriminate|].
  destruct (stopOrSylStart ct w (mCurPos m) stop) as [ok| | |]; cbn [bind]; try discriminate.
  destruct (negb ok); [discriminate|].
  rewrite matchGetData_pre. destruct (matchGetData d _) as [data| | |] eqn:E1; cbn [bind]; try discriminate.
  destruct (MakeSylStrings data) as [strs| | |] eqn:E2; cbn [bind]; try discriminate.
  intros H. injection H as <-. exists strs. split; [exists data; auto|reflexivity].
Qed.
Lemma mapM_out {A B} (f : A -> Res B) l r a : mapM f l = Ok r -> In a l ->
  exists b, In b r /\ f a = Ok b.
Proof.
  intros H Ha. apply mapM_Ok_iff in H. destruct (Forall2_in_l _ _ _ _ H Ha) as (b & X). exists b. exact X.
Qed.

Lemma exc_exact s l k0 : sPos s < sStop s -> sStop s <= n ->
  applicable ct w d (sPos s) (sStop s) k0 -> stepStates ct w (Some d) brk s = Ok l ->
  (forall s', In s' l -> exists k strs, applicable ct w d (sPos s) (sStop s) k /\
     listed d k strs /\ takesWord s k strs s') /\
  (forall k, applicable ct w d (sPos s) (sStop s) k ->
     exists strs s', listed d k strs /\ In s' l /\ takesWord s k strs s').
Proof.
  intros Hp Hs Ap E. unfold stepStates in E. destruct (Nat.leb_spec (sStop s) (sPos s)); [lia|].
  rewrite FindExceptions_act in E.
  destruct (excActs ct w (sPos s) (sStop s) d) as [al| | |] eqn:Ea; cbn [bind] in E; try discriminate.
  pose proof (fun F P => excActs_sat ct w (Some d) brk F P d (sPos s) (sStop s) false eq_refl Hp Hs) as X.
  pose proof (X True (or_introl I)) as X1. rewrite Ea in X1. destruct X1 as (_ & X2).
  destruct al as [|a0 al']; [exfalso; exact (X2 eq_refl k0 Ap)|].
  cbn [map] in E. set (al := a0 :: al') in *.
  assert (El : l = map (plain s) al) by (injection E as <-; reflexivity). clear E X X2. subst l.
  destruct (allMatches_spec d w (sPos s) ltac:(lia)) as (A & _ & C).
  set (ms := allMatches (S n) d (MatchNew w (sPos s))) in *. split.
  - intros s' Hin. apply in_map_iff in Hin. destruct Hin as (a & <- & Ha).
    destruct (excActs_in ct w _ _ _ _ _ Ea Ha) as (m & Hm & Em).
    destruct (excAct_some _ _ _ _ Em) as (strs & L & ->).
    destruct (A m Hm) as (v & H1 & H2 & H3 & H4 & H5).
    pose proof (excAct_sat ct w (Some d) brk True (or_introl I) d (sPos s) (sStop s) false m eq_refl Hp Hs Hm) as Y.
    rewrite Em in Y. destruct Y as (Y & _). destruct (Y _ eq_refl) as (_ & Y2).
    exists (mPre m), strs. split; [exact Y2|]. split; [exact L|]. rewrite H5. apply plain_takes.
  - intros k Ak. pose proof Ak as ((v & H1) & H2 & H3 & H4 & _).
    destruct (C k v H2 H4 H3 H1) as (m & Hm & Em).
    unfold excActs in Ea. fold ms in Ea.
    destruct (mapM (excAct ct w (sPos s) (sStop s) d) ms) as [r| | |] eqn:Er; cbn [bind] in Ea; try discriminate.
    injection Ea as Ea.
    destruct (mapM_out _ _ _ _ Er Hm) as (o & Ho & Eo).
    pose proof (excAct_sat ct w (Some d) brk True (or_introl I) d (sPos s) (sStop s) false m eq_refl Hp Hs Hm) as Y.
    rewrite Eo in Y. destruct Y as (_ & Y). destruct o as [a|]; [|exfalso; apply (Y eq_refl); rewrite Em; exact Ak].
    destruct (excAct_some _ _ _ _ Eo) as (strs & L & Ea').
    destruct (A m Hm) as (_ & _ & _ & _ & _ & H5). rewrite Em in *.
    exists strs, (plain s a). split; [exact L|]. split.
    + apply in_map. apply keepSome_in in Ho. rewrite Ea in Ho. exact Ho.
    + subst a. rewrite H5. apply plain_takes.
Qed.

(** Without an applicable word the dictionary does nothing. *)
Lemma exc_none s : sPos s < sStop s -> sStop s <= n ->
  (forall k, ~ applicable ct w d (sPos s) (sStop s) k) ->
  stepStates ct w (Some d) brk s = stepStates ct w None brk s.
Proof.
  intros Hp Hs NA. unfold stepStates. destruct (Nat.leb_spec (sStop s) (sPos s)); [lia|].
  rewrite FindExceptions_act.
  assert (Ea : excActs ct w (sPos s) (sStop s) d = Ok []); [|rewrite Ea; reflexivity].
  unfold excActs.
  destruct (allMatches_spec d w (sPos s) ltac:(lia)) as (A & _ & _).
  set (ms := allMatches (S n) d (MatchNew w (sPos s))) in *.
  assert (H1 : forall m, In m ms -> excAct ct w (sPos s) (sStop s) d m = Ok None).
  { intros m Hm. destruct (A m Hm) as (v & H1 & H2 & H3 & H4 & H5). unfold excAct.
    destruct (Nat.ltb_spec (sStop s) (mCurPos m)) as [L|L]; [reflexivity|].
    pose proof (sylStart_dec ct w False (mCurPos m) (sStop s) Hs) as Y.
    destruct (stopOrSylStart ct w (mCurPos m) (sStop s)) as [ok| | |]; cbn [Sat bind] in *; try contradiction.
    destruct ok; [|reflexivity]. exfalso. apply (NA (mPre m)).
    split; [exists v; exact H1|]. repeat (split; [assumption|]). split; [lia|].
    destruct (proj1 Y eq_refl) as [Z|Z]; [left; lia|right; rewrite <- H5; exact Z]. }
  clear A. clearbody ms. induction ms as [|m ms IH]; [reflexivity|].
  cbn [mapM]. rewrite (H1 m (or_introl eq_refl)). cbn [bind].
  destruct (mapM (excAct ct w (sPos s) (sStop s) d) ms) as [r| | |]; cbn [bind] in *;
    (specialize (IH ltac:(intros m' Hm'; apply H1; right; exact Hm')); try discriminate).
  cbn [keepSome]. exact IH.
Qed.
End Step.

(** ** Checking a dictionary *)
Definition validVowelb (v : EVowel) : bool := existsb (Z.eqb v) vowelCodes.
Definition validSecb (v : ESecInitCons) : bool := existsb (Z.eqb v) [SEC_NONE; SEC_RA; SEC_LA; SEC_WA].
Definition wellFormedb (s : Syl) : bool :=
  match literal s with [] => true | _ => false end &&
  match iCons1 s with ICS_INVALID => false | _ => true end &&
  validSecb (iCons2 s) && validVowelb (vowel s) &&
  match tone s with T_INVALID => false | _ => true end.
Lemma existsb_in x l : existsb (Z.eqb x) l = true -> In x l.
Proof. rewrite existsb_exists. intros (y & H & E). apply Z.eqb_eq in E. subst. exact H. Qed.
Lemma wellFormedb_sound s : wellFormedb s = true -> wellFormed s.
Proof.
  unfold wellFormedb. rewrite !andb_true_iff. intros ((((A & B) & C) & D) & E).
  split; [destruct (literal s); congruence|]. split; [intros X; rewrite X in B; discriminate|].
  split; [apply existsb_in; exact C|]. split; [apply existsb_in; exact D|].
  intros X; rewrite X in E; discriminate.
Qed.
Fixpoint increasingb (from : Z) (ps : list Z) : bool :=
  match ps with
  | [] => true
  | p :: ps' => (nodeRank from <? nodeRank p)%Z && increasingb p ps'
  end.
Lemma increasingb_sound ps : forall x, increasingb x ps = true -> increasing x ps.
Proof.
  induction ps as [|p ps IH]; intros x H; cbn [increasing increasingb] in *; [exact I|].
  apply andb_true_iff in H. destruct H as (A & B). apply Z.ltb_lt in A. auto.
Qed.
Definition strOKb (k : Z) (s : SylString) : bool :=
  match s with [] => false | _ => true end && increasingb 0 (map endPos s) &&
  (str_endPos s =? k)%Z && forallb wellFormedb s.
Lemma strOKb_sound k s : strOKb k s = true -> wellPositioned k s /\ Forall wellFormed s.
Proof.
  unfold strOKb. rewrite !andb_true_iff. intros (((A & B) & C) & D). split.
  - split; [destruct s; congruence|]. split; [apply increasingb_sound; exact B|apply Z.eqb_eq; exact C].
  - rewrite Forall_forall. rewrite forallb_forall in D. intros x Hx. apply wellFormedb_sound. auto.
Qed.
Definition entryOKb (d : Dict) (k : list N) : bool :=
  match matchGetData d (mkMatch 0 k []) with
  | Ok data => match MakeSylStrings data with
               | Ok strs => forallb (strOKb (Z.of_nat (length k))) strs
               | _ => false
               end
  | _ => false
  end.
Lemma dictCheck_sound d t : mTrie d = Some t ->
  forallb (fun kv => entryOKb d (fst kv)) t = true -> dictOK d.
Proof.
  intros Et H k v (t' & Et' & t1 & t2 & E & _) Nk Ak. rewrite Et in Et'. injection Et' as <-.
  rewrite forallb_forall in H. specialize (H (k, v)). rewrite E in H.
  specialize (H ltac:(apply in_or_app; right; left; reflexivity)). cbn [fst] in H.
  unfold entryOKb in H. destruct (matchGetData d (mkMatch 0 k [])) as [data| | |] eqn:E1; try discriminate.
  destruct (MakeSylStrings data) as [strs| | |] eqn:E2; try discriminate.
  exists strs. split; [exists data; auto|]. rewrite Forall_forall. rewrite forallb_forall in H.
  intros s Hs. apply strOKb_sound. auto.
Qed.

(** DictProofs.v - the prefix search of the exception dictionary. *)
From Coq Require Import String List NArith ZArith Bool Arith Lia Sorted.
From Verif Require Import Base ThUni Dict.
Import ListNotations.
Local Open Scope nat_scope.

(** ** Specification *)
(** The dictionary holds the word [k] with datum [v] (the last entry wins). *)
Definition holds (d : Dict) (k : list N) (v : Z) : Prop :=
  exists t, mTrie d = Some t /\
    exists t1 t2, t = t1 ++ (k, v) :: t2 /\ forall v', ~ In (k, v') t1.
Definition inAbc (k : list N) : Prop := forall c, In c k -> (0x0e01 <= c <= 0x0e5b)%N.
(** The word [k] is written in [w] from position [pos]. *)
Definition writtenAt (w : list N) (pos : nat) (k : list N) : Prop :=
  exists rest, skipn pos w = k ++ rest.

(** ** Lemmas *)
Lemma keyEqb_eq a b : keyEqb a b = true <-> a = b.
Proof.
  revert b. induction a as [|x a IH]; intros [|y b]; cbn [keyEqb]; try (split; congruence).
  rewrite andb_true_iff, N.eqb_eq, IH. split; [intros (-> & ->); reflexivity|].
  intros H. injection H as -> ->. auto.
Qed.
Lemma prefixb_spec a b : prefixb a b = true <-> exists r, b = a ++ r.
Proof.
  revert b. induction a as [|x a IH]; intros b; cbn [prefixb].
  - split; [intros _; exists b; reflexivity|reflexivity].
  - destruct b as [|y b].
    + split; [discriminate|]. intros (r & H). discriminate.
    + rewrite andb_true_iff, N.eqb_eq, IH. split.
      * intros (-> & r & ->). exists r. reflexivity.
      * intros (r & H). injection H as -> ->. split; [reflexivity|exists r; reflexivity].
Qed.
Lemma inAlphabet_spec c : inAlphabet c = true <-> (0x0e01 <= c <= 0x0e5b)%N.
Proof. unfold inAlphabet. rewrite andb_true_iff, !N.leb_le. reflexivity. Qed.

Lemma trieFind_spec t k v : trieFind t k = Some v <->
  exists t1 t2, t = t1 ++ (k, v) :: t2 /\ forall v', ~ In (k, v') t1.
Proof.
  induction t as [|(k' & v') t IH]; cbn [trieFind].
  - split; [discriminate|]. intros ([|] & t2 & H & _); discriminate.
  - destruct (keyEqb k k') eqn:E.
    + apply keyEqb_eq in E. subst k'. split.
      * intros H. injection H as ->. exists [], t. auto.
      * intros ([|p t1] & t2 & H & N); cbn [app] in H; injection H as H1 H2.
        -- subst v'. reflexivity.
        -- subst p. exfalso. exact (N v' (or_introl eq_refl)).
    + rewrite IH. split.
      * intros (t1 & t2 & -> & N). exists ((k', v') :: t1), t2. split; [reflexivity|].
        intros v2 [H|H]; [|exact (N v2 H)]. injection H as -> _.
        rewrite (proj2 (keyEqb_eq k k) eq_refl) in E. discriminate.
      * intros ([|p t1] & t2 & H & N); cbn [app] in H; injection H as H1 H2.
        -- subst k'. rewrite (proj2 (keyEqb_eq k k) eq_refl) in E. discriminate.
        -- subst p t. exists t1, t2. split; [reflexivity|]. intros v2 H. apply (N v2). right; exact H.
Qed.
Lemma trieFind_in t k v : trieFind t k = Some v -> In (k, v) t.
Proof.
  rewrite trieFind_spec. intros (t1 & t2 & -> & _). apply in_or_app. right; left; reflexivity.
Qed.
Lemma holds_find d t k v : mTrie d = Some t -> holds d k v <-> trieFind t k = Some v.
Proof.
  intros E. rewrite trieFind_spec. split.
  - intros (t' & E' & H). rewrite E in E'. injection E' as <-. exact H.
  - intros H. exists t. auto.
Qed.
Lemma holds_fun d k v v' : holds d k v -> holds d k v' -> v = v'.
Proof.
  intros (t & E & H) H'. assert (H1 := proj1 (holds_find d t k v' E) H').
  apply trieFind_spec in H. congruence.
Qed.

(** One call of [findNextIn]: the shortest longer stored word. *)
Lemma findNextIn_spec t rest : forall pos pre m,
  findNextIn t pos pre rest = Some m ->
  exists k, k <> [] /\ inAbc k /\ rest = k ++ mRest m /\ mPre m = pre ++ k /\
    mCurPos m = pos + length k /\ trieTerminal t (pre ++ k) = true /\
    forall k1 k2, k = k1 ++ k2 -> k1 <> [] -> k2 <> [] -> trieTerminal t (pre ++ k1) = false.
Proof.
  induction rest as [|c rest IH]; intros pos pre m H; cbn [findNextIn] in H; [discriminate|].
  unfold trieWalk in H. destruct (inAlphabet c && _) eqn:E; [|discriminate].
  apply andb_true_iff in E. destruct E as (Ec & _). apply inAlphabet_spec in Ec.
  destruct (trieTerminal t (pre ++ [c])) eqn:T.
  - injection H as <-. exists [c]. cbn [mRest mPre mCurPos length].
    split; [discriminate|]. split; [intros x [<-|[]]; exact Ec|].
    repeat (split; [try reflexivity; try lia; exact T|]).
    intros k1 k2 Hk N1 N2. destruct k1 as [|x [|y k1]]; [congruence| |discriminate].
    destruct k2; [congruence|discriminate].
  - destruct (IH _ _ _ H) as (k & K1 & K2 & K3 & K4 & K5 & K6 & K7).
    exists (c :: k). split; [discriminate|].
    split; [intros x [<-|Hx]; [exact Ec|exact (K2 x Hx)]|].
    split; [cbn; rewrite K3; reflexivity|].
    replace (pre ++ c :: k) with ((pre ++ [c]) ++ k) by (rewrite <- app_assoc; reflexivity).
    split; [exact K4|]. split; [cbn [length]; lia|]. split; [exact K6|].
    intros k1 k2 Hk N1 N2. destruct k1 as [|x k1]; [congruence|]. injection Hk as <- Hk.
    destruct k1 as [|y k1]; [exact T|].
    replace (pre ++ c :: y :: k1) with ((pre ++ [c]) ++ y :: k1) by (rewrite <- app_assoc; reflexivity).
    apply (K7 _ k2 Hk); [discriminate|exact N2].
Qed.
Lemma findNextIn_none t rest : forall pos pre,
  findNextIn t pos pre rest = None ->
  forall k r, k <> [] -> inAbc k -> rest = k ++ r ->
    forall v, trieFind t (pre ++ k) <> Some v.
Proof.
  induction rest as [|c rest IH]; intros pos pre H k r K1 K2 K3 v Hf.
  - destruct k; [congruence|discriminate].
  - destruct k as [|x k]; [congruence|]. injection K3 as <- K3.
    cbn [findNextIn] in H. unfold trieWalk in H.
    assert (W : inAlphabet c && existsb (fun kv => prefixb (pre ++ [c]) (fst kv)) t = true).
    { apply andb_true_iff. split; [apply inAlphabet_spec, K2; left; reflexivity|].
      apply existsb_exists. exists (pre ++ c :: k, v).
      split; [apply trieFind_in; exact Hf|]. cbn [fst]. apply prefixb_spec. exists k.
      rewrite <- app_assoc. reflexivity. }
    rewrite W in H. destruct (trieTerminal t (pre ++ [c])) eqn:T; [discriminate|].
    destruct k as [|y k].
    + unfold trieTerminal in T. rewrite Hf in T. discriminate.
    + apply (IH _ _ H (y :: k) r) with (v := v); auto; [discriminate|intros z Hz; apply K2; right; exact Hz|].
      rewrite <- app_assoc. exact Hf.
Qed.

Definition suffixMatch (w : list N) (pos : nat) (m : Match) : Prop :=
  skipn pos w = mPre m ++ mRest m /\ mCurPos m = pos + length (mPre m) /\ inAbc (mPre m).

Lemma allMatches_gen d w pos t : mTrie d = Some t ->
  forall fuel m, suffixMatch w pos m -> length (mRest m) < fuel ->
  let l := allMatches fuel d m in
  Forall (fun x => suffixMatch w pos x /\ mCurPos m < mCurPos x /\
                   exists v, holds d (mPre x) v) l /\
  StronglySorted (fun a b => mCurPos a < mCurPos b) l /\
  (forall k v, writtenAt w pos k -> inAbc k -> holds d k v -> length (mPre m) < length k ->
     exists x, In x l /\ mPre x = k).
Proof.
  intros Ht. induction fuel as [|fuel IH]; intros m (S1 & S2 & S3) Hf l; [lia|].
  subst l. cbn [allMatches]. unfold findNext. rewrite Ht.
  destruct (findNextIn t (mCurPos m) (mPre m) (mRest m)) as [m'|] eqn:E.
  - destruct (findNextIn_spec _ _ _ _ _ E) as (k & K1 & K2 & K3 & K4 & K5 & K6 & K7).
    assert (SM : suffixMatch w pos m').
    { split; [|split].
      - rewrite S1, K3, K4, app_assoc. reflexivity.
      - rewrite K4, app_length. lia.
      - rewrite K4. intros c Hc. apply in_app_or in Hc. destruct Hc; auto. }
    assert (HL : length k > 0) by (destruct k; [congruence|cbn; lia]).
    assert (Hf' : length (mRest m') < fuel).
    { assert (length (mRest m) = length k + length (mRest m')) by (rewrite K3, app_length; reflexivity). lia. }
    destruct (IH m' SM Hf') as (F1 & F2 & F3).
    assert (HH : exists v, holds d (mPre m') v).
    { unfold trieTerminal in K6. rewrite <- K4 in K6.
      destruct (trieFind t (mPre m')) as [v|] eqn:Ev; [|discriminate].
      exists v. apply (holds_find d t _ _ Ht). exact Ev. }
    split; [|split].
    + constructor; [split; [exact SM|split; [lia|exact HH]]|].
      eapply Forall_impl; [|exact F1]. cbv beta. intros x (A & B & C).
      split; [exact A|]. split; [lia|exact C].
    + constructor; [exact F2|]. eapply Forall_impl; [|exact F1]. cbv beta. tauto.
    + intros k0 v0 (r & W0) A0 H0 L0.
      destruct (le_lt_dec (length k0) (length (mPre m'))) as [L|L].
      * exists m'. split; [left; reflexivity|].
        (* k0 is a prefix of the text no longer than mPre m' and longer than mPre m *)
        assert (P : exists k1, k0 = mPre m ++ k1 /\ k1 <> [] /\ exists k2, k = k1 ++ k2).
        { exists (skipn (length (mPre m)) k0).
          assert (E0 : k0 ++ r = mPre m ++ mRest m) by congruence.
          assert (E1 : firstn (length (mPre m)) k0 = mPre m).
          { apply (f_equal (firstn (length (mPre m)))) in E0.
            rewrite firstn_app in E0.
            replace (length (mPre m) - length k0) with 0 in E0 by lia.
            rewrite firstn_O, app_nil_r in E0.
            rewrite E0, firstn_app, Nat.sub_diag, firstn_O, app_nil_r, firstn_all. reflexivity. }
          assert (E2 : k0 = mPre m ++ skipn (length (mPre m)) k0)
            by (rewrite <- E1 at 1; rewrite firstn_skipn; reflexivity).
          split; [exact E2|]. split.
          - intros Z. rewrite Z, app_nil_r in E2. rewrite E2 in L0. lia.
          - exists (skipn (length k0 - length (mPre m)) k).
            rewrite E2 in E0. rewrite <- app_assoc in E0. apply app_inv_head in E0.
            rewrite K3 in E0.
            set (k1 := skipn (length (mPre m)) k0) in *.
            assert (Lk1 : length k1 = length k0 - length (mPre m)) by apply skipn_length.
            assert (Lle : length k1 <= length k) by (rewrite K4, app_length in L; lia).
            rewrite <- Lk1.
            apply (f_equal (firstn (length k1))) in E0.
            rewrite !firstn_app, Nat.sub_diag, firstn_O, app_nil_r, firstn_all in E0.
            replace (length k1 - length k) with 0 in E0 by lia.
            rewrite firstn_O, app_nil_r in E0. rewrite E0 at 1. symmetry. apply firstn_skipn. }
        destruct P as (k1 & -> & N1 & k2 & Ek). rewrite K4. f_equal.
        destruct k2 as [|y k2]; [rewrite app_nil_r in Ek; exact Ek|]. exfalso.
        assert (T := K7 k1 (y :: k2) Ek N1 ltac:(discriminate)).
        unfold trieTerminal in T.
        rewrite (proj1 (holds_find d t _ _ Ht) H0) in T. discriminate.
      * destruct (F3 k0 v0 (ex_intro _ r W0) A0 H0 L) as (x & Hx & Ex).
        exists x. split; [right; exact Hx|exact Ex].
  - split; [constructor|]. split; [constructor|].
    intros k0 v0 (r & W0) A0 H0 L0. exfalso.
    assert (E0 : k0 ++ r = mPre m ++ mRest m) by congruence.
    assert (E1 : firstn (length (mPre m)) k0 = mPre m).
    { apply (f_equal (firstn (length (mPre m)))) in E0.
      rewrite firstn_app in E0.
      replace (length (mPre m) - length k0) with 0 in E0 by lia.
      rewrite firstn_O, app_nil_r in E0.
      rewrite E0, firstn_app, Nat.sub_diag, firstn_O, app_nil_r, firstn_all. reflexivity. }
    assert (E2 : k0 = mPre m ++ skipn (length (mPre m)) k0)
      by (rewrite <- E1 at 1; rewrite firstn_skipn; reflexivity).
    apply (findNextIn_none t _ _ _ E (skipn (length (mPre m)) k0) r) with (v := v0).
    + intros Z. rewrite Z, app_nil_r in E2. rewrite E2 in L0. lia.
    + intros c Hc. apply A0. rewrite E2. apply in_or_app. right; exact Hc.
    + rewrite E2 in E0. rewrite <- app_assoc in E0. apply app_inv_head in E0. symmetry; exact E0.
    + rewrite <- E2. apply (holds_find d t _ _ Ht). exact H0.
Qed.

(** The whole search. *)
Lemma allMatches_spec d w pos : pos <= length w ->
  let l := allMatches (S (length w)) d (MatchNew w pos) in
  (forall x, In x l -> exists v, holds d (mPre x) v /\ mPre x <> [] /\ inAbc (mPre x) /\
     writtenAt w pos (mPre x) /\ mCurPos x = pos + length (mPre x)) /\
  StronglySorted (fun a b => mCurPos a < mCurPos b) l /\
  (forall k v, k <> [] -> writtenAt w pos k -> inAbc k -> holds d k v ->
     exists x, In x l /\ mPre x = k).
Proof.
  intros Hp l. destruct (mTrie d) as [t|] eqn:Ht.
  - assert (SM : suffixMatch w pos (MatchNew w pos)).
    { split; [reflexivity|]. split; [cbn; lia|]. intros c []. }
    destruct (allMatches_gen d w pos t Ht (S (length w)) _ SM) as (F1 & F2 & F3).
    { cbn [MatchNew mRest]. rewrite skipn_length. lia. }
    split; [|split; [exact F2|]].
    + intros x Hx. rewrite Forall_forall in F1. destruct (F1 x Hx) as ((A & B & C) & D & v & H).
      exists v. split; [exact H|]. cbn [MatchNew mCurPos] in D.
      split; [intros Z; rewrite Z in B; cbn in B; lia|]. split; [exact C|].
      split; [exists (mRest x); exact A|exact B].
    + intros k v K1 K2 K3 K4. apply (F3 k v K2 K3 K4). cbn. destruct k; [congruence|cbn; lia].
  - assert (E : l = []) by (unfold l; cbn [allMatches]; unfold findNext; rewrite Ht; reflexivity).
    rewrite E. split; [intros x []|]. split; [constructor|].
    intros k v _ _ _ (t & E' & _). congruence.
Qed.

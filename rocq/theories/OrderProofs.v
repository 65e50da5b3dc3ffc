(** OrderProofs.v - proofs about comparison of syllables and strings. *)
From Coq Require Import List NArith ZArith Bool Lia.
From Verif Require Import Spec Base ThCons Syl.
Import ListNotations.
Local Open Scope Z_scope.

(** ** Generic strict total orders given by a boolean function *)
Record TotalLt {A} (lt : A -> A -> bool) : Prop := {
  tl_irrefl : forall a, lt a a = false;
  tl_trans : forall a b c, lt a b = true -> lt b c = true -> lt a c = true;
  tl_total : forall a b, lt a b = false -> lt b a = false -> a = b
}.

Lemma tl_asym {A} (lt : A -> A -> bool) (H : TotalLt lt) a b :
  lt a b = true -> lt b a = false.
Proof.
  intros H1. destruct (lt b a) eqn:E; auto.
  pose proof (tl_trans _ H _ _ _ H1 E) as X. rewrite (tl_irrefl _ H) in X. discriminate.
Qed.

Fixpoint lexl {A} (lt : A -> A -> bool) (a b : list A) : bool :=
  match a, b with
  | _, [] => false
  | [], _ :: _ => true
  | x :: a', y :: b' =>
      if lt x y then true else if lt y x then false else lexl lt a' b'
  end.

Lemma lexl_total {A} (lt : A -> A -> bool) : TotalLt lt -> TotalLt (lexl lt).
Proof.
  intros H. split.
  - induction a as [|x a IH]; simpl; auto. rewrite (tl_irrefl _ H). auto.
  - induction a as [|x a IH]; destruct b as [|y b]; destruct c as [|z c]; simpl; intros; try discriminate; auto.
    destruct (lt x y) eqn:Exy.
    + destruct (lt y z) eqn:Eyz.
      * rewrite (tl_trans _ H _ _ _ Exy Eyz). auto.
      * destruct (lt z y) eqn:Ezy; [discriminate|].
        rewrite <- (tl_total _ H _ _ Eyz Ezy), Exy. auto.
    + destruct (lt y x) eqn:Eyx; [discriminate|].
      rewrite (tl_total _ H _ _ Exy Eyx).
      destruct (lt y z); auto. destruct (lt z y); [discriminate|]. eauto.
  - induction a as [|x a IH]; destruct b as [|y b]; simpl; intros; try discriminate; auto.
    destruct (lt x y) eqn:Exy; [discriminate|].
    destruct (lt y x) eqn:Eyx; [discriminate|].
    rewrite (tl_total _ H _ _ Exy Eyx). f_equal. auto.
Qed.

Definition pairlt {A B} (la : A -> A -> bool) (lb : B -> B -> bool) (a b : A * B) :=
  if la (fst a) (fst b) then true else if la (fst b) (fst a) then false
  else lb (snd a) (snd b).

Lemma pairlt_total {A B} (la : A -> A -> bool) (lb : B -> B -> bool) :
  TotalLt la -> TotalLt lb -> TotalLt (pairlt la lb).
Proof.
  intros HA HB. split; unfold pairlt.
  - intros [a b]; simpl. rewrite (tl_irrefl _ HA). apply (tl_irrefl _ HB).
  - intros [x x'] [y y'] [z z']; simpl.
    destruct (la x y) eqn:Exy.
    + destruct (la y z) eqn:Eyz; intros _ H2.
      * rewrite (tl_trans _ HA _ _ _ Exy Eyz). auto.
      * destruct (la z y) eqn:Ezy; [discriminate|].
        rewrite <- (tl_total _ HA _ _ Eyz Ezy), Exy. auto.
    + destruct (la y x) eqn:Eyx; [discriminate|].
      rewrite (tl_total _ HA _ _ Exy Eyx). intros H1.
      destruct (la y z); auto. destruct (la z y); [discriminate|].
      apply (tl_trans _ HB); auto.
  - intros [x x'] [y y']; simpl.
    destruct (la x y) eqn:Exy; [discriminate|].
    destruct (la y x) eqn:Eyx; [discriminate|].
    intros H1 H2. f_equal. apply (tl_total _ HA); auto. apply (tl_total _ HB); auto.
Qed.

Lemma Zltb_total : TotalLt Z.ltb.
Proof. split; intros; lia. Qed.

(** ** Keys *)
Definition sylKey (s : Syl) : list Z * list Z :=
  if isLiteral s then (0 :: map Z.of_N (literal s), [endPos s])
  else ([1], [Z.of_N (ics_code (iCons1 s)); iCons2 s; vowel s;
              Z.of_N (ec_code (eCons s)); Z.of_N (tone_code (tone s)); endPos s]).
Definition keylt := pairlt (lexl Z.ltb) (lexl Z.ltb).

Lemma keylt_total : TotalLt keylt.
Proof. apply pairlt_total; apply lexl_total; apply Zltb_total. Qed.

Lemma ZltN a b : (Z.of_N a <? Z.of_N b) = (N.ltb a b).
Proof. destruct (N.ltb_spec a b); lia. Qed.

Lemma u16ltb_lex a b : u16ltb a b = lexl Z.ltb (map Z.of_N a) (map Z.of_N b).
Proof.
  revert b. induction a as [|x a IH]; destruct b as [|y b]; simpl; auto.
  rewrite !ZltN, IH. auto.
Qed.

Lemma syl_ltb_key a b : syl_ltb a b = keylt (sylKey a) (sylKey b).
Proof.
  unfold syl_ltb, sylKey, keylt, pairlt.
  destruct (isLiteral a), (isLiteral b); simpl; rewrite ?ZltN; auto.
  - rewrite <- !u16ltb_lex.
    destruct (u16ltb (literal a) (literal b)); auto.
    destruct (u16ltb (literal b) (literal a)); auto.
    destruct (endPos a <? endPos b); auto. destruct (endPos b <? endPos a); auto.
  - repeat match goal with
           | |- context [if ?c then _ else _] => destruct c
           end; auto.
Qed.

Lemma syl_gtb_ltb a b : syl_gtb a b = syl_ltb b a.
Proof. unfold syl_gtb, syl_ltb. destruct (isLiteral a), (isLiteral b); auto. Qed.

Lemma str_ltb_key a b : str_ltb a b = lexl keylt (map sylKey a) (map sylKey b).
Proof.
  revert b. induction a as [|x a IH]; destruct b as [|y b]; simpl; auto.
  rewrite syl_gtb_ltb, !syl_ltb_key, IH. auto.
Qed.

Lemma str_gtb_ltb a b : str_gtb a b = str_ltb b a.
Proof.
  revert b. induction a as [|x a IH]; destruct b as [|y b]; simpl; auto.
  rewrite !syl_gtb_ltb, IH. auto.
Qed.

Lemma strkey_total : TotalLt (lexl keylt).
Proof. apply lexl_total, keylt_total. Qed.

(** ** Injectivity of enum codes *)
Lemma ics_code_inj a b : ics_code a = ics_code b -> a = b.
Proof. destruct a, b; intro H; try reflexivity; discriminate H. Qed.
Lemma ec_code_inj a b : ec_code a = ec_code b -> a = b.
Proof. destruct a, b; intro H; try reflexivity; discriminate H. Qed.
Lemma tone_code_inj a b : tone_code a = tone_code b -> a = b.
Proof. destruct a, b; intro H; try reflexivity; discriminate H. Qed.
Lemma ic_code_inj a b : ic_code a = ic_code b -> a = b.
Proof. destruct a, b; intro H; try reflexivity; discriminate H. Qed.

Lemma ics_eqb_eq a b : ics_eqb a b = true <-> a = b.
Proof.
  unfold ics_eqb. rewrite N.eqb_eq. split; [apply ics_code_inj|congruence].
Qed.
Lemma ec_eqb_eq a b : ec_eqb a b = true <-> a = b.
Proof.
  unfold ec_eqb. rewrite N.eqb_eq. split; [apply ec_code_inj|congruence].
Qed.
Lemma tone_eqb_eq a b : tone_eqb a b = true <-> a = b.
Proof.
  unfold tone_eqb. rewrite N.eqb_eq. split; [apply tone_code_inj|congruence].
Qed.
Lemma ic_eqb_eq a b : ic_eqb a b = true <-> a = b.
Proof.
  unfold ic_eqb. rewrite N.eqb_eq. split; [apply ic_code_inj|congruence].
Qed.
Lemma u16eqb_eq a b : u16eqb a b = true <-> a = b.
Proof.
  revert b. induction a as [|x a IH]; destruct b as [|y b]; simpl; split; intros H; try discriminate; auto.
  - apply andb_true_iff in H. destruct H as [H1 H2]. apply N.eqb_eq in H1. apply IH in H2. congruence.
  - injection H as -> ->. rewrite N.eqb_refl. apply IH. auto.
Qed.

Lemma syl_eqb_spoken a b : syl_eqb a b = true <-> spoken a = spoken b.
Proof.
  unfold syl_eqb, spoken, isLiteral.
  destruct (literal a) as [|x la] eqn:Ea; destruct (literal b) as [|y lb] eqn:Eb.
  - rewrite !andb_true_iff, ics_eqb_eq, !Z.eqb_eq, ec_eqb_eq, tone_eqb_eq.
    split; [intuition congruence | intros H; injection H; intuition].
  - split; discriminate.
  - split; discriminate.
  - rewrite u16eqb_eq. split; congruence.
Qed.

Lemma str_eqb_spoken a b : str_eqb a b = true <-> map spoken a = map spoken b.
Proof.
  revert b. induction a as [|x a IH]; destruct b as [|y b]; simpl; split; intros H; try discriminate; auto.
  - destruct (syl_eqb x y) eqn:E; simpl in H; [|discriminate].
    apply syl_eqb_spoken in E. apply IH in H. congruence.
  - injection H as H1 H2. apply syl_eqb_spoken in H1. rewrite H1. simpl. apply IH. auto.
Qed.

Lemma sylKey_spoken a b : sylKey a = sylKey b <-> spoken a = spoken b /\ endPos a = endPos b.
Proof.
  unfold sylKey, spoken, isLiteral.
  destruct (literal a) as [|x la] eqn:Ea; destruct (literal b) as [|y lb] eqn:Eb; simpl.
  - split.
    + intros H. injection H. intros. split; auto.
      assert (ics_code (iCons1 a) = ics_code (iCons1 b)) by lia.
      assert (ec_code (eCons a) = ec_code (eCons b)) by lia.
      assert (tone_code (tone a) = tone_code (tone b)) by lia.
      repeat match goal with
             | H : ics_code _ = _ |- _ => apply ics_code_inj in H
             | H : ec_code _ = _ |- _ => apply ec_code_inj in H
             | H : tone_code _ = _ |- _ => apply tone_code_inj in H
             end. congruence.
    + intros [H1 H2]. injection H1. intros. congruence.
  - split; [discriminate|intros [? ?]; discriminate].
  - split; [discriminate|intros [? ?]; discriminate].
  - split.
    + intros H. injection H as H1 H2 H3.
      assert (la = lb).
      { clear -H2. revert lb H2. induction la; destruct lb; simpl; intros H; try discriminate; auto.
        injection H. intros. f_equal; [lia|auto]. }
      split; [|auto]. f_equal. f_equal; [lia|auto].
    + intros [H1 H2]. injection H1 as -> ->. congruence.
Qed.

Lemma strKey_spoken a b :
  map sylKey a = map sylKey b <->
  map spoken a = map spoken b /\ map endPos a = map endPos b.
Proof.
  revert b. induction a as [|x a IH]; destruct b as [|y b]; simpl; try (split; [discriminate|intros [? ?]; discriminate]).
  - tauto.
  - split.
    + intros H. injection H as H1 H2. apply sylKey_spoken in H1. apply IH in H2.
      destruct H1, H2. split; congruence.
    + intros [H1 H2]. injection H1. injection H2. intros.
      f_equal; [apply sylKey_spoken|apply IH]; auto.
Qed.

(** ** Derived order facts *)
Lemma syl_ltb_irrefl a : syl_ltb a a = false.
Proof. rewrite syl_ltb_key. apply (tl_irrefl _ keylt_total). Qed.
Lemma syl_ltb_trans a b c : syl_ltb a b = true -> syl_ltb b c = true -> syl_ltb a c = true.
Proof. rewrite !syl_ltb_key. apply (tl_trans _ keylt_total). Qed.
Lemma syl_ltb_total a b :
  syl_ltb a b = false -> syl_ltb b a = false -> spoken a = spoken b /\ endPos a = endPos b.
Proof. rewrite !syl_ltb_key. intros. apply sylKey_spoken. apply (tl_total _ keylt_total); auto. Qed.
Lemma str_ltb_irrefl a : str_ltb a a = false.
Proof. rewrite str_ltb_key. apply (tl_irrefl _ strkey_total). Qed.
Lemma str_ltb_trans a b c : str_ltb a b = true -> str_ltb b c = true -> str_ltb a c = true.
Proof. rewrite !str_ltb_key. apply (tl_trans _ strkey_total). Qed.
Lemma str_ltb_total a b :
  str_ltb a b = false -> str_ltb b a = false ->
  map spoken a = map spoken b /\ map endPos a = map endPos b.
Proof. rewrite !str_ltb_key. intros. apply strKey_spoken. apply (tl_total _ strkey_total); auto. Qed.
Lemma str_ltb_asym a b : str_ltb a b = true -> str_ltb b a = false.
Proof. rewrite !str_ltb_key. apply (tl_asym _ strkey_total). Qed.

(** Lexicographic characterisation. *)
Lemma lexl_spec {A} (lt : A -> A -> bool) (H : TotalLt lt) a b :
  lexl lt a b = true <->
  (exists p y b', a = p /\ b = p ++ y :: b') \/
  (exists p x y a' b', a = p ++ x :: a' /\ b = p ++ y :: b' /\ lt x y = true).
Proof.
  revert b. induction a as [|x a IH]; destruct b as [|y b]; simpl.
  - split; [discriminate|]. intros [(p&y&b'&E0&E)|(p&x&y&a'&b'&E&_)]; destruct p; discriminate.
  - split; auto. intros _. left. exists [], y, b. auto.
  - split; [discriminate|]. intros [(p&y&b'&E0&E)|(p&u&y&a'&b'&_&E&_)]; destruct p; discriminate.
  - destruct (lt x y) eqn:Exy.
    + split; auto. intros _. right. exists [], x, y, a, b. auto.
    + destruct (lt y x) eqn:Eyx.
      * split; [discriminate|]. intros [(p&z&b'&<-&E)|(p&u&z&a'&b'&E1&E2&E3)].
        -- injection E as -> ->. congruence.
        -- destruct p; simpl in *; injection E1; injection E2; intros; subst;
             rewrite ?(tl_irrefl _ H) in *; congruence.
      * pose proof (tl_total _ H _ _ Exy Eyx). subst y. rewrite IH. split.
        -- intros [(p&z&b'&->&->)|(p&u&z&a'&b'&->&->&E3)].
           ++ left. exists (x :: p), z, b'. auto.
           ++ right. exists (x :: p), u, z, a', b'. auto.
        -- intros [(p&z&b'&<-&E)|(p&u&z&a'&b'&E1&E2&E3)].
           ++ injection E as E. left. exists a, z, b'. auto.
           ++ destruct p; simpl in *; injection E1; injection E2; intros; subst.
              ** congruence.
              ** right. exists p, u, z, a', b'. auto.
Qed.

Lemma map_key_Forall2 a b : map sylKey a = map sylKey b <-> Forall2 sameVal a b.
Proof.
  revert b. induction a as [|x a IH]; destruct b as [|y b]; simpl; split; intros H; try discriminate; auto.
  - inversion H.
  - inversion H.
  - injection H as H1 H2. constructor; [apply sylKey_spoken; auto|apply IH; auto].
  - inversion H; subst. f_equal; [apply sylKey_spoken; auto|apply IH; auto].
Qed.

Lemma str_ltb_lex a b :
  str_ltb a b = true <->
  (exists p y b', Forall2 sameVal a p /\ b = p ++ y :: b') \/
  (exists p q x y a' b', a = p ++ x :: a' /\ b = q ++ y :: b' /\
                         Forall2 sameVal p q /\ syl_ltb x y = true).
Proof.
  rewrite str_ltb_key, (lexl_spec _ keylt_total). split.
  - intros [(p&y&b'&E1&E2)|(p&x&y&a'&b'&E1&E2&E3)].
    + left. apply map_eq_app in E2. destruct E2 as (q&r&->&Hq&Hr).
      destruct r as [|z r]; [discriminate|]. exists q, z, r. split; auto.
      apply map_key_Forall2. congruence.
    + right. apply map_eq_app in E1. destruct E1 as (q&r&->&Hq&Hr).
      apply map_eq_app in E2. destruct E2 as (q'&r'&->&Hq'&Hr').
      destruct r as [|z r]; [discriminate|]. destruct r' as [|z' r']; [discriminate|].
      injection Hr as <- <-. injection Hr' as <- <-.
      exists q, q', z, z', r, r'. repeat split; auto.
      * apply map_key_Forall2. congruence.
      * rewrite syl_ltb_key. auto.
  - intros [(p&y&b'&E1&->)|(p&q&x&y&a'&b'&->&->&E2&E3)].
    + left. exists (map sylKey p), (sylKey y), (map sylKey b').
      apply map_key_Forall2 in E1. rewrite map_app. auto.
    + right. exists (map sylKey p), (sylKey x), (sylKey y), (map sylKey a'), (map sylKey b').
      apply map_key_Forall2 in E2. rewrite !map_app. simpl. rewrite <- syl_ltb_key.
      repeat split; auto. congruence.
Qed.

(** ** Shifting *)
Lemma shift_length off s : length (shiftEndPos off s) = length s.
Proof. apply map_length. Qed.
Lemma shift_spoken off s : map spoken (shiftEndPos off s) = map spoken s.
Proof. unfold shiftEndPos. rewrite map_map. apply map_ext. intros []. reflexivity. Qed.
Lemma shift_compose a b s :
  0 <= a -> 0 <= b ->
  shiftEndPos a (shiftEndPos b s) = shiftEndPos (a + b) s.
Proof.
  intros Ha Hb. unfold shiftEndPos. rewrite map_map. apply map_ext.
  intros x. unfold setEndPos; simpl. f_equal. unfold shiftPos.
  destruct (Z.ltb_spec (endPos x) 0).
  - destruct (Z.ltb_spec (endPos x - b * 101) 0); lia.
  - destruct (Z.ltb_spec (endPos x + b) 0); lia.
Qed.

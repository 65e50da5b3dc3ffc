(** Prop_Point.v - property C116: full stops between pieces of foreign text,
    as in numbers and addresses. *)
From Coq Require Import String List NArith ZArith Bool Lia Arith Sorted.
From Verif Require Import Base ThUni ThCons Syl Utf Lattice Dag PronDag Output Dict Parser Cli Prop_Cli.
From Verif Require Import Spec OrderProofs DictProofs Prop_Syl ParserSpec ParserFacts ParserInv ParserResult ParserListed ParserDict.
From Verif Require Import Prop_Output Prop_Parser Grammar GrammarWord TextGrammar TextProof Prop_Every.
Import ListNotations.
Local Open Scope string_scope.
Local Open Scope list_scope.
Local Open Scope nat_scope.

(** ** Vocabulary *)
(** A piece of text without Thai letters, blanks and full stops. *)
Definition piece (u : list N) : Prop := u <> [] /\ forall x, In x u -> thaiChar x = false /\ x <> 0x20%N.
(** Pieces, each with a full stop after it. *)
Definition stopped (us : list (list N)) : list N := flat_map (fun u => u ++ [fullStop]) us.
(** The pieces alone, each one reaching over its full stop. *)
Fixpoint copies (p : nat) (us : list (list N)) (z : list N) : SylString :=
  match us with
  | u :: us => SylLiteral (Z.of_nat (p + length u + 1)) u :: copies (p + length u + 1) us z
  | [] => match z with [] => [] | _ => [SylLiteral (Z.of_nat (p + length z)) z] end
  end.

(** ** Lemmas *)
Lemma mid_nth (a u r : list N) k x : length a <= k -> k < length a + length u -> nth_error (a ++ u ++ r) k = Some x -> In x u.
Proof.
  intros L1 L2 E. rewrite nth_error_app2 in E by lia. rewrite nth_error_app1 in E by lia. eapply nth_error_In. exact E.
Qed.
Lemma mid_between (a u r : list N) q : q = length a + length u -> between (a ++ u ++ r) (length a) q = u.
Proof.
  intros ->. unfold between. rewrite skipn_app, Nat.sub_diag, skipn_all. cbn [app skipn].
  replace (length a + length u - length a) with (length u) by lia. rewrite firstn_app, Nat.sub_diag, firstn_all, firstn_O. apply app_nil_r.
Qed.

Section Text.
Variable E : list N -> list SylString -> Prop.
Variable brk : list nat.
Section Piece.
Variables a u r : list N.
Hypothesis U : piece u.
Hypothesis R : r = [] \/ exists r', r = fullStop :: r'.
Notation w := (a ++ u ++ r).
Notation p := (length a).
Notation q := (length a + length u).

Lemma u_len : 0 < length u.
Proof. destruct U as [N _]. destruct u; [congruence|cbn; lia]. Qed.
Lemma u_not k : p <= k < q -> ~ thaiAt w k.
Proof. intros L (x & Ex & T). apply mid_nth in Ex; try lia. destruct U as [_ F]. destruct (F x Ex). congruence. Qed.
Lemma u_foreign : foreignTo w p q.
Proof.
  pose proof u_len. constructor; [lia|rewrite !app_length; lia|exact u_not|]. destruct R as [->|(r' & ->)].
  - left. rewrite !app_length. cbn. lia.
  - right. exists fullStop. split; [|reflexivity]. rewrite nth_error_app2 by lia. replace (q - p) with (length u) by lia.
    rewrite nth_error_app2, Nat.sub_diag by lia. reflexivity.
Qed.
Lemma u_only q' : foreignTo w p q' -> q' = q.
Proof.
  intros F. pose proof u_len. pose proof u_foreign as G. destruct (Nat.lt_trichotomy q' q) as [L|[L|L]]; [|exact L|].
  - destruct (ft_end _ _ _ F) as [X|X]; [pose proof (ft_le _ _ _ G); lia|]. destruct (u_not q'); [pose proof (ft_lt _ _ _ F); lia|exact X].
  - destruct (ft_end _ _ _ G) as [X|X]; [pose proof (ft_le _ _ _ F); lia|]. destruct (ft_none _ _ _ F q); [lia|exact X].
Qed.
Lemma u_noword q' : ~ wordTo w brk p q'.
Proof. intros W. apply (u_not p); [pose proof u_len; lia|]. apply (wt_thai _ _ _ _ W). pose proof (wt_lt _ _ _ _ W). lia. Qed.
Lemma u_pass lk es e lk' : Pass E w brk p lk es e lk' -> es = [(Z.of_nat p, SylLiteral (Z.of_nat q) u)] /\ e = q /\ lk' = lk.
Proof.
  intros H. destruct H as [q' F|q' k r' strs W|q' s r' W|q' pre x r' lk' W]; [|destruct (u_noword _ W)..].
  apply u_only in F. subst q'. rewrite mid_between by reflexivity. auto.
Qed.
Lemma u_passes lk : Pass E w brk p lk [(Z.of_nat p, SylLiteral (Z.of_nat q) u)] q lk.
Proof. rewrite <- (mid_between a u r q eq_refl) at 3. constructor. exact u_foreign. Qed.
Lemma u_tacit : tacit w q <-> r <> [].
Proof.
  pose proof u_len. split.
  - intros (X & _) Z. assert (L : q < length w) by (apply nth_error_Some; congruence). rewrite !app_length, Z in L. cbn in L. lia.
  - intros N. destruct R as [X|(r' & ->)]; [congruence|]. split.
    + rewrite nth_error_app2 by lia. replace (q - p) with (length u) by lia. rewrite nth_error_app2, Nat.sub_diag by lia. reflexivity.
    + intros [X|(x & Ex & X)]; [lia|]. apply mid_nth in Ex; try lia. destruct U as [_ F]. destruct (F x Ex) as (T & B).
      destruct X as [->| ->]; [congruence|discriminate T].
Qed.
Lemma u_step lk es e lk' : Step E w brk p lk es e lk' <->
  lk' = lk /\ e = q + (if r then 0 else 1) /\ es = [(Z.of_nat p, SylLiteral (Z.of_nat e) u)].
Proof.
  split.
  - intros H. destruct H as [es e lk' P T|es e lk' P T]; apply u_pass in P; destruct P as (-> & -> & ->); pose proof u_tacit as V.
    + destruct r; [rewrite Nat.add_0_r; auto|]. destruct T. apply (proj2 V). discriminate.
    + apply (proj1 V) in T. destruct r as [|x r']; [congruence|]. split; [reflexivity|]. split; [reflexivity|].
      unfold extend. cbn [map snd fst endPos SylLiteral]. rewrite Z.eqb_refl. reflexivity.
  - intros (-> & -> & ->). pose proof u_tacit as V. pose proof (u_passes lk) as P. destruct r as [|x r'].
    + rewrite Nat.add_0_r. apply St_plain; [exact P|]. intros T. apply (proj1 V) in T. congruence.
    + apply St_stop in P; [|apply (proj2 V); discriminate].
      unfold extend in P. cbn [map snd fst endPos SylLiteral] in P. rewrite Z.eqb_refl in P. exact P.
Qed.
End Piece.

Section Whole.
Variable us : list (list N).
Variable z : list N.
Hypothesis Us : Forall piece us.
Hypothesis Zp : z = [] \/ piece z.
Notation w := (stopped us ++ z).
Notation n := (length w).
Notation at_ l := (length (stopped l)).

Lemma stopped_app l1 l2 : stopped (l1 ++ l2) = stopped l1 ++ stopped l2.
Proof. apply flat_map_app. Qed.
Lemma at_next l u : at_ (l ++ [u]) = at_ l + length u + 1.
Proof. rewrite stopped_app, app_length. cbn. rewrite app_nil_r, app_length. cbn. lia. Qed.
Lemma end_step lk es e lk' : ~ Step E w brk n lk es e lk'.
Proof.
  assert (P : forall lk es e lk', ~ Pass E w brk n lk es e lk').
  { intros lk0 es0 e0 lk0' H. destruct H as [q F|q k r strs W|q s r W|q pre x r lk1 W].
    - pose proof (ft_lt _ _ _ F). pose proof (ft_le _ _ _ F). lia.
    - pose proof (wt_lt _ _ _ _ W). pose proof (wt_le _ _ _ _ W). lia.
    - pose proof (wt_lt _ _ _ _ W). pose proof (wt_le _ _ _ _ W). lia.
    - pose proof (wt_lt _ _ _ _ W). pose proof (wt_le _ _ _ _ W). lia. }
  intros H. destruct H as [es e lk' H _|es e lk' H _]; exact (P _ _ _ _ H).
Qed.
Lemma piece_step us1 u us2 lk es e lk' : us = us1 ++ u :: us2 -> Step E w brk (at_ us1) lk es e lk' <->
  lk' = lk /\ e = at_ (us1 ++ [u]) /\ es = [(Z.of_nat (at_ us1), SylLiteral (Z.of_nat e) u)].
Proof.
  intros Eu. assert (U : piece u) by (rewrite Forall_forall in Us; apply Us; rewrite Eu; apply in_or_app; right; left; reflexivity).
  replace w with (stopped us1 ++ u ++ fullStop :: stopped us2 ++ z).
  - rewrite at_next. apply (u_step (stopped us1) u (fullStop :: stopped us2 ++ z) U). right. eauto.
  - rewrite Eu, stopped_app. cbn [stopped flat_map]. rewrite <- !app_assoc. reflexivity.
Qed.
Lemma last_step lk es e lk' : Step E w brk (at_ us) lk es e lk' <->
  z <> [] /\ lk' = lk /\ e = n /\ es = [(Z.of_nat (at_ us), SylLiteral (Z.of_nat e) z)].
Proof.
  destruct Zp as [Z|Z].
  - split; [|intros (N & _); congruence]. intros H. exfalso. apply (end_step lk es e lk'). replace n with (at_ us); [exact H|]. rewrite Z, app_nil_r. reflexivity.
  - pose proof (u_step (stopped us) z [] Z (or_introl eq_refl) lk es e lk') as H. rewrite app_nil_r, Nat.add_0_r in H.
    rewrite H, app_length. destruct Z as [N _]. tauto.
Qed.
Lemma comes_at a lk : Comes E w brk a lk -> lk = false /\ (a = n \/ exists us1 us2, us = us1 ++ us2 /\ a = at_ us1).
Proof.
  induction 1 as [|a lk es e lk' _ (-> & IH) S].
  - split; [reflexivity|]. right. exists [], us. auto.
  - destruct IH as [->|(us1 & us2 & Eu & ->)]; [destruct (end_step _ _ _ _ S)|]. destruct us2 as [|u us2].
    + rewrite app_nil_r in Eu. subst us1. apply last_step in S. destruct S as (_ & -> & -> & _). auto.
    + apply (piece_step us1 u us2) in S; [|exact Eu]. destruct S as (-> & -> & _). split; [reflexivity|]. right.
      exists (us1 ++ [u]), us2. split; [rewrite <- app_assoc; exact Eu|reflexivity].
Qed.
Lemma way_at a v : OnWay E w brk (Z.of_nat a) v -> exists lk es e lk', Step E w brk a lk es e lk' /\ In (Z.of_nat a, v) es.
Proof.
  intros (b & lk & es & e & lk' & Co & S & _ & I). destruct (comes_at _ _ Co) as (-> & [->|(us1 & us2 & Eu & ->)]); [destruct (end_step _ _ _ _ S)|].
  assert (H : exists x, es = [(Z.of_nat (at_ us1), x)]).
  { destruct us2 as [|u us2].
    - rewrite app_nil_r in Eu. subst us1. apply last_step in S. destruct S as (_ & _ & _ & ->). eauto.
    - apply (piece_step us1 u us2) in S; [|exact Eu]. destruct S as (_ & _ & ->). eauto. }
  destruct H as (x & H). assert (a = at_ us1) by (subst es; destruct I as [I|[]]; injection I as I _; lia). subst a. eauto 10.
Qed.
Lemma path_end s : Path E w brk (Z.of_nat n) s (Z.of_nat n) -> s = [].
Proof.
  destruct s as [|v s]; [reflexivity|]. intros (O & _). apply way_at in O. destruct O as (lk & es & e & lk' & S & _). destruct (end_step _ _ _ _ S).
Qed.
Lemma path_only us2 : forall us1 s, us = us1 ++ us2 -> Path E w brk (Z.of_nat (at_ us1)) s (Z.of_nat n) -> s = copies (at_ us1) us2 z.
Proof.
  induction us2 as [|u us2 IH]; intros us1 s Eu P.
  - rewrite app_nil_r in Eu. subst us1. cbn [copies]. destruct s as [|v s].
    + cbn [Path] in P. rewrite app_length in P. destruct z; [reflexivity|cbn in P; lia].
    + destruct P as (O & P). apply way_at in O. destruct O as (lk & es & e & lk' & S & I). apply last_step in S. destruct S as (N & _ & -> & ->).
      destruct I as [I|[]]. injection I as <-. apply path_end in P. subst s. rewrite <- app_length. destruct z; [congruence|reflexivity].
  - destruct s as [|v s].
    + exfalso. cbn [Path] in P. rewrite Eu, stopped_app, !app_length in P. cbn in P. rewrite !app_length in P. cbn in P. lia.
    + destruct P as (O & P). apply way_at in O. destruct O as (lk & es & e & lk' & S & I). apply (piece_step us1 u us2) in S; [|exact Eu].
      destruct S as (_ & -> & ->). destruct I as [I|[]]. injection I as <-. cbn [endPos SylLiteral] in P.
      apply IH in P; [|rewrite <- app_assoc; exact Eu]. subst s. cbn [copies]. rewrite at_next. reflexivity.
Qed.
Lemma ends_at us2 : forall us1, us = us1 ++ us2 -> Ends E w brk (at_ us1) false.
Proof.
  induction us2 as [|u us2 IH]; intros us1 Eu.
  - rewrite app_nil_r in Eu. subst us1. destruct (list_eq_dec N.eq_dec z []) as [Z|Z].
    + replace (at_ us) with n by (rewrite app_length, Z, Nat.add_0_r; reflexivity). constructor.
    + eapply En_step; [apply (proj2 (last_step _ _ _ _)); repeat split; exact Z|constructor].
  - eapply En_step; [apply (proj2 (piece_step us1 u us2 _ _ _ _ Eu)); repeat split|]. apply IH. rewrite <- app_assoc. exact Eu.
Qed.
Lemma comes_to us1 : forall us2, us = us1 ++ us2 -> Comes E w brk (at_ us1) false.
Proof.
  induction us1 as [|u us1 IH] using rev_ind; intros us2 Eu; [constructor|].
  rewrite <- app_assoc in Eu. eapply Co_step; [exact (IH _ Eu)|]. apply (proj2 (piece_step us1 u us2 _ _ _ _ Eu)). repeat split.
Qed.
Lemma path_made us2 : forall us1, us = us1 ++ us2 -> Path E w brk (Z.of_nat (at_ us1)) (copies (at_ us1) us2 z) (Z.of_nat n).
Proof.
  induction us2 as [|u us2 IH]; intros us1 Eu.
  - pose proof (comes_to _ _ Eu) as Co. rewrite app_nil_r in Eu. subst us1. cbn [copies]. destruct (list_eq_dec N.eq_dec z []) as [Z|Z].
    + rewrite Z. cbn [Path]. rewrite app_nil_r. reflexivity.
    + assert (X : Path E w brk (Z.of_nat (at_ us)) [SylLiteral (Z.of_nat n) z] (Z.of_nat n)).
      { split; [|reflexivity]. exists (at_ us), false. eexists. exists n, false. split; [exact Co|].
        split; [apply (proj2 (last_step _ _ _ _)); repeat split; exact Z|]. split; [constructor|left; reflexivity]. }
      rewrite <- app_length. destruct z; [congruence|exact X].
  - cbn [copies Path]. rewrite <- at_next. split.
    + exists (at_ us1), false. eexists. exists (at_ (us1 ++ [u])), false. split; [exact (comes_to _ _ Eu)|].
      split; [apply (proj2 (piece_step us1 u us2 _ _ _ _ Eu)); repeat split|].
      split; [apply (ends_at us2); rewrite <- app_assoc; exact Eu|left; reflexivity].
    + cbn [endPos SylLiteral]. apply IH. rewrite <- app_assoc. exact Eu.
Qed.
Lemma not_stuck_here : ~ stuck E w brk.
Proof.
  intros (a & lk & c & Co & L & Ec & V & _). destruct (comes_at _ _ Co) as (_ & [->|(us1 & us2 & Eu & ->)]); [lia|].
  assert (F : thaiChar c = false).
  { destruct us2 as [|u us2].
    - rewrite app_nil_r in Eu. subst us1. rewrite nth_error_app2, Nat.sub_diag in Ec by lia. destruct Zp as [Z|Z]; [rewrite Z in Ec; discriminate Ec|].
      destruct Z as [_ Z]. destruct z as [|x z']; [discriminate Ec|]. injection Ec as ->. apply (Z c). left. reflexivity.
    - assert (U : piece u) by (rewrite Forall_forall in Us; apply Us; rewrite Eu; apply in_or_app; right; left; reflexivity).
      destruct U as [Nu U]. rewrite Eu, stopped_app, <- app_assoc, nth_error_app2, Nat.sub_diag in Ec by lia. destruct u as [|x u]; [congruence|].
      injection Ec as ->. apply (U c). left. reflexivity. }
  unfold eagerVowel, oneOf in V. cbv in V. repeat (destruct V as [<-|V]; [discriminate F|]). exact V.
Qed.
End Whole.
End Text.

(** ** C116 *)
Lemma C116_lemma us z dict brk : Forall piece us -> z = [] \/ piece z -> us <> [] ->
  dictOKo dict -> StronglySorted lt brk -> Forall (fun x => x <= length (stopped us ++ z)) brk ->
  exists l, pronounced libthai_ct (stopped us ++ z) dict brk l /\ forall s, In s l <-> s = copies 0 us z.
Proof.
  intros Us Z Nu D S B. destruct (C71_lemma2 (stopped us ++ z) dict brk D S B) as [(X & _)|(_ & l & P)]; [destruct (not_stuck_here (entry dict) brk us z Us Z X)|].
  exists l. split; [exact P|]. intros s. rewrite (C71_lemma _ _ _ _ D S B P s). split.
  - intros (_ & H). apply (path_only (entry dict) brk us z Us Z us [] s eq_refl H).
  - intros ->. split; [destruct us; [congruence|discriminate]|]. apply (path_made (entry dict) brk us z Us Z us [] eq_refl).
Qed.
(** Pieces of foreign text with full stops between them: the pieces are copied,
    the full stops are not. *)
Theorem C116_points_lost us z dict brk : Forall piece us -> z = [] \/ piece z -> us <> [] ->
  dictOKo dict -> StronglySorted lt brk -> Forall (fun x => x <= length (stopped us ++ z)) brk ->
  exists l, pronounced libthai_ct (stopped us ++ z) dict brk l /\ forall s, In s l <-> s = copies 0 us z.
Proof. exact (C116_lemma us z dict brk). Qed.
Print Assumptions C116_points_lost.

Lemma C116_lemma2 : ~ (forall w l s, w <> [] -> (forall x, In x w -> Grammar.thaiLetter x = false) ->
  pronounced libthai_ct w None [] l -> In s l -> flat_map literal s = w).
Proof.
  intros H. assert (X : flat_map literal [SylLiteral 2 (letters "3"); SylLiteral 3 (letters "5")] = letters "3.5").
  { eapply H; [discriminate| |apply (listing_pronounced None [] "3.5"); vm_compute; reflexivity|left; reflexivity].
    intros x I. repeat (destruct I as [<-|I]; [reflexivity|]). destruct I. }
  discriminate X.
Qed.
(** One would expect that a text without Thai letters is copied whole. *)
Theorem C116_copied_refuted : ~ (forall w l s, w <> [] -> (forall x, In x w -> Grammar.thaiLetter x = false) ->
  pronounced libthai_ct w None [] l -> In s l -> flat_map literal s = w).
Proof. exact C116_lemma2. Qed.
Print Assumptions C116_copied_refuted.
(** An amount, an address and a name with a full stop at the end. *)
Example C116_case :
  map (fun t => rOut (run noFiles "" ["-t"; t])) ["3.5"; "192.168.0.1"; "etc."] =
  ["3.5:" ++ nl ++ "(3)-(5)" ++ nl ++ nl; "192.168.0.1:" ++ nl ++ "(192)-(168)-(0)-(1)" ++ nl ++ nl;
   "etc.:" ++ nl ++ "(etc)" ++ nl ++ nl]%string /\
  letters "192.168.0.1" = stopped [letters "192"; letters "168"; letters "0"] ++ letters "1" /\
  Forall piece [letters "192"; letters "168"; letters "0"; letters "1"] /\
  copies 0 [letters "192"; letters "168"; letters "0"] (letters "1") =
    [SylLiteral 4 (letters "192"); SylLiteral 8 (letters "168"); SylLiteral 10 (letters "0"); SylLiteral 11 (letters "1")].
Proof.
  split; [vm_compute; reflexivity|]. split; [reflexivity|]. split; [|reflexivity].
  repeat constructor; try discriminate;
    match goal with I : In ?x _ |- _ => repeat (destruct I as [<-|I]; [reflexivity || discriminate|]); destruct I end.
Qed.

(** Prop_CodeOrder.v - property C84: the order of syllables, and the order of
    the alternatives in the grouped output. *)
From Coq Require Import List NArith ZArith Bool Lia Sorted.
From Verif Require Import Spec Base ThUni ThCons Syl Lattice Dag PronDag OrderProofs DagProofs PathProofs LatticeProofs GroupProofs ListDagProofs.
Import ListNotations.
Local Open Scope Z_scope.

(** ** Vocabulary *)
(** One comes before the other in a list. *)
Definition Earlier {A} (l : list A) (x y : A) : Prop := exists l1 l2 l3, l = l1 ++ x :: l2 ++ y :: l3.
(** The sounds in the order of the Thai alphabet (s counts as so sala), the
    finals with the stops first, the tones in the order of their marks. *)
Definition initialOrder : list EInitConsSound :=
  [ICS_INVALID; KA; KHA; NGA; JA; CHA; YA; DA; TA; THA; NA; BA; PA; PHA; FA; MA; RA; LA; WA; SA; HA; ICS_A].
Definition finalOrder : list EEndConsClass := [EC_NONE; KOK; KOT; KOP; KONG; KON; KOM; KOEY; KOEW].
Definition toneOrder : list ETone := [T_INVALID; SAMAN; EK; THO; TRI; CHATTAWA].
(** Texts by their first different unit, a beginning before the whole. *)
Inductive UnitLess : list N -> list N -> Prop :=
| ul_end y b : UnitLess [] (y :: b)
| ul_unit x y a b : (x < y)%N -> UnitLess (x :: a) (y :: b)
| ul_next x a b : UnitLess a b -> UnitLess (x :: a) (x :: b).
(** Texts come before syllables; then initial, second consonant and vowel (by
    the codes of their raw letters), final, tone, and last the position. *)
Inductive Precedes (a b : Syl) : Prop :=
| pr_kind : literal a <> [] -> literal b = [] -> Precedes a b
| pr_text : literal a <> [] -> literal b <> [] -> UnitLess (literal a) (literal b) -> Precedes a b
| pr_text_end : literal a <> [] -> literal a = literal b -> endPos a < endPos b -> Precedes a b
| pr_initial : literal a = [] -> literal b = [] -> Earlier initialOrder (iCons1 a) (iCons1 b) -> Precedes a b
| pr_second : literal a = [] -> literal b = [] -> iCons1 a = iCons1 b -> iCons2 a < iCons2 b -> Precedes a b
| pr_vowel : literal a = [] -> literal b = [] -> iCons1 a = iCons1 b -> iCons2 a = iCons2 b -> vowel a < vowel b -> Precedes a b
| pr_final : literal a = [] -> literal b = [] -> iCons1 a = iCons1 b -> iCons2 a = iCons2 b -> vowel a = vowel b ->
    Earlier finalOrder (eCons a) (eCons b) -> Precedes a b
| pr_tone : literal a = [] -> literal b = [] -> iCons1 a = iCons1 b -> iCons2 a = iCons2 b -> vowel a = vowel b ->
    eCons a = eCons b -> Earlier toneOrder (tone a) (tone b) -> Precedes a b
| pr_end : literal a = [] -> literal b = [] -> iCons1 a = iCons1 b -> iCons2 a = iCons2 b -> vowel a = vowel b ->
    eCons a = eCons b -> tone a = tone b -> endPos a < endPos b -> Precedes a b.
(** Strings by their first syllables that are not in the same place. *)
Inductive StringPrecedes : SylString -> SylString -> Prop :=
| sp_end y b : StringPrecedes [] (y :: b)
| sp_first x y a b : Precedes x y -> StringPrecedes (x :: a) (y :: b)
| sp_next x y a b : ~ Precedes x y -> ~ Precedes y x -> StringPrecedes a b -> StringPrecedes (x :: a) (y :: b).

(** ** Lemmas *)
Fixpoint earlierb {A} (eqb : A -> A -> bool) (l : list A) (x y : A) : bool :=
  match l with
  | [] => false
  | z :: l => eqb z x && existsb (fun u => eqb u y) l || earlierb eqb l x y
  end.
Lemma earlierb_ok {A} (eqb : A -> A -> bool) l x y : (forall a b, eqb a b = true <-> a = b) ->
  earlierb eqb l x y = true <-> Earlier l x y.
Proof.
  intros Q. induction l as [|z l IH]; cbn [earlierb].
  - split; [discriminate|]. intros (l1 & l2 & l3 & E). destruct l1; discriminate E.
  - rewrite orb_true_iff, andb_true_iff, Q, existsb_exists, IH. split.
    + intros [(-> & u & I & Qu)|(l1 & l2 & l3 & ->)].
      * apply Q in Qu. subst u. apply in_split in I as (l2 & l3 & ->). exists [], l2, l3. reflexivity.
      * exists (z :: l1), l2, l3. reflexivity.
    + intros ([|w l1] & l2 & l3 & E); injection E as -> ->.
      * left. split; [reflexivity|]. exists y. split; [apply in_or_app; right; left; reflexivity|]. apply Q. reflexivity.
      * right. exists l1, l2, l3. reflexivity.
Qed.
Lemma initial_ok a b : N.ltb (ics_code a) (ics_code b) = true <-> Earlier initialOrder a b.
Proof. rewrite <- (earlierb_ok ics_eqb) by apply ics_eqb_eq. destruct a, b; vm_compute; tauto. Qed.
Lemma final_ok a b : N.ltb (ec_code a) (ec_code b) = true <-> Earlier finalOrder a b.
Proof. rewrite <- (earlierb_ok ec_eqb) by apply ec_eqb_eq. destruct a, b; vm_compute; tauto. Qed.
Lemma tone_ok a b : N.ltb (tone_code a) (tone_code b) = true <-> Earlier toneOrder a b.
Proof. rewrite <- (earlierb_ok tone_eqb) by apply tone_eqb_eq. destruct a, b; vm_compute; tauto. Qed.
Lemma unit_ok a : forall b, u16ltb a b = true <-> UnitLess a b.
Proof.
  induction a as [|x a IH]; intros [|y b]; cbn [u16ltb].
  - split; [discriminate|intros H; inversion H].
  - split; [constructor|reflexivity].
  - split; [discriminate|intros H; inversion H].
  - destruct (N.ltb_spec x y) as [L|L]; [split; [constructor; assumption|reflexivity]|].
    destruct (N.ltb_spec y x) as [G|G]; [split; [discriminate|intros H; inversion H; subst; lia]|].
    assert (x = y) by lia. subst y. rewrite IH. split; [apply ul_next|]. intros H. inversion H; subst; [lia|assumption].
Qed.
Lemma unit_total a : forall b, u16ltb a b = false -> u16ltb b a = false -> a = b.
Proof.
  induction a as [|x a IH]; intros [|y b]; cbn [u16ltb]; try reflexivity; try discriminate.
  destruct (N.ltb_spec x y); [discriminate|]. destruct (N.ltb_spec y x); [discriminate|]. intros H1 H2.
  rewrite (IH b H1 H2). f_equal. lia.
Qed.
Lemma unit_irrefl a : ~ UnitLess a a.
Proof. induction a as [|x a IH]; intros H; inversion H; subst; [lia|contradiction]. Qed.
Lemma C84_lemma a b : syl_ltb a b = true <-> Precedes a b.
Proof.
  unfold syl_ltb, isLiteral. destruct (literal a) as [|x la] eqn:La; destruct (literal b) as [|y lb] eqn:Lb.
  - destruct (N.ltb (ics_code (iCons1 a)) (ics_code (iCons1 b))) eqn:I1.
    { split; [intros _|reflexivity]. apply pr_initial; [exact La|exact Lb|apply initial_ok; exact I1]. }
    destruct (N.ltb (ics_code (iCons1 b)) (ics_code (iCons1 a))) eqn:I2.
    { split; [discriminate|]. intros P. destruct P; try congruence; rewrite <- ?initial_ok in *; try congruence;
        match goal with H : iCons1 a = iCons1 b |- _ => rewrite H, N.ltb_irrefl in I2; discriminate I2 end. }
    assert (EI : iCons1 a = iCons1 b) by (apply ics_code_inj; apply N.ltb_ge in I1, I2; lia).
    destruct (Z.ltb_spec (iCons2 a) (iCons2 b)) as [S1|S1].
    { split; [intros _|reflexivity]. apply pr_second; assumption. }
    destruct (Z.ltb_spec (iCons2 b) (iCons2 a)) as [S2|S2].
    { split; [discriminate|]. intros P. destruct P; try congruence; rewrite <- ?initial_ok in *; try congruence; lia. }
    assert (ES : iCons2 a = iCons2 b) by lia.
    destruct (Z.ltb_spec (vowel a) (vowel b)) as [V1|V1].
    { split; [intros _|reflexivity]. apply pr_vowel; assumption. }
    destruct (Z.ltb_spec (vowel b) (vowel a)) as [V2|V2].
    { split; [discriminate|]. intros P. destruct P; try congruence; rewrite <- ?initial_ok in *; try congruence; lia. }
    assert (EV : vowel a = vowel b) by lia.
    destruct (N.ltb (ec_code (eCons a)) (ec_code (eCons b))) eqn:F1.
    { split; [intros _|reflexivity]. apply pr_final; try assumption. apply final_ok; exact F1. }
    destruct (N.ltb (ec_code (eCons b)) (ec_code (eCons a))) eqn:F2.
    { split; [discriminate|]. intros P. destruct P; try congruence; rewrite <- ?initial_ok, <- ?final_ok in *; try congruence; try lia;
        match goal with H : eCons a = eCons b |- _ => rewrite H, N.ltb_irrefl in F2; discriminate F2 end. }
    assert (EF : eCons a = eCons b) by (apply ec_code_inj; apply N.ltb_ge in F1, F2; lia).
    destruct (N.ltb (tone_code (tone a)) (tone_code (tone b))) eqn:T1.
    { split; [intros _|reflexivity]. apply pr_tone; try assumption. apply tone_ok; exact T1. }
    destruct (N.ltb (tone_code (tone b)) (tone_code (tone a))) eqn:T2.
    { split; [discriminate|]. intros P. destruct P; try congruence; rewrite <- ?initial_ok, <- ?final_ok, <- ?tone_ok in *; try congruence; try lia;
        match goal with H : tone a = tone b |- _ => rewrite H, N.ltb_irrefl in T2; discriminate T2 end. }
    assert (ET : tone a = tone b) by (apply tone_code_inj; apply N.ltb_ge in T1, T2; lia).
    destruct (Z.ltb_spec (endPos a) (endPos b)) as [P1|P1].
    { split; [intros _|reflexivity]. apply pr_end; assumption. }
    split; [discriminate|]. intros P. destruct P; try congruence; rewrite <- ?initial_ok, <- ?final_ok, <- ?tone_ok in *; try congruence; lia.
  - split; [discriminate|]. intros P. destruct P; congruence.
  - split; [intros _|reflexivity]. apply pr_kind; congruence.
  - destruct (u16ltb (x :: la) (y :: lb)) eqn:U1.
    { split; [intros _|reflexivity]. apply pr_text; try congruence. rewrite La, Lb. apply unit_ok. exact U1. }
    destruct (u16ltb (y :: lb) (x :: la)) eqn:U2.
    { split; [discriminate|]. intros P. destruct P as [| ? ? U | ? E| | | | | |]; try congruence.
      rewrite La, Lb, <- unit_ok in U. congruence. }
    assert (E : literal a = literal b) by (rewrite La, Lb; apply unit_total; assumption).
    destruct (Z.ltb_spec (endPos a) (endPos b)) as [P1|P1].
    { split; [intros _|reflexivity]. apply pr_text_end; congruence. }
    split; [discriminate|]. intros P. destruct P as [| ? ? U | ? E'| | | | | |]; try congruence; try lia.
    rewrite E in U. destruct (unit_irrefl _ U).
Qed.
Lemma prec_false a b : syl_ltb a b = false <-> ~ Precedes a b.
Proof. rewrite <- C84_lemma. destruct (syl_ltb a b); split; congruence. Qed.
Lemma C84_lemma2 a : forall b, str_ltb a b = true <-> StringPrecedes a b.
Proof.
  induction a as [|x a IH]; intros [|y b]; cbn [str_ltb].
  - split; [discriminate|intros H; inversion H].
  - split; [constructor|reflexivity].
  - split; [discriminate|intros H; inversion H].
  - destruct (syl_ltb x y) eqn:E1; [split; [intros _; apply sp_first, C84_lemma, E1|reflexivity]|].
    rewrite syl_gtb_ltb. apply prec_false in E1. destruct (syl_ltb y x) eqn:E2.
    + apply C84_lemma in E2. split; [discriminate|]. intros H. inversion H; subst; contradiction.
    + apply prec_false in E2. rewrite IH. split; [apply sp_next; assumption|]. intros H. inversion H; subst; [contradiction|assumption].
Qed.
(** The order of syllables and of strings of syllables. *)
Theorem C84_syllables a b : syl_ltb a b = true <-> Precedes a b.
Proof. exact (C84_lemma a b). Qed.
Print Assumptions C84_syllables.
Theorem C84_strings a b : str_ltb a b = true <-> StringPrecedes a b.
Proof. exact (C84_lemma2 a b). Qed.
Print Assumptions C84_strings.

(** ** Groups *)
Lemma merge_sorted (Q : PronunFrac -> Prop) l : (forall g s, alts g = [s] -> Q g) -> Forall Q l ->
  forall cur, match cur with Some f => exists s, alts f = [s] | None => True end -> Forall Q (mergeFrom cur l).
Proof.
  intros One F. induction F as [|g l Qg F IH]; intros cur C; cbn [mergeFrom].
  - destruct cur as [f|]; [|constructor]. destruct C as (s & E). constructor; [exact (One f s E)|constructor].
  - destruct cur as [f|].
    + destruct C as (s & E). pose proof (One f s E) as Qf.
      destruct (alts g) as [|x [|x' r]] eqn:Eg.
      * constructor; [exact Qf|]. constructor; [exact Qg|]. exact (IH None I).
      * apply IH. unfold altsAppendFirst. rewrite E. exists (s ++ x)%list. reflexivity.
      * constructor; [exact Qf|]. constructor; [exact Qg|]. exact (IH None I).
    + destruct (alts g) as [|x [|x' r]] eqn:Eg.
      * constructor; [exact Qg|exact (IH None I)].
      * apply IH. exists x. exact Eg.
      * constructor; [exact Qg|exact (IH None I)].
Qed.
Lemma strong_weaken {A} (R Q : A -> A -> Prop) l : (forall x y, R x y -> Q x y) -> StronglySorted R l -> StronglySorted Q l.
Proof. intros H. induction 1 as [|x l S IH F]; constructor; [exact IH|]. eapply Forall_impl; [|exact F]. auto. Qed.
Lemma C84_lemma3 d fd l : Acyclic d -> fracDAG d = Ok fd -> fracLattice fd = Ok l ->
  Forall (Forall (fun g => StronglySorted StringPrecedes (alts g))) l.
Proof.
  intros A E1 E2. destruct (fracDAG_ok d A) as (fd' & E1' & P & _). rewrite E1 in E1'. injection E1' as <-.
  destruct (fracLattice_ok fd (p_acy _ P)) as (l' & E2' & _ & _ & _ & H). rewrite E2 in E2'. injection E2' as <-.
  rewrite Forall_forall. intros c Ic. destruct (H c Ic) as (p & _ & (m & Pa & _) & ->).
  unfold chainMergeSingles. apply merge_sorted; [|clear - P Pa|exact I].
  - intros g s ->. repeat constructor.
  - induction Pa as [|n e p m Ie Pa IH]; [constructor|]. cbn [map]. constructor; [|exact IH].
    apply (strong_weaken strLt); [intros x y; apply C84_lemma2|]. apply (p_sorted _ P n (target e)). apply out_InE. exact Ie.
Qed.
(** The alternatives of every group of the lattice are in this order. *)
Theorem C84_groups d fd l : Acyclic d -> fracDAG d = Ok fd -> fracLattice fd = Ok l ->
  Forall (Forall (fun g => StronglySorted StringPrecedes (alts g))) l.
Proof. exact (C84_lemma3 d fd l). Qed.
Print Assumptions C84_groups.

(** ** Example *)
Definition plainSyl (i : EInitConsSound) (v : EVowel) (t : ETone) (pos : Z) : Syl := SylOf i SEC_NONE v EC_NONE t pos.
(** Readings entered the other way round come out in order. *)
Definition mixed : PronunDAG := pronDAGOfList
  [[plainSyl SA V_AA SAMAN 2]; [plainSyl RA V_AA EK 2]; [plainSyl RA V_AA SAMAN 2]; [SylLiteral 2 [65%N]]; [plainSyl KA V_AA SAMAN 2]].
Example C84_case : Precedes (plainSyl RA V_AA EK 2) (plainSyl SA V_AA SAMAN 2) /\ Precedes (SylLiteral 9 [66%N]) (plainSyl KA V_AA SAMAN 2) /\
  Precedes (SylLiteral 9 [65%N]) (SylLiteral 2 [65; 65]%N) /\ StringPrecedes [plainSyl KA V_AA SAMAN 2] [plainSyl KA V_AA SAMAN 2; plainSyl KA V_AA SAMAN 4] /\
  Acyclic mixed /\ exists fd l, fracDAG mixed = Ok fd /\ fracLattice fd = Ok l /\ map (map alts) l =
    [[[[SylLiteral 2 [65%N]]; [plainSyl KA V_AA SAMAN 2]; [plainSyl RA V_AA SAMAN 2]; [plainSyl RA V_AA EK 2]; [plainSyl SA V_AA SAMAN 2]]]].
Proof.
  split; [apply C84_syllables; reflexivity|]. split; [apply C84_syllables; reflexivity|]. split; [apply C84_syllables; reflexivity|].
  split; [apply C84_strings; reflexivity|]. split.
  - apply rank_acyclic with (rk := fun x => x). intros x y v I. vm_compute in I. repeat destruct I as [I|I]; [injection I as <- <- <-; reflexivity..|destruct I].
  - eexists _, _. split; [vm_compute; reflexivity|]. split; vm_compute; reflexivity.
Qed.

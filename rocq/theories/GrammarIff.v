(** GrammarIff.v - the functions of GrammarRun.v compute exactly the rules of
    the grammar. *)
From Coq Require Import String List NArith ZArith Bool Arith Lia.
From Verif Require Import Spec Base ThUni ThCons Syl OrderProofs Lattice LatticeProofs
  Dag DagProofs PronDag PathProofs GroupProofs ListDagProofs Dict Utf Parser Wp ParserActs Prop_Syl Grammar GrammarRun.
Import ListNotations.
Local Open Scope nat_scope.
Local Notation "a =n b" := (N.eqb a b) (at level 70).

(** ** Letters *)
Lemma memN_In c l : memN c l = true <-> In c l.
Proof.
  unfold memN. rewrite existsb_exists. split.
  - intros (x & Hx & E). apply N.eqb_eq in E. subst x. exact Hx.
  - intros H. exists c. split; [exact H|]. apply N.eqb_refl.
Qed.
Lemma memN_notIn c l : memN c l = false <-> ~ In c l.
Proof. rewrite <- memN_In. destruct (memN c l); split; congruence. Qed.
(** A list of letters as a list of codes. *)
Ltac spell s := let l := eval vm_compute in (letters s) in change (letters s) with l in *.
Lemma ec_none e : ec_eqb EC_NONE e = true <-> e = EC_NONE.
Proof. destruct e; cbn; split; congruence. Qed.
Lemma ec_none_f e : ec_eqb EC_NONE e = false <-> e <> EC_NONE.
Proof. destruct e; cbn; split; congruence. Qed.
Lemma canEndb_spec no c : canEndb no c = true <-> canEnd c /\ ~ In c no.
Proof.
  unfold canEndb, canEnd. rewrite !andb_true_iff, !negb_true_iff, ec_none_f, memN_notIn. tauto.
Qed.
Lemma mark_cases t m t1 : mark t = (m, t1) ->
  m = SAMAN /\ t1 = t /\ (forall c r, t = c :: r -> isMark c = false) \/
  exists c, isMark c = true /\ m = markOf c /\ t = c :: t1.
Proof.
  destruct t as [|c t]; cbn [mark].
  - intros E. injection E as <- <-. left. repeat split; auto. discriminate.
  - destruct (isMark c) eqn:Ec; intros E; injection E as <- <-.
    + right. exists c. auto.
    + left. repeat split; auto. intros c' r E. injection E as <- <-. exact Ec.
Qed.
Lemma markOf_not c : markOf c <> SAMAN.
Proof. unfold markOf. destruct (_ =n _)%N; [discriminate|]. destruct (_ =n _)%N; [discriminate|]. destruct (_ =n _)%N; discriminate. Qed.
Lemma mark_saman t t1 : mark t = (SAMAN, t1) -> t1 = t.
Proof.
  intros E. destruct (mark_cases _ _ _ E) as [(_ & H & _)|(c & _ & H & _)]; [exact H|].
  exfalso. exact (markOf_not c (eq_sym H)).
Qed.
Lemma mark_plain c t : isMark c = false -> mark (c :: t) = (SAMAN, c :: t).
Proof. intros E. cbn [mark]. rewrite E. reflexivity. Qed.
Lemma cons_notMark c : consonant c = true -> isMark c = false.
Proof.
  unfold consonant, isMark. rewrite !andb_true_iff, !N.leb_le. intros H. apply not_true_iff_false.
  rewrite andb_true_iff, !N.leb_le. lia.
Qed.
Lemma lead_notCons c : leadVowel c = true -> consonant c = false.
Proof.
  unfold consonant, leadVowel. intros H. apply not_true_iff_false. intros H'.
  rewrite !andb_true_iff, !N.leb_le in H. rewrite !andb_true_iff, !N.leb_le in H'. lia.
Qed.
Lemma isNext_spec ch t : isNext ch t = true <-> exists r, t = ch :: r.
Proof.
  destruct t as [|c t]; cbn [isNext].
  - split; [discriminate|]. intros (r & E). discriminate.
  - rewrite N.eqb_eq. split; [intros ->; eauto|]. intros (r & E). injection E as -> _. reflexivity.
Qed.
Lemma isNext_hd ch t : isNext ch t = false <-> hd_error t <> Some ch.
Proof.
  destruct t as [|c t]; cbn [isNext hd_error]; [split; [discriminate|reflexivity]|].
  rewrite N.eqb_neq. split; congruence.
Qed.

(** ** Finals *)
Lemma silentAny_eq t : length (silentAny t) = length t -> silentAny t = t.
Proof.
  unfold silentAny. destruct (Nat.ltb_spec (length (silent t)) (length t)); [lia|].
  destruct (Nat.ltb_spec (length (silentIU t)) (length t)); [lia|].
  destruct t as [|c [|x [|y t]]]; cbn [silent2]; auto. destruct (_ && _); auto. cbn [length]. lia.
Qed.
Lemma finS_iff no t e r b : In (e, r, b) (finS no t) <-> Final no t e r /\ b = false.
Proof.
  destruct t as [|c t]; cbn [finS].
  - split; [intros []|]. intros (H & _). inversion H.
  - destruct (canEndb no c) eqn:E; cbn [In].
    + apply canEndb_spec in E. split.
      * intros [H|[]]. injection H as <- <- <-. split; [|reflexivity]. constructor; tauto.
      * intros (H & ->). inversion H; subst. auto.
    + split; [intros []|]. intros (H & ->). inversion H; subst.
      assert (canEndb no c = true) by (apply canEndb_spec; auto). congruence.
Qed.
Lemma consonant_RO : consonant UTH_RO_RUA = true. Proof. reflexivity. Qed.
Lemma linkVowel_iff c : linkVowel c <-> memN c afterClusterVowels = true.
Proof.
  rewrite memN_In. unfold linkVowel, oneOf. spell "ฤะัาิีุู"%string. unfold afterClusterVowels.
  split; intros H; repeat (destruct H as [<-|H]; [cbn; tauto|]); destruct H.
Qed.
Lemma linkVowel_notCons c : linkVowel c -> consonant c = false.
Proof.
  unfold linkVowel, oneOf. spell "ฤะัาิีุู"%string.
  intros H; repeat (destruct H as [<-|H]; [reflexivity|]); destruct H.
Qed.
Lemma eRo_iff c : oneOf "กคชตท" c <-> memN c eConsWithRo = true.
Proof.
  rewrite memN_In. unfold oneOf. spell "กคชตท"%string. unfold eConsWithRo.
  split; intros H; repeat (destruct H as [<-|H]; [cbn; tauto|]); destruct H.
Qed.
Lemma eIU_iff c : oneOf "ฒตธร" c <-> memN c eConsWithIU = true.
Proof.
  rewrite memN_In. unfold oneOf. spell "ฒตธร"%string. unfold eConsWithIU.
  split; intros H; repeat (destruct H as [<-|H]; [cbn; tauto|]); destruct H.
Qed.
Lemma iu_iff c : oneOf "ิุ" c <-> (c =n UTH_SARA_I) || (c =n UTH_SARA_U) = true.
Proof.
  rewrite orb_true_iff, !N.eqb_eq. unfold oneOf. spell "ิุ"%string. cbn [In].
  split; [intros [<-|[<-|[]]]; auto|intros [->| ->]; auto].
Qed.
Lemma iu_notCons c : oneOf "ิุ" c -> consonant c = false.
Proof. unfold oneOf. spell "ิุ"%string. intros [<-|[<-|[]]]; reflexivity. Qed.
Lemma iu_link c : oneOf "ิุ" c -> linkVowel c.
Proof. unfold oneOf, linkVowel. intros H. apply linkVowel_iff. spell "ิุ"%string. destruct H as [<-|[<-|[]]]; reflexivity. Qed.
Lemma silentAny_notCons c t : consonant c = false -> silentAny (c :: t) = c :: t.
Proof.
  intros E. apply silentAny_eq. unfold silentAny.
  assert (A : silent (c :: t) = c :: t) by (destruct t; cbn [silent]; rewrite ?E; reflexivity).
  assert (B : silentIU (c :: t) = c :: t) by (destruct t as [|x [|y t]]; cbn [silentIU]; rewrite ?E; reflexivity).
  assert (C : silent2 (c :: t) = c :: t) by (destruct t as [|x [|y t]]; cbn [silent2]; rewrite ?E; reflexivity).
  rewrite A, B, C, Nat.ltb_irrefl. reflexivity.
Qed.
Lemma linkb_spec c : linkb c = true <-> linkVowel c \/ consonant c = true.
Proof. unfold linkb. rewrite orb_true_iff, linkVowel_iff. tauto. Qed.
Lemma Shared_iff c t : Shared c t <->
  match t with
  | [] => False
  | x :: r => if consonant x then match r with y :: _ => linkb y = true | [] => False end
              else linkb x = true /\ ~ (r = [] /\ oneOf "ฒตธร" c /\ oneOf "ิุ" x)
  end.
Proof.
  split.
  - intros [x r Hx Hn|x y r Hx Hy].
    + rewrite (linkVowel_notCons x Hx). split; [apply linkb_spec; auto|exact Hn].
    + rewrite Hx. apply linkb_spec. exact Hy.
  - destruct t as [|x r]; [intros []|]. destruct (consonant x) eqn:Ex.
    + destruct r as [|y r]; [intros []|]. intros H. apply Sh_cons; [exact Ex|]. apply linkb_spec. exact H.
    + intros (H & Hn). apply Sh_vowel; [|exact Hn]. apply linkb_spec in H. destruct H; congruence.
Qed.
Lemma finMore_iff c t e r b : In (e, r, b) (finMore c t) <->
  e = finalOf c /\
  (b = false /\ (t = UTH_RO_RUA :: r /\ oneOf "กคชตท" c /\ endOrSyl r \/
                 exists v, t = v :: r /\ oneOf "ฒตธร" c /\ oneOf "ิุ" v /\ endOrSyl r) \/
   b = true /\ r = c :: t /\ Shared c t).
Proof.
  rewrite Shared_iff. unfold finMore. destruct t as [|x t].
  - cbn [In]. split; [intros []|]. intros (_ & [(_ & [(E & _)|(v & E & _)])|(_ & _ & [])]); discriminate.
  - destruct (consonant x) eqn:Ex.
    + rewrite in_app_iff. split.
      * intros [H|H].
        -- destruct ((x =n UTH_RO_RUA) && memN c eConsWithRo && endOrSylb t) eqn:E; [|destruct H].
           apply andb_true_iff in E. destruct E as (E & E3). apply andb_true_iff in E. destruct E as (E1 & E2).
           apply N.eqb_eq in E1. destruct H as [H|[]]. injection H as <- <- <-. subst x.
           split; [reflexivity|]. left. split; [reflexivity|]. left. rewrite eRo_iff, <- endOrSylb_spec. auto.
        -- destruct t as [|y t]; [destruct H|]. destruct (linkb y) eqn:Ey; [|destruct H].
           destruct H as [H|[]]. injection H as <- <- <-. auto.
      * intros (-> & [(-> & [(E & H1 & H2)|(v & E & H1 & H2 & H3)])|(-> & -> & H)]).
        -- left. injection E as -> ->. rewrite eRo_iff in H1. rewrite <- endOrSylb_spec in H2.
           rewrite N.eqb_refl, H1, H2. cbn. auto.
        -- injection E as -> ->. rewrite (iu_notCons v H2) in Ex. discriminate.
        -- right. destruct t as [|y t]; [destruct H|]. rewrite H. cbn. auto.
    + assert (NR : x <> UTH_RO_RUA) by (intros ->; discriminate).
      destruct ((x =n UTH_SARA_I) || (x =n UTH_SARA_U)) eqn:Ei.
      * assert (Hi : oneOf "ิุ" x) by (apply iu_iff; exact Ei). pose proof (iu_link x Hi) as Hl.
        assert (Lb : linkb x = true) by (apply linkb_spec; auto).
        destruct (memN c eConsWithIU && endOrSylb t) eqn:E.
        -- apply andb_true_iff in E. destruct E as (E1 & E2). apply eIU_iff in E1. apply endOrSylb_spec in E2.
           cbn [In]. split.
           ++ intros [H|H].
              ** injection H as <- <- <-. split; [reflexivity|]. left. split; [reflexivity|]. right. exists x. auto.
              ** destruct t as [|y t]; [destruct H|]. destruct H as [H|[]]. injection H as <- <- <-.
                 split; [reflexivity|]. right. repeat split; auto. intros (F & _). discriminate.
           ++ intros (-> & [(-> & [(F & _)|(v & F & _)])|(-> & -> & F)]).
              ** injection F as F _. contradiction.
              ** injection F as -> ->. left. reflexivity.
              ** destruct F as (_ & F). destruct t as [|y t]; [exfalso; auto|]. right. left. reflexivity.
        -- cbn [In]. split.
           ++ intros [H|[]]. injection H as <- <- <-. split; [reflexivity|]. right. repeat split; auto.
              intros (F & F1 & _). subst t. apply eIU_iff in F1. rewrite F1 in E. discriminate.
           ++ intros (-> & [(-> & [(F & _)|(v & F & F1 & F2 & F3)])|(-> & -> & F)]).
              ** injection F as F _. contradiction.
              ** injection F as -> ->. apply eIU_iff in F1. apply endOrSylb_spec in F3. rewrite F1, F3 in E. discriminate.
              ** left. reflexivity.
      * assert (Hn : ~ oneOf "ิุ" x) by (rewrite iu_iff; congruence).
        destruct (linkb x) eqn:El; cbn [In].
        -- split.
           ++ intros [H|[]]. injection H as <- <- <-. split; [reflexivity|]. right. repeat split; auto. tauto.
           ++ intros (-> & [(-> & [(F & _)|(v & F & F1 & F2 & F3)])|(-> & -> & F)]).
              ** injection F as F _. contradiction.
              ** injection F as -> ->. contradiction.
              ** left. reflexivity.
        -- split; [intros []|].
           intros (-> & [(-> & [(F & _)|(v & F & F1 & F2 & F3)])|(-> & -> & F)]).
           ++ injection F as F _. contradiction.
           ++ injection F as -> ->. contradiction.
           ++ destruct F. discriminate.
Qed.
Lemma finL_iff no t e r b : In (e, r, b) (finL no t) <-> FinalOrShared no t e r b.
Proof.
  destruct t as [|c t]; cbn [finL].
  - split; [intros []|]. intros H. inversion H; subst. match goal with X : Final _ _ _ _ |- _ => inversion X end.
  - destruct (canEndb no c) eqn:E.
    + apply canEndb_spec in E. destruct E as (E1 & E2). cbn [In]. split.
      * intros [H|H].
        -- injection H as <- <- <-. apply FS_final. constructor; assumption.
        -- pose proof (silentAny_len t) as L. destruct (Nat.ltb_spec (length (silentAny t)) (length t)) as [A|A]; [destruct H|].
           assert (Q : silentAny t = t) by (apply silentAny_eq; lia). apply finMore_iff in H.
           destruct H as (-> & [(-> & [(-> & H1 & H2)|(v & -> & H1 & H2 & H3)])|(-> & -> & H)]).
           ++ apply FS_ro; assumption.
           ++ apply FS_iu; assumption.
           ++ apply FS_shared; assumption.
      * assert (LT : forall t, silentAny t = t -> length (silentAny t) <? length t = false).
        { intros u ->. apply Nat.ltb_irrefl. }
        intros H. inversion H as [u e' r' F|c' r' H1 H2 H3 H4 H5|c' v r' H1 H2 H3 H4 H5|c' u H1 H2 H3 H4]; subst.
        -- inversion F; subst. auto.
        -- right. rewrite LT by assumption. apply finMore_iff. split; [reflexivity|]. left. split; [reflexivity|]. left. auto.
        -- right. rewrite LT by (apply silentAny_notCons; apply iu_notCons; assumption).
           apply finMore_iff. split; [reflexivity|]. left. split; [reflexivity|]. right. exists v. auto.
        -- right. rewrite LT by assumption. apply finMore_iff. split; [reflexivity|]. right. auto.
    + split; [intros []|]. intros H.
      assert (C : canEndb no c = true); [|congruence]. apply canEndb_spec.
      inversion H; subst; auto. match goal with X : Final _ _ _ _ |- _ => inversion X; subst; auto end.
Qed.
Lemma closed_iff v0 m0 l v e m r b : In (v, e, m, r, b) (closed v0 m0 l) <-> v = v0 /\ m = m0 /\ In (e, r, b) l.
Proof.
  unfold closed. rewrite in_map_iff. split.
  - intros (((e' & r') & b') & E & H). injection E as <- <- <- <- <-. auto.
  - intros (-> & -> & H). exists (e, r, b). auto.
Qed.
(** Letters that are not read as finals: only the first letter matters. *)
Lemma Final_no no no' c t e r : (In c no <-> In c no') -> Final no (c :: t) e r <-> Final no' (c :: t) e r.
Proof. intros H. split; intros F; inversion F; subst; constructor; tauto. Qed.
Lemma FS_no no no' c t e r b : (In c no <-> In c no') -> FinalOrShared no (c :: t) e r b <-> FinalOrShared no' (c :: t) e r b.
Proof.
  intros H. rewrite <- !finL_iff. cbn [finL].
  assert (E : canEndb no c = canEndb no' c).
  { unfold canEndb. f_equal. f_equal. apply eq_true_iff_eq. rewrite !memN_In. exact H. }
  rewrite E. tauto.
Qed.
Lemma Final_hd no t e r : Final no t e r -> exists c t', t = c :: t' /\ canEnd c /\ ~ In c no.
Proof. intros H. inversion H; subst. eauto. Qed.
Lemma FS_hd no t e r b : FinalOrShared no t e r b -> exists c t', t = c :: t' /\ canEnd c /\ ~ In c no.
Proof. intros H. inversion H; subst; eauto. eapply Final_hd. eassumption. Qed.

(** ** Rimes *)
Definition plainHead (c : N) : bool := negb (UTH_MAI_HAN_AKAT =n c) && negb (isUpDown c) && negb (UTH_MAITAIKHU =n c).
Lemma plainHead_cons c : consonant c = true -> plainHead c = true.
Proof.
  unfold consonant, plainHead, isUpDown. cbn [libthai_ct th_wcisupvowel th_wcisblvowel].
  rewrite !andb_true_iff, !negb_true_iff, !N.leb_le. intros H.
  rewrite !orb_false_iff, !N.eqb_neq, !andb_false_iff, !N.leb_gt.
  unfold UTH_MAI_HAN_AKAT, UTH_MAITAIKHU, UTH_SARA_I, UTH_SARA_UEE, UTH_SARA_U, UTH_SARA_UU. lia.
Qed.
Lemma plainHead_mark c : isMark c = true -> plainHead c = true.
Proof.
  unfold isMark, plainHead, isUpDown. cbn [libthai_ct th_wcisupvowel th_wcisblvowel].
  rewrite !andb_true_iff, !negb_true_iff, !N.leb_le. intros H.
  rewrite !orb_false_iff, !N.eqb_neq, !andb_false_iff, !N.leb_gt.
  unfold UTH_MAI_HAN_AKAT, UTH_MAITAIKHU, UTH_SARA_I, UTH_SARA_UEE, UTH_SARA_U, UTH_SARA_UU. lia.
Qed.
Lemma rimesF_plain lk o v t m x r : mark t = (m, x :: r) -> plainHead x = true ->
  rimesF lk o v t = fOther lk o v t.
Proof.
  intros E Hx.
  assert (exists c t', t = c :: t' /\ plainHead c = true) as (c & t' & -> & H).
  { destruct (mark_cases _ _ _ E) as [(_ & <- & _)|(c & Hc & _ & ->)]; eauto using plainHead_mark. }
  unfold plainHead in H. rewrite !andb_true_iff, !negb_true_iff in H. destruct H as ((A & B) & C).
  cbn [rimesF]. rewrite A, B, C. reflexivity.
Qed.
Lemma tone_saman m : tone_eqb SAMAN m = true <-> m = SAMAN.
Proof. destruct m; cbn; split; congruence. Qed.
Lemma tone_saman_f m : tone_eqb SAMAN m = false <-> m <> SAMAN.
Proof. destruct m; cbn; split; congruence. Qed.
Lemma ics_ra s : ics_eqb RA s = true <-> s = RA.
Proof. destruct s; cbn; split; congruence. Qed.
Lemma ics_ra_f s : ics_eqb RA s = false <-> s <> RA.
Proof. destruct s; cbn; split; congruence. Qed.
Lemma ics_ra_sym s : ics_eqb s RA = ics_eqb RA s.
Proof. destruct s; reflexivity. Qed.
(** The vowel RU can give. *)
Definition okInitial (o : Initial) : Prop := forall v, oVowel o = Some v -> v = V_I \/ v = V_UE.

Ltac inj H := injection H; clear H; intros; subst.
Ltac pick H := repeat match type of H with
  | _ \/ _ => destruct H as [H|H]
  | In _ (_ :: _) => cbn [In] in H
  | In _ [] => destruct H
  | False => destruct H
  | In _ (_ ++ _) => apply in_app_iff in H
  | In _ (closed _ _ _) => apply closed_iff in H; let E := fresh in let E' := fresh in destruct H as (E & E' & H); subst
  | In _ (finS _ _) => apply finS_iff in H; let E := fresh in destruct H as (H & E); subst
  | In _ (finL _ _) => apply finL_iff in H
  end.
(** Letters tested in the code. *)
Ltac eqs := repeat match goal with
  | H : N.eqb _ _ = true |- _ => apply N.eqb_eq in H; subst
  | H : N.eqb _ _ = false |- _ => apply N.eqb_neq in H
  end.

Lemma fMHA_rime lk o t v e m r b : In (v, e, m, r, b) (fMHA t) -> Rime lk o (UTH_MAI_HAN_AKAT :: t) v e m r b.
Proof.
  unfold fMHA. destruct t as [|c0 t0]; [intros []|]. remember (c0 :: t0) as t eqn:Et. clear c0 t0 Et.
  destruct (mark t) as [m1 t1] eqn:Em. destruct t1 as [|c t1]; [intros []|].
  destruct (c =n UTH_WO_WAEN) eqn:Ec.
  - eqs. destruct (isNext UTH_SARA_A t1) eqn:En.
    + apply isNext_spec in En. destruct En as (r' & ->). cbn [tl]. intros H. pick H. inj H. eapply R_ua. exact Em.
    + apply isNext_hd in En. intros H. pick H. inj H. eapply R_uaa; eassumption.
  - eqs. assert (NW : In c [] <-> In c (letters "ว")).
    { spell "ว"%string. cbn [In]. split; [tauto|]. intros [<-|[]]. exact (Ec eq_refl). }
    destruct (tone_eqb SAMAN m1) eqn:Es.
    + apply tone_saman in Es. subst m1. apply mark_saman in Em. intros H. pick H.
      apply R_an. apply (FS_no [] _ c t1 e r b NW). exact H.
    + apply tone_saman_f in Es. intros H. pick H. eapply R_an_marked; eauto. apply (Final_no [] _ c t1 e r NW). exact H.
Qed.
Lemma silentIU_silent t : silentIU t <> t -> silent t = t.
Proof.
  destruct t as [|c [|x [|y t]]]; cbn [silentIU silent]; try tauto.
  destruct (consonant c); cbn [andb]; [|tauto].
  destruct (x =n UTH_THANTHAKHAT) eqn:E; [|reflexivity]. apply N.eqb_eq in E. subst x. tauto.
Qed.
Lemma upCond t : (length (silent t) =? length t) && negb (length (silentIU t) =? length t) = false <-> silentIU t = t.
Proof.
  split.
  - intros H. destruct (Nat.eqb_spec (length (silentIU t)) (length t)) as [A|A]; [apply silentIU_eq; exact A|].
    assert (B : silent t = t) by (apply silentIU_silent; intros E; apply A; rewrite E; reflexivity).
    rewrite B, Nat.eqb_refl in H. discriminate.
  - intros ->. rewrite Nat.eqb_refl. apply andb_false_r.
Qed.
Lemma fUpDown_in v0 t m0 t1 v e m r b : mark t = (m0, t1) -> Z.eqb V_UEE v0 = false ->
  In (v, e, m, r, b) (fUpDown v0 t) <->
  v = v0 /\ m = m0 /\
  (e = EC_NONE /\ r = silentOpen t1 /\ b = false \/
   silentIU t1 = t1 /\
   if Z.eqb V_UE v0 || negb (tone_eqb SAMAN m0)
   then Final (if Z.eqb V_I v0 || Z.eqb V_II v0 then [UTH_YO_YAK] else []) (silent t1) e r /\ b = false
   else FinalOrShared (if Z.eqb V_I v0 || Z.eqb V_II v0 then [UTH_YO_YAK] else []) (silent t1) e r b).
Proof.
  intros Em Ev. unfold fUpDown. rewrite Em.
  assert (O : match t1 with [] => true | c :: _ => leadVowel c || negb (Z.eqb V_UEE v0) end = true).
  { destruct t1; [reflexivity|]. rewrite Ev. apply orb_true_r. }
  rewrite O, silentOpen_cases. clear O. set (no := if Z.eqb V_I v0 || Z.eqb V_II v0 then [UTH_YO_YAK] else []).
  pose proof (upCond t1) as U.
  destruct ((length (silent t1) =? length t1) && negb (length (silentIU t1) =? length t1)).
  - split.
    + intros H. pick H. inj H. repeat split. left. auto.
    + intros (-> & -> & [(-> & -> & ->)|(A & _)]); [left; reflexivity|]. apply U in A. discriminate.
  - assert (A : silentIU t1 = t1) by (apply U; reflexivity). clear U. cbn [In].
    assert (E : In (v, e, m, r, b) (fUpEnd v0 m0 (silent t1)) <->
      v = v0 /\ m = m0 /\ if Z.eqb V_UE v0 || negb (tone_eqb SAMAN m0) then Final no (silent t1) e r /\ b = false
         else FinalOrShared no (silent t1) e r b).
    { unfold fUpEnd. destruct (silent t1) as [|c u] eqn:Es.
      - split; [intros []|]. intros (_ & _ & H). exfalso. destruct (Z.eqb V_UE v0 || negb (tone_eqb SAMAN m0)).
        + destruct H as (H & _). inversion H.
        + apply FS_hd in H. destruct H as (? & ? & H & _). discriminate.
      - destruct (leadVowel c) eqn:Ec.
        + assert (NC : ~ canEnd c).
          { intros (H & _). apply lead_notCons in Ec. congruence. }
          split; [intros []|]. intros (_ & _ & H). exfalso. destruct (Z.eqb V_UE v0 || negb (tone_eqb SAMAN m0)).
          * destruct H as (H & _). apply Final_hd in H. destruct H as (? & ? & H & H' & _). inj H. auto.
          * apply FS_hd in H. destruct H as (? & ? & H & H' & _). inj H. auto.
        + rewrite Ev. cbv zeta. fold no. rewrite closed_iff. destruct (Z.eqb V_UE v0 || negb (tone_eqb SAMAN m0)).
          * rewrite finS_iff. tauto.
          * rewrite finL_iff. tauto. }
    rewrite E. split.
    + intros [H|(-> & -> & H)]; [inj H; repeat split; left; auto|]. auto.
    + intros (-> & -> & [(-> & -> & ->)|(_ & H)]); auto.
Qed.
Lemma fUpDown_rime lk o s t v e m r b : isUpDown s = true -> (UTH_MAI_HAN_AKAT =n s) = false ->
  In (v, e, m, r, b) (fUpDown (upVowel s) t) -> Rime lk o (s :: t) v e m r b.
Proof.
  intros Hs Hm H. destruct (upVowel_ok s Hm Hs) as (_ & D). destruct (mark t) as [m1 t1] eqn:Em.
  assert (K : Z.eqb V_UEE (upVowel s) = false ->
    In (s, upVowel s) [(UTH_SARA_I, V_I); (UTH_SARA_II, V_II); (UTH_SARA_UE, V_UE); (UTH_SARA_U, V_U); (UTH_SARA_UU, V_UU)] ->
    (Z.eqb V_UE (upVowel s) = false ->
       In (s, upVowel s) [(UTH_SARA_I, V_I); (UTH_SARA_II, V_II); (UTH_SARA_U, V_U); (UTH_SARA_UU, V_UU)]) ->
    (if Z.eqb V_I (upVowel s) || Z.eqb V_II (upVowel s) then [UTH_YO_YAK] else []) =
    (if (s =n UTH_SARA_I) || (s =n UTH_SARA_II) then letters "ย" else []) ->
    Rime lk o (s :: t) v e m r b).
  { intros Ev I5 I4 En. rewrite (fUpDown_in _ _ _ _ _ _ _ _ _ Em Ev), En in H.
    destruct H as (-> & -> & [(-> & -> & ->)|(A & H)]).
    - apply (R_above_open lk o (upVowel s) s t m1 t1 I5 Em).
    - destruct (Z.eqb V_UE (upVowel s)) eqn:Eu; cbn [orb] in H.
      + destruct H as (H & ->). eapply R_above_final; eassumption.
      + destruct (tone_eqb SAMAN m1) eqn:Es; cbn [negb] in H.
        * apply tone_saman in Es. subst m1. eapply R_above_shared; try eassumption. apply I4. reflexivity.
        * destruct H as (H & ->). eapply R_above_final; eassumption. }
  destruct D as [->|[->|[->|[->|[->| ->]]]]]; try (apply K; [reflexivity|cbn; tauto|intros; cbn; try tauto; discriminate|reflexivity]).
  clear K Hs Hm. change (upVowel UTH_SARA_UEE) with V_UEE in H. unfold fUpDown in H. rewrite Em in H.
  rewrite Z.eqb_refl in H. cbn [negb] in H.
  destruct t1 as [|c t1].
  - cbn in H. pick H. inj H. eapply R_uee_bare; [exact Em|exact I].
  - rewrite orb_false_r in H. destruct (leadVowel c) eqn:Ec.
    + assert (NC : consonant c = false).
      { unfold consonant. unfold leadVowel in Ec. apply not_true_iff_false.
        rewrite !andb_true_iff, !N.leb_le in *. lia. }
      assert (S1 : silent (c :: t1) = c :: t1) by (destruct t1; cbn [silent]; rewrite ?NC; reflexivity).
      assert (S2 : silentIU (c :: t1) = c :: t1) by (destruct t1 as [|? [|? ?]]; cbn [silentIU]; rewrite ?NC; reflexivity).
      rewrite S1, S2, Nat.eqb_refl in H. cbn [andb negb fUpEnd] in H. rewrite Ec in H. pick H. inj H.
      eapply R_uee_bare; [exact Em|exact Ec].
    + cbn [fUpEnd] in H. rewrite Ec in H. change (Z.eqb V_UEE V_UEE) with true in H. cbv iota in H.
      destruct (UTH_O_ANG =n c) eqn:Eo.
      * eqs. pick H. inj H. eapply R_uee. exact Em.
      * pick H. eapply R_uee_final; eassumption.
Qed.
Lemma fMaitaikhu_rime lk o t v e m r b : In (v, e, m, r, b) (fMaitaikhu t) -> Rime lk o (UTH_MAITAIKHU :: t) v e m r b.
Proof.
  unfold fMaitaikhu. destruct t as [|c t]; [intros []|]. destruct (c =n UTH_O_ANG) eqn:E; [|intros []].
  eqs. intros H. pick H. apply R_au. exact H.
Qed.
Lemma fOther_rime lk o t v e m r b : okInitial o ->
  In (v, e, m, r, b) (fOther lk o (vowelOf o) t) -> Rime lk o t v e m r b.
Proof.
  intros Ok. unfold fOther. destruct (mark t) as [m1 t1] eqn:Em. destruct t1 as [|c t1]; [intros []|].
  destruct (c =n UTH_SARA_A) eqn:E1. { eqs. intros H. pick H. inj H. eapply R_a; eassumption. }
  destruct (c =n UTH_SARA_AA) eqn:E2.
  { eqs. intros H. pick H; [inj H; eapply R_aa; eassumption|]. eapply R_aa_final; eassumption. }
  destruct (c =n UTH_SARA_AM) eqn:E3. { eqs. intros H. pick H. inj H. eapply R_am; eassumption. }
  destruct (c =n UTH_WO_WAEN) eqn:E4. { eqs. intros H. pick H. eapply R_ua_final; eassumption. }
  destruct (c =n UTH_O_ANG) eqn:E5.
  { eqs. intros H. pick H; [inj H; eapply R_auu; eassumption|]. eapply R_auu_final; eassumption. }
  destruct (c =n UTH_RO_RUA) eqn:E6.
  { eqs. unfold fRo. cbv zeta. intros H. apply in_app_iff in H. destruct H as [H|H].
    - destruct (ics_eqb RA (oSound o)) eqn:Er; [destruct H|]. apply ics_ra_f in Er. pick H. inj H. eapply R_on; eassumption.
    - rewrite <- ics_ra_sym in H. destruct (isNext UTH_RO_RUA _) eqn:En; [|destruct H].
      apply isNext_spec in En. destruct En as (r' & En). rewrite En in H. cbn [tl] in H.
      pick H; [inj H; eapply R_ran; eassumption|].
      destruct (Nat.eqb_spec (length (silent r')) (length r')) as [El|El]; [|destruct H].
      apply silent_eq in El. pick H. eapply R_rac; eassumption. }
  unfold fDefault. destruct (consonant c) eqn:Ec; [|intros []].
  destruct (oVowel o) as [v0|] eqn:Eo.
  - assert (Ev : Z.eqb V_INVALID (vowelOf o) = false).
    { unfold vowelOf. rewrite Eo. destruct (Ok v0 Eo) as [->| ->]; reflexivity. }
    rewrite Ev. unfold vowelOf. rewrite Eo. intros H. pick H.
    + inj H. eapply R_ru; try eassumption. unfold oneOf. spell "วรอ"%string. eqs. intros [X|[X|[X|[]]]]; subst; auto.
    + eapply R_ru_final; try eassumption. apply (FS_no [UTH_WO_WAEN] _ c t1 e r b); [|exact H].
      change (letters "วรอ") with [UTH_WO_WAEN; UTH_RO_RUA; UTH_O_ANG] in *. cbn [In]. eqs. split; intros X; intuition congruence.
  - assert (Ev : Z.eqb V_INVALID (vowelOf o) = true) by (unfold vowelOf; rewrite Eo; reflexivity).
    rewrite Ev. destruct (_ && _ && _) eqn:E; [|intros []]. rewrite !andb_true_iff, !negb_true_iff in E.
    destruct E as ((A & B) & C). apply Z.eqb_neq in B. intros H. pick H.
    eapply R_o; [exact Em|exact Eo|congruence|reflexivity|]. apply (Final_no [UTH_YO_YAK; UTH_WO_WAEN] _ c t1 e r); [|exact H].
    change (letters "ยวรอ") with [UTH_YO_YAK; UTH_WO_WAEN; UTH_RO_RUA; UTH_O_ANG] in *. cbn [In]. eqs. split; intros X; intuition congruence.
Qed.
Lemma rimesF_rime lk o t v e m r b : okInitial o ->
  In (v, e, m, r, b) (rimesF lk o (vowelOf o) t) -> Rime lk o t v e m r b.
Proof.
  intros Ok. destruct t as [|c t]; cbn [rimesF]; [intros []|].
  destruct (UTH_MAI_HAN_AKAT =n c) eqn:E1; [eqs; apply fMHA_rime|].
  destruct (isUpDown c) eqn:E2; [apply fUpDown_rime; assumption|].
  destruct (UTH_MAITAIKHU =n c) eqn:E3; [eqs; apply fMaitaikhu_rime|]. apply fOther_rime. exact Ok.
Qed.

(** Converse. *)
Lemma canEnd_neq c x : canEnd c -> consonant x = false \/ finalOf x = EC_NONE -> (c =n x) = false.
Proof. intros (A & B) H. apply N.eqb_neq. intros ->. destruct H; congruence. Qed.
Lemma cons_neq c x : consonant c = true -> consonant x = false -> (c =n x) = false.
Proof. intros A B. apply N.eqb_neq. intros ->. congruence. Qed.
Lemma notIn_neq c x l : ~ In c l -> In x l -> (c =n x) = false.
Proof. intros A B. apply N.eqb_neq. intros ->. auto. Qed.
Lemma rime_in lk o t v e m r b : okInitial o ->
  Rime lk o t v e m r b -> In (v, e, m, r, b) (rimesF lk o (vowelOf o) t).
Proof.
  intros Ok H. destruct H as
    [t m r Em|t m r Em Hn|t e r b F|t m t' e r Em Hm F
    |v s t m t' Hs Em|v s t t' e r b Hs Em Hi F|v s t m t' e r Hs Em Hi F
    |t m r Em|t m t' Em Hb|t m t' e r Em F|t e r F
    |t m r Em|t m r Em|t m r e r' b Em F|t m r Em|t m r e r' Em F|t m r Em|t m r e r' Em F
    |t m r Em Hr|t m r r' Em Hr|t m r r' e r'' b Em Hr Hs F
    |t m t' e r Em Ho H2 Hl F|t m c t' v Em Ho Hc Hn|t m t' v e r b Em Ho F].
  - change (In (V_UA, EC_NONE, m, silent r, false) (fMHA t)). unfold fMHA.
    destruct t as [|c t]; [discriminate|]. rewrite Em. cbn [isNext tl]. rewrite !N.eqb_refl. left. reflexivity.
  - change (In (V_UAA, EC_NONE, m, silent r, false) (fMHA t)). unfold fMHA.
    destruct t as [|c t]; [discriminate|]. rewrite Em, N.eqb_refl. apply isNext_hd in Hn. rewrite Hn. left. reflexivity.
  - change (In (V_A, e, SAMAN, r, b) (fMHA t)). unfold fMHA.
    destruct (FS_hd _ _ _ _ _ F) as (c & t' & -> & (Hc & Hf) & Hn).
    rewrite mark_plain by (apply cons_notMark; exact Hc). rewrite (notIn_neq c UTH_WO_WAEN _ Hn ltac:(left; reflexivity)).
    cbn [tone_eqb]. apply closed_iff. repeat split; auto. apply finL_iff. apply (FS_no (letters "ว") _ c t' e r b); [|exact F].
    split; [tauto|intros []].
  - change (In (V_A, e, m, r, false) (fMHA t)). unfold fMHA.
    destruct (Final_hd _ _ _ _ F) as (c & t1 & -> & Hc & Hn).
    destruct t as [|c0 t0]; [discriminate|]. rewrite Em. rewrite (notIn_neq c UTH_WO_WAEN _ Hn ltac:(left; reflexivity)).
    apply tone_saman_f in Hm. rewrite Hm. apply closed_iff. repeat split; auto. apply finS_iff. split; [|reflexivity].
    apply (Final_no (letters "ว") _ c t1 e r); [|exact F]. split; [tauto|intros []].
  - assert (G : rimesF lk o (vowelOf o) (s :: t) = fUpDown v t /\ Z.eqb V_UEE v = false).
    { cbn [In] in Hs. repeat (destruct Hs as [Hs|Hs]; [inj Hs; split; reflexivity|]). destruct Hs. }
    destruct G as (-> & G). apply (fUpDown_in _ _ _ _ _ _ _ _ _ Em G). repeat split; auto.
  - assert (G : rimesF lk o (vowelOf o) (s :: t) = fUpDown v t /\ Z.eqb V_UEE v = false /\ Z.eqb V_UE v = false /\
      (if Z.eqb V_I v || Z.eqb V_II v then [UTH_YO_YAK] else []) =
      (if (s =n UTH_SARA_I) || (s =n UTH_SARA_II) then letters "ย" else [])).
    { cbn [In] in Hs. repeat (destruct Hs as [Hs|Hs]; [inj Hs; repeat split; reflexivity|]). destruct Hs. }
    destruct G as (-> & G & G' & En). apply (fUpDown_in _ _ _ _ _ _ _ _ _ Em G). rewrite En, G'. repeat split; auto.
  - assert (G : rimesF lk o (vowelOf o) (s :: t) = fUpDown v t /\ Z.eqb V_UEE v = false /\
      (if Z.eqb V_I v || Z.eqb V_II v then [UTH_YO_YAK] else []) =
      (if (s =n UTH_SARA_I) || (s =n UTH_SARA_II) then letters "ย" else [])).
    { cbn [In] in Hs. repeat (destruct Hs as [Hs|Hs]; [inj Hs; repeat split; reflexivity|]). destruct Hs. }
    destruct G as (-> & G & En). apply (fUpDown_in _ _ _ _ _ _ _ _ _ Em G). rewrite En. repeat split; auto.
    right. split; [exact Hi|]. destruct (_ || negb _); [auto|]. apply FS_final. exact F.
  - change (In (V_UEE, EC_NONE, m, silent r, false) (fUpDown V_UEE t)). unfold fUpDown. rewrite Em. left. reflexivity.
  - change (In (V_UEE, EC_NONE, m, t', false) (fUpDown V_UEE t)). unfold fUpDown. rewrite Em.
    destruct t' as [|c t']; [left; reflexivity|].
    pose proof (lead_notCons c Hb) as NC.
    assert (S1 : silent (c :: t') = c :: t') by (destruct t'; cbn [silent]; rewrite ?NC; reflexivity).
    assert (S2 : silentIU (c :: t') = c :: t') by (destruct t' as [|? [|? ?]]; cbn [silentIU]; rewrite ?NC; reflexivity).
    rewrite Hb, S1, S2, Nat.eqb_refl. left. reflexivity.
  - change (In (V_UEE, e, m, r, false) (fUpDown V_UEE t)). unfold fUpDown. rewrite Em.
    destruct (Final_hd _ _ _ _ F) as (c & t1 & -> & Hc & _).
    assert (NL : leadVowel c = false).
    { destruct Hc as (Hc & _). apply not_true_iff_false. intros X. apply lead_notCons in X. congruence. }
    rewrite NL. change (Z.eqb V_UEE V_UEE) with true. cbn [orb negb fUpEnd]. rewrite NL.
    change (Z.eqb V_UEE V_UEE) with true. cbv iota. rewrite N.eqb_sym, (canEnd_neq c UTH_O_ANG Hc ltac:(right; reflexivity)).
    apply closed_iff. repeat split; auto. apply finS_iff. auto.
  - change (In (V_AU, e, SAMAN, r, false) (fMaitaikhu (UTH_O_ANG :: t))). unfold fMaitaikhu. rewrite N.eqb_refl.
    apply closed_iff. repeat split; auto. apply finS_iff. auto.
  - rewrite (rimesF_plain _ _ _ _ _ _ _ Em ltac:(reflexivity)). unfold fOther. rewrite Em. left. reflexivity.
  - rewrite (rimesF_plain _ _ _ _ _ _ _ Em ltac:(reflexivity)). unfold fOther. rewrite Em. left. reflexivity.
  - rewrite (rimesF_plain _ _ _ _ _ _ _ Em ltac:(reflexivity)). unfold fOther. rewrite Em.
    change (UTH_SARA_AA =n UTH_SARA_A) with false. rewrite N.eqb_refl. right. apply closed_iff. repeat split; auto. apply finL_iff. exact F.
  - rewrite (rimesF_plain _ _ _ _ _ _ _ Em ltac:(reflexivity)). unfold fOther. rewrite Em. left. reflexivity.
  - rewrite (rimesF_plain _ _ _ _ _ _ _ Em ltac:(reflexivity)). unfold fOther. rewrite Em.
    change (In (V_UAA, e, m, r', false) (closed V_UAA m (finS [] r))). apply closed_iff. repeat split; auto. apply finS_iff. auto.
  - rewrite (rimesF_plain _ _ _ _ _ _ _ Em ltac:(reflexivity)). unfold fOther. rewrite Em. left. reflexivity.
  - rewrite (rimesF_plain _ _ _ _ _ _ _ Em ltac:(reflexivity)). unfold fOther. rewrite Em. right.
    apply closed_iff. repeat split; auto. apply finS_iff. auto.
  - rewrite (rimesF_plain _ _ _ _ _ _ _ Em ltac:(reflexivity)). unfold fOther. rewrite Em.
    change (In (V_AUU, KON, m, silent r, false) (fRo o m r)). unfold fRo. apply ics_ra_f in Hr. rewrite Hr. left. reflexivity.
  - rewrite (rimesF_plain _ _ _ _ _ _ _ Em ltac:(reflexivity)). unfold fOther. rewrite Em.
    change (In (V_A, KON, m, silent r', false) (fRo o m r)). unfold fRo. cbv zeta. rewrite <- ics_ra_sym, Hr.
    apply in_app_iff. right. cbn [isNext]. rewrite N.eqb_refl. left. reflexivity.
  - rewrite (rimesF_plain _ _ _ _ _ _ _ Em ltac:(reflexivity)). unfold fOther. rewrite Em.
    change (In (V_A, e, m, r'', b) (fRo o m r)). unfold fRo. cbv zeta. rewrite <- ics_ra_sym, Hr.
    apply in_app_iff. right. cbn [isNext tl]. rewrite N.eqb_refl, Hs, Nat.eqb_refl. right.
    apply closed_iff. repeat split; auto. apply finL_iff. exact F.
  - destruct (Final_hd _ _ _ _ F) as (c & t1 & -> & Hc & Hn). pose proof Hc as (Hcc & Hcf).
    rewrite (rimesF_plain _ _ _ _ _ _ _ Em (plainHead_cons c Hcc)). unfold fOther. rewrite Em.
    rewrite !(cons_neq c) by (assumption || reflexivity).
    rewrite (notIn_neq c UTH_WO_WAEN _ Hn), (notIn_neq c UTH_O_ANG _ Hn), (notIn_neq c UTH_RO_RUA _ Hn) by (cbn; tauto).
    unfold fDefault. rewrite Hcc. unfold vowelOf. rewrite Ho. change (Z.eqb V_INVALID V_INVALID) with true. cbv iota.
    apply ec_none_f in Hcf. rewrite Hcf, Hl.
    replace (Z.eqb SEC_WA (oSecond o)) with false by (symmetry; apply Z.eqb_neq; congruence).
    cbn [negb andb]. apply closed_iff. repeat split; auto. apply finS_iff. split; [|reflexivity].
    apply (Final_no (letters "ยวรอ") _ c t1 e r); [|exact F]. change (letters "ยวรอ") with [UTH_YO_YAK; UTH_WO_WAEN; UTH_RO_RUA; UTH_O_ANG] in *. cbn [In] in *. split; intros X; intuition congruence.
  - rewrite (rimesF_plain _ _ _ _ _ _ _ Em (plainHead_cons c Hc)). unfold fOther. rewrite Em.
    rewrite !(cons_neq c) by (assumption || reflexivity). unfold oneOf in Hn.
    rewrite (notIn_neq c UTH_WO_WAEN _ Hn), (notIn_neq c UTH_O_ANG _ Hn), (notIn_neq c UTH_RO_RUA _ Hn) by (cbn; tauto).
    unfold fDefault. rewrite Hc. unfold vowelOf. rewrite Ho.
    replace (Z.eqb V_INVALID v) with false by (destruct (Ok v Ho) as [->| ->]; reflexivity). left. reflexivity.
  - destruct (FS_hd _ _ _ _ _ F) as (c & t1 & -> & (Hc & _) & Hn).
    rewrite (rimesF_plain _ _ _ _ _ _ _ Em (plainHead_cons c Hc)). unfold fOther. rewrite Em.
    rewrite !(cons_neq c) by (assumption || reflexivity).
    rewrite (notIn_neq c UTH_WO_WAEN _ Hn), (notIn_neq c UTH_O_ANG _ Hn), (notIn_neq c UTH_RO_RUA _ Hn) by (cbn; tauto).
    unfold fDefault. rewrite Hc. unfold vowelOf. rewrite Ho.
    replace (Z.eqb V_INVALID v) with false by (destruct (Ok v Ho) as [->| ->]; reflexivity). right.
    apply closed_iff. repeat split; auto. apply finL_iff. apply (FS_no (letters "วรอ") _ c t1 e r b); [|exact F].
    change (letters "วรอ") with [UTH_WO_WAEN; UTH_RO_RUA; UTH_O_ANG] in *. cbn [In] in *. split; intros X; intuition congruence.
Qed.
Lemma rimesF_iff lk o t v e m r b : okInitial o ->
  In (v, e, m, r, b) (rimesF lk o (vowelOf o) t) <-> Rime lk o t v e m r b.
Proof. intros Ok. split; [apply rimesF_rime|apply rime_in]; exact Ok. Qed.

Lemma notLed_iff o : notLed o = true <-> notLedA o.
Proof.
  unfold notLed, notLedA. destruct (oLead o); [|tauto]. rewrite negb_true_iff.
  destruct (oSound o); cbn; split; intros H; try congruence; try (right; congruence).
  destruct H; congruence.
Qed.
Definition eHead (c : N) : bool := (c =n UTH_SARA_I) || (c =n UTH_SARA_II) || (c =n UTH_SARA_UEE) || (c =n UTH_MAITAIKHU).
Lemma eHead_iff c : eHead c = true <-> oneOf "ิีื็" c.
Proof.
  unfold eHead. rewrite !orb_true_iff, !N.eqb_eq. unfold oneOf.
  change (letters "ิีื็") with [UTH_SARA_I; UTH_SARA_II; UTH_SARA_UEE; UTH_MAITAIKHU]. cbn [In]. intuition congruence.
Qed.
Lemma eHead_mark c : isMark c = true -> eHead c = false.
Proof.
  intros H. apply not_true_iff_false. unfold eHead. rewrite !orb_true_iff, !N.eqb_eq.
  unfold isMark in H. rewrite andb_true_iff, !N.leb_le in H.
  unfold UTH_SARA_I, UTH_SARA_II, UTH_SARA_UEE, UTH_MAITAIKHU. lia.
Qed.
Lemma eHead_cons c : consonant c = true -> eHead c = false.
Proof.
  intros H. apply not_true_iff_false. unfold eHead. rewrite !orb_true_iff, !N.eqb_eq.
  intros [[[->| ->]| ->]| ->]; discriminate.
Qed.
Lemma rimesEF_plain o t m x r : mark t = (m, x :: r) -> (m = SAMAN -> eHead x = false) -> rimesEF o t = fEOther o t.
Proof.
  intros E Hx.
  assert (exists c t', t = c :: t' /\ eHead c = false) as (c & t' & -> & H).
  { destruct (mark_cases _ _ _ E) as [(-> & <- & _)|(c & Hc & _ & ->)]; eauto using eHead_mark. }
  unfold eHead in H. rewrite !orb_false_iff in H. destruct H as (((A & B) & C) & D).
  cbn [rimesEF]. rewrite A, B, C, D. reflexivity.
Qed.
Lemma silent_notCons c t : consonant c = false -> silent (c :: t) = c :: t.
Proof. intros E. destruct t; cbn [silent]; rewrite ?E; reflexivity. Qed.
Lemma FS_silent_cons no c t e r b : FinalOrShared no (silent (c :: t)) e r b -> consonant c = true.
Proof.
  intros H. destruct (consonant c) eqn:E; [reflexivity|]. rewrite silent_notCons in H by exact E.
  apply FS_hd in H. destruct H as (x & u & Q & (Hx & _) & _). inj Q. congruence.
Qed.
Lemma rimesEF_rime o t v e m r b : In (v, e, m, r, b) (rimesEF o t) -> RimeE o t v e m r b.
Proof.
  destruct t as [|c t]; cbn [rimesEF].
  { destruct (notLed o) eqn:E; [|intros []]. apply notLed_iff in E. intros H. pick H. inj H. apply E_end. exact E. }
  destruct (c =n UTH_SARA_I) eqn:E1.
  { eqs. unfold fSaraI. destruct (mark t) as [m1 t1] eqn:Em. intros H. pick H. eapply E_oe_final; eassumption. }
  destruct (c =n UTH_SARA_II) eqn:E2.
  { eqs. unfold fTriple. destruct (mark t) as [m1 t1] eqn:Em. destruct (isNext UTH_YO_YAK t1) eqn:En; [|intros []].
    apply isNext_spec in En. destruct En as (r' & ->). cbn [tl]. destruct (isNext UTH_SARA_A r') eqn:Ea.
    - apply isNext_spec in Ea. destruct Ea as (r'' & ->). cbn [tl]. intros H. pick H. inj H. eapply E_ia; eassumption.
    - apply isNext_hd in Ea. intros H. pick H; [inj H; eapply E_iaa; eassumption|]. eapply E_iaa_final; eassumption. }
  destruct (c =n UTH_SARA_UEE) eqn:E3.
  { eqs. unfold fTriple. destruct (mark t) as [m1 t1] eqn:Em. destruct (isNext UTH_O_ANG t1) eqn:En; [|intros []].
    apply isNext_spec in En. destruct En as (r' & ->). cbn [tl]. destruct (isNext UTH_SARA_A r') eqn:Ea.
    - apply isNext_spec in Ea. destruct Ea as (r'' & ->). cbn [tl]. intros H. pick H. inj H. eapply E_uea; eassumption.
    - apply isNext_hd in Ea. intros H. pick H; [inj H; eapply E_ueaa; eassumption|]. eapply E_ueaa_final; eassumption. }
  destruct (c =n UTH_MAITAIKHU) eqn:E4.
  { eqs. intros H. pick H. eapply E_e_final; eassumption. }
  assert (Eh : eHead c = false) by (unfold eHead; rewrite E1, E2, E3, E4; reflexivity).
  clear E1 E2 E3 E4. unfold fEOther. destruct (mark (c :: t)) as [m1 t1] eqn:Em. destruct t1 as [|x t1].
  { intros H. pick H. inj H. destruct (mark_cases _ _ _ Em) as [(_ & F & _)|(c' & Hc' & -> & F)]; [discriminate|].
    inj F. apply E_end_marked. exact Hc'. }
  assert (Hx : m1 = SAMAN -> ~ oneOf "ิีื็" x).
  { intros ->. apply mark_saman in Em. injection Em as -> ->. rewrite <- eHead_iff. congruence. }
  assert (Long : ~ oneOf "ะา" x -> ~ (x = UTH_YO_YAK /\ endOrSyl t1) -> x <> UTH_O_ANG ->
    In (v, e, m, r, b) (fELong o m1 (x :: t1)) -> RimeE o (c :: t) v e m r b).
  { intros H1 H2 H3. unfold fELong. destruct (notLed o) eqn:El; [|intros []]. apply notLed_iff in El.
    intros H. apply in_inv in H. destruct H as [H|H].
    - inj H. eapply E_ee; eassumption.
    - apply closed_iff in H. destruct H as (-> & -> & H). apply finL_iff in H. eapply E_ee_final; eassumption. }
  destruct (x =n UTH_O_ANG) eqn:F1.
  { eqs. intros H. apply in_app_iff in H. destruct H as [H|H].
    - destruct (notLed o) eqn:El; [|destruct H]. apply notLed_iff in El. apply in_inv in H. destruct H as [H|[]]. inj H.
      eapply E_ee; try eassumption.
      + unfold oneOf. spell "ะา"%string. intros [X|[X|[]]]; discriminate.
      + intros (X & _). discriminate.
    - destruct (isNext UTH_SARA_A t1) eqn:Ea.
      + apply isNext_spec in Ea. destruct Ea as (r'' & ->). cbn [tl] in H. pick H. inj H. eapply E_oe; eassumption.
      + apply isNext_hd in Ea. pick H. inj H. eapply E_oee; eassumption. }
  destruct (x =n UTH_SARA_A) eqn:F2.
  { eqs. destruct (notLed o) eqn:El; [|intros []]. apply notLed_iff in El. intros H. pick H. inj H. eapply E_e; eassumption. }
  destruct (x =n UTH_SARA_AA) eqn:F3.
  { eqs. destruct (isNext UTH_SARA_A t1) eqn:Ea.
    - apply isNext_spec in Ea. destruct Ea as (r'' & ->). cbn [tl]. intros H. pick H. inj H. eapply E_au; eassumption.
    - apply isNext_hd in Ea. intros H. pick H. inj H. eapply E_ao; eassumption. }
  assert (NA : ~ oneOf "ะา" x).
  { unfold oneOf. change (letters "ะา") with [UTH_SARA_A; UTH_SARA_AA]. eqs. cbn [In]. intuition congruence. }
  destruct ((x =n UTH_YO_YAK) && endOrSylb t1) eqn:F4.
  - apply andb_true_iff in F4. destruct F4 as (F4 & F5). apply endOrSylb_spec in F5. eqs. intros H. pick H. inj H.
    eapply E_oey; eassumption.
  - apply Long; [exact NA| |eqs; assumption]. intros (-> & X). apply endOrSylb_spec in X. rewrite X in F4. discriminate.
Qed.
Lemma rimeE_in o t v e m r b : RimeE o t v e m r b -> In (v, e, m, r, b) (rimesEF o t).
Proof.
  intros H. destruct H as
    [Hn|c Hc|t m t' e r Em F|t m r Em|t m r Em Ha|t m r e r' b Em Ha F|t m r Em|t m r Em Ha|t m r e r' Em Ha F
    |t e r F|t m r Em|t m r Em Ha|t m r Em Hn|t m r Em|t m r Em Ha|t m r Em He
    |t m c r Em Hn Ho Hm Hy|t m c r e r' b Em Hn Ho Hy F].
  - cbn [rimesEF]. apply notLed_iff in Hn. rewrite Hn. left. reflexivity.
  - assert (Em : mark [c] = (markOf c, [])) by (cbn [mark]; rewrite Hc; reflexivity).
    pose proof (eHead_mark c Hc) as Q. unfold eHead in Q. rewrite !orb_false_iff in Q. destruct Q as (((A & B) & C) & D).
    cbn [rimesEF]. rewrite A, B, C, D. unfold fEOther. rewrite Em. left. reflexivity.
  - change (In (V_OEE, e, m, r, false) (fSaraI t)). unfold fSaraI. rewrite Em. apply closed_iff. repeat split; auto. apply finS_iff. auto.
  - change (In (V_IA, EC_NONE, m, silent r, false) (fTriple UTH_YO_YAK V_IA V_IAA (finL []) t)). unfold fTriple. rewrite Em. left. reflexivity.
  - change (In (V_IAA, EC_NONE, m, silent r, false) (fTriple UTH_YO_YAK V_IA V_IAA (finL []) t)). unfold fTriple. rewrite Em.
    cbn [isNext tl]. rewrite N.eqb_refl. apply isNext_hd in Ha. rewrite Ha. left. reflexivity.
  - change (In (V_IAA, e, m, r', b) (fTriple UTH_YO_YAK V_IA V_IAA (finL []) t)). unfold fTriple. rewrite Em.
    cbn [isNext tl]. rewrite N.eqb_refl. apply isNext_hd in Ha. rewrite Ha. right. apply closed_iff. repeat split; auto. apply finL_iff. exact F.
  - change (In (V_UEA, EC_NONE, m, silent r, false) (fTriple UTH_O_ANG V_UEA V_UEAA (finS []) t)). unfold fTriple. rewrite Em. left. reflexivity.
  - change (In (V_UEAA, EC_NONE, m, silent r, false) (fTriple UTH_O_ANG V_UEA V_UEAA (finS []) t)). unfold fTriple. rewrite Em.
    cbn [isNext tl]. rewrite N.eqb_refl. apply isNext_hd in Ha. rewrite Ha. left. reflexivity.
  - change (In (V_UEAA, e, m, r', false) (fTriple UTH_O_ANG V_UEA V_UEAA (finS []) t)). unfold fTriple. rewrite Em.
    cbn [isNext tl]. rewrite N.eqb_refl. apply isNext_hd in Ha. rewrite Ha. right. apply closed_iff. repeat split; auto. apply finS_iff. auto.
  - change (In (V_E, e, SAMAN, r, false) (closed V_E SAMAN (finS [] t))). apply closed_iff. repeat split; auto. apply finS_iff. auto.
  - rewrite (rimesEF_plain _ _ _ _ _ Em ltac:(reflexivity)). unfold fEOther. rewrite Em. rewrite N.eqb_refl.
    cbn [isNext tl]. rewrite N.eqb_refl. apply in_app_iff. right. left. reflexivity.
  - rewrite (rimesEF_plain _ _ _ _ _ Em ltac:(reflexivity)). unfold fEOther. rewrite Em. rewrite N.eqb_refl.
    apply isNext_hd in Ha. rewrite Ha. apply in_app_iff. right. left. reflexivity.
  - rewrite (rimesEF_plain _ _ _ _ _ Em ltac:(reflexivity)). unfold fEOther. rewrite Em.
    change (UTH_SARA_A =n UTH_O_ANG) with false. rewrite N.eqb_refl. apply notLed_iff in Hn. rewrite Hn. left. reflexivity.
  - rewrite (rimesEF_plain _ _ _ _ _ Em ltac:(reflexivity)). unfold fEOther. rewrite Em. left. reflexivity.
  - rewrite (rimesEF_plain _ _ _ _ _ Em ltac:(reflexivity)). unfold fEOther. rewrite Em.
    change (UTH_SARA_AA =n UTH_O_ANG) with false. change (UTH_SARA_AA =n UTH_SARA_A) with false. rewrite N.eqb_refl.
    apply isNext_hd in Ha. rewrite Ha. left. reflexivity.
  - rewrite (rimesEF_plain _ _ _ _ _ Em ltac:(reflexivity)). unfold fEOther. rewrite Em.
    change (UTH_YO_YAK =n UTH_O_ANG) with false. change (UTH_YO_YAK =n UTH_SARA_A) with false.
    change (UTH_YO_YAK =n UTH_SARA_AA) with false. rewrite N.eqb_refl. apply endOrSylb_spec in He. rewrite He. left. reflexivity.
  - rewrite (rimesEF_plain _ _ _ _ _ Em).
    2:{ intros Es. apply not_true_iff_false. rewrite eHead_iff. exact (Hm Es). }
    unfold fEOther. rewrite Em. unfold oneOf in Ho. change (letters "ะา") with [UTH_SARA_A; UTH_SARA_AA] in Ho.
    rewrite (notIn_neq c UTH_SARA_A _ Ho), (notIn_neq c UTH_SARA_AA _ Ho) by (cbn; tauto).
    apply notLed_iff in Hn. destruct (c =n UTH_O_ANG); [rewrite Hn; left; reflexivity|].
    destruct ((c =n UTH_YO_YAK) && endOrSylb r) eqn:Q.
    { exfalso. apply andb_true_iff in Q. destruct Q as (Q1 & Q2). apply endOrSylb_spec in Q2. eqs. apply Hy. auto. }
    unfold fELong. rewrite Hn. left. reflexivity.
  - pose proof (FS_silent_cons _ _ _ _ _ _ F) as Hc.
    rewrite (rimesEF_plain _ _ _ _ _ Em (fun _ => eHead_cons c Hc)).
    unfold fEOther. rewrite Em. rewrite !(cons_neq c UTH_SARA_A), !(cons_neq c UTH_SARA_AA) by (assumption || reflexivity).
    apply N.eqb_neq in Ho. rewrite Ho.
    destruct ((c =n UTH_YO_YAK) && endOrSylb r) eqn:Q.
    { exfalso. apply andb_true_iff in Q. destruct Q as (Q1 & Q2). apply endOrSylb_spec in Q2. eqs. apply Hy. auto. }
    apply notLed_iff in Hn. unfold fELong. rewrite Hn. right. apply closed_iff. repeat split; auto. apply finL_iff. exact F.
Qed.

Lemma rimesLF_rime l t v e m r b : In (v, e, m, r, b) (rimesLF l t) -> RimeL l t v e m r b.
Proof.
  unfold rimesLF. destruct (mark t) as [m1 t1] eqn:Em.
  destruct (l =n UTH_SARA_AE) eqn:E1.
  { eqs. unfold fAe. destruct (isNext UTH_SARA_A t1) eqn:Ea.
    - apply isNext_spec in Ea. destruct Ea as (r' & ->). cbn [tl]. intros H. pick H. inj H. eapply L_ae; eassumption.
    - destruct (isNext UTH_MAITAIKHU t1) eqn:Ek.
      + apply isNext_spec in Ek. destruct Ek as (r' & ->). cbn [tl]. intros H. pick H. eapply L_ae_final; eassumption.
      + apply isNext_hd in Ea, Ek. intros H. pick H; [inj H; eapply L_aee; eassumption|]. eapply L_aee_final; eassumption. }
  destruct (l =n UTH_SARA_O) eqn:E2.
  { eqs. unfold fO. destruct (isNext UTH_SARA_A t1) eqn:Ea.
    - apply isNext_spec in Ea. destruct Ea as (r' & ->). cbn [tl]. intros H. pick H. inj H. eapply (L_o t m r'); eassumption.
    - apply isNext_hd in Ea. pose proof (silentOpen_cases t1) as Q. pose proof (upCond t1) as U.
      destruct (_ && negb _).
      + intros H. apply in_inv in H. destruct H as [H|[]]. inj H. rewrite <- Q. eapply L_oo; eassumption.
      + intros H. apply in_inv in H. destruct H as [H|H].
        * inj H. rewrite <- Q. eapply L_oo; eassumption.
        * apply closed_iff in H. destruct H as (-> & -> & H). apply finL_iff in H. eapply L_oo_final; [eassumption| |exact H].
          apply U. reflexivity. }
  destruct (l =n UTH_SARA_AI_MAIMALAI) eqn:E3.
  { eqs. intros H. apply in_app_iff in H. destruct H as [H|H].
    - destruct (isNext UTH_YO_YAK t1 && endOrSylb (tl t1)) eqn:Q; [|destruct H]. apply andb_true_iff in Q. destruct Q as (Q1 & Q2).
      apply isNext_spec in Q1. destruct Q1 as (r' & ->). cbn [tl] in *. apply endOrSylb_spec in Q2. pick H. inj H.
      eapply L_aiy; eassumption.
    - pick H. inj H. eapply L_ai; eassumption. }
  destruct (l =n UTH_SARA_AI_MAIMUAN) eqn:E4; [|intros []]. eqs. intros H. pick H. inj H. eapply L_aimuan; eassumption.
Qed.
Lemma rimeL_in l t v e m r b : RimeL l t v e m r b -> In (v, e, m, r, b) (rimesLF l t).
Proof.
  intros H. destruct H as
    [t m r Em|t m r e r' Em F|t m t' Em Ha Hk|t m t' e r Em F|t m r Em|t m t' Em Ha|t m t' e r b Em Hi F
    |t m t' Em|t m r Em He|t m t' Em]; unfold rimesLF; rewrite Em; rewrite ?N.eqb_refl.
  - left. reflexivity.
  - change (In (V_AE, e, m, r', false) (closed V_AE m (finS [] r))). apply closed_iff. repeat split; auto. apply finS_iff. auto.
  - unfold fAe. apply isNext_hd in Ha, Hk. rewrite Ha, Hk. left. reflexivity.
  - unfold fAe. assert (Q : isNext UTH_SARA_A t' = false /\ isNext UTH_MAITAIKHU t' = false).
    { destruct t' as [|c t']; [split; reflexivity|]. pose proof (FS_silent_cons _ _ _ _ _ _ (FS_final _ _ _ _ F)) as Hc.
      cbn [isNext]. split; apply cons_neq; auto. }
    destruct Q as (-> & ->). right. apply closed_iff. repeat split; auto. apply finS_iff. auto.
  - change (UTH_SARA_O =n UTH_SARA_AE) with false. cbv iota. unfold fO. cbn [isNext tl]. rewrite N.eqb_refl. left. reflexivity.
  - change (UTH_SARA_O =n UTH_SARA_AE) with false. cbv iota. unfold fO. apply isNext_hd in Ha. rewrite Ha.
    pose proof (silentOpen_cases t') as Q. unfold silentOpen in Q. rewrite Q. destruct (_ && negb _); left; reflexivity.
  - change (UTH_SARA_O =n UTH_SARA_AE) with false. cbv iota. unfold fO.
    assert (Q : isNext UTH_SARA_A t' = false).
    { destruct t' as [|c t']; [reflexivity|]. pose proof (FS_silent_cons _ _ _ _ _ _ F) as Hc. cbn [isNext]. apply cons_neq; auto. }
    rewrite Q. apply upCond in Hi. rewrite Hi. right. apply closed_iff. repeat split; auto. apply finL_iff. exact F.
  - change (In (V_A, KOEY, m, silent t', false)
     ((if isNext UTH_YO_YAK t' && endOrSylb (tl t') then [(V_A, KOEY, m, tl t', false)] else []) ++
      [(V_A, KOEY, m, silent t', false)])). apply in_app_iff. right. left. reflexivity.
  - change (In (V_A, KOEY, m, r, false)
     ((if isNext UTH_YO_YAK (UTH_YO_YAK :: r) && endOrSylb r then [(V_A, KOEY, m, r, false)] else []) ++
      [(V_A, KOEY, m, silent (UTH_YO_YAK :: r), false)])). apply endOrSylb_spec in He. rewrite He. left. reflexivity.
  - left. reflexivity.
Qed.
Lemma rimesRuF_iff t v e m r b : In (v, e, m, r, b) (rimesRuF t) <-> RimeRu t v e r b /\ m = SAMAN.
Proof.
  split.
  - destruct t as [|c t]; cbn [rimesRuF]; intros H.
    { pick H. inj H. split; [apply U_end|reflexivity]. }
    destruct ((c =n UTH_LAKKHANGYAO) || (c =n UTH_SARA_AA)) eqn:E1.
    { apply orb_true_iff in E1. rewrite !N.eqb_eq in E1. pick H. inj H. split; [apply U_long; exact E1|reflexivity]. }
    destruct (consonant c) eqn:E2; [|destruct H].
    destruct (ec_eqb EC_NONE (finalOf c) || negb (endOrSylb t)) eqn:E3.
    + pick H. inj H. split; [|reflexivity]. apply U_open; [exact E2|]. intros (A & B). apply ec_none_f in A.
      apply endOrSylb_spec in B. rewrite A, B in E3. discriminate.
    + apply orb_false_iff in E3. destruct E3 as (A & B). apply negb_false_iff in B. apply endOrSylb_spec in B. pick H.
      split; [|reflexivity]. apply (U_closed c t e r b B H).
  - intros (H & ->). inversion H as [|x u Hx|x u Hx Hn|x u e' r' b' He F]; subst; cbn [rimesRuF].
    + left. reflexivity.
    + destruct Hx as [->| ->]; left; reflexivity.
    + rewrite !(cons_neq x) by (assumption || reflexivity). cbn [orb]. rewrite Hx.
      assert (Q : ec_eqb EC_NONE (finalOf x) || negb (endOrSylb u) = true).
      { destruct (ec_eqb EC_NONE (finalOf x)) eqn:A; [reflexivity|]. cbn [orb]. apply negb_true_iff. apply not_true_iff_false.
        intros B. apply Hn. apply ec_none_f in A. apply endOrSylb_spec in B. auto. }
      rewrite Q. left. reflexivity.
    + destruct (FS_hd _ _ _ _ _ F) as (x' & u' & Q & (Hx & Hf) & _). inj Q.
      rewrite !(cons_neq x') by (assumption || reflexivity). cbn [orb]. rewrite Hx.
      apply ec_none_f in Hf. apply endOrSylb_spec in He. rewrite Hf, He. cbn [orb negb].
      apply closed_iff. repeat split; auto. apply finL_iff. exact F.
Qed.

(** ** Initials *)
Lemma oneOf_mem s l c : forallb (fun x => memN x l) (letters s) = true ->
  forallb (fun x => memN x (letters s)) l = true -> oneOf s c <-> memN c l = true.
Proof.
  rewrite !forallb_forall. intros H1 H2. unfold oneOf. rewrite memN_In. split; intros H.
  - apply memN_In. apply H1. exact H.
  - apply memN_In. apply H2. exact H.
Qed.
Lemma oneOf_cons s c : forallb consonant (letters s) = true -> oneOf s c -> consonant c = true.
Proof. rewrite forallb_forall. intros H H'. apply H. exact H'. Qed.
Lemma falseRo_iff c : oneOf "จซศส" c <-> memN c falseRo = true. Proof. apply oneOf_mem; reflexivity. Qed.
Lemma trueRoF_iff c : oneOf "ขคดทบพฟ" c <-> memN c trueRoF = true. Proof. apply oneOf_mem; reflexivity. Qed.
Lemma trueRo_iff c : oneOf "กตป" c \/ oneOf "ขคดทบพฟ" c <-> memN c trueRo = true.
Proof.
  rewrite <- (oneOf_mem "กตปขคดทบพฟ" trueRo c) by reflexivity. unfold oneOf.
  change (letters "กตปขคดทบพฟ") with (letters "กตป" ++ letters "ขคดทบพฟ"). rewrite in_app_iff. tauto.
Qed.
Lemma ro_disjoint c : oneOf "กตปขคดทบพฟ" c -> memN c falseRo = false.
Proof. unfold oneOf. spell "กตปขคดทบพฟ"%string. cbn [In]. intros H. repeat (destruct H as [<-|H]; [reflexivity|]). destruct H. Qed.
Lemma ktp_notF c : oneOf "กตป" c -> memN c trueRoF = false.
Proof. unfold oneOf. spell "กตป"%string. cbn [In]. intros H. repeat (destruct H as [<-|H]; [reflexivity|]). destruct H. Qed.
Lemma la_iff c : oneOf "กขคบปผพฟ" c <-> memN c laCons = true. Proof. apply oneOf_mem; reflexivity. Qed.
Lemma wa_iff c : oneOf "กขค" c <-> memN c waCons = true. Proof. apply oneOf_mem; reflexivity. Qed.
Lemma aura_iff c : oneOf "กคจทธนบปภมวสหอ" c <-> memN c auraCons = true. Proof. apply oneOf_mem; reflexivity. Qed.
Lemma noRob_iff t : noRob t = true <-> noRo t.
Proof. destruct t as [|c t]; cbn; [tauto|]. rewrite negb_true_iff, N.eqb_neq. tauto. Qed.
Lemma noLongb_iff t : noLongb t = true <-> noLong t.
Proof.
  destruct t as [|c t]; cbn [noLongb noLong]; [tauto|]. rewrite andb_true_iff, !negb_true_iff, !N.eqb_neq. intuition congruence.
Qed.
Lemma roHanb_iff d t : roHanb d t = true <-> (d = UTH_RO_RUA -> noRo t).
Proof.
  unfold roHanb. destruct (d =n UTH_RO_RUA) eqn:E; eqs; [rewrite noRob_iff|]; tauto.
Qed.
Lemma ledOf_eq c d : ledOf c d = mkInitial (Some c) (soundOf d) (match classOf d with LOWS => classOf c | k => k end) SEC_NONE None.
Proof. unfold ledOf. f_equal. destruct (classOf d); reflexivity. Qed.
Lemma ic_lows k : ic_eqb LOWS k = true <-> k = LOWS.
Proof. destruct k; cbn; split; congruence. Qed.
Lemma notOne c s : ~ oneOf s c <-> memN c (letters s) = false.
Proof. unfold oneOf. symmetry. apply memN_notIn. Qed.

(** The initials of consonant and RU, as a list. *)
Definition ruWho (c : N) : nat :=
  if memN c [UTH_KO_KAI; UTH_TO_TAO; UTH_THO_THAHAN; UTH_PO_PLA] then 1
  else if memN c [UTH_SO_SUA; UTH_SO_SALA] then 2
  else if memN c [UTH_WO_WAEN] then 3
  else if memN c [UTH_NO_NU] then 4
  else if memN c [UTH_KHO_KHWAI; UTH_PHO_PHAN] then 5
  else if memN c [UTH_HO_HIP] then 6 else 7.
Lemma ruWho_oneOf c s k : forallb (fun x => ruWho x =? k) (letters s) = true -> oneOf s c -> ruWho c = k.
Proof. rewrite forallb_forall. intros H H'. apply Nat.eqb_eq. apply H. exact H'. Qed.
Lemma ruWho_1 c : ruWho c = 1 <-> oneOf "กตทป" c.
Proof.
  split; [|apply ruWho_oneOf; reflexivity]. unfold ruWho. destruct (memN c [UTH_KO_KAI; _; _; _]) eqn:E.
  - intros _. apply (oneOf_mem "กตทป" [UTH_KO_KAI; UTH_TO_TAO; UTH_THO_THAHAN; UTH_PO_PLA] c); [reflexivity|reflexivity|exact E].
  - repeat match goal with |- context [if ?b then _ else _] => destruct b end; discriminate.
Qed.
Lemma ruWho_2 c : ruWho c = 2 <-> oneOf "สศ" c.
Proof.
  split; [|apply ruWho_oneOf; reflexivity]. unfold ruWho. destruct (memN c [UTH_KO_KAI; _; _; _]); [discriminate|].
  destruct (memN c [UTH_SO_SUA; _]) eqn:E.
  - intros _. apply (oneOf_mem "สศ" [UTH_SO_SUA; UTH_SO_SALA] c); [reflexivity|reflexivity|exact E].
  - repeat match goal with |- context [if ?b then _ else _] => destruct b end; discriminate.
Qed.
Lemma ruWho_3 c : ruWho c = 3 <-> oneOf "ว" c.
Proof.
  split; [|apply ruWho_oneOf; reflexivity]. unfold ruWho. destruct (memN c [UTH_KO_KAI; _; _; _]); [discriminate|].
  destruct (memN c [UTH_SO_SUA; _]); [discriminate|]. destruct (memN c [UTH_WO_WAEN]) eqn:E.
  - intros _. apply (oneOf_mem "ว" [UTH_WO_WAEN] c); [reflexivity|reflexivity|exact E].
  - repeat match goal with |- context [if ?b then _ else _] => destruct b end; discriminate.
Qed.
Lemma ruWho_4 c : ruWho c = 4 <-> oneOf "น" c.
Proof.
  split; [|apply ruWho_oneOf; reflexivity]. unfold ruWho. destruct (memN c [UTH_KO_KAI; _; _; _]); [discriminate|].
  destruct (memN c [UTH_SO_SUA; _]); [discriminate|]. destruct (memN c [UTH_WO_WAEN]); [discriminate|].
  destruct (memN c [UTH_NO_NU]) eqn:E.
  - intros _. apply (oneOf_mem "น" [UTH_NO_NU] c); [reflexivity|reflexivity|exact E].
  - repeat match goal with |- context [if ?b then _ else _] => destruct b end; discriminate.
Qed.
Lemma ruWho_5 c : ruWho c = 5 <-> oneOf "คพ" c.
Proof.
  split; [|apply ruWho_oneOf; reflexivity]. unfold ruWho. destruct (memN c [UTH_KO_KAI; _; _; _]); [discriminate|].
  destruct (memN c [UTH_SO_SUA; _]); [discriminate|]. destruct (memN c [UTH_WO_WAEN]); [discriminate|].
  destruct (memN c [UTH_NO_NU]); [discriminate|]. destruct (memN c [UTH_KHO_KHWAI; _]) eqn:E.
  - intros _. apply (oneOf_mem "คพ" [UTH_KHO_KHWAI; UTH_PHO_PHAN] c); [reflexivity|reflexivity|exact E].
  - repeat match goal with |- context [if ?b then _ else _] => destruct b end; discriminate.
Qed.
Lemma ruWho_6 c : ruWho c = 6 <-> c = UTH_HO_HIP.
Proof.
  split; [|intros ->; reflexivity]. unfold ruWho.
  destruct (memN c [UTH_KO_KAI; _; _; _]); [discriminate|].
  destruct (memN c [UTH_SO_SUA; _]); [discriminate|]. destruct (memN c [UTH_WO_WAEN]); [discriminate|].
  destruct (memN c [UTH_NO_NU]); [discriminate|]. destruct (memN c [UTH_KHO_KHWAI; _]); [discriminate|].
  destruct (memN c [UTH_HO_HIP]) eqn:E; [|discriminate]. intros _. apply memN_In in E. destruct E as [E|[]]. auto.
Qed.
Lemma ruWho_range c : ruWho c = 1 \/ ruWho c = 2 \/ ruWho c = 3 \/ ruWho c = 4 \/ ruWho c = 5 \/ ruWho c = 6 \/ ruWho c = 7.
Proof. unfold ruWho. repeat match goal with |- context [if ?b then _ else _] => destruct b end; tauto. Qed.
Lemma ruNot c : ~ oneOf "กตทปสศวนคพ" c <-> ruWho c = 6 \/ ruWho c = 7.
Proof.
  assert (E : oneOf "กตทปสศวนคพ" c <-> oneOf "กตทป" c \/ oneOf "สศ" c \/ oneOf "ว" c \/ oneOf "น" c \/ oneOf "คพ" c).
  { unfold oneOf. change (letters "กตทปสศวนคพ") with (letters "กตทป" ++ letters "สศ" ++ letters "ว" ++ letters "น" ++ letters "คพ").
    rewrite !in_app_iff. tauto. }
  rewrite E, <- ruWho_1, <- ruWho_2, <- ruWho_3, <- ruWho_4, <- ruWho_5. pose proof (ruWho_range c). lia.
Qed.
Lemma ruNotHo c : ~ oneOf "กตทปสศวนคพห" c <-> ruWho c = 7.
Proof.
  assert (E : oneOf "กตทปสศวนคพห" c <-> oneOf "กตทปสศวนคพ" c \/ c = UTH_HO_HIP).
  { unfold oneOf. change (letters "กตทปสศวนคพห") with (letters "กตทปสศวนคพ" ++ [UTH_HO_HIP]).
    rewrite in_app_iff. cbn [In]. intuition. }
  rewrite E, <- ruWho_6. pose proof (ruNot c). pose proof (ruWho_range c). destruct (Nat.eq_dec (ruWho c) 6); intuition lia.
Qed.
Lemma ruNot8 c : ~ oneOf "กตทปสศวน" c <-> ruWho c = 5 \/ ruWho c = 6 \/ ruWho c = 7.
Proof.
  assert (E : oneOf "กตทปสศวน" c <-> oneOf "กตทป" c \/ oneOf "สศ" c \/ oneOf "ว" c \/ oneOf "น" c).
  { unfold oneOf. change (letters "กตทปสศวน") with (letters "กตทป" ++ letters "สศ" ++ letters "ว" ++ letters "น").
    rewrite !in_app_iff. tauto. }
  rewrite E, <- ruWho_1, <- ruWho_2, <- ruWho_3, <- ruWho_4. pose proof (ruWho_range c). lia.
Qed.
Definition endNext (t : list N) : bool := match t with x :: _ => consonant x && negb (ec_eqb EC_NONE (finalOf x)) | [] => false end.
Lemma endNext_iff t : endNext t = true <-> exists x r, t = x :: r /\ canEnd x.
Proof.
  destruct t as [|x t]; cbn [endNext].
  - split; [discriminate|]. intros (x & r & E & _). discriminate.
  - rewrite andb_true_iff, negb_true_iff, ec_none_f. split; [intros H; exists x, t; auto|].
    intros (y & r & E & H). inj E. exact H.
Qed.
Lemma ruF_who c t : ruF c t =
  if noLongb t then
    match ruWho c with
    | 1 => [Inc (mkInitial None (soundOf c) (classOf c) SEC_RA (Some V_I)) t]
    | 2 => [Inc (mkInitial None (soundOf c) (classOf c) SEC_NONE (Some V_I)) t;
            Inc (mkInitial (Some c) RA (classOf c) SEC_NONE (Some V_I)) t]
    | 3 => [Inc (mkInitial None (soundOf c) (classOf c) SEC_RA (Some V_UE)) t]
    | 4 => [Inc (mkInitial (Some c) RA LOWS SEC_NONE (Some V_UE)) t]
    | 5 => if endNext t then [Inc (mkInitial None (soundOf c) (classOf c) SEC_RA (Some V_UE)) t] else [Com (pA c) RA LOWS V_UE t]
    | 6 => [Inc (mkInitial (Some c) RA LOWS SEC_NONE (Some V_I)) t; Inc (mkInitial (Some c) RA LOWS SEC_NONE (Some V_UE)) t;
            Com (pA c) RA LOWS V_UE t]
    | _ => [Inc (mkInitial None (soundOf c) (classOf c) SEC_RA (Some V_I)) t;
            Inc (mkInitial (Some c) RA LOWS SEC_NONE (Some V_I)) t;
            Inc (mkInitial None (soundOf c) (classOf c) SEC_RA (Some V_UE)) t;
            Inc (mkInitial (Some c) RA LOWS SEC_NONE (Some V_UE)) t; Com (pA c) RA LOWS V_UE t]
    end
  else [].
Proof.
  unfold ruF, ruWho. destruct (noLongb t); cbn [negb]; [|reflexivity].
  destruct (memN c _); [reflexivity|]. destruct (memN c _); [reflexivity|].
  destruct (memN c [UTH_WO_WAEN]); [reflexivity|]. destruct (memN c [UTH_NO_NU]); [reflexivity|].
  destruct (memN c [UTH_KHO_KHWAI; UTH_PHO_PHAN]); [reflexivity|]. cbv zeta.
  unfold memN. cbn [existsb]. rewrite (N.eqb_sym c UTH_HO_HIP). destruct (UTH_HO_HIP =n c); reflexivity.
Qed.

Lemma noLong_canEnd x t : canEnd x -> noLong (x :: t).
Proof. intros (H & _). cbn. split; intros ->; discriminate. Qed.
Lemma inits_initial lk t o r : In (Inc o r) (initsF lk t) -> InitialAt lk t o r.
Proof.
  destruct t as [|c t]; cbn [initsF]; [intros []|]. destruct (consonant c) eqn:Ec; [|intros []].
  rewrite !in_app_iff. intros [H|[H|H]].
  - destruct t as [|d t]; [destruct H|]. destruct (consonant d) eqn:Ed.
    + unfold secondF in H. rewrite !in_app_iff in H. destruct H as [H|[H|[H|H]]].
      * unfold clustersF in H. destruct (d =n UTH_RO_RUA) eqn:E1.
        -- eqs. apply in_app_iff in H. destruct H as [H|H].
           ++ unfold roF in H. destruct (memN c falseRo) eqn:Ef.
              ** destruct lk; [destruct H|]. destruct (noRob t) eqn:Er; [|destruct H]. apply noRob_iff in Er.
                 apply falseRo_iff in Ef. destruct H as [H|[]]. inj H. apply I_false; auto.
              ** destruct (memN c trueRoF && lk) eqn:Et; [destruct H|]. destruct (memN c trueRo) eqn:Eu; [|destruct H].
                 destruct (noRob t) eqn:Er; [|destruct H]. apply noRob_iff in Er. destruct H as [H|[]]. inj H.
                 apply I_ra; [|exact Er]. apply trueRo_iff in Eu. destruct Eu as [Eu|Eu]; [auto|]. right. split; [|exact Eu].
                 apply trueRoF_iff in Eu. rewrite Eu in Et. exact Et.
           ++ unfold auraF in H. destruct t as [|x t]; [destruct H|].
              repeat match type of H with In _ (if ?b then _ else _) => destruct b end; try destruct H as [H|[]]; try discriminate; destruct H.
        -- destruct (d =n UTH_LO_LING) eqn:E2.
           { eqs. destruct (memN c laCons && negb lk) eqn:E; [|destruct H]. apply andb_true_iff in E. destruct E as (E & El).
             apply la_iff in E. apply negb_true_iff in El. destruct H as [H|[]]. inj H. apply I_la; auto. }
           destruct (d =n UTH_WO_WAEN) eqn:E3; [|destruct H].
           eqs. destruct (memN c waCons && negb lk) eqn:E; [|destruct H]. apply andb_true_iff in E. destruct E as (E & El).
           apply wa_iff in E. apply negb_true_iff in El. destruct H as [H|[]]. inj H. apply I_wa; auto.
      * destruct ((UTH_HO_HIP =n c) && ic_eqb LOWS (classOf d)) eqn:E; [|destruct H]. apply andb_true_iff in E. destruct E as (E & El).
        apply ic_lows in El. eqs. destruct (roHanb d t) eqn:Er; [|destruct H]. rewrite roHanb_iff in Er. destruct H as [H|[]]. inj H.
        apply I_ho; assumption.
      * destruct (roHanb d t) eqn:Er; [|destruct H]. rewrite roHanb_iff in Er. destruct H as [H|[]]. inj H.
        rewrite ledOf_eq. apply I_lead; assumption.
      * repeat match type of H with
          | In _ (if ?b then _ else _) => destruct b
          | In _ (match ?l with [] => _ | _ :: _ => _ end) => destruct l
          end; try destruct H as [H|[]]; try discriminate; destruct H.
    + destruct (UTH_RU =n d) eqn:Er; [|destruct H]. eqs. rewrite ruF_who in H. destruct (noLongb t) eqn:En; [|destruct H].
      apply noLongb_iff in En. pose proof (ruWho_range c) as R.
      destruct R as [W|[W|[W|[W|[W|[W|W]]]]]]; rewrite W in H.
      * apply ruWho_1 in W. destruct H as [H|[]]. inj H. apply I_ru_ri; auto.
      * apply ruWho_2 in W. destruct H as [H|[H|[]]]; inj H; [apply I_ru_si|apply I_ru_sari]; auto.
      * apply ruWho_3 in W. destruct H as [H|[]]. inj H. apply I_ru_wrue; auto.
      * apply ruWho_4 in W. destruct H as [H|[]]. inj H. apply I_ru_narue; auto.
      * apply ruWho_5 in W. destruct (endNext t) eqn:Ee; [|destruct H as [H|[]]; discriminate].
        apply endNext_iff in Ee. destruct Ee as (x & r' & -> & Hx). destruct H as [H|[]]. inj H. apply I_ru_khrue; auto.
      * assert (W' : ~ oneOf "กตทปสศวนคพ" c) by (apply ruNot; auto).
        destruct H as [H|[H|[H|[]]]]; try discriminate; inj H; apply I_ru_any_lead; auto.
      * assert (W' : ~ oneOf "กตทปสศวนคพ" c) by (apply ruNot; auto). apply ruNotHo in W.
        destruct H as [H|[H|[H|[H|[H|[]]]]]]; try discriminate; inj H;
          first [apply I_ru_any; solve [auto]|apply I_ru_any_lead; solve [auto]].
  - destruct H as [H|[]]. inj H. apply I_one. exact Ec.
  - destruct t as [|d t]; [destruct H|]. destruct (startsSyl d); [|destruct H]. destruct H as [H|[]]. discriminate.
Qed.
Lemma in_second lk c d t x : consonant c = true -> consonant d = true -> In x (secondF lk c d t) -> In x (initsF lk (c :: d :: t)).
Proof. intros Hc Hd H. cbn [initsF]. rewrite Hc, Hd. apply in_app_iff. left. exact H. Qed.
Lemma in_ru lk c t x : consonant c = true -> In x (ruF c t) -> In x (initsF lk (c :: UTH_RU :: t)).
Proof.
  intros Hc H. cbn [initsF]. rewrite Hc. apply in_app_iff. left.
  change (consonant UTH_RU) with false. rewrite N.eqb_refl. exact H.
Qed.
Lemma in_ro lk c t x : consonant c = true -> In x (roF lk c t ++ auraF c t) -> In x (initsF lk (c :: UTH_RO_RUA :: t)).
Proof.
  intros Hc H. apply in_second; [exact Hc|reflexivity|]. unfold secondF. apply in_app_iff. left.
  unfold clustersF. rewrite N.eqb_refl. exact H.
Qed.
Lemma initial_inits lk t o r : InitialAt lk t o r -> In (Inc o r) (initsF lk t).
Proof.
  intros H. destruct H as
    [c t Hc|c t Hl Hc Hr|c t Hc Hr|c t Hl Hc|c t Hl Hc|d t Hd Hk Hr|c d t Hc Hd Hr
    |c t Hc Hn|c t Hc Hn|c t Hc Hn|c t Hc Hn|c t Hc Hn|c x t Hc Hx|c v t Hc Hw Hn Hv|c v t Hc Hw Hn Hv].
  - cbn [initsF]. rewrite Hc. apply in_app_iff. right. apply in_app_iff. left. left. reflexivity.
  - apply in_ro; [apply (oneOf_cons "จซศส"); [reflexivity|exact Hc]|]. apply in_app_iff. left. unfold roF.
    apply falseRo_iff in Hc. apply noRob_iff in Hr. rewrite Hc, Hl, Hr. left. reflexivity.
  - assert (Hall : oneOf "กตปขคดทบพฟ" c).
    { unfold oneOf. change (letters "กตปขคดทบพฟ") with (letters "กตป" ++ letters "ขคดทบพฟ"). apply in_app_iff.
      unfold oneOf in Hc. tauto. }
    apply in_ro; [apply (oneOf_cons "กตปขคดทบพฟ"); [reflexivity|exact Hall]|]. apply in_app_iff. left. unfold roF.
    apply noRob_iff in Hr. rewrite (ro_disjoint c Hall), Hr.
    assert (Q : memN c trueRoF && lk = false).
    { destruct Hc as [Hc|(-> & Hc)]; [rewrite (ktp_notF c Hc); reflexivity|apply andb_false_r]. }
    rewrite Q. assert (Q' : memN c trueRo = true) by (apply trueRo_iff; tauto). rewrite Q'. left. reflexivity.
  - apply in_second; [apply (oneOf_cons "กขคบปผพฟ"); [reflexivity|exact Hc]|reflexivity|]. unfold secondF. apply in_app_iff. left.
    unfold clustersF. change (UTH_LO_LING =n UTH_RO_RUA) with false. rewrite N.eqb_refl. apply la_iff in Hc. rewrite Hc, Hl. left. reflexivity.
  - apply in_second; [apply (oneOf_cons "กขค"); [reflexivity|exact Hc]|reflexivity|]. unfold secondF. apply in_app_iff. left.
    unfold clustersF. change (UTH_WO_WAEN =n UTH_RO_RUA) with false. change (UTH_WO_WAEN =n UTH_LO_LING) with false. rewrite N.eqb_refl.
    apply wa_iff in Hc. rewrite Hc, Hl. left. reflexivity.
  - apply in_second; [reflexivity|exact Hd|]. unfold secondF. apply in_app_iff. right. apply in_app_iff. left.
    rewrite N.eqb_refl, Hk. rewrite <- roHanb_iff in Hr. rewrite Hr. left. reflexivity.
  - apply in_second; [exact Hc|exact Hd|]. unfold secondF. apply in_app_iff. right. apply in_app_iff. right. apply in_app_iff. left.
    rewrite <- roHanb_iff in Hr. rewrite Hr, <- ledOf_eq. left. reflexivity.
  - apply in_ru; [apply (oneOf_cons "กตทป"); [reflexivity|exact Hc]|]. rewrite ruF_who. apply noLongb_iff in Hn. apply ruWho_1 in Hc. rewrite Hn, Hc. left. reflexivity.
  - apply in_ru; [apply (oneOf_cons "สศ"); [reflexivity|exact Hc]|]. rewrite ruF_who. apply noLongb_iff in Hn. apply ruWho_2 in Hc. rewrite Hn, Hc. left. reflexivity.
  - apply in_ru; [apply (oneOf_cons "สศ"); [reflexivity|exact Hc]|]. rewrite ruF_who. apply noLongb_iff in Hn. apply ruWho_2 in Hc. rewrite Hn, Hc. right. left. reflexivity.
  - apply in_ru; [apply (oneOf_cons "ว"); [reflexivity|exact Hc]|]. rewrite ruF_who. apply noLongb_iff in Hn. apply ruWho_3 in Hc. rewrite Hn, Hc. left. reflexivity.
  - apply in_ru; [apply (oneOf_cons "น"); [reflexivity|exact Hc]|]. rewrite ruF_who. apply noLongb_iff in Hn. apply ruWho_4 in Hc. rewrite Hn, Hc. left. reflexivity.
  - apply in_ru; [apply (oneOf_cons "คพ"); [reflexivity|exact Hc]|]. rewrite ruF_who. apply ruWho_5 in Hc.
    pose proof (noLong_canEnd x t Hx) as Hn. apply noLongb_iff in Hn. rewrite Hn, Hc.
    assert (Q : endNext (x :: t) = true) by (apply endNext_iff; eauto). rewrite Q. left. reflexivity.
  - apply in_ru; [exact Hc|]. rewrite ruF_who. apply noLongb_iff in Hn. apply ruNotHo in Hw. rewrite Hn, Hw.
    destruct Hv as [->| ->]; cbn [In]; auto.
  - apply in_ru; [exact Hc|]. rewrite ruF_who. apply noLongb_iff in Hn. apply ruNot in Hw. rewrite Hn.
    destruct Hw as [Hw|Hw]; rewrite Hw; destruct Hv as [->| ->]; cbn [In]; auto.
Qed.
Lemma initsF_iff lk t o r : In (Inc o r) (initsF lk t) <-> InitialAt lk t o r.
Proof. split; [apply inits_initial|apply initial_inits]. Qed.
Lemma initial_ok lk t o r : InitialAt lk t o r -> okInitial o.
Proof. intros H. unfold okInitial. destruct H; cbn [oVowel plainOf]; intros v' E; try discriminate; inj E; auto. Qed.

(** ** Tones and syllables *)
Lemma toned_iff k m d s t : k <> IC_INVALID -> m <> T_INVALID -> toned k m d s t <-> t = ToneFromWritten k m d s.
Proof.
  intros Hk Hm. destruct (tone_rules_lemma k m d s Hk Hm) as (A & B & _ & D). unfold toned. split.
  - intros [H|(H & ->)]; [symmetry; apply B; exact H|symmetry; apply D; exact H].
  - intros ->. assert (U : unspellable k m \/ ~ unspellable k m).
    { unfold unspellable. destruct k, m; (left; split; auto; fail) || (right; intros ([X|[X|X]] & [Y|Y]); discriminate). }
    destruct U as [U|U]; [right; auto|left; auto].
Qed.
Lemma mark_valid t m t1 : mark t = (m, t1) -> m <> T_INVALID.
Proof.
  intros E. destruct (mark_cases _ _ _ E) as [(-> & _)|(c & Hc & -> & _)]; [discriminate|].
  unfold markOf. repeat match goal with |- context [if ?b then _ else _] => destruct b end; discriminate.
Qed.
Definition saidOf (s : Syl) : Said := say (iCons1 s) (iCons2 s) (vowel s) (eCons s) (tone s).
Definition deadF (v : EVowel) (e : EEndConsClass) : bool :=
  if ec_eqb EC_NONE e then IsShortVowel v else IsDeadEndConsClass e.
Definition saidF (y : RdF) : Said :=
  say (rSound y) (rSecond y) (rVowel y) (rFinal y)
    (ToneFromWritten (rClass y) (rMark y) (deadF (rVowel y) (rFinal y)) (IsShortVowel (rVowel y))).
Definition preF (y : RdF) : option Said := option_map saidOf (rPre y).
Definition vowels : list EVowel :=
  [V_A; V_AA; V_I; V_II; V_UE; V_UEE; V_U; V_UU; V_E; V_EE; V_AE; V_AEE; V_O; V_OO; V_AU; V_AUU; V_OE; V_OEE;
   V_IA; V_IAA; V_UEA; V_UEAA; V_UA; V_UAA].
Lemma short_ok v : In v vowels -> IsShortVowel v = short v.
Proof. intros H. unfold vowels in H. cbn [In] in H. repeat (destruct H as [<-|H]; [reflexivity|]). destruct H. Qed.
Lemma dead_ok v e : In v vowels -> deadF v e = dead v e.
Proof. intros H. unfold deadF, dead. rewrite (short_ok v H). destruct e; reflexivity. Qed.
Ltac inlist := unfold vowels; cbn [In]; tauto.
Lemma rime_valid lk o t v e m r b : okInitial o -> Rime lk o t v e m r b -> In v vowels /\ m <> T_INVALID.
Proof.
  intros Ok H. destruct H as
    [t m r Em|t m r Em Hn|t e r b F|t m t' e r Em Hm F
    |v s t m t' Hs Em|v s t t' e r b Hs Em Hi F|v s t m t' e r Hs Em Hi F
    |t m r Em|t m t' Em Hb|t m t' e r Em F|t e r F
    |t m r Em|t m r Em|t m r e r' b Em F|t m r Em|t m r e r' Em F|t m r Em|t m r e r' Em F
    |t m r Em Hr|t m r r' Em Hr|t m r r' e r'' b Em Hr Hs F
    |t m t' e r Em Ho H2 Hl F|t m c t' v Em Ho Hc Hn|t m t' v e r b Em Ho F];
    (split; [|try discriminate; eapply mark_valid; exact Em]); try inlist.
  - cbn [In] in Hs. repeat (destruct Hs as [Hs|Hs]; [inj Hs; inlist|]). destruct Hs.
  - cbn [In] in Hs. repeat (destruct Hs as [Hs|Hs]; [inj Hs; inlist|]). destruct Hs.
  - cbn [In] in Hs. repeat (destruct Hs as [Hs|Hs]; [inj Hs; inlist|]). destruct Hs.
  - destruct (Ok v Ho) as [->| ->]; inlist.
  - destruct (Ok v Ho) as [->| ->]; inlist.
Qed.
Lemma rimeE_valid o t v e m r b : RimeE o t v e m r b -> In v vowels /\ m <> T_INVALID.
Proof.
  intros H. destruct H; (split; [inlist|]); try discriminate; try (eapply mark_valid; eassumption).
  unfold markOf. repeat match goal with |- context [if ?b then _ else _] => destruct b end; discriminate.
Qed.
Lemma rimeL_valid l t v e m r b : RimeL l t v e m r b -> In v vowels /\ m <> T_INVALID.
Proof. intros H. destruct H; (split; [inlist|]); try discriminate; eapply mark_valid; eassumption. Qed.
Lemma rimeRu_valid t v e r b : RimeRu t v e r b -> In v vowels.
Proof. intros H. destruct H; try inlist. destruct (memN c _); inlist. Qed.
Lemma initial_class lk t o r : InitialAt lk t o r -> oClass o <> IC_INVALID.
Proof.
  intros H. destruct H; cbn [oClass plainOf]; try discriminate; try (apply classOf_valid; assumption);
    try (apply classOf_valid; eapply oneOf_cons; [|eassumption]; reflexivity).
  - apply classOf_valid. destruct H as [H|(_ & H)]; (eapply oneOf_cons; [|exact H]; reflexivity).
  - destruct (classOf d) eqn:E; try discriminate; [|apply classOf_valid; assumption].
    exfalso. exact (classOf_valid d H0 E).
Qed.
Lemma saysA_iff c p : consonant c = true -> SaysA c p <-> p = saidOf (preA (soundOf c) (classOf c)).
Proof.
  intros Hc. split.
  - intros [t H]. apply toned_iff in H; [|apply classOf_valid; exact Hc|discriminate]. subst t. reflexivity.
  - intros ->. constructor. apply toned_iff; [apply classOf_valid; exact Hc|discriminate|reflexivity].
Qed.
Lemma saysAuu_iff c p : consonant c = true -> SaysAuu c p <-> p = saidOf (preAuu (soundOf c) (classOf c)).
Proof.
  intros Hc. split.
  - intros [t H]. apply toned_iff in H; [|apply classOf_valid; exact Hc|discriminate]. subst t. reflexivity.
  - intros ->. constructor. apply toned_iff; [apply classOf_valid; exact Hc|discriminate|reflexivity].
Qed.
Lemma initial_lead lk t o r c : InitialAt lk t o r -> oLead o = Some c -> consonant c = true.
Proof.
  intros H. destruct H; cbn [oLead plainOf]; try discriminate; intros E; inj E; try assumption;
    (eapply oneOf_cons; [|eassumption]; reflexivity).
Qed.
Lemma leads_iff lk t o r p : InitialAt lk t o r -> Leads o p <-> p = option_map saidOf (preOf (oLead o)).
Proof.
  intros H. pose proof (initial_lead lk t o r) as L. destruct (oLead o) as [c|] eqn:E; cbn [preOf option_map].
  - specialize (L c H eq_refl). split.
    + intros [Q|c' q Q S]; [congruence|]. rewrite E in Q. inj Q. apply saysA_iff in S; [|exact L]. congruence.
    + intros ->. eapply Le_some; [exact E|]. apply saysA_iff; [exact L|reflexivity].
  - split; [intros [Q|c' q Q S]; [reflexivity|congruence]|]. intros ->. apply Le_none. exact E.
Qed.
Lemma sounds_iff o v e m x : oClass o <> IC_INVALID -> In v vowels -> m <> T_INVALID ->
  Sounds o v e m x <-> x = say (oSound o) (oSecond o) v e (ToneFromWritten (oClass o) m (deadF v e) (IsShortVowel v)).
Proof.
  intros Hk Hv Hm. rewrite (dead_ok v e Hv), (short_ok v Hv). split.
  - intros [t T]. apply toned_iff in T; [|assumption..]. subst t. reflexivity.
  - intros ->. constructor. apply toned_iff; [assumption..|reflexivity].
Qed.
Lemma initial_hd lk t o r : InitialAt lk t o r -> exists c t', t = c :: t' /\ consonant c = true.
Proof.
  intros H. destruct H; eexists; eexists; (split; [reflexivity|]); try assumption; try reflexivity;
    try (eapply oneOf_cons; [|eassumption]; reflexivity).
  destruct H as [H|(_ & H)]; (eapply oneOf_cons; [|exact H]; reflexivity).
Qed.

(** ** Implied readings *)
Definition comF (pre : option Syl) (s : EInitConsSound) (k : EInitConsClass) (v : EVowel) (r : list N) : RdF :=
  mkRdF pre s k SEC_NONE v EC_NONE SAMAN r false.
Lemma implied_in lk t p x r : Implied t p x r ->
  exists pre s k v, In (Com pre s k v r) (initsF lk t) /\ r <> [] /\ preF (comF pre s k v r) = p /\ saidF (comF pre s k v r) = x.
Proof.
  intros H. destruct H as [c x t p Hc Hx Hr Hp|x t p Hp|x t p Hp|x t p Hx Hp|c x t p Hc Hx Hp|c x t p Hc Hw Hn He Hp].
  - assert (Cc : consonant c = true) by (eapply oneOf_cons; [|exact Hc]; reflexivity).
    apply saysAuu_iff in Hp; [|exact Cc]. subst p. do 4 eexists. split; [|split; [discriminate|]].
    + apply in_ro; [exact Cc|]. apply in_app_iff. right. cbn [auraF]. apply N.eqb_neq in Hr. apply aura_iff in Hc.
      rewrite Hr, Hx, Hc. left. reflexivity.
    + split; reflexivity.
  - apply saysAuu_iff in Hp; [|reflexivity]. subst p. do 4 eexists. split; [|split; [discriminate|]].
    + apply in_ro; [reflexivity|]. apply in_app_iff. right. left. reflexivity.
    + split; reflexivity.
  - apply saysAuu_iff in Hp; [|reflexivity]. subst p. do 4 eexists. split; [|split; [discriminate|]].
    + apply in_ro; [reflexivity|]. apply in_app_iff. right. left. reflexivity.
    + split; reflexivity.
  - apply saysAuu_iff in Hp; [|reflexivity]. subst p. do 4 eexists. split; [|split; [discriminate|]].
    + apply in_second; [reflexivity|reflexivity|]. unfold secondF. rewrite !in_app_iff. right. right. right.
      destruct Hx as [->| ->]; left; reflexivity.
    + split; reflexivity.
  - apply saysA_iff in Hp; [|exact Hc]. subst p. do 4 eexists. split; [|split; [discriminate|]].
    + cbn [initsF]. rewrite Hc, Hx. rewrite !in_app_iff. right. right. left. reflexivity.
    + split; reflexivity.
  - apply saysA_iff in Hp; [|exact Hc]. subst p. exists (pA c), RA, LOWS, V_UE. split; [|split; [discriminate|split; reflexivity]].
    apply in_ru; [exact Hc|]. rewrite ruF_who. apply noLongb_iff in Hn. apply ruNot8 in Hw. rewrite Hn.
    destruct Hw as [Hw|[Hw|Hw]]; rewrite Hw; cbn [In]; auto 6.
    assert (Q : endNext (x :: t) = false).
    { apply not_true_iff_false. intros Q. apply endNext_iff in Q. destruct Q as (y & u & E & Hy). inj E.
      apply He. split; [apply ruWho_5; exact Hw|exact Hy]. }
    rewrite Q. left. reflexivity.
Qed.
Lemma in_implied lk t pre s k v r : In (Com pre s k v r) (initsF lk t) -> r <> [] ->
  Implied t (preF (comF pre s k v r)) (saidF (comF pre s k v r)) r.
Proof.
  destruct t as [|c t]; cbn [initsF]; [intros []|]. destruct (consonant c) eqn:Ec; [|intros []].
  assert (SA : SaysA c (saidOf (preA (soundOf c) (classOf c)))) by (apply saysA_iff; auto).
  assert (SU : SaysAuu c (saidOf (preAuu (soundOf c) (classOf c)))) by (apply saysAuu_iff; auto).
  rewrite !in_app_iff. intros H Hr. destruct H as [H|[H|H]].
  - destruct t as [|d t]; [destruct H|]. destruct (consonant d) eqn:Ed.
    + unfold secondF in H. rewrite !in_app_iff in H. destruct H as [H|[H|[H|H]]].
      * unfold clustersF in H. destruct (d =n UTH_RO_RUA) eqn:E1.
        -- eqs. apply in_app_iff in H. destruct H as [H|H].
           ++ unfold roF in H. repeat match type of H with In _ (if ?b then _ else _) => destruct b end;
                try destruct H as [H|[]]; try discriminate; destruct H.
           ++ unfold auraF in H. destruct t as [|x t]; [destruct H|]. destruct (x =n UTH_RO_RUA) eqn:F1; [destruct H|].
              destruct (startsSyl x) eqn:F2.
              ** destruct (memN c auraCons) eqn:F3; [|destruct H]. apply aura_iff in F3. eqs. destruct H as [H|[]]. inj H.
                 apply M_aura; assumption.
              ** destruct ((UTH_SARA_I =n x) && (UTH_BO_BAIMAI =n c)) eqn:F4.
                 { apply andb_true_iff in F4. destruct F4. eqs. destruct H as [H|[]]. inj H.
                   destruct r as [|y r]; [contradiction|]. apply M_bori. exact SU. }
                 destruct ((UTH_SARA_A =n x) && (UTH_CHO_CHAN =n c)) eqn:F5; [|destruct H].
                 apply andb_true_iff in F5. destruct F5. eqs. destruct H as [H|[]]. inj H.
                 destruct r as [|y r]; [contradiction|]. apply M_jora. exact SU.
        -- repeat match type of H with In _ (if ?b then _ else _) => destruct b end;
             try destruct H as [H|[]]; try discriminate; destruct H.
      * repeat match type of H with In _ (if ?b then _ else _) => destruct b end;
          try destruct H as [H|[]]; try discriminate; destruct H.
      * repeat match type of H with In _ (if ?b then _ else _) => destruct b end;
          repeat destruct H as [H|H]; try discriminate; destruct H.
      * destruct ((UTH_BO_BAIMAI =n c) && (UTH_DO_DEK =n d)) eqn:F1; [|destruct H]. apply andb_true_iff in F1. destruct F1. eqs.
        destruct t as [|x t]; [destruct H|]. destruct ((UTH_SARA_I =n x) || (UTH_SARA_II =n x)) eqn:F2; [|destruct H].
        apply orb_true_iff in F2. rewrite !N.eqb_eq in F2. destruct H as [H|[]]. inj H. apply M_bodi; [|exact SU].
        destruct F2; auto.
    + destruct (UTH_RU =n d) eqn:Er; [|destruct H]. eqs. rewrite ruF_who in H. destruct (noLongb t) eqn:En; [|destruct H].
      apply noLongb_iff in En.
      assert (K : ruWho c = 5 /\ endNext t = false \/ ruWho c = 6 \/ ruWho c = 7 ->
        Com pre s k v r = Com (pA c) RA LOWS V_UE t ->
        Implied (c :: UTH_RU :: t) (preF (comF pre s k v r)) (saidF (comF pre s k v r)) r).
      { intros W E. inj E. destruct t as [|x t]; [contradiction|]. apply M_rue; try assumption.
        - apply ruNot8. tauto.
        - intros (A & B). apply ruWho_5 in A. destruct W as [(_ & W)|[W|W]]; [|congruence|congruence].
          assert (endNext (x :: t) = true) by (apply endNext_iff; eauto). congruence. }
      pose proof (ruWho_range c) as R.
      destruct R as [W|[W|[W|[W|[W|[W|W]]]]]]; rewrite W in H; cbn [In] in H.
      * destruct H as [H|[]]. discriminate.
      * destruct H as [H|[H|[]]]; discriminate.
      * destruct H as [H|[]]. discriminate.
      * destruct H as [H|[]]. discriminate.
      * destruct (endNext t) eqn:Ee; destruct H as [H|[]]; [discriminate|]. apply K; auto.
      * destruct H as [H|[H|[H|[]]]]; try discriminate. apply K; auto.
      * destruct H as [H|[H|[H|[H|[H|[]]]]]]; try discriminate. apply K; auto.
  - destruct H as [H|[]]. discriminate.
  - destruct t as [|d t]; [destruct H|]. destruct (startsSyl d) eqn:Ed; [|destruct H]. destruct H as [H|[]]. inj H.
    apply M_a; assumption.
Qed.

(** ** Readings *)
Lemma reads_found lk t p x r b : Reads lk t p x r b ->
  exists y, In y (readsF lk t) /\ preF y = p /\ saidF y = x /\ rRest y = r /\ rShared y = b.
Proof.
  intros H. destruct H as [t o t1 v e m r b p x I R L S|t o t1 v e m r b p x I R L S|l t o t1 v e m r b p x I R L S
    |t p x r M|c t v e r b tn Hc R T].
  - pose proof (initial_ok _ _ _ _ I) as Ok. destruct (rime_valid _ _ _ _ _ _ _ _ Ok R) as (Hv & Hm).
    apply (leads_iff _ _ _ _ _ I) in L. apply (sounds_iff _ _ _ _ _ (initial_class _ _ _ _ I) Hv Hm) in S. subst p x.
    destruct (initial_hd _ _ _ _ I) as (c & u & -> & Hc).
    exists (toRdF o (v, e, m, r, b)). split; [|repeat split].
    cbn [readsF]. rewrite Hc. apply in_flat_map. exists (Inc o t1). split; [apply initsF_iff; exact I|].
    cbn [thF]. apply in_map. apply rimesF_iff; assumption.
  - destruct (rimeE_valid _ _ _ _ _ _ _ R) as (Hv & Hm).
    apply (leads_iff _ _ _ _ _ I) in L. apply (sounds_iff _ _ _ _ _ (initial_class _ _ _ _ I) Hv Hm) in S. subst p x.
    exists (toRdF o (v, e, m, r, b)). split; [|repeat split].
    cbn [readsF]. change (consonant UTH_SARA_E) with false. rewrite N.eqb_refl. apply in_flat_map. exists (Inc o t1).
    split; [apply initsF_iff; exact I|]. cbn [eF]. apply in_map. apply rimeE_in. exact R.
  - destruct (rimeL_valid _ _ _ _ _ _ _ R) as (Hv & Hm).
    apply (leads_iff _ _ _ _ _ I) in L. apply (sounds_iff _ _ _ _ _ (initial_class _ _ _ _ I) Hv Hm) in S. subst p x.
    exists (toRdF o (v, e, m, r, b)). split; [|repeat split].
    assert (Hl : consonant l = false /\ (UTH_SARA_E =n l) = false /\ leadVowel l = true) by (destruct R; repeat split; reflexivity).
    destruct Hl as (H1 & H2 & H3). cbn [readsF]. rewrite H1, H2, H3. apply in_flat_map. exists (Inc o t1).
    split; [apply initsF_iff; exact I|]. cbn [lvF]. apply in_map. apply rimeL_in. exact R.
  - destruct (implied_in lk _ _ _ _ M) as (pre & s & k & v & Hi & Hr & Hp & Hx).
    exists (comF pre s k v r). split; [|repeat split; assumption].
    assert (Q : exists c u, t = c :: u /\ consonant c = true).
    { destruct t as [|c u]; [destruct Hi|]. exists c, u. split; [reflexivity|]. cbn [initsF] in Hi. destruct (consonant c); [reflexivity|destruct Hi]. }
    destruct Q as (c & u & -> & Hc). cbn [readsF]. rewrite Hc. apply in_flat_map. exists (Com pre s k v r). split; [exact Hi|].
    cbn [thF]. destruct r as [|y r]; [contradiction|]. left. reflexivity.
  - pose proof (rimeRu_valid _ _ _ _ _ R) as Hv. apply toned_iff in T; [|discriminate..]. subst tn.
    exists (toRdF (ruInit c) (v, e, SAMAN, r, b)). split.
    + assert (Q : consonant c = false /\ (UTH_SARA_E =n c) = false /\ leadVowel c = false /\ (UTH_RU =n c) || (UTH_LU =n c) = true).
      { destruct Hc as [->| ->]; repeat split; reflexivity. }
      destruct Q as (H1 & H2 & H3 & H4). cbn [readsF]. rewrite H1, H2, H3, H4. apply in_map. apply rimesRuF_iff. auto.
    + repeat split. unfold saidF. cbn [toRdF ruInit rSound rSecond rVowel rFinal rClass rMark oSound oSecond oClass oLead].
      rewrite (dead_ok v e Hv), (short_ok v Hv). reflexivity.
Qed.
Lemma found_reads lk t y : In y (readsF lk t) -> Reads lk t (preF y) (saidF y) (rRest y) (rShared y).
Proof.
  destruct t as [|c t]; cbn [readsF]; [intros []|]. destruct (consonant c) eqn:Ec.
  - intros H. apply in_flat_map in H. destruct H as (pt & Hi & Hy). destruct pt as [o r|pre s k v r]; cbn [thF] in Hy.
    + apply initsF_iff in Hi. apply in_map_iff in Hy. destruct Hy as (((((v & e) & m) & u) & b) & <- & R).
      pose proof (initial_ok _ _ _ _ Hi) as Ok. apply (rimesF_iff _ _ _ _ _ _ _ _ Ok) in R.
      destruct (rime_valid _ _ _ _ _ _ _ _ Ok R) as (Hv & Hm). cbn [toRdF rRest rShared].
      eapply Rd_plain; [exact Hi|exact R| |].
      * apply (leads_iff _ _ _ _ _ Hi). reflexivity.
      * apply (sounds_iff _ _ _ _ _ (initial_class _ _ _ _ Hi) Hv Hm). reflexivity.
    + destruct r as [|z r]; [destruct Hy|]. destruct Hy as [<-|[]]. cbn [rRest rShared]. apply Rd_implied.
      apply (in_implied lk (c :: t) pre s k v (z :: r) Hi). discriminate.
  - destruct (UTH_SARA_E =n c) eqn:Ee.
    + eqs. intros H. apply in_flat_map in H. destruct H as (pt & Hi & Hy). destruct pt as [o r|pre s k v r]; cbn [eF] in Hy; [|destruct Hy].
      apply initsF_iff in Hi. apply in_map_iff in Hy. destruct Hy as (((((v & e) & m) & u) & b) & <- & R).
      apply rimesEF_rime in R. destruct (rimeE_valid _ _ _ _ _ _ _ R) as (Hv & Hm). cbn [toRdF rRest rShared].
      eapply Rd_e; [exact Hi|exact R| |].
      * apply (leads_iff _ _ _ _ _ Hi). reflexivity.
      * apply (sounds_iff _ _ _ _ _ (initial_class _ _ _ _ Hi) Hv Hm). reflexivity.
    + destruct (leadVowel c) eqn:El.
      * intros H. apply in_flat_map in H. destruct H as (pt & Hi & Hy). destruct pt as [o r|pre s k v r]; cbn [lvF] in Hy; [|destruct Hy].
        apply initsF_iff in Hi. apply in_map_iff in Hy. destruct Hy as (((((v & e) & m) & u) & b) & <- & R).
        apply rimesLF_rime in R. destruct (rimeL_valid _ _ _ _ _ _ _ R) as (Hv & Hm). cbn [toRdF rRest rShared].
        eapply Rd_lead; [exact Hi|exact R| |].
        -- apply (leads_iff _ _ _ _ _ Hi). reflexivity.
        -- apply (sounds_iff _ _ _ _ _ (initial_class _ _ _ _ Hi) Hv Hm). reflexivity.
      * destruct ((UTH_RU =n c) || (UTH_LU =n c)) eqn:Er; [|intros []]. intros H. apply in_map_iff in H.
        destruct H as (((((v & e) & m) & u) & b) & <- & R). apply rimesRuF_iff in R. destruct R as (R & ->).
        pose proof (rimeRu_valid _ _ _ _ _ R) as Hv. cbn [toRdF rRest rShared preF rPre ruInit oLead preOf option_map].
        unfold saidF. cbn [toRdF ruInit rSound rSecond rVowel rFinal rClass rMark oSound oSecond oClass oLead].
        apply Rd_ru; [|exact R|].
        -- apply orb_true_iff in Er. rewrite !N.eqb_eq in Er. destruct Er; [left|right]; auto.
        -- rewrite (dead_ok v e Hv), (short_ok v Hv). apply toned_iff; [discriminate..|reflexivity].
Qed.

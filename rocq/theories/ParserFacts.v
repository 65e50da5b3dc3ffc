(** ParserFacts.v - what every action of the parser's main loop can be. *)
From Coq Require Import String List NArith ZArith Bool Arith Lia Sorted.
From Verif Require Import Spec Base ThUni ThCons Syl OrderProofs Lattice LatticeProofs
  Dag DagProofs PronDag PathProofs GroupProofs ListDagProofs Dict DictProofs Parser Wp
  ParserSpec ParserRules ParserActs.
Import ListNotations.
Local Open Scope nat_scope.

(** ** Dictionary vocabulary *)
(** The pronunciations the dictionary lists for the word [k]. *)
Definition listed (d : Dict) (k : list N) (strs : list SylString) : Prop :=
  exists data, matchGetData d (mkMatch 0 k []) = Ok data /\ MakeSylStrings data = Ok strs.
(** Every word has pronunciations made of well-formed syllables whose
    positions go up from 0 to the length of the word. *)
Definition dictOK (d : Dict) : Prop :=
  forall k v, holds d k v -> k <> [] -> inAbc k ->
  exists strs, listed d k strs /\
    Forall (fun s => wellPositioned (Z.of_nat (length k)) s /\ Forall wellFormed s) strs.
Definition dictOKo (o : option Dict) : Prop := forall d, o = Some d -> dictOK d.
(** The word [k] can be taken at [pos] in a word that ends at [stop]. *)
Definition applicable (ct : CType) (w : list N) (d : Dict) (pos stop : nat) (k : list N) : Prop :=
  (exists v, holds d k v) /\ k <> [] /\ inAbc k /\ writtenAt w pos k /\
  pos + length k <= stop /\ (pos + length k = stop \/ sylStartAt ct w (pos + length k)).
Definition noEntry (ct : CType) (w : list N) (o : option Dict) (pos stop : nat) : Prop :=
  forall d k, o = Some d -> ~ applicable ct w d pos stop k.

(** ** Functions without fuel *)
Definition NF {A} (m : Res A) : Prop := m <> NoFuel.
Lemma NF_bind {A B} (m : Res A) (k : A -> Res B) : NF m -> (forall a, NF (k a)) -> NF (bind m k).
Proof. unfold NF. destruct m; cbn; auto; congruence. Qed.
Lemma NF_mapM {A B} (f : A -> Res B) l : (forall a, NF (f a)) -> NF (mapM f l).
Proof.
  intros H. induction l as [|a l IH]; cbn [mapM]; [discriminate|].
  apply NF_bind; [apply H|]. intros b. apply NF_bind; [exact IH|]. intros; discriminate.
Qed.
Lemma NF_assoc {K V} (eqb : K -> K -> bool) (t : list (K * V)) k : NF (assocAt eqb t k).
Proof.
  induction t as [|(x & v) t IH]; cbn [assocAt]; [discriminate|].
  destruct (eqb _ _); [discriminate|exact IH].
Qed.
Lemma NF_strIdx s : forall i, NF (strIdx s i).
Proof. induction s as [|c s IH]; intros [|i]; cbn [strIdx]; try discriminate. apply IH. Qed.
Lemma NF_stoi s : NF (stoi s).
Proof.
  assert (D : forall b t, NF (stoiDigits b t)).
  { intros b [|c t]; cbn [stoiDigits]; [discriminate|].
    destruct (digitVal c); [|discriminate]. destruct (inInt _); discriminate. }
  unfold stoi. destruct (skipSpaces s) as [|c t]; [apply D|].
  destruct c as [[] [] [] [] [] [] [] []]; apply D.
Qed.
Lemma NF_SylOfDesc s p : NF (SylOfDesc s p).
Proof.
  unfold SylOfDesc.
  repeat (apply NF_bind; [first [apply NF_strIdx|apply NF_assoc]|intros]).
  apply NF_bind; [|intros; discriminate].
  destruct (_ <? _)%nat; [|discriminate]. apply NF_bind; [apply NF_strIdx|]. intros c.
  destruct (Ascii.eqb c _); [apply NF_stoi|discriminate].
Qed.
Lemma MakeSylStrings_fuel s : MakeSylStrings s <> NoFuel.
Proof. apply NF_mapM. intros. apply NF_mapM. intros. apply NF_SylOfDesc. Qed.
Lemma matchGetData_fuel d m : matchGetData d m <> NoFuel.
Proof.
  unfold matchGetData. destruct (mTrie d); [|discriminate]. destruct (_ =? _)%Z; [discriminate|].
  unfold dictGetData. destruct (mData d) as [b|]; [|discriminate]. destruct (_ <? _)%Z; [discriminate|].
  assert (C : forall s, NF (cstr s)).
  { intros x. induction x as [|c x IH]; cbn [cstr]; [discriminate|]. destruct (Ascii.eqb _ _); [discriminate|].
    apply NF_bind; [exact IH|]. intros; discriminate. }
  generalize (Z.to_nat (trieGetData t (mPre m))). intros k. revert b.
  induction k as [|k IH]; intros b; [destruct b; apply C|]. cbn [cstrFrom].
  destruct b; [discriminate|apply IH].
Qed.

Section Facts.
Variable ct : CType.
Variable w : list N.
Variable dict : option Dict.
Variable brk : list nat.
Notation n := (length w).
Notation isCons := (th_wcisthcons ct).
Notation tokAt := (tokenAt ct w).

Lemma token_eq c : IsThaiTokenChar ct c = tokenChar ct c.
Proof.
  unfold IsThaiTokenChar, IsWordChar, tokenChar.
  rewrite (N.eqb_sym 46 c), (N.eqb_sym UTH_MAITAIKHU c), (N.eqb_sym UTH_THANTHAKHAT c).
  rewrite !orb_assoc. reflexivity.
Qed.
Lemma tokAt_lt k : tokAt k -> k < n.
Proof. intros (c & H & _). apply nth_error_Some. congruence. Qed.
Lemma tokAt_dec k : tokAt k \/ ~ tokAt k.
Proof.
  unfold tokenAt. destruct (nth_error w k) as [c|] eqn:E.
  - destruct (tokenChar ct c) eqn:T.
    + left. exists c. auto.
    + right. intros (c' & H & T'). congruence.
  - right. intros (c' & H & _). congruence.
Qed.

(** ** Gaps *)
Lemma skipNonThaiF_spec k : forall b, k = n - b ->
  let e := skipNonThaiF ct k w b in
  b <= e /\ (forall i, b <= i < e -> ~ tokAt i) /\ (b <= n -> e <= n /\ (e = n \/ tokAt e)).
Proof.
  induction k as [|k IH]; intros b Hk; cbn [skipNonThaiF].
  - split; [lia|]. split; [intros; lia|]. intros. split; [lia|]. left; lia.
  - destruct (nth_error w b) as [c|] eqn:E.
    + rewrite token_eq. destruct (tokenChar ct c) eqn:T.
      * split; [lia|]. split; [intros; lia|]. intros. split; [lia|]. right. exists c. auto.
      * destruct (IH (S b) ltac:(lia)) as (A & B & C). split; [lia|]. split.
        -- intros i Hi. destruct (Nat.eq_dec i b) as [->|]; [|apply B; lia].
           intros (c' & H & T'). congruence.
        -- intros _. apply C. lia.
    + apply nth_error_None in E. lia.
Qed.
Lemma SkipNonThai_spec b : b <= n ->
  let e := SkipNonThai ct w b in
  b <= e <= n /\ (forall i, b <= i < e -> ~ tokAt i) /\ (e = n \/ tokAt e).
Proof.
  intros Hb. destruct (skipNonThaiF_spec (n - b) b eq_refl) as (A & B & C).
  destruct (C Hb). unfold SkipNonThai. cbv zeta. auto.
Qed.

Lemma nextBrk_cases b l :
  (Forall (fun y => y <= b) l /\ nextBrk n b l = n) \/
  (exists l1 l2, l = l1 ++ nextBrk n b l :: l2 /\ b < nextBrk n b l /\
                 Forall (fun y => y <= b) l1).
Proof.
  induction l as [|a l IH]; cbn [nextBrk]; [left; auto|].
  destruct (Nat.ltb_spec b a) as [L|L].
  - right. exists [], l. auto.
  - destruct IH as [(A & B)|(l1 & l2 & A & B & C)]; [left; auto|].
    right. exists (a :: l1), l2. split; [cbn; f_equal; exact A|]. auto.
Qed.
Lemma nextBrk_first b x : firstBreak brk b x -> nextBrk n b brk = x.
Proof.
  intros (l1 & l2 & -> & L & F). induction F as [|y l1 Hy F IH]; cbn [app nextBrk].
  - destruct (Nat.ltb_spec b x); [reflexivity|lia].
  - destruct (Nat.ltb_spec b y); [lia|exact IH].
Qed.

Section Excuse.
Variable F : Prop.
Hypothesis ctOK : F \/ ctype_ok ct.
Hypothesis brkOK : F \/ Forall (fun b => b <= n) brk.

Lemma wordStopF_sat k : forall b, (F \/ b + k <= n) ->
  Sat F (wordStopF ct k w b) (fun e => b <= e <= b + k /\
    (forall i, b <= i < e -> tokAt i) /\ (e = b + k \/ ~ tokAt e) /\
    (tokAt b -> 0 < k -> b < e)).
Proof.
  induction k as [|k IH]; intros b Hb; cbn [wordStopF].
  - cbn [Sat]. split; [lia|]. split; [intros; lia|]. split; [left; lia|lia].
  - apply Sat_bind, Sat_at16'; [intros; destruct Hb; [assumption|lia]|]. intros c Hc.
    rewrite token_eq. destruct (tokenChar ct c) eqn:T; cbn [Sat].
    + eapply Sat_mono; [apply IH; destruct Hb; [left; assumption|right; lia]|].
      cbv beta. intros e _ (A & B & C & D). split; [lia|]. split.
      * intros i Hi. destruct (Nat.eq_dec i b) as [->|]; [exists c; auto|apply B; lia].
      * split; [|lia]. destruct C as [C|C]; [left; lia|right; exact C].
    + assert (NT : ~ tokAt b) by (intros (c' & H & T'); congruence).
      split; [lia|]. split; [intros; lia|]. split; [right; exact NT|]. intros H. contradiction.
Qed.

Lemma NextWordStop_sat b : tokAt b ->
  Sat F (NextWordStop ct w b brk) (wordEnd ct w brk b).
Proof.
  intros Tb. pose proof (tokAt_lt _ Tb) as Hb. unfold NextWordStop.
  assert (L : b < nextBrk n b brk).
  { destruct (nextBrk_cases b brk) as [(_ & E)|(l1 & l2 & _ & L & _)]; [rewrite E|]; assumption. }
  eapply Sat_mono; [apply wordStopF_sat|].
  - destruct brkOK as [f|B]; [left; exact f|right].
    destruct (nextBrk_cases b brk) as [(_ & E)|(l1 & l2 & E & _ & _)]; [lia|].
    rewrite Forall_forall in B. specialize (B (nextBrk n b brk)).
    assert (In (nextBrk n b brk) brk) by (rewrite E at 2; apply in_or_app; right; left; reflexivity).
    specialize (B H). lia.
  - cbv beta. intros e _ (A & B & C & D).
    assert (Hbe : b < e) by (apply D; [exact Tb|lia]).
    constructor; auto.
    + assert (T := tokAt_lt _ (B (e - 1) ltac:(lia))). lia.
    + intros x Hx. apply nextBrk_first in Hx. lia.
    + destruct C as [C|C]; [|right; right; exact C].
      destruct (nextBrk_cases b brk) as [(_ & E)|(l1 & l2 & E & L1 & F1)]; [left; lia|].
      right; left. replace e with (nextBrk n b brk) by lia. exists l1, l2. auto.
Qed.

(** ** Abbreviations *)
Definition letterSyl (s0 : EInitConsSound) (k0 : EInitConsClass) (e : nat) : Syl :=
  SylOf s0 SEC_NONE V_AUU EC_NONE (if ic_eqb HIGH k0 then CHATTAWA else SAMAN) (Z.of_nat e).
Inductive AbbrG (e : nat) : nat -> list Edge -> Prop :=
| AB_nil : AbbrG e e []
| AB_cons p c s0 k0 es : p < e -> nth_error w p = Some c -> isCons c = true ->
    InitConsSound c = Ok s0 -> InitConsClass c = Ok k0 -> AbbrG e (p + 1) es ->
    AbbrG e p ((Z.of_nat p, Z.of_nat (p + 1), letterSyl s0 k0 (p + 1)) :: es)
| AB_period p c s0 k0 : p + 2 = e -> nth_error w p = Some c -> isCons c = true ->
    InitConsSound c = Ok s0 -> InitConsClass c = Ok k0 -> nth_error w (p + 1) = Some 46%N ->
    AbbrG e p [(Z.of_nat p, Z.of_nat (p + 2), letterSyl s0 k0 (p + 2))]
| AB_dot p : p + 1 = e -> nth_error w p = Some 46%N ->
    AbbrG e p [(Z.of_nat p, Z.of_nat (p + 1), SylLiteral (Z.of_nat (p + 1)) [46%N])].

Lemma abbrScan_sat k : forall i nc c, i + k <= n ->
  Sat F (abbrScan ct k w i nc c) (fun r => forall e m c', r = Some (e, m, c') ->
    i <= e <= i + k /\
    (forall j, i <= j -> j + 1 < e -> exists c, nth_error w j = Some c /\ isCons c = true) /\
    (i < e -> exists cl, nth_error w (e - 1) = Some cl /\
       ((isCons cl = true /\ e = i + k) \/ (isCons cl = false /\ cl = 46%N))) /\
    (0 < k -> i < e)).
Proof.
  induction k as [|k IH]; intros i nc c Hi; cbn [abbrScan].
  - cbn [Sat]. intros e m c' H. injection H as <- _ _.
    split; [lia|]. split; [intros; lia|]. split; [lia|lia].
  - apply Sat_bind, Sat_at16; [lia|]. intros c0 Hc0.
    destruct (isCons c0) eqn:Ec.
    + destruct (4 <? S nc); cbn [Sat]; [discriminate|].
      eapply Sat_mono; [apply IH; lia|]. cbv beta. intros r _ Hr e m c' H.
      destruct (Hr e m c' H) as (A & B & C & D). split; [lia|]. split; [|split; [|lia]].
      * intros j J1 J2. destruct (Nat.eq_dec j i) as [->|]; [exists c0; auto|apply B; lia].
      * intros _. destruct (Nat.eq_dec e (S i)) as [->|].
        -- exists c0. replace (S i - 1) with i by lia. split; [exact Hc0|].
           left. split; [exact Ec|]. destruct k; [lia|]. specialize (D ltac:(lia)). lia.
        -- destruct C as (cl & C1 & C2); [lia|]. exists cl. split; [exact C1|].
           destruct C2 as [(X & Y)|X]; [left; split; [exact X|lia]|right; exact X].
    + destruct (46 =? c0)%N eqn:E46; [|cbn [Sat]; discriminate].
      apply N.eqb_eq in E46. subst c0.
      destruct (4 <? nc); cbn [Sat]; [discriminate|].
      intros e m c' H. injection H as <- _ _.
      split; [lia|]. split; [intros; lia|]. split; [|lia].
      intros _. exists 46%N. replace (S i - 1) with i by lia. auto.
Qed.

Lemma abbrEs_sat fuel : forall p e, e - p <= fuel -> p <= e -> e <= n ->
  (forall j, p <= j -> j + 1 < e -> exists c, nth_error w j = Some c /\ isCons c = true) ->
  (p < e -> exists cl, nth_error w (e - 1) = Some cl /\
     (isCons cl = true \/ (isCons cl = false /\ cl = 46%N))) ->
  Sat F (abbrEs ct fuel w p e) (AbbrG e p).
Proof.
  induction fuel as [|fuel IH]; intros p e Hf Hp Hn HC HL; cbn [abbrEs].
  - destruct (Nat.leb_spec e p); [|lia]. cbn [Sat]. replace p with e by lia. constructor.
  - destruct (Nat.leb_spec e p) as [L|L].
    { cbn [Sat]. replace p with e by lia. constructor. }
    apply Sat_bind, Sat_at16; [lia|]. intros c Hc.
    destruct (isCons c) eqn:Ec.
    + apply Sat_bind. destruct (Nat.ltb_spec (p + 1) e) as [L1|L1].
      * apply Sat_bind, Sat_at16; [lia|]. intros c1 Hc1. cbn [Sat].
        destruct (isCons c1) eqn:Ec1; cbn [negb].
        -- apply Sat_bind. eapply Sat_mono; [apply (sound_sat ct F ctOK); exact Ec|]. intros s0 _ Hs0.
           apply Sat_bind. eapply Sat_mono; [apply (class_sat ct F ctOK); exact Ec|]. intros k0 _ Hk0.
           apply Sat_bind. eapply Sat_mono; [apply IH; try lia|].
           ++ intros j J1 J2. apply HC; lia.
           ++ intros _. apply HL. lia.
           ++ intros es _ He. cbn [Sat]. eapply AB_cons; eauto.
        -- assert (E2 : p + 2 = e).
           { destruct (Nat.eq_dec (p + 2) e); [assumption|exfalso].
             destruct (HC (p + 1)) as (x & X1 & X2); [lia|lia|]. congruence. }
           assert (E3 : c1 = 46%N).
           { destruct (HL L) as (cl & X1 & X2). replace (e - 1) with (p + 1) in X1 by lia.
             rewrite Hc1 in X1. injection X1 as <-. destruct X2 as [X2|(_ & X2)]; [congruence|exact X2]. }
           apply Sat_bind. eapply Sat_mono; [apply (sound_sat ct F ctOK); exact Ec|]. intros s0 _ Hs0.
           apply Sat_bind. eapply Sat_mono; [apply (class_sat ct F ctOK); exact Ec|]. intros k0 _ Hk0.
           assert (Ez : abbrEs ct fuel w (p + 2) e = Ok []).
           { destruct fuel; cbn [abbrEs]; (destruct (Nat.leb_spec e (p + 2)); [reflexivity|lia]). }
           rewrite Ez. cbn [bind Sat]. subst c1. eapply AB_period; eauto.
      * cbn [Sat]. 
        apply Sat_bind. eapply Sat_mono; [apply (sound_sat ct F ctOK); exact Ec|]. intros s0 _ Hs0.
        apply Sat_bind. eapply Sat_mono; [apply (class_sat ct F ctOK); exact Ec|]. intros k0 _ Hk0.
        apply Sat_bind. eapply Sat_mono; [apply IH; try (intros; exfalso; lia); lia|].
        intros es _ He. cbn [Sat]. eapply AB_cons; eauto.
    + assert (E1 : p + 1 = e).
      { destruct (Nat.eq_dec (p + 1) e); [assumption|exfalso].
        destruct (HC p) as (x & X1 & X2); [lia|lia|]. congruence. }
      assert (E3 : c = 46%N).
      { destruct (HL L) as (cl & X1 & X2). replace (e - 1) with p in X1 by lia.
        rewrite Hc in X1. injection X1 as <-. destruct X2 as [X2|(_ & X2)]; [congruence|exact X2]. }
      assert (Ez : abbrEs ct fuel w (p + 1) e = Ok []).
      { destruct fuel; cbn [abbrEs]; (destruct (Nat.leb_spec e (p + 1)); [reflexivity|lia]). }
      rewrite Ez. cbn [bind Sat]. subst c. eapply AB_dot; eauto.
Qed.

(** ** All actions *)
Inductive ActG (pos stop : nat) (linked : bool) : Act -> Prop :=
| AG_gap e st es :
    stop <= pos -> pos <= e <= n -> (forall i, pos <= i < e -> ~ tokAt i) ->
    (e = n /\ st = e \/ tokAt e /\ wordEnd ct w brk e st) ->
    (pos < e /\ es = [(Z.of_nat pos, Z.of_nat e,
                       SylLiteral (Z.of_nat e) (firstn (e - pos) (skipn pos w)))]
     \/ pos = e /\ es = []) ->
    ActG pos stop linked (mkAct e st linked false es)
| AG_exc d k strs :
    pos < stop -> dict = Some d -> applicable ct w d pos stop k -> listed d k strs ->
    ActG pos stop linked (mkAct (pos + length k) stop false false (excEdges pos strs))
| AG_abbr e es :
    pos < stop -> noEntry ct w dict pos stop -> letterStart w pos ->
    pos < e <= stop -> AbbrG e pos es ->
    ActG pos stop linked (mkAct e stop false false es)
| AG_rule c l em :
    pos < stop -> noEntry ct w dict pos stop -> nth_error w pos = Some c ->
    ruleEms ct w pos stop linked c = Ok l -> In em l ->
    EmG ct w 1 pos stop em ->
    (stop < emPos em -> exists c', nth_error w (pos + 1) = Some c' /\ isCons c' = true) ->
    ActG pos stop linked (emAct pos stop em)
| AG_dot :
    pos < stop -> noEntry ct w dict pos stop -> nth_error w pos = Some 46%N ->
    ~ letterStart w pos ->
    ActG pos stop linked (mkAct (pos + 1) stop linked true []).

Lemma gapAct_sat pos stop linked : pos < n -> stop <= pos ->
  Sat F (gapAct ct w brk pos linked) (ActG pos stop linked).
Proof.
  intros Hp Hs. unfold gapAct. cbv zeta.
  destruct (SkipNonThai_spec pos ltac:(lia)) as (A & B & C).
  set (e := SkipNonThai ct w pos) in *.
  assert (E : (if pos <? e then e else pos) = e) by (destruct (Nat.ltb_spec pos e); lia).
  rewrite E. apply Sat_bind.
  assert (G : forall st, (e = n /\ st = e \/ tokAt e /\ wordEnd ct w brk e st) ->
    Sat F (Ok (mkAct e st linked false
        (if pos <? e
         then [(Z.of_nat pos, Z.of_nat e,
                SylLiteral (Z.of_nat e) (firstn (e - pos) (skipn pos w)))]
         else []))) (ActG pos stop linked)).
  { intros st Hst. cbn [Sat]. apply AG_gap; auto; try lia.
    destruct (Nat.ltb_spec pos e); [left; auto|right; split; [lia|reflexivity]]. }
  destruct (Nat.ltb_spec e n) as [L|L].
  - destruct C as [C|C]; [lia|].
    eapply Sat_mono; [apply NextWordStop_sat; exact C|]. intros st _ Hst. apply G. auto.
  - cbn [Sat]. apply G. left. lia.
Qed.

Hypothesis dictWF : F \/ dictOKo dict.

Lemma sylStart_dec i stop : stop <= n ->
  Sat F (stopOrSylStart ct w i stop) (fun r => r = true <-> (stop <= i \/ sylStartAt ct w i)).
Proof.
  intros Hn. unfold stopOrSylStart. destruct (Nat.leb_spec stop i) as [L|L]; cbn [Sat].
  - split; auto.
  - apply Sat_bind, Sat_at16; [lia|]. intros c Hc. cbn [Sat]. unfold IsSylStart. split.
    + intros H. right. exists c. auto.
    + intros [H|(c' & H & H')]; [lia|]. congruence.
Qed.

Lemma matchGetData_pre d m : matchGetData d m = matchGetData d (mkMatch 0 (mPre m) []).
Proof. reflexivity. Qed.

Lemma excAct_sat d pos stop linked m : dict = Some d -> pos < stop -> stop <= n ->
  In m (allMatches (S n) d (MatchNew w pos)) ->
  Sat F (excAct ct w pos stop d m) (fun r =>
    (forall a, r = Some a -> ActG pos stop linked a /\ applicable ct w d pos stop (mPre m)) /\
    (r = None -> ~ applicable ct w d pos stop (mPre m))).
Proof.
  intros Hd Hp Hs Hm.
  destruct (allMatches_spec d w pos ltac:(lia)) as (A & _ & _).
  destruct (A m Hm) as (v & H1 & H2 & H3 & H4 & H5). unfold excAct.
  destruct (Nat.ltb_spec stop (mCurPos m)) as [L|L]; cbn [Sat].
  { split; [discriminate|]. intros _ (_ & _ & _ & _ & X & _). lia. }
  apply Sat_bind. eapply Sat_mono; [apply sylStart_dec; exact Hs|]. cbv beta. intros ok _ Hok.
  destruct ok; cbn [negb Sat].
  - assert (AP : applicable ct w d pos stop (mPre m)).
    { split; [exists v; exact H1|]. repeat (split; [assumption|]). split; [lia|].
      destruct (proj1 Hok eq_refl) as [X|X]; [left; lia|right; rewrite <- H5; exact X]. }
    assert (G : forall strs, listed d (mPre m) strs ->
      (forall a, Some (mkAct (mCurPos m) stop false false (excEdges pos strs)) = Some a ->
         ActG pos stop linked a /\ applicable ct w d pos stop (mPre m)) /\
      (Some (mkAct (mCurPos m) stop false false (excEdges pos strs)) = None ->
         ~ applicable ct w d pos stop (mPre m))).
    { intros strs Hl. split; [|discriminate]. intros a Ha. injection Ha as <-.
      split; [|exact AP]. rewrite H5. apply (AG_exc _ _ _ d); auto. }
    rewrite matchGetData_pre. destruct dictWF as [f|W].
    + destruct (matchGetData d (mkMatch 0 (mPre m) [])) as [data| | |] eqn:E1; cbn [bind Sat]; auto.
      * destruct (MakeSylStrings data) as [strs| | |] eqn:E2; cbn [bind Sat]; auto.
        -- apply G. exists data. auto.
        -- exact (MakeSylStrings_fuel _ E2).
      * exact (matchGetData_fuel _ _ E1).
    + destruct (W d Hd (mPre m) v H1 H2 H3) as (strs & Hl & _).
      destruct Hl as (data & D1 & D2). rewrite D1. cbn [bind]. rewrite D2. cbn [bind Sat].
      apply G. exists data. auto.
  - split; [discriminate|]. intros _ (_ & _ & _ & _ & X & Y). 
    assert (false = true); [|discriminate]. apply Hok.
    destruct Y as [Y|Y]; [left; lia|right]. rewrite H5. exact Y.
Qed.

Lemma excActs_sat d pos stop linked : dict = Some d -> pos < stop -> stop <= n ->
  Sat F (excActs ct w pos stop d) (fun l => Forall (ActG pos stop linked) l /\
    (l = [] -> forall k, ~ applicable ct w d pos stop k)).
Proof.
  intros Hd Hp Hs. unfold excActs. apply Sat_bind.
  destruct (allMatches_spec d w pos ltac:(lia)) as (A & _ & C).
  set (ms := allMatches (S n) d (MatchNew w pos)) in *.
  apply (Sat_mono F _ (fun r => forall m, In m ms -> exists o, In o r /\
     (forall a, o = Some a -> ActG pos stop linked a) /\
     (o = None -> ~ applicable ct w d pos stop (mPre m)))).
  2:{ intros r Er Hr. cbn [Sat]. split.
      - rewrite Forall_forall. intros a Ha. apply keepSome_in in Ha.
        destruct (mapM_in _ _ _ _ Er Ha) as (m & Hm & Em).
        pose proof (excAct_sat d pos stop linked m Hd Hp Hs Hm) as X. rewrite Em in X.
        apply X. reflexivity.
      - intros E k AP. destruct AP as ((v & H1) & H2 & H3 & H4 & H5).
        destruct (C k v H2 H4 H3 H1) as (m & Hm & Em).
        destruct (Hr m Hm) as (o & Ho & _ & No). destruct o as [a|].
        + apply keepSome_in in Ho. rewrite E in Ho. exact Ho.
        + apply (No eq_refl). rewrite Em. split; [exists v; exact H1|]. auto. }
  clear C. assert (M : forall m, In m ms -> In m ms) by auto. clear A.
  assert (G : forall l, (forall m, In m l -> In m ms) ->
    Sat F (mapM (excAct ct w pos stop d) l) (fun r => forall m, In m l -> exists o, In o r /\
     (forall a, o = Some a -> ActG pos stop linked a) /\
     (o = None -> ~ applicable ct w d pos stop (mPre m)))).
  { induction l as [|m l IH]; intros Hl; cbn [mapM].
    - cbn [Sat]. intros m [].
    - apply Sat_bind. eapply Sat_mono;
        [apply (excAct_sat d pos stop linked m Hd Hp Hs); apply Hl; left; reflexivity|].
      cbv beta. intros o _ (O1 & O2). apply Sat_bind.
      eapply Sat_mono; [apply IH; intros x Hx; apply Hl; right; exact Hx|].
      intros r _ Hr. cbn [Sat]. intros m' [<-|Hm'].
      + exists o. split; [left; reflexivity|]. split; [|exact O2].
        intros a Ha. apply O1. exact Ha.
      + destruct (Hr m' Hm') as (o' & Ho' & R). exists o'. split; [right; exact Ho'|exact R]. }
  apply G. exact M.
Qed.

Lemma atStart_sat pos : pos <= n ->
  Sat F (match pos with
         | O => Ok true
         | S i => bind (at16 w i) (fun c => Ok ((c =? 32)%N || (c =? 46)%N))
         end) (fun r => r = true <-> letterStart w pos).
Proof.
  intros Hp. destruct pos as [|i].
  - cbn [Sat]. split; [left; reflexivity|reflexivity].
  - apply Sat_bind, Sat_at16; [lia|]. intros c Hc. cbn [Sat].
    rewrite orb_true_iff, !N.eqb_eq. unfold letterStart.
    replace (S i - 1) with i by lia. split.
    + intros H. right. exists c. auto.
    + intros [H|(c' & H & R)]; [lia|]. congruence.
Qed.

Lemma abbrAct_sat pos stop linked : pos < stop -> stop <= n -> noEntry ct w dict pos stop ->
  Sat F (abbrAct ct w pos stop) (fun r =>
    (forall a, r = Some a -> ActG pos stop linked a) /\
    (r = None -> forall c, nth_error w pos = Some c -> isCons c = false -> c = 46%N ->
       ~ letterStart w pos)).
Proof.
  intros Hp Hs HN. unfold abbrAct. apply Sat_bind.
  eapply Sat_mono; [apply atStart_sat; lia|]. cbv beta. intros st _ Hst.
  destruct st; cbn [negb Sat].
  2:{ split; [discriminate|]. intros _ c _ _ _ H. apply Hst in H. discriminate. }
  apply Sat_bind.
  apply (Sat_mono F _ (fun r => (forall e m c', r = Some (e, m, c') ->
    pos <= e <= pos + (stop - pos) /\
    (forall j, pos <= j -> j + 1 < e -> exists c, nth_error w j = Some c /\ isCons c = true) /\
    (pos < e -> exists cl, nth_error w (e - 1) = Some cl /\
       ((isCons cl = true /\ e = pos + (stop - pos)) \/ (isCons cl = false /\ cl = 46%N))) /\
    (0 < stop - pos -> pos < e)) /\
    (forall c, nth_error w pos = Some c -> isCons c = false -> c = 46%N ->
       r = Some (S pos, 0, 46%N)))).
  { apply Sat_conj; [apply abbrScan_sat; lia|].
    replace (stop - pos) with (S (stop - pos - 1)) by lia. cbn [abbrScan].
    apply Sat_bind, Sat_at16; [lia|]. intros c0 Hc0. rewrite Hc0.
    destruct (isCons c0) eqn:Ec.
    - destruct (4 <? 1); [cbn [Sat]; congruence|].
      eapply Sat_mono; [apply abbrScan_sat; lia|]. congruence.
    - destruct (46 =? c0)%N eqn:E46; [|cbn [Sat]; intros c H1 H2 H3; injection H1 as <-;
        subst c0; discriminate].
      apply N.eqb_eq in E46. subst c0. cbn [Nat.ltb Nat.leb Sat]. auto. }
  cbv beta. intros r _ (R1 & R2). destruct r as [((e & m) & c')|].
  2:{ cbn [Sat]. split; [discriminate|]. intros _ c H1 H2 H3.
      specialize (R2 c H1 H2 H3). discriminate. }
  destruct (R1 e m c' eq_refl) as (B1 & B2 & B3 & B4).
  destruct ((1 <? m) && negb (c' =? 46)%N) eqn:Eg; cbn [Sat].
  { split; [discriminate|]. intros _ c H1 H2 H3.
    specialize (R2 c H1 H2 H3). injection R2 as -> -> ->. discriminate. }
  apply Sat_bind. eapply Sat_mono; [apply abbrEs_sat; try lia; auto|].
  { intros H. destruct (B3 H) as (cl & X & Y). exists cl. split; [exact X|].
    destruct Y as [(Y & _)|Y]; auto. }
  intros es _ He. cbn [Sat]. split; [|discriminate].
  intros a Ha. injection Ha as <-. apply AG_abbr; auto; [apply Hst; reflexivity|].
  specialize (B4 ltac:(lia)). lia.
Qed.

Hypothesis tailOK : F \/ forall c, nth_error w (n - 1) = Some c ->
  th_wcisldvowel ct c = true -> c = UTH_SARA_E.

Lemma ParseOtherLV_cons pos stop linked l em :
  ParseOtherLV ct w pos stop linked = Ok l -> In em l ->
  exists c, nth_error w (pos + 1) = Some c /\ isCons c = true.
Proof.
  unfold ParseOtherLV, at16. destruct (nth_error w pos); cbn [bind]; [|discriminate].
  unfold MatchInitCons, at16. destruct (nth_error w (pos + 1)) as [c0|]; cbn [bind]; [|discriminate].
  destruct (isCons c0) eqn:E; cbn [negb bind].
  - intros _ _. exists c0. auto.
  - unfold forPartials. cbn [mapM bind concat]. intros H. injection H as <-. intros [].
Qed.
Lemma ruleEms_sat pos stop linked c : pos < stop -> stop <= n -> nth_error w pos = Some c ->
  Sat F (ruleEms ct w pos stop linked c) (Forall (fun em => EmG ct w 1 pos stop em /\
    (stop < emPos em ->
      (th_wcisldvowel ct c = true /\ stop = pos + 1 /\ emPos em = pos + 2 /\
       exists c', nth_error w (pos + 1) = Some c' /\ isCons c' = true)))).
Proof.
  intros Hp Hs Hc. unfold ruleEms.
  assert (G0 : forall m, Sat F m (Forall (EmG ct w 1 pos stop)) ->
    Sat F m (Forall (EmG ct w 0 pos stop)) ->
    Sat F m (Forall (fun em => EmG ct w 1 pos stop em /\
    (stop < emPos em ->
      (th_wcisldvowel ct c = true /\ stop = pos + 1 /\ emPos em = pos + 2 /\
       exists c', nth_error w (pos + 1) = Some c' /\ isCons c' = true))))).
  { intros m H1 H0. eapply Sat_mono; [exact (Sat_conj _ _ _ _ H1 H0)|]. cbv beta.
    intros l _ (L1 & L0). rewrite Forall_forall in *. intros em Hem.
    split; [auto|]. intros X. assert (Y := eg_stop _ _ _ _ _ _ (L0 em Hem)).
    unfold inB in Y. lia. }
  destruct (isCons c) eqn:E1; [apply G0; apply ParseThCons_sat; auto|].
  destruct (UTH_SARA_E =? c)%N eqn:E2.
  { apply N.eqb_eq in E2. apply G0; apply ParseSaraE_sat; auto; congruence. }
  destruct (th_wcisldvowel ct c) eqn:E3.
  - assert (G : Sat F (ParseOtherLV ct w pos stop linked) (Forall (EmG ct w 1 pos stop))).
    { apply ParseOtherLV_sat; auto. intros L. destruct tailOK as [f|T]; [exact f|exfalso].
      rewrite (T c) in E2; [rewrite N.eqb_refl in E2; discriminate| |exact E3].
      replace (n - 1) with pos by lia. exact Hc. }
    eapply Sat_mono; [exact G|]. cbv beta. intros l El Hl. rewrite Forall_forall in *.
    intros em Hem. split; [auto|]. intros X. assert (Y := eg_stop _ _ _ _ _ _ (Hl em Hem)).
    unfold inB in Y. split; [reflexivity|]. split; [lia|]. split; [lia|].
    eapply ParseOtherLV_cons; eauto.
  - destruct (UTH_RU =? c)%N eqn:E4; [|destruct (UTH_LU =? c)%N eqn:E5]; cbn [orb].
    + apply N.eqb_eq in E4. apply G0; eapply ParseRuLu_sat; eauto.
    + apply N.eqb_eq in E5. apply G0; eapply ParseRuLu_sat; eauto.
    + constructor.
Qed.

Lemma ruleActs_sat pos stop linked : pos < stop -> stop <= n -> noEntry ct w dict pos stop ->
  (forall c, nth_error w pos = Some c -> isCons c = false -> c = 46%N -> ~ letterStart w pos) ->
  Sat F (ruleActs ct w pos stop linked) (Forall (ActG pos stop linked)).
Proof.
  intros Hp Hs HN HL. unfold ruleActs. apply Sat_bind, Sat_at16; [lia|]. intros c Hc.
  destruct (negb (isRuleChar ct c) && (46 =? c)%N) eqn:E.
  - apply andb_true_iff in E. destruct E as (E1 & E2). apply N.eqb_eq in E2. subst c.
    apply negb_true_iff in E1. unfold isRuleChar in E1. rewrite !orb_false_iff in E1.
    cbn [Sat]. constructor; [|constructor]. apply AG_dot; auto. apply (HL 46%N); auto. tauto.
  - apply Sat_bind. eapply Sat_mono; [apply ruleEms_sat; eauto|]. cbv beta. intros l El Hl.
    cbn [Sat]. rewrite Forall_forall in *. intros a Ha. apply in_map_iff in Ha.
    destruct Ha as (em & <- & Hem). destruct (Hl em Hem) as (G & O).
    eapply AG_rule; eauto. intros X. apply (O X).
Qed.

Lemma acts_sat pos stop linked : pos < n -> stop <= n ->
  Sat F (acts ct w dict brk pos stop linked) (Forall (ActG pos stop linked)).
Proof.
  intros Hp Hs. unfold acts. destruct (Nat.leb_spec stop pos) as [L|L].
  - apply Sat_bind. eapply Sat_mono; [apply (gapAct_sat pos stop linked); auto|].
    intros a _ Ha. cbn [Sat]. constructor; [exact Ha|constructor].
  - apply Sat_bind.
    apply (Sat_mono F _ (fun ex => Forall (ActG pos stop linked) ex /\
             (ex = [] -> noEntry ct w dict pos stop))).
    + assert (D : exists o, dict = o) by (exists dict; reflexivity). destruct D as (o & Eo).
      assert (X : match dict with Some d => excActs ct w pos stop d | None => Ok [] end =
                  match o with Some d => excActs ct w pos stop d | None => Ok [] end)
        by (rewrite Eo; reflexivity).
      rewrite X. clear X. destruct o as [d|].
      * eapply Sat_mono; [apply (excActs_sat d pos stop linked); auto|].
        cbv beta. intros l _ (A & B). split; [exact A|]. intros E d' k Hd.
        rewrite Eo in Hd. injection Hd as <-. auto.
      * cbn [Sat]. split; [constructor|]. intros _ d' k Hd. congruence.
    + intros ex _ (A & B). destruct ex as [|a ex]; [|exact A].
      apply Sat_bind. eapply Sat_mono; [apply (abbrAct_sat pos stop linked); auto|].
      cbv beta. intros r _ (R1 & R2). destruct r as [a|].
      * cbn [Sat]. constructor; [auto|constructor].
      * apply ruleActs_sat; auto. exact (R2 eq_refl).
Qed.
End Excuse.
End Facts.

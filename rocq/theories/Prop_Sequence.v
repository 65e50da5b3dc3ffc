(** Prop_Sequence.v - property C102: exactly which sequences of syllables are
    pronunciations. *)
From Coq Require Import String List NArith ZArith Bool Lia Arith Sorted.
From Verif Require Import Base ThUni ThCons Syl Utf Lattice Dag DagProofs PronDag Dict Parser.
From Verif Require Import Spec OrderProofs DictProofs Prop_Syl ParserSpec ParserFacts ParserInv ParserResult ParserListed ParserDict ParserLiteral ParserPool ParserProduct.
From Verif Require Import Prop_Output Prop_Parser Prop_Product Grammar GrammarWord TextGrammar TextProof Prop_Every Prop_Grammar Prop_Regular Prop_Head Prop_Sayable.
From Verif Require GrammarIff.
Import ListNotations.
Local Open Scope string_scope.
Local Open Scope list_scope.
Local Open Scope bool_scope.
Local Open Scope nat_scope.

(** ** Vocabulary *)
(** The short syllables "a" that can stand before "riy": initial sound and
    tone. *)
Definition beforeRiy : list (EInitConsSound * ETone) :=
  [ (KHA, EK); (KHA, TRI); (NGA, TRI); (JA, EK); (CHA, EK); (CHA, TRI); (SA, EK); (SA, TRI); (YA, TRI); (DA, EK); (TA, EK);
    (THA, EK); (THA, TRI); (NA, TRI); (BA, EK); (PHA, EK); (PHA, TRI); (FA, EK); (FA, TRI); (MA, TRI); (RA, TRI); (LA, TRI);
    (HA, EK); (HA, TRI); (ICS_A, EK) ].
Definition MayPrecede (p x : Said) : Prop :=
  saSecond p = SEC_NONE /\ saVowel p = V_A /\ saFinal p = EC_NONE /\ In (saSound p, saTone p) beforeRiy /\
  (saTone x = EK -> saSound p = SA /\ saTone p = EK).
(** Any syllables in any order, but "riy" only after such a syllable. *)
Inductive Sequence : list Said -> Prop :=
| Sq_nil : Sequence []
| Sq_one x xs : CanSay x -> ~ riy x -> Sequence xs -> Sequence (x :: xs)
| Sq_two p x xs : CanSay x -> riy x -> MayPrecede p x -> Sequence xs -> Sequence (p :: x :: xs).

(** ** Readings of "riy" *)
Lemma ru_not_cons : consonant UTH_RU = false. Proof. reflexivity. Qed.
Definition RiyLetter (c : N) (t : ETone) : Prop :=
  consonant c = true /\ (oneOf "สศ" c \/ ~ oneOf "กตทปสศวนคพ" c /\ t <> EK).
Lemma initial_riy lk t o t1 : InitialAt lk t o t1 -> oVowel o = Some V_I -> oSound o = RA -> oSecond o = SEC_NONE ->
  exists c, t = c :: UTH_RU :: t1 /\ oLead o = Some c /\ consonant c = true /\
    (oneOf "สศ" c \/ ~ oneOf "กตทปสศวนคพ" c /\ oClass o = LOWS).
Proof.
  intros I V S S2. destruct I as [c0 t C|c0 t _ C _|c0 t C _|c0 t _ C|c0 t _ C|d t C X _|c0 d t C C' _|c0 t C _|c0 t C _|c0 t C _|c0 t C _|c0 t C _|c0 x t C X|c0 v t C N _ V'|c0 v t C N _ V'];
    cbn [plainOf oVowel oSound oSecond oLead oClass] in *; try discriminate V; try discriminate S2.
  - exfalso. assert (X : negb (ics_eqb (soundOf c0) RA) = true) by (sweepOn C (fun c => negb (ics_eqb (soundOf c) RA))). rewrite S in X. discriminate X.
  - exists c0. split; [reflexivity|]. split; [reflexivity|]. split; [sweepOn C consonant|left; exact C].
  - exists c0. split; [reflexivity|]. split; [reflexivity|]. split; [exact C|right; split; [exact N|reflexivity]].
Qed.
Lemma low_no_ek m t : m <> T_INVALID -> toned LOWS m (dead V_I KOEY) (short V_I) t -> t <> EK.
Proof. intros M T. apply GrammarIff.toned_iff in T; [|discriminate|exact M]. subst t. destruct m; try congruence; discriminate. Qed.
Lemma reads_riy lk t p x r b : Reads lk t p x r b -> riy x ->
  exists c h y, t = c :: UTH_RU :: h ++ r /\ p = Some y /\ SaysA c y /\ RiyLetter c (saTone x).
Proof.
  intros H (R1 & R2 & R3 & R4). destruct H as [t o t1 v e m r b p x I R L S|t o t1 v e m r b p x I R L S|l t o t1 v e m r b p x I R L S|t p x r I|c t v e r b tn C R T].
  - destruct S as [tn T]. cbn [saSound saSecond saVowel saFinal saTone] in *. subst v e.
    assert (F : rimeFacts o t1 V_I KOEY m). { eapply rime_facts; [|exact R]. intros u Eu. exact (proj1 (proj1 (initial_kind _ _ _ _ I) u Eu)). }
    destruct F as ([F|(F & _)] & _ & _ & M); [unfold marked in F; destruct m; vm_compute in F; discriminate F|].
    destruct (initial_riy _ _ _ _ I F R1 R2) as (c & -> & Lo & Cc & K). destruct (rime_marks _ _ _ _ _ _ _ _ R) as (h & -> & _).
    destruct L as [L|c' y L Sy]; [congruence|]. rewrite Lo in L. injection L as <-. exists c, h, y. split; [reflexivity|]. split; [reflexivity|]. split; [exact Sy|].
    split; [exact Cc|]. destruct K as [K|(K & Kc)]; [left; exact K|right]. split; [exact K|]. rewrite Kc in T. exact (low_no_ek m tn M T).
  - exfalso. destruct S as [tn T]. cbn [saSound saSecond saVowel saFinal saTone] in *. subst v e. inversion R.
  - exfalso. destruct S as [tn T]. cbn [saSound saSecond saVowel saFinal saTone] in *. subst v e. inversion R.
  - exfalso. destruct I as [c x t p C _ _ S|x t p S|x t p S|x t p _ S|c x t p C _ S|c x t p C _ _ _ S]; try discriminate R4; destruct S as [tn T]; discriminate R4.
  - exfalso. cbn [saSound saSecond saVowel saFinal saTone] in *. destruct R as [|x t X|c' t C' _|c' t e r b _ F].
    all: try discriminate R4. destruct (memN c' (letters "ณทษ")) eqn:M; [|discriminate R3]. apply memN_In in M.
    assert (Z : finalOf c' = KOEY) by (symmetry; rewrite <- R4; exact (shared_first _ _ _ _ _ _ F)).
    assert (W : ec_eqb KOEY (finalOf c') = false) by (apply negb_true_iff; sweepOn M (fun c => negb (ec_eqb KOEY (finalOf c)))). rewrite Z in W. discriminate W.
Qed.


(** The short syllable before a reading of a consonant and RU. *)
Lemma reads_pre_ru lk c t y x r b : Reads lk (c :: UTH_RU :: t) (Some y) x r b -> consonant c = true -> SaysA c y.
Proof.
  intros H C. remember (c :: UTH_RU :: t) as t0 eqn:E0. remember (Some y) as p eqn:Ep.
  destruct H as [t0 o t1 v e m r b p x I R L S|t0 o t1 v e m r b p x I R L S|l t0 o t1 v e m r b p x I R L S|t0 p x r I|c0 t0 v e r b tn C0 R T].
  - subst p t0. destruct (initial_head _ _ _ _ I) as (g & Eg & _ & (c1 & g' & -> & _ & Hl) & _). injection Eg as -> _.
    inversion L as [|c2 y2 L2 S2]; subst. rewrite (Hl c2 L2) in S2. exact S2.
  - exfalso. injection E0 as <- _. discriminate C.
  - exfalso. injection E0 as -> _. destruct R; discriminate C.
  - destruct I as [c0 x t0 p C0 _ _ S|x t0 p S|x t0 p S|x t0 p _ S|c0 x t0 p C0 _ S|c0 x t0 p C0 _ _ _ S]; try discriminate E0; try discriminate Ep.
    injection E0 as -> _. injection Ep as <-. exact S.
  - discriminate Ep.
Qed.
(** The short syllable of a letter that can begin such a reading. *)
Definition beforeb (s : EInitConsSound) (t : ETone) : bool := existsb (fun q => ics_eqb (fst q) s && tone_eqb (snd q) t) beforeRiy.
Lemma beforeb_ok s t : beforeb s t = true -> In (s, t) beforeRiy.
Proof.
  intros H. apply existsb_exists in H. destruct H as ((s' & t') & I & E). cbn [fst snd] in E. apply andb_true_iff in E. destruct E as (A & B).
  apply ics_eqb_eq in A. apply tone_eqb_eq in B. subst s' t'. exact I.
Qed.
Definition tailLetters : list N := letters "กตทปสศวนคพ".
Lemma letter_before c y x : RiyLetter c (saTone x) -> SaysA c y -> MayPrecede y x.
Proof.
  intros (C & H) [t T]. apply GrammarIff.toned_iff in T; [|apply classOf_valid, C|discriminate]. subst t. unfold MayPrecede. cbn [saSound saSecond saVowel saFinal saTone].
  split; [reflexivity|]. split; [reflexivity|]. split; [reflexivity|]. destruct H as [H|(H & E)].
  - assert (X : ics_eqb (soundOf c) SA && tone_eqb (ToneFromWritten (classOf c) SAMAN true true) EK = true)
      by (sweepOn H (fun c => ics_eqb (soundOf c) SA && tone_eqb (ToneFromWritten (classOf c) SAMAN true true) EK)).
    apply andb_true_iff in X. destruct X as (X & Y). apply ics_eqb_eq in X. apply tone_eqb_eq in Y. rewrite X, Y. split; [|auto].
    apply beforeb_ok. reflexivity.
  - split; [|intros X; congruence]. apply beforeb_ok.
    assert (X : memN c tailLetters || beforeb (soundOf c) (ToneFromWritten (classOf c) SAMAN true true) = true)
      by (sweepOn C (fun c => memN c tailLetters || beforeb (soundOf c) (ToneFromWritten (classOf c) SAMAN true true))).
    apply orb_prop in X. destruct X as [X|X]; [|exact X]. exfalso. apply memN_In in X. exact (H X).
Qed.

Lemma pre_open lk t y x r b : Reads lk t (Some y) x r b -> saFinal y = EC_NONE.
Proof.
  assert (Q : forall o, Leads o (Some y) -> saFinal y = EC_NONE).
  { intros o L. inversion L as [|c2 y2 L2 S2]; subst. destruct S2. reflexivity. }
  intros H. remember (Some y) as p eqn:Ep. destruct H as [t0 o t1 v e m r b p x I R L S|t0 o t1 v e m r b p x I R L S|l t0 o t1 v e m r b p x I R L S|t0 p x r I|c0 t0 v e r b tn C0 R T].
  - subst p. exact (Q o L).
  - subst p. exact (Q o L).
  - subst p. exact (Q o L).
  - destruct I as [c0 x t0 p C0 _ _ S|x t0 p S|x t0 p S|x t0 p _ S|c0 x t0 p C0 _ S|c0 x t0 p C0 _ _ _ S]; try discriminate Ep; injection Ep as ->; destruct S; reflexivity.
  - discriminate Ep.
Qed.

(** ** Where "riy" stands *)
Lemma no_dict v : ~ dictSyl None v.
Proof. intros (d & k & y & strs & s' & v0 & X & _). discriminate X. Qed.
Lemma riy_before w brk l s1 v s2 : StronglySorted lt brk -> Forall (fun x => x <= length w) brk -> pronounced libthai_ct w None brk l ->
  In (s1 ++ v :: s2) l -> literal v = [] -> riy (saidOf v) ->
  exists s0 u, s1 = s0 ++ [u] /\ literal u = [] /\ MayPrecede (saidOf u) (saidOf v).
Proof.
  intros S I P Is Lv R. assert (D : dictOKo None) by (intros d X; discriminate X).
  assert (O : occurs l (startPos s1) (endPos v) v) by (exists s1, s2; auto).
  destruct (origin_lemma w None brk S I D l _ _ v P O Lv) as [X|(b & e & G & X)]; [destruct (no_dict v X)|].
  destruct (C27_lemma2 libthai_ct w None brk l _ _ v libthai_ok D P O) as [Y|(Y & _)]; [destruct (no_dict v Y)|].
  destruct X as [q y x r lk lk' Ef Et Q B Rd Ev|q p x r lk lk' T0 Ef Q B Rd Ev|c _ _ _ _ C Ev].
  - exfalso. rewrite Ev, said_at in R. pose proof (pre_open _ _ _ _ _ _ Rd) as E. destruct R as (_ & _ & _ & R). rewrite E in R. discriminate R.
  - rewrite Ev, said_at in R. rewrite Ev, said_at. destruct (reads_riy _ _ _ _ _ _ Rd R) as (c & h & y & Ec & -> & Sy & Rl). cbn [isPre] in Ef.
    destruct G as (G1 & G2 & G3). assert (Bh : between w b e = c :: UTH_RU :: h).
    { apply (app_inv_tail r). rewrite <- B, Ec. reflexivity. }
    assert (N0 : (startPos s1 < 0)%Z) by (rewrite Ef; unfold preNode; lia).
    destruct (Y N0) as (b1 & e1 & Q1 & Q2 & Q3 & Q4).
    assert (E1 : b = b1 /\ e = e1).
    { rewrite Ef in Q3. unfold preNode in *. destruct G3 as [(_ & [G3|(G3 & _)])|(G3 & _)]; [| |lia]; destruct Q4 as [Q4|(Q4 & _)]; lia. }
    destruct E1 as (<- & <-).
    destruct (exists_last (l := s1)) as (s0 & u & ->); [intros ->; cbn in N0; lia|]. exists s0, u. split; [reflexivity|].
    rewrite startPos_last in Ef. rewrite <- app_assoc in Is. cbn [app] in Is.
    assert (Ou : occurs l (startPos s0) (endPos u) u) by (exists s0, (v :: s2); auto).
    assert (Lu : literal u = []).
    { destruct (literal u) as [|c0 t0] eqn:El; [reflexivity|exfalso]. destruct (C28_verbatim_spans libthai_ct w None brk l _ _ u libthai_ok D P Ou) as (Vs & _).
      destruct (Vs ltac:(rewrite El; discriminate)) as (b0 & e0 & _ & _ & _ & Te & _). rewrite Ef in Te. unfold preNode in *. lia. }
    split; [exact Lu|].
    rewrite Ef in Ou.
    destruct (origin_lemma w None brk S I D l _ _ u P Ou Lu) as [X|(b2 & e2 & G' & X)]; [destruct (no_dict u X)|].
    destruct (C27_lemma2 libthai_ct w None brk l _ _ u libthai_ok D P Ou) as [Z|(_ & Z)]; [destruct (no_dict u Z)|].
    destruct (Z ltac:(unfold preNode; lia)) as (b3 & e3 & Z1 & Z2 & Z3 & Z4). destruct (C27_lemma b e b3 e3) as (<- & <-); [lia|lia|exact Z4|].
    destruct X as [q2 y2 x2 r2 lk2 lk2' Ef2 Et2 Qn2 B2 Rd2 Ev2|q2 p2 x2 r2 lk2 lk2' T2 _ _ _ _ _|c2 _ T2 _ _ _ _]; [|unfold preNode in T2; lia..].
    assert (E2 : b2 = b) by (lia). subst b2. assert (E2 : e2 = e) by (unfold preNode in *; lia). subst e2.
    rewrite Bh in B2. rewrite B2 in Rd2. cbn [app] in Rd2. rewrite Ev2, said_at. apply (letter_before c); [exact Rl|].
    eapply reads_pre_ru; [exact Rd2|exact (proj1 Rl)].
  - exfalso. rewrite Ev in R. destruct R as (_ & _ & _ & R). discriminate R.
Qed.

(** ** Sequences *)
Definition Placed (xs : list Said) : Prop := forall a x b, xs = a ++ x :: b -> riy x -> exists a0 p, a = a0 ++ [p] /\ MayPrecede p x.
Lemma riy_dec x : riy x \/ ~ riy x.
Proof.
  unfold riy. destruct (ics_eqb (saSound x) RA) eqn:A; [apply ics_eqb_eq in A|right; intros (X & _); rewrite X in A; discriminate A].
  destruct (Z.eq_dec (saSecond x) SEC_NONE); [|tauto]. destruct (Z.eq_dec (saVowel x) V_I); [|tauto].
  destruct (ec_eqb KOEY (saFinal x)) eqn:B; [apply ec_eqb_eq in B; auto|right; intros (_ & _ & _ & X); rewrite X in B; discriminate B].
Qed.
Lemma precede_not p x : MayPrecede p x -> ~ riy p.
Proof. intros (_ & A & _) (_ & _ & B & _). rewrite A in B. discriminate B. Qed.
Lemma last_of {A} (x y : A) l l0 p : x :: y :: l = l0 ++ [p] -> exists l1, y :: l = l1 ++ [p].
Proof. destruct l0 as [|z l0]; [discriminate|]. intros E. injection E as _ E. eauto. Qed.
Lemma placed_sequence n : forall xs, length xs <= n -> Forall CanSay xs -> Placed xs -> Sequence xs.
Proof.
  induction n as [|n IH]; intros xs Ln C P; [destruct xs; [apply Sq_nil|cbn in Ln; lia]|].
  destruct xs as [|x xs]; [apply Sq_nil|]. inversion C as [|? ? Cx Cs]; subst. cbn [length] in Ln.
  assert (Nx : ~ riy x). { intros R. destruct (P [] x xs eq_refl R) as (a0 & p & E & _). destruct a0; discriminate E. }
  destruct xs as [|y xs]; [apply Sq_one; [exact Cx|exact Nx|apply Sq_nil]|]. destruct (riy_dec y) as [Ry|Ry].
  - inversion Cs as [|? ? Cy Cs']; subst. destruct (P [x] y xs eq_refl Ry) as (a0 & p & E & M).
    destruct a0 as [|z a0]; [injection E as <-|destruct a0; discriminate E]. apply Sq_two; [exact Cy|exact Ry|exact M|]. apply IH; [cbn [length] in Ln; lia|exact Cs'|].
    intros a z b -> Rz. destruct (P (x :: y :: a) z b eq_refl Rz) as (a1 & q & E & Mq). destruct a as [|a' a].
    + exfalso. destruct a1 as [|? [|? a1]]; [discriminate E| |destruct a1; discriminate E]. injection E as _ <-. exact (precede_not _ _ Mq Ry).
    + destruct (last_of _ _ _ _ _ E) as (a2 & E2). destruct (last_of _ _ _ _ _ E2) as (a3 & E3). eauto.
  - apply Sq_one; [exact Cx|exact Nx|]. apply IH; [lia|exact Cs|]. intros a z b E Rz. destruct a as [|a' a].
    + injection E as -> _. destruct (Ry Rz).
    + destruct (P (x :: a' :: a) z b ltac:(rewrite E; reflexivity) Rz) as (a1 & q & E1 & Mq). destruct (last_of _ _ _ _ _ E1) as (a2 & E2). eauto.
Qed.

(** ** Texts for the sequences *)
(** A text with a pronunciation of the syllables [xs]. *)
Definition Spells (w : list N) (xs : list Said) : Prop :=
  Text w /\ exists l s, pronounced libthai_ct w None [] l /\ In s l /\ Forall (fun u => literal u = []) s /\ map saidOf s = xs.
Lemma spells w p x b : Text w -> Reads false w p x [] b -> Spells w (match p with Some y => [y; x] | None => [x] end).
Proof.
  intros (F & Ln & La) R. split; [exact (conj F (conj Ln La))|]. assert (D : dictOKo None) by (intros d X; discriminate X).
  assert (B : forall y, In y [] -> y = 0 \/ y = length w) by (intros y Y; exact (False_ind _ Y)).
  destruct (C71_lemma2 w None [] D ltac:(constructor) ltac:(constructor)) as [(St & _)|(_ & l & P)]; [exfalso; exact (not_stuck w [] La St)|].
  assert (U : Used w w p x []) by (exists false, b; split; [apply Rc_start|split; [exact R|apply Fn_end]]).
  pose proof (C56_word_grammar w None [] l F Ln B D (unlisted_none w) P) as H. destruct p as [p|].
  - exists l, [sylAt p (within w w []); sylAt x (startOf w [])]. split; [exact P|].
    split; [apply H; eapply Sy_two; [exact U|exact U|apply Sy_end]|]. split; [repeat constructor|]. cbn [map]. rewrite !said_at. reflexivity.
  - exists l, [sylAt x (startOf w [])]. split; [exact P|].
    split; [apply H; apply Sy_one; [exact U|apply Sy_end]|]. split; [repeat constructor|]. cbn [map]. rewrite !said_at. reflexivity.
Qed.
(** The letter for a short syllable before "riy", the mark for the tone. *)
Definition lowMark (t : ETone) : ETone := match t with THO => EK | t => t end.
Definition letterFor (s : EInitConsSound) (t : ETone) : N :=
  hd 0%N (filter (fun c => ics_eqb (soundOf c) s && tone_eqb (ToneFromWritten (classOf c) SAMAN true true) t && negb (memN c tailLetters)) consLetters).
Lemma letterFor_ok q : In q beforeRiy -> let c := letterFor (fst q) (snd q) in
  consonant c = true /\ soundOf c = fst q /\ ToneFromWritten (classOf c) SAMAN true true = snd q /\ ~ oneOf "กตทปสศวนคพ" c.
Proof.
  intros I. assert (H : forallb (fun q => let c := letterFor (fst q) (snd q) in
      consonant c && ics_eqb (soundOf c) (fst q) && tone_eqb (ToneFromWritten (classOf c) SAMAN true true) (snd q) && negb (memN c tailLetters)) beforeRiy = true) by (vm_compute; reflexivity).
  rewrite forallb_forall in H. specialize (H q I). cbn zeta in *. rewrite !andb_true_iff, negb_true_iff in H. destruct H as (((A & B) & C) & D).
  apply ics_eqb_eq in B. apply tone_eqb_eq in C. split; [exact A|]. split; [exact B|]. split; [exact C|].
  intros X. change (In (letterFor (fst q) (snd q)) tailLetters) in X. apply memN_In in X. congruence.
Qed.
Lemma cons_letter c : consonant c = true -> thaiLetter c = true.
Proof. intros H. sweepOn H thaiLetter. Qed.
Lemma cons_leadless c : consonant c = true -> leadVowel c = false.
Proof. intros H. apply negb_true_iff. sweepOn H (fun c => negb (leadVowel c)). Qed.
(** A consonant, RU, a mark and YO YAK. *)
Lemma riy_text c k m x y : consonant c = true -> m <> T_INVALID ->
  (forall t, noLong t -> InitialAt false (c :: UTH_RU :: t) (mkInitial (Some c) RA k SEC_NONE (Some V_I)) t) ->
  riy x -> toned k m (dead V_I KOEY) (short V_I) (saTone x) -> SaysA c y ->
  Text (c :: UTH_RU :: markL m ++ [UTH_YO_YAK]) /\ Reads false (c :: UTH_RU :: markL m ++ [UTH_YO_YAK]) (Some y) x [] false.
Proof.
  intros C M I R T S. split.
  - apply (text_of [] [c; UTH_RU] (markL m ++ [UTH_YO_YAK])); [destruct m; repeat constructor|repeat constructor; apply cons_letter, C|destruct m; discriminate|discriminate| |].
    + cbn [forallb]. rewrite (cons_leadless c C). reflexivity.
    + intros c' a E. apply app_inj_tail in E. destruct E as (_ & <-). reflexivity.
  - destruct x as [a b v e t]. destruct R as (A & B & D & E). cbn [saSound saSecond saVowel saFinal saTone] in *. subst a b v e.
    eapply (Rd_plain false _ _ (markL m ++ [UTH_YO_YAK]) V_I KOEY m [] false (Some y)); [apply I; destruct m; split; discriminate| |eapply Le_some; [reflexivity|exact S]|apply (S_tone (mkInitial (Some c) RA k SEC_NONE (Some V_I))), T].
    eapply (R_ru_final false _ _ m [UTH_YO_YAK]); [apply mark_L; [exact M|reflexivity]|reflexivity|]. apply FS_final, (fin_final _ KOEY); [discriminate|reflexivity].
Qed.
Lemma can_tone x : CanSay x -> riy x -> saTone x <> T_INVALID.
Proof.
  intros (k & m & M & T & _) _ E. rewrite E in T. destruct T as [T|(_ & T)]; [|congruence]. inversion T; congruence.
Qed.
Lemma pair_text p x : CanSay x -> riy x -> MayPrecede p x -> exists w b, Text w /\ Reads false w (Some p) x [] b.
Proof.
  intros C R (A & B & D & I & E). pose proof (can_tone x C R) as V. destruct p as [s s2 v e t]. cbn [saSound saSecond saVowel saFinal saTone] in *. subst s2 v e.
  destruct (tone_eqb (saTone x) EK) eqn:Ek.
  - apply tone_eqb_eq in Ek. destruct (E Ek) as (-> & ->). exists (UTH_SO_SUA :: UTH_RU :: markL EK ++ [UTH_YO_YAK]), false.
    apply (riy_text UTH_SO_SUA HIGH EK); [reflexivity|discriminate| |exact R| |].
    + intros t Nl. apply (I_ru_sari false UTH_SO_SUA t); [apply memN_In; reflexivity|exact Nl].
    + rewrite Ek. apply GrammarIff.toned_iff; [discriminate..|reflexivity].
    + apply (Sa_a UTH_SO_SUA EK). apply GrammarIff.toned_iff; [discriminate..|reflexivity].
  - destruct (letterFor_ok (s, t) I) as (C1 & C2 & C3 & C4). cbn [fst snd] in *. set (c := letterFor s t) in *. exists (c :: UTH_RU :: markL (lowMark (saTone x)) ++ [UTH_YO_YAK]), false.
    apply (riy_text c LOWS); [exact C1|destruct (saTone x); try discriminate; congruence| |exact R| |].
    + intros u Nl. apply I_ru_any_lead; auto.
    + apply GrammarIff.toned_iff; [discriminate|destruct (saTone x); try discriminate; congruence|]. destruct (saTone x); first [reflexivity|congruence|discriminate Ek].
    + rewrite <- C2. apply Sa_a. apply GrammarIff.toned_iff; [apply classOf_valid, C1|discriminate|symmetry; exact C3].
Qed.
Lemma pair_spells p x : CanSay x -> riy x -> MayPrecede p x -> exists w, Spells w [p; x].
Proof. intros C R M. destruct (pair_text p x C R M) as (w & b & T & Rd). exists w. exact (spells w (Some p) x b T Rd). Qed.
Lemma one_spells x : CanSay x -> ~ riy x -> exists w, Spells w [x].
Proof. intros C R. destruct (can_read x C) as (w & p & b & T & Rd & [->|X]); [|destruct (R X)]. exists w. exact (spells w None x b T Rd). Qed.

Lemma text_sentence ws : Forall Text ws -> sentence libthai_ct ws.
Proof.
  induction 1 as [|w ws (T & L & Z) F IH]; [exact I|]. cbn [sentence]. split; [intros E; rewrite E in L; cbn in L; lia|split; [|exact IH]].
  destruct F as [|w2 ws (T2 & L2 & Z2) F]; [exact I|]. apply thai_follows; assumption.
Qed.
Lemma shift_said k s : map saidOf (shiftEndPos k s) = map saidOf s.
Proof. unfold shiftEndPos. rewrite map_map. apply map_ext. intros v. reflexivity. Qed.
Lemma shift_literal k s : Forall (fun u => literal u = []) s -> Forall (fun u => literal u = []) (shiftEndPos k s).
Proof. intros H. unfold shiftEndPos. apply Forall_forall. intros u U. apply in_map_iff in U. destruct U as (u0 & <- & U). rewrite Forall_forall in H. exact (H u0 U). Qed.
(** The texts of the units, one after the other. *)
Definition Said1 (w : list N) (l : list SylString) (s : SylString) : Prop :=
  pronounced libthai_ct w None [] l /\ In s l /\ Forall (fun u => literal u = []) s.
Lemma sequence_texts xs : Sequence xs -> exists ws ls ss, Forall Text ws /\ Forall2 (fun w l => pronounced libthai_ct w None [] l) ws ls /\
  Forall2 (@In SylString) ss ls /\ forall off, map saidOf (inTurn off ws ss) = xs /\ Forall (fun u => literal u = []) (inTurn off ws ss).
Proof.
  assert (Add : forall w ys xs, Spells w ys -> (exists ws ls ss, Forall Text ws /\ Forall2 (fun w l => pronounced libthai_ct w None [] l) ws ls /\
    Forall2 (@In SylString) ss ls /\ forall off, map saidOf (inTurn off ws ss) = xs /\ Forall (fun u => literal u = []) (inTurn off ws ss)) ->
    exists ws ls ss, Forall Text ws /\ Forall2 (fun w l => pronounced libthai_ct w None [] l) ws ls /\
    Forall2 (@In SylString) ss ls /\ forall off, map saidOf (inTurn off ws ss) = ys ++ xs /\ Forall (fun u => literal u = []) (inTurn off ws ss)).
  { intros w ys zs (T & l & s & P & Is & L & E) (ws & ls & ss & Ft & Fp & Fs & Q). exists (w :: ws), (l :: ls), (s :: ss).
    split; [constructor; assumption|]. split; [constructor; assumption|]. split; [constructor; assumption|]. intros off. destruct (Q (off + length w)) as (Q1 & Q2).
    cbn [inTurn]. rewrite map_app, shift_said, E, Q1. split; [reflexivity|]. apply Forall_app. split; [apply shift_literal, L|exact Q2]. }
  induction 1 as [|x xs C R S IH|p x xs C R M S IH].
  - exists [], [], []. split; [constructor|]. split; [constructor|]. split; [constructor|]. intros off. split; constructor.
  - destruct (one_spells x C R) as (w & H). exact (Add w [x] xs H IH).
  - destruct (pair_spells p x C R M) as (w & H). exact (Add w [p; x] xs H IH).
Qed.
Lemma wordEnds_sorted ws : Forall Text ws -> forall off, StronglySorted lt (wordEnds off ws) /\ Forall (fun x => off < x <= off + length (concat ws)) (wordEnds off ws).
Proof.
  induction 1 as [|w ws (T & L & Z) F IH]; intros off; [split; constructor|]. cbn [wordEnds concat]. rewrite app_length.
  destruct (IH (off + length w)) as (A & B). split.
  - constructor; [exact A|]. eapply Forall_impl; [|exact B]. cbn beta. intros x X. lia.
  - constructor; [lia|]. eapply Forall_impl; [|exact B]. cbn beta. intros x X. lia.
Qed.

(** ** C102 *)
Lemma C102_lemma xs : xs <> [] ->
  ((exists w brk l s, StronglySorted lt brk /\ Forall (fun x => x <= length w) brk /\ pronounced libthai_ct w None brk l /\
      In s l /\ Forall (fun u => literal u = []) s /\ map saidOf s = xs) <-> Sequence xs).
Proof.
  intros Ne. split.
  - intros (w & brk & l & s & S & I & P & Is & L & <-). apply (placed_sequence (length (map saidOf s))); [lia| |].
    + apply Forall_forall. intros x X. apply in_map_iff in X. destruct X as (v & <- & X).
      assert (D : dictOKo None) by (intros d Y; discriminate Y). rewrite Forall_forall in L.
      destruct (C101_sound w None brk l s v S I D P Is X (L v X)) as [Y|Y]; [destruct (no_dict v Y)|exact Y].
    + intros a x b E R. apply map_eq_app in E. destruct E as (s1 & s' & -> & <- & E). apply map_eq_cons in E. destruct E as (v & s2 & -> & <- & _).
      rewrite Forall_forall in L. destruct (riy_before w brk l s1 v s2 S I P Is (L v (in_elt v s1 s2)) R) as (s0 & u & -> & _ & M). exists (map saidOf s0), (saidOf u). split; [apply map_app|exact M].
  - intros S. destruct (sequence_texts xs S) as (ws & ls & ss & Ft & Fp & Fs & Q).
    assert (Nw : ws <> []). { intros ->. destruct (Q 0) as (Q1 & _). apply Ne. rewrite <- Q1. reflexivity. }
    destruct (C55_word_by_word libthai_ct None ws ls libthai_ok ltac:(intros d X; discriminate X) Nw (text_sentence ws Ft) Fp) as (l & P & H).
    destruct (wordEnds_sorted ws Ft 0) as (A & B). exists (concat ws), (wordEnds 0 ws), l, (inTurn 0 ws ss). split; [exact A|].
    split; [eapply Forall_impl; [|exact B]; cbn beta; intros x X; lia|]. split; [exact P|]. split; [apply H; eauto|]. destruct (Q 0) as (Q1 & Q2). auto.
Qed.
(** Without a dictionary: the sequences of syllables that are pronunciations
    of some text with some word breaks are exactly those described. *)
Theorem C102_sequences xs : xs <> [] ->
  ((exists w brk l s, StronglySorted lt brk /\ Forall (fun x => x <= length w) brk /\ pronounced libthai_ct w None brk l /\
      In s l /\ Forall (fun u => literal u = []) s /\ map saidOf s = xs) <-> Sequence xs).
Proof. exact (C102_lemma xs). Qed.
Print Assumptions C102_sequences.

(** "sa-riy" in a low tone and then "kaa" is a pronunciation of some text,
    "da-riy" in a low tone is not one, nor is "riy" alone. *)
Definition exRiy : Said := say RA SEC_NONE V_I KOEY EK.
Definition exKaa : Said := say KA SEC_NONE V_AA EC_NONE SAMAN.
Definition exA (s : EInitConsSound) : Said := say s SEC_NONE V_A EC_NONE EK.
Definition pronunciation (xs : list Said) : Prop :=
  exists w brk l s, StronglySorted lt brk /\ Forall (fun x => x <= length w) brk /\ pronounced libthai_ct w None brk l /\
    In s l /\ Forall (fun u => literal u = []) s /\ map saidOf s = xs.
Example C102_case : pronunciation [exA SA; exRiy; exKaa] /\ ~ pronunciation [exA DA; exRiy] /\ ~ pronunciation [exRiy].
Proof.
  assert (R : riy exRiy) by (repeat split).
  assert (K : CanSay exKaa).
  { exists MID, SAMAN. split; [discriminate|]. split; [apply GrammarIff.toned_iff; [discriminate..|reflexivity]|]. left.
    exists [MID]. split; [unfold onsets; cbn [In]; tauto|]. split; [left; reflexivity|]. split; [reflexivity|discriminate]. }
  split; [|split].
  - apply (C102_sequences [exA SA; exRiy; exKaa]); [discriminate|]. apply Sq_two; [|exact R| |apply Sq_one; [exact K|intros (X & _); discriminate X|apply Sq_nil]].
    + exists HIGH, EK. split; [discriminate|]. split; [apply GrammarIff.toned_iff; [discriminate..|reflexivity]|]. right.
      exists [HIGH; LOWS], true. split; [right; left; reflexivity|]. split; [left; reflexivity|reflexivity].
    + split; [reflexivity|]. split; [reflexivity|]. split; [reflexivity|]. split; [apply beforeb_ok; reflexivity|split; reflexivity].
  - intros H. apply (C102_sequences [exA DA; exRiy]) in H; [|discriminate]. inversion H as [|x xs A B C E|p x xs A B (_ & _ & _ & _ & C) D E]; subst.
    + inversion C as [|x xs A' B' C' E'|]; subst. exact (B' R).
    + destruct (C eq_refl) as (X & _). discriminate X.
  - intros H. apply (C102_sequences [exRiy]) in H; [|discriminate]. inversion H as [|x xs A B C E|]; subst. exact (B R).
Qed.

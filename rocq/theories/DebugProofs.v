(** DebugProofs.v - the assertions of the parser hold: what the parser built with
    assertions does, function by function, is what the parser without them
    does. *)
From Coq Require Import String List NArith ZArith Bool Arith Lia.
From Verif Require Import Base ThUni ThCons Syl Lattice Dag PronDag Dict Utf Parser ParserDebug Wp ParserSpec ParserRules ParserFacts.
Import ListNotations.
Local Open Scope nat_scope.

Lemma ran_bind {A B} (m' : Dbg A) (m : Res A) (k' : A -> Dbg B) (k : A -> Res B) :
  m' = Ran m -> (forall x, m = Ok x -> k' x = Ran (k x)) -> dbind m' k' = Ran (bind m k).
Proof. intros -> H. destruct m as [x| | |]; cbn [dbind bind]; auto. Qed.
Lemma ran_mapM {A B} (f' : A -> Dbg B) (f : A -> Res B) l :
  (forall x, In x l -> f' x = Ran (f x)) -> mapMD f' l = Ran (mapM f l).
Proof.
  induction l as [|x l IH]; intros H; cbn [mapMD mapM]; [reflexivity|].
  apply ran_bind; [apply H; left; reflexivity|]. intros y _.
  apply ran_bind; [apply IH; intros z Hz; apply H; right; exact Hz|]. reflexivity.
Qed.
Lemma ran_for f' f l : (forall x, In x l -> f' x = Ran (f x)) -> forPartialsD f' l = Ran (forPartials f l).
Proof. intros H. unfold forPartialsD, forPartials. apply ran_bind; [apply ran_mapM; exact H|]. reflexivity. Qed.
Lemma ran_room stop p m' m : (pPos p < stop -> m' = Ran m) -> ifRoomD stop p m' = Ran (ifRoom stop p m).
Proof. intros H. unfold ifRoomD, ifRoom. destruct (Nat.ltb_spec (pPos p) stop); auto. Qed.
Lemma bind_Ok {A B} (m : Res A) (k : A -> Res B) y : bind m k = Ok y -> exists x, m = Ok x /\ k x = Ok y.
Proof. destruct m; cbn [bind]; intros H; try discriminate. eauto. Qed.

Lemma dOk {A B} (x : A) (k : A -> Dbg B) : dbind (Ran (Ok x)) k = k x.
Proof. reflexivity. Qed.
Lemma bOk {A B} (x : A) (k : A -> Res B) : bind (Ok x) k = k x.
Proof. reflexivity. Qed.

Ltac bools := repeat match goal with
  | H : (_ <=? _) = true |- _ => apply Nat.leb_le in H
  | H : (_ <=? _) = false |- _ => apply Nat.leb_gt in H
  | H : (_ <? _) = true |- _ => apply Nat.ltb_lt in H
  | H : (_ <? _) = false |- _ => apply Nat.ltb_ge in H
  | H : (_ =? _) = true |- _ => apply Nat.eqb_eq in H
  | H : (_ =? _) = false |- _ => apply Nat.eqb_neq in H
  | H : negb _ = true |- _ => apply negb_true_iff in H
  | H : negb _ = false |- _ => apply negb_false_iff in H
  | H : _ && _ = true |- _ => apply andb_true_iff in H; destruct H
  | H : ?x = true |- _ => is_var x; subst x
  end.
Ltac flds := cbn [pPos preSyl iConsSound iConsClass pCons2 pVowel eConsClass pTone
  isComplete setPos setVowel setEnd setTone bump emPos emSyl emLinked partial
  completePartial hasPreSyl] in *.
(** Take a successful result apart. *)
Ltac unOk := repeat (cbv zeta in *; match goal with
  | H : bind ?m _ = Ok _ |- _ =>
      let x := fresh "x" in let E := fresh "E" in
      apply bind_Ok in H; destruct H as (x & E & H)
  | H : Ok _ = Ok _ |- _ => injection H as H; subst
  | H : Ok _ = Ok _ |- _ => injection H; clear H; intros; subst
  | H : (let '(_, _) := ?x in _) = Ok _ |- _ => destruct x
  | H : (match ?x with _ => _ end) = Ok _ |- _ => destruct x eqn:?
  | H : (_, _) = (_, _) |- _ => injection H; clear H; intros; subst
  | H : Throw = Ok _ |- _ => discriminate H
  | H : UB = Ok _ |- _ => discriminate H
  | H : NoFuel = Ok _ |- _ => discriminate H
  end).

Section Facts.
Variable ct : CType.
Variable w : list N.
Lemma simple_pos a stop k : MatchKaranSimple ct w a stop = Ok k -> k = a \/ k = a + 2 /\ a + 1 < stop.
Proof. unfold MatchKaranSimple. intros H. unOk; bools; auto. destruct (th_wcisthcons ct x0); auto. Qed.
Lemma IU_pos a stop k : MatchKaranIU ct w a stop = Ok k -> k = a \/ k = a + 3 /\ a + 2 < stop.
Proof. unfold MatchKaranIU. intros H. unOk; bools; auto. destruct (_ || _); auto. Qed.
Lemma emit_pos stop p e p' : karanEmit ct w stop p = Ok (e, p') -> pPos p <= stop -> pPos p' <= stop.
Proof. unfold karanEmit. intros H L. unOk. flds. apply simple_pos in E. lia. Qed.
Lemma tone_pos p p' : readTone ct w p = Ok p' -> pPos p' = pPos p \/ pPos p' = pPos p + 1.
Proof. unfold readTone. intros H. unOk; flds; auto. Qed.
Lemma next_pos stop p c : nextIs w stop p c = Ok true -> pPos p < stop.
Proof. unfold nextIs. intros H. unOk; bools; auto; discriminate. Qed.
Lemma init_pos q stop linked l : stop <= length w -> q < stop -> MatchInitCons ct w q stop linked = Ok l ->
  forall p, In p l -> pPos p <= stop.
Proof.
  intros L Q E p Hp. pose proof (MatchInitCons_sat ct w True (or_introl I) q q stop linked (le_n _) L (fun _ => I)) as H.
  rewrite E in H. cbn [Sat] in H. rewrite Forall_forall in H. destruct (H p Hp). auto.
Qed.
End Facts.

Ltac known := repeat match goal with
  | H : MatchKaranSimple _ _ _ _ = Ok _ |- _ => apply simple_pos in H; flds
  | H : MatchKaranIU _ _ _ _ = Ok _ |- _ => apply IU_pos in H; flds
  | H : readTone _ _ _ = Ok _ |- _ => apply tone_pos in H; flds
  | H : nextIs _ _ _ _ = Ok true |- _ => apply next_pos in H; flds
  | H : karanEmit _ _ _ _ = Ok (_, _) |- _ => apply emit_pos in H; flds; [|flds; bools; lia]
  end.
Ltac pos := try lia; unOk; flds; bools;
  repeat match goal with
  | |- context [if ?b then _ else _] => destruct b eqn:?
  | H : context [if ?b then _ else _] |- _ => destruct b eqn:?
  end; flds; bools; known; flds; bools; lia.

Section Rules.
Variable ct : CType.
Hypothesis ctOK : ctype_ok ct.
Variable w : list N.
Notation n := (List.length w).
Notation isCons := (th_wcisthcons ct).

Lemma tbl c : isCons c = true -> inTable c = true.
Proof.
  intros H. destruct (cons_range _ ctOK c H) as (A & B & _). unfold inTable. apply andb_true_iff. rewrite !N.leb_le. auto.
Qed.
Lemma sound_ran c : isCons c = true -> InitConsSoundD c = Ran (InitConsSound c).
Proof. intros H. unfold InitConsSoundD. rewrite (tbl c H). reflexivity. Qed.
Lemma class_ran c : isCons c = true -> InitConsClassD c = Ran (InitConsClass c).
Proof. intros H. unfold InitConsClassD. rewrite (tbl c H). reflexivity. Qed.
Lemma end_ran c : isCons c = true -> EndConsClassD c = Ran (EndConsClass c).
Proof. intros H. unfold EndConsClassD. rewrite (tbl c H). reflexivity. Qed.
Lemma readTone_ran p : readToneD ct w p = Ran (readTone ct w p).
Proof.
  unfold readToneD, readTone. apply ran_bind; [reflexivity|]. intros c _. destruct (th_wcisthtone ct c) eqn:E; [|reflexivity].
  apply ran_bind; [unfold ThCharToToneD; rewrite E; reflexivity|]. reflexivity.
Qed.

Variable stop : nat.
Hypothesis Hstop : stop <= n.
Lemma stopb : (stop <=? n) = true.
Proof. apply Nat.leb_le. exact Hstop. Qed.

Ltac step := cbv zeta; match goal with
  | |- Ran _ = Ran _ => reflexivity
  | |- dbind _ _ = Ran (bind _ _) => apply ran_bind; [|intros ? ?]
  | |- InitConsSoundD _ = _ => apply sound_ran; auto
  | |- InitConsClassD _ = _ => apply class_ran; auto
  | |- EndConsClassD _ = _ => apply end_ran; auto
  | |- readToneD _ _ _ = _ => apply readTone_ran
  | |- ifRoomD _ _ _ = _ => apply ran_room; intros ?
  | |- (if ?b then _ else _) = Ran (if ?b then _ else _) => destruct b eqn:?
  | |- (let '(_, _) := ?x in _) = _ => destruct x
  | |- (match ?x with _ => _ end) = Ran (match ?x with _ => _ end) => destruct x eqn:?
  end.
Ltac site := rewrite stopb; match goal with |- (if ?b then _ else _) = _ => replace b with true; [|symmetry; (apply Nat.leb_le || apply Nat.ltb_lt); pos] end.

Lemma ruPart_ran q c0 s0 k0 : ruPartD ct w q stop c0 s0 k0 = Ran (ruPart ct w q stop c0 s0 k0).
Proof. unfold ruPartD, ruPart. repeat step. Qed.
Lemma secondPart_ran q lk c0 s0 k0 : secondPartD ct w q stop lk c0 s0 k0 = Ran (secondPart ct w q stop lk c0 s0 k0).
Proof. unfold secondPartD, secondPart. repeat step. apply ruPart_ran. Qed.
Lemma init_ran q lk : q < stop -> MatchInitConsD ct w q stop lk = Ran (MatchInitCons ct w q stop lk).
Proof.
  intros H. unfold MatchInitConsD, MatchInitCons. site. repeat step; bools; auto using sound_ran, class_ran, secondPart_ran.
Qed.
Lemma init_abort q lk : stop <= q -> MatchInitConsD ct w q stop lk = Abort (parser_cxx 293).
Proof. intros H. unfold MatchInitConsD. rewrite stopb. destruct (Nat.ltb_spec q stop); [lia|reflexivity]. Qed.
Lemma simple_ran q : q <= stop -> MatchKaranSimpleD ct w q stop = Ran (MatchKaranSimple ct w q stop).
Proof. intros H. unfold MatchKaranSimpleD, MatchKaranSimple. site. repeat step. Qed.
Lemma IU_ran q : q <= stop -> MatchKaranIUD ct w q stop = Ran (MatchKaranIU ct w q stop).
Proof. intros H. unfold MatchKaranIUD, MatchKaranIU. site. repeat step. Qed.
Lemma complex_ran q : q <= stop -> MatchKaranComplexD ct w q stop = Ran (MatchKaranComplex ct w q stop).
Proof. intros H. unfold MatchKaranComplexD, MatchKaranComplex. site. repeat step. apply simple_ran; auto. Qed.
Lemma endConsAt_ran i excl : endConsAtD ct w i excl = Ran (endConsAt ct w i excl).
Proof. unfold endConsAtD, endConsAt. repeat step. Qed.
Lemma eatSimple_ran p excl : pPos p < stop -> EatEndConsSimpleD ct w stop p excl = Ran (EatEndConsSimple ct w stop p excl).
Proof.
  intros H. unfold EatEndConsSimpleD, EatEndConsSimple. site. repeat step; [apply endConsAt_ran|apply complex_ran; pos].
Qed.
Lemma eatComplex_ran p excl : pPos p < stop -> EatEndConsComplexD ct w stop p excl = Ran (EatEndConsComplex ct w stop p excl).
Proof.
  intros H. unfold EatEndConsComplexD, EatEndConsComplex. site. repeat step; [apply endConsAt_ran|apply complex_ran; pos].
Qed.
Lemma emit_ran p : pPos p <= stop -> karanEmitD ct w stop p = Ran (karanEmit ct w stop p).
Proof. intros H. unfold karanEmitD, karanEmit. repeat step. apply simple_ran; auto. Qed.

Ltac leaf := match goal with
  | |- MatchKaranSimpleD _ _ _ _ = _ => apply simple_ran; pos
  | |- MatchKaranIUD _ _ _ _ = _ => apply IU_ran; pos
  | |- EatEndConsSimpleD _ _ _ _ _ = _ => apply eatSimple_ran; pos
  | |- EatEndConsComplexD _ _ _ _ _ = _ => apply eatComplex_ran; pos
  | |- karanEmitD _ _ _ _ = _ => apply emit_ran; pos
  end.
Ltac go := repeat step; try leaf.

Lemma thMaiHanAkat_ran p : pPos p < stop -> thMaiHanAkatD ct w stop p = Ran (thMaiHanAkat ct w stop p).
Proof. intros H. unfold thMaiHanAkatD, thMaiHanAkat. go. Qed.
Lemma thUpDownEnd_ran p : pPos p <= stop -> thUpDownEndD ct w stop p = Ran (thUpDownEnd ct w stop p).
Proof. intros H. unfold thUpDownEndD, thUpDownEnd. go. Qed.

Lemma thUpDown_ran p c : pPos p < stop -> th_wcisupvowel ct c || th_wcisblvowel ct c = true ->
  thUpDownD ct w stop p c = Ran (thUpDown ct w stop p c).
Proof.
  intros H C. unfold thUpDownD, thUpDown. go; try (unfold ThCharToAboveBelowVowelD; rewrite C; reflexivity);
    apply thUpDownEnd_ran; pos.
Qed.
Lemma thMaitaikhu_ran p : pPos p < stop -> thMaitaikhuD ct w stop p = Ran (thMaitaikhu ct w stop p).
Proof. intros H. unfold thMaitaikhuD, thMaitaikhu. go. Qed.
Lemma thRoRua_ran p : pPos p < stop -> thRoRuaD ct w stop p = Ran (thRoRua ct w stop p).
Proof. intros H. unfold thRoRuaD, thRoRua. go. Qed.
Lemma thDefault_ran lk p c : pPos p < stop -> thDefaultD ct w stop lk p c = Ran (thDefault ct w stop lk p c).
Proof. intros H. unfold thDefaultD, thDefault. go. Qed.
Lemma thOther_ran lk p : pPos p < stop -> thOtherD ct w stop lk p = Ran (thOther ct w stop lk p).
Proof. intros H. unfold thOtherD, thOther. go; [apply thRoRua_ran|apply thDefault_ran]; pos. Qed.
Lemma thPartial_ran lk p : thPartialD ct w stop lk p = Ran (thPartial ct w stop lk p).
Proof.
  unfold thPartialD, thPartial. go; [apply thMaiHanAkat_ran|apply thUpDown_ran|apply thMaitaikhu_ran|apply thOther_ran]; auto; pos.
Qed.
Lemma thCons_ran q lk : q < stop -> ParseThConsD ct w q stop lk = Ran (ParseThCons ct w q stop lk).
Proof.
  intros H. unfold ParseThConsD, ParseThCons. site. go; [apply init_ran; exact H|].
  apply ran_for. intros p _. apply thPartial_ran.
Qed.

Lemma eSaraI_ran p : eSaraID ct w stop p = Ran (eSaraI ct w stop p).
Proof. unfold eSaraID, eSaraI. go. Qed.
Lemma eTriple_ran p need a b eat' eat : (forall p, pPos p < stop -> eat' p = Ran (eat p)) ->
  eTripleD ct w stop p need a b eat' = Ran (eTriple ct w stop p need a b eat).
Proof. intros H. unfold eTripleD, eTriple. go; auto. Qed.
Lemma eMaitaikhu_ran p : eMaitaikhuD ct w stop p = Ran (eMaitaikhu ct w stop p).
Proof. unfold eMaitaikhuD, eMaitaikhu. go. Qed.
Lemma eOAng_ran p : pPos p < stop -> eOAngD ct w stop p = Ran (eOAng ct w stop p).
Proof. intros H. unfold eOAngD, eOAng. go. Qed.
Lemma eSaraA_ran p : pPos p < stop -> eSaraAD ct w stop p = Ran (eSaraA ct w stop p).
Proof. intros H. unfold eSaraAD, eSaraA. go. Qed.
Lemma eSaraAA_ran p : pPos p < stop -> eSaraAAD ct w stop p = Ran (eSaraAA ct w stop p).
Proof. intros H. unfold eSaraAAD, eSaraAA. go. Qed.
Lemma eDefault_ran p : pPos p < stop -> eDefaultD ct w stop p = Ran (eDefault ct w stop p).
Proof. intros H. unfold eDefaultD, eDefault. go. Qed.
Lemma eYoYak_ran p : pPos p < stop -> eYoYakD ct w stop p = Ran (eYoYak ct w stop p).
Proof. intros H. unfold eYoYakD, eYoYak. go. apply eDefault_ran; pos. Qed.
Lemma eOther_ran p c : pPos p < stop -> at16 w (pPos p) = Ok c -> eOtherD ct w stop p c = Ran (eOther ct w stop p c).
Proof.
  intros H C. unfold eOtherD, eOther. step; [apply readTone_ran|].
  assert (R : th_wcisthtone ct c && (stop <=? pPos x) = false -> pPos x < stop).
  { intros X. unfold readTone in H0. rewrite C in H0. cbn [bind] in H0. destruct (th_wcisthtone ct c).
    - cbn [andb] in X. bools. exact X.
    - injection H0 as <-. exact H. }
  step; [reflexivity|]. specialize (R eq_refl). clear H0.
  go; auto using eOAng_ran, eSaraA_ran, eSaraAA_ran, eYoYak_ran, eDefault_ran.
Qed.
Lemma ePartial_ran p : ePartialD ct w stop p = Ran (ePartial ct w stop p).
Proof.
  unfold ePartialD, ePartial. go; auto using eSaraI_ran, eMaitaikhu_ran.
  - apply eTriple_ran. intros q Hq. apply eatComplex_ran. exact Hq.
  - apply eTriple_ran. intros q Hq. apply eatSimple_ran. exact Hq.
  - apply eOther_ran; [pos|flds; assumption].
Qed.
Lemma saraE_ran q lk : q < stop -> at16 w q = Ok UTH_SARA_E -> ParseSaraED ct w q stop lk = Ran (ParseSaraE ct w q stop lk).
Proof.
  intros H C. unfold ParseSaraED, ParseSaraE. site. rewrite C. cbn [dbind]. rewrite N.eqb_refl.
  go; [apply init_ran; pos|]. apply ran_for. intros p _. apply ePartial_ran.
Qed.

Lemma lvAe_ran p : pPos p <= stop -> lvAeD ct w stop p = Ran (lvAe ct w stop p).
Proof. intros H. unfold lvAeD, lvAe. go. Qed.
Lemma lvO_ran p : pPos p <= stop -> lvOD ct w stop p = Ran (lvO ct w stop p).
Proof. intros H. unfold lvOD, lvO. go. Qed.
Lemma lvMaimalai_ran p : pPos p <= stop -> lvMaimalaiD ct w stop p = Ran (lvMaimalai ct w stop p).
Proof. intros H. unfold lvMaimalaiD, lvMaimalai. go. Qed.
Lemma lvMaimuan_ran p : pPos p <= stop -> lvMaimuanD ct w stop p = Ran (lvMaimuan ct w stop p).
Proof. intros H. unfold lvMaimuanD, lvMaimuan. go. Qed.
Lemma lvPartial_ran v p : pPos p <= stop -> lvPartialD ct w stop v p = Ran (lvPartial ct w stop v p).
Proof.
  intros H. unfold lvPartialD, lvPartial.
  go; [apply lvAe_ran|apply lvO_ran|apply lvMaimalai_ran|apply lvMaimuan_ran]; pos.
Qed.
Lemma otherLV_ran q lk v : q + 1 < stop -> at16 w q = Ok v -> th_wcisldvowel ct v = true -> (UTH_SARA_E =? v)%N = false ->
  ParseOtherLVD ct w q stop lk = Ran (ParseOtherLV ct w q stop lk).
Proof.
  intros H C L E. unfold ParseOtherLVD, ParseOtherLV. site. rewrite C. cbn [dbind bind]. rewrite L, E. cbn [negb dbind].
  go; [apply init_ran; exact H|]. apply ran_for. intros p Hp. apply lvPartial_ran. eapply init_pos; eauto.
Qed.
Lemma otherLV_abort q lk v : q + 1 = stop -> at16 w q = Ok v -> th_wcisldvowel ct v = true -> (UTH_SARA_E =? v)%N = false ->
  ParseOtherLVD ct w q stop lk = Abort (parser_cxx 293).
Proof.
  intros H C L E. unfold ParseOtherLVD. site. rewrite C. cbn [dbind]. rewrite L, E. cbn [negb dbind].
  rewrite init_abort by lia. reflexivity.
Qed.
Lemma ruLu_ran q v : q < stop -> at16 w q = Ok v -> (UTH_RU =? v)%N || (UTH_LU =? v)%N = true ->
  ParseRuLuD ct w q stop = Ran (ParseRuLu ct w q stop).
Proof.
  intros H C L. unfold ParseRuLuD, ParseRuLu. site. rewrite C, dOk, L, dOk, bOk. go.
Qed.
End Rules.

(** ** One step *)
Section Step.
Variable ct : CType.
Hypothesis ctOK : ctype_ok ct.
Variable w : list N.
Variable dict : option Dict.
Variable brk : list nat.
Notation n := (List.length w).
Notation isCons := (th_wcisthcons ct).

Lemma abbrEdges_ran fuel : forall q e d, abbrEdgesD ct fuel w q e d = Ran (abbrEdges ct fuel w q e d).
Proof.
  induction fuel as [|fuel IH]; intros q e d; cbn [abbrEdgesD abbrEdges]; destruct (e <=? q); try reflexivity.
  apply ran_bind; [reflexivity|]. intros c _. destruct (isCons c) eqn:C; [|apply IH].
  apply ran_bind.
  { destruct (q + 1 <? e); [|reflexivity]. apply ran_bind; reflexivity. }
  intros b _. apply ran_bind; [apply (sound_ran ct ctOK); exact C|]. intros s0 _.
  apply ran_bind; [apply (class_ran ct ctOK); exact C|]. intros k0 _. apply IH.
Qed.
Lemma abbr_ran s : sStop s <= n -> sPos s < sStop s -> FindAbbrD ct w s = Ran (FindAbbr ct w s).
Proof.
  intros A B. unfold FindAbbrD, FindAbbr. rewrite (proj2 (Nat.leb_le _ _) A), (proj2 (Nat.ltb_lt _ _) B).
  apply ran_bind; [destruct (sPos s); [reflexivity|apply ran_bind; reflexivity]|]. intros b _.
  destruct (negb b); [reflexivity|]. apply ran_bind; [reflexivity|]. intros [((e & m) & c)|] _; [|reflexivity].
  destruct (_ && _); [reflexivity|]. apply ran_bind; [apply abbrEdges_ran|]. reflexivity.
Qed.
Lemma exc_ran s d : sStop s <= n -> sPos s < sStop s -> FindExceptionsD ct w s d = Ran (FindExceptions ct w s d).
Proof.
  intros A B. unfold FindExceptionsD, FindExceptions. rewrite (proj2 (Nat.leb_le _ _) A), (proj2 (Nat.ltb_lt _ _) B).
  apply ran_bind; reflexivity.
Qed.
Lemma gap_ran s : sPos s <= n -> skipGapD ct w brk s = Ran (skipGap ct w brk s).
Proof.
  intros L. unfold skipGapD, skipGap. cbv zeta.
  destruct (SkipNonThai_spec ct w (sPos s) L) as (A & _ & C). set (b := SkipNonThai ct w (sPos s)) in *.
  assert (X : forall s', sPos s' = b -> (if sPos s' <? n then NextWordStopD ct w (sPos s') brk else Ran (Ok (sPos s'))) =
    Ran (if sPos s' <? n then NextWordStop ct w (sPos s') brk else Ok (sPos s'))).
  { intros s' ->. destruct (Nat.ltb_spec b n) as [Lb|Lb]; [|reflexivity]. destruct C as [C|(c & Ec & Tc)]; [lia|].
    unfold NextWordStopD, NextWordStop, at16. rewrite Ec. cbn [dbind]. rewrite token_eq, Tc. reflexivity. }
  destruct (Nat.ltb_spec (sPos s) b) as [H|H]; (apply ran_bind; [apply X; cbn [sPos]; lia|]); reflexivity.
Qed.

(** A leading vowel other than SARA E right before the stop position. *)
Definition blocked (p q : nat) : Prop :=
  p + 1 = q /\ exists v, at16 w p = Ok v /\ th_wcisldvowel ct v = true /\ v <> UTH_SARA_E.
Lemma blocked_dec p q : {blocked p q} + {~ blocked p q}.
Proof.
  destruct (Nat.eq_dec (p + 1) q) as [E|E]; [|right; intros (X & _); contradiction].
  destruct (at16 w p) as [v| | |] eqn:Ev; try (right; intros (_ & v & X & _); congruence).
  destruct (th_wcisldvowel ct v) eqn:L; [|right; intros (_ & v' & X & Y & _); congruence].
  destruct (N.eq_dec v UTH_SARA_E) as [Q|Q]; [right; intros (_ & v' & X & _ & Z); congruence|].
  left. split; [exact E|]. exists v. split; [exact Ev|]. auto.
Qed.
Lemma ldv_cons v : th_wcisldvowel ct v = true -> isCons v = false.
Proof.
  intros H. destruct (isCons v) eqn:C; [|reflexivity]. destruct (cons_range _ ctOK v C) as (_ & A & _).
  pose proof (ldvowel_range _ ctOK v H) as B. destruct B as [B|[B|[B|[B|B]]]]; rewrite B in A; vm_compute in A; congruence.
Qed.
Lemma rules_ran s : sStop s <= n -> sPos s < sStop s -> ~ blocked (sPos s) (sStop s) ->
  ruleStatesD ct w s = Ran (ruleStates ct w s).
Proof.
  intros A B NB. unfold ruleStatesD, ruleStates. cbv zeta. apply ran_bind; [reflexivity|]. intros c Ec.
  destruct (isCons c) eqn:C1; [apply ran_bind; [apply thCons_ran; auto|reflexivity]|].
  destruct (N.eqb_spec UTH_SARA_E c) as [<-|C2]; [apply ran_bind; [apply saraE_ran; auto|reflexivity]|].
  destruct (th_wcisldvowel ct c) eqn:C3.
  { apply ran_bind; [|reflexivity]. eapply otherLV_ran; eauto; [|apply N.eqb_neq; exact C2].
    destruct (Nat.eq_dec (sPos s + 1) (sStop s)) as [Q|Q]; [|lia]. exfalso. apply NB. split; [exact Q|]. exists c. auto. }
  destruct ((UTH_RU =? c)%N || (UTH_LU =? c)%N) eqn:C4; [apply ran_bind; [eapply ruLu_ran; eauto|reflexivity]|].
  destruct (46 =? c)%N; [|reflexivity]. apply ran_bind; reflexivity.
Qed.
Lemma rules_abort s : sStop s <= n -> blocked (sPos s) (sStop s) -> ruleStatesD ct w s = Abort (parser_cxx 293).
Proof.
  intros A (B & v & Ev & L & N). unfold ruleStatesD. cbv zeta. rewrite Ev, dOk, (ldv_cons v L).
  assert (X : (UTH_SARA_E =? v)%N = false) by (apply N.eqb_neq; congruence). rewrite X, L.
  rewrite (otherLV_abort ct w (sStop s) A (sPos s) (sLinked s) v B Ev L X). reflexivity.
Qed.
Lemma abbr_blocked s : sStop s <= n -> blocked (sPos s) (sStop s) -> FindAbbr ct w s = Ok None.
Proof.
  intros A (B & v & Ev & L & N). unfold FindAbbr.
  assert (X : exists b, match sPos s with O => Ok true | S i => (c <- at16 w i ;; Ok ((c =? 32)%N || (c =? 46)%N))%res end = Ok b).
  { destruct (sPos s) as [|i] eqn:Ep; [eauto|]. unfold at16. destruct (nth_error w i) eqn:E; cbn [bind]; [eauto|]. apply nth_error_None in E. lia. }
  destruct X as (b & ->). rewrite bOk. destruct (negb b); [reflexivity|].
  replace (sStop s - sPos s) with 1 by lia. cbn [abbrScan]. rewrite Ev. cbn [bind]. rewrite (ldv_cons v L).
  destruct (N.eqb_spec 46 v) as [<-|_]; [|reflexivity]. destruct (ldvowel_range _ ctOK _ L) as [Q|[Q|[Q|[Q|Q]]]]; discriminate Q.
Qed.

Definition exceptions s : Res (list ParseState) := match dict with Some d => FindExceptions ct w s d | None => Ok [] end.
Lemma step_ran s : sStop s <= n -> sPos s <= n ->
  ~ blocked (sPos s) (sStop s) \/ exceptions s <> Ok [] ->
  stepStatesD ct w dict brk s = Ran (stepStates ct w dict brk s).
Proof.
  intros A A' NB. unfold stepStatesD, stepStates. destruct (Nat.leb_spec (sStop s) (sPos s)) as [L|L].
  { apply ran_bind; [apply gap_ran; exact A'|]. reflexivity. }
  apply ran_bind; [destruct dict; [apply exc_ran; auto|reflexivity]|].
  intros ex Ee. destruct ex; [|reflexivity]. destruct NB as [NB|NB]; [|contradiction].
  apply ran_bind; [apply abbr_ran; auto|]. intros [s'|] _; [reflexivity|]. apply rules_ran; auto.
Qed.
Lemma step_abort s : sStop s <= n -> blocked (sPos s) (sStop s) -> exceptions s = Ok [] ->
  stepStatesD ct w dict brk s = Abort (parser_cxx 293).
Proof.
  intros A B X. pose proof B as (Q & _). unfold stepStatesD. destruct (Nat.leb_spec (sStop s) (sPos s)) as [L|L]; [lia|].
  assert (Y : match dict with Some d => FindExceptionsD ct w s d | None => Ran (Ok []) end = Ran (Ok [])).
  { unfold exceptions in X. destruct dict; [|reflexivity]. rewrite exc_ran by auto. rewrite X. reflexivity. }
  rewrite Y, dOk, abbr_ran by auto. rewrite (abbr_blocked s A B), dOk. apply rules_abort; auto.
Qed.
End Step.

(** ParserLocal.v - the actions of the main loop inside a word are local. *)
From Coq Require Import String List NArith ZArith Bool Arith Lia.
From Verif Require Import Spec Base ThUni ThCons Syl OrderProofs Lattice LatticeProofs
  Dag DagProofs PronDag PathProofs GroupProofs ListDagProofs Dict DictProofs Parser Wp
  ParserSpec ParserRules ParserActs ParserLoop ParserFacts ParserInv ParserShift.
Import ListNotations.
Local Open Scope nat_scope.

(** Moving the graph nodes of an edge by [k] characters: nodes of text positions
    and the numbered nodes between them (see [shiftPos]). *)
Definition mvNode (k : nat) (z : Z) : Z := shiftPos (Z.of_nat k) z.
Definition mvSyl (k : nat) (v : Syl) : Syl := setEndPos v (mvNode k (endPos v)).
Definition mvEdge (k : nat) (e : Edge) : Edge :=
  (mvNode k (fst (fst e)), mvNode k (snd (fst e)), mvSyl k (snd e)).
#[global] Instance mv_act : Moves Act := fun k a =>
  mkAct (k + aPos a) (k + aStop a) (aLinked a) (aStretch a) (map (mvEdge k) (aEdges a)).

Lemma mvNode_nat k i : mvNode k (Z.of_nat i) = Z.of_nat (k + i).
Proof. unfold mvNode, shiftPos. destruct (Z.ltb_spec (Z.of_nat i) 0); lia. Qed.
Lemma mvNode_pre k b e : 0 < b * 100 + e ->
  mvNode k (- (Z.of_nat b * 100 + Z.of_nat e)) =
  (- (Z.of_nat (k + b) * 100 + Z.of_nat (k + e)))%Z.
Proof. intros H. unfold mvNode, shiftPos. destruct (Z.ltb_spec (- (Z.of_nat b * 100 + Z.of_nat e)) 0); lia. Qed.
Lemma mvNode_0 z : mvNode 0 z = z.
Proof. unfold mvNode, shiftPos. destruct (z <? 0)%Z; lia. Qed.
Lemma mvNode_inj k a b : mvNode k a = mvNode k b -> a = b.
Proof.
  unfold mvNode, shiftPos. destruct (Z.ltb_spec a 0), (Z.ltb_spec b 0); lia.
Qed.
Lemma mvNode_rk k z : nodeRank (mvNode k z) = (nodeRank z + 101 * Z.of_nat k)%Z.
Proof. apply rk_shift. lia. Qed.
Lemma mvNode_add k j z : mvNode k (mvNode j z) = mvNode (k + j) z.
Proof.
  unfold mvNode, shiftPos. destruct (Z.ltb_spec z 0).
  - destruct (Z.ltb_spec (z - Z.of_nat j * 101) 0); lia.
  - destruct (Z.ltb_spec (z + Z.of_nat j) 0); lia.
Qed.
Lemma mvSyl_add k j v : mvSyl k (mvSyl j v) = mvSyl (k + j) v.
Proof. unfold mvSyl. destruct v. cbn. rewrite mvNode_add. reflexivity. Qed.
Lemma mvSyl_0 v : mvSyl 0 v = v.
Proof. unfold mvSyl. rewrite mvNode_0. destruct v. reflexivity. Qed.

(** ** Edges *)
Lemma emEdges_mv k b e : 0 < emPos e ->
  emEdges (k + b) (mv k e) = map (mvEdge k) (emEdges b e).
Proof.
  intros H. unfold emEdges. change (emSyl (mv k e)) with (setPos (emSyl e) (k + pPos (emSyl e))).
  change (emPos (mv k e)) with (k + emPos e). cbn [setPos preSyl].
  destruct (preSyl (emSyl e)) as [pre|]; cbn [map mvEdge fst snd]; unfold mvEdge; cbn [fst snd].
  - rewrite !mvNode_nat, mvNode_pre by lia. f_equal; [|f_equal].
    + unfold mvSyl, setEndPos. cbn [endPos]. rewrite mvNode_pre by lia. reflexivity.
    + unfold mvSyl, mainSyl, SylOf, setEndPos. cbn [setPos preSyl iConsSound iConsClass pCons2 pVowel eConsClass pTone endPos].
      rewrite mvNode_nat. reflexivity.
  - rewrite !mvNode_nat. f_equal. f_equal.
    unfold mvSyl, mainSyl, SylOf, setEndPos. cbn [setPos preSyl iConsSound iConsClass pCons2 pVowel eConsClass pTone endPos].
    rewrite mvNode_nat. reflexivity.
Qed.
Lemma strEdges_mv k s : forall p, strEdges (mvNode k p) (map (mvSyl k) s) = map (mvEdge k) (strEdges p s).
Proof.
  induction s as [|v s IH]; intros p; [reflexivity|]. cbn [map strEdges]. rewrite <- IH. reflexivity.
Qed.
Lemma excEdges_mv k p strs : excEdges (k + p) strs = map (mvEdge k) (excEdges p strs).
Proof.
  unfold excEdges. rewrite concat_map, map_map. f_equal. apply map_ext. intros s.
  rewrite <- strEdges_mv, mvNode_nat. f_equal. unfold shiftEndPos. rewrite map_map.
  apply map_ext. intros v. symmetry. exact (mvSyl_add k p v).
Qed.

Section Local.
Variable ct : CType.
Variables u w x : list N.
Notation k := (length u).
Notation W := (u ++ w ++ x).
Notation n := (length w).
Notation isCons := (th_wcisthcons ct).

(** ** Rules *)
Lemma sim_ruleEms pos stop l c : sim k (ruleEms ct w pos stop l c) (ruleEms ct W (k + pos) (k + stop) l c).
Proof.
  unfold ruleEms. destruct (isCons c); [apply sim_ParseThCons|].
  destruct (_ =? _)%N; [apply sim_ParseSaraE|]. destruct (th_wcisldvowel ct c); [apply sim_ParseOtherLV|].
  destruct (_ || _); [apply sim_ParseRuLu|]. apply sim_ok. reflexivity.
Qed.
Lemma sim_ruleActs pos stop l : pos < stop -> stop <= n ->
  sim k (ruleActs ct w pos stop l) (ruleActs ct W (k + pos) (k + stop) l).
Proof.
  intros H1 H2 r. unfold ruleActs.
  destruct (at16 w pos) as [c| | |] eqn:Ec; cbn [bind]; try discriminate.
  rewrite (sim_at16 u w x pos c Ec). cbn [bind]. change (mv k c) with c.
  destruct (negb _ && _).
  - intros E. injection E as <-. rewrite <- Nat.add_assoc. reflexivity.
  - destruct (ruleEms ct w pos stop l c) as [es| | |] eqn:Ee; cbn [bind]; try discriminate.
    intros E. injection E as <-. rewrite (sim_ruleEms pos stop l c es Ee). cbn [bind]. f_equal.
    assert (Hc : nth_error w pos = Some c).
    { unfold at16 in Ec. destruct (nth_error w pos); congruence. }
    pose proof (ruleEms_sat ct w True (or_introl I) (or_introl I) pos stop l c H1 H2 Hc) as G.
    rewrite Ee in G. cbn [Sat] in G. unfold mv, mv_list. rewrite !map_map.
    apply map_ext_in. intros e He. rewrite Forall_forall in G. destruct (G e He) as (Ge & _).
    apply eg_lo in Ge. unfold emAct, mv, mv_act. cbn [aPos aStop aLinked aStretch aEdges].
    f_equal. apply emEdges_mv. lia.
Qed.

(** ** Abbreviations *)
Lemma abbrScan_mv j : forall i nc c r, abbrScan ct j w i nc c = Ok r ->
  abbrScan ct j W (k + i) nc c =
  Ok (option_map (fun r => (k + fst (fst r), snd (fst r), snd r)) r).
Proof.
  induction j as [|j IH]; intros i nc c r; cbn [abbrScan].
  - intros E. injection E as <-. reflexivity.
  - destruct (at16 w i) as [c'| | |] eqn:Ec; cbn [bind]; try discriminate.
    rewrite (sim_at16 u w x i c' Ec). cbn [bind]. change (mv k c') with c'.
    destruct (isCons c').
    + destruct (4 <? S nc); [intros E; injection E as <-; reflexivity|].
      intros E. rewrite <- Nat.add_succ_r. apply IH. exact E.
    + destruct (_ =? _)%N; [|intros E; injection E as <-; reflexivity].
      destruct (4 <? nc); intros E; injection E as <-; [reflexivity|].
      cbn [option_map fst snd]. rewrite Nat.add_succ_r. reflexivity.
Qed.
Lemma abbrEs_mv f : forall p e r, abbrEs ct f w p e = Ok r ->
  abbrEs ct f W (k + p) (k + e) = Ok (map (mvEdge k) r).
Proof.
  induction f as [|f IH]; intros p e r; cbn [abbrEs]; rewrite sh_leb;
    destruct (e <=? p); try (intros E; injection E as <-; reflexivity); [discriminate|].
  destruct (at16 w p) as [c| | |] eqn:Ec; cbn [bind]; try discriminate.
  rewrite (sim_at16 u w x p c Ec). cbn [bind]. change (mv k c) with c.
  destruct (isCons c).
  - rewrite sh_assoc, sh_ltb.
    destruct (if p + 1 <? e then _ else _) as [b| | |] eqn:Eb; cbn [bind]; try discriminate.
    assert (Eb' : (if p + 1 <? e then bind (at16 W (k + (p + 1))) (fun c' => Ok (negb (isCons c'))) else Ok false) = Ok b).
    { destruct (p + 1 <? e); [|exact Eb].
      destruct (at16 w (p + 1)) as [c1| | |] eqn:E1; cbn [bind] in *; try discriminate.
      rewrite (sim_at16 u w x _ c1 E1). exact Eb. }
    rewrite Eb'. cbn [bind].
    assert (X : (if b then k + p + 2 else k + (p + 1)) = k + (if b then p + 2 else p + 1)) by (destruct b; lia).
    rewrite X. clear X.
    destruct (InitConsSound c) as [s| | |]; cbn [bind]; try discriminate.
    destruct (InitConsClass c) as [q| | |]; cbn [bind]; try discriminate.
    destruct (abbrEs ct f w _ e) as [es| | |] eqn:Ee; cbn [bind]; try discriminate.
    rewrite (IH _ _ _ Ee). cbn [bind]. intros E. injection E as <-. f_equal. cbn [map]. f_equal.
    unfold mvEdge. cbn [fst snd]. rewrite !mvNode_nat. f_equal.
    unfold mvSyl, SylOf, setEndPos. cbn [endPos]. rewrite mvNode_nat. reflexivity.
  - rewrite !sh_assoc.
    destruct (abbrEs ct f w (p + 1) e) as [es| | |] eqn:Ee; cbn [bind]; try discriminate.
    rewrite (IH _ _ _ Ee). cbn [bind]. intros E. injection E as <-. f_equal. cbn [map]. f_equal.
    unfold mvEdge. cbn [fst snd]. rewrite !mvNode_nat. f_equal.
    unfold mvSyl, SylLiteral, setEndPos. cbn [endPos]. rewrite mvNode_nat. reflexivity.
Qed.
(** The character before the word, seen from its start. *)
Definition sameStart (pos : nat) : Prop := 0 < pos \/ letterStart W k.
Lemma sim_abbrAct pos stop : sameStart pos ->
  sim k (abbrAct ct w pos stop) (abbrAct ct W (k + pos) (k + stop)).
Proof.
  intros SS r. unfold abbrAct.
  assert (A : forall b, match pos with O => Ok true | S i => bind (at16 w i) (fun c => Ok ((c =? 32)%N || (c =? 46)%N)) end = Ok b ->
    match k + pos with O => Ok true | S i => bind (at16 W i) (fun c => Ok ((c =? 32)%N || (c =? 46)%N)) end = Ok b).
  { intros b. destruct pos as [|i].
    - intros E. injection E as <-. destruct SS as [|[H|H]]; [lia|rewrite H; reflexivity|].
      destruct H as (c & H & D). rewrite Nat.add_0_r. destruct k as [|j] eqn:Ej; [reflexivity|].
      replace (S j - 1) with j in H by lia. unfold at16. rewrite H. cbn [bind].
      destruct D as [->| ->]; reflexivity.
    - rewrite Nat.add_succ_r. destruct (at16 w i) as [c| | |] eqn:Ec; cbn [bind]; try discriminate.
      rewrite (sim_at16 u w x i c Ec). intros E. exact E. }
  destruct (match pos with O => _ | S _ => _ end) as [b| | |]; cbn [bind]; try discriminate.
  rewrite (A b eq_refl). cbn [bind]. destruct (negb b).
  - intros E. injection E as <-. reflexivity.
  - replace (k + stop - (k + pos)) with (stop - pos) by lia.
    destruct (abbrScan ct (stop - pos) w pos 0 0%N) as [o| | |] eqn:Eo; cbn [bind]; try discriminate.
    rewrite (abbrScan_mv _ _ _ _ _ Eo). cbn [bind].
    destruct o as [((e & m) & c)|]; cbn [option_map fst snd]; [|intros E; injection E as <-; reflexivity].
    destruct (_ && _); [intros E; injection E as <-; reflexivity|].
    replace (k + e - (k + pos)) with (e - pos) by lia.
    destruct (abbrEs ct (e - pos) w pos e) as [es| | |] eqn:Ee; cbn [bind]; try discriminate.
    rewrite (abbrEs_mv _ _ _ _ Ee). cbn [bind]. intros E. injection E as <-. reflexivity.
Qed.

(** ** Dictionary entries *)
Lemma findNextIn_mv t rest : forall pos pre,
  match findNextIn t pos pre rest with
  | Some m => findNextIn t (k + pos) pre (rest ++ x) =
                Some (mkMatch (k + mCurPos m) (mPre m) (mRest m ++ x)) /\
              mCurPos m + length (mRest m) = pos + length rest
  | None => match findNextIn t (k + pos) pre (rest ++ x) with
            | Some m => k + pos + length rest < mCurPos m
            | None => True
            end
  end.
Proof.
  assert (B : forall y pos pre m, findNextIn t pos pre y = Some m -> pos < mCurPos m).
  { induction y as [|c y IH]; intros pos pre m; cbn [findNextIn]; [discriminate|].
    destruct (trieWalk t pre c) as [pre'|]; [|discriminate].
    destruct (trieTerminal t pre'); intros E; [injection E as <-; cbn; lia|].
    apply IH in E. lia. }
  induction rest as [|c rest IH]; intros pos pre; cbn [findNextIn app].
  - destruct (findNextIn t (k + pos) pre x) as [m|] eqn:E; [|exact I].
    apply B in E. cbn [length]. lia.
  - destruct (trieWalk t pre c) as [pre'|]; [|exact I].
    destruct (trieTerminal t pre'); cbn [mCurPos mPre mRest].
    + split; [rewrite Nat.add_succ_r; reflexivity|]. cbn [length]. lia.
    + specialize (IH (S pos) pre'). rewrite Nat.add_succ_r in IH.
      destruct (findNextIn t (S pos) pre' rest) as [m|].
      * destruct IH as (A & C). split; [exact A|]. cbn [length]. lia.
      * destruct (findNextIn t (S (k + pos)) pre' (rest ++ x)); [|exact I]. cbn [length]. lia.
Qed.
Definition mvMatch (m : Match) : Match := mkMatch (k + mCurPos m) (mPre m) (mRest m ++ x).
Lemma allMatches_after d f : forall m b, b < mCurPos m ->
  Forall (fun m => b < mCurPos m) (allMatches f d m).
Proof.
  assert (B : forall t y pos pre m, findNextIn t pos pre y = Some m -> pos < mCurPos m).
  { induction y as [|c y IH]; intros pos pre m; cbn [findNextIn]; [discriminate|].
    destruct (trieWalk t pre c) as [pre'|]; [|discriminate].
    destruct (trieTerminal t pre'); intros E; [injection E as <-; cbn; lia|].
    apply IH in E. lia. }
  induction f as [|f IH]; intros m b H; cbn [allMatches]; [constructor|].
  unfold findNext. destruct (mTrie d) as [t|]; [|constructor].
  destruct (findNextIn _ _ _ _) as [m'|] eqn:E; [|constructor].
  apply B in E. constructor; [lia|]. apply IH. lia.
Qed.
Lemma allMatches_mv d f : forall f' m, mCurPos m + length (mRest m) = n -> length (mRest m) < f ->
  length (mRest m) + length x < f' ->
  exists ex, allMatches f' d (mvMatch m) = map mvMatch (allMatches f d m) ++ ex /\
             Forall (fun m => k + n < mCurPos m) ex.
Proof.
  induction f as [|f IH]; intros f' m Hn Hf Hf'; [lia|]. destruct f' as [|f']; [lia|].
  cbn [allMatches]. unfold findNext. destruct (mTrie d) as [t|] eqn:Et; [|exists []; auto].
  pose proof (findNextIn_mv t (mRest m) (mCurPos m) (mPre m)) as H. unfold mvMatch at 1 2 3.
  cbn [mCurPos mPre mRest].
  destruct (findNextIn t (mCurPos m) (mPre m) (mRest m)) as [m1|] eqn:E1.
  - destruct H as (H & L). rewrite H. fold (mvMatch m1).
    assert (L1 : length (mRest m1) < length (mRest m)).
    { assert (B : forall y pos pre m, findNextIn t pos pre y = Some m -> length (mRest m) < length y).
      { induction y as [|c y IHy]; intros pos pre m'; cbn [findNextIn]; [discriminate|].
        destruct (trieWalk t pre c) as [pre'|]; [|discriminate].
        destruct (trieTerminal t pre'); intros E; [injection E as <-; cbn; lia|].
        apply IHy in E. cbn [length]. lia. }
      eapply B; exact E1. }
    destruct (IH f' m1) as (ex & A & B); [lia|lia|lia|].
    exists ex. split; [|exact B]. cbn [map app]. f_equal. exact A.
  - destruct (findNextIn t (k + mCurPos m) (mPre m) (mRest m ++ x)) as [m1|]; [|exists []; auto].
    exists (m1 :: allMatches f' d m1). split; [reflexivity|]. constructor; [lia|].
    apply allMatches_after. lia.
Qed.
Lemma mapM_app {A B} (f : A -> Res B) l l' r r' : mapM f l = Ok r -> mapM f l' = Ok r' ->
  mapM f (l ++ l') = Ok (r ++ r').
Proof.
  revert r. induction l as [|a l IH]; intros r; cbn [mapM app].
  - intros E. injection E as <-. intros E. exact E.
  - destruct (f a) as [b| | |]; cbn [bind]; try discriminate.
    destruct (mapM f l) as [bs| | |]; cbn [bind]; try discriminate.
    intros E E'. injection E as <-. rewrite (IH bs eq_refl E'). reflexivity.
Qed.
Lemma keepSome_app {A} (l l' : list (option A)) : keepSome (l ++ l') = keepSome l ++ keepSome l'.
Proof. induction l as [|[a|] l IH]; cbn [keepSome app]; rewrite ?IH; reflexivity. Qed.
Lemma sim_excAct d pos stop m :
  sim k (excAct ct w pos stop d m) (excAct ct W (k + pos) (k + stop) d (mvMatch m)).
Proof.
  intros r. unfold excAct. cbn [mvMatch mCurPos]. rewrite sh_ltb.
  destruct (_ <? _); [intros E; injection E as <-; reflexivity|].
  destruct (stopOrSylStart ct w (mCurPos m) stop) as [b| | |] eqn:Eb; cbn [bind]; try discriminate.
  rewrite (sim_stopOrSylStart ct u w x _ _ b Eb). cbn [bind]. change (mv k b) with b.
  destruct (negb b); [intros E; injection E as <-; reflexivity|].
  change (matchGetData d (mvMatch m)) with (matchGetData d m).
  destruct (matchGetData d m) as [s| | |]; cbn [bind]; try discriminate.
  destruct (MakeSylStrings s) as [strs| | |]; cbn [bind]; try discriminate.
  intros E. injection E as <-. rewrite excEdges_mv. reflexivity.
Qed.
Lemma sim_excActs d pos stop : pos <= n -> stop <= n ->
  sim k (excActs ct w pos stop d) (excActs ct W (k + pos) (k + stop) d).
Proof.
  intros Hp Hs r. unfold excActs.
  assert (Ms : MatchNew W (k + pos) = mvMatch (MatchNew w pos)).
  { unfold MatchNew, mvMatch. cbn [mCurPos mPre mRest]. f_equal.
    rewrite skipn_app. rewrite skipn_all2 by lia. cbn [app].
    replace (k + pos - k) with pos by lia. rewrite skipn_app.
    replace (pos - n) with 0 by lia. reflexivity. }
  rewrite Ms. destruct (allMatches_mv d (S n) (S (length W)) (MatchNew w pos)) as (ex & A & B).
  { cbn. rewrite skipn_length. lia. }
  { cbn. rewrite skipn_length. lia. }
  { cbn. rewrite skipn_length, !app_length. lia. }
  rewrite A. destruct (mapM (excAct ct w pos stop d) _) as [l| | |] eqn:El; cbn [bind]; try discriminate.
  intros E. injection E as <-.
  assert (E1 : mapM (excAct ct W (k + pos) (k + stop) d)
    (map mvMatch (allMatches (S n) d (MatchNew w pos))) = Ok (map (mv k) l)).
  { clear A. revert l El. induction (allMatches (S n) d (MatchNew w pos)) as [|m ms IH]; intros l; cbn [mapM map].
    - intros E. injection E as <-. reflexivity.
    - destruct (excAct ct w pos stop d m) as [o| | |] eqn:Eo; cbn [bind]; try discriminate.
      destruct (mapM (excAct ct w pos stop d) ms) as [os| | |]; cbn [bind]; try discriminate.
      intros E. injection E as <-. rewrite (sim_excAct _ _ _ _ _ Eo). cbn [bind].
      rewrite (IH os eq_refl). reflexivity. }
  assert (E2 : mapM (excAct ct W (k + pos) (k + stop) d) ex = Ok (map (fun _ => None) ex)).
  { clear A. induction B as [|m ms H B IH]; cbn [mapM map]; [reflexivity|].
    assert (excAct ct W (k + pos) (k + stop) d m = Ok None) as ->.
    { unfold excAct. destruct (Nat.ltb_spec (k + stop) (mCurPos m)); [reflexivity|lia]. }
    cbn [bind]. rewrite IH. reflexivity. }
  rewrite (mapM_app _ _ _ _ _ E1 E2). cbn [bind]. f_equal. rewrite keepSome_app.
  assert (keepSome (map (fun _ : Match => @None Act) ex) = []) as -> by (clear; induction ex; auto).
  rewrite app_nil_r. unfold mv, mv_list, mv_option. rewrite keepSome_map. reflexivity.
Qed.

(** ** Actions inside a word *)
Lemma sim_acts dict brk brk' pos stop l : pos < stop -> stop <= n -> sameStart pos ->
  sim k (acts ct w dict brk pos stop l) (acts ct W dict brk' (k + pos) (k + stop) l).
Proof.
  intros H1 H2 SS r. unfold acts. rewrite sh_leb. destruct (Nat.leb_spec stop pos); [lia|].
  assert (EX : forall ex, match dict with Some d => excActs ct w pos stop d | None => Ok [] end = Ok ex ->
     match dict with Some d => excActs ct W (k + pos) (k + stop) d | None => Ok [] end = Ok (map (mv k) ex)).
  { intros ex. destruct dict as [d|].
    - intros E. apply (sim_excActs d pos stop); [lia|lia|exact E].
    - intros E. injection E as <-. reflexivity. }
  destruct (match dict with Some _ => _ | None => _ end) as [ex| | |]; cbn [bind]; try discriminate.
  rewrite (EX ex eq_refl). cbn [bind]. destruct ex as [|a ex]; cbn [map].
  - destruct (abbrAct ct w pos stop) as [o| | |] eqn:Eo; cbn [bind]; try discriminate.
    rewrite (sim_abbrAct pos stop SS o Eo). cbn [bind].
    destruct o as [a|]; cbn.
    + intros E. injection E as <-. reflexivity.
    + apply sim_ruleActs; assumption.
  - intros E. injection E as <-. reflexivity.
Qed.
End Local.

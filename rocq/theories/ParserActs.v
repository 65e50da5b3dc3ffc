(** ParserActs.v - the main loop seen as actions: what a popped state does
    depends only on its position, stop position and link flag; its graph is
    extended by edges that do not depend on it (or stretched at a full stop). *)
From Coq Require Import String List NArith ZArith Bool Arith Lia.
From Verif Require Import Spec Base ThUni ThCons Syl OrderProofs Lattice LatticeProofs
  Dag DagProofs PronDag PathProofs GroupProofs ListDagProofs Dict Parser Wp.
Import ListNotations.
Local Open Scope nat_scope.

Definition Edge := (Z * Z * Syl)%type.
Definition addAll (d : PronunDAG) (l : list Edge) : PronunDAG :=
  fold_left (fun g x => fst (pAddEdge g (fst (fst x)) (snd (fst x)) (snd x))) l d.

Record Act := mkAct {
  aPos : nat;
  aStop : nat;
  aLinked : bool;
  aStretch : bool;
  aEdges : list Edge
}.

Definition applyAct (s : ParseState) (a : Act) : Res ParseState :=
  if aStretch a
  then (d <- stretch (sDag s) (sPos s) ;; Ok (mkState (aPos a) (aStop a) d (aLinked a)))%res
  else Ok (mkState (aPos a) (aStop a) (addAll (sDag s) (aEdges a)) (aLinked a)).

Definition emEdges (b : nat) (e : Emission) : list Edge :=
  let B := Z.of_nat b in
  let E := Z.of_nat (emPos e) in
  match preSyl (emSyl e) with
  | Some pre =>
      let nx := (- (B * 100 + E))%Z in
      [(B, nx, setEndPos pre nx); (nx, E, mainSyl (emSyl e) E)]
  | None => [(B, E, mainSyl (emSyl e) E)]
  end.

Section Acts.
Variable ct : CType.
Notation isCons := (th_wcisthcons ct).
Local Open Scope res_scope.
Local Notation "a =n b" := (N.eqb a b) (at level 70).

(** The rules by first character, without the full stop. *)
Definition ruleEms (w : list N) (pos stop : nat) (linked : bool) (c : N)
    : Res (list Emission) :=
  if isCons c then ParseThCons ct w pos stop linked
  else if UTH_SARA_E =n c then ParseSaraE ct w pos stop linked
  else if th_wcisldvowel ct c then ParseOtherLV ct w pos stop linked
  else if (UTH_RU =n c) || (UTH_LU =n c) then ParseRuLu ct w pos stop
  else Ok [].
Definition isRuleChar (c : N) : bool :=
  isCons c || (UTH_SARA_E =n c) || th_wcisldvowel ct c || (UTH_RU =n c) || (UTH_LU =n c).

Definition emAct (pos stop : nat) (e : Emission) : Act :=
  mkAct (emPos e) stop (emLinked e) false (emEdges pos e).
Definition ruleActs (w : list N) (pos stop : nat) (linked : bool) : Res (list Act) :=
  c <- at16 w pos ;;
  if negb (isRuleChar c) && (46%N =n c) then
    Ok [mkAct (pos + 1) stop linked true []]
  else l <- ruleEms w pos stop linked c ;; Ok (map (emAct pos stop) l).

Fixpoint abbrEs (fuel : nat) (w : list N) (pos abbrEnd : nat) : Res (list Edge) :=
  if abbrEnd <=? pos then Ok []
  else
    match fuel with
    | O => NoFuel
    | S fuel' =>
        c <- at16 w pos ;;
        if isCons c then
          skip <- (if pos + 1 <? abbrEnd then
                     c' <- at16 w (pos + 1) ;; Ok (negb (isCons c'))
                   else Ok false) ;;
          let sylEnd := if (skip : bool) then pos + 2 else pos + 1 in
          s0 <- InitConsSound c ;;
          k0 <- InitConsClass c ;;
          l <- abbrEs fuel' w sylEnd abbrEnd ;;
          Ok ((Z.of_nat pos, Z.of_nat sylEnd,
               SylOf s0 SEC_NONE V_AUU EC_NONE
                     (if ic_eqb HIGH k0 then CHATTAWA else SAMAN)
                     (Z.of_nat sylEnd)) :: l)
        else
          l <- abbrEs fuel' w (pos + 1) abbrEnd ;;
          Ok ((Z.of_nat pos, Z.of_nat (pos + 1), SylLiteral (Z.of_nat (pos + 1)) [c]) :: l)
    end.

Definition abbrAct (w : list N) (pos stop : nat) : Res (option Act) :=
  atStart <- (match pos with
              | O => Ok true
              | S i => c <- at16 w i ;; Ok ((c =n 32%N) || (c =n 46%N))
              end) ;;
  if negb atStart then Ok None
  else
    r <- abbrScan ct (stop - pos) w pos 0 0%N ;;
    match r with
    | None => Ok None
    | Some (abbrEnd, nCons, c) =>
        if (1 <? nCons) && negb (c =n 46%N) then Ok None
        else
          l <- abbrEs (abbrEnd - pos) w pos abbrEnd ;;
          Ok (Some (mkAct abbrEnd stop false false l))
    end.

Definition excEdges (pos : nat) (strs : list SylString) : list Edge :=
  concat (map (fun x => strEdges (Z.of_nat pos) (shiftEndPos (Z.of_nat pos) x)) strs).
Definition excAct (w : list N) (pos stop : nat) (d : Dict) (m : Match)
    : Res (option Act) :=
  if stop <? mCurPos m then Ok None
  else
    ok <- stopOrSylStart ct w (mCurPos m) stop ;;
    if negb ok then Ok None
    else
      data <- matchGetData d m ;;
      strs <- MakeSylStrings data ;;
      Ok (Some (mkAct (mCurPos m) stop false false (excEdges pos strs))).
Definition excActs (w : list N) (pos stop : nat) (d : Dict) : Res (list Act) :=
  r <- mapM (excAct w pos stop d) (allMatches (S (List.length w)) d (MatchNew w pos)) ;;
  Ok (keepSome r).

Definition gapAct (w : list N) (brk : list nat) (pos : nat) (linked : bool) : Res Act :=
  let b := SkipNonThai ct w pos in
  let p := if pos <? b then b else pos in
  stop <- (if p <? List.length w then NextWordStop ct w p brk else Ok p) ;;
  Ok (mkAct p stop linked false
        (if pos <? b
         then [(Z.of_nat pos, Z.of_nat b,
                SylLiteral (Z.of_nat b) (firstn (b - pos) (skipn pos w)))]
         else [])).

Definition acts (w : list N) (dict : option Dict) (brk : list nat)
    (pos stop : nat) (linked : bool) : Res (list Act) :=
  if stop <=? pos then a <- gapAct w brk pos linked ;; Ok [a]
  else
    ex <- (match dict with
           | Some d => excActs w pos stop d
           | None => Ok []
           end) ;;
    match ex with
    | _ :: _ => Ok ex
    | [] =>
        a <- abbrAct w pos stop ;;
        match a with
        | Some a => Ok [a]
        | None => ruleActs w pos stop linked
        end
    end.

(** ** The main loop performs the actions *)
Lemma bind_ok_map {A B C} (m : Res A) (f : A -> Res B) (g : B -> Res C) :
  bind (bind m f) g = bind m (fun x => bind (f x) g).
Proof. destruct m; reflexivity. Qed.
Lemma bind_ext {A B} (m : Res A) (f g : A -> Res B) :
  (forall a, f a = g a) -> bind m f = bind m g.
Proof. intros H. destruct m; cbn; auto. Qed.
Lemma mapM_total {A B} (f : A -> Res B) (g : A -> B) l :
  (forall a, In a l -> f a = Ok (g a)) -> mapM f l = Ok (map g l).
Proof.
  induction l as [|a l IH]; intros H; cbn [mapM map]; [reflexivity|].
  rewrite (H a (or_introl eq_refl)). cbn [bind].
  rewrite IH; [reflexivity|]. intros b Hb. apply H. right; exact Hb.
Qed.

Definition plain (s : ParseState) (a : Act) : ParseState :=
  mkState (aPos a) (aStop a) (addAll (sDag s) (aEdges a)) (aLinked a).
Lemma apply_plain s l : (forall a, In a l -> aStretch a = false) ->
  mapM (applyAct s) l = Ok (map (plain s) l).
Proof.
  intros H. apply mapM_total. intros a Ha. unfold applyAct. rewrite (H a Ha). reflexivity.
Qed.

Lemma applyEmission_plain s e :
  applyEmission s e = plain s (emAct (sPos s) (sStop s) e).
Proof.
  unfold applyEmission, plain, emAct, AddSyl, emEdges, addAll. cbn [aPos aStop aEdges aLinked].
  destruct (preSyl (emSyl e)); reflexivity.
Qed.

Lemma ruleStates_acts w s :
  ruleStates ct w s =
  bind (ruleActs w (sPos s) (sStop s) (sLinked s)) (mapM (applyAct s)).
Proof.
  unfold ruleStates, ruleActs. rewrite bind_ok_map. apply bind_ext. intros c.
  assert (G : forall m : Res (list Emission),
    bind m (fun l => Ok (map (applyEmission s) l)) =
    bind (bind m (fun l => Ok (map (emAct (sPos s) (sStop s)) l))) (mapM (applyAct s))).
  { intros m. rewrite bind_ok_map. apply bind_ext. intros l. cbn [bind].
    rewrite apply_plain.
    - rewrite map_map. f_equal. apply map_ext. apply applyEmission_plain.
    - intros a Ha. apply in_map_iff in Ha. destruct Ha as (e & <- & _). reflexivity. }
  unfold isRuleChar, ruleEms.
  destruct (isCons c); cbn [orb negb andb]; [apply G|].
  destruct (UTH_SARA_E =n c); cbn [orb negb andb]; [apply G|].
  destruct (th_wcisldvowel ct c); cbn [orb negb andb]; [apply G|].
  destruct (UTH_RU =n c); cbn [orb negb andb]; [apply G|].
  destruct (UTH_LU =n c); cbn [orb negb andb]; [apply G|].
  destruct (46%N =n c); cbn [bind mapM map]; [|reflexivity].
  unfold applyAct. cbn [aStretch aPos aStop aLinked].
  destruct (stretch (sDag s) (sPos s)); reflexivity.
Qed.

Lemma abbrEdges_es fuel : forall w pos e d,
  abbrEdges ct fuel w pos e d = bind (abbrEs fuel w pos e) (fun l => Ok (addAll d l)).
Proof.
  induction fuel as [|fuel IH]; intros w pos e d; cbn [abbrEdges abbrEs];
    destruct (e <=? pos); try reflexivity.
  rewrite bind_ok_map. apply bind_ext. intros c. destruct (isCons c).
  - rewrite bind_ok_map. apply bind_ext. intros skip.
    rewrite bind_ok_map. apply bind_ext. intros s0.
    rewrite bind_ok_map. apply bind_ext. intros k0.
    rewrite IH, bind_ok_map. apply bind_ext. intros l. reflexivity.
  - rewrite IH, bind_ok_map. apply bind_ext. intros l. reflexivity.
Qed.

Lemma FindAbbr_act w s :
  FindAbbr ct w s =
  bind (abbrAct w (sPos s) (sStop s)) (fun o => Ok (option_map (plain s) o)).
Proof.
  unfold FindAbbr, abbrAct. rewrite bind_ok_map. apply bind_ext. intros st.
  destruct (negb st); [reflexivity|]. rewrite bind_ok_map. apply bind_ext. intros r.
  destruct r as [((e & k) & c)|]; [|reflexivity].
  destruct (_ && _); [reflexivity|]. rewrite abbrEdges_es, !bind_ok_map.
  apply bind_ext. intros l. reflexivity.
Qed.

Lemma addAll_app d l l' : addAll d (l ++ l') = addAll (addAll d l) l'.
Proof. apply fold_left_app. Qed.

Lemma addSylString_all s : forall d pos, addSylString d pos s = addAll d (strEdges pos s).
Proof.
  unfold addSylString.
  induction s as [|v s IH]; intros d pos; [reflexivity|].
  cbn [fold_left strEdges fst snd addAll]. rewrite IH. reflexivity.
Qed.
Lemma exc_fold pos strs : forall d,
  fold_left (fun g x => addSylString g (Z.of_nat pos) (shiftEndPos (Z.of_nat pos) x)) strs d
  = addAll d (excEdges pos strs).
Proof.
  unfold excEdges. induction strs as [|x l IH]; intros d; [reflexivity|].
  cbn [fold_left map concat]. rewrite IH, addAll_app, addSylString_all. reflexivity.
Qed.

Lemma exceptionAt_act w s d m :
  exceptionAt ct w s d m =
  bind (excAct w (sPos s) (sStop s) d m) (fun o => Ok (option_map (plain s) o)).
Proof.
  unfold exceptionAt, excAct. destruct (_ <? _); [reflexivity|].
  rewrite bind_ok_map. apply bind_ext. intros ok. destruct (negb ok); [reflexivity|].
  rewrite bind_ok_map. apply bind_ext. intros data.
  rewrite bind_ok_map. apply bind_ext. intros strs. cbn [bind option_map].
  rewrite exc_fold. reflexivity.
Qed.

Lemma mapM_bind_ok {A B C} (f : A -> Res B) (g : B -> C) l :
  mapM (fun a => bind (f a) (fun b => Ok (g b))) l = bind (mapM f l) (fun r => Ok (map g r)).
Proof.
  induction l as [|a l IH]; cbn [mapM]; [reflexivity|].
  destruct (f a); cbn [bind]; try reflexivity.
  rewrite IH. destruct (mapM f l); reflexivity.
Qed.
Lemma mapM_ext {A B} (f g : A -> Res B) l : (forall a, f a = g a) -> mapM f l = mapM g l.
Proof. intros H. induction l as [|a l IH]; cbn [mapM]; [reflexivity|]. rewrite H, IH. reflexivity. Qed.
Lemma keepSome_map {A B} (g : A -> B) (l : list (option A)) :
  keepSome (map (option_map g) l) = map g (keepSome l).
Proof.
  induction l as [|[a|] l IH]; cbn [map option_map keepSome]; [reflexivity| |];
    rewrite IH; reflexivity.
Qed.

Lemma FindExceptions_act w s d :
  FindExceptions ct w s d =
  bind (excActs w (sPos s) (sStop s) d) (fun l => Ok (map (plain s) l)).
Proof.
  unfold FindExceptions, excActs.
  rewrite (mapM_ext _ _ _ (exceptionAt_act w s d)), mapM_bind_ok, !bind_ok_map.
  apply bind_ext. intros r. cbn [bind]. rewrite keepSome_map. reflexivity.
Qed.

Lemma excAct_plain w pos stop d m a :
  excAct w pos stop d m = Ok (Some a) -> aStretch a = false.
Proof.
  unfold excAct. destruct (_ <? _); [discriminate|].
  destruct (stopOrSylStart _ _ _ _) as [ok| | |]; cbn [bind]; try discriminate.
  destruct (negb ok); [discriminate|].
  destruct (matchGetData d m); cbn [bind]; try discriminate.
  destruct (MakeSylStrings a0); cbn [bind]; try discriminate.
  intros H. inversion H. reflexivity.
Qed.
Lemma mapM_in {A B} (f : A -> Res B) l r b : mapM f l = Ok r -> In b r ->
  exists a, In a l /\ f a = Ok b.
Proof.
  revert r. induction l as [|a l IH]; intros r H Hb; cbn [mapM] in H.
  - inversion H; subst. contradiction.
  - destruct (f a) as [x| | |] eqn:E; cbn [bind] in H; try discriminate.
    destruct (mapM f l) as [y| | |]; cbn [bind] in H; try discriminate.
    inversion H; subst. destruct Hb as [<-|Hb]; [exists a; split; [left|]; auto|].
    destruct (IH y eq_refl Hb) as (a' & Ha & Ea). exists a'. split; [right|]; auto.
Qed.
Lemma keepSome_in {A} (l : list (option A)) a : In a (keepSome l) <-> In (Some a) l.
Proof.
  induction l as [|[x|] l IH]; cbn [keepSome In]; [tauto| |].
  - rewrite IH. split; (intros [H|H]; [left; congruence|right; exact H]).
  - rewrite IH. split; [auto|]. intros [H|H]; [discriminate|exact H].
Qed.
Lemma excActs_in w pos stop d l a : excActs w pos stop d = Ok l -> In a l ->
  exists m, In m (allMatches (S (List.length w)) d (MatchNew w pos)) /\
            excAct w pos stop d m = Ok (Some a).
Proof.
  unfold excActs. destruct (mapM _ _) as [r| | |] eqn:E; cbn [bind]; try discriminate.
  intros H Ha. inversion H; subst. apply keepSome_in in Ha.
  exact (mapM_in _ _ _ _ E Ha).
Qed.
Lemma abbrAct_plain w pos stop a : abbrAct w pos stop = Ok (Some a) -> aStretch a = false.
Proof.
  unfold abbrAct. destruct (match pos with O => _ | S _ => _ end) as [st| | |];
    cbn [bind]; try discriminate.
  destruct (negb st); [discriminate|].
  destruct (abbrScan _ _ _ _ _ _) as [[((e & k) & c)|]| | |]; cbn [bind]; try discriminate.
  destruct (_ && _); [discriminate|].
  destruct (abbrEs _ _ _ _); cbn [bind]; try discriminate.
  intros H. inversion H. reflexivity.
Qed.

Lemma skipGap_act w brk s :
  skipGap ct w brk s =
  bind (gapAct w brk (sPos s) (sLinked s)) (fun a => Ok (plain s a)).
Proof.
  unfold skipGap, gapAct.
  destruct (sPos s <? SkipNonThai ct w (sPos s)); cbn [sPos sStop sDag sLinked];
    rewrite bind_ok_map; apply bind_ext; intros stop; reflexivity.
Qed.
Lemma gapAct_plain w brk pos linked a : gapAct w brk pos linked = Ok a -> aStretch a = false.
Proof.
  unfold gapAct. destruct (if _ <? List.length w then _ else _); cbn [bind]; try discriminate.
  intros H. inversion H. reflexivity.
Qed.

Lemma stepStates_acts w dict brk s :
  stepStates ct w dict brk s =
  bind (acts w dict brk (sPos s) (sStop s) (sLinked s)) (mapM (applyAct s)).
Proof.
  unfold stepStates, acts. destruct (sStop s <=? sPos s).
  - rewrite skipGap_act, !bind_ok_map. destruct (gapAct _ _ _ _) as [a| | |] eqn:E; try reflexivity.
    cbn [bind]. rewrite apply_plain; [reflexivity|]. intros x [<-|[]].
    eapply gapAct_plain; exact E.
  - assert (H : match dict with Some d => FindExceptions ct w s d | None => Ok [] end =
      bind (match dict with Some d => excActs w (sPos s) (sStop s) d | None => Ok [] end)
           (fun l => Ok (map (plain s) l))).
    { destruct dict; [apply FindExceptions_act|reflexivity]. }
    rewrite H, !bind_ok_map. clear H.
    destruct (match dict with Some d => _ | None => _ end) as [ex| | |] eqn:E; try reflexivity.
    cbn [bind]. destruct ex as [|a ex]; cbn [map].
    + rewrite FindAbbr_act, !bind_ok_map.
      destruct (abbrAct w (sPos s) (sStop s)) as [[a|]| | |] eqn:Ea; try reflexivity;
        cbn [bind option_map].
      * rewrite apply_plain; [reflexivity|]. intros x [<-|[]]. eapply abbrAct_plain; exact Ea.
      * apply ruleStates_acts.
    + cbn [bind]. change (Ok (plain s a :: map (plain s) ex)) with (Ok (map (plain s) (a :: ex))).
      rewrite apply_plain; [reflexivity|]. destruct dict as [d|]; [|discriminate].
      intros x Hx. destruct (excActs_in _ _ _ _ _ _ E Hx) as (m & _ & Em).
      eapply excAct_plain; exact Em.
Qed.
End Acts.

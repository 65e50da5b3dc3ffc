(** ParserShift.v - the matching rules are local: what they do at a position of
    a word they also do when other text stands before and after the word, with
    every position moved by the length of the text before. *)
From Coq Require Import String List NArith ZArith Bool Arith Lia.
From Verif Require Import Spec Base ThUni ThCons Syl OrderProofs Lattice LatticeProofs
  Dag DagProofs PronDag PathProofs GroupProofs ListDagProofs Dict Parser Wp ParserActs.
Import ListNotations.
Local Open Scope nat_scope.

(** Moving the positions of a value by [k]; [k] is the number of characters
    before the word. *)
Class Moves (A : Type) := mv : nat -> A -> A.
#[global] Instance mv_N : Moves N := fun _ a => a.
#[global] Instance mv_bool : Moves bool := fun _ a => a.
#[global] Instance mv_Z : Moves Z := fun _ a => a.
#[global] Instance mv_sound : Moves EInitConsSound := fun _ a => a.
#[global] Instance mv_class : Moves EInitConsClass := fun _ a => a.
#[global] Instance mv_end : Moves EEndConsClass := fun _ a => a.
#[global] Instance mv_tone : Moves ETone := fun _ a => a.
#[global] Instance mv_nat : Moves nat := fun k a => k + a.
#[global] Instance mv_partial : Moves PartialSyl := fun k p => setPos p (k + pPos p).
#[global] Instance mv_em : Moves Emission :=
  fun k e => mkEm (k + emPos e) (mv k (emSyl e)) (emLinked e).
#[global] Instance mv_prod {A B} {_ : Moves A} {_ : Moves B} : Moves (A * B) :=
  fun k p => (mv k (fst p), mv k (snd p)).
#[global] Instance mv_list {A} {_ : Moves A} : Moves (list A) := fun k => map (mv k).
#[global] Instance mv_option {A} {_ : Moves A} : Moves (option A) := fun k => option_map (mv k).

(** The second computation returns the moved result of the first, if that one
    returns. *)
Definition sim {A} {_ : Moves A} (k : nat) (m m' : Res A) : Prop :=
  forall a, m = Ok a -> m' = Ok (mv k a).
Lemma sim_ok {A} {_ : Moves A} k (a a' : A) : a' = mv k a -> sim k (Ok a) (Ok a').
Proof. intros -> b E. injection E as <-. reflexivity. Qed.
Lemma sim_bind {A B} {_ : Moves A} {_ : Moves B} k (m m' : Res A) (f f' : A -> Res B) :
  sim k m m' -> (forall a, sim k (f a) (f' (mv k a))) -> sim k (bind m f) (bind m' f').
Proof.
  intros H G b E. destruct m as [a| | |]; cbn [bind] in E; try discriminate.
  rewrite (H a eq_refl). cbn [bind]. apply G. exact E.
Qed.
Lemma sim_mapM {A B} {_ : Moves A} {_ : Moves B} k (f f' : A -> Res B) :
  (forall a, sim k (f a) (f' (mv k a))) -> forall l, sim k (mapM f l) (mapM f' (mv k l)).
Proof.
  intros H. induction l as [|a l IH]; intros r E; cbn [mapM] in E.
  - injection E as <-. reflexivity.
  - destruct (f a) as [b| | |] eqn:Eb; cbn [bind] in E; try discriminate.
    destruct (mapM f l) as [bs| | |] eqn:El; cbn [bind] in E; try discriminate.
    injection E as <-. change (mv k (a :: l)) with (mv k a :: mv k l). cbn [mapM].
    rewrite (H a b Eb). cbn [bind]. rewrite (IH bs eq_refl). reflexivity.
Qed.

Section Shift.
Variable ct : CType.
Variables u w x : list N.
Notation k := (length u).
Notation W := (u ++ w ++ x).
Local Notation "a =n b" := (N.eqb a b) (at level 70).
Notation isCons := (th_wcisthcons ct).

Lemma nth_shift i c : nth_error w i = Some c -> nth_error W (k + i) = Some c.
Proof.
  intros H. rewrite nth_error_app2 by lia. replace (k + i - k) with i by lia.
  rewrite nth_error_app1; [exact H|]. apply nth_error_Some. congruence.
Qed.
Lemma sim_at16 i : sim k (at16 w i) (at16 W (k + i)).
Proof.
  intros c E. unfold at16 in *. destruct (nth_error w i) as [c'|] eqn:H; [|discriminate].
  injection E as ->. rewrite (nth_shift _ _ H). reflexivity.
Qed.
Lemma sim_InitConsSound c : sim k (InitConsSound c) (InitConsSound c).
Proof. intros s E. exact E. Qed.
Lemma sim_InitConsClass c : sim k (InitConsClass c) (InitConsClass c).
Proof. intros s E. exact E. Qed.
Lemma sim_EndConsClass c : sim k (EndConsClass c) (EndConsClass c).
Proof. intros s E. exact E. Qed.
Lemma sim_ThCharToTone c : sim k (ThCharToTone c) (ThCharToTone c).
Proof. intros s E. exact E. Qed.
Lemma sim_AboveBelow c : sim (A := Z) k (ThCharToAboveBelowVowel c) (ThCharToAboveBelowVowel c).
Proof. intros s E. exact E. Qed.

(** Rewriting rules. *)
Lemma sh_assoc a b : k + a + b = k + (a + b).
Proof. lia. Qed.
Lemma sh_ltb a b : (k + a <? k + b) = (a <? b).
Proof. destruct (Nat.ltb_spec a b), (Nat.ltb_spec (k + a) (k + b)); lia. Qed.
Lemma sh_leb a b : (k + a <=? k + b) = (a <=? b).
Proof. destruct (Nat.leb_spec a b), (Nat.leb_spec (k + a) (k + b)); lia. Qed.
Lemma sh_eqb a b : (k + a =? k + b) = (a =? b).
Proof. destruct (Nat.eqb_spec a b), (Nat.eqb_spec (k + a) (k + b)); lia. Qed.
Notation sh := (fun p : PartialSyl => mv k p).
Lemma sh_pos p : pPos (mv k p) = k + pPos p.
Proof. reflexivity. Qed.
Lemma sh_bump p : bump (mv k p) = mv k (bump p).
Proof. unfold bump, mv, mv_partial, setPos. cbn. f_equal. lia. Qed.
Lemma sh_setPos p i : setPos (mv k p) (k + i) = mv k (setPos p i).
Proof. reflexivity. Qed.
Lemma sh_setVowel p v : setVowel (mv k p) v = mv k (setVowel p v).
Proof. reflexivity. Qed.
Lemma sh_setEnd p v : setEnd (mv k p) v = mv k (setEnd p v).
Proof. reflexivity. Qed.
Lemma sh_setTone p v : setTone (mv k p) v = mv k (setTone p v).
Proof. reflexivity. Qed.
Lemma sh_partial i a b c d e : partial (k + i) a b c d e = mv k (partial i a b c d e).
Proof. reflexivity. Qed.
Lemma sh_complete i a b c d : completePartial (k + i) a b c d = mv k (completePartial i a b c d).
Proof. reflexivity. Qed.
Lemma sh_em i p l : mkEm (k + i) (mv k p) l = mv k (mkEm i p l).
Proof. reflexivity. Qed.
Lemma sh_vowel p : pVowel (mv k p) = pVowel p. Proof. reflexivity. Qed.
Lemma sh_tone p : pTone (mv k p) = pTone p. Proof. reflexivity. Qed.
Lemma sh_cons2 p : pCons2 (mv k p) = pCons2 p. Proof. reflexivity. Qed.
Lemma sh_sound p : iConsSound (mv k p) = iConsSound p. Proof. reflexivity. Qed.
Lemma sh_isComplete p : isComplete (mv k p) = isComplete p. Proof. reflexivity. Qed.
Lemma sh_notPreA p : notPreA (mv k p) = notPreA p. Proof. reflexivity. Qed.

Hint Rewrite sh_assoc sh_ltb sh_leb sh_eqb sh_pos sh_bump sh_setPos sh_setVowel sh_setEnd
  sh_setTone sh_partial sh_complete sh_em sh_vowel sh_tone sh_cons2 sh_sound sh_isComplete
  sh_notPreA : sh.
(** Identity moves. *)
Ltac flat := repeat match goal with
  | |- context [@mv N mv_N ?k ?a] => change (@mv N mv_N k a) with a
  | |- context [@mv bool mv_bool ?k ?a] => change (@mv bool mv_bool k a) with a
  | |- context [@mv Z mv_Z ?k ?a] => change (@mv Z mv_Z k a) with a
  | |- context [@mv EVowel _ ?k ?a] => change (@mv EVowel _ k a) with a
  | |- context [@mv EInitConsSound _ ?k ?a] => change (@mv EInitConsSound _ k a) with a
  | |- context [@mv EInitConsClass _ ?k ?a] => change (@mv EInitConsClass _ k a) with a
  | |- context [@mv EEndConsClass _ ?k ?a] => change (@mv EEndConsClass _ k a) with a
  | |- context [@mv ETone _ ?k ?a] => change (@mv ETone _ k a) with a
  | |- context [@mv nat mv_nat ?k ?a] => change (@mv nat mv_nat k a) with (k + a)
  | |- context [@mv (?A * ?B) _ ?k (?a, ?b)] => change (@mv (A * B) _ k (a, b)) with (mv k a, mv k b)
  | |- context [@mv (option ?A) _ ?k None] => change (@mv (option A) _ k None) with (@None A)
  | |- context [@mv (option ?A) _ ?k (Some ?a)] => change (@mv (option A) _ k (Some a)) with (Some (mv k a))
  end.
Ltac norm := cbv beta zeta; flat; autorewrite with sh; cbn [fst snd].
Lemma mv_app {A} {_ : Moves A} (a b : list A) : mv k (a ++ b) = mv k a ++ mv k b.
Proof. unfold mv, mv_list. apply map_app. Qed.
Ltac fin := apply sim_ok; flat; rewrite ?mv_app; repeat (match goal with
  | |- context [if ?b then _ else _] => destruct b end); reflexivity.
Ltac go := norm; first
  [ match goal with
    | |- sim _ (if ?b then _ else _) _ => destruct b eqn:?; go
    | |- sim _ (match ?r with (_, _) => _ end) _ => destruct r; go
    | |- sim _ (match ?r with Some _ => _ | None => _ end) _ => destruct r; go
    | |- sim _ (bind _ _) _ => apply sim_bind; [go|intros ?; go]
    | |- sim _ (Ok _) _ => fin
    end
  | solve [auto with sh nocore] ].
Hint Resolve sim_at16 sim_InitConsSound sim_InitConsClass sim_EndConsClass sim_ThCharToTone
  sim_AboveBelow : sh.

Lemma sh_clusterLo pos l c0 s0 k0 : clusterLo (k + pos) l c0 s0 k0 = mv k (clusterLo pos l c0 s0 k0).
Proof. unfold clusterLo. rewrite sh_assoc, sh_partial. destruct (_ && _); reflexivity. Qed.
Lemma sh_clusterWo pos l c0 s0 k0 : clusterWo (k + pos) l c0 s0 k0 = mv k (clusterWo pos l c0 s0 k0).
Proof. unfold clusterWo. rewrite sh_assoc, sh_partial. destruct (_ && _); reflexivity. Qed.
Lemma sh_linkIf p c : linkIf ct (mv k p) c = mv k (linkIf ct p c).
Proof. unfold linkIf. destruct (_ || _); reflexivity. Qed.
Lemma sh_if (b : bool) (p q : PartialSyl) : (if b then mv k p else mv k q) = mv k (if b then p else q).
Proof. destruct b; reflexivity. Qed.
Hint Rewrite sh_if : sh.
Hint Rewrite sh_clusterLo sh_clusterWo sh_linkIf : sh.
Lemma sim_notRoAt i stop : sim k (notRoAt w i stop) (notRoAt W (k + i) (k + stop)).
Proof. unfold notRoAt. go. Qed.
Hint Resolve sim_notRoAt : sh.
Lemma sim_clusterRo pos stop l c0 s0 k0 : sim k (clusterRo w pos stop l c0 s0 k0) (clusterRo W (k + pos) (k + stop) l c0 s0 k0).
Proof. unfold clusterRo. go. Qed.
Hint Resolve sim_clusterRo : sh.
Lemma sim_auraPart pos stop c0 s0 k0 : sim k (auraPart ct w pos stop c0 s0 k0) (auraPart ct W (k + pos) (k + stop) c0 s0 k0).
Proof. unfold auraPart. go. Qed.
Hint Resolve sim_auraPart : sh.
Lemma sim_clusters pos stop l c0 c1 s0 k0 : sim k (clusters ct w pos stop l c0 c1 s0 k0) (clusters ct W (k + pos) (k + stop) l c0 c1 s0 k0).
Proof. unfold clusters. go. Qed.
Hint Resolve sim_clusters : sh.
Lemma sim_notRoHan pos stop c1 : sim k (notRoHan w pos stop c1) (notRoHan W (k + pos) (k + stop) c1).
Proof. unfold notRoHan. go. Qed.
Hint Resolve sim_notRoHan : sh.
Lemma sim_hoNam pos stop c0 c1 s1 k1 : sim k (hoNam w pos stop c0 c1 s1 k1) (hoNam W (k + pos) (k + stop) c0 c1 s1 k1).
Proof. unfold hoNam. go. Qed.
Hint Resolve sim_hoNam : sh.
Lemma sim_aKung pos stop c1 s0 k0 s1 k1 : sim k (aKung w pos stop c1 s0 k0 s1 k1) (aKung W (k + pos) (k + stop) c1 s0 k0 s1 k1).
Proof. unfold aKung. go. Qed.
Hint Resolve sim_aKung : sh.
Lemma sim_badi pos stop c0 c1 s0 k0 : sim k (badi w pos stop c0 c1 s0 k0) (badi W (k + pos) (k + stop) c0 c1 s0 k0).
Proof. unfold badi. go. Qed.
Hint Resolve sim_badi : sh.
Lemma sim_ruPart pos stop c0 s0 k0 : sim k (ruPart ct w pos stop c0 s0 k0) (ruPart ct W (k + pos) (k + stop) c0 s0 k0).
Proof. unfold ruPart. go. Qed.
Hint Resolve sim_ruPart : sh.
Lemma sim_secondPart pos stop l c0 s0 k0 : sim k (secondPart ct w pos stop l c0 s0 k0) (secondPart ct W (k + pos) (k + stop) l c0 s0 k0).
Proof. unfold secondPart. go. Qed.
Hint Resolve sim_secondPart : sh.
Lemma sim_paliPart pos stop s0 k0 : sim k (paliPart ct w pos stop s0 k0) (paliPart ct W (k + pos) (k + stop) s0 k0).
Proof. unfold paliPart. go. Qed.
Hint Resolve sim_paliPart : sh.
Lemma sim_MatchInitCons pos stop l : sim k (MatchInitCons ct w pos stop l) (MatchInitCons ct W (k + pos) (k + stop) l).
Proof. unfold MatchInitCons. go. Qed.
Hint Resolve sim_MatchInitCons : sh.
Lemma sim_MatchKaranSimple pos stop : sim k (MatchKaranSimple ct w pos stop) (MatchKaranSimple ct W (k + pos) (k + stop)).
Proof. unfold MatchKaranSimple. go. Qed.
Hint Resolve sim_MatchKaranSimple : sh.
Lemma sim_MatchKaranIU pos stop : sim k (MatchKaranIU ct w pos stop) (MatchKaranIU ct W (k + pos) (k + stop)).
Proof. unfold MatchKaranIU. go. Qed.
Hint Resolve sim_MatchKaranIU : sh.
Lemma sim_MatchKaranComplex pos stop : sim k (MatchKaranComplex ct w pos stop) (MatchKaranComplex ct W (k + pos) (k + stop)).
Proof. unfold MatchKaranComplex. go. Qed.
Hint Resolve sim_MatchKaranComplex : sh.
Lemma sim_endConsAt i ex : sim k (endConsAt ct w i ex) (endConsAt ct W (k + i) ex).
Proof. unfold endConsAt. go. Qed.
Hint Resolve sim_endConsAt : sh.
Lemma sim_EatEndConsSimple stop p ex : sim k (EatEndConsSimple ct w stop p ex) (EatEndConsSimple ct W (k + stop) (mv k p) ex).
Proof. unfold EatEndConsSimple. go. Qed.
Hint Resolve sim_EatEndConsSimple : sh.
Lemma sim_stopOrSylStart i stop : sim k (stopOrSylStart ct w i stop) (stopOrSylStart ct W (k + i) (k + stop)).
Proof. unfold stopOrSylStart. go. Qed.
Hint Resolve sim_stopOrSylStart : sh.
Lemma sim_linkPart stop p e0 : sim k (linkPart ct w stop p e0) (linkPart ct W (k + stop) (mv k p) e0).
Proof. unfold linkPart. go. Qed.
Hint Resolve sim_linkPart : sh.
Lemma sim_EatEndConsComplex stop p ex : sim k (EatEndConsComplex ct w stop p ex) (EatEndConsComplex ct W (k + stop) (mv k p) ex).
Proof. unfold EatEndConsComplex. go. Qed.
Hint Resolve sim_EatEndConsComplex : sh.
Lemma sim_karanEmit stop p : sim k (karanEmit ct w stop p) (karanEmit ct W (k + stop) (mv k p)).
Proof. unfold karanEmit. go. Qed.
Hint Resolve sim_karanEmit : sh.
Lemma sim_readTone p : sim k (readTone ct w p) (readTone ct W (mv k p)).
Proof. unfold readTone. go. Qed.
Hint Resolve sim_readTone : sh.
Lemma sim_nextIs stop p ch : sim k (nextIs w stop p ch) (nextIs W (k + stop) (mv k p) ch).
Proof. unfold nextIs. go. Qed.
Hint Resolve sim_nextIs : sh.
Lemma sim_ifRoom stop p m m' : sim k m m' -> sim k (ifRoom stop p m) (ifRoom (k + stop) (mv k p) m').
Proof. intros H. unfold ifRoom. go. Qed.
Hint Resolve sim_ifRoom : sh.
Lemma sim_thMaiHanAkat stop p : sim k (thMaiHanAkat ct w stop p) (thMaiHanAkat ct W (k + stop) (mv k p)).
Proof. unfold thMaiHanAkat. go. Qed.
Hint Resolve sim_thMaiHanAkat : sh.
Lemma sim_thUpDownEnd stop p : sim k (thUpDownEnd ct w stop p) (thUpDownEnd ct W (k + stop) (mv k p)).
Proof. unfold thUpDownEnd. go. Qed.
Hint Resolve sim_thUpDownEnd : sh.
Lemma sim_thUpDown stop p c : sim k (thUpDown ct w stop p c) (thUpDown ct W (k + stop) (mv k p) c).
Proof. unfold thUpDown. go. Qed.
Hint Resolve sim_thUpDown : sh.
Lemma sim_thMaitaikhu stop p : sim k (thMaitaikhu ct w stop p) (thMaitaikhu ct W (k + stop) (mv k p)).
Proof. unfold thMaitaikhu. go. Qed.
Hint Resolve sim_thMaitaikhu : sh.
Lemma sim_thRoRua stop p : sim k (thRoRua ct w stop p) (thRoRua ct W (k + stop) (mv k p)).
Proof. unfold thRoRua. go. Qed.
Hint Resolve sim_thRoRua : sh.
Lemma sim_thDefault stop l p c : sim k (thDefault ct w stop l p c) (thDefault ct W (k + stop) l (mv k p) c).
Proof. unfold thDefault. go. Qed.
Hint Resolve sim_thDefault : sh.
Lemma sim_thOther stop l p : sim k (thOther ct w stop l p) (thOther ct W (k + stop) l (mv k p)).
Proof. unfold thOther. go. Qed.
Hint Resolve sim_thOther : sh.
Lemma sim_thPartial stop l p : sim k (thPartial ct w stop l p) (thPartial ct W (k + stop) l (mv k p)).
Proof. unfold thPartial. go. Qed.
Hint Resolve sim_thPartial : sh.
Lemma sim_forPartials f f' l : (forall p, sim k (f p) (f' (mv k p))) ->
  sim k (forPartials f l) (forPartials f' (mv k l)).
Proof.
  intros H. unfold forPartials. apply sim_bind; [apply sim_mapM; exact H|]. intros r.
  apply sim_ok. unfold mv, mv_list. rewrite concat_map. reflexivity.
Qed.
Hint Resolve sim_forPartials : sh.
Lemma sim_ParseThCons pos stop l : sim k (ParseThCons ct w pos stop l) (ParseThCons ct W (k + pos) (k + stop) l).
Proof. unfold ParseThCons. go. Qed.
Hint Resolve sim_ParseThCons : sh.
Lemma sim_eSaraI stop p : sim k (eSaraI ct w stop p) (eSaraI ct W (k + stop) (mv k p)).
Proof. unfold eSaraI. go. Qed.
Hint Resolve sim_eSaraI : sh.
Lemma sim_eTriple stop p need a b eat eat' : (forall p, sim k (eat p) (eat' (mv k p))) ->
  sim k (eTriple ct w stop p need a b eat) (eTriple ct W (k + stop) (mv k p) need a b eat').
Proof. intros H. unfold eTriple. go. Qed.
Hint Resolve sim_eTriple : sh.
Lemma sim_eMaitaikhu stop p : sim k (eMaitaikhu ct w stop p) (eMaitaikhu ct W (k + stop) (mv k p)).
Proof. unfold eMaitaikhu. go. Qed.
Hint Resolve sim_eMaitaikhu : sh.
Lemma sim_eOAng stop p : sim k (eOAng ct w stop p) (eOAng ct W (k + stop) (mv k p)).
Proof. unfold eOAng. go. Qed.
Hint Resolve sim_eOAng : sh.
Lemma sim_eSaraA stop p : sim k (eSaraA ct w stop p) (eSaraA ct W (k + stop) (mv k p)).
Proof. unfold eSaraA. go. Qed.
Hint Resolve sim_eSaraA : sh.
Lemma sim_eSaraAA stop p : sim k (eSaraAA ct w stop p) (eSaraAA ct W (k + stop) (mv k p)).
Proof. unfold eSaraAA. go. Qed.
Hint Resolve sim_eSaraAA : sh.
Lemma sim_eDefault stop p : sim k (eDefault ct w stop p) (eDefault ct W (k + stop) (mv k p)).
Proof. unfold eDefault. go. Qed.
Hint Resolve sim_eDefault : sh.
Lemma sim_eYoYak stop p : sim k (eYoYak ct w stop p) (eYoYak ct W (k + stop) (mv k p)).
Proof. unfold eYoYak. go. Qed.
Hint Resolve sim_eYoYak : sh.
Lemma sim_eOther stop p c : sim k (eOther ct w stop p c) (eOther ct W (k + stop) (mv k p) c).
Proof. unfold eOther. go. Qed.
Hint Resolve sim_eOther : sh.
Lemma sim_ePartial stop p : sim k (ePartial ct w stop p) (ePartial ct W (k + stop) (mv k p)).
Proof. unfold ePartial. go. Qed.
Hint Resolve sim_ePartial : sh.
Lemma sim_ParseSaraE pos stop l : sim k (ParseSaraE ct w pos stop l) (ParseSaraE ct W (k + pos) (k + stop) l).
Proof. unfold ParseSaraE. go. Qed.
Hint Resolve sim_ParseSaraE : sh.
Lemma sim_lvAe stop p : sim k (lvAe ct w stop p) (lvAe ct W (k + stop) (mv k p)).
Proof. unfold lvAe. go. Qed.
Hint Resolve sim_lvAe : sh.
Lemma sim_lvO stop p : sim k (lvO ct w stop p) (lvO ct W (k + stop) (mv k p)).
Proof. unfold lvO. go. Qed.
Hint Resolve sim_lvO : sh.
Lemma sim_lvMaimalai stop p : sim k (lvMaimalai ct w stop p) (lvMaimalai ct W (k + stop) (mv k p)).
Proof. unfold lvMaimalai. go. Qed.
Hint Resolve sim_lvMaimalai : sh.
Lemma sim_lvMaimuan stop p : sim k (lvMaimuan ct w stop p) (lvMaimuan ct W (k + stop) (mv k p)).
Proof. unfold lvMaimuan. go. Qed.
Hint Resolve sim_lvMaimuan : sh.
Lemma sim_lvPartial stop ldv p : sim k (lvPartial ct w stop ldv p) (lvPartial ct W (k + stop) ldv (mv k p)).
Proof. unfold lvPartial. go. Qed.
Hint Resolve sim_lvPartial : sh.
Lemma sim_ParseOtherLV pos stop l : sim k (ParseOtherLV ct w pos stop l) (ParseOtherLV ct W (k + pos) (k + stop) l).
Proof. unfold ParseOtherLV. go. Qed.
Hint Resolve sim_ParseOtherLV : sh.
Lemma sim_ParseRuLu pos stop : sim k (ParseRuLu ct w pos stop) (ParseRuLu ct W (k + pos) (k + stop)).
Proof. unfold ParseRuLu. go. Qed.
Hint Resolve sim_ParseRuLu : sh.
End Shift.

(** Prop_Respell.v - property C62: the Thai respelling of a syllable is read
    back by the parser. *)
From Coq Require Import String List NArith ZArith Bool Arith Lia.
From Verif Require Import Spec Base ThUni ThCons Syl OrderProofs Dict DictProofs Utf SylOut ThaiOut Dag PronDag
  Parser ParserSpec Prop_Syl ParserFacts ParserListed Prop_Parser Prop_Notation Grammar GrammarWord Prop_Grammar.
Import ListNotations.
Local Open Scope nat_scope.

(** A tone mark is written. *)
Definition marked (w : list N) : Prop := exists c, In c w /\ (0x0e48 <= c <= 0x0e4b)%N.
(** The dots of the respelling, which tie the letters of an initial, are not written in Thai. *)
Definition undot (w : list N) : list N := filter (fun c => negb (N.eqb c 0x0e3a)) w.
Definition clusters : list string :=
  ["กร"; "กล"; "กว"; "ขร"; "ขล"; "ขว"; "คร"; "คล"; "คว"; "ดร"; "ตร"; "ทร"; "บร"; "บล"; "ปร"; "ปล"; "ผล"; "พร"; "พล"; "ฟร"; "ฟล"]%string.
Definition clusterIn (w : list N) : Prop := exists p a x y c, In p clusters /\ letters p = [x; y] /\ w = a ++ [x; 0x0e3a%N; y] ++ c.
(** Respellings [w] that do not follow Thai spelling: i, e or o before a glide,
    the short ua before an ending, the o after a w, which is read ua, and
    clusters that Thai does not have. *)
Definition odd (s : Syl) (w : list N) : Prop :=
  In (vowel s, eCons s) [(V_I, KOEY); (V_II, KOEY); (V_EE, KOEY); (V_O, KOEY); (V_O, KOEW)] \/
  (vowel s = V_E /\ eCons s = KOEY /\ marked w) \/ (vowel s = V_UA /\ eCons s <> EC_NONE /\ ~ marked w) \/
  (vowel s = V_O /\ eCons s <> EC_NONE /\ iCons2 s = SEC_WA) \/ (iCons2 s <> SEC_NONE /\ ~ clusterIn w).
(** Thai writes the vowel long: the sign of shortness has no room under a tone
    mark, and some vowels have no short form before an ending. *)
Definition lengthLost (v : EVowel) (e : EEndConsClass) (w : list N) : Prop :=
  e <> EC_NONE /\ (In v [V_IA; V_UEA; V_OE] \/ (In v [V_E; V_AE; V_AU; V_UA] /\ marked w)).
(** [v] is what one hears reading the respelling [w] of [s]. *)
Definition heard (s : Syl) (w : list N) (v : Syl) : Prop :=
  iCons1 v = iCons1 s /\ iCons2 v = iCons2 s /\ eCons v = eCons s /\ tone v = tone s /\
  endPos v = Z.of_nat (length w) /\ literal v = [] /\
  (~ lengthLost (vowel s) (eCons s) w -> vowel v = vowel s) /\
  (lengthLost (vowel s) (eCons s) w -> In (vowel s, vowel v) lengthPairs).
Definition sameSound (s v : Syl) : Prop :=
  iCons1 v = iCons1 s /\ iCons2 v = iCons2 s /\ eCons v = eCons s /\ tone v = tone s /\ sameQuality (vowel s) (vowel v).

Definition markedB (w : list N) : bool := existsb (fun c => N.leb 0x0e48 c && N.leb c 0x0e4b)%bool w.
Lemma markedB_ok w : markedB w = true <-> marked w.
Proof.
  unfold markedB, marked. rewrite existsb_exists. split; intros (c & H1 & H2); exists c; (split; [exact H1|]).
  - apply andb_true_iff in H2. rewrite !N.leb_le in H2. exact H2.
  - apply andb_true_iff. rewrite !N.leb_le. exact H2.
Qed.
Definition clusterTbl : list (N * N) := Eval vm_compute in
  flat_map (fun p => match letters p with [x; y] => [(x, y)] | _ => [] end) clusters.
Fixpoint clusterB (w : list N) : bool :=
  match w with
  | x :: w' => match w' with
      | d :: y :: _ => N.eqb d 0x0e3a && existsb (fun p => N.eqb x (fst p) && N.eqb y (snd p)) clusterTbl
      | _ => false
      end || clusterB w'
  | [] => false
  end.
Lemma clusterTbl_ok x y : existsb (fun p => N.eqb x (fst p) && N.eqb y (snd p))%bool clusterTbl = true <->
  exists p, In p clusters /\ letters p = [x; y].
Proof.
  change clusterTbl with (flat_map (fun p => match letters p with [x; y] => [(x, y)] | _ => [] end) clusters).
  rewrite existsb_exists. split.
  - intros ((x' & y') & I & H). cbn [fst snd] in H. apply andb_true_iff in H. rewrite !N.eqb_eq in H. destruct H as (-> & ->).
    apply in_flat_map in I. destruct I as (p & I & J). exists p. split; [exact I|].
    destruct (letters p) as [|x [|y [|]]]; try destruct J as [J|[]]; try contradiction. injection J as -> ->. reflexivity.
  - intros (p & I & E). exists (x, y). split; [|cbn [fst snd]; rewrite !N.eqb_refl; reflexivity].
    apply in_flat_map. exists p. split; [exact I|]. rewrite E. left. reflexivity.
Qed.
Lemma clusterB_ok w : clusterB w = true <-> clusterIn w.
Proof.
  induction w as [|x w IH].
  - split; [discriminate|]. intros (p & a & x & y & c & _ & _ & E). destruct a; discriminate.
  - cbn [clusterB]. rewrite orb_true_iff, IH. split.
    + intros [H|(p & a & x' & y & c & H1 & H2 & ->)].
      * destruct w as [|d [|y c]]; try discriminate. apply andb_true_iff in H. destruct H as (H1 & H2). apply N.eqb_eq in H1. subst d.
        apply clusterTbl_ok in H2. destruct H2 as (p & H2 & H3). exists p, [], x, y, c. auto.
      * exists p, (x :: a), x', y, c. auto.
    + intros (p & a & x' & y & c & H1 & H2 & E). destruct a as [|a0 a]; cbn [app] in E.
      * left. injection E as -> ->. cbn beta iota. rewrite N.eqb_refl. apply clusterTbl_ok. eauto.
      * right. injection E as -> ->. exists p, a, x', y, c. auto.
Qed.
Definition oddB (s : Syl) (w : list N) : bool :=
  existsb (fun p => Z.eqb (fst p) (vowel s) && ec_eqb (snd p) (eCons s))%bool [(V_I, KOEY); (V_II, KOEY); (V_EE, KOEY); (V_O, KOEY); (V_O, KOEW)] ||
  (Z.eqb (vowel s) V_E && (ec_eqb (eCons s) KOEY && markedB w) || (Z.eqb (vowel s) V_UA && (negb (ec_eqb (eCons s) EC_NONE) && negb (markedB w)) ||
  (Z.eqb (vowel s) V_O && (negb (ec_eqb (eCons s) EC_NONE) && Z.eqb (iCons2 s) SEC_WA) || negb (Z.eqb (iCons2 s) SEC_NONE) && negb (clusterB w)))).
Lemma oddB_ok s w : oddB s w = true <-> odd s w.
Proof.
  unfold oddB, odd. rewrite !orb_true_iff, !andb_true_iff, !negb_true_iff, existsb_exists, <- !not_true_iff_false, !Z.eqb_eq, !ec_eqb_eq, markedB_ok, clusterB_ok.
  assert (H : (exists x, In x [(V_I, KOEY); (V_II, KOEY); (V_EE, KOEY); (V_O, KOEY); (V_O, KOEW)] /\ (Z.eqb (fst x) (vowel s) && ec_eqb (snd x) (eCons s))%bool = true)
    <-> In (vowel s, eCons s) [(V_I, KOEY); (V_II, KOEY); (V_EE, KOEY); (V_O, KOEY); (V_O, KOEW)]).
  { split.
    - intros ((v' & e') & I & H). cbn [fst snd] in H. apply andb_true_iff in H. rewrite Z.eqb_eq, ec_eqb_eq in H. destruct H as (<- & <-). exact I.
    - intros I. exists (vowel s, eCons s). split; [exact I|]. apply andb_true_iff. rewrite Z.eqb_eq, ec_eqb_eq. split; reflexivity. }
  rewrite H. reflexivity.
Qed.
Definition memZ (v : Z) (l : list Z) : bool := existsb (Z.eqb v) l.
Lemma memZ_ok v l : memZ v l = true <-> In v l.
Proof.
  unfold memZ. rewrite existsb_exists. split; [intros (x & H & E); apply Z.eqb_eq in E; subst; exact H|].
  intros H. exists v. split; [exact H|apply Z.eqb_refl].
Qed.
Definition lostB (v : EVowel) (e : EEndConsClass) (w : list N) : bool :=
  negb (ec_eqb e EC_NONE) && (memZ v [V_IA; V_UEA; V_OE] || (memZ v [V_E; V_AE; V_AU; V_UA] && markedB w)).
Lemma lostB_ok v e w : lostB v e w = true <-> lengthLost v e w.
Proof.
  unfold lostB, lengthLost. rewrite andb_true_iff, orb_true_iff, andb_true_iff, negb_true_iff, !memZ_ok, markedB_ok, <- not_true_iff_false, ec_eqb_eq.
  reflexivity.
Qed.
Definition pairB (a b : Z) : bool := existsb (fun p => Z.eqb (fst p) a && Z.eqb (snd p) b)%bool lengthPairs.
Lemma pairB_ok a b : pairB a b = true -> In (a, b) lengthPairs.
Proof.
  unfold pairB. rewrite existsb_exists. intros ((x & y) & I & H). cbn [fst snd] in H. apply andb_true_iff in H.
  rewrite !Z.eqb_eq in H. destruct H as (-> & ->). exact I.
Qed.
Definition partsB (s v : Syl) : bool :=
  ics_eqb (iCons1 v) (iCons1 s) && Z.eqb (iCons2 v) (iCons2 s) && ec_eqb (eCons v) (eCons s) && tone_eqb (tone v) (tone s).
Lemma partsB_ok s v : partsB s v = true <-> iCons1 v = iCons1 s /\ iCons2 v = iCons2 s /\ eCons v = eCons s /\ tone v = tone s.
Proof. unfold partsB. rewrite !andb_true_iff, ics_eqb_eq, Z.eqb_eq, ec_eqb_eq, tone_eqb_eq. tauto. Qed.
Definition heardB (s : Syl) (w : list N) (v : Syl) : bool :=
  partsB s v && Z.eqb (endPos v) (Z.of_nat (length w)) && negb (isLiteral v) &&
  (if lostB (vowel s) (eCons s) w then pairB (vowel s) (vowel v) else Z.eqb (vowel v) (vowel s)).
Lemma heardB_ok s w v : heardB s w v = true -> heard s w v.
Proof.
  unfold heardB, heard. rewrite !andb_true_iff, partsB_ok, Z.eqb_eq, negb_true_iff.
  intros ((((A & B & C & D) & E) & L) & V). repeat split; auto.
  - unfold isLiteral in L. destruct (literal v); [reflexivity|discriminate].
  - intros N. destruct (lostB _ _ _) eqn:E1; [apply lostB_ok in E1; contradiction|]. apply Z.eqb_eq. exact V.
  - intros N. apply lostB_ok in N. rewrite N in V. apply pairB_ok. exact V.
Qed.
Definition soundB (s v : Syl) : bool := partsB s v && qualityB (vowel s) (vowel v).
Lemma soundB_ok s v : soundB s v = true <-> sameSound s v.
Proof. unfold soundB, sameSound. rewrite andb_true_iff, partsB_ok, qualityB_ok. tauto. Qed.

Definition readBack (w : list N) : Res (list SylString) := (d <- ParseU16F libthai_ct 60 w None [] ;; DAGSylStrings d 0)%res.
Definition checkBack (i1 : EInitConsSound) (i2 : ESecInitCons) (v : EVowel) (e : EEndConsClass) (t : ETone) : bool :=
  let s := mkSyl i1 i2 v e t [] 0 in
  if tone_eqb t SAMAN && writtenDead v e then true else
  match ThaiOutput s with
  | Ok t => match from_bytes t with
    | Ok w0 => let w := undot w0 in
      forallb Grammar.thaiLetter w && (2 <=? length w) &&
      match readBack w with
      | Ok l => if oddB s w0 then forallb (fun x => match x with [y] => negb (soundB s y) | _ => true end) l
                else existsb (fun x => match x with [y] => heardB s w y | _ => false end) l
      | _ => false
      end
    | _ => true
    end
  | _ => true
  end.
Definition allTones : list ETone := [SAMAN; EK; THO; TRI; CHATTAWA].
Definition sweep5 {A B C D E} (P : A -> B -> C -> D -> E -> bool) la lb lc ld le : bool :=
  forallb (fun a => forallb (fun b => forallb (fun c => forallb (fun d => forallb (P a b c d) le) ld) lc) lb) la.
Lemma sweep5_in {A B C D E} (P : A -> B -> C -> D -> E -> bool) la lb lc ld le a b c d e :
  sweep5 P la lb lc ld le = true -> In a la -> In b lb -> In c lc -> In d ld -> In e le -> P a b c d e = true.
Proof.
  unfold sweep5. intros S Ia Ib Ic Id Ie. rewrite forallb_forall in S. specialize (S a Ia).
  rewrite forallb_forall in S. specialize (S b Ib). rewrite forallb_forall in S. specialize (S c Ic).
  rewrite forallb_forall in S. specialize (S d Id). rewrite forallb_forall in S. exact (S e Ie).
Qed.
Lemma back_ok : sweep5 checkBack (tl allICS) allSec vowelCodes allEC allTones = true.
Proof. vm_cast_no_check (eq_refl true). Qed.

Lemma thai_endPos i1 i2 v e t p : i1 <> ICS_INVALID ->
  ThaiOutput (mkSyl i1 i2 v e t [] p) = ThaiOutput (mkSyl i1 i2 v e t [] 0).
Proof.
  intros H. unfold ThaiOutput, syl_eqb, isLiteral, Blank, SylDefault. cbn.
  destruct i1; try congruence; reflexivity.
Qed.
Lemma C62_lemma s t w dict brk l : wellFormed s -> (tone s = SAMAN -> writtenDead (vowel s) (eCons s) = false) ->
  ThaiOutput s = Ok t -> from_bytes t = Ok w ->
  (forall x, In x brk -> x = 0 \/ x = length (undot w)) -> dictOKo dict -> unlisted dict (undot w) ->
  pronounced libthai_ct (undot w) dict brk l ->
  (~ odd s w -> exists v, In [v] l /\ heard s (undot w) v) /\
  (odd s w -> forall v, In [v] l -> ~ sameSound s v).
Proof.
  intros W T Ht Hw B D U Pr. pose proof W as (A1 & A2 & A3 & A4 & A5).
  assert (IT : In (tone s) allTones) by (destruct (tone s); cbn; tauto).
  pose proof (sweep5_in _ _ _ _ _ _ _ _ _ _ _ back_ok (sound_in _ A2) A3 A4 (ec_in (eCons s)) IT) as S.
  unfold checkBack in S. rewrite <- (thai_endPos _ _ _ _ _ (endPos s) A2) in S.
  destruct s as [i1 i2 vw e tn lit pos]. cbn [iCons1 iCons2 vowel eCons tone literal endPos] in *. subst lit.
  destruct (tone_eqb tn SAMAN && writtenDead vw e) eqn:E1.
  { apply andb_true_iff in E1. destruct E1 as (E1 & E2). apply tone_eqb_eq in E1. rewrite (T E1) in E2. discriminate. }
  rewrite Ht, Hw in S. cbv zeta in S. remember (undot w) as u eqn:Eu.
  rewrite !andb_true_iff in S. destruct S as ((S1 & S2) & S3). apply Nat.leb_le in S2.
  assert (S1' : Forall (fun c => Grammar.thaiLetter c = true) u) by (apply Forall_forall; apply forallb_forall; exact S1).
  destruct (readBack u) as [l0| | |] eqn:E3; try discriminate.
  assert (P0 : pronounced libthai_ct u None [] l0).
  { unfold readBack in E3. destruct (ParseU16F libthai_ct 60 u None []) as [d| | |] eqn:E4; cbn [bind] in E3; try discriminate.
    exists 60, d. auto. }
  assert (L : forall x, In x l <-> In x l0).
  { intros x. rewrite (C56_word_grammar u dict brk l S1' S2 B D U Pr x).
    symmetry. apply (C56_word_grammar u None [] l0 S1' S2); auto.
    - intros y [].
    - intros d Hd. discriminate.
    - apply unlisted_none. }
  change (odd (mkSyl i1 i2 vw e tn [] pos) w) with (odd (mkSyl i1 i2 vw e tn [] 0) w).
  split.
  - intros No. destruct (oddB (mkSyl i1 i2 vw e tn [] 0) w) eqn:E4; [apply oddB_ok in E4; contradiction|].
    apply existsb_exists in S3. destruct S3 as (x & I & H). destruct x as [|y [|]]; try discriminate.
    exists y. split; [apply L; exact I|]. apply heardB_ok in H. exact H.
  - intros Od v I Sm. apply oddB_ok in Od. rewrite Od in S3. rewrite forallb_forall in S3.
    specialize (S3 [v] (proj1 (L _) I)). cbn beta iota in S3. apply negb_true_iff in S3.
    assert (soundB (mkSyl i1 i2 vw e tn [] 0) v = true) by (apply soundB_ok; exact Sm). congruence.
Qed.
Theorem C62_reads_back s t w dict brk l : wellFormed s -> (tone s = SAMAN -> writtenDead (vowel s) (eCons s) = false) ->
  ThaiOutput s = Ok t -> from_bytes t = Ok w ->
  (forall x, In x brk -> x = 0 \/ x = length (undot w)) -> dictOKo dict -> unlisted dict (undot w) ->
  pronounced libthai_ct (undot w) dict brk l ->
  (~ odd s w -> exists v, In [v] l /\ heard s (undot w) v) /\
  (odd s w -> forall v, In [v] l -> ~ sameSound s v).
Proof. exact (C62_lemma s t w dict brk l). Qed.
Print Assumptions C62_reads_back.
(** The Thai word for axe: high initial, cluster, no mark, rising tone. *)
Example C62_case : let s := SylOf KHA SEC_WA V_AA KON CHATTAWA 9 in let w := letters "ขฺวาน" in
  wellFormed s /\ (tone s = SAMAN -> writtenDead (vowel s) (eCons s) = false) /\
  ThaiOutput s = Ok "ขฺวาน"%string /\ from_bytes "ขฺวาน" = Ok w /\ undot w = letters "ขวาน" /\ ~ odd s w /\
  exists l, pronounced libthai_ct (undot w) None [4] l /\ exists v, In [v] l /\ heard s (undot w) v.
Proof.
  intros s w. subst s. assert (W : wellFormed (SylOf KHA SEC_WA V_AA KON CHATTAWA 9)) by wf.
  assert (No : ~ odd (SylOf KHA SEC_WA V_AA KON CHATTAWA 9) w).
  { intros O. apply oddB_ok in O. vm_compute in O. discriminate. }
  split; [exact W|]. split; [discriminate|]. split; [reflexivity|]. split; [vm_compute; reflexivity|]. split; [vm_compute; reflexivity|].
  split; [exact No|]. assert (P : exists l, listing None [4] "ขวาน" = Ok l) by (eexists; vm_compute; reflexivity).
  destruct P as (l & P). apply listing_pronounced in P. exists l.
  change (undot w) with (letters "ขวาน"). split; [exact P|].
  refine (proj1 (C62_reads_back (SylOf KHA SEC_WA V_AA KON CHATTAWA 9) "ขฺวาน" w None [4] l W _ _ _ _ _ _ _) No).
  - discriminate.
  - reflexivity.
  - vm_compute. reflexivity.
  - intros x [<-|[]]. right. reflexivity.
  - intros d X. discriminate X.
  - apply unlisted_none.
  - exact P.
Qed.

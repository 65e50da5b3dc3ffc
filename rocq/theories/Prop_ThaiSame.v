(** Prop_ThaiSame.v - property C94: which syllables have the same Thai
    respelling. *)
From Coq Require Import String Ascii List ZArith NArith Bool Arith Lia.
From Verif Require Import Spec Base ThUni ThCons Syl OrderProofs Utf UtfProofs SylOut ThaiOut ParserSpec
  Prop_Syl Prop_Notation.
Import ListNotations.
Local Open Scope string_scope.
Local Open Scope list_scope.
Local Open Scope bool_scope.
Local Open Scope nat_scope.

(** ** What the respelling of a syllable says *)
(** The sounds written with a middle-class letter; the others have a high and a low letter. *)
Definition mid (i : EInitConsSound) : bool := existsb (ics_eqb i) [KA; JA; DA; TA; BA; PA; ICS_A].
(** The tone: a dead syllable cannot have the common tone; written without a
    mark it has the tone of its letter. *)
Definition saidTone (dead short : bool) (i : EInitConsSound) (t : ETone) : ETone :=
  if dead && tone_eqb t SAMAN then (if mid i then EK else if short then TRI else THO) else t.
(** The onset: r, l, w are raised with an h, in the tones of the high letters;
    this is the cluster of h and r, l, w. *)
Definition saidOnset (dead : bool) (i : EInitConsSound) (c : ESecInitCons) (t : ETone) : EInitConsSound * ESecInitCons :=
  if Z.eqb c SEC_NONE && (tone_eqb t EK || (tone_eqb t CHATTAWA && negb dead)) then
    match i with RA => (HA, SEC_RA) | LA => (HA, SEC_LA) | WA => (HA, SEC_WA) | _ => (i, c) end
  else (i, c).
(** The tones written with a mark, the same one over a short and a long vowel. *)
Definition markTone (dead : bool) (i : EInitConsSound) (t : ETone) : bool :=
  if mid i then existsb (tone_eqb t) [THO; TRI; CHATTAWA] || (tone_eqb t EK && negb dead)
  else if dead then tone_eqb t CHATTAWA else existsb (tone_eqb t) [EK; THO; TRI].
Definition longOf (v : EVowel) : EVowel :=
  match find (fun p => Z.eqb (fst p) v) lengthPairs with Some p => snd p | None => v end.
(** The vowel: before an ending ia, uea, oe are always written long, and e, ae,
    au, ua under a mark, which takes the place of the sign of shortness; long e
    and oe are one before y. *)
Definition saidVowel (v : EVowel) (e : EEndConsClass) (marked : bool) : EVowel :=
  if ec_eqb e EC_NONE then v else
  let w := if existsb (Z.eqb v) [V_IA; V_UEA; V_OE] || (existsb (Z.eqb v) [V_E; V_AE; V_AU; V_UA] && marked)
           then longOf v else v in
  if ec_eqb e KOEY && Z.eqb w V_EE then V_OEE else w.
Definition deadS (s : Syl) : bool := writtenDead (vowel s) (eCons s).
Definition said (s : Syl) : (EInitConsSound * ESecInitCons) * EVowel * EEndConsClass * ETone :=
  (saidOnset (deadS s) (iCons1 s) (iCons2 s) (tone s),
   saidVowel (vowel s) (eCons s) (markTone (deadS s) (iCons1 s) (tone s)),
   eCons s,
   saidTone (deadS s) (writtenShort (vowel s) (eCons s)) (iCons1 s) (tone s)).

(** ** The parts of a respelling *)
Definition dot : N := 0x0e3a%N.
Fixpoint links (u : list N) : list N * list N :=
  match u with
  | p :: c :: u' => if N.eqb p dot then let '(x, y) := links u' in (p :: c :: x, y) else ([], u)
  | _ => ([], u)
  end.
Fixpoint cut (u : list N) : list N * list N * list N :=
  match u with
  | [] => ([], [], [])
  | c :: u' => if isConsB c then let '(x, y) := links u' in ([], c :: x, y)
               else let '(a, b, r) := cut u' in (c :: a, b, r)
  end.
Lemma links_app x r : links x = (x, []) -> (forall p q, r = p :: q -> p <> dot) -> links (x ++ r) = (x, r).
Proof.
  remember (length x) as n. assert (L : length x <= n) by lia. clear Heqn. revert x L.
  induction n as [|n IH]; intros x L H R.
  - destruct x; [|cbn in L; lia]. cbn [app]. destruct r as [|p [|q r]]; try reflexivity. cbn [links].
    destruct (N.eqb_spec p dot) as [E|E]; [contradiction (R p (q :: r) eq_refl E)|reflexivity].
  - destruct x as [|p [|c x]]; [apply (IH []); auto; cbn; lia|discriminate|].
    cbn [app links] in *. destruct (N.eqb p dot); [|discriminate].
    destruct (links x) as [a b] eqn:E. injection H as -> ->.
    rewrite (IH x); [reflexivity|cbn in L; lia|exact E|exact R].
Qed.
Lemma cut_app a c x r : existsb isConsB a = false -> isConsB c = true -> links x = (x, []) ->
  (forall p q, r = p :: q -> p <> dot) -> cut (a ++ (c :: x) ++ r) = (a, c :: x, r).
Proof.
  intros A C X R. induction a as [|y a IH]; cbn [app cut existsb] in *.
  - rewrite C, (links_app x r X R). reflexivity.
  - apply orb_false_iff in A. destruct A as (-> & A). cbn [app] in IH. rewrite (IH A). reflexivity.
Qed.

Definition marks : list string := [""; TONE_EK_STR; TONE_THO_STR; TONE_TRI_STR; TONE_CHATTAWA_STR]%string.
Definition before (v : EVowel) (e : EEndConsClass) : list N := let '(a, _, _, _) := spelling v e in letters a.
Definition behind (v : EVowel) (e : EEndConsClass) (m : string) : list N :=
  let '(_, b, c, d) := spelling v e in
  letters (match m with EmptyString => b | _ => c end) ++ letters m ++ letters d.
Fixpoint leqb (a b : list N) : bool :=
  match a, b with
  | [], [] => true
  | x :: a', y :: b' => N.eqb x y && leqb a' b'
  | _, _ => false
  end.
Lemma leqb_ok a : forall b, leqb a b = true <-> a = b.
Proof.
  induction a as [|x a IH]; intros [|y b]; cbn [leqb]; try (split; congruence).
  rewrite andb_true_iff, N.eqb_eq, IH. split; [intros (-> & ->); reflexivity|intros E; injection E; auto].
Qed.
Definition headOk (r : list N) : bool := match r with p :: _ => negb (N.eqb p dot) | [] => true end.
Definition pairShape (dead short : bool) (i2 : ESecInitCons) (i1 : EInitConsSound) (t : ETone) : bool :=
  match pairIn dead short i1 i2 t with
  | Ok (f, m) => existsb (String.eqb m) marks &&
      match letters f with c :: x => isConsB c && leqb (fst (links x)) x && leqb (snd (links x)) [] | [] => false end
  | _ => false
  end.
Lemma pairShape_ok : sweep5 pairShape [true; false] [true; false] allSec (tl allICS) allT = true.
Proof. vm_cast_no_check (eq_refl true). Qed.
Definition frameShape (v : EVowel) (e : EEndConsClass) : bool := forallb (fun m => headOk (behind v e m)) marks.
Lemma frameShape_ok : forallb (fun v => forallb (frameShape v) allEC) vowelCodes = true.
Proof. vm_cast_no_check (eq_refl true). Qed.

Lemma tone_in t : t <> T_INVALID -> In t allT.
Proof. destruct t; cbn; tauto. Qed.
Lemma bool_in b : In b [true; false].
Proof. destruct b; cbn; tauto. Qed.

Lemma thai_parts s : wellFormed s -> exists f m t,
  pairIn (deadS s) (writtenShort (vowel s) (eCons s)) (iCons1 s) (iCons2 s) (tone s) = Ok (f, m) /\ In m marks /\
  spells f (letters f) /\
  ThaiOutput s = Ok t /\ spells t (before (vowel s) (eCons s) ++ letters f ++ behind (vowel s) (eCons s) m) /\
  cut (before (vowel s) (eCons s) ++ letters f ++ behind (vowel s) (eCons s) m)
  = (before (vowel s) (eCons s), letters f, behind (vowel s) (eCons s) m).
Proof.
  intros (H1 & H2 & H3 & H4 & H5). unfold deadS.
  pose proof (frame_good (vowel s) (eCons s) H4) as F. unfold frameGood in F.
  pose proof frameShape_ok as Fs. rewrite forallb_forall in Fs. specialize (Fs _ H4). rewrite forallb_forall in Fs.
  specialize (Fs _ (ec_in (eCons s))). unfold frameShape in Fs. rewrite forallb_forall in Fs.
  pose proof (pair_good (writtenDead (vowel s) (eCons s)) (writtenShort (vowel s) (eCons s)) (iCons1 s) (iCons2 s) (tone s) H2 H3 H5) as G.
  pose proof (sweep5_in _ _ _ _ _ _ _ _ _ _ _ pairShape_ok (bool_in (writtenDead (vowel s) (eCons s)))
    (bool_in (writtenShort (vowel s) (eCons s))) H3 (sound_in _ H2) (tone_in _ H5)) as P.
  unfold pairGood in G. unfold pairShape in P.
  assert (F5 : IsDeadSyl (writtenShort (vowel s) (eCons s)) (eCons s) = writtenDead (vowel s) (eCons s)).
  { destruct (spelling (vowel s) (eCons s)) as [[[? ?] ?] ?]. rewrite !andb_true_iff in F. apply Bool.eqb_prop. tauto. }
  assert (PF : pairFor (writtenShort (vowel s) (eCons s)) (iCons1 s) (iCons2 s) (eCons s) (tone s)
               = pairIn (writtenDead (vowel s) (eCons s)) (writtenShort (vowel s) (eCons s)) (iCons1 s) (iCons2 s) (tone s)).
  { unfold pairFor, pairIn. rewrite F5. destruct (writtenDead _ _); [|reflexivity]. destruct (writtenShort _ _); reflexivity. }
  destruct (pairIn _ _ _ _ _) as [[f m]| | |] eqn:Ep; try discriminate.
  rewrite !andb_true_iff in G. destruct G as ((G1 & G2) & _).
  apply spellsb_ok in G1. apply spellsb_ok in G2.
  apply andb_true_iff in P. destruct P as (M & P). apply existsb_exists in M. destruct M as (m' & M & Em).
  apply String.eqb_eq in Em. subst m'. specialize (Fs m M).
  assert (Es : s = mkSyl (iCons1 s) (iCons2 s) (vowel s) (eCons s) (tone s) [] (endPos s)).
  { destruct s; cbn in *. subst. reflexivity. }
  exists f, m, (spelled (vowel s) (eCons s) f m). split; [reflexivity|]. split; [exact M|]. split; [exact G1|].
  split; [rewrite Es at 1; apply thai_frame; [exact H4|exact PF]|].
  unfold before, behind in *. unfold spelled. destruct (spelling (vowel s) (eCons s)) as [[[a b] c'] d] eqn:Sp.
  rewrite !andb_true_iff, !negb_true_iff in F. destruct F as (((F1 & F2) & F3) & F4).
  cbn [forallb] in F1. rewrite !andb_true_iff in F1. destruct F1 as (A1 & A2 & A3 & A4 & _).
  apply spellsb_ok in A1. apply spellsb_ok in A2. apply spellsb_ok in A3. apply spellsb_ok in A4.
  split.
  - repeat (apply spells_app; [first [assumption|destruct m; assumption]|]). assumption.
  - destruct (letters f) as [|c x]; [discriminate|]. rewrite !andb_true_iff, !leqb_ok in P. destruct P as ((P1 & P2) & P3).
    apply cut_app; [exact F3|exact P1|destruct (links x); cbn in *; congruence|].
    intros p q E. rewrite E in Fs. cbn in Fs. apply negb_true_iff, N.eqb_neq in Fs. exact Fs.
Qed.
Lemma spells_fun t u u' : spells t u -> spells t u' -> u = u'.
Proof. intros A B. apply spells_letters in A, B. congruence. Qed.

(** ** Frames *)
(** The vowel of a frame with the mark [m]. *)
Definition frameKey (v : EVowel) (e : EEndConsClass) (m : string) : EVowel := saidVowel v e (negb (String.eqb m "")).
Definition frames : list ((EVowel * EEndConsClass * string) * (list N * list N)) :=
  flat_map (fun v => flat_map (fun e => map (fun m => ((v, e, m), (before v e, behind v e m))) marks) allEC) vowelCodes.
Definition frameSame (x y : (EVowel * EEndConsClass * string) * (list N * list N)) : bool :=
  let '((v, e, m), (p, q)) := x in let '((v', e', m'), (p', q')) := y in
  Bool.eqb (leqb p p' && leqb q q')
           (ec_eqb e e' && String.eqb m m' && Z.eqb (frameKey v e m) (frameKey v' e' m')).
Lemma frames_ok : (let l := frames in forallb (fun x => forallb (frameSame x) l) l) = true.
Proof. vm_cast_no_check (eq_refl true). Qed.
Lemma frames_in v e m : validVowel v -> In m marks -> In ((v, e, m), (before v e, behind v e m)) frames.
Proof.
  intros V M. unfold frames. apply in_flat_map. exists v. split; [exact V|]. apply in_flat_map. exists e. split; [apply ec_in|].
  apply in_map_iff. exists m. auto.
Qed.
Lemma frame_iff v e m v' e' m' : validVowel v -> validVowel v' -> In m marks -> In m' marks ->
  (before v e = before v' e' /\ behind v e m = behind v' e' m') <-> (e = e' /\ m = m' /\ frameKey v e m = frameKey v' e' m').
Proof.
  intros V V' M M'. pose proof frames_ok as S. cbv zeta in S. rewrite forallb_forall in S.
  specialize (S _ (frames_in v e m V M)). rewrite forallb_forall in S. specialize (S _ (frames_in v' e' m' V' M')).
  unfold frameSame in S. apply Bool.eqb_prop in S. rewrite <- !leqb_ok, <- andb_true_iff, S, !andb_true_iff, ec_eqb_eq, String.eqb_eq, Z.eqb_eq.
  tauto.
Qed.

(** ** Initials and marks *)
Definition pairCode (dead short : bool) (i : EInitConsSound) (c : ESecInitCons) (t : ETone) : list N * string :=
  match pairIn dead short i c t with Ok (f, m) => (letters f, m) | _ => ([], "") end.
Definition onsetEq (a b : EInitConsSound * ESecInitCons) : bool := ics_eqb (fst a) (fst b) && Z.eqb (snd a) (snd b).
Lemma onsetEq_ok a b : onsetEq a b = true <-> a = b.
Proof.
  unfold onsetEq. rewrite andb_true_iff, ics_eqb_eq, Z.eqb_eq. destruct a, b; cbn. split; [intros (-> & ->); reflexivity|intros E; injection E; auto].
Qed.
Definition entry (dead short : bool) (i : EInitConsSound) (c : ESecInitCons) (t : ETone) :=
  (pairCode dead short i c t, saidOnset dead i c t, saidTone dead short i t, markTone dead i t).
Definition entries (dead short : bool) :=
  flat_map (fun i => flat_map (fun c => map (entry dead short i c) allT) allSec) (tl allICS).
Definition bare (m : string) : bool := String.eqb m "".
Definition pairSame (same : bool) (x y : (list N * string) * (EInitConsSound * ESecInitCons) * ETone * bool) : bool :=
  let '((f, m), o, t, k) := x in let '((f', m'), o', t', k') := y in
  let eq := String.eqb m m' && leqb f f' in
  let key := tone_eqb t t' && onsetEq o o' in
  implb (eq && (same || negb (bare m))) (key && Bool.eqb k k' && (same || k)) &&
  implb key (Bool.eqb k k' && implb (same || k) eq && implb k (negb (bare m))).
Definition pairsOk (dead short short' : bool) : bool :=
  let l := entries dead short in let l' := entries dead short' in
  forallb (fun x => forallb (pairSame (Bool.eqb short short') x) l') l.
Lemma pairs_ok : forallb (fun d => forallb (fun s => forallb (pairsOk d s) [true; false]) [true; false]) [true; false] = true.
Proof. vm_cast_no_check (eq_refl true). Qed.
Lemma entries_in dead short i c t : i <> ICS_INVALID -> validSec c -> t <> T_INVALID -> In (entry dead short i c t) (entries dead short).
Proof.
  intros I C T. unfold entries. apply in_flat_map. exists i. split; [apply sound_in; exact I|].
  apply in_flat_map. exists c. split; [exact C|]. apply in_map_iff. exists t. split; [reflexivity|apply tone_in; exact T].
Qed.
Lemma pair_iff d sh sh' i c t i' c' t' f m f' m' :
  i <> ICS_INVALID -> validSec c -> t <> T_INVALID -> i' <> ICS_INVALID -> validSec c' -> t' <> T_INVALID ->
  pairIn d sh i c t = Ok (f, m) -> pairIn d sh' i' c' t' = Ok (f', m') ->
  (letters f = letters f' /\ m = m' -> sh = sh' \/ m <> "" ->
     saidOnset d i c t = saidOnset d i' c' t' /\ saidTone d sh i t = saidTone d sh' i' t' /\
     markTone d i t = markTone d i' t' /\ (sh = sh' \/ markTone d i t = true)) /\
  (saidOnset d i c t = saidOnset d i' c' t' /\ saidTone d sh i t = saidTone d sh' i' t' ->
     markTone d i t = markTone d i' t' /\ (sh = sh' \/ markTone d i t = true -> letters f = letters f' /\ m = m') /\
     (markTone d i t = true -> m <> "")).
Proof.
  intros I C T I' C' T' P P'. pose proof pairs_ok as S. rewrite forallb_forall in S. specialize (S _ (bool_in d)).
  rewrite forallb_forall in S. specialize (S _ (bool_in sh)). rewrite forallb_forall in S. specialize (S _ (bool_in sh')).
  unfold pairsOk in S. cbv zeta in S. rewrite forallb_forall in S. specialize (S _ (entries_in d sh i c t I C T)).
  rewrite forallb_forall in S. specialize (S _ (entries_in d sh' i' c' t' I' C' T')).
  unfold entry, pairCode in S. rewrite P, P' in S. unfold pairSame in S. cbv zeta in S.
  apply andb_true_iff in S. destruct S as (S1 & S2). rewrite implb_true_iff in S1, S2.
  rewrite !andb_true_iff, !orb_true_iff, negb_true_iff, !Bool.eqb_true_iff, String.eqb_eq, leqb_ok, tone_eqb_eq, onsetEq_ok in S1.
  rewrite !andb_true_iff, tone_eqb_eq, onsetEq_ok, !implb_true_iff, Bool.eqb_true_iff, orb_true_iff, Bool.eqb_true_iff,
    andb_true_iff, String.eqb_eq, leqb_ok, negb_true_iff in S2.
  assert (B : bare m = false <-> m <> "") by (unfold bare; apply String.eqb_neq). rewrite B in S1, S2. clear B. tauto.
Qed.

(** ** Vowels *)
Definition vowelStep (v v' : EVowel) (e : EEndConsClass) (k : bool) : bool :=
  let sh := Bool.eqb (writtenShort v e) (writtenShort v' e) in
  let d := Bool.eqb (writtenDead v e) (writtenDead v' e) in
  implb (Z.eqb (saidVowel v e k) (saidVowel v' e k))
    (d && (sh || k) &&
     forallb (fun k' => implb (sh || k') (Z.eqb (saidVowel v e k') (saidVowel v' e k'))) [true; false]).
Definition vowelDead (v v' : EVowel) (e : EEndConsClass) (k k' : bool) : bool :=
  implb (Z.eqb (saidVowel v e k) (saidVowel v' e k')) (Bool.eqb (writtenDead v e) (writtenDead v' e)).
Definition vowelsAll (v v' : EVowel) : bool :=
  forallb (fun e => forallb (fun k => vowelStep v v' e k && forallb (vowelDead v v' e k) [true; false]) [true; false]) allEC.
Lemma vowels_ok : forallb (fun v => forallb (vowelsAll v) vowelCodes) vowelCodes = true.
Proof. vm_cast_no_check (eq_refl true). Qed.
Lemma vowel_step v v' e : validVowel v -> validVowel v' ->
  (forall k, saidVowel v e k = saidVowel v' e k ->
     (writtenShort v e = writtenShort v' e \/ k = true) /\
     (forall k', writtenShort v e = writtenShort v' e \/ k' = true -> saidVowel v e k' = saidVowel v' e k')) /\
  (forall k k', saidVowel v e k = saidVowel v' e k' -> writtenDead v e = writtenDead v' e).
Proof.
  intros V V'. pose proof vowels_ok as S. rewrite forallb_forall in S. specialize (S _ V). rewrite forallb_forall in S.
  specialize (S _ V'). unfold vowelsAll in S. rewrite forallb_forall in S. specialize (S _ (ec_in e)). rewrite forallb_forall in S.
  split.
  - intros k E. specialize (S _ (bool_in k)). apply andb_true_iff in S. destruct S as (S & _). unfold vowelStep in S. cbv zeta in S.
    apply Z.eqb_eq in E. rewrite E in S. cbn [implb] in S. rewrite !andb_true_iff, orb_true_iff in S.
    destruct S as ((_ & S1) & S2). rewrite Bool.eqb_true_iff in S1. split; [exact S1|]. intros k' H. rewrite forallb_forall in S2. specialize (S2 _ (bool_in k')).
    rewrite implb_true_iff, orb_true_iff, Bool.eqb_true_iff, Z.eqb_eq in S2. auto.
  - intros k k' E. specialize (S _ (bool_in k)). apply andb_true_iff in S. destruct S as (_ & S). rewrite forallb_forall in S.
    specialize (S _ (bool_in k')). unfold vowelDead in S. apply Z.eqb_eq in E. rewrite E in S. cbn [implb] in S. apply Bool.eqb_prop in S. exact S.
Qed.

(** ** C94 *)
Lemma C94_lemma a b : wellFormed a -> wellFormed b -> (ThaiOutput a = ThaiOutput b <-> said a = said b).
Proof.
  intros Wa Wb. destruct (thai_parts a Wa) as (f & m & t & P & M & Sf & T & St & C).
  destruct (thai_parts b Wb) as (f' & m' & t' & P' & M' & Sf' & T' & St' & C').
  destruct Wa as (_ & A2 & A3 & A4 & A5), Wb as (_ & B2 & B3 & B4 & B5).
  pose proof (frame_iff (vowel a) (eCons a) m (vowel b) (eCons b) m' A4 B4 M M') as Fr.
  rewrite T, T'. transitivity (letters f = letters f' /\ eCons a = eCons b /\ m = m' /\ frameKey (vowel a) (eCons a) m = frameKey (vowel b) (eCons b) m').
  - rewrite <- Fr. split.
    + intros E. injection E as <-. pose proof (spells_fun _ _ _ St St') as E. rewrite E, C' in C. injection C. auto.
    + intros (E1 & E2 & E3). rewrite E1, E2, E3 in St. f_equal. destruct St as (-> & _), St' as (-> & _). reflexivity.
  - unfold said. split.
    + intros (E1 & E2 & E3 & E4). destruct (vowel_step (vowel a) (vowel b) (eCons a) A4 B4) as (V1 & V2).
      unfold frameKey in E4. rewrite <- E2, <- E3 in E4. pose proof (V2 _ _ E4) as D. destruct (V1 _ E4) as (V3 & V4).
      assert (D' : deadS b = deadS a) by (unfold deadS; rewrite <- E2; symmetry; exact D). rewrite D' in *. rewrite <- E2 in *.
      destruct (pair_iff _ _ _ _ _ _ _ _ _ _ _ _ _ A2 A3 A5 B2 B3 B5 P P') as (Q & _).
      destruct Q as (Q1 & Q2 & Q3 & Q4); [auto| |].
      { destruct V3 as [V3|V3]; [left; exact V3|right]. apply negb_true_iff, String.eqb_neq in V3. exact V3. }
      rewrite <- Q1, <- Q2, <- Q3, (V4 _ Q4). reflexivity.
    + intros E. injection E as E1 E4 E2 E3. destruct (vowel_step (vowel a) (vowel b) (eCons a) A4 B4) as (V1 & V2).
      rewrite <- E2 in *.
      assert (D' : deadS b = deadS a) by (unfold deadS; rewrite <- E2; symmetry; exact (V2 _ _ E4)). rewrite D' in *.
      destruct (pair_iff _ _ _ _ _ _ _ _ _ _ _ _ _ A2 A3 A5 B2 B3 B5 P P') as (_ & Q).
      destruct Q as (Q1 & Q2 & Q3); [auto|]. rewrite <- Q1 in E4. destruct (V1 _ E4) as (V3 & V4).
      destruct (Q2 V3) as (Q4 & Q5). split; [exact Q4|]. split; [reflexivity|]. split; [exact Q5|].
      unfold frameKey. rewrite <- Q5. apply V4. destruct V3 as [V3|V3]; [left; exact V3|right].
      apply negb_true_iff, String.eqb_neq. auto.
Qed.
Theorem C94_thai_merges a b : wellFormed a -> wellFormed b -> (ThaiOutput a = ThaiOutput b <-> said a = said b).
Proof. exact (C94_lemma a b). Qed.
Print Assumptions C94_thai_merges.
(** The cluster hr and a raised r; the common tone in a dead syllable and the
    tone of the letter; a lost length; long e and oe before y; and, not merged,
    short e with the mark of a low letter and long e without one. *)
Example C94_case : Forall (fun p => wellFormed (fst p) /\ wellFormed (snd p) /\ ThaiOutput (fst p) = ThaiOutput (snd p))
    [(SylOf RA SEC_NONE V_A KOK EK 3, SylOf HA SEC_RA V_A KOK EK 5);
     (SylOf KHA SEC_NONE V_AA KOK SAMAN 3, SylOf KHA SEC_NONE V_AA KOK THO 3);
     (SylOf KA SEC_NONE V_AE KONG THO 3, SylOf KA SEC_NONE V_AEE KONG THO 3);
     (SylOf NA SEC_NONE V_EE KOEY SAMAN 3, SylOf NA SEC_NONE V_OE KOEY SAMAN 3)] /\
  wellFormed (SylOf KHA SEC_NONE V_E KOK THO 3) /\ ThaiOutput (SylOf KHA SEC_NONE V_E KOK THO 3) = Ok "เค่ก" /\
  ThaiOutput (SylOf KHA SEC_NONE V_EE KOK THO 3) = Ok "เคก" /\
  ThaiOutput (SylOf RA SEC_NONE V_A KOK TRI 3) <> ThaiOutput (SylOf HA SEC_RA V_A KOK TRI 3).
Proof.
  split; [repeat (apply Forall_cons; [split; [wf|split; [wf|vm_compute; reflexivity]]|]); apply Forall_nil|].
  split; [wf|]. split; [vm_compute; reflexivity|]. split; [vm_compute; reflexivity|].
  intros E. apply C94_thai_merges in E; [|wf|wf]. discriminate E.
Qed.

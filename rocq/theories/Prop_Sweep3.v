(** Prop_Sweep3.v - property theorem C51: clusters, false clusters and leading
    HO HIP.  Complete sweep over the initials. *)
From Coq Require Import String Ascii List NArith ZArith Bool Arith Lia Sorted.
From Verif Require Import Spec Base ThUni ThCons Syl OrderProofs PronDag Utf Parser
  ParserSpec ParserFacts ParserListed Prop_Syl Prop_Parser Prop_Sweep Prop_Sweep2.
Import ListNotations.
Local Open Scope nat_scope.

(** ** C51: written clusters *)
(** The double initials: true clusters (first letters, second letter, its
    sound), false clusters (a silent RO RUA) and consonants led by HO HIP,
    which lends them its class. *)
Definition clusterGroups : list (string * string * ESecInitCons) :=
  [("กขคดตทบปพฟ", "ร", SEC_RA); ("กขคบปผพฟ", "ล", SEC_LA); ("กขค", "ว", SEC_WA)]%string.
Definition doubles : list Initial :=
  (flat_map (fun g => match g with (firsts, second, s) =>
     map (fun c => mkInitial (c :: letters second) (letterSound c) s (letterClass c)) (letters firsts) end) clusterGroups ++
   map (fun c => mkInitial (c :: letters "ร") (letterSound c) SEC_NONE (letterClass c)) (letters "จซศส") ++
   map (fun c => mkInitial (letters "ห" ++ [c]) (letterSound c) SEC_NONE HIGH) (letters "งญณนมยรลวฬ"))%list.
Definition doubleOpen (f : Form) (i : Initial) (mt : list N * ETone) : bool :=
  hasReading (openText f i (fst mt)) (openSyl f i (fst mt) (snd mt)).
Lemma doubleOpen_ok : sweep3 doubleOpen openForms doubles toneMarks = true.
Proof. vm_cast_no_check (eq_refl true). Qed.

(** In closed syllables: every spelling but the one without a written vowel,
    with the plain finals. *)
Definition doubleForms : list Closed :=
  filter (fun f => negb ((length (cBefore f) =? 0) && (length (cOn f) =? 0) && (length (cAfter f) =? 0))) closedForms.
Lemma doubleSweep_ok : closedSweep (sounded plainFinals) doubleForms doubles marksOf = true.
Proof. vm_cast_no_check (eq_refl true). Qed.

(** The double initials, stated by letters: [InDouble ls s s2 k]: the letters
    [ls] make the initial sound [s] with second sound [s2], of class [k]. *)
Inductive InDouble : list N -> EInitConsSound -> ESecInitCons -> EInitConsClass -> Prop :=
| ID_cluster firsts second s2 c s k : In (firsts, second, s2) clusterGroups -> In c (letters firsts) ->
    Prop_Syl.listed soundGroups s c -> Prop_Syl.listed classGroups k c -> InDouble (c :: letters second) s s2 k
| ID_false c s k : In c (letters "จซศส") -> Prop_Syl.listed soundGroups s c -> Prop_Syl.listed classGroups k c ->
    InDouble (c :: letters "ร") s SEC_NONE k
| ID_led c s : In c (letters "งญณนมยรลวฬ") -> Prop_Syl.listed soundGroups s c ->
    InDouble (letters "ห" ++ [c]) s SEC_NONE HIGH.
Definition uniqueIn {K} (keqb : K -> K -> bool) (groups : list (K * string)) (look : N -> K) : bool :=
  forallb (fun p => forallb (fun c => keqb (fst p) (look c)) (letters (snd p))) groups.
Lemma uniqueIn_spec {K} (keqb : K -> K -> bool) (E : forall a b, keqb a b = true <-> a = b) groups look :
  uniqueIn keqb groups look = true -> forall k c, Prop_Syl.listed groups k c -> k = look c.
Proof.
  unfold uniqueIn. intros H k c (ls & I & Hc). rewrite forallb_forall in H. specialize (H _ I). cbn [fst snd] in H.
  rewrite forallb_forall in H. apply E. auto.
Qed.
Lemma sound_unique s c : Prop_Syl.listed soundGroups s c -> s = letterSound c.
Proof. apply (uniqueIn_spec ics_eqb ics_eqb_eq). vm_compute. reflexivity. Qed.
Lemma class_unique k c : Prop_Syl.listed classGroups k c -> k = letterClass c.
Proof. apply (uniqueIn_spec ic_eqb ic_eqb_eq). vm_compute. reflexivity. Qed.
Lemma listed_class_valid k c : Prop_Syl.listed classGroups k c -> k <> IC_INVALID.
Proof. intros (ls & H & _). repeat (destruct H as [H|H]; [injection H as <- <-; discriminate|]). destruct H. Qed.
Lemma InDouble_in ls s s2 k : InDouble ls s s2 k -> In (mkInitial ls s s2 k) doubles /\ k <> IC_INVALID.
Proof.
  intros [firsts second t c s' k' I Hc Hs Hk|c s' k' Hc Hs Hk|c s' Hc Hs].
  - split; [|eapply listed_class_valid; exact Hk]. apply sound_unique in Hs. apply class_unique in Hk. subst.
    unfold doubles. apply in_or_app. left. apply in_flat_map. exists (firsts, second, t). split; [exact I|].
    apply in_map_iff. exists c. auto.
  - split; [|eapply listed_class_valid; exact Hk]. apply sound_unique in Hs. apply class_unique in Hk. subst.
    unfold doubles. apply in_or_app. right. apply in_or_app. left. apply in_map_iff. exists c. auto.
  - split; [|discriminate]. apply sound_unique in Hs. subst.
    unfold doubles. apply in_or_app. right. apply in_or_app. right. apply in_map_iff. exists c. auto.
Qed.
Lemma C51_lemma f ls s s2 k mark m : In f openForms -> InDouble ls s s2 k -> In (mark, m) toneMarks ->
  let w := fBefore f ++ ls ++ fOn f ++ mark ++ fAfter f in
  exists t l, tonedAs k m (fDead f) (fShort f) t /\ pronounced libthai_ct w None [] l /\
    In [SylOf s s2 (fVowel f) (fEnd f) t (Z.of_nat (length w))] l.
Proof.
  intros Hf D Hm w. destruct (InDouble_in _ _ _ _ D) as (I & V).
  pose proof (sweep3_in _ _ _ _ doubleOpen_ok f _ (mark, m) Hf I Hm) as X. unfold doubleOpen in X.
  apply hasReading_sound in X; [|reflexivity]. destruct X as (l & P & H).
  eexists _, l. split; [|split; [exact P|exact H]].
  apply tonedAs_ok; [exact V|exact (mark_valid (mark, m) Hm)].
Qed.
(** Every double initial with every open vowel and tone mark has the textbook
    reading: one syllable with the cluster's sounds, the tone by its class. *)
Theorem C51_clusters_open f ls s s2 k mark m : In f openForms -> InDouble ls s s2 k -> In (mark, m) toneMarks ->
  let w := fBefore f ++ ls ++ fOn f ++ mark ++ fAfter f in
  exists t l, tonedAs k m (fDead f) (fShort f) t /\ pronounced libthai_ct w None [] l /\
    In [SylOf s s2 (fVowel f) (fEnd f) t (Z.of_nat (length w))] l.
Proof. exact (C51_lemma f ls s s2 k mark m). Qed.
Print Assumptions C51_clusters_open.
Lemma C51_lemma2 f ls s s2 k mark m e ec : In f closedForms -> ~ (cBefore f = [] /\ cOn f = [] /\ cAfter f = []) ->
  InDouble ls s s2 k -> In (mark, m) (marksOf f) -> In e plainFinals -> Prop_Syl.listed endGroups ec e ->
  ~ In e (cNot f) ->
  let w := cBefore f ++ ls ++ cOn f ++ mark ++ cAfter f ++ [e] in
  exists t l, tonedAs k m (stopFinal ec) (cShort f) t /\ pronounced libthai_ct w None [] l /\
    In [SylOf s s2 (cVowel f) ec t (Z.of_nat (length w))] l.
Proof.
  intros Hf Nb D Hm He Hec Nn w. destruct (InDouble_in _ _ _ _ D) as (I & V).
  assert (Ee : ec = letterEnd e).
  { revert Hec. apply (uniqueIn_spec ec_eqb ec_eqb_eq). vm_compute. reflexivity. }
  assert (Hf' : In f doubleForms).
  { apply filter_In. split; [exact Hf|]. rewrite negb_true_iff. destruct (_ && _) eqn:X; [|reflexivity]. exfalso.
    rewrite !andb_true_iff, !Nat.eqb_eq, !length_zero_iff_nil in X. apply Nb. tauto. }
  pose proof (closedSweep_in plainFinals doubleForms doubles marksOf f _ (mark, m) e doubleSweep_ok Hf' I Hm He Nn) as X.
  apply hasReading_sound in X; [|reflexivity]. destruct X as (l & P & H).
  unfold closedSyl in H. cbn [inSound inSecond inClass fst snd] in H. rewrite <- Ee in H.
  eexists _, l. split; [|split; [exact P|exact H]].
  apply tonedAs_ok; [exact V|]. apply (mark_valid (mark, m)). apply (marksOf_in f). exact Hm.
Qed.
Theorem C51_clusters_closed f ls s s2 k mark m e ec :
  In f closedForms -> ~ (cBefore f = [] /\ cOn f = [] /\ cAfter f = []) ->
  InDouble ls s s2 k -> In (mark, m) (marksOf f) -> In e plainFinals -> Prop_Syl.listed endGroups ec e ->
  ~ In e (cNot f) ->
  let w := cBefore f ++ ls ++ cOn f ++ mark ++ cAfter f ++ [e] in
  exists t l, tonedAs k m (stopFinal ec) (cShort f) t /\ pronounced libthai_ct w None [] l /\
    In [SylOf s s2 (cVowel f) ec t (Z.of_nat (length w))] l.
Proof. exact (C51_lemma2 f ls s s2 k mark m e ec). Qed.
Print Assumptions C51_clusters_closed.
Example C51_case : InDouble (letters "กล") KA SEC_LA MID /\ InDouble (letters "หน") NA SEC_NONE HIGH /\
  InDouble (letters "สร") SA SEC_NONE HIGH /\
  (exists l, pronounced libthai_ct (letters "เปลี่ยน") None [] l /\ In [SylOf PA SEC_LA V_IAA KON EK 7] l).
Proof.
  split; [apply (ID_cluster "กขคบปผพฟ" "ล"); [right; left; reflexivity|left; reflexivity| |]|].
  - exists "ก"%string. split; [left; reflexivity|left; reflexivity].
  - exists "กจฎฏดตบปอ"%string. split; [right; left; reflexivity|left; reflexivity].
  - split; [apply (ID_led 0x0e19); [do 3 right; left; reflexivity|]|split].
    + exists "ณน"%string. split; [do 9 right; left; reflexivity|right; left; reflexivity].
    + apply (ID_false 0x0e2a); [do 3 right; left; reflexivity| |].
      * exists "ซศษส"%string. split; [do 18 right; left; reflexivity|do 3 right; left; reflexivity].
      * exists "ขฃฉฐถผฝศษสห"%string. split; [left; reflexivity|do 9 right; left; reflexivity].
    + apply hasReading_sound; [reflexivity|]. vm_compute. reflexivity.
Qed.

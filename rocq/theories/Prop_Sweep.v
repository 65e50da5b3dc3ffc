(** Prop_Sweep.v - property theorems C46, C47, C50: simple syllables, the
    shipped dictionary, closed syllables.  The domains (letters x marks x
    vowels; the lines of the shipped files) are finite and swept completely
    by computation. *)
From Coq Require Import String Ascii List NArith ZArith Bool Arith Lia Sorted.
From Verif Require Import Spec Base ThUni ThCons Syl OrderProofs Lattice LatticeProofs
  Dag DagProofs PronDag PathProofs GroupProofs ListDagProofs Dict DictProofs Utf UtfProofs Parser Wp
  ParserSpec ParserRules ParserActs ParserLoop ParserFacts ParserInv ParserResult
  ParserPool ParserDict ParserListed GenDict Data Prop_Syl Prop_Graph Prop_Parser.
Import ListNotations.
Local Open Scope nat_scope.

(** ** C46: simple syllables have exactly one reading *)
(** A way to write an open vowel: what stands before the consonant, directly
    on it, and after it (tone marks come between the last two); its vowel and
    final sounds; whether the syllable is dead; whether it is short. *)
Record Form := mkForm { fBefore : list N; fOn : list N; fAfter : list N;
  fVowel : EVowel; fEnd : EEndConsClass; fDead : bool; fShort : bool }.
Definition form (b o a : string) v e dead short := mkForm (letters b) (letters o) (letters a) v e dead short.
Definition openForms : list Form :=
 [form "" "" "ะ" V_A EC_NONE true true;      form "" "" "า" V_AA EC_NONE false false;
  form "" "ิ" "" V_I EC_NONE true true;       form "" "ี" "" V_II EC_NONE false false;
  form "" "ึ" "" V_UE EC_NONE true true;      form "" "ื" "อ" V_UEE EC_NONE false false;
  form "" "ุ" "" V_U EC_NONE true true;       form "" "ู" "" V_UU EC_NONE false false;
  form "เ" "" "ะ" V_E EC_NONE true true;     form "เ" "" "" V_EE EC_NONE false false;
  form "แ" "" "ะ" V_AE EC_NONE true true;    form "แ" "" "" V_AEE EC_NONE false false;
  form "โ" "" "ะ" V_O EC_NONE true true;     form "โ" "" "" V_OO EC_NONE false false;
  form "เ" "" "าะ" V_AU EC_NONE true true;   form "" "" "อ" V_AUU EC_NONE false false;
  form "เ" "" "อ" V_OEE EC_NONE false false;
  form "เ" "ี" "ยะ" V_IA EC_NONE true true;   form "เ" "ี" "ย" V_IAA EC_NONE false false;
  form "เ" "ื" "อะ" V_UEA EC_NONE true true;  form "เ" "ื" "อ" V_UEAA EC_NONE false false;
  form "" "ั" "วะ" V_UA EC_NONE true true;    form "" "ั" "ว" V_UAA EC_NONE false false;
  form "" "" "ำ" V_A KOM false true;         form "ใ" "" "" V_A KOEY false true;
  form "ไ" "" "" V_A KOEY false true;        form "เ" "" "า" V_A KOEW false true].
(** The one open vowel with a second reading (consonant + E, then "a"). *)
Definition formOE : Form := form "เ" "" "อะ" V_OE EC_NONE true true.
Definition toneMarks : list (list N * ETone) :=
  [([], SAMAN); ([0x0e48], EK); ([0x0e49], THO); ([0x0e4a], TRI); ([0x0e4b], CHATTAWA)]%N.
Definition spelled (f : Form) (c : N) (mark : list N) : list N := fBefore f ++ [c] ++ fOn f ++ mark ++ fAfter f.
(** The tone: by the textbook, or the mark itself where the textbook has no
    rule. *)
Definition tonedAs (k : EInitConsClass) (m : ETone) (dead short : bool) (t : ETone) : Prop :=
  Textbook k m dead short t \/ unspellable k m /\ t = m.
(** The expected syllable for consonant [c]. *)
Definition expected (f : Form) (c : N) (mark : list N) (m : ETone) (v : Syl) : Prop :=
  exists s k t, Prop_Syl.listed soundGroups s c /\ Prop_Syl.listed classGroups k c /\
    tonedAs k m (fDead f) (fShort f) t /\
    v = SylOf s SEC_NONE (fVowel f) (fEnd f) t (Z.of_nat (length (spelled f c mark))).

Definition listingOf (w : list N) : Res (list SylString) :=
  (d <- ParseU16F libthai_ct 200 w None [] ;; DAGSylStrings d 0)%res.
Definition letterClass (c : N) : EInitConsClass :=
  match find (fun p => memN c (letters (snd p))) classGroups with Some p => fst p | None => IC_INVALID end.
Definition letterEnd (c : N) : EEndConsClass :=
  match find (fun p => memN c (letters (snd p))) endGroups with Some p => fst p | None => EC_NONE end.
(** The initial of a syllable: its letters, its sounds and its class. *)
Record Initial := mkInitial { inLetters : list N; inSound : EInitConsSound;
  inSecond : ESecInitCons; inClass : EInitConsClass }.
Definition single (c : N) : Initial := mkInitial [c] (letterSound c) SEC_NONE (letterClass c).
Definition singles : list Initial := map single allCons.
Definition openText (f : Form) (i : Initial) (mark : list N) : list N :=
  fBefore f ++ inLetters i ++ fOn f ++ mark ++ fAfter f.
Definition openSyl (f : Form) (i : Initial) (mark : list N) (m : ETone) : Syl :=
  SylOf (inSound i) (inSecond i) (fVowel f) (fEnd f) (ToneFromWritten (inClass i) m (fDead f) (fShort f))
        (Z.of_nat (length (openText f i mark))).
(** Full equality of syllables (the model's [syl_eqb] ignores positions). *)
Definition sylSame (a b : Syl) : bool := syl_eqb a b && (endPos a =? endPos b)%Z.
Definition openCheck (f : Form) (i : Initial) (mt : list N * ETone) : bool :=
  match listingOf (openText f i (fst mt)) with
  | Ok [[v]] => sylSame v (openSyl f i (fst mt) (snd mt))
  | _ => false
  end.
Definition sweep3 {A B C} (p : A -> B -> C -> bool) la lb lc : bool :=
  forallb (fun a => forallb (fun b => forallb (p a b) lc) lb) la.
Lemma sweep3_in {A B C} (p : A -> B -> C -> bool) la lb lc : sweep3 p la lb lc = true ->
  forall a b c, In a la -> In b lb -> In c lc -> p a b c = true.
Proof.
  unfold sweep3. intros H a b c Ha Hb Hc. rewrite forallb_forall in H. specialize (H a Ha).
  rewrite forallb_forall in H. specialize (H b Hb). rewrite forallb_forall in H. auto.
Qed.
Lemma openSweep_ok : sweep3 openCheck openForms singles toneMarks = true.
Proof. vm_cast_no_check (eq_refl true). Qed.

Lemma listingOf_only w l l' : listingOf w = Ok l -> pronounced libthai_ct w None [] l' -> l' = l.
Proof.
  unfold listingOf. destruct (ParseU16F libthai_ct 200 w None []) as [d| | |] eqn:E; cbn [bind]; try discriminate.
  intros H (fuel & d' & E' & H').
  rewrite ParseU16F_any in E by (rewrite E; discriminate).
  rewrite ParseU16F_any in E' by (rewrite E'; discriminate). congruence.
Qed.
Lemma sylSame_eq a b : literal b = [] -> sylSame a b = true -> a = b.
Proof.
  intros Lb. unfold sylSame, syl_eqb, isLiteral. rewrite Lb.
  destruct (literal a) eqn:La; [|intros H; apply andb_true_iff in H; destruct H; discriminate].
  rewrite !andb_true_iff. intros ((((( A & B) & C) & D) & E) & F).
  apply ics_eqb_eq in A. apply Z.eqb_eq in B, C, F. apply ec_eqb_eq in D. apply tone_eqb_eq in E.
  destruct a, b; cbn in *; subst; reflexivity.
Qed.
(** The lookups agree with the letter lists. *)
Lemma letter_lookups : forallb (fun c =>
    listedIn ics_eqb soundGroups (letterSound c) c && listedIn ic_eqb classGroups (letterClass c) c &&
    listedIn ec_eqb endGroups (letterEnd c) c && negb (ic_eqb (letterClass c) IC_INVALID)) allCons = true.
Proof. vm_compute. reflexivity. Qed.
Lemma letter_listed c : thaiConsonant c ->
  Prop_Syl.listed soundGroups (letterSound c) c /\ Prop_Syl.listed classGroups (letterClass c) c /\
  Prop_Syl.listed endGroups (letterEnd c) c /\ letterClass c <> IC_INVALID.
Proof.
  intros H. apply allCons_in in H. pose proof letter_lookups as X. rewrite forallb_forall in X.
  specialize (X c H). rewrite !andb_true_iff in X. destruct X as (((A & B) & C) & D).
  split; [apply (listedIn_iff ics_eqb ics_eqb_eq); exact A|].
  split; [apply (listedIn_iff ic_eqb ic_eqb_eq); exact B|].
  split; [apply (listedIn_iff ec_eqb ec_eqb_eq); exact C|].
  intros E. rewrite E in D. discriminate.
Qed.
Lemma singles_in c : thaiConsonant c -> In (single c) singles.
Proof. intros H. apply in_map. apply allCons_in. exact H. Qed.
Lemma tonedAs_ok k m d sh : k <> IC_INVALID -> m <> T_INVALID -> tonedAs k m d sh (ToneFromWritten k m d sh).
Proof.
  intros Hk Hm. destruct (tone_rules_lemma k m d sh Hk Hm) as (A & _ & _ & B).
  assert (unspellable k m \/ ~ unspellable k m) as [U|U].
  { unfold unspellable. destruct k, m; try (left; split; auto; fail); right; intros ([?|[?|?]] & [?|?]); discriminate. }
  - right. auto.
  - left. auto.
Qed.
Lemma mark_valid mt : In mt toneMarks -> snd mt <> T_INVALID.
Proof. intros H. repeat (destruct H as [<-|H]; [discriminate|]). destruct H. Qed.
Lemma openSyl_ok f c mt : thaiConsonant c -> In mt toneMarks ->
  expected f c (fst mt) (snd mt) (openSyl f (single c) (fst mt) (snd mt)).
Proof.
  intros Hc Hm. destruct (letter_listed c Hc) as (A & B & _ & D).
  eexists _, _, _. split; [exact A|]. split; [exact B|]. split; [|reflexivity].
  apply tonedAs_ok; [exact D|apply mark_valid; exact Hm].
Qed.
Lemma listingOf_pronounced w l : listingOf w = Ok l -> pronounced libthai_ct w None [] l.
Proof.
  unfold listingOf. destruct (ParseU16F libthai_ct 200 w None []) as [d| | |] eqn:E; cbn [bind]; try discriminate.
  intros H. exists 200, d. auto.
Qed.

Lemma openCheck_sound f i mt : openCheck f i mt = true ->
  listingOf (openText f i (fst mt)) = Ok [[openSyl f i (fst mt) (snd mt)]].
Proof.
  unfold openCheck. destruct (listingOf (openText f i (fst mt))) as [[|[|v [|]] [|]]| | |] eqn:E; try discriminate.
  intros X. apply sylSame_eq in X; [|reflexivity]. rewrite X. reflexivity.
Qed.
Lemma C46_lemma f c mark m : In f openForms -> thaiConsonant c -> In (mark, m) toneMarks ->
  exists v, expected f c mark m v /\ pronounced libthai_ct (spelled f c mark) None [] [[v]] /\
  forall l, pronounced libthai_ct (spelled f c mark) None [] l -> l = [[v]].
Proof.
  intros Hf Hc Hm.
  pose proof (openCheck_sound f (single c) (mark, m) (sweep3_in _ _ _ _ openSweep_ok f (single c) (mark, m) Hf (singles_in c Hc) Hm)) as E.
  exists (openSyl f (single c) mark m). split; [|split].
  - exact (openSyl_ok f c (mark, m) Hc Hm).
  - apply listingOf_pronounced. exact E.
  - intros l. apply listingOf_only. exact E.
Qed.
(** Every consonant, every tone mark, every way to write an open vowel: there
    is one reading, a single syllable with the consonant's sound, the vowel
    and the textbook tone. *)
Theorem C46_open_syllables f c mark m : In f openForms -> thaiConsonant c -> In (mark, m) toneMarks ->
  exists v, expected f c mark m v /\ pronounced libthai_ct (spelled f c mark) None [] [[v]] /\
  forall l, pronounced libthai_ct (spelled f c mark) None [] l -> l = [[v]].
Proof. exact (C46_lemma f c mark m). Qed.
Print Assumptions C46_open_syllables.
Example C46_case : exists f, In f openForms /\ thaiConsonant 0x0e2b /\ In ([0x0e49%N], THO) toneMarks /\
  spelled f 0x0e2b [0x0e49%N] = letters "ห้า" /\
  expected f 0x0e2b [0x0e49%N] THO (SylOf HA SEC_NONE V_AA EC_NONE THO 3).
Proof.
  exists (form "" "" "า" V_AA EC_NONE false false). split; [right; left; reflexivity|].
  assert (C : thaiConsonant 0x0e2b) by (repeat split; lia || discriminate).
  split; [exact C|]. split; [right; right; left; reflexivity|]. split; [reflexivity|].
  exact (openSyl_ok (form "" "" "า" V_AA EC_NONE false false) 0x0e2b ([0x0e49%N], THO) C
           (or_intror (or_intror (or_introl eq_refl)))).
Qed.

(** The remaining open vowel (short OE) also reads as the consonant with long
    E followed by "a" (O ANG with SARA A); there is no third reading. *)
Definition formEE : Form := form "เ" "" "" V_EE EC_NONE false false.
Definition oeReadings (i : Initial) (mt : list N * ETone) : list SylString :=
  [[openSyl formOE i (fst mt) (snd mt)];
   [openSyl formEE i (fst mt) (snd mt);
    SylOf ICS_A SEC_NONE V_A EC_NONE EK (Z.of_nat (length (openText formOE i (fst mt))))]].
Definition oeCheck (u : unit) (i : Initial) (mt : list N * ETone) : bool :=
  match listingOf (openText formOE i (fst mt)), oeReadings i mt with
  | Ok [[v]; [v1; v2]], [[x]; [x1; x2]] => sylSame v x && sylSame v1 x1 && sylSame v2 x2
  | _, _ => false
  end.
Lemma oeSweep_ok : sweep3 oeCheck [tt] singles toneMarks = true.
Proof. vm_cast_no_check (eq_refl true). Qed.
Lemma oeCheck_sound u i mt : oeCheck u i mt = true -> listingOf (openText formOE i (fst mt)) = Ok (oeReadings i mt).
Proof.
  unfold oeCheck, oeReadings.
  destruct (listingOf (openText formOE i (fst mt))) as [[|[|v [|]] [|[|v1 [|v2 [|]]] [|]]]| | |] eqn:E; try discriminate.
  rewrite !andb_true_iff. intros ((A & B) & C). apply sylSame_eq in A, B, C; try reflexivity.
  rewrite A, B, C. reflexivity.
Qed.
Lemma C46_lemma2 c mark m : thaiConsonant c -> In (mark, m) toneMarks ->
  exists v v1 v2, expected formOE c mark m v /\ expected formEE c mark m v1 /\
  v2 = SylOf ICS_A SEC_NONE V_A EC_NONE EK (Z.of_nat (length (spelled formOE c mark))) /\
  pronounced libthai_ct (spelled formOE c mark) None [] [[v]; [v1; v2]] /\
  forall l, pronounced libthai_ct (spelled formOE c mark) None [] l -> l = [[v]; [v1; v2]].
Proof.
  intros Hc Hm.
  pose proof (oeCheck_sound tt (single c) (mark, m) (sweep3_in _ _ _ _ oeSweep_ok tt (single c) (mark, m)
    (or_introl eq_refl) (singles_in c Hc) Hm)) as E.
  eexists _, _, _. split; [exact (openSyl_ok formOE c (mark, m) Hc Hm)|].
  split; [exact (openSyl_ok formEE c (mark, m) Hc Hm)|]. split; [reflexivity|]. split.
  - apply listingOf_pronounced. exact E.
  - intros l. apply listingOf_only. exact E.
Qed.
Theorem C46_open_oe c mark m : thaiConsonant c -> In (mark, m) toneMarks ->
  exists v v1 v2, expected formOE c mark m v /\ expected formEE c mark m v1 /\
  v2 = SylOf ICS_A SEC_NONE V_A EC_NONE EK (Z.of_nat (length (spelled formOE c mark))) /\
  pronounced libthai_ct (spelled formOE c mark) None [] [[v]; [v1; v2]] /\
  forall l, pronounced libthai_ct (spelled formOE c mark) None [] l -> l = [[v]; [v1; v2]].
Proof. exact (C46_lemma2 c mark m). Qed.
Print Assumptions C46_open_oe.

(** ** C47: the shipped exception dictionary *)
(** The entry of a source line: the word and its pronunciations. *)
Definition goodEntry (d : Dict) (line : string) : Prop :=
  exists key desc k strs, line = (key ++ tab ++ desc)%string /\ from_bytes key = Ok k /\
    k <> [] /\ inAbc k /\ matchGetData d (mkMatch 0 k []) = Ok desc /\
    MakeSylStrings desc = Ok strs /\ strs <> [] /\
    Forall (fun s => wellPositioned (Z.of_nat (length k)) s /\ Forall wellFormed s) strs.

Fixpoint splitTab (s : string) : option (string * string) :=
  match s with
  | EmptyString => None
  | String c s' =>
      if Ascii.eqb c (ascii_of_nat 9) then Some (EmptyString, s')
      else match splitTab s' with Some (a, b) => Some (String c a, b) | None => None end
  end.
Lemma splitTab_app s : forall a b, splitTab s = Some (a, b) -> s = (a ++ tab ++ b)%string.
Proof.
  induction s as [|c s IH]; intros a b H; cbn [splitTab] in H; [discriminate|].
  destruct (Ascii.eqb c (ascii_of_nat 9)) eqn:Ec.
  - injection H as <- <-. apply Ascii.eqb_eq in Ec. subst c. reflexivity.
  - destruct (splitTab s) as [[a' b']|]; [|discriminate]. injection H as <- <-.
    cbn [String.append]. f_equal. apply IH. reflexivity.
Qed.
Definition goodEntryb (d : Dict) (line : string) : bool :=
  match splitTab line with
  | None => false
  | Some (key, desc) =>
      match from_bytes key with
      | Ok k =>
          negb (length k =? 0) && forallb inAlphabet k &&
          match matchGetData d (mkMatch 0 k []) with Ok x => String.eqb x desc | _ => false end &&
          match MakeSylStrings desc with
          | Ok strs => negb (length strs =? 0) && forallb (strOKb (Z.of_nat (length k))) strs
          | _ => false
          end
      | _ => false
      end
  end.
Lemma goodEntryb_sound d line : goodEntryb d line = true -> goodEntry d line.
Proof.
  unfold goodEntryb. destruct (splitTab line) as [[key desc]|] eqn:E; [|discriminate].
  destruct (from_bytes key) as [k| | |] eqn:Ek; try discriminate. rewrite !andb_true_iff.
  intros (((A & B) & C) & D). destruct (matchGetData d (mkMatch 0 k [])) as [x| | |] eqn:Em; try discriminate.
  apply String.eqb_eq in C. subst x. destruct (MakeSylStrings desc) as [strs| | |] eqn:Es; try discriminate.
  apply andb_true_iff in D. destruct D as (D1 & D2). exists key, desc, k, strs.
  split; [apply splitTab_app; exact E|]. split; [exact Ek|]. split; [destruct k; discriminate|].
  split. { intros c Hc. rewrite forallb_forall in B. apply inAlphabet_spec. auto. }
  split; [exact Em|]. split; [exact Es|]. split; [destruct strs; discriminate|].
  rewrite Forall_forall. rewrite forallb_forall in D2. intros s Hs. apply strOKb_sound. auto.
Qed.
Definition exceptCheck : bool :=
  match except_dict with
  | Ok (d, true) =>
      match mTrie d with
      | Some t => (length t =? 105) && forallb (fun kv => entryOKb d (fst kv)) t && forallb (goodEntryb d) except_src
      | None => false
      end
  | _ => false
  end.
Lemma exceptCheck_ok : exceptCheck = true.
Proof. vm_cast_no_check (eq_refl true). Qed.
Lemma checkedDict (r : Res (Dict * bool)) src :
  match r with
  | Ok (d, true) =>
      match mTrie d with
      | Some t => (length t =? 105) && forallb (fun kv => entryOKb d (fst kv)) t && forallb (goodEntryb d) src
      | None => false
      end
  | _ => false
  end = true ->
  exists d t, r = Ok (d, true) /\ mTrie d = Some t /\ length t = 105 /\ dictOK d /\ Forall (goodEntry d) src.
Proof.
  destruct r as [[d []]| | |]; try discriminate. destruct (mTrie d) as [t|] eqn:Et; [|discriminate].
  rewrite !andb_true_iff. intros ((A & B) & C). exists d, t. split; [reflexivity|]. split; [exact Et|].
  split; [apply Nat.eqb_eq; exact A|]. split; [apply (dictCheck_sound d t Et B)|].
  rewrite Forall_forall. rewrite forallb_forall in C. intros x Hx. apply goodEntryb_sound. auto.
Qed.
(** Generating the dictionary from the shipped lists and opening it succeeds;
    it meets the condition the parser theorems put on dictionaries; and every
    line of the lists is in it, with syllables that are well formed and
    positioned inside the word. *)
Theorem C47_shipped : exists d t, except_dict = Ok (d, true) /\ mTrie d = Some t /\ length t = 105 /\
  dictOK d /\ Forall (goodEntry d) except_src.
Proof. exact (checkedDict except_dict except_src exceptCheck_ok). Qed.
Print Assumptions C47_shipped.
Example C47_case : length except_src = 105 /\
  In (ent "ภูมิ" "P_Um0@4;P_U_0@2,m_i_3@4") except_src.
Proof. split; [reflexivity|]. unfold except_src. do 3 (apply in_or_app; right). apply in_or_app; left. do 5 right. left. reflexivity. Qed.

(** Prop_Text.v - properties C58 and C59: only the dictionary entries written
    in a text matter; the pronunciations of a text made of words, letter names
    and foreign stretches. *)
From Coq Require Import String List NArith ZArith Bool Arith Lia Sorted.
From Verif Require Import Spec Base ThUni ThCons Syl Dict DictProofs Utf Parser Wp Prop_Syl ParserSpec ParserActs ParserFacts
  ParserPool ParserListed Prop_Parser Prop_Parser2 ParserLocal ParserProduct Prop_Product Grammar GrammarWord Prop_Grammar.
Import ListNotations.
Local Open Scope nat_scope.

(** ** C58: only the entries written in the text matter *)
(** What the dictionary answers for the word [k]. *)
Definition answers (o : option Dict) (k : list N) (a : Res string) : Prop :=
  exists d v, o = Some d /\ holds d k v /\ a = matchGetData d (mkMatch 0 k []).
Definition agreeOn (w : list N) (o1 o2 : option Dict) : Prop :=
  forall u k r a, w = u ++ k ++ r -> k <> [] -> answers o1 k a <-> answers o2 k a.

Lemma sorted_eq {A} (f : A -> nat) (l1 l2 : list A) : StronglySorted (fun a b => f a < f b) l1 ->
  StronglySorted (fun a b => f a < f b) l2 -> (forall x, In x l1 <-> In x l2) -> l1 = l2.
Proof.
  intros S1. revert l2. induction S1 as [|a l1 S1 IH F1]; intros l2 S2 H.
  - destruct l2 as [|b l2]; [reflexivity|]. destruct (proj2 (H b) (or_introl eq_refl)).
  - destruct S2 as [|b l2 S2 F2]; [destruct (proj1 (H a) (or_introl eq_refl))|].
    rewrite Forall_forall in F1, F2. assert (a = b).
    { destruct (proj1 (H a) (or_introl eq_refl)) as [E|E]; [congruence|].
      destruct (proj2 (H b) (or_introl eq_refl)) as [E'|E']; [congruence|].
      apply F1 in E'. apply F2 in E. lia. }
    subst b. f_equal. apply IH; [exact S2|]. intros x. split; intros X.
    + destruct (proj1 (H x) (or_intror X)) as [<-|Y]; [|exact Y]. apply F1 in X. lia.
    + destruct (proj2 (H x) (or_intror X)) as [<-|Y]; [|exact Y]. apply F2 in X. lia.
Qed.
Lemma mapM_map {A B C} (f : B -> Res C) (g : A -> B) l : mapM f (map g l) = mapM (fun x => f (g x)) l.
Proof. induction l as [|a l IH]; [reflexivity|]. cbn [map mapM]. rewrite IH. reflexivity. Qed.
Lemma mapM_ext_in {A B} (f g : A -> Res B) l : (forall a, In a l -> f a = g a) -> mapM f l = mapM g l.
Proof.
  induction l as [|a l IH]; intros H; [reflexivity|]. cbn [mapM].
  rewrite (H a (or_introl eq_refl)), IH; [reflexivity|]. intros x X. apply H. right; exact X.
Qed.

Section Frame.
Variable ct : CType.
Variable w : list N.
Variable brk : list nat.
(** The keys found at a position. *)
Definition keysAt (o : option Dict) (pos : nat) : list (list N) :=
  match o with Some d => map mPre (allMatches (S (length w)) d (MatchNew w pos)) | None => [] end.
Lemma keysAt_spec o pos : pos <= length w ->
  (forall k, In k (keysAt o pos) <-> k <> [] /\ inAbc k /\ writtenAt w pos k /\ exists a, answers o k a) /\
  StronglySorted (fun a b => length a < length b) (keysAt o pos).
Proof.
  intros Hp. destruct o as [d|].
  - destruct (allMatches_spec d w pos Hp) as (A & B & C). cbn [keysAt].
    set (l := allMatches (S (length w)) d (MatchNew w pos)) in *. split.
    + intros k. rewrite in_map_iff. split.
      * intros (x & <- & Hx). destruct (A x Hx) as (v & H1 & H2 & H3 & H4 & _). repeat (split; [assumption|]).
        eexists. exists d, v. split; [reflexivity|]. split; [exact H1|reflexivity].
      * intros (H1 & H2 & H3 & a & d' & v & E & H4 & _). injection E as <-.
        destruct (C k v H1 H3 H2 H4) as (x & Hx & <-). eauto.
    + assert (F : Forall (fun x => mCurPos x = pos + length (mPre x)) l).
      { rewrite Forall_forall. intros x Hx. destruct (A x Hx) as (v & _ & _ & _ & _ & H). exact H. }
      clear - B F. induction B as [|x l B IH G]; [constructor|]. inversion F as [|? ? Fx F']; subst. cbn [map].
      constructor; [apply IH; exact F'|]. rewrite Forall_forall in *. intros k Hk. apply in_map_iff in Hk.
      destruct Hk as (y & <- & Hy). pose proof (G y Hy). pose proof (F' y Hy). lia.
  - split; [|constructor]. intros k. cbn [keysAt]. split; [intros []|]. intros (_ & _ & _ & a & d & v & E & _). discriminate.
Qed.
Definition excKey (d : Dict) (pos stop : nat) (k : list N) : Res (option Act) :=
  excAct ct w pos stop d (mkMatch (pos + length k) k []).
Lemma excActs_keys d pos stop : pos <= length w ->
  excActs ct w pos stop d = (r <- mapM (excKey d pos stop) (keysAt (Some d) pos) ;; Ok (keepSome r))%res.
Proof.
  intros Hp. unfold excActs, keysAt. rewrite mapM_map. apply f_equal2; [|reflexivity]. apply mapM_ext_in.
  intros x Hx. destruct (allMatches_spec d w pos Hp) as (A & _ & _). destruct (A x Hx) as (v & _ & _ & _ & _ & H).
  unfold excKey, excAct. cbn [mCurPos]. rewrite <- H. reflexivity.
Qed.
Lemma agree_step o1 o2 s : agreeOn w o1 o2 -> sPos s <= length w ->
  stepStates ct w o1 brk s = stepStates ct w o2 brk s.
Proof.
  intros Ag Hp. unfold stepStates. destruct (sStop s <=? sPos s); [reflexivity|].
  assert (K : keysAt o1 (sPos s) = keysAt o2 (sPos s)).
  { destruct (keysAt_spec o1 (sPos s) Hp) as (A1 & B1). destruct (keysAt_spec o2 (sPos s) Hp) as (A2 & B2).
    apply (sorted_eq (@length N)); [exact B1|exact B2|]. intros k. rewrite A1, A2.
    assert (X : writtenAt w (sPos s) k -> exists r, w = firstn (sPos s) w ++ k ++ r).
    { intros (r & E). exists r. rewrite <- E. symmetry. apply firstn_skipn. }
    split; intros (H1 & H2 & H3 & a & H4); repeat (split; [assumption|]); exists a;
      destruct (X H3) as (r & E); apply (Ag _ _ _ a E H1); exact H4. }
  assert (E : forall d1 d2, o1 = Some d1 -> o2 = Some d2 -> FindExceptions ct w s d1 = FindExceptions ct w s d2).
  { intros d1 d2 -> ->. rewrite !FindExceptions_act. rewrite !excActs_keys by exact Hp. rewrite <- K.
    apply f_equal2; [|reflexivity]. apply f_equal2; [|reflexivity]. apply mapM_ext_in. intros k Hk.
    unfold excKey, excAct. cbn [mCurPos]. destruct (_ <? _); [reflexivity|]. apply bind_ext. intros ok.
    destruct (negb ok); [reflexivity|]. apply f_equal2; [|reflexivity].
    destruct (keysAt_spec (Some d1) (sPos s) Hp) as (A1 & _).
    apply A1 in Hk. destruct Hk as (H1 & H2 & (r & Hr) & a & H4). pose proof H4 as H5.
    apply (Ag (firstn (sPos s) w) k r a) in H5; [| |exact H1].
    - destruct H4 as (d & v & Ed & _ & Ea). destruct H5 as (d' & v' & Ed' & _ & Ea'). injection Ed as <-. injection Ed' as <-.
      change (matchGetData d1 (mkMatch (sPos s + length k) k [])) with (matchGetData d1 (mkMatch 0 k [])).
      change (matchGetData d2 (mkMatch (sPos s + length k) k [])) with (matchGetData d2 (mkMatch 0 k [])). congruence.
    - rewrite <- Hr. symmetry. apply firstn_skipn. }
  assert (N : forall d, keysAt (Some d) (sPos s) = [] -> FindExceptions ct w s d = Ok []).
  { intros d X. rewrite FindExceptions_act, excActs_keys by exact Hp. rewrite X. reflexivity. }
  destruct o1 as [d1|], o2 as [d2|].
  - rewrite (E d1 d2 eq_refl eq_refl). reflexivity.
  - rewrite (N d1 K). reflexivity.
  - rewrite (N d2 (eq_sym K)). reflexivity.
  - reflexivity.
Qed.
Lemma C58_lemma o1 o2 fuel : agreeOn w o1 o2 -> ParseU16F ct fuel w o1 brk = ParseU16F ct fuel w o2 brk.
Proof.
  intros Ag.
  assert (P : forall fuel pool acc, parseLoop ct fuel w o1 brk pool acc = parseLoop ct fuel w o2 brk pool acc).
  { induction fuel0 as [|fuel0 IH]; intros [|s pool] acc; try reflexivity. cbn [parseLoop].
    destruct (Nat.leb_spec (length w) (sPos s)) as [L|L]; [apply IH|].
    rewrite (agree_step o1 o2 s Ag) by lia. apply bind_ext. intros l. apply IH. }
  unfold ParseU16F. apply bind_ext. intros s. apply P.
Qed.
End Frame.
Theorem C58_dictionary_frame ct w brk o1 o2 fuel : agreeOn w o1 o2 ->
  ParseU16F ct fuel w o1 brk = ParseU16F ct fuel w o2 brk.
Proof. exact (C58_lemma ct w brk o1 o2 fuel). Qed.
Print Assumptions C58_dictionary_frame.
(** A text in which no listed word is written: the dictionary is as good as
    none. *)
Example C58_case : agreeOn (letters "สมร มา") (Some exDict) None /\ ~ agreeOn (letters "มากา") (Some exDict) None.
Proof.
  split.
  - intros u k r a E _. split.
    + intros (d & v & Ed & (t & Et & t1 & t2 & Hv & _) & _). exfalso. injection Ed as <-. cbn [mTrie exDict] in Et.
      injection Et as <-. assert (Hk : k = letters "กา").
      { destruct t1 as [|x [|y t1]]; [injection Hv as <- _; reflexivity|discriminate|discriminate]. }
      subst k. change (letters "กา") with [UTH_KO_KAI; UTH_SARA_AA] in E.
      change (letters "สมร มา") with [UTH_SO_SUA; UTH_MO_MA; UTH_RO_RUA; 0x20; UTH_MO_MA; UTH_SARA_AA]%N in E.
      assert (X : In UTH_KO_KAI [UTH_SO_SUA; UTH_MO_MA; UTH_RO_RUA; 0x20; UTH_MO_MA; UTH_SARA_AA]%N)
        by (rewrite E, !in_app_iff; right; left; left; reflexivity).
      cbn in X. repeat destruct X as [X|X]; try discriminate X. exact X.
    + intros (d & v & Ed & _). discriminate.
  - intros H. specialize (H (letters "มา") (letters "กา") [] (matchGetData exDict (mkMatch 0 (letters "กา") [])) eq_refl ltac:(discriminate)).
    assert (X : answers (Some exDict) (letters "กา") (matchGetData exDict (mkMatch 0 (letters "กา") []))).
    { exists exDict, 0%Z. split; [reflexivity|]. split; [|reflexivity]. eexists. split; [reflexivity|].
      exists [], []. split; [reflexivity|]. intros v' []. }
    apply H in X. destruct X as (d & v & Ed & _). discriminate.
Qed.

(** ** C59: the pronunciations of a text *)
(** The pieces of a text: a Thai word; a stretch without Thai; groups of
    consonants, each closed by a full stop; one consonant. *)
Inductive Piece := Word (w : list N) | Foreign (w : list N) | Groups (gs : list (list N)) | Letter (c : N).
Definition pieceText (p : Piece) : list N :=
  match p with Word w => w | Foreign w => w | Groups gs => abbrText gs | Letter c => [c] end.
Definition pieceOK (dict : option Dict) (p : Piece) : Prop :=
  match p with
  | Word w => Forall (fun c => thaiLetter c = true) w /\ 2 <= length w /\
      forall c, nth_error w (length w - 1) = Some c -> ~ strayVowel c
  | Foreign w => w <> [] /\ Forall (fun c => thaiLetter c = false /\ c <> 46%N) w
  | Groups gs => gs <> [] /\ Forall (fun g => 1 <= length g <= 4 /\ Forall (fun c => consonant c = true) g) gs /\
      agreeOn (abbrText gs) dict None
  | Letter c => consonant c = true /\ agreeOn [c] dict None
  end.
Inductive Spoken (dict : option Dict) : Piece -> SylString -> Prop :=
| Sp_word w s : Walks (entry dict) w 0 s (Z.of_nat (length w)) -> Spoken dict (Word w) s
| Sp_foreign w : Spoken dict (Foreign w) [SylLiteral (Z.of_nat (length w)) w]
| Sp_groups gs : Spoken dict (Groups gs) (spellOut 0 gs)
| Sp_letter c : Spoken dict (Letter c) [letterName c 1].

Lemma token_letter c : tokenChar libthai_ct c = true -> thaiLetter c = true \/ c = 46%N.
Proof.
  unfold tokenChar, thaiLetter. cbn [libthai_ct th_wcisthcons th_wcisthvowel th_wcisthtone].
  unfold UTH_KO_KAI, UTH_HO_NOKHUK, UTH_RU, UTH_LU, UTH_SARA_A, UTH_SARA_UU, UTH_SARA_E, UTH_LAKKHANGYAO, UTH_MAI_EK,
    UTH_MAI_CHATTAWA, UTH_MAITAIKHU, UTH_THANTHAKHAT.
  rewrite ?andb_true_iff, ?orb_true_iff, ?andb_true_iff, ?negb_true_iff, ?orb_true_iff, ?andb_true_iff, ?N.leb_le, ?N.eqb_eq, ?N.eqb_neq. lia.
Qed.
Lemma consonant_in c : consonant c = true -> In c (map (fun i => 0xe01 + N.of_nat i)%N (seq 0 46)).
Proof.
  unfold consonant. rewrite !andb_true_iff, !N.leb_le. intros H. apply in_map_iff. exists (N.to_nat (c - 0xe01)). split; [lia|]. apply in_seq. lia.
Qed.
Lemma letter_spoken c : consonant c = true -> pronounced libthai_ct [c] None [] [[letterName c 1]].
Proof.
  intros H. pose proof (consonant_in c H) as I. vm_compute in I.
  repeat (destruct I as [<-|I]; [first [discriminate H|exists 5; eexists; split; [vm_compute; reflexivity|vm_compute; reflexivity]]|]).
  destruct I.
Qed.
Lemma agree_pronounced ct w o1 o2 brk l : agreeOn w o1 o2 -> pronounced ct w o1 brk l -> pronounced ct w o2 brk l.
Proof. intros A (fuel & d & E & L). exists fuel, d. rewrite <- (C58_lemma ct w brk o1 o2 fuel A). auto. Qed.
Lemma agree_sym w o1 o2 : agreeOn w o1 o2 -> agreeOn w o2 o1.
Proof. intros A u k r a E N. symmetry. eauto. Qed.
Lemma pieces_spoken dict ps : dictOKo dict -> Forall (pieceOK dict) ps -> exists ls,
  Forall2 (fun w l => pronounced libthai_ct w dict [] l) (map pieceText ps) ls /\
  Forall2 (fun p l => forall s, In s l <-> Spoken dict p s) ps ls.
Proof.
  intros D. induction 1 as [|p ps Hp F (ls & IH1 & IH2)]; [exists []; split; constructor|].
  assert (X : exists l, pronounced libthai_ct (pieceText p) dict [] l /\ forall s, In s l <-> Spoken dict p s).
  { destruct p as [w|w|gs|c]; cbn [pieceText pieceOK] in *.
    - destruct Hp as (H1 & H2 & H3). destruct (C24_lemma libthai_ct w dict [] libthai_ok D ltac:(constructor) H3) as (d & f & E).
      specialize (E f (le_n f)). destruct (C25_lemma libthai_ct w dict [] f d D E) as (l & L & _).
      assert (P : pronounced libthai_ct w dict [] l) by (exists f, d; auto). exists l. split; [exact P|]. intros s.
      rewrite (C57_lemma w dict [] l H1 H2 ltac:(intros x []) D P s). split; [apply Sp_word|]. intros Y. inversion Y. assumption.
    - destruct Hp as (H1 & H2). destruct (C29_lemma libthai_ct w dict [] 1) as (d & E & L); auto.
      { intros k (c & E & T). apply nth_error_In in E. rewrite Forall_forall in H2. destruct (H2 c E) as (A & B).
        apply token_letter in T. destruct T; congruence. }
      eexists. split; [exists 1, d; split; [exact E|exact L]|]. intros s. cbn [In]. split.
      + intros [<-|[]]. constructor.
      + intros Y. inversion Y. auto.
    - destruct Hp as (H1 & H2 & H3).
      destruct (C40_lemma libthai_ct (abbrText gs) [] gs (length gs + 1) libthai_ok eq_refl H1) as (d & E & L); auto.
      exists [spellOut 0 gs]. split.
      + apply (agree_pronounced _ _ None); [apply agree_sym; exact H3|]. eexists _, d. split; [exact E|exact L].
      + intros s. cbn [In]. split; [intros [<-|[]]; constructor|]. intros Y. inversion Y. auto.
    - destruct Hp as (H1 & H2). exists [[letterName c 1]]. split.
      + apply (agree_pronounced _ _ None); [apply agree_sym; exact H2|]. apply letter_spoken. exact H1.
      + intros s. cbn [In]. split; [intros [<-|[]]; constructor|]. intros Y. inversion Y. auto. }
  destruct X as (l & A & B). exists (l :: ls). split; cbn [map]; constructor; assumption.
Qed.
Lemma spoken_in dict ps ls ss : Forall2 (fun p l => forall s, In s l <-> Spoken dict p s) ps ls ->
  Forall2 (@In SylString) ss ls <-> Forall2 (Spoken dict) ps ss.
Proof.
  intros F. revert ss. induction F as [|p l ps ls H F IH]; intros ss.
  - split; intros X; inversion X; constructor.
  - split; intros X; inversion X; subst; constructor; try (apply H; assumption); apply IH; assumption.
Qed.
Lemma C59_lemma dict ps : dictOKo dict -> ps <> [] -> Forall (pieceOK dict) ps ->
  sentence libthai_ct (map pieceText ps) ->
  exists l, pronounced libthai_ct (concat (map pieceText ps)) dict (wordEnds 0 (map pieceText ps)) l /\
    forall s, In s l <-> exists ss, Forall2 (Spoken dict) ps ss /\ s = inTurn 0 (map pieceText ps) ss.
Proof.
  intros D N F S. destruct (pieces_spoken dict ps D F) as (ls & A & B).
  destruct (C55_lemma libthai_ct dict (map pieceText ps) ls libthai_ok D) as (l & P & E); auto.
  { destruct ps; [congruence|discriminate]. }
  exists l. split; [exact P|]. intros s. rewrite E. split; intros (ss & X & Y); exists ss; split; auto;
    apply (spoken_in dict ps ls ss B); exact X.
Qed.
Theorem C59_text dict ps : dictOKo dict -> ps <> [] -> Forall (pieceOK dict) ps ->
  sentence libthai_ct (map pieceText ps) ->
  exists l, pronounced libthai_ct (concat (map pieceText ps)) dict (wordEnds 0 (map pieceText ps)) l /\
    forall s, In s l <-> exists ss, Forall2 (Spoken dict) ps ss /\ s = inTurn 0 (map pieceText ps) ss.
Proof. exact (C59_lemma dict ps). Qed.
Print Assumptions C59_text.
(** "ม.ค. สมรกา ก abc" *)
Example C59_case : let ps := [Groups [letters "ม"; letters "ค"]; Foreign (letters " "); Word (letters "สมร"); Word (letters "กา");
    Foreign (letters " "); Letter UTH_KO_KAI; Foreign (letters " abc")] in
  dictOKo (Some exDict) /\ ps <> [] /\ Forall (pieceOK (Some exDict)) ps /\ sentence libthai_ct (map pieceText ps) /\
  concat (map pieceText ps) = letters "ม.ค. สมรกา ก abc".
Proof.
  assert (A : forall w, existsb (N.eqb UTH_SARA_AA) w = false -> agreeOn w (Some exDict) None).
  { intros w H u k r a E _. split; [|intros (d & v & Ed & _); discriminate].
    intros (d & v & Ed & (t & Et & t1 & t2 & Hv & _) & _). exfalso. injection Ed as <-. cbn [mTrie exDict] in Et.
    injection Et as <-. assert (Hk : k = letters "กา").
    { destruct t1 as [|x [|y t1]]; [injection Hv as <- _; reflexivity|discriminate|discriminate]. }
    subst k. rewrite <- not_true_iff_false in H. apply H. apply existsb_exists. exists UTH_SARA_AA. split; [|apply N.eqb_refl].
    rewrite E, !in_app_iff. right; left. right; left. reflexivity. }
  cbv zeta. split; [exact exDict_ok|]. split; [discriminate|]. split; [|split; [|vm_compute; reflexivity]].
  - repeat (apply Forall_cons; [cbn [pieceOK]|]); try apply Forall_nil.
    + split; [discriminate|]. split; [|apply A; vm_compute; reflexivity].
      repeat (apply Forall_cons; [split; [vm_compute; lia|repeat constructor]|]). apply Forall_nil.
    + split; [discriminate|]. repeat (apply Forall_cons; [split; [vm_compute; reflexivity|discriminate]|]). apply Forall_nil.
    + split; [letters_ok|]. split; [vm_compute; lia|]. intros c H. vm_compute in H. injection H as <-.
      intros [X|[X|[X|X]]]; discriminate.
    + split; [letters_ok|]. split; [vm_compute; lia|]. intros c H. vm_compute in H. injection H as <-.
      intros [X|[X|[X|X]]]; discriminate.
    + split; [discriminate|]. repeat (apply Forall_cons; [split; [vm_compute; reflexivity|discriminate]|]). apply Forall_nil.
    + split; [reflexivity|]. apply A. reflexivity.
    + split; [discriminate|]. repeat (apply Forall_cons; [split; [vm_compute; reflexivity|discriminate]|]). apply Forall_nil.
  - cbn [map pieceText sentence].
    repeat match goal with
    | |- _ /\ _ => split
    | |- _ <> [] => vm_compute; discriminate
    | |- follows _ _ _ => apply followsb_sound; vm_compute; reflexivity
    | |- True => exact I
    end.
Qed.

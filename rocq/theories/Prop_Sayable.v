(** Prop_Sayable.v - property C101: exactly which syllables the parser can find
    in a text. *)
From Coq Require Import String List NArith ZArith Bool Lia Arith Sorted.
From Verif Require Import Base ThUni ThCons Syl Utf Lattice Dag DagProofs PronDag Dict Parser.
From Verif Require Import Spec OrderProofs DictProofs Prop_Syl ParserSpec ParserFacts ParserInv ParserResult ParserListed ParserDict ParserPool ParserProduct.
From Verif Require Import Prop_Output Prop_Parser Grammar GrammarWord TextGrammar TextProof Prop_Every Prop_Grammar Prop_Head.
From Verif Require GrammarIff.
Import ListNotations.
Local Open Scope list_scope.
Local Open Scope bool_scope.
Local Open Scope nat_scope.

(** ** Vocabulary *)
(** Initial sounds with the classes of the letters that write them. *)
Definition onsets : list (EInitConsSound * ESecInitCons * list EInitConsClass) :=
  [ (KA, SEC_NONE, [MID]); (JA, SEC_NONE, [MID]); (DA, SEC_NONE, [MID]); (TA, SEC_NONE, [MID]); (BA, SEC_NONE, [MID]);
    (PA, SEC_NONE, [MID]); (ICS_A, SEC_NONE, [MID]);
    (KHA, SEC_NONE, [HIGH; LOWP]); (CHA, SEC_NONE, [HIGH; LOWP]); (THA, SEC_NONE, [HIGH; LOWP]); (PHA, SEC_NONE, [HIGH; LOWP]);
    (FA, SEC_NONE, [HIGH; LOWP]); (SA, SEC_NONE, [HIGH; LOWP]); (HA, SEC_NONE, [HIGH; LOWP]);
    (NGA, SEC_NONE, [HIGH; MID; LOWP; LOWS]); (YA, SEC_NONE, [HIGH; MID; LOWP; LOWS]); (NA, SEC_NONE, [HIGH; MID; LOWP; LOWS]);
    (MA, SEC_NONE, [HIGH; MID; LOWP; LOWS]); (RA, SEC_NONE, [HIGH; MID; LOWP; LOWS]); (LA, SEC_NONE, [HIGH; MID; LOWP; LOWS]);
    (WA, SEC_NONE, [HIGH; MID; LOWP; LOWS]);
    (KA, SEC_RA, [MID]); (DA, SEC_RA, [MID]); (TA, SEC_RA, [MID]); (BA, SEC_RA, [MID]); (PA, SEC_RA, [MID]);
    (KHA, SEC_RA, [HIGH; LOWP]); (THA, SEC_RA, [LOWP]); (PHA, SEC_RA, [LOWP]); (FA, SEC_RA, [LOWP]);
    (KA, SEC_LA, [MID]); (BA, SEC_LA, [MID]); (PA, SEC_LA, [MID]); (KHA, SEC_LA, [HIGH; LOWP]); (PHA, SEC_LA, [HIGH; LOWP]); (FA, SEC_LA, [LOWP]);
    (KA, SEC_WA, [MID]); (KHA, SEC_WA, [HIGH; LOWP]) ].
(** Initial sounds written with RU, and whether RU is read "ri" after them. *)
Definition ruOnsets : list (EInitConsSound * ESecInitCons * list EInitConsClass * bool) :=
  [ (SA, SEC_NONE, [HIGH], true); (RA, SEC_NONE, [HIGH; LOWS], true);
    (KA, SEC_RA, [MID], true); (KHA, SEC_RA, [HIGH; LOWP], true); (NGA, SEC_RA, [LOWS], true); (JA, SEC_RA, [MID], true);
    (CHA, SEC_RA, [HIGH; LOWP], true); (YA, SEC_RA, [LOWS], true); (DA, SEC_RA, [MID], true); (TA, SEC_RA, [MID], true);
    (THA, SEC_RA, [HIGH; LOWP], true); (NA, SEC_RA, [LOWS], true); (BA, SEC_RA, [MID], true); (PA, SEC_RA, [MID], true);
    (PHA, SEC_RA, [HIGH; LOWP], true); (FA, SEC_RA, [HIGH; LOWP], true); (MA, SEC_RA, [LOWS], true); (RA, SEC_RA, [LOWS], true);
    (LA, SEC_RA, [LOWS], true); (WA, SEC_RA, [LOWS], false); (SA, SEC_RA, [HIGH; LOWP], true); (HA, SEC_RA, [LOWP], true);
    (ICS_A, SEC_RA, [MID], true) ].
Definition oneOfV (v : EVowel) (l : list EVowel) : bool := existsb (Z.eqb v) l.
Definition open (e : EEndConsClass) : bool := ec_eqb EC_NONE e.
(** Vowel and final: short diphthongs and short OE are not closed, no final Y
    follows I, II or O, no final W follows O; short E and short AU take no
    tone mark before a final. *)
Definition rime (v : EVowel) (e : EEndConsClass) (marked : bool) : bool :=
  oneOfV v vowelCodes &&
  (open e || negb (oneOfV v [V_OE; V_IA; V_UEA; V_UA]) && negb (ec_eqb KOEY e && oneOfV v [V_I; V_II; V_O]) &&
     negb (ec_eqb KOEW e && oneOfV v [V_O]) && negb (marked && oneOfV v [V_E; V_AU])).
(** After RU: short O is not closed, and the letter AA needs a tone mark before
    it; "ri" may have a final Y. *)
Definition ruRime (ri : bool) (v : EVowel) (e : EEndConsClass) (marked : bool) : bool :=
  rime v e marked && negb (oneOfV v [V_O] && negb (open e)) &&
    (marked || negb (oneOfV v [V_AA]) && negb (oneOfV v [V_AU] && open e)) ||
  ri && oneOfV v [V_I] && ec_eqb KOEY e.
Definition marked (m : ETone) : bool := negb (tone_eqb SAMAN m).
Definition CanSay (x : Said) : Prop :=
  exists k m, m <> T_INVALID /\ toned k m (dead (saVowel x) (saFinal x)) (short (saVowel x)) (saTone x) /\
    ((exists ks, In (saSound x, saSecond x, ks) onsets /\ In k ks /\ rime (saVowel x) (saFinal x) (marked m) = true /\
        (saSecond x = SEC_WA -> saVowel x = V_O -> saFinal x = EC_NONE)) \/
     (exists ks ri, In (saSound x, saSecond x, ks, ri) ruOnsets /\ In k ks /\ ruRime ri (saVowel x) (saFinal x) (marked m) = true)).

(** ** What is read can be said *)
Definition Onset (s : EInitConsSound) (s2 : ESecInitCons) (k : EInitConsClass) : Prop := exists ks, In (s, s2, ks) onsets /\ In k ks.
Definition RuOnset (s : EInitConsSound) (s2 : ESecInitCons) (k : EInitConsClass) (ri : bool) : Prop := exists ks, In (s, s2, ks, ri) ruOnsets /\ In k ks.
Definition onsetb (s : EInitConsSound) (s2 : ESecInitCons) (k : EInitConsClass) : bool :=
  existsb (fun p => ics_eqb s (fst (fst p)) && Z.eqb s2 (snd (fst p)) && existsb (ic_eqb k) (snd p)) onsets.
Definition ruOnsetb (s : EInitConsSound) (s2 : ESecInitCons) (k : EInitConsClass) (ri : bool) : bool :=
  existsb (fun p => ics_eqb s (fst (fst (fst p))) && Z.eqb s2 (snd (fst (fst p))) && existsb (ic_eqb k) (snd (fst p)) && Bool.eqb ri (snd p)) ruOnsets.
Lemma onsetb_ok s s2 k : onsetb s s2 k = true -> Onset s s2 k.
Proof.
  unfold onsetb. rewrite existsb_exists. intros (((a & b) & ks) & I & H). cbn [fst snd] in H. rewrite !andb_true_iff in H. destruct H as ((A & B) & C).
  apply ics_eqb_eq in A. apply Z.eqb_eq in B. apply existsb_exists in C. destruct C as (k' & K & E). apply ic_eqb_eq in E. subst. exists ks. auto.
Qed.
Lemma ruOnsetb_ok s s2 k ri : ruOnsetb s s2 k ri = true -> RuOnset s s2 k ri.
Proof.
  unfold ruOnsetb. rewrite existsb_exists. intros ((((a & b) & ks) & i) & I & H). cbn [fst snd] in H. rewrite !andb_true_iff in H. destruct H as (((A & B) & C) & D).
  apply ics_eqb_eq in A. apply Z.eqb_eq in B. apply eqb_prop in D. apply existsb_exists in C. destruct C as (k' & K & E). apply ic_eqb_eq in E. subst. exists ks. auto.
Qed.
Definition consLetters : list N := filter consonant (map N.of_nat (seq 0xe01 46)).
Lemma consLetters_all c : consonant c = true -> In c consLetters.
Proof.
  intros H. unfold consLetters. apply filter_In. split; [|exact H].
  unfold consonant in H. rewrite !andb_true_iff, !N.leb_le in H. destruct H as (((A & B) & _) & _).
  apply in_map_iff. exists (N.to_nat c). rewrite N2Nat.id. split; [reflexivity|]. apply in_seq. lia.
Qed.
Lemma cons_sweep (f : N -> bool) : forallb f consLetters = true -> forall c, consonant c = true -> f c = true.
Proof. intros H c C. rewrite forallb_forall in H. exact (H c (consLetters_all c C)). Qed.
Lemma list_sweep (f : N -> bool) s : forallb f (letters s) = true -> forall c, oneOf s c -> f c = true.
Proof. intros H c C. rewrite forallb_forall in H. exact (H c C). Qed.
(** [sweepOn H f]: the fact [f c = true] from where [c] is taken. *)
Ltac sweepOn H f := first [apply (list_sweep f) with (2 := H)|apply (cons_sweep f) with (2 := H)]; vm_compute; reflexivity.
Lemma one_onset c : consonant c = true -> Onset (soundOf c) SEC_NONE (classOf c).
Proof. intros H. apply onsetb_ok. sweepOn H (fun c => onsetb (soundOf c) SEC_NONE (classOf c)). Qed.
Lemma sonorant_onset d k : consonant d = true -> classOf d = LOWS -> k <> IC_INVALID -> Onset (soundOf d) SEC_NONE k.
Proof.
  intros H E K. apply onsetb_ok.
  assert (X : negb (ic_eqb LOWS (classOf d)) || forallb (onsetb (soundOf d) SEC_NONE) [HIGH; MID; LOWP; LOWS] = true)
    by (sweepOn H (fun d => negb (ic_eqb LOWS (classOf d)) || forallb (onsetb (soundOf d) SEC_NONE) [HIGH; MID; LOWP; LOWS])).
  rewrite E in X. cbn [ic_eqb negb orb] in X. change (negb (ic_eqb LOWS LOWS)) with false in X. cbn [orb] in X.
  rewrite forallb_forall in X. apply X. destruct k; cbn; tauto.
Qed.
Definition unreadRu : string := "กตทปสศวนคพห".
Lemma initial_kind lk t o t1 : InitialAt lk t o t1 ->
  (forall v, oVowel o = Some v -> (v = V_I \/ v = V_UE) /\ noLong t1) /\
  (Onset (oSound o) (oSecond o) (oClass o) /\ oVowel o <> Some V_I \/
   exists ri, RuOnset (oSound o) (oSecond o) (oClass o) ri /\ exists v, oVowel o = Some v /\ (v = V_I -> ri = true)).
Proof.
  intros H. destruct H as [c t C|c t _ C _|c t C _|c t _ C|c t _ C|d t C E _|c d t C C' _|c t C L|c t C L|c t C L|c t C L|c t C L|c x t C E|c v t C N L V|c v t C N L V]; cbn [oVowel oSound oSecond oClass plainOf];
    (split; [intros u U; try discriminate U; injection U as <-; try (split; [auto|assumption])|]).
  - left; split; [|intros X; discriminate X]. apply one_onset, C.
  - left; split; [|intros X; discriminate X]. apply onsetb_ok. sweepOn C (fun c => onsetb (soundOf c) SEC_NONE (classOf c)).
  - left; split; [|intros X; discriminate X]. apply onsetb_ok. destruct C as [C|(_ & C)]; sweepOn C (fun c => onsetb (soundOf c) SEC_RA (classOf c)).
  - left; split; [|intros X; discriminate X]. apply onsetb_ok. sweepOn C (fun c => onsetb (soundOf c) SEC_LA (classOf c)).
  - left; split; [|intros X; discriminate X]. apply onsetb_ok. sweepOn C (fun c => onsetb (soundOf c) SEC_WA (classOf c)).
  - left; split; [|intros X; discriminate X]. apply sonorant_onset; [exact C|exact E|discriminate].
  - left; split; [|intros X; discriminate X]. destruct (classOf d) eqn:E; try (rewrite <- E; apply one_onset, C'). apply sonorant_onset; [exact C'|exact E|apply classOf_valid, C].
  - right. exists true. split; [apply ruOnsetb_ok; sweepOn C (fun c => ruOnsetb (soundOf c) SEC_RA (classOf c) true)|eauto].
  - right. exists true. split; [apply ruOnsetb_ok; sweepOn C (fun c => ruOnsetb (soundOf c) SEC_NONE (classOf c) true)|eauto].
  - right. exists true. split; [apply ruOnsetb_ok; sweepOn C (fun c => ruOnsetb RA SEC_NONE (classOf c) true)|eauto].
  - right. exists false. split; [apply ruOnsetb_ok; sweepOn C (fun c => ruOnsetb (soundOf c) SEC_RA (classOf c) false)|].
    exists V_UE. split; [reflexivity|]. intros X. discriminate X.
  - right. exists true. split; [apply ruOnsetb_ok; reflexivity|]. eauto.
  - split; [auto|]. destruct E as (E & _). split; intros ->; discriminate E.
  - left; split; [|intros X; discriminate X]. apply onsetb_ok. sweepOn C (fun c => onsetb (soundOf c) SEC_RA (classOf c)).
  - right. exists true. split; [|eauto]. apply ruOnsetb_ok.
    assert (X : memN c (letters unreadRu) || ruOnsetb (soundOf c) SEC_RA (classOf c) true = true)
      by (sweepOn C (fun c => memN c (letters unreadRu) || ruOnsetb (soundOf c) SEC_RA (classOf c) true)).
    apply orb_prop in X. destruct X as [X|X]; [|exact X]. apply memN_In in X. destruct (N X).
  - right. exists true. split; [apply ruOnsetb_ok; reflexivity|]. eauto.
Qed.
Lemma final_of_y c : consonant c = true -> finalOf c = KOEY -> c = UTH_YO_YAK.
Proof.
  intros C E. assert (X : negb (ec_eqb KOEY (finalOf c)) || (c =? UTH_YO_YAK)%N = true) by (sweepOn C (fun c => negb (ec_eqb KOEY (finalOf c)) || (c =? UTH_YO_YAK)%N)).
  rewrite E in X. cbn [ec_eqb] in X. change (negb (ec_eqb KOEY KOEY)) with false in X. apply N.eqb_eq, X.
Qed.
Lemma final_of_w c : consonant c = true -> finalOf c = KOEW -> c = UTH_WO_WAEN.
Proof.
  intros C E. assert (X : negb (ec_eqb KOEW (finalOf c)) || (c =? UTH_WO_WAEN)%N = true) by (sweepOn C (fun c => negb (ec_eqb KOEW (finalOf c)) || (c =? UTH_WO_WAEN)%N)).
  rewrite E in X. change (negb (ec_eqb KOEW KOEW)) with false in X. apply N.eqb_eq, X.
Qed.
Definition finalFacts (no : list N) (e : EEndConsClass) : Prop :=
  e <> EC_NONE /\ (In UTH_YO_YAK no -> e <> KOEY) /\ (In UTH_WO_WAEN no -> e <> KOEW).
Lemma cons_facts no c : canEnd c -> ~ In c no -> finalFacts no (finalOf c).
Proof.
  intros (C & E) N. split; [exact E|]. split; intros I F; apply N.
  - rewrite (final_of_y c C F). exact I.
  - rewrite (final_of_w c C F). exact I.
Qed.
Lemma final_facts no t e r : Final no t e r -> finalFacts no e.
Proof. intros [c t' C N]. apply cons_facts; assumption. Qed.
Lemma shared_facts no t e r b : FinalOrShared no t e r b -> finalFacts no e.
Proof. intros H. destruct H; try (apply cons_facts; assumption). eapply final_facts; eassumption. Qed.
Definition rimeFacts (o : Initial) (t : list N) (v : EVowel) (e : EEndConsClass) (m : ETone) : Prop :=
  (rime v e (marked m) = true \/ oVowel o = Some V_I /\ v = V_I /\ e = KOEY) /\
  (v = V_O -> e <> EC_NONE -> oVowel o = None /\ oSecond o <> SEC_WA) /\
  (noLong t -> m = SAMAN -> v <> V_AA /\ ~ (v = V_AU /\ e = EC_NONE)) /\ m <> T_INVALID.
Lemma mark_facts t m t' : mark t = (m, t') -> m <> T_INVALID /\ (noLong t -> m = SAMAN -> noLong t').
Proof.
  unfold mark. destruct t as [|c t]; [intros H; injection H as <- <-; split; [discriminate|auto]|].
  destruct (isMark c) eqn:E; intros H; injection H as <- <-; (split; [|intros L X]); try discriminate; try exact L.
  - unfold markOf. destruct (c =? 0xe48)%N, (c =? 0xe49)%N, (c =? 0xe4a)%N; discriminate.
  - exfalso. revert X. unfold markOf. destruct (c =? 0xe48)%N, (c =? 0xe49)%N, (c =? 0xe4a)%N; discriminate.
Qed.
Ltac facts := repeat match goal with
  | H : Final _ _ ?e _ |- _ => apply final_facts in H; destruct H as (? & ? & ?)
  | H : FinalOrShared _ _ ?e _ _ |- _ => apply shared_facts in H; destruct H as (? & ? & ?)
  | H : mark _ = (_, _) |- _ => apply mark_facts in H; destruct H as (? & ?)
  end.
Ltac nolong := let L := fresh in let M := fresh in intros L M; try subst; split;
  [first [intros X; discriminate X|exfalso; match goal with H : noLong _ -> _ -> noLong (UTH_SARA_AA :: _) |- _ => destruct (H L eq_refl) as (_ & X); apply X; reflexivity end]
  |intros (X & Xe); first [discriminate X|congruence|exfalso; match goal with H : noLong _ -> _ -> noLong (UTH_SARA_AA :: _) |- _ => destruct (H L eq_refl) as (_ & X'); apply X'; reflexivity end]].
Ltac rimeok := match goal with |- rime ?v ?e (marked ?m) = true => generalize (marked m); intros []; try reflexivity; destruct e; try reflexivity; try congruence end.
Lemma rime_facts lk o t v e m r b : (forall u, oVowel o = Some u -> (u = V_I \/ u = V_UE)) ->
  Rime lk o t v e m r b -> rimeFacts o t v e m.
Proof.
  intros U H. unfold rimeFacts. destruct H; facts.
  all: try (repeat match goal with H : In (_, _) _ |- _ => destruct H as [H|H]; [injection H as <- <-|] | H : In _ [] |- _ => destruct H end;
    split; [left; rimeok|]; split; [intros X; discriminate X|]; split; [nolong|first [assumption|discriminate]]; fail).
  - repeat (destruct H as [H|H]; [injection H as <- <-; split; [left; rimeok|]; split; [intros X; discriminate X|]; split; [nolong|assumption]|]). exact (False_ind _ H).
  - assert (Y : oneOfV v [V_I; V_II] = true -> e <> KOEY).
    { intros Y. repeat (destruct H as [H|H]; [injection H as <- <-; first [discriminate Y|match goal with K : In _ _ -> e <> KOEY |- _ => apply K; vm_compute; tauto end]|]). exact (False_ind _ H). }
    repeat (destruct H as [H|H]; [injection H as <- <-; split; [left; rimeok; exfalso; apply Y; reflexivity|]; split; [intros X; discriminate X|]; split; [nolong|discriminate]|]). exact (False_ind _ H).
  - assert (Y : oneOfV v [V_I; V_II] = true -> e <> KOEY).
    { intros Y. repeat (destruct H as [H|H]; [injection H as <- <-; first [discriminate Y|match goal with K : In _ _ -> e <> KOEY |- _ => apply K; vm_compute; tauto end]|]). exact (False_ind _ H). }
    repeat (destruct H as [H|H]; [injection H as <- <-; split; [left; rimeok; exfalso; apply Y; reflexivity|]; split; [intros X; discriminate X|]; split; [nolong|assumption]|]). exact (False_ind _ H).
  - split; [left; change (marked SAMAN) with false; destruct e; try reflexivity; congruence|]. split; [intros X; discriminate X|].
    split; [intros _ _; split; [intros X; discriminate X|intros (_ & X); congruence]|discriminate].
  - split; [left; rimeok; exfalso; match goal with K : In ?c _ -> ?e <> ?e |- _ => apply K; [vm_compute; tauto|reflexivity] end|].
    split; [auto|]. split; [nolong|assumption].
  - destruct (U _ H0) as [->| ->]; (split; [left; rimeok|]; split; [intros X; discriminate X|]; split; [nolong|assumption]).
  - destruct (U _ H0) as [->| ->].
    + split; [destruct (ec_eqb KOEY e) eqn:Y; [right; apply ec_eqb_eq in Y; auto|left; rimeok; discriminate Y]|]. split; [intros X; discriminate X|]. split; [nolong|assumption].
    + split; [left; rimeok|]. split; [intros X; discriminate X|]. split; [nolong|assumption].
Qed.
Lemma rimeE_facts o t v e m r b : RimeE o t v e m r b -> rimeFacts o t v e m.
Proof.
  intros H. unfold rimeFacts. destruct H; facts.
  all: try (split; [left; rimeok|]; split; [intros X; discriminate X|]; split; [nolong|first [assumption|discriminate]]; fail).
  - split; [left; rimeok|]. split; [intros X; discriminate X|]. assert (M : markOf c <> SAMAN /\ markOf c <> T_INVALID).
    { unfold markOf. destruct (c =? 0xe48)%N, (c =? 0xe49)%N, (c =? 0xe4a)%N; split; discriminate. }
    destruct M as (A & B). split; [intros _ X; destruct (A X)|exact B].
  - split; [left; change (marked SAMAN) with false; destruct e; try reflexivity; congruence|]. split; [intros X; discriminate X|].
    split; [nolong|discriminate].
Qed.
Lemma rimeL_facts o l t v e m r b : RimeL l t v e m r b -> rimeFacts o t v e m.
Proof.
  intros H. unfold rimeFacts. destruct H; facts.
  all: try (split; [left; rimeok|]; split; [intros X; first [discriminate X|intros Y; congruence]|]; split; [nolong|first [assumption|discriminate]]; fail).
Qed.
Lemma said_facts lk t o t1 v e m x : InitialAt lk t o t1 -> rimeFacts o t1 v e m -> Sounds o v e m x -> CanSay x.
Proof.
  intros I (R & O & L & M) [tn T]. destruct (initial_kind _ _ _ _ I) as (U & K).
  exists (oClass o), m. cbn [saSound saSecond saVowel saFinal saTone]. split; [exact M|]. split; [exact T|].
  destruct K as [((ks & A & B) & N)|(ri & (ks & A & B) & u & Eu & Ri)]; [left|right].
  - exists ks. split; [exact A|]. split; [exact B|]. split; [destruct R as [R|(X & _)]; [exact R|destruct (N X)]|].
    intros W V. destruct (open e) eqn:Oe; [symmetry; apply ec_eqb_eq, Oe|]. exfalso. apply (proj2 (O V ltac:(intros ->; discriminate Oe))). exact W.
  - exists ks, ri. split; [exact A|]. split; [exact B|]. destruct (U u Eu) as (Vu & Nl). specialize (L Nl). unfold ruRime.
    destruct R as [R|(X & -> & ->)].
    + rewrite R. cbn [andb].
      assert (P : negb (oneOfV v [V_O] && negb (open e)) = true).
      { apply negb_true_iff, andb_false_iff. destruct (open e) eqn:Oe; [right; reflexivity|left]. destruct (oneOfV v [V_O]) eqn:Ov; [exfalso|reflexivity].
        unfold oneOfV in Ov. cbn [existsb] in Ov. rewrite orb_false_r in Ov. apply Z.eqb_eq in Ov. destruct (O Ov ltac:(intros ->; discriminate Oe)) as (X & _). congruence. }
      rewrite P. cbn [andb].
      assert (Q : marked m || negb (oneOfV v [V_AA]) && negb (oneOfV v [V_AU] && open e) = true).
      { unfold marked. destruct (tone_eqb SAMAN m) eqn:Em; [|reflexivity]. apply tone_eqb_eq in Em. destruct (L (eq_sym Em)) as (X & Y). cbn [negb orb].
        unfold oneOfV. cbn [existsb]. rewrite !orb_false_r. apply andb_true_iff. split; apply negb_true_iff.
        - apply Z.eqb_neq, X.
        - apply andb_false_iff. destruct (open e) eqn:Oe; [left|right; reflexivity]. apply Z.eqb_neq. intros Z. apply Y. split; [exact Z|]. symmetry. apply ec_eqb_eq, Oe. }
      rewrite Q. reflexivity.
    + rewrite (Ri ltac:(congruence)). apply orb_true_r.
Qed.
Lemma saysA_can c p : consonant c = true -> SaysA c p -> CanSay p.
Proof.
  intros C [t T]. exists (classOf c), SAMAN. cbn [saSound saSecond saVowel saFinal saTone]. split; [discriminate|]. split; [exact T|]. left.
  destruct (one_onset c C) as (ks & A & B). exists ks. split; [exact A|]. split; [exact B|]. split; [reflexivity|intros X; discriminate X].
Qed.
Lemma saysAuu_can c p : consonant c = true -> SaysAuu c p -> CanSay p.
Proof.
  intros C [t T]. exists (classOf c), SAMAN. cbn [saSound saSecond saVowel saFinal saTone]. split; [discriminate|]. split; [exact T|]. left.
  destruct (one_onset c C) as (ks & A & B). exists ks. split; [exact A|]. split; [exact B|]. split; [reflexivity|intros X; discriminate X].
Qed.
Lemma low_can s k v e m t : Onset s SEC_NONE k -> rime v e (marked m) = true -> m <> T_INVALID -> toned k m (dead v e) (short v) t -> CanSay (say s SEC_NONE v e t).
Proof.
  intros (ks & A & B) R M T. exists k, m. cbn [saSound saSecond saVowel saFinal saTone]. split; [exact M|]. split; [exact T|]. left. exists ks.
  repeat (split; [assumption|]). intros X. discriminate X.
Qed.
Lemma ra_can v : v = V_A \/ v = V_I \/ v = V_UE -> CanSay (ra v).
Proof.
  intros V. unfold ra. apply (low_can RA LOWS v EC_NONE SAMAN TRI); [apply onsetb_ok; reflexivity|destruct V as [->|[->| ->]]; reflexivity|discriminate|].
  left. destruct V as [->|[->| ->]]; apply TB_low_dead_short; auto.
Qed.
Lemma aura_cons c : oneOf "กคจทธนบปภมวสหอ" c -> consonant c = true.
Proof. intros H. sweepOn H consonant. Qed.
Lemma leads_can lk t o t1 p y : InitialAt lk t o t1 -> Leads o p -> p = Some y -> CanSay y.
Proof.
  intros I L E. destruct L as [_|c q Lo S]; [discriminate E|]. injection E as <-. apply (saysA_can c); [|exact S].
  destruct I as [c0 t C|c0 t _ C _|c0 t C _|c0 t _ C|c0 t _ C|d t C X _|c0 d t C C' _|c0 t C _|c0 t C _|c0 t C _|c0 t C _|c0 t C _|c0 x t C X|c0 v t C N _ V|c0 v t C N _ V];
    cbn [oLead plainOf] in Lo; try discriminate Lo; injection Lo as <-; try exact C.
  - sweepOn C consonant.
  - sweepOn C consonant.
Qed.
Lemma shared_first no c t e r b : FinalOrShared no (c :: t) e r b -> e = finalOf c.
Proof. intros H. inversion H as [t0 e0 r0 F| | |]; subst; try reflexivity. inversion F; reflexivity. Qed.
Lemma reads_can lk t p x r b : Reads lk t p x r b -> CanSay x /\ forall y, p = Some y -> CanSay y.
Proof.
  intros H. destruct H as [t o t1 v e m r b p x I R L S|t o t1 v e m r b p x I R L S|l t o t1 v e m r b p x I R L S|t p x r I|c t v e r b tn C R T].
  - split; [|intros y; eapply leads_can; eassumption]. eapply said_facts; [exact I| |exact S]. eapply rime_facts; [|exact R].
    intros u Eu. exact (proj1 (proj1 (initial_kind _ _ _ _ I) u Eu)).
  - split; [|intros y; eapply leads_can; eassumption]. eapply said_facts; [exact I| |exact S]. eapply rimeE_facts, R.
  - split; [|intros y; eapply leads_can; eassumption]. eapply said_facts; [exact I| |exact S]. eapply rimeL_facts, R.
  - destruct I as [c x t p C _ _ S|x t p S|x t p S|x t p _ S|c x t p C _ S|c x t p C _ _ _ S];
      (split; [try (apply ra_can; tauto)|intros y E; try discriminate E; injection E as <-]).
    + exact (saysAuu_can c p (aura_cons c C) S).
    + exact (saysAuu_can UTH_BO_BAIMAI p eq_refl S).
    + exact (saysAuu_can UTH_CHO_CHAN p eq_refl S).
    + exact (saysAuu_can UTH_BO_BAIMAI p eq_refl S).
    + exact (saysA_can c p C S).
    + exact (saysA_can c p C S).
  - split; [|intros y E; discriminate E].
    assert (On : Onset (ruSound c) SEC_NONE LOWS) by (destruct C as [->| ->]; apply onsetb_ok; reflexivity).
    destruct R as [|x t X|c' t C' _|c' t e r b _ F].
    + eapply low_can; [exact On| | |exact T]; [reflexivity|discriminate].
    + eapply low_can; [exact On| | |exact T]; [reflexivity|discriminate].
    + eapply low_can; [exact On| | |exact T]; [reflexivity|discriminate].
    + assert (X : memN c' (letters "ณทษ") = true -> e <> KOEY).
      { intros M Y. apply memN_In in M. subst e. assert (Z : finalOf c' = KOEY) by (symmetry; exact (shared_first _ _ _ _ _ _ F)).
        assert (W : ec_eqb KOEY (finalOf c') = false) by (apply negb_true_iff; sweepOn M (fun c => negb (ec_eqb KOEY (finalOf c)))). rewrite Z in W. discriminate W. }
      eapply low_can; [exact On| | |exact T]; [|discriminate]. change (marked SAMAN) with false.
      destruct (memN c' (letters "ณทษ")); destruct e; try reflexivity. exfalso. apply X; reflexivity.
Qed.

(** ** What can be said is read *)
Definition finL (e : EEndConsClass) : list N :=
  match e with EC_NONE => [] | KOK => [UTH_KO_KAI] | KOT => [UTH_DO_DEK] | KOP => [UTH_BO_BAIMAI] | KONG => [UTH_NGO_NGU] | KON => [UTH_NO_NU]
  | KOM => [UTH_MO_MA] | KOEY => [UTH_YO_YAK] | KOEW => [UTH_WO_WAEN] end.
Definition markL (m : ETone) : list N :=
  match m with EK => [UTH_MAI_EK] | THO => [UTH_MAI_THO] | TRI => [UTH_MAI_TRI] | CHATTAWA => [UTH_MAI_CHATTAWA] | _ => [] end.
Definition unmarkedHead (t : list N) : bool := match t with c :: _ => negb (isMark c) | [] => true end.
Lemma mark_L m t : m <> T_INVALID -> unmarkedHead t = true -> mark (markL m ++ t) = (m, t).
Proof.
  intros M U. destruct m; try reflexivity; [congruence|]. cbn [markL app]. unfold mark. destruct t as [|c t]; [reflexivity|].
  cbn [unmarkedHead] in U. apply negb_true_iff in U. rewrite U. reflexivity.
Qed.
Lemma silentAny_nil : silentAny [] = []. Proof. reflexivity. Qed.
Lemma fin_final no e : e <> EC_NONE -> forallb (fun c => negb (memN c no)) (finL e) = true -> Final no (finL e) e [].
Proof.
  intros N H. assert (X : forall c, consonant c = true -> finalOf c = e -> memN c no = false -> Final no [c] e []).
  { intros c C E I. rewrite <- E. rewrite <- silentAny_nil at 2. apply F_cons; [split; [exact C|congruence]|]. intros J. apply memN_In in J. congruence. }
  destruct e; [congruence|..]; cbn [finL forallb] in *; rewrite andb_true_r in H; apply negb_true_iff in H; apply X; try reflexivity; exact H.
Qed.
(** A spelling: sign before the initial, letters before the mark, letters after
    it. *)
Definition spelling (v : EVowel) (e : EEndConsClass) (m : ETone) (lead : list N) (g : list N) : Prop :=
  forall o, notLedA o -> (v = V_O -> e <> EC_NONE -> oVowel o = None /\ oSecond o <> SEC_WA) ->
  lead = [] /\ Rime false o g v e m [] false \/ lead = [UTH_SARA_E] /\ RimeE o g v e m [] false \/
  (exists l, lead = [l] /\ leadVowel l = true /\ RimeL l g v e m [] false).
Definition goodTail (v : EVowel) (e : EEndConsClass) (m : ETone) (lead g : list N) : Prop :=
  spelling v e m lead g /\ noRo g /\ Forall (fun c => thaiLetter c = true) (lead ++ g) /\
  (noLong g \/ m = SAMAN /\ (v = V_AA \/ v = V_AU /\ e = EC_NONE \/ v = V_A /\ e = KOEW)) /\
  (lead ++ g <> []) /\ (forall c a, g = a ++ [c] -> leadVowel c = false).
Definition goodb (v : EVowel) (e : EEndConsClass) (m : ETone) (lead g : list N) : bool :=
  match g with c :: _ => negb (c =? UTH_RO_RUA)%N | [] => true end && forallb thaiLetter (lead ++ g) &&
  (match g with c :: _ => negb (c =? UTH_LAKKHANGYAO)%N && negb (c =? UTH_SARA_AA)%N | [] => true end ||
   negb (marked m) && (oneOfV v [V_AA] || oneOfV v [V_AU] && open e || oneOfV v [V_A] && ec_eqb KOEW e)) &&
  match lead ++ g with [] => false | _ => true end && forallb (fun c => negb (leadVowel c)) g.
Lemma oneOfV1 v u : oneOfV v [u] = true -> v = u.
Proof. unfold oneOfV. cbn [existsb]. rewrite orb_false_r. apply Z.eqb_eq. Qed.
Lemma good_tail v e m lead g : spelling v e m lead g -> m <> T_INVALID -> goodb v e m lead g = true -> goodTail v e m lead g.
Proof.
  intros S M H. unfold goodb in H. rewrite !andb_true_iff in H. destruct H as ((((A & B) & C) & D) & E).
  split; [exact S|]. split; [destruct g as [|c g]; [exact I|intros ->; discriminate A]|].
  split; [apply Forall_forall; rewrite forallb_forall in B; exact B|]. split.
  { apply orb_prop in C. destruct C as [C|C]; [left; destruct g as [|c g]; [exact I|]; apply andb_prop in C; destruct C as (X & Y); split; intros ->; [discriminate X|discriminate Y]|right].
    apply andb_prop in C. destruct C as (X & Y). split; [apply negb_true_iff in X; destruct m; try reflexivity; discriminate X|].
    apply orb_prop in Y. destruct Y as [Y|Y]; [apply orb_prop in Y; destruct Y as [Y|Y]; [left; apply oneOfV1, Y|right; left]|right; right];
      apply andb_prop in Y; destruct Y as (Y & Z); (split; [apply oneOfV1, Y|symmetry; apply ec_eqb_eq, Z]). }
  split; [intros X; rewrite X in D; discriminate D|]. intros c a ->. rewrite forallb_forall in E. apply negb_true_iff, E, in_or_app. right. left. reflexivity.
Qed.
(** One row of the table: sign before, letters before the mark and after it. *)
Definition row (lead b a : string) (v : EVowel) (e : EEndConsClass) (m : ETone) : Prop :=
  m <> T_INVALID -> spelling v e m (letters lead) (letters b ++ markL m ++ letters a ++ finL e).
Lemma hd_fin e : unmarkedHead (finL e) = true. Proof. destruct e; reflexivity. Qed.
Ltac fin0 := apply fin_final; [assumption|match goal with |- forallb _ (finL ?e) = true => destruct e; try reflexivity; congruence end].
Ltac rw := intros M o LA VO; left; split; [reflexivity|].
Ltac rwe := intros M o LA VO; right; left; split; [reflexivity|].
Ltac rwl := intros M o LA VO; right; right; eexists; split; [reflexivity|split; [reflexivity|]].
Ltac mk := first [apply mark_L; [assumption|reflexivity]|apply mark_L; [assumption|apply hd_fin]].
Lemma silent_fin e : silent (finL e) = finL e. Proof. destruct e; reflexivity. Qed.
Lemma silentIU_fin e : silentIU (finL e) = finL e. Proof. destruct e; reflexivity. Qed.
Lemma hd_fin_a e : hd_error (finL e) <> Some UTH_SARA_A. Proof. destruct e; discriminate. Qed.
Section Rows.
Variables (e : EEndConsClass) (m : ETone).
Hypothesis E : e <> EC_NONE.
Lemma row_a_open : row "" "" "ะ" V_A EC_NONE m.
Proof. rw. refine (R_a false o _ m [] _). mk. Qed.
Lemma row_a : e <> KOEW -> row "" "ั" "" V_A e m.
Proof.
  intros W. rw. change (letters "ั" ++ markL m ++ letters "" ++ finL e) with (UTH_MAI_HAN_AKAT :: markL m ++ finL e).
  destruct (tone_eqb SAMAN m) eqn:Em.
  - apply tone_eqb_eq in Em. subst m. apply R_an. apply FS_final. fin0.
  - eapply R_an_marked; [mk|intros ->; discriminate Em|]. fin0.
Qed.
Lemma row_aa_open : row "" "" "า" V_AA EC_NONE m.
Proof. rw. refine (R_aa false o _ m [] _). mk. Qed.
Lemma row_aa : row "" "" "า" V_AA e m.
Proof. rw. eapply (R_aa_final false o _ m (finL e)); [mk|]. rewrite silent_fin. apply FS_final. fin0. Qed.
Definition aboves : list (string * EVowel) := [("ิ", V_I); ("ี", V_II); ("ึ", V_UE); ("ุ", V_U); ("ู", V_UU)]%string.
Lemma above_sign b v : In (b, v) aboves -> exists s, letters b = [s] /\ In (s, v) [(UTH_SARA_I, V_I); (UTH_SARA_II, V_II); (UTH_SARA_UE, V_UE);
      (UTH_SARA_U, V_U); (UTH_SARA_UU, V_UU)].
Proof.
  intros [H|[H|[H|[H|[H|H]]]]]; try (injection H as <- <-; eexists; split; [reflexivity|]); [| | | | |exact (False_ind _ H)]; cbn [In]; tauto.
Qed.
Lemma row_above_open b v : In (b, v) aboves -> row "" b "" v EC_NONE m.
Proof.
  intros I. rw. destruct (above_sign _ _ I) as (s & -> & I'). refine (R_above_open false o v s _ m [] I' _). mk.
Qed.
Lemma row_above b v : In (b, v) aboves -> (e = KOEY -> v <> V_I /\ v <> V_II) -> row "" b "" v e m.
Proof.
  intros I Y. rw. destruct (above_sign _ _ I) as (s & -> & I').
  refine (R_above_final false o v s _ m (finL e) e [] I' _ (silentIU_fin e) _); [mk|]. rewrite silent_fin. apply fin_final; [assumption|].
  destruct e; try congruence; try (destruct ((s =? UTH_SARA_I)%N || (s =? UTH_SARA_II)%N); reflexivity).
  destruct (Y eq_refl) as (Y1 & Y2). destruct I' as [H|[H|[H|[H|[H|H]]]]]; try (injection H as <- <-); try congruence; try reflexivity. exact (False_ind _ H).
Qed.
Lemma row_uee_open : row "" "ื" "อ" V_UEE EC_NONE m.
Proof. rw. refine (R_uee false o _ m [] _). mk. Qed.
Lemma row_uee : row "" "ื" "" V_UEE e m.
Proof. rw. refine (R_uee_final false o _ m (finL e) e [] _ _); [mk|fin0]. Qed.
Lemma row_e_open : row "เ" "" "ะ" V_E EC_NONE m.
Proof. rwe. refine (E_e o _ m [] _ LA). mk. Qed.
Lemma row_e : m = SAMAN -> row "เ" "็" "" V_E e m.
Proof. intros ->. rwe. refine (E_e_final o (finL e) e [] _). fin0. Qed.
Lemma row_ee_open : row "เ" "" "" V_EE EC_NONE m.
Proof.
  rwe. destruct m; [congruence| |..].
  - exact (E_end o LA).
  - exact (E_end_marked o UTH_MAI_EK eq_refl).
  - exact (E_end_marked o UTH_MAI_THO eq_refl).
  - exact (E_end_marked o UTH_MAI_TRI eq_refl).
  - exact (E_end_marked o UTH_MAI_CHATTAWA eq_refl).
Qed.
Lemma row_ee : e <> KOEY -> row "เ" "" "" V_EE e m.
Proof.
  intros Y. rwe. destruct (finL e) as [|c r] eqn:F; [destruct e; [congruence|discriminate F..]|].
  refine (E_ee_final o _ m c r e [] false _ LA _ _ _).
  - cbn [letters app]. rewrite <- F. mk.
  - destruct e; try discriminate F; injection F as <- <-; discriminate.
  - intros (-> & _). destruct e; try discriminate F. congruence.
  - rewrite <- F, silent_fin. apply FS_final. fin0.
Qed.
Lemma row_eey : row "เ" "" "ก์" V_EE KOEY m.
Proof.
  rwe. refine (E_ee_final o _ m UTH_KO_KAI [UTH_THANTHAKHAT; UTH_YO_YAK] KOEY [] false _ LA _ _ _); [mk|discriminate|intros (H & _); discriminate H|].
  apply FS_final. change (silent _) with (finL KOEY). apply fin_final; [discriminate|reflexivity].
Qed.
Lemma row_ae_open : row "แ" "" "ะ" V_AE EC_NONE m.
Proof. rwl. refine (L_ae _ m [] _). mk. Qed.
Lemma row_ae : row "แ" "" "็" V_AE e m.
Proof. rwl. refine (L_ae_final _ m (finL e) e [] _ _); [mk|fin0]. Qed.
Lemma row_aee_open : row "แ" "" "" V_AEE EC_NONE m.
Proof. rwl. refine (L_aee _ m [] _ _ _); [mk|discriminate..]. Qed.
Lemma row_aee : row "แ" "" "" V_AEE e m.
Proof. rwl. refine (L_aee_final _ m (finL e) e [] _ _); [mk|rewrite silent_fin; fin0]. Qed.
Lemma row_o_open : row "โ" "" "ะ" V_O EC_NONE m.
Proof. rwl. refine (L_o _ m [] _). mk. Qed.
Lemma row_o : e <> KOEY -> e <> KOEW -> row "" "" "" V_O e m.
Proof.
  intros Y W. rw. destruct (VO eq_refl E) as (V1 & V2). refine (R_o false o _ m (finL e) e [] _ V1 V2 eq_refl _); [mk|fin0].
Qed.
Lemma row_oo_open : row "โ" "" "" V_OO EC_NONE m.
Proof. rwl. refine (L_oo _ m [] _ _); [mk|discriminate]. Qed.
Lemma row_oo : row "โ" "" "" V_OO e m.
Proof. rwl. refine (L_oo_final _ m (finL e) e [] false _ (silentIU_fin e) _); [mk|rewrite silent_fin; apply FS_final; fin0]. Qed.
Lemma row_au_open : row "เ" "" "าะ" V_AU EC_NONE m.
Proof. rwe. refine (E_au o _ m [] _). mk. Qed.
Lemma row_au : m = SAMAN -> row "" "็อ" "" V_AU e m.
Proof. intros ->. rw. refine (R_au false o (finL e) e [] _). rewrite silent_fin. fin0. Qed.
Lemma row_auu_open : row "" "" "อ" V_AUU EC_NONE m.
Proof. rw. refine (R_auu false o _ m [] _). mk. Qed.
Lemma row_auu : row "" "" "อ" V_AUU e m.
Proof. rw. refine (R_auu_final false o _ m (finL e) e [] _ _); [mk|rewrite silent_fin; fin0]. Qed.
Lemma row_oe_open : row "เ" "" "อะ" V_OE EC_NONE m.
Proof. rwe. refine (E_oe o _ m [] _). mk. Qed.
Lemma row_oee_open : row "เ" "" "อ" V_OEE EC_NONE m.
Proof. rwe. refine (E_oee o _ m [] _ _); [mk|discriminate]. Qed.
Lemma row_oee : row "เ" "ิ" "" V_OEE e m.
Proof. rwe. refine (E_oe_final o _ m (finL e) e [] _ _); [mk|rewrite silent_fin; fin0]. Qed.
Lemma row_ia_open : row "เ" "ี" "ยะ" V_IA EC_NONE m.
Proof. rwe. refine (E_ia o _ m [] _). mk. Qed.
Lemma row_iaa_open : row "เ" "ี" "ย" V_IAA EC_NONE m.
Proof. rwe. refine (E_iaa o _ m [] _ _); [mk|discriminate]. Qed.
Lemma row_iaa : row "เ" "ี" "ย" V_IAA e m.
Proof. rwe. refine (E_iaa_final o _ m (finL e) e [] false _ (hd_fin_a e) _); [mk|rewrite silent_fin; apply FS_final; fin0]. Qed.
Lemma row_uea_open : row "เ" "ื" "อะ" V_UEA EC_NONE m.
Proof. rwe. refine (E_uea o _ m [] _). mk. Qed.
Lemma row_ueaa_open : row "เ" "ื" "อ" V_UEAA EC_NONE m.
Proof. rwe. refine (E_ueaa o _ m [] _ _); [mk|discriminate]. Qed.
Lemma row_ueaa : row "เ" "ื" "อ" V_UEAA e m.
Proof. rwe. refine (E_ueaa_final o _ m (finL e) e [] _ (hd_fin_a e) _); [mk|rewrite silent_fin; fin0]. Qed.
Lemma row_ua_open : row "" "ั" "วะ" V_UA EC_NONE m.
Proof. rw. refine (R_ua false o _ m [] _). mk. Qed.
Lemma row_uaa_open : row "" "ั" "ว" V_UAA EC_NONE m.
Proof. rw. refine (R_uaa false o _ m [] _ _); [mk|discriminate]. Qed.
Lemma row_uaa : row "" "" "ว" V_UAA e m.
Proof. rw. refine (R_ua_final false o _ m (finL e) e [] _ _); [mk|fin0]. Qed.
End Rows.
(** Final W is spelled without a letter of its own after short A, and Y too. *)
Lemma spell_ao m : m <> T_INVALID -> spelling V_A KOEW m (letters "เ") (markL m ++ letters "า").
Proof. rwe. refine (E_ao o _ m [] _ _); [mk|discriminate]. Qed.
Definition HasTail (v : EVowel) (e : EEndConsClass) (m : ETone) : Prop := exists lead g, goodTail v e m lead g.
Lemma by_row lead b a v e m : row lead b a v e m -> m <> T_INVALID ->
  goodb v e m (letters lead) (letters b ++ markL m ++ letters a ++ finL e) = true -> HasTail v e m.
Proof. intros R M G. eexists _, _. apply good_tail; [apply R; exact M|exact M|exact G]. Qed.
Ltac good := match goal with M : ?m <> T_INVALID |- _ => destruct m; first [congruence|vm_compute; reflexivity] end.
Lemma tails v e m : m <> T_INVALID -> rime v e (marked m) = true -> HasTail v e m.
Proof.
  intros M H. unfold rime in H. apply andb_prop in H. destruct H as (V & H). unfold oneOfV in V. apply existsb_exists in V. destruct V as (u & I & V).
  apply Z.eqb_eq in V. subst u.
  repeat (destruct I as [<-|I]; [|]); [..|exact (False_ind _ I)].
  all: destruct e.
  all: try discriminate H.
  all: try (match goal with
    | |- HasTail _ EC_NONE _ => eapply by_row; [|exact M|]
    end; [first [apply row_a_open|apply row_aa_open|apply row_above_open; cbn [In aboves]; tauto|apply row_uee_open|apply row_e_open|apply row_ee_open|apply row_ae_open|apply row_aee_open|apply row_o_open|apply row_oo_open|apply row_au_open|apply row_auu_open|apply row_oe_open|apply row_oee_open|apply row_ia_open|apply row_iaa_open|apply row_uea_open|apply row_ueaa_open|apply row_ua_open|apply row_uaa_open]|good]).
  all: try (eapply by_row; [first [apply row_a; [discriminate|discriminate]|apply row_aa; discriminate|apply row_above; [discriminate|cbn [In aboves]; tauto|first [discriminate|intros _; split; discriminate]]|apply row_uee; discriminate
    |apply row_ee; [discriminate|discriminate]|apply row_eey|apply row_ae; discriminate|apply row_aee; discriminate|apply row_o; [discriminate|discriminate|discriminate]|apply row_oo; discriminate
    |apply row_auu; discriminate|apply row_oee; discriminate|apply row_iaa; discriminate|apply row_ueaa; discriminate|apply row_uaa; discriminate
    |apply row_e; [discriminate|destruct m; first [reflexivity|discriminate H|congruence]]|apply row_au; [discriminate|destruct m; first [reflexivity|discriminate H|congruence]]]|exact M|good]).
  eexists _, _. apply good_tail; [apply spell_ao; exact M|exact M|good].
Qed.
(** After RU without a mark, short A with final W is spelled with double RO
    RUA. *)
Lemma spell_rraw : spelling V_A KOEW SAMAN [] (letters "รรว").
Proof.
  intros o LA VO. left. split; [reflexivity|]. eapply (R_rac false o _ SAMAN [UTH_RO_RUA; UTH_WO_WAEN] [UTH_WO_WAEN]); [reflexivity|destruct (ics_eqb (oSound o) RA); reflexivity|reflexivity|].
  apply FS_final. apply (fin_final [] KOEW); [discriminate|reflexivity].
Qed.
(** The letters of the initials; [led]: when a syllable "a" may come before. *)
Definition OnsetText (s : EInitConsSound) (s2 : ESecInitCons) (k : EInitConsClass) (ok : list N -> Prop) (vo : option EVowel) (led : Prop) : Prop :=
  exists on o p, (forall t, ok t -> InitialAt false (on ++ t) o t) /\ oSound o = s /\ oSecond o = s2 /\ oClass o = k /\ oVowel o = vo /\
    notLedA o /\ Leads o p /\ Forall (fun c => thaiLetter c = true) on /\ on <> [] /\ forallb (fun c => negb (leadVowel c)) on = true /\
    (oLead o = None \/ led).
Definition sonorants : list EInitConsSound := [NGA; YA; NA; MA; RA; LA; WA].
Lemma saysA_some c : consonant c = true -> exists p, SaysA c p.
Proof. intros C. eexists. apply Sa_a. apply toned_ok; [apply classOf_valid, C|discriminate|reflexivity]. Qed.
Ltac otext on o p := exists on, o, p; split; [|repeat (split; [reflexivity|]); split; [|split; [|split; [repeat constructor|split; [discriminate|split; [reflexivity|
  first [left; reflexivity|right; cbn [In sonorants]; tauto]]]]]]].
Ltac oplain c := otext [c] (plainOf c SEC_NONE) (@None Said);
  [intros t _; apply I_one; reflexivity|left; reflexivity|apply Le_none; reflexivity].
Ltac orest := left; reflexivity.
Ltac ora c := otext [c; UTH_RO_RUA] (plainOf c SEC_RA) (@None Said);
  [intros t T; apply I_ra; [first [left; cbv; tauto|right; split; [reflexivity|cbv; tauto]]|exact T]|left; reflexivity|apply Le_none; reflexivity].
Ltac ola c := otext [c; UTH_LO_LING] (plainOf c SEC_LA) (@None Said);
  [intros t T; apply I_la; [reflexivity|cbv; tauto]|left; reflexivity|apply Le_none; reflexivity].
Ltac owa c := otext [c; UTH_WO_WAEN] (plainOf c SEC_WA) (@None Said);
  [intros t T; apply I_wa; [reflexivity|cbv; tauto]|left; reflexivity|apply Le_none; reflexivity].
Ltac oho d := otext [UTH_HO_HIP; d] (mkInitial None (soundOf d) HIGH SEC_NONE None) (@None Said);
  [intros t T; apply I_ho; [reflexivity|reflexivity|intros _; exact T]|left; reflexivity|apply Le_none; reflexivity].
Ltac oled c d := destruct (saysA_some c eq_refl) as (p & P);
  otext [c; d] (mkInitial (Some c) (soundOf d) (classOf c) SEC_NONE None) (Some p);
  [intros t T; apply (I_lead false c d t); [reflexivity|reflexivity|intros _; exact T]|right; discriminate|eapply Le_some; [reflexivity|exact P]].
Ltac oson d := first [oplain d|oho d|oled UTH_KO_KAI d|oled UTH_KHO_KHWAI d].
Lemma onset_text s s2 k : Onset s s2 k ->
  OnsetText s s2 k noRo None (s2 = SEC_NONE /\ (k = MID \/ k = LOWP) /\ In s sonorants).
Proof.
  intros (ks & I & K). unfold onsets in I.
  repeat (destruct I as [I|I]; [injection I as <- <- <-|]); [..|exact (False_ind _ I)].
  all: repeat (destruct K as [<-|K]; [|]); try exact (False_ind _ K).
  all: match goal with
  | |- OnsetText KA SEC_NONE MID _ _ _ => oplain UTH_KO_KAI
  | |- OnsetText JA SEC_NONE MID _ _ _ => oplain UTH_CHO_CHAN
  | |- OnsetText DA SEC_NONE MID _ _ _ => oplain UTH_DO_DEK
  | |- OnsetText TA SEC_NONE MID _ _ _ => oplain UTH_TO_TAO
  | |- OnsetText BA SEC_NONE MID _ _ _ => oplain UTH_BO_BAIMAI
  | |- OnsetText PA SEC_NONE MID _ _ _ => oplain UTH_PO_PLA
  | |- OnsetText ICS_A SEC_NONE MID _ _ _ => oplain UTH_O_ANG
  | |- OnsetText KHA SEC_NONE HIGH _ _ _ => oplain UTH_KHO_KHAI
  | |- OnsetText KHA SEC_NONE LOWP _ _ _ => oplain UTH_KHO_KHWAI
  | |- OnsetText CHA SEC_NONE HIGH _ _ _ => oplain UTH_CHO_CHING
  | |- OnsetText CHA SEC_NONE LOWP _ _ _ => oplain UTH_CHO_CHANG
  | |- OnsetText THA SEC_NONE HIGH _ _ _ => oplain UTH_THO_THUNG
  | |- OnsetText THA SEC_NONE LOWP _ _ _ => oplain UTH_THO_THAHAN
  | |- OnsetText PHA SEC_NONE HIGH _ _ _ => oplain UTH_PHO_PHUNG
  | |- OnsetText PHA SEC_NONE LOWP _ _ _ => oplain UTH_PHO_PHAN
  | |- OnsetText FA SEC_NONE HIGH _ _ _ => oplain UTH_FO_FA
  | |- OnsetText FA SEC_NONE LOWP _ _ _ => oplain UTH_FO_FAN
  | |- OnsetText SA SEC_NONE HIGH _ _ _ => oplain UTH_SO_SUA
  | |- OnsetText SA SEC_NONE LOWP _ _ _ => oplain UTH_SO_SO
  | |- OnsetText HA SEC_NONE HIGH _ _ _ => oplain UTH_HO_HIP
  | |- OnsetText HA SEC_NONE LOWP _ _ _ => oplain UTH_HO_NOKHUK
  | |- OnsetText NGA SEC_NONE LOWS _ _ _ => oplain UTH_NGO_NGU
  | |- OnsetText NGA SEC_NONE HIGH _ _ _ => oho UTH_NGO_NGU
  | |- OnsetText NGA SEC_NONE MID _ _ _ => oled UTH_KO_KAI UTH_NGO_NGU
  | |- OnsetText NGA SEC_NONE LOWP _ _ _ => oled UTH_KHO_KHWAI UTH_NGO_NGU
  | |- OnsetText YA SEC_NONE LOWS _ _ _ => oplain UTH_YO_YAK
  | |- OnsetText YA SEC_NONE HIGH _ _ _ => oho UTH_YO_YAK
  | |- OnsetText YA SEC_NONE MID _ _ _ => oled UTH_KO_KAI UTH_YO_YAK
  | |- OnsetText YA SEC_NONE LOWP _ _ _ => oled UTH_KHO_KHWAI UTH_YO_YAK
  | |- OnsetText NA SEC_NONE LOWS _ _ _ => oplain UTH_NO_NU
  | |- OnsetText NA SEC_NONE HIGH _ _ _ => oho UTH_NO_NU
  | |- OnsetText NA SEC_NONE MID _ _ _ => oled UTH_KO_KAI UTH_NO_NU
  | |- OnsetText NA SEC_NONE LOWP _ _ _ => oled UTH_KHO_KHWAI UTH_NO_NU
  | |- OnsetText MA SEC_NONE LOWS _ _ _ => oplain UTH_MO_MA
  | |- OnsetText MA SEC_NONE HIGH _ _ _ => oho UTH_MO_MA
  | |- OnsetText MA SEC_NONE MID _ _ _ => oled UTH_KO_KAI UTH_MO_MA
  | |- OnsetText MA SEC_NONE LOWP _ _ _ => oled UTH_KHO_KHWAI UTH_MO_MA
  | |- OnsetText RA SEC_NONE LOWS _ _ _ => oplain UTH_RO_RUA
  | |- OnsetText RA SEC_NONE HIGH _ _ _ => oho UTH_RO_RUA
  | |- OnsetText RA SEC_NONE MID _ _ _ => oled UTH_KO_KAI UTH_RO_RUA
  | |- OnsetText RA SEC_NONE LOWP _ _ _ => oled UTH_KHO_KHWAI UTH_RO_RUA
  | |- OnsetText LA SEC_NONE LOWS _ _ _ => oplain UTH_LO_LING
  | |- OnsetText LA SEC_NONE HIGH _ _ _ => oho UTH_LO_LING
  | |- OnsetText LA SEC_NONE MID _ _ _ => oled UTH_KO_KAI UTH_LO_LING
  | |- OnsetText LA SEC_NONE LOWP _ _ _ => oled UTH_KHO_KHWAI UTH_LO_LING
  | |- OnsetText WA SEC_NONE LOWS _ _ _ => oplain UTH_WO_WAEN
  | |- OnsetText WA SEC_NONE HIGH _ _ _ => oho UTH_WO_WAEN
  | |- OnsetText WA SEC_NONE MID _ _ _ => oled UTH_KO_KAI UTH_WO_WAEN
  | |- OnsetText WA SEC_NONE LOWP _ _ _ => oled UTH_KHO_KHWAI UTH_WO_WAEN
  | |- OnsetText KA SEC_RA MID _ _ _ => ora UTH_KO_KAI
  | |- OnsetText DA SEC_RA MID _ _ _ => ora UTH_DO_DEK
  | |- OnsetText TA SEC_RA MID _ _ _ => ora UTH_TO_TAO
  | |- OnsetText BA SEC_RA MID _ _ _ => ora UTH_BO_BAIMAI
  | |- OnsetText PA SEC_RA MID _ _ _ => ora UTH_PO_PLA
  | |- OnsetText KHA SEC_RA HIGH _ _ _ => ora UTH_KHO_KHAI
  | |- OnsetText KHA SEC_RA LOWP _ _ _ => ora UTH_KHO_KHWAI
  | |- OnsetText THA SEC_RA LOWP _ _ _ => ora UTH_THO_THAHAN
  | |- OnsetText PHA SEC_RA HIGH _ _ _ => ora UTH_PHO_PHUNG
  | |- OnsetText PHA SEC_RA LOWP _ _ _ => ora UTH_PHO_PHAN
  | |- OnsetText FA SEC_RA LOWP _ _ _ => ora UTH_FO_FAN
  | |- OnsetText KA SEC_LA MID _ _ _ => ola UTH_KO_KAI
  | |- OnsetText BA SEC_LA MID _ _ _ => ola UTH_BO_BAIMAI
  | |- OnsetText PA SEC_LA MID _ _ _ => ola UTH_PO_PLA
  | |- OnsetText KHA SEC_LA HIGH _ _ _ => ola UTH_KHO_KHAI
  | |- OnsetText KHA SEC_LA LOWP _ _ _ => ola UTH_KHO_KHWAI
  | |- OnsetText PHA SEC_LA HIGH _ _ _ => ola UTH_PHO_PHUNG
  | |- OnsetText PHA SEC_LA LOWP _ _ _ => ola UTH_PHO_PHAN
  | |- OnsetText FA SEC_LA LOWP _ _ _ => ola UTH_FO_FAN
  | |- OnsetText KA SEC_WA MID _ _ _ => owa UTH_KO_KAI
  | |- OnsetText KHA SEC_WA HIGH _ _ _ => owa UTH_KHO_KHAI
  | |- OnsetText KHA SEC_WA LOWP _ _ _ => owa UTH_KHO_KHWAI
  end.
Qed.
Lemma memN_no c l : memN c l = false -> ~ In c l.
Proof. intros H I. apply memN_In in I. congruence. Qed.

Ltac oru c s2 v I := otext [c; UTH_RU] (mkInitial None (soundOf c) (classOf c) s2 (Some v)) (@None Said);
  [intros t T; I c t T|left; reflexivity|apply Le_none; reflexivity].
Ltac ruri c t T := apply I_ru_ri; [cbv; tauto|exact T].
Ltac rusi c t T := apply I_ru_si; [cbv; tauto|exact T].
Ltac ruwrue c t T := apply I_ru_wrue; [cbv; tauto|exact T].
Ltac ruany c t T := apply I_ru_any; [reflexivity|apply memN_no; vm_compute; reflexivity|exact T|left; reflexivity].
Lemma ru_text s s2 k ri : RuOnset s s2 k ri ->
  OnsetText s s2 k noLong (Some (if ri then V_I else V_UE)) (s = RA /\ s2 = SEC_NONE).
Proof.
  intros (ks & I & K). unfold ruOnsets in I.
  repeat (destruct I as [I|I]; [injection I as <- <- <- <-|]); [..|exact (False_ind _ I)].
  all: repeat (destruct K as [<-|K]; [|]); try exact (False_ind _ K).
  all: match goal with
  | |- OnsetText SA SEC_NONE HIGH _ _ _ => oru UTH_SO_SUA SEC_NONE V_I rusi
  | |- OnsetText KA SEC_RA MID _ _ _ => oru UTH_KO_KAI SEC_RA V_I ruri
  | |- OnsetText TA SEC_RA MID _ _ _ => oru UTH_TO_TAO SEC_RA V_I ruri
  | |- OnsetText PA SEC_RA MID _ _ _ => oru UTH_PO_PLA SEC_RA V_I ruri
  | |- OnsetText WA SEC_RA _ _ _ _ => oru UTH_WO_WAEN SEC_RA V_UE ruwrue
  | |- OnsetText KHA SEC_RA HIGH _ _ _ => oru UTH_KHO_KHAI SEC_RA V_I ruany
  | |- OnsetText KHA SEC_RA LOWP _ _ _ => oru UTH_KHO_RAKHANG SEC_RA V_I ruany
  | |- OnsetText NGA SEC_RA LOWS _ _ _ => oru UTH_NGO_NGU SEC_RA V_I ruany
  | |- OnsetText JA SEC_RA MID _ _ _ => oru UTH_CHO_CHAN SEC_RA V_I ruany
  | |- OnsetText CHA SEC_RA HIGH _ _ _ => oru UTH_CHO_CHING SEC_RA V_I ruany
  | |- OnsetText CHA SEC_RA LOWP _ _ _ => oru UTH_CHO_CHANG SEC_RA V_I ruany
  | |- OnsetText YA SEC_RA LOWS _ _ _ => oru UTH_YO_YAK SEC_RA V_I ruany
  | |- OnsetText DA SEC_RA MID _ _ _ => oru UTH_DO_DEK SEC_RA V_I ruany
  | |- OnsetText THA SEC_RA HIGH _ _ _ => oru UTH_THO_THUNG SEC_RA V_I ruany
  | |- OnsetText THA SEC_RA LOWP _ _ _ => oru UTH_THO_THONG SEC_RA V_I ruany
  | |- OnsetText NA SEC_RA LOWS _ _ _ => oru UTH_NO_NEN SEC_RA V_I ruany
  | |- OnsetText BA SEC_RA MID _ _ _ => oru UTH_BO_BAIMAI SEC_RA V_I ruany
  | |- OnsetText PHA SEC_RA HIGH _ _ _ => oru UTH_PHO_PHUNG SEC_RA V_I ruany
  | |- OnsetText PHA SEC_RA LOWP _ _ _ => oru UTH_PHO_SAMPHAO SEC_RA V_I ruany
  | |- OnsetText FA SEC_RA HIGH _ _ _ => oru UTH_FO_FA SEC_RA V_I ruany
  | |- OnsetText FA SEC_RA LOWP _ _ _ => oru UTH_FO_FAN SEC_RA V_I ruany
  | |- OnsetText MA SEC_RA LOWS _ _ _ => oru UTH_MO_MA SEC_RA V_I ruany
  | |- OnsetText RA SEC_RA LOWS _ _ _ => oru UTH_RO_RUA SEC_RA V_I ruany
  | |- OnsetText LA SEC_RA LOWS _ _ _ => oru UTH_LO_LING SEC_RA V_I ruany
  | |- OnsetText SA SEC_RA HIGH _ _ _ => oru UTH_SO_RUSI SEC_RA V_I ruany
  | |- OnsetText SA SEC_RA LOWP _ _ _ => oru UTH_SO_SO SEC_RA V_I ruany
  | |- OnsetText HA SEC_RA LOWP _ _ _ => oru UTH_HO_NOKHUK SEC_RA V_I ruany
  | |- OnsetText ICS_A SEC_RA MID _ _ _ => oru UTH_O_ANG SEC_RA V_I ruany
  | |- _ => idtac
  end.
  - destruct (saysA_some UTH_SO_SUA eq_refl) as (p & P). otext [UTH_SO_SUA; UTH_RU] (mkInitial (Some UTH_SO_SUA) RA HIGH SEC_NONE (Some V_I)) (Some p);
    [intros t T; apply (I_ru_sari false UTH_SO_SUA); [cbv; tauto|exact T]|right; discriminate|eapply Le_some; [reflexivity|exact P]].
  - destruct (saysA_some UTH_KHO_KHAI eq_refl) as (p & P). otext [UTH_KHO_KHAI; UTH_RU] (mkInitial (Some UTH_KHO_KHAI) RA LOWS SEC_NONE (Some V_I)) (Some p);
    [intros t T; apply (I_ru_any_lead false UTH_KHO_KHAI); [reflexivity|apply memN_no; vm_compute; reflexivity|exact T|left; reflexivity]|right; discriminate|eapply Le_some; [reflexivity|exact P]].
Qed.
(** ** The text of a syllable *)
(** A text of Thai letters whose last letter is not a sign that has to stand
    before a consonant. *)
Definition Text (w : list N) : Prop :=
  Forall (fun c => thaiLetter c = true) w /\ 2 <= length w /\ forall c a, w = a ++ [c] -> leadVowel c = false.
Lemma text_of lead on g : Forall (fun c => thaiLetter c = true) (lead ++ g) -> Forall (fun c => thaiLetter c = true) on ->
  lead ++ g <> [] -> on <> [] -> forallb (fun c => negb (leadVowel c)) on = true -> (forall c a, g = a ++ [c] -> leadVowel c = false) ->
  Text (lead ++ on ++ g).
Proof.
  intros F O Ng No L G. apply Forall_app in F. destruct F as (F1 & F2). split; [apply Forall_app; split; [exact F1|]; apply Forall_app; split; assumption|].
  split.
  { rewrite !app_length. destruct on; [congruence|]. assert (0 < length (lead ++ g)) by (destruct (lead ++ g); [congruence|cbn; lia]). rewrite app_length in H. cbn. lia. }
  intros c a E. destruct g as [|x g] using rev_ind.
  - rewrite app_nil_r in E. destruct on as [|y on _] using rev_ind; [congruence|]. rewrite app_assoc in E. apply app_inj_tail in E. destruct E as (_ & <-).
    rewrite forallb_forall in L. apply negb_true_iff, L, in_or_app. right. left. reflexivity.
  - rewrite !app_assoc in E. apply app_inj_tail in E. destruct E as (_ & <-). apply (G x g eq_refl).
Qed.
Definition ReadAs (x : Said) (led : Prop) : Prop := exists w p b, Text w /\ Reads false w p x [] b /\ (p = None \/ led).
Lemma leads_none o p led : Leads o p -> oLead o = None \/ led -> p = None \/ led.
Proof. intros [E|c q E S] [H|H]; auto. congruence. Qed.
Lemma read_spelled s s2 k (ok : list N -> Prop) vo led v e m t lead g : OnsetText s s2 k ok vo led -> spelling v e m lead g -> ok g ->
  (v = V_O -> e <> EC_NONE -> vo = None /\ s2 <> SEC_WA) ->
  Forall (fun c => thaiLetter c = true) (lead ++ g) -> lead ++ g <> [] -> (forall c a, g = a ++ [c] -> leadVowel c = false) ->
  toned k m (dead v e) (short v) t -> ReadAs (say s s2 v e t) led.
Proof.
  intros (on & o & p & In1 & <- & <- & <- & <- & LA & Le & Fo & No & Lo & Ld) S Ok VO F Ng G T.
  exists (lead ++ on ++ g), p, false. split; [apply text_of; assumption|]. pose proof (In1 g Ok) as I. pose proof (S_tone o v e m t T) as So.
  split; [|exact (leads_none _ _ _ Le Ld)]. destruct (S o LA VO) as [(-> & R)|[(-> & R)|(l & -> & L & R)]]; cbn [app].
  - exact (Rd_plain false _ o g v e m [] false p _ I R Le So).
  - exact (Rd_e false _ o g v e m [] false p _ I R Le So).
  - exact (Rd_lead false l _ o g v e m [] false p _ I R Le So).
Qed.
Lemma tone_free k m d sh : k = MID \/ k = LOWP -> m <> T_INVALID -> exists k' m', (k' = HIGH \/ k' = LOWS) /\ m' <> T_INVALID /\
  ToneFromWritten k' m' d sh = ToneFromWritten k m d sh /\ (marked m' = true -> marked m = true).
Proof.
  intros K M. destruct K as [->| ->]; destruct m, d, sh; try congruence.
  all: first [exists HIGH, SAMAN; repeat split; auto; discriminate|exists LOWS, SAMAN; repeat split; auto; discriminate
    |exists HIGH, EK; repeat split; auto; discriminate|exists HIGH, THO; repeat split; auto; discriminate|exists HIGH, TRI; repeat split; auto; discriminate
    |exists HIGH, CHATTAWA; repeat split; auto; discriminate|exists LOWS, EK; repeat split; auto; discriminate
    |exists LOWS, THO; repeat split; auto; discriminate|exists LOWS, TRI; repeat split; auto; discriminate|exists LOWS, CHATTAWA; repeat split; auto; discriminate].
Qed.
Lemma rime_less v e b b' : (b' = true -> b = true) -> rime v e b = true -> rime v e b' = true.
Proof.
  intros H R. destruct b', b; try exact R; [specialize (H eq_refl); discriminate H|]. unfold rime in *. apply andb_prop in R. destruct R as (R1 & R2). rewrite R1.
  apply orb_prop in R2. destruct R2 as [->|R2]; [reflexivity|]. rewrite !andb_true_iff in R2. destruct R2 as (((A & B) & C) & _). rewrite A, B, C. apply orb_true_r.
Qed.
(** The syllables "riy", that RU gives before YO YAK. *)
Definition riy (x : Said) : Prop := saSound x = RA /\ saSecond x = SEC_NONE /\ saVowel x = V_I /\ saFinal x = KOEY.
Lemma plain_read s s2 v e t k m : m <> T_INVALID -> toned k m (dead v e) (short v) t -> Onset s s2 k -> rime v e (marked m) = true ->
  (s2 = SEC_WA -> v = V_O -> e = EC_NONE) -> ReadAs (say s s2 v e t) False.
Proof.
  intros M T O R W.
  assert (X : exists k' m', m' <> T_INVALID /\ toned k' m' (dead v e) (short v) t /\ Onset s s2 k' /\ rime v e (marked m') = true /\
    ~ (s2 = SEC_NONE /\ (k' = MID \/ k' = LOWP) /\ In s sonorants)).
  { assert (D : {s2 = SEC_NONE /\ (k = MID \/ k = LOWP) /\ In s sonorants} + {~ (s2 = SEC_NONE /\ (k = MID \/ k = LOWP) /\ In s sonorants)}).
    { destruct (Z.eq_dec s2 SEC_NONE) as [E|E]; [|right; intros (H & _); exact (E H)].
      destruct k; try (right; intros (_ & [H|H] & _); discriminate H);
        (destruct s; first [left; cbn [In sonorants]; tauto|right; intros (_ & _ & H); repeat (destruct H as [H|H]; [discriminate H|]); exact H]). }
    destruct D as [(E2 & K & S)|N]; [|exists k, m; auto].
    assert (Kv : k <> IC_INVALID) by (destruct K as [->| ->]; discriminate).
    apply GrammarIff.toned_iff in T; [|exact Kv|exact M].
    destruct (tone_free k m (dead v e) (short v) K M) as (k' & m' & K' & M' & E & L). exists k', m'. split; [exact M'|].
    split; [apply toned_ok; [destruct K' as [->| ->]; discriminate|exact M'|congruence]|].
    split; [|split; [exact (rime_less _ _ _ _ L R)|intros (_ & [->| ->] & _); destruct K' as [X|X]; discriminate X]].
    subst s2. apply onsetb_ok. repeat (destruct S as [<-|S]; [destruct K' as [->| ->]; reflexivity|]). exact (False_ind _ S). }
  destruct X as (k' & m' & M' & T' & O' & R' & N). destruct (tails v e m' M' R') as (lead & g & S & Nr & F & _ & Ng & G).
  assert (H : ReadAs (say s s2 v e t) (s2 = SEC_NONE /\ (k' = MID \/ k' = LOWP) /\ In s sonorants)).
  { eapply (read_spelled s s2 k' noRo None _ v e m' t lead g); try eassumption; [apply onset_text; exact O'|].
    intros V E. split; [reflexivity|]. intros Z. exact (E (W Z V)). }
  destruct H as (w & p & b & A & B & C). exists w, p, b. split; [exact A|]. split; [exact B|]. destruct C as [C|C]; [left; exact C|right; exact (N C)].
Qed.
(** Every syllable is read, and all but those by themselves. *)
Lemma can_read x : CanSay x -> ReadAs x (riy x).
Proof.
  assert (weaken : forall y (P : Prop), ReadAs y False -> ReadAs y P).
  { intros y P (w & p & b & A & B & C). exists w, p, b. tauto. }
  destruct x as [s s2 v e t]. intros (k & m & M & T & H). unfold riy. cbn [saSound saSecond saVowel saFinal saTone] in *. destruct H as [(ks & I & K & R & W)|(ks & ri & I & K & R)].
  - apply weaken. eapply plain_read; try eassumption. exists ks; auto.
  - assert (O : OnsetText s s2 k noLong (Some (if ri then V_I else V_UE)) (s = RA /\ s2 = SEC_NONE)) by (apply ru_text; exists ks; auto).
    unfold ruRime in R. apply orb_prop in R. destruct R as [R|R].
    + rewrite !andb_true_iff in R. destruct R as ((R1 & R2) & R3).
      assert (RN : s = RA /\ s2 = SEC_NONE \/ ~ (s = RA /\ s2 = SEC_NONE)).
      { destruct (ics_eqb s RA) eqn:E1; [apply ics_eqb_eq in E1; destruct (Z.eq_dec s2 SEC_NONE); tauto|right; intros (-> & _); discriminate E1]. }
      apply weaken. destruct RN as [(-> & ->)|RN].
      { eapply plain_read; try eassumption; [|intros X; discriminate X]. apply onsetb_ok.
        assert (KK : k = HIGH \/ k = LOWS) by (unfold ruOnsets in I; cbn [In] in I; repeat (destruct I as [I|I]; [first [discriminate I|injection I as I _; rewrite <- I in K; cbn [In] in K; destruct K as [K|[K|K]]; [left; symmetry; exact K|right; symmetry; exact K|exact (False_ind _ K)]]|]); exact (False_ind _ I)).
        destruct KK as [->| ->]; reflexivity. }
      destruct (tails v e m M R1) as (lead & g & S & Nr & F & NL & Ng & G).
      assert (VO : v = V_O -> e <> EC_NONE -> Some (if ri then V_I else V_UE) = None /\ s2 <> SEC_WA).
      { intros -> E. destruct e; [congruence|discriminate R2..]. }
      assert (H : ReadAs (say s s2 v e t) (s = RA /\ s2 = SEC_NONE)).
      { destruct NL as [NL|(-> & NL)]; [eapply (read_spelled s s2 k noLong _ _ v e m t lead g); eassumption|].
        destruct NL as [->|[(-> & ->)|(-> & ->)]]; [discriminate R3|discriminate R3|].
        eapply (read_spelled s s2 k noLong _ _ V_A KOEW SAMAN t [] (letters "รรว")); [exact O|exact spell_rraw|split; discriminate|exact VO|repeat constructor|discriminate| |exact T].
        intros c a E. apply (f_equal (@rev N)) in E. rewrite rev_app_distr in E. cbn in E. injection E as <- _. reflexivity. }
      destruct H as (w & p & b & A & B & C). exists w, p, b. tauto.
    + rewrite !andb_true_iff in R. destruct R as ((R1 & R2) & R3). subst ri. apply oneOfV1 in R2. apply ec_eqb_eq in R3. subst v e.
      destruct O as (on & o & p & In1 & <- & <- & <- & Vo & LA & Le & Fo & No & Lo & Ld).
      exists (on ++ markL m ++ [UTH_YO_YAK]), p, false. split.
      { apply (text_of [] on (markL m ++ [UTH_YO_YAK])); try assumption; [destruct m; repeat constructor|destruct m; discriminate|].
        intros c a E. apply app_inj_tail in E. destruct E as (_ & <-). reflexivity. }
      split; [|destruct (leads_none _ _ _ Le Ld) as [X|X]; [left; exact X|right; tauto]].
      eapply (Rd_plain false _ o (markL m ++ [UTH_YO_YAK]) V_I KOEY m [] false p); [apply In1; destruct m; split; discriminate| |exact Le|apply S_tone, T].
      eapply (R_ru_final false o _ m [UTH_YO_YAK]); [apply mark_L; [exact M|reflexivity]|exact Vo|]. apply FS_final, (fin_final _ KOEY); [discriminate|reflexivity].
Qed.

(** ** C101 *)
Lemma name_said c e : consonant c = true -> CanSay (saidOf (nameOf c e)).
Proof.
  intros C. apply (saysAuu_can c _ C). change (saidOf (nameOf c e)) with (say (soundOf c) SEC_NONE V_AUU EC_NONE (match classOf c with HIGH => CHATTAWA | _ => SAMAN end)).
  constructor. apply toned_ok; [apply classOf_valid, C|discriminate|]. pose proof (classOf_valid c C) as K. destruct (classOf c); first [reflexivity|congruence].
Qed.
Lemma C101_sound w dict brk l s v : StronglySorted lt brk -> Forall (fun x => x <= length w) brk -> dictOKo dict ->
  pronounced libthai_ct w dict brk l -> In s l -> In v s -> literal v = [] -> dictSyl dict v \/ CanSay (saidOf v).
Proof.
  intros S I D P Is Iv L. destruct (in_split v s Iv) as (s1 & s2 & ->).
  assert (O : occurs l (startPos s1) (endPos v) v) by (exists s1, s2; auto).
  destruct (origin_lemma w dict brk S I D l _ _ v P O L) as [X|(b & e & _ & X)]; [left; exact X|right].
  destruct X as [q y x r lk lk' _ _ _ _ R Ev|q p x r lk lk' _ _ _ _ R Ev|c _ _ _ _ C Ev]; rewrite Ev; [| |apply name_said; exact C]; rewrite said_at; destruct (reads_can _ _ _ _ _ _ R) as (A & B); auto.
Qed.
Lemma not_stuck w brk : (forall c a, w = a ++ [c] -> leadVowel c = false) -> ~ stuck (entry None) w brk.
Proof.
  intros H (p & lk & c & _ & E & Hc & V & _). destruct (nth_error_split w p Hc) as (a & r & -> & Ep). destruct r as [|x r]; [|rewrite app_length in E; cbn in E; lia].
  specialize (H c a eq_refl). revert H. unfold eagerVowel in V. cbv in V. repeat destruct V as [<-|V]; [discriminate..|exact (False_ind _ V)].
Qed.
(** Every text that meets [Text] and is read as one syllable, or as a short "a"
    and this syllable, is pronounced so. *)
Lemma text_said w p x b brk : Text w -> Reads false w p x [] b -> StronglySorted lt brk -> (forall y, In y brk -> y = 0 \/ y = length w) ->
  exists l s v, pronounced libthai_ct w None brk l /\ In s l /\ In v s /\ literal v = [] /\ saidOf v = x.
Proof.
  intros (F & Ln & La) R S B. assert (D : dictOKo None) by (intros d X; discriminate X).
  assert (I : Forall (fun x => x <= length w) brk) by (apply Forall_forall; intros y Y; destruct (B y Y); lia).
  destruct (C71_lemma2 w None brk D S I) as [(St & _)|(_ & l & P)]; [exfalso; exact (not_stuck w brk La St)|].
  assert (U : Used w w p x []) by (exists false, b; split; [apply Rc_start|split; [exact R|apply Fn_end]]).
  pose proof (C56_word_grammar w None brk l F Ln B D (unlisted_none w) P) as H. destruct p as [p|].
  - exists l, [sylAt p (within w w []); sylAt x (startOf w [])], (sylAt x (startOf w [])). split; [exact P|].
    split; [apply H; eapply Sy_two; [exact U|exact U|apply Sy_end]|]. split; [right; left; reflexivity|]. split; [reflexivity|apply said_at].
  - exists l, [sylAt x (startOf w [])], (sylAt x (startOf w [])). split; [exact P|].
    split; [apply H; apply Sy_one; [exact U|apply Sy_end]|]. split; [left; reflexivity|]. split; [reflexivity|apply said_at].
Qed.
(** Without a dictionary: the syllables found in any text with any word breaks
    are exactly those described. *)
Theorem C101_exactly x :
  (exists w brk l s v, StronglySorted lt brk /\ Forall (fun x => x <= length w) brk /\ pronounced libthai_ct w None brk l /\
     In s l /\ In v s /\ literal v = [] /\ saidOf v = x) <-> CanSay x.
Proof.
  split.
  - intros (w & brk & l & s & v & S & I & P & Is & Iv & L & <-).
    assert (D : dictOKo None) by (intros d X; discriminate X).
    destruct (C101_sound w None brk l s v S I D P Is Iv L) as [(d & k & y & strs & s' & v0 & X & _)|X]; [discriminate X|exact X].
  - intros C. destruct (can_read x C) as (w & p & b & T & R & _).
    destruct (text_said w p x b [] T R) as (l & s & v & P & Is & Iv & L & E); [constructor|intros y Y; exact (False_ind _ Y)|].
    exists w, [], l, s, v. split; [constructor|]. split; [constructor|]. auto.
Qed.
Print Assumptions C101_exactly.
(** With a dictionary: these, and those the dictionary lists. *)
Theorem C101_with_dictionary w dict brk l s v : StronglySorted lt brk -> Forall (fun x => x <= length w) brk -> dictOKo dict ->
  pronounced libthai_ct w dict brk l -> In s l -> In v s -> literal v = [] -> dictSyl dict v \/ CanSay (saidOf v).
Proof. exact (C101_sound w dict brk l s v). Qed.
Print Assumptions C101_with_dictionary.

(** ** All of them *)
Definition allTones : list ETone := [SAMAN; EK; THO; TRI; CHATTAWA].
Definition allFinals : list EEndConsClass := [EC_NONE; KOK; KOT; KOP; KONG; KON; KOM; KOEY; KOEW].
Definition allClasses : list EInitConsClass := [HIGH; MID; LOWP; LOWS].
Definition key2 (a b : EInitConsSound * ESecInitCons) : bool := ics_eqb (fst a) (fst b) && Z.eqb (snd a) (snd b).
Fixpoint uniq (l : list (EInitConsSound * ESecInitCons)) : list (EInitConsSound * ESecInitCons) :=
  match l with [] => [] | a :: l => let u := uniq l in if existsb (key2 a) u then u else a :: u end.
Definition keys : list (EInitConsSound * ESecInitCons) := uniq (map fst onsets ++ map (fun p => fst (fst p)) ruOnsets).
Definition producedTones (pk r1 r0 : list EInitConsClass) (a0 a1 t0 t1 f0 f1 d sh : bool) : list ETone :=
  flat_map (fun m => let mk := marked m in
    (if (if mk then a1 else a0) then map (fun k => ToneFromWritten k m d sh) pk else []) ++
    (if (if mk then t1 else t0) then map (fun k => ToneFromWritten k m d sh) r1 else []) ++
    (if (if mk then f1 else f0) then map (fun k => ToneFromWritten k m d sh) r0 else [])) allTones.
Definition keyed : list (EInitConsSound * ESecInitCons * (list EInitConsClass * list EInitConsClass * list EInitConsClass)) :=
  map (fun a => (a, (filter (onsetb (fst a) (snd a)) allClasses, filter (fun k => ruOnsetb (fst a) (snd a) k true) allClasses,
    filter (fun k => ruOnsetb (fst a) (snd a) k false) allClasses))) keys.
Definition sayableAt (v : EVowel) (e : EEndConsClass) : list Said :=
  let a0 := rime v e false in let a1 := rime v e true in
  let t0 := ruRime true v e false in let t1 := ruRime true v e true in
  let f0 := ruRime false v e false in let f1 := ruRime false v e true in
  let d := dead v e in let sh := short v in let no := Z.eqb v V_O && negb (open e) in
  flat_map (fun p => let '(a, (pk, r1, r0)) := p in
    let made := producedTones (if Z.eqb (snd a) SEC_WA && no then [] else pk) r1 r0 a0 a1 t0 t1 f0 f1 d sh in
    map (say (fst a) (snd a) v e) (filter (fun t => existsb (tone_eqb t) made) allTones)) keyed.
Definition sayable : list Said := flat_map (fun v => flat_map (sayableAt v) allFinals) vowelCodes.
Lemma uniq_In a l : In a (uniq l) <-> In a l.
Proof.
  induction l as [|b l IH]; [reflexivity|]. cbn [uniq]. destruct (existsb (key2 b) (uniq l)) eqn:E.
  - apply existsb_exists in E. destruct E as (c & C & E). unfold key2 in E. apply andb_prop in E. destruct E as (E1 & E2). apply ics_eqb_eq in E1. apply Z.eqb_eq in E2.
    assert (b = c) by (destruct b, c; cbn [fst snd] in *; congruence). subst c. rewrite IH. split; [right; assumption|]. intros [<-|H]; [apply IH, C|exact H].
  - cbn [In]. rewrite IH. reflexivity.
Qed.
Lemma key2_refl a : key2 a a = true.
Proof. destruct a as (a & b). unfold key2. cbn [fst snd]. rewrite Z.eqb_refl. destruct a; reflexivity. Qed.
Lemma uniq_NoDup l : NoDup (uniq l).
Proof.
  induction l as [|b l IH]; [constructor|]. cbn [uniq]. destruct (existsb (key2 b) (uniq l)) eqn:E; [exact IH|]. constructor; [|exact IH].
  intros I. assert (X : existsb (key2 b) (uniq l) = true) by (apply existsb_exists; exists b; split; [exact I|apply key2_refl]). congruence.
Qed.
Lemma keys_NoDup : NoDup keys. Proof. exact (uniq_NoDup _). Qed.
Lemma onset_class s s2 k : Onset s s2 k -> onsetb s s2 k = true /\ In k allClasses /\ In (s, s2) keys.
Proof.
  intros (ks & I & K). split; [|split].
  - unfold onsetb. apply existsb_exists. exists (s, s2, ks). split; [exact I|]. cbn [fst snd]. rewrite Z.eqb_refl. replace (ics_eqb s s) with true by (destruct s; reflexivity).
    apply existsb_exists. exists k. split; [exact K|destruct k; reflexivity].
  - assert (T : forallb (fun p => forallb (fun k => existsb (ic_eqb k) allClasses) (snd p)) onsets = true) by (vm_compute; reflexivity).
    rewrite forallb_forall in T. specialize (T _ I). rewrite forallb_forall in T. specialize (T k K). apply existsb_exists in T. destruct T as (k' & T & E). apply ic_eqb_eq in E. subst. exact T.
  - unfold keys. apply (proj2 (uniq_In _ _)). apply in_or_app. left. exact (in_map fst _ _ I).
Qed.
Lemma ruOnset_class s s2 k ri : RuOnset s s2 k ri -> ruOnsetb s s2 k ri = true /\ In k allClasses /\ In (s, s2) keys.
Proof.
  intros (ks & I & K). split; [|split].
  - unfold ruOnsetb. apply existsb_exists. exists (s, s2, ks, ri). split; [exact I|]. cbn [fst snd]. rewrite Z.eqb_refl. replace (ics_eqb s s) with true by (destruct s; reflexivity).
    rewrite eqb_reflx. rewrite andb_true_r. apply existsb_exists. exists k. split; [exact K|destruct k; reflexivity].
  - assert (T : forallb (fun p => forallb (fun k => existsb (ic_eqb k) allClasses) (snd (fst p))) ruOnsets = true) by (vm_compute; reflexivity).
    rewrite forallb_forall in T. specialize (T _ I). rewrite forallb_forall in T. specialize (T k K). apply existsb_exists in T. destruct T as (k' & T & E). apply ic_eqb_eq in E. subst. exact T.
  - unfold keys. apply (proj2 (uniq_In _ _)). apply in_or_app. right. exact (in_map (fun p => fst (fst p)) _ _ I).
Qed.
Local Opaque keys.
Lemma sayable_at v e x : In x (sayableAt v e) <-> CanSay x /\ saVowel x = v /\ saFinal x = e /\ In (saTone x) allTones.
Proof.
  unfold sayableAt. cbv zeta. rewrite in_flat_map. split.
  - intros (q & Q & H). unfold keyed in Q. apply (proj1 (in_map_iff _ _ _)) in Q. destruct Q as ((s & s2) & <- & Q). cbn [fst snd] in H.
    apply (proj1 (in_map_iff _ _ _)) in H. destruct H as (t & <- & H). apply (proj1 (filter_In _ _ _)) in H. destruct H as (It & H). cbn [saVowel saFinal saTone]. split; [|auto].
    apply (proj1 (existsb_exists _ _)) in H. destruct H as (t' & H & E). apply tone_eqb_eq in E. subst t'.
    unfold producedTones in H. apply (proj1 (in_flat_map _ _ _)) in H. destruct H as (m & Im & H). cbv zeta in H.
    assert (M : m <> T_INVALID) by (intros ->; repeat (destruct Im as [Im|Im]; [discriminate Im|]); exact Im).
    assert (V : forall k, In k allClasses -> k <> IC_INVALID) by (intros k Ik ->; repeat (destruct Ik as [Ik|Ik]; [discriminate Ik|]); exact Ik).
    assert (B : forall (a b : bool), (if marked m then a else b) = true -> (marked m = true /\ a = true) \/ (marked m = false /\ b = true)).
    { intros a b. destruct (marked m); auto. }
    rewrite !in_app_iff in H. destruct H as [H|[H|H]].
    + destruct (if marked m then rime v e true else rime v e false) eqn:R; [|exact (False_ind _ H)].
      apply (proj1 (in_map_iff _ _ _)) in H. destruct H as (k & <- & H). exists k, m. split; [exact M|]. cbn [saSound saSecond saVowel saFinal saTone].
      destruct (Z.eqb s2 SEC_WA && (Z.eqb v V_O && negb (open e))) eqn:W; [exact (False_ind _ H)|]. apply (proj1 (filter_In _ _ _)) in H. destruct H as (Ik & Ok).
      split; [apply toned_ok; [apply V, Ik|exact M|reflexivity]|]. left. apply onsetb_ok in Ok. destruct Ok as (ks & A1 & A2). exists ks. split; [exact A1|]. split; [exact A2|]. split.
      * apply B in R. destruct R as [(-> & R)|(-> & R)]; exact R.
      * intros -> ->. cbn in W. unfold open in W. apply negb_false_iff in W. symmetry. apply ec_eqb_eq, W.
    + destruct (if marked m then ruRime true v e true else ruRime true v e false) eqn:R; [|exact (False_ind _ H)].
      apply (proj1 (in_map_iff _ _ _)) in H. destruct H as (k & <- & H). exists k, m. split; [exact M|]. cbn [saSound saSecond saVowel saFinal saTone]. apply (proj1 (filter_In _ _ _)) in H. destruct H as (Ik & Ok).
      split; [apply toned_ok; [apply V, Ik|exact M|reflexivity]|]. right. apply ruOnsetb_ok in Ok. destruct Ok as (ks & A1 & A2). exists ks, true. split; [exact A1|]. split; [exact A2|].
      apply B in R. destruct R as [(-> & R)|(-> & R)]; exact R.
    + destruct (if marked m then ruRime false v e true else ruRime false v e false) eqn:R; [|exact (False_ind _ H)].
      apply (proj1 (in_map_iff _ _ _)) in H. destruct H as (k & <- & H). exists k, m. split; [exact M|]. cbn [saSound saSecond saVowel saFinal saTone]. apply (proj1 (filter_In _ _ _)) in H. destruct H as (Ik & Ok).
      split; [apply toned_ok; [apply V, Ik|exact M|reflexivity]|]. right. apply ruOnsetb_ok in Ok. destruct Ok as (ks & A1 & A2). exists ks, false. split; [exact A1|]. split; [exact A2|].
      apply B in R. destruct R as [(-> & R)|(-> & R)]; exact R.
  - destruct x as [s s2 v' e' t]. cbn [saVowel saFinal saTone]. intros ((k & m & M & T & H) & <- & <- & It). rename v' into v. rename e' into e. cbn [saSound saSecond saVowel saFinal saTone] in *.
    assert (KK : In k allClasses /\ In (s, s2) keys).
    { destruct H as [(ks & A & B & _)|(ks & ri & A & B & _)]; [exact (proj2 (onset_class s s2 k (ex_intro _ ks (conj A B))))|exact (proj2 (ruOnset_class s s2 k ri (ex_intro _ ks (conj A B))))]. }
    destruct KK as (Ik & K2). assert (Kv : k <> IC_INVALID) by (intros ->; repeat (destruct Ik as [Ik|Ik]; [discriminate Ik|]); exact Ik).
    apply GrammarIff.toned_iff in T; [|exact Kv|exact M].
    eexists. split; [unfold keyed; apply (proj2 (in_map_iff _ _ _)); exists (s, s2); split; [reflexivity|exact K2]|]. cbn [fst snd].
    apply (proj2 (in_map_iff _ _ _)). exists t. split; [reflexivity|]. apply (proj2 (filter_In _ _ _)). split; [exact It|]. apply (proj2 (existsb_exists _ _)). exists t. split; [|destruct t; reflexivity].
    unfold producedTones. apply (proj2 (in_flat_map _ _ _)). exists m. split; [destruct m; cbn [In allTones]; try tauto; congruence|]. cbv zeta. rewrite !in_app_iff.
    destruct H as [(ks & A & B & R & W)|(ks & ri & A & B & R)].
    + left. replace (if marked m then rime v e true else rime v e false) with true by (destruct (marked m); symmetry; exact R).
      apply (proj2 (in_map_iff _ _ _)). exists k. split; [symmetry; exact T|].
      replace (Z.eqb s2 SEC_WA && (Z.eqb v V_O && negb (open e))) with false; [apply (proj2 (filter_In _ _ _)); split; [exact Ik|]; exact (proj1 (onset_class s s2 k (ex_intro _ ks (conj A B))))|].
      symmetry. destruct (Z.eqb s2 SEC_WA) eqn:W1; [|reflexivity]. destruct (Z.eqb v V_O) eqn:W2; [|reflexivity]. apply Z.eqb_eq in W1. apply Z.eqb_eq in W2. rewrite (W W1 W2). reflexivity.
    + right. destruct ri.
      * left. replace (if marked m then ruRime true v e true else ruRime true v e false) with true by (destruct (marked m); symmetry; exact R).
        apply (proj2 (in_map_iff _ _ _)). exists k. split; [symmetry; exact T|]. apply (proj2 (filter_In _ _ _)). split; [exact Ik|]. exact (proj1 (ruOnset_class s s2 k true (ex_intro _ ks (conj A B)))).
      * right. replace (if marked m then ruRime false v e true else ruRime false v e false) with true by (destruct (marked m); symmetry; exact R).
        apply (proj2 (in_map_iff _ _ _)). exists k. split; [symmetry; exact T|]. apply (proj2 (filter_In _ _ _)). split; [exact Ik|]. exact (proj1 (ruOnset_class s s2 k false (ex_intro _ ks (conj A B)))).
Qed.
Lemma rime_code v e b : rime v e b = true -> In v vowelCodes.
Proof. unfold rime, oneOfV. intros H. apply andb_prop in H. destruct H as (H & _). apply existsb_exists in H. destruct H as (u & I & H). apply Z.eqb_eq in H. subst u. exact I. Qed.
Lemma can_range x : CanSay x -> In (saVowel x) vowelCodes /\ In (saTone x) allTones.
Proof.
  intros (k & m & M & T & H).
  assert (Ik : In k allClasses).
  { destruct H as [(ks & A & B & _)|(ks & ri & A & B & _)]; [exact (proj1 (proj2 (onset_class _ _ k (ex_intro _ ks (conj A B)))))|exact (proj1 (proj2 (ruOnset_class _ _ k ri (ex_intro _ ks (conj A B)))))]. }
  assert (Kv : k <> IC_INVALID) by (intros ->; repeat (destruct Ik as [Ik|Ik]; [discriminate Ik|]); exact Ik).
  apply GrammarIff.toned_iff in T; [|exact Kv|exact M]. split.
  - destruct H as [(ks & A & B & R & W)|(ks & ri & A & B & R)]; [exact (rime_code _ _ _ R)|]. unfold ruRime in R. apply orb_prop in R. destruct R as [R|R].
    + rewrite !andb_true_iff in R. destruct R as ((R & _) & _). exact (rime_code _ _ _ R).
    + rewrite !andb_true_iff in R. destruct R as ((_ & R) & _). apply oneOfV1 in R. rewrite R. cbn [In vowelCodes]. tauto.
  - rewrite T. destruct k, m, (dead (saVowel x) (saFinal x)), (short (saVowel x)); try congruence; cbn [In allTones]; cbv; tauto.
Qed.
Lemma sayable_all x : In x sayable <-> CanSay x.
Proof.
  unfold sayable. rewrite in_flat_map. split.
  - intros (v & _ & H). apply (proj1 (in_flat_map _ _ _)) in H. destruct H as (e & _ & H). apply (proj1 (sayable_at _ _ _)) in H. destruct H as (H1 & H2 & H3 & H4). assumption.
  - intros C. destruct (can_range x C) as (V & T). exists (saVowel x). split; [exact V|]. apply (proj2 (in_flat_map _ _ _)). exists (saFinal x).
    split; [destruct (saFinal x); cbn [In allFinals]; tauto|]. apply (proj2 (sayable_at _ _ _)). auto.
Qed.
Lemma nodup_flat {A B} (f : A -> list B) (key : B -> A) l : NoDup l -> (forall a, NoDup (f a)) -> (forall a b, In a l -> In b (f a) -> key b = a) -> NoDup (flat_map f l).
Proof.
  intros N F K. induction N as [|a l Na N IH]; [constructor|]. cbn [flat_map].
  assert (X : NoDup (flat_map f l)) by (apply IH; intros; apply K; [right|]; assumption).
  assert (Y : forall b, In b (f a) -> ~ In b (flat_map f l)).
  { intros b I J. apply in_flat_map in J. destruct J as (a' & Ia & J). rewrite <- (K a b (or_introl eq_refl) I), (K a' b (or_intror Ia) J) in Na. exact (Na Ia). }
  specialize (F a). clear -X Y F. induction F as [|b l' Nb N IH]; [exact X|]. cbn [app]. constructor; [|apply IH; intros c C; apply Y; right; exact C].
  rewrite in_app_iff. intros [H|H]; [exact (Nb H)|exact (Y b (or_introl eq_refl) H)].
Qed.
Lemma keyed_NoDup : NoDup keyed.
Proof.
  unfold keyed. apply (NoDup_map_inv fst). rewrite map_map. cbn [fst]. rewrite map_id. exact keys_NoDup.
Qed.
Lemma sayable_NoDup : NoDup sayable.
Proof.
  unfold sayable. apply (nodup_flat _ saVowel).
  - repeat (constructor; [cbn [In]; intros X; repeat (destruct X as [X|X]; [discriminate X|]); exact X|]). constructor.
  - intros v. apply (nodup_flat _ saFinal).
    + repeat (constructor; [cbn [In]; intros X; repeat (destruct X as [X|X]; [discriminate X|]); exact X|]). constructor.
    + intros e. unfold sayableAt. cbv zeta.
      apply (nodup_flat _ (fun x => ((saSound x, saSecond x), (filter (onsetb (saSound x) (saSecond x)) allClasses, filter (fun k => ruOnsetb (saSound x) (saSecond x) k true) allClasses,
        filter (fun k => ruOnsetb (saSound x) (saSecond x) k false) allClasses)))); [exact keyed_NoDup| |].
      * intros (a & ((pk & r1) & r0)). apply FinFun.Injective_map_NoDup; [intros t t' E; injection E as E; exact E|]. apply NoDup_filter.
        repeat (constructor; [cbn [In]; intros X; repeat (destruct X as [X|X]; [discriminate X|]); exact X|]). constructor.
      * intros q x Q H. unfold keyed in Q. apply (proj1 (in_map_iff _ _ _)) in Q. destruct Q as ((s & s2) & <- & Q). cbn [fst snd] in H. apply (proj1 (in_map_iff _ _ _)) in H. destruct H as (t & <- & _). reflexivity.
    + intros e x _ H. apply (proj1 (sayable_at _ _ _)) in H. destruct H as (H1 & H2 & H3 & H4). assumption.
  - intros v x _ H. apply (proj1 (in_flat_map _ _ _)) in H. destruct H as (e & _ & H). apply (proj1 (sayable_at _ _ _)) in H. destruct H as (H1 & H2 & H3 & H4). assumption.
Qed.
(** There are 37074 of them. *)
Theorem C101_count : exists all, NoDup all /\ N.of_nat (length all) = 37074%N /\
  forall x, In x all <-> (exists w brk l s v, StronglySorted lt brk /\ Forall (fun x => x <= length w) brk /\ pronounced libthai_ct w None brk l /\
     In s l /\ In v s /\ literal v = [] /\ saidOf v = x).
Proof.
  exists sayable. split; [exact sayable_NoDup|]. split; [vm_compute; reflexivity|]. intros x. rewrite sayable_all. symmetry. apply C101_exactly.
Qed.
Print Assumptions C101_count.

(** A syllable "khruan" is found in some text ("ครวน"), a syllable "khwon" or
    "kiy" in none. *)
Definition found (x : Said) : Prop := exists w brk l s v, StronglySorted lt brk /\ Forall (fun x => x <= length w) brk /\
  pronounced libthai_ct w None brk l /\ In s l /\ In v s /\ literal v = [] /\ saidOf v = x.
Example C101_case : found (say KHA SEC_RA V_UAA KON SAMAN) /\ ~ found (say KHA SEC_WA V_O KON SAMAN) /\ ~ found (say KA SEC_NONE V_I KOEY SAMAN).
Proof.
  split; [|split].
  - apply (proj2 (C101_exactly _)). exists LOWP, SAMAN. split; [discriminate|]. cbn [saSound saSecond saVowel saFinal saTone]. split; [apply toned_ok; [discriminate|discriminate|reflexivity]|].
    left. exists [HIGH; LOWP]. split; [unfold onsets; cbn [In]; tauto|]. split; [right; left; reflexivity|]. split; [reflexivity|discriminate].
  - intros F. apply (proj1 (C101_exactly _)) in F. destruct F as (k & m & M & T & [(ks & A & B & R & W)|(ks & ri & A & B & R)]); cbn [saSound saSecond saVowel saFinal saTone] in *.
    + discriminate (W eq_refl eq_refl).
    + repeat (destruct A as [A|A]; [discriminate A|]). exact A.
  - intros F. apply (proj1 (C101_exactly _)) in F. destruct F as (k & m & M & T & [(ks & A & B & R & W)|(ks & ri & A & B & R)]); cbn [saSound saSecond saVowel saFinal saTone] in *.
    + destruct m; discriminate R.
    + repeat (destruct A as [A|A]; [discriminate A|]). exact A.
Qed.

(** Prop_Regular.v - property C85: a word written syllable by syllable in
    regular spelling is read that way, however long it is. *)
From Coq Require Import String Ascii List NArith ZArith Bool Arith Lia Sorted.
From Verif Require Import Spec Base ThUni ThCons Syl OrderProofs PronDag Utf Dict Parser Prop_Syl
  ParserSpec ParserFacts ParserInv ParserResult ParserListed ParserDict DictProofs GrammarIff GrammarWord ParserProduct Prop_Parser Prop_Product Prop_Sweep Prop_Sweep2 Prop_Sweep3 Prop_Output GroupProofs
  Grammar Prop_Grammar.
Import ListNotations.
Local Open Scope nat_scope.

(** ** Regular spelling *)
(** An initial: one consonant, a cluster, or a consonant led by HO HIP. *)
Inductive Onset : list N -> EInitConsSound -> ESecInitCons -> EInitConsClass -> Prop :=
| On_one c s k : thaiConsonant c -> Prop_Syl.listed soundGroups s c -> Prop_Syl.listed classGroups k c ->
    Onset [c] s SEC_NONE k
| On_double ls s s2 k : InDouble ls s s2 k -> Onset ls s s2 k.
(** The spellings of closed syllables and their tone marks are those of C50. *)
Definition bareForm (f : Closed) : Prop := cBefore f = [] /\ cOn f = [] /\ cAfter f = [].
(** [next] is what is written after the syllable. *)
Definition beforeRo (ls next : list N) : Prop :=
  exists c, ls = [c; UTH_RO_RUA] /\ hd_error next = Some UTH_RO_RUA.
Definition beforeYo (next : list N) : Prop :=
  exists r, next = UTH_YO_YAK :: r /\ endOrSyl r.
Inductive RegularSyl (next : list N) : list N -> Said -> Prop :=
| RS_open f ls s s2 k mark m t : In f (formOE :: openForms) -> Onset ls s s2 k -> In (mark, m) toneMarks ->
    tonedAs k m (fDead f) (fShort f) t ->
    (* "เก" is not read so before a YO YAK that stands at the end or before a
       syllable, "เกร" not before RO RUA (see [C85_case]) *)
    ~ (fBefore f = letters "เ" /\ fOn f = [] /\ fAfter f = [] /\ beforeYo next) ->
    ~ (fOn f ++ mark ++ fAfter f = [] /\ beforeRo ls next) ->
    RegularSyl next (fBefore f ++ ls ++ fOn f ++ mark ++ fAfter f) (say s s2 (fVowel f) (fEnd f) t)
| RS_closed f ls s s2 k mark m t e ec : In f closedForms -> Onset ls s s2 k -> In (mark, m) (marksOf f) ->
    thaiConsonant e -> Prop_Syl.listed endGroups ec e -> ec <> EC_NONE -> ~ In e (cNot f) ->
    tonedAs k m (stopFinal ec) (cShort f) t -> ~ (bareForm f /\ s2 = SEC_WA) ->
    ~ (cOn f ++ mark ++ cAfter f = [] /\ beforeRo ls [e]) ->
    RegularSyl next (cBefore f ++ ls ++ cOn f ++ mark ++ cAfter f ++ [e]) (say s s2 (cVowel f) ec t).
(** What follows neither continues nor silences anything of the syllable. *)
Definition quiet (next : list N) : Prop := endOrSyl next /\ ~ In UTH_THANTHAKHAT (firstn 3 next).

(** ** The readings *)
Lemma lead_in c : leadVowel c = true -> In c [0x0e40; 0x0e41; 0x0e42; 0x0e43; 0x0e44]%N.
Proof.
  unfold leadVowel. rewrite andb_true_iff, !N.leb_le. intros H.
  assert (c = 0x0e40 \/ c = 0x0e41 \/ c = 0x0e42 \/ c = 0x0e43 \/ c = 0x0e44)%N as [->|[->|[->|[->| ->]]]] by lia; cbn; tauto.
Qed.
Lemma cons_thai c : thaiConsonant c <-> consonant c = true.
Proof.
  unfold thaiConsonant, consonant. rewrite !andb_true_iff, !negb_true_iff, !N.leb_le, !N.eqb_neq.
  unfold UTH_RU, UTH_LU. tauto.
Qed.
Lemma starts_in c : startsSyl c = true -> In c (allCons ++ [0x0e40; 0x0e41; 0x0e42; 0x0e43; 0x0e44]%N).
Proof.
  unfold startsSyl. rewrite orb_true_iff. intros [H|H]; apply in_or_app.
  - left. apply allCons_in, cons_thai. exact H.
  - right. apply lead_in. exact H.
Qed.
(** What holds of the first letter. *)
Definition plainStart (c : N) : bool :=
  negb (isMark c) && negb (memN c (letters "ะาำิีึืุูั็์")).
Lemma starts_plain c : startsSyl c = true -> plainStart c = true.
Proof.
  intros H. assert (A : forallb plainStart (allCons ++ [0x0e40; 0x0e41; 0x0e42; 0x0e43; 0x0e44]%N) = true) by (vm_compute; reflexivity).
  rewrite forallb_forall in A. apply A, starts_in. exact H.
Qed.
Lemma plain_not c x : plainStart c = true -> In x (letters "ะาำิีึืุูั็์") -> c <> x.
Proof.
  unfold plainStart. rewrite andb_true_iff, !negb_true_iff. intros (_ & H) I E. subst x.
  apply memN_In in I. congruence.
Qed.
Lemma mark_app mk m u : In (mk, m) toneMarks -> match u with [] => True | c :: _ => isMark c = false end ->
  mark (mk ++ u) = (m, u).
Proof.
  intros H Hu. repeat (destruct H as [H|H]; [injection H as <- <-; try reflexivity|]); [|destruct H].
  cbn [app]. destruct u as [|c u]; [reflexivity|]. cbn [mark]. rewrite Hu. reflexivity.
Qed.
Lemma nx_hd c r : quiet (c :: r) -> plainStart c = true.
Proof. intros (A & _). apply starts_plain. exact A. Qed.
Lemma nx_not next x : quiet next -> In x (letters "ะาำิีึืุูั็์") -> hd_error next <> Some x.
Proof.
  intros Q I E. destruct next as [|c r]; [discriminate|]. injection E as ->.
  exact (plain_not x x (nx_hd x r Q) I eq_refl).
Qed.
Lemma nx_mark next : quiet next -> match next with [] => True | c :: _ => isMark c = false end.
Proof.
  intros Q. destruct next as [|c r]; [exact I|]. pose proof (nx_hd c r Q) as H. unfold plainStart in H.
  apply andb_true_iff in H. destruct H as (H & _). apply negb_true_iff in H. exact H.
Qed.
Lemma nx_silent next : quiet next -> silent next = next.
Proof.
  intros (_ & N3). destruct next as [|a [|b r]]; try reflexivity. cbn [silent].
  destruct (N.eqb_spec b UTH_THANTHAKHAT); [|rewrite andb_false_r; reflexivity]. subst b. exfalso. apply N3. cbn. tauto.
Qed.
Lemma nx_silentIU next : quiet next -> silentIU next = next.
Proof.
  intros (_ & N3). destruct next as [|a [|b [|c r]]]; try reflexivity. cbn [silentIU].
  destruct (N.eqb_spec c UTH_THANTHAKHAT); [|rewrite andb_false_r; reflexivity]. subst c. exfalso. apply N3. cbn. tauto.
Qed.
Lemma nx_silent2 next : quiet next -> silent2 next = next.
Proof.
  intros (_ & N3). destruct next as [|a [|b [|c r]]]; try reflexivity. cbn [silent2].
  destruct (N.eqb_spec c UTH_THANTHAKHAT); [|rewrite andb_false_r; reflexivity]. subst c. exfalso. apply N3. cbn. tauto.
Qed.
Lemma nx_any next : quiet next -> silentAny next = next.
Proof.
  intros Q. unfold silentAny. rewrite nx_silent, nx_silentIU, nx_silent2 by exact Q. rewrite Nat.ltb_irrefl. reflexivity.
Qed.
Lemma nx_both next : quiet next -> (if length (silent next) <? length next then silent next else silentIU next) = next.
Proof. intros Q. rewrite nx_silent, nx_silentIU, Nat.ltb_irrefl by exact Q. reflexivity. Qed.
Lemma nx_cons_silent e next : quiet next -> silent (e :: next) = e :: next.
Proof.
  intros Q. destruct next as [|c r]; [reflexivity|]. cbn [silent].
  destruct (N.eqb_spec c UTH_THANTHAKHAT) as [E|]; [|rewrite andb_false_r; reflexivity].
  exfalso. apply (nx_not _ UTH_THANTHAKHAT Q); [vm_compute; tauto|]. rewrite E. reflexivity.
Qed.
Lemma nx_cons_silentIU e next : quiet next -> silentIU (e :: next) = e :: next.
Proof.
  intros Q. destruct next as [|c [|d r]]; try reflexivity. cbn [silentIU].
  destruct (N.eqb_spec d UTH_THANTHAKHAT) as [E|]; [|rewrite andb_false_r; reflexivity].
  exfalso. destruct Q as (_ & N3). apply N3. rewrite E. cbn. tauto.
Qed.
Lemma nx_final next no e : quiet next -> canEnd e -> ~ In e no -> Final no (e :: next) (finalOf e) next.
Proof. intros Q A B. rewrite <- (nx_any next Q) at 2. constructor; assumption. Qed.

(** ** Open syllables *)
Inductive RimeOf (o : Grammar.Initial) : list N -> list N -> EVowel -> EEndConsClass -> ETone -> list N -> Prop :=
| RO_plain t v e m r : Rime false o t v e m r false -> RimeOf o [] t v e m r
| RO_e t v e m r : RimeE o t v e m r false -> RimeOf o [UTH_SARA_E] t v e m r
| RO_lead l t v e m r : RimeL l t v e m r false -> RimeOf o [l] t v e m r.
Lemma open_rime o next f mk m : quiet next -> oLead o = None -> In f (formOE :: openForms) -> In (mk, m) toneMarks ->
  ~ (fBefore f = letters "เ" /\ fOn f = [] /\ fAfter f = [] /\ beforeYo next) ->
  RimeOf o (fBefore f) (fOn f ++ mk ++ fAfter f ++ next) (fVowel f) (fEnd f) m next.
Proof.
  intros Q Lo Hf Hm NY.
  assert (M : forall u, match u with [] => True | c :: _ => isMark c = false end -> mark (mk ++ u) = (m, u)).
  { intros u Hu. apply mark_app; assumption. }
  assert (NA : hd_error next <> Some UTH_SARA_A) by (apply nx_not; [exact Q|vm_compute; tauto]).
  assert (NT : hd_error next <> Some UTH_MAITAIKHU) by (apply nx_not; [exact Q|vm_compute; tauto]).
  repeat (destruct Hf as [<-|Hf]; [|]); [..|destruct Hf]; cbn [fBefore fOn fAfter fVowel fEnd formOE form app].
  all: repeat match goal with |- context [letters ?x] => let y := eval vm_compute in (letters x) in change (letters x) with y end; cbn [app].
  all: pose proof (nx_silent next Q) as S; pose proof (nx_both next Q) as B; pose proof (nx_mark next Q) as X.
  - rewrite <- S at 2. apply RO_e, E_oe, M. reflexivity.
  - rewrite <- S at 2. apply RO_plain, R_a, M. reflexivity.
  - rewrite <- S at 2. apply RO_plain, R_aa, M. reflexivity.
  - rewrite <- B at 2. apply RO_plain. apply (R_above_open _ _ V_I UTH_SARA_I); [cbn; tauto|]. apply M. exact X.
  - rewrite <- B at 2. apply RO_plain. apply (R_above_open _ _ V_II UTH_SARA_II); [cbn; tauto|]. apply M. exact X.
  - rewrite <- B at 2. apply RO_plain. apply (R_above_open _ _ V_UE UTH_SARA_UE); [cbn; tauto|]. apply M. exact X.
  - rewrite <- S at 2. apply RO_plain, R_uee, M. reflexivity.
  - rewrite <- B at 2. apply RO_plain. apply (R_above_open _ _ V_U UTH_SARA_U); [cbn; tauto|]. apply M. exact X.
  - rewrite <- B at 2. apply RO_plain. apply (R_above_open _ _ V_UU UTH_SARA_UU); [cbn; tauto|]. apply M. exact X.
  - rewrite <- S at 2. apply RO_e, E_e; [apply M; reflexivity|left; exact Lo].
  - apply RO_e. clear NA NT. destruct next as [|c r].
    + rewrite app_nil_r. repeat (destruct Hm as [Hm|Hm]; [injection Hm as <- <-|]); [..|destruct Hm].
      1: apply E_end; left; exact Lo.
      all: apply (E_end_marked o); reflexivity.
    + rewrite <- S at 2. pose proof (nx_hd c r Q) as P. apply E_ee; [apply M; exact X|left; exact Lo| | |].
      * intros Ic. apply (plain_not c c P); [|reflexivity]. destruct Ic as [<-|[<-|[]]]; vm_compute; tauto.
      * intros _ Ic. apply (plain_not c c P); [|reflexivity]. destruct Ic as [<-|[<-|[<-|[<-|[]]]]]; vm_compute; tauto.
      * intros (-> & Er). apply NY. repeat split. exists r. auto.
  - rewrite <- S at 2. apply RO_lead, L_ae, M. reflexivity.
  - rewrite <- S at 2. apply RO_lead, L_aee; [apply M; exact X|exact NA|exact NT].
  - rewrite <- B at 2. apply RO_lead, L_o, M. reflexivity.
  - rewrite <- B at 2. apply RO_lead, L_oo; [apply M; exact X|exact NA].
  - rewrite <- S at 2. apply RO_e, E_au, M. reflexivity.
  - rewrite <- S at 2. apply RO_plain, R_auu, M. reflexivity.
  - rewrite <- S at 2. apply RO_e, E_oee; [apply M; reflexivity|exact NA].
  - rewrite <- S at 2. apply RO_e, E_ia, M. reflexivity.
  - rewrite <- S at 2. apply RO_e, E_iaa; [apply M; reflexivity|exact NA].
  - rewrite <- S at 2. apply RO_e, E_uea, M. reflexivity.
  - rewrite <- S at 2. apply RO_e, E_ueaa; [apply M; reflexivity|exact NA].
  - rewrite <- S at 2. apply RO_plain, R_ua, M. reflexivity.
  - rewrite <- S at 2. apply RO_plain, R_uaa; [apply M; reflexivity|exact NA].
  - rewrite <- S at 2. apply RO_plain, R_am, M. reflexivity.
  - rewrite <- S at 2. apply RO_lead, L_aimuan, M. exact X.
  - rewrite <- S at 2. apply RO_lead, L_ai, M. exact X.
  - rewrite <- S at 2. apply RO_e, E_ao; [apply M; reflexivity|exact NA].
Qed.
Lemma closed_rime o next f mk m e : quiet next -> oLead o = None -> oVowel o = None -> In f closedForms -> In (mk, m) (marksOf f) ->
  canEnd e -> ~ In e (cNot f) -> ~ (bareForm f /\ oSecond o = SEC_WA) ->
  RimeOf o (cBefore f) (cOn f ++ mk ++ cAfter f ++ e :: next) (cVowel f) (finalOf e) m next.
Proof.
  intros Q Lo Vo Hf Hm Ce Ne NB. pose proof (marksOf_in f (mk, m) Hm) as Hm'.
  assert (M : forall u, match u with [] => True | c :: _ => isMark c = false end -> mark (mk ++ u) = (m, u)).
  { intros u Hu. apply mark_app; assumption. }
  assert (Cc : consonant e = true) by apply Ce.
  assert (X : isMark e = false) by (apply cons_notMark; exact Cc).
  assert (EO : e <> UTH_O_ANG) by (intros ->; destruct Ce as (_ & F); apply F; vm_compute; reflexivity).
  assert (NA : hd_error next <> Some UTH_SARA_A) by (apply nx_not; [exact Q|vm_compute; tauto]).
  assert (EA : e <> UTH_SARA_A) by (intros ->; vm_compute in Cc; discriminate Cc).
  pose proof (nx_cons_silent e next Q) as S. pose proof (nx_cons_silentIU e next Q) as SU.
  assert (F : forall no, ~ In e no -> Final no (e :: next) (finalOf e) next) by (intros no; apply nx_final; assumption).
  assert (F' : forall no, ~ In e no -> Final no (silent (e :: next)) (finalOf e) next) by (rewrite S; exact F).
  repeat (destruct Hf as [<-|Hf]; [|]); [..|destruct Hf]; cbn [cBefore cOn cAfter cVowel cNot closed app] in *.
  all: repeat match goal with |- context [letters ?x] => let y := eval vm_compute in (letters x) in change (letters x) with y end; cbn [app].
  all: try (assert (mk = [] /\ m = SAMAN) as (-> & ->) by (destruct Hm as [Hm|[]]; injection Hm; auto)); cbn [app].
  all: assert (N0 : ~ In e []) by (intros []).
  all: assert (NE : hd_error (e :: next) <> Some UTH_SARA_A) by (cbn; congruence).
  - apply RO_plain. destruct (tone_eqb m SAMAN) eqn:Em.
    + apply tone_eqb_eq in Em. subst m.
      assert (mk = []) as -> by (repeat (destruct Hm' as [Hm'|Hm']; [congruence|]); destruct Hm').
      apply R_an, FS_final, F. exact Ne.
    + apply (R_an_marked _ _ _ m (e :: next)); [apply M; exact X|intros ->; discriminate Em|apply F; exact Ne].
  - apply RO_plain. apply (R_aa_final _ _ _ _ (e :: next)); [apply M; reflexivity|]. apply FS_final, F'. exact N0.
  - apply RO_plain. apply (R_above_final _ _ V_I UTH_SARA_I _ _ (e :: next)); [cbn; tauto|apply M; exact X|exact SU|apply F'; exact Ne].
  - apply RO_plain. apply (R_above_final _ _ V_II UTH_SARA_II _ _ (e :: next)); [cbn; tauto|apply M; exact X|exact SU|apply F'; exact Ne].
  - apply RO_plain. apply (R_above_final _ _ V_UE UTH_SARA_UE _ _ (e :: next)); [cbn; tauto|apply M; exact X|exact SU|apply F'; exact N0].
  - apply RO_plain. apply (R_uee_final _ _ _ _ (e :: next)); [apply M; exact X|apply F; exact N0].
  - apply RO_plain. apply (R_above_final _ _ V_U UTH_SARA_U _ _ (e :: next)); [cbn; tauto|apply M; exact X|exact SU|apply F'; exact N0].
  - apply RO_plain. apply (R_above_final _ _ V_UU UTH_SARA_UU _ _ (e :: next)); [cbn; tauto|apply M; exact X|exact SU|apply F'; exact N0].
  - apply RO_e, E_e_final, F. exact N0.
  - apply RO_e. apply (E_ee_final _ _ _ e next); [apply M; exact X|left; exact Lo|exact EO| |apply FS_final, F'; exact N0].
    intros (-> & _). apply Ne. vm_compute. tauto.
  - apply RO_lead. apply (L_ae_final _ _ (e :: next)); [reflexivity|apply F; exact N0].
  - apply RO_lead. apply (L_aee_final _ _ (e :: next)); [apply M; exact X|apply F'; exact N0].
  - apply RO_plain. apply (R_o _ _ _ _ (e :: next)); [apply M; exact X|exact Vo| |reflexivity|].
    + intros E2. apply NB. split; [repeat split|exact E2].
    + apply F. intros [I|[I|[I|[I|[]]]]]; [apply Ne; left; exact I|apply Ne; right; right; left; exact I|apply Ne; right; left; exact I|].
      apply EO. symmetry. exact I.
  - apply RO_lead. apply (L_oo_final _ _ (e :: next)); [apply M; exact X|exact SU|apply FS_final, F'; exact N0].
  - apply RO_plain, R_au, F'. exact N0.
  - apply RO_plain. apply (R_auu_final _ _ _ _ (e :: next)); [apply M; reflexivity|apply F'; exact N0].
  - apply RO_e. apply (E_oe_final _ _ _ (e :: next)); [apply M; exact X|apply F'; exact N0].
  - apply RO_e. apply (E_iaa_final _ _ _ (e :: next)); [apply M; reflexivity|exact NE|apply FS_final, F'; exact N0].
  - apply RO_e. apply (E_ueaa_final _ _ _ (e :: next)); [apply M; reflexivity|exact NE|apply F'; exact N0].
  - apply RO_plain. apply (R_ua_final _ _ _ _ (e :: next)); [apply M; reflexivity|apply F; exact N0].
Qed.

(** ** Whole syllables *)
Lemma sound_of c s : Prop_Syl.listed soundGroups s c -> soundOf c = s.
Proof. intros H. symmetry. exact (sound_unique s c H). Qed.
Lemma class_of c k : Prop_Syl.listed classGroups k c -> classOf c = k.
Proof. intros H. symmetry. exact (class_unique k c H). Qed.
Lemma final_of e ec : Prop_Syl.listed endGroups ec e -> finalOf e = ec.
Proof. intros H. symmetry. revert H. apply (uniqueIn_spec ec_eqb ec_eqb_eq). vm_compute. reflexivity. Qed.
Lemma onset_initial ls s s2 k u : Onset ls s s2 k -> ~ beforeRo ls u ->
  InitialAt false (ls ++ u) (Grammar.mkInitial None s k s2 None) u.
Proof.
  intros H NR.
  assert (R : forall c, ls = [c; UTH_RO_RUA] -> noRo u).
  { intros c E. destruct u as [|x u]; [exact I|]. intros ->. apply NR. exists c. auto. }
  destruct H as [c s k Hc Hs Hk|ls s s2 k D].
  - apply sound_of in Hs. apply class_of in Hk. subst. apply I_one. apply cons_thai. exact Hc.
  - destruct D as [firsts second s2 c s k Hg Hc Hs Hk|c s k Hc Hs Hk|c s Hc Hs].
    + apply sound_of in Hs. apply class_of in Hk. subst s k.
      destruct Hg as [Hg|[Hg|[Hg|[]]]]; injection Hg as <- <- <-.
      * apply (I_ra false c u); [|apply (R c); reflexivity].
        change (In c (letters "ก" ++ letters "ขคด" ++ letters "ต" ++ letters "ทบ" ++ letters "ป" ++ letters "พฟ")) in Hc.
        unfold oneOf. vm_compute in Hc |- *. tauto.
      * apply (I_la false c u); [reflexivity|exact Hc].
      * apply (I_wa false c u); [reflexivity|exact Hc].
    + apply sound_of in Hs. apply class_of in Hk. subst s k. apply (I_false false c u); [reflexivity|exact Hc|apply (R c); reflexivity].
    + apply sound_of in Hs. subst s. apply (I_ho false c u).
      * assert (A : forallb consonant (letters "งญณนมยรลวฬ") = true) by (vm_compute; reflexivity).
        rewrite forallb_forall in A. apply A. exact Hc.
      * assert (A : forallb (fun c => ic_eqb (classOf c) LOWS) (letters "งญณนมยรลวฬ") = true) by (vm_compute; reflexivity).
        rewrite forallb_forall in A. apply ic_eqb_eq, A. exact Hc.
      * intros ->. apply (R UTH_HO_HIP). reflexivity.
Qed.
Lemma rime_reads ls s s2 k b t v e m r x u : Onset ls s s2 k -> ~ beforeRo ls t ->
  RimeOf (Grammar.mkInitial None s k s2 None) b t v e m r -> toned k m (dead v e) (short v) x ->
  u = b ++ ls ++ t -> Reads false u None (say s s2 v e x) r false.
Proof.
  intros O NR R T ->. pose proof (onset_initial ls s s2 k t O NR) as I.
  assert (S : Sounds (Grammar.mkInitial None s k s2 None) v e m (say s s2 v e x)).
  { change (say s s2 v e x) with (say (oSound (Grammar.mkInitial None s k s2 None)) (oSecond (Grammar.mkInitial None s k s2 None)) v e x).
    constructor. exact T. }
  assert (L : Leads (Grammar.mkInitial None s k s2 None) None) by (constructor; reflexivity).
  destruct R as [t v e m r R|t v e m r R|l t v e m r R].
  - eapply Rd_plain; eassumption.
  - eapply Rd_e; eassumption.
  - eapply Rd_lead; eassumption.
Qed.
Definition deadOK (f : Form) : bool :=
  eqb (dead (fVowel f) (fEnd f)) (fDead f) && eqb (short (fVowel f)) (fShort f).
Lemma open_dead f : In f (formOE :: openForms) -> dead (fVowel f) (fEnd f) = fDead f /\ short (fVowel f) = fShort f.
Proof.
  intros H. assert (A : forallb deadOK (formOE :: openForms) = true) by (vm_compute; reflexivity).
  rewrite forallb_forall in A. specialize (A f H). apply andb_true_iff in A. rewrite !eqb_true_iff in A. exact A.
Qed.
Lemma closed_dead f e : In f closedForms -> e <> EC_NONE -> dead (cVowel f) e = stopFinal e /\ short (cVowel f) = cShort f.
Proof.
  intros H Ne. split; [destruct e; try reflexivity; congruence|].
  assert (A : forallb (fun f => eqb (short (cVowel f)) (cShort f)) closedForms = true) by (vm_compute; reflexivity).
  rewrite forallb_forall in A. specialize (A f H). apply eqb_prop in A. exact A.
Qed.
Lemma regular_reads next t x : quiet next -> RegularSyl next t x -> Reads false (t ++ next) None x next false.
Proof.
  intros Q [f ls s s2 k mk m tn Hf O Hm T NY NR|f ls s s2 k mk m tn e ec Hf O Hm He Hec Nec Ne T NB NR].
  - destruct (open_dead f Hf) as (E1 & E2). rewrite <- E1, <- E2 in T.
    eapply (rime_reads ls s s2 k); [exact O| |apply (open_rime _ next f mk m Q); [reflexivity|exact Hf|exact Hm|exact NY]|exact T|].
    + intros (c & E & E'). apply NR. destruct (fOn f ++ mk ++ fAfter f) as [|y u] eqn:X.
      * split; [reflexivity|]. exists c. split; [exact E|]. rewrite !app_assoc, <- (app_assoc (fOn f)), X in E'. exact E'.
      * exfalso. assert (Y : hd_error (y :: u) = Some UTH_RO_RUA).
        { rewrite <- E', !app_assoc, <- (app_assoc (fOn f)), X. reflexivity. }
        injection Y as ->. clear - X Hf Hm.
        assert (A : forallb (fun f => forallb (fun mt => match fOn f ++ fst mt ++ fAfter f with c :: _ => negb (c =? UTH_RO_RUA)%N | [] => true end) toneMarks) (formOE :: openForms) = true)
          by (vm_compute; reflexivity).
        rewrite forallb_forall in A. specialize (A f Hf). rewrite forallb_forall in A. specialize (A (mk, m) Hm). cbn [fst] in A. rewrite X in A.
        rewrite N.eqb_refl in A. discriminate A.
    + rewrite <- !app_assoc. reflexivity.
  - pose proof (final_of e ec Hec) as Fe. destruct (closed_dead f ec Hf Nec) as (E1 & E2). rewrite <- E1, <- E2 in T.
    assert (Ce : canEnd e) by (split; [apply cons_thai; exact He|congruence]). subst ec.
    eapply (rime_reads ls s s2 k); [exact O| |apply (closed_rime _ next f mk m e Q); [reflexivity|reflexivity|exact Hf|exact Hm|exact Ce|exact Ne|exact NB]|exact T|].
    + intros (c & E & E'). apply NR. destruct (cOn f ++ mk ++ cAfter f) as [|y u] eqn:X.
      * split; [reflexivity|]. exists c. split; [exact E|]. rewrite !app_assoc, <- (app_assoc (cOn f)), X in E'. exact E'.
      * exfalso. assert (Y : hd_error (y :: u) = Some UTH_RO_RUA).
        { rewrite <- E', !app_assoc, <- (app_assoc (cOn f)), X. reflexivity. }
        injection Y as ->. clear - X Hf Hm. apply marksOf_in in Hm.
        assert (A : forallb (fun f => forallb (fun mt => match cOn f ++ fst mt ++ cAfter f with c :: _ => negb (c =? UTH_RO_RUA)%N | [] => true end) toneMarks) closedForms = true)
          by (vm_compute; reflexivity).
        rewrite forallb_forall in A. specialize (A f Hf). rewrite forallb_forall in A. specialize (A (mk, m) Hm). cbn [fst] in A. rewrite X in A.
        rewrite N.eqb_refl in A. discriminate A.
    + rewrite <- !app_assoc. reflexivity.
Qed.

(** ** Words *)
(** A word in pieces: regular syllables, and listed words with one of their
    pronunciations; each piece has its letters and its syllables. *)
Definition texts (l : list (list N * SylString)) : list N := concat (map fst l).
Definition readOut (l : list (list N * SylString)) : SylString := inTurn 0 (map fst l) (map snd l).
Definition endsWell (k : list N) : Prop := forall c, nth_error k (length k - 1) = Some c -> ~ strayVowel c.
Inductive Regular (D : list N -> list SylString -> Prop) : list (list N * SylString) -> Prop :=
| Rg_end : Regular D []
| Rg_syl t x l : RegularSyl (texts l) t x -> (forall k r strs, ~ wordAt D (t ++ texts l) k r strs) ->
    Regular D l -> Regular D ((t, [sylAt x (Z.of_nat (length t))]) :: l)
| Rg_word k s strs l : D k strs -> In s strs -> Forall (fun c => thaiLetter c = true) k -> endsWell k ->
    quiet (k ++ texts l) -> endOrSyl (texts l) -> Regular D l -> Regular D ((k, s) :: l).

Lemma onset_letters ls s s2 k : Onset ls s s2 k -> ls <> [] /\ Forall (fun c => consonant c = true) ls.
Proof.
  assert (A : forall g c, forallb consonant (letters g) = true -> In c (letters g) -> consonant c = true).
  { intros g c H I. rewrite forallb_forall in H. auto. }
  intros [c s' k' Hc _ _|ls' s' s2' k' D].
  - split; [discriminate|]. constructor; [apply cons_thai; exact Hc|constructor].
  - destruct D as [firsts second t c s' k' Hg Hc _ _|c s' k' Hc _ _|c s' Hc _]; (split; [discriminate|]).
    + repeat (destruct Hg as [Hg|Hg]; [injection Hg as <- <- <-; constructor; [revert Hc; apply A; vm_compute; reflexivity|repeat constructor]|]). destruct Hg.
    + constructor; [revert Hc; apply A; vm_compute; reflexivity|repeat constructor].
    + constructor; [reflexivity|constructor; [revert Hc; apply A; vm_compute; reflexivity|constructor]].
Qed.
(** Letters of regular spelling; none silences. *)
Definition goodLetter (c : N) : bool := thaiLetter c && negb (c =? UTH_THANTHAKHAT)%N.
Lemma cons_good c : consonant c = true -> goodLetter c = true.
Proof.
  intros H. assert (A : forallb goodLetter allCons = true) by (vm_compute; reflexivity).
  rewrite forallb_forall in A. apply A, allCons_in, cons_thai, H.
Qed.
Lemma form_good f mk m : In f (formOE :: openForms) -> In (mk, m) toneMarks ->
  forallb goodLetter (fBefore f ++ fOn f ++ mk ++ fAfter f) = true.
Proof.
  intros Hf Hm.
  assert (A : forallb (fun f => forallb (fun mt => forallb goodLetter (fBefore f ++ fOn f ++ fst mt ++ fAfter f)) toneMarks) (formOE :: openForms) = true)
    by (vm_compute; reflexivity).
  rewrite forallb_forall in A. specialize (A f Hf). rewrite forallb_forall in A. exact (A (mk, m) Hm).
Qed.
Lemma closed_good f mk m : In f closedForms -> In (mk, m) toneMarks ->
  forallb goodLetter (cBefore f ++ cOn f ++ mk ++ cAfter f) = true.
Proof.
  intros Hf Hm.
  assert (A : forallb (fun f => forallb (fun mt => forallb goodLetter (cBefore f ++ cOn f ++ fst mt ++ cAfter f)) toneMarks) closedForms = true)
    by (vm_compute; reflexivity).
  rewrite forallb_forall in A. specialize (A f Hf). rewrite forallb_forall in A. exact (A (mk, m) Hm).
Qed.
Record shapedSyl (t : list N) : Prop := {
  ss_two : 2 <= length t;
  ss_good : Forall (fun c => goodLetter c = true) t;
  ss_start : endOrSyl t;
  ss_last : endsWell t
}.
Definition startOK (b : list N) : bool := match b with [] => true | c :: _ => leadVowel c end.
Definition strayb (c : N) : bool := memN c [UTH_SARA_AE; UTH_SARA_O; UTH_SARA_AI_MAIMUAN; UTH_SARA_AI_MAIMALAI].
Lemma strayb_ok c : strayVowel c -> strayb c = true.
Proof. unfold strayVowel. intros [->|[->|[->| ->]]]; reflexivity. Qed.
Lemma endsWell_last t : strayb (last t 0%N) = false -> endsWell t.
Proof.
  intros H c Hc X. apply strayb_ok in X. destruct t as [|a t] using rev_ind; [discriminate|].
  rewrite last_last in H. rewrite app_length, nth_error_app2 in Hc by (cbn; lia). cbn [length] in Hc.
  replace (_ - _) with 0 in Hc by lia. injection Hc as ->. congruence.
Qed.
Lemma cons_strayb c : consonant c = true -> strayb c = false.
Proof.
  intros H. assert (A : forallb (fun c => negb (strayb c)) allCons = true) by (vm_compute; reflexivity).
  rewrite forallb_forall in A. apply negb_true_iff, A, allCons_in, cons_thai, H.
Qed.
Lemma last_app_ne {A} (a b : list A) d : b <> [] -> last (a ++ b) d = last b d.
Proof.
  intros H. destruct b as [|x b] using rev_ind; [congruence|]. rewrite app_assoc, !last_last. reflexivity.
Qed.
Lemma last_in {A} (l : list A) d : l <> [] -> In (last l d) l.
Proof. intros H. destruct l as [|x l] using rev_ind; [congruence|]. rewrite last_last, in_app_iff. right. left. reflexivity. Qed.
Lemma regular_shape next t x : RegularSyl next t x -> shapedSyl t.
Proof.
  intros [f ls s s2 k mk m tn Hf O Hm T NY NR|f ls s s2 k mk m tn e ec Hf O Hm He Hec Nec Ne T NB NR];
    destruct (onset_letters _ _ _ _ O) as (Nl & Fl).
  - pose proof (form_good f mk m Hf Hm) as G. rewrite !forallb_app, !andb_true_iff, !forallb_forall, <- !Forall_forall in G.
    destruct G as (G1 & G2 & G3 & G4).
    assert (Gl : Forall (fun c => goodLetter c = true) ls) by (revert Fl; apply Forall_impl; exact cons_good).
    assert (A : forallb (fun f => startOK (fBefore f) && (1 <=? length (fBefore f ++ fOn f ++ fAfter f)) &&
      forallb (fun mt => negb (strayb (last (fOn f ++ fst mt ++ fAfter f) 0%N))) toneMarks) (formOE :: openForms) = true)
      by (vm_compute; reflexivity).
    rewrite forallb_forall in A. specialize (A f Hf). rewrite !andb_true_iff in A. destruct A as ((A1 & A2) & A3).
    apply Nat.leb_le in A2. rewrite forallb_forall in A3. specialize (A3 (mk, m) Hm). cbn [fst] in A3. apply negb_true_iff in A3.
    constructor.
    + assert (length ls <> 0) by (destruct ls; cbn; congruence). rewrite !app_length in A2. rewrite !app_length. lia.
    + rewrite !Forall_app. auto.
    + destruct (fBefore f) as [|b bs]; cbn [app endOrSyl startOK] in *.
      * destruct ls as [|c ls]; [congruence|]. cbn. inversion Fl; subst. unfold startsSyl. rewrite H1. reflexivity.
      * unfold startsSyl. rewrite A1, orb_true_r. reflexivity.
    + apply endsWell_last. destruct (list_eq_dec N.eq_dec (fOn f ++ mk ++ fAfter f) []) as [E|E].
      * rewrite E, app_nil_r, last_app_ne by exact Nl. apply cons_strayb. rewrite Forall_forall in Fl. apply Fl, last_in, Nl.
      * rewrite (last_app_ne (fBefore f)), (last_app_ne ls); [exact A3|exact E|]. intros X. apply app_eq_nil in X. tauto.
  - pose proof (closed_good f mk m Hf (marksOf_in f _ Hm)) as G. rewrite !forallb_app, !andb_true_iff, !forallb_forall, <- !Forall_forall in G.
    destruct G as (G1 & G2 & G3 & G4).
    assert (Gl : Forall (fun c => goodLetter c = true) ls) by (revert Fl; apply Forall_impl; exact cons_good).
    assert (A : forallb (fun f => startOK (cBefore f)) closedForms = true) by (vm_compute; reflexivity).
    rewrite forallb_forall in A. specialize (A f Hf). apply cons_thai in He.
    constructor.
    + assert (length ls <> 0) by (destruct ls; cbn; congruence). rewrite !app_length. cbn [length]. lia.
    + rewrite !Forall_app. repeat split; auto. constructor; [apply cons_good; exact He|constructor].
    + destruct (cBefore f) as [|b bs]; cbn [app endOrSyl startOK] in *.
      * destruct ls as [|c ls]; [congruence|]. cbn. inversion Fl; subst. unfold startsSyl. rewrite H1. reflexivity.
      * unfold startsSyl. rewrite A, orb_true_r. reflexivity.
    + apply endsWell_last. rewrite !app_assoc, last_last. apply cons_strayb. exact He.
Qed.
Lemma shape_quiet t next : shapedSyl t -> quiet next -> quiet (t ++ next).
Proof.
  intros [S1 S2 S3 _] Q. destruct t as [|a [|b t]]; [cbn in S1; lia|cbn in S1; lia|]. split; [exact S3|].
  assert (G : forall c, In c (a :: b :: t) -> c <> UTH_THANTHAKHAT).
  { intros c Hc E. rewrite Forall_forall in S2. specialize (S2 c Hc). subst c. discriminate S2. }
  assert (H : forall c, hd_error (t ++ next) = Some c -> c <> UTH_THANTHAKHAT).
  { destruct t as [|c t]; cbn [app hd_error]; intros x Hx E; subst x.
    - apply (nx_not next UTH_THANTHAKHAT Q); [vm_compute; tauto|exact Hx].
    - injection Hx as ->. apply (G UTH_THANTHAKHAT); [cbn; tauto|reflexivity]. }
  cbn [app firstn]. intros [E|[E|E]]; [exact (G a ltac:(cbn; tauto) E)|exact (G b ltac:(cbn; tauto) E)|].
  destruct (t ++ next) as [|c r]; [destruct E|]. destruct E as [E|[]]. exact (H c eq_refl E).
Qed.
Section Walk.
Variable dict : option Dict.
Hypothesis dictWF : dictOKo dict.
Notation D := (entry dict).
Lemma regular_quiet l : Regular D l -> quiet (texts l).
Proof.
  induction 1 as [|t x l R N L IH|k s strs l Hk Hs Ht He Hq Hn L IH].
  - split; [exact I|]. intros [].
  - unfold texts. cbn [map concat fst]. apply shape_quiet; [eapply regular_shape; exact R|exact IH].
  - exact Hq.
Qed.
Lemma regular_thai l : Regular D l -> Forall (fun c => thaiLetter c = true) (texts l).
Proof.
  induction 1 as [|t x l R N L IH|k s strs l Hk Hs Ht He Hq Hn L IH]; [constructor| |]; unfold texts; cbn [map concat fst].
  - apply Forall_app. split; [|exact IH]. apply regular_shape in R. destruct R as [_ G _ _]. revert G. apply Forall_impl.
    intros c G. apply andb_true_iff in G. tauto.
  - apply Forall_app. split; [exact Ht|exact IH].
Qed.
Lemma endsWell_app a b : endsWell b -> b <> [] -> endsWell (a ++ b).
Proof.
  intros H N c Hc. apply H. rewrite app_length, nth_error_app2 in Hc by (destruct b; cbn; [congruence|lia]).
  rewrite <- Hc. f_equal. destruct b; cbn; [congruence|lia].
Qed.
Lemma regular_ends l : Regular D l -> texts l <> [] -> endsWell (texts l).
Proof.
  assert (X : forall t l, endsWell t -> (texts l <> [] -> endsWell (texts l)) -> endsWell (t ++ texts l)).
  { clear l. intros t l H1 H2. destruct (list_eq_dec N.eq_dec (texts l) []) as [E|E]; [rewrite E, app_nil_r; exact H1|].
    apply endsWell_app; auto. }
  induction 1 as [|t x l R N L IH|k s strs l Hk Hs Ht He Hq Hn L IH]; intros Ne; [exfalso; apply Ne; reflexivity| |]; unfold texts; cbn [map concat fst].
  - apply X; [apply regular_shape in R; apply R|exact IH].
  - apply X; [exact He|exact IH].
Qed.
Lemma start_pre (pre t : list N) : startOf (pre ++ t) t = Z.of_nat (length pre).
Proof. unfold startOf. rewrite app_length. f_equal. lia. Qed.
Lemma regular_way pre a l : Regular D (a :: l) ->
  exists es, Way D (pre ++ texts (a :: l)) (texts (a :: l)) false es (texts l) false /\
    (forall m, In m (along (Z.of_nat (length pre)) (shiftEndPos (Z.of_nat (length pre)) (snd a))) -> In m es) /\
    snd a <> [] /\ endPos (last (shiftEndPos (Z.of_nat (length pre)) (snd a)) Blank) = Z.of_nat (length (pre ++ fst a)).
Proof.
  intros R. pose proof (start_pre pre (texts (a :: l))) as S1.
  assert (S2 : startOf (pre ++ texts (a :: l)) (texts l) = Z.of_nat (length (pre ++ fst a))).
  { unfold texts. cbn [map concat]. rewrite app_assoc. apply start_pre. }
  inversion R as [|t x l' RS NW L|k s strs l' Hk Hs Ht He Hq Hn L]; subst; cbn [fst snd] in *.
  - pose proof (regular_quiet l L) as Q. exists (readMoves (pre ++ texts ((t, [sylAt x (Z.of_nat (length t))]) :: l)) (texts ((t, [sylAt x (Z.of_nat (length t))]) :: l)) None x (texts l)).
    split; [|split; [|split; [discriminate|]]].
    + apply W_read; [exact NW|]. exact (regular_reads (texts l) t x Q RS).
    + intros m [<-|[]]. left. apply f_equal2; [exact S1|]. transitivity (sylAt x (Z.of_nat (length (pre ++ t)))); [apply f_equal; exact S2|]. unfold sylAt, SylOf, setEndPos, shiftPos. cbn [endPos].
      destruct (Z.ltb_spec (Z.of_nat (length t)) 0); [lia|]. rewrite app_length. cbn. f_equal. lia.
    + cbn [shiftEndPos map last]. unfold sylAt, SylOf, setEndPos, shiftPos. cbn [endPos].
      destruct (Z.ltb_spec (Z.of_nat (length t)) 0); [lia|]. rewrite app_length. lia.
  - exists (wordMoves (pre ++ texts ((k, s) :: l)) (texts ((k, s) :: l)) strs).
    destruct Hk as (d & v & Ed & Hv & Nk & Hl).
    assert (A : inAbc k).
    { intros c Hc. rewrite Forall_forall in Ht. specialize (Ht c Hc). apply letter_range in Ht. lia. }
    destruct (dictWF d Ed k v Hv Nk A) as (strs' & Hl' & Fa).
    assert (strs' = strs) as ->.
    { destruct Hl as (x1 & Y1 & Y2), Hl' as (x2 & Y3 & Y4). rewrite Y1 in Y3. injection Y3 as <-. rewrite Y2 in Y4. injection Y4 as <-. reflexivity. }
    rewrite Forall_forall in Fa. destruct (Fa s Hs) as ((Ns & _ & Es) & _).
    split; [|split; [|split; [exact Ns|]]].
    + apply (W_word _ _ _ _ k). split; [reflexivity|]. split; [exact Hn|]. exists d, v. auto.
    + intros m Hm. unfold wordMoves. apply in_flat_map. exists s. split; [exact Hs|]. rewrite S1. exact Hm.
    + destruct s as [|u s] using rev_ind; [congruence|]. unfold shiftEndPos. rewrite map_app. cbn [map]. rewrite last_last.
      unfold str_endPos in Es. destruct (s ++ [u]) eqn:X; [apply app_eq_nil in X; destruct X; discriminate|]. rewrite <- X, last_last in Es.
      unfold setEndPos, shiftPos. cbn [endPos]. rewrite Es. destruct (Z.ltb_spec (Z.of_nat (length k)) 0); [lia|]. rewrite app_length. lia.
Qed.
Lemma regular_tail a l : Regular D (a :: l) -> Regular D l.
Proof. intros R. inversion R; subst; assumption. Qed.
Lemma texts_cons a l : texts (a :: l) = fst a ++ texts l. Proof. reflexivity. Qed.
Lemma regular_finishes l : forall pre, Regular D l -> Finishes D (pre ++ texts l) (texts l) false.
Proof.
  induction l as [|a l IH]; intros pre R; [constructor|]. destruct (regular_way pre a l R) as (es & W & _).
  eapply Fn_step; [exact W|]. rewrite texts_cons, app_assoc. apply IH. eapply regular_tail; exact R.
Qed.
Lemma walks_along w s : forall f rest e, s <> [] -> (forall m, In m (along f s) -> Move D w (fst m) (snd m)) ->
  Walks D w (endPos (last s Blank)) rest e -> Walks D w f (s ++ rest) e.
Proof.
  induction s as [|v s IH]; intros f rest e Ns H W; [congruence|]. cbn [app Walks]. split; [apply (H (f, v)); left; reflexivity|].
  destruct s as [|u s]; [exact W|]. apply IH; [discriminate| |exact W]. intros m Hm. apply H. right. exact Hm.
Qed.
Lemma along_nonempty f s : s <> [] -> along f s <> []. Proof. destruct s; [congruence|discriminate]. Qed.
Lemma regular_walks l : forall pre, Regular D l -> Reached D (pre ++ texts l) (texts l) false ->
  Walks D (pre ++ texts l) (Z.of_nat (length pre)) (inTurn (length pre) (map fst l) (map snd l)) (Z.of_nat (length (pre ++ texts l))).
Proof.
  induction l as [|a l IH]; intros pre R Rc; [cbn; rewrite app_nil_r; reflexivity|].
  destruct (regular_way pre a l R) as (es & W & Hm & Ns & El). pose proof (regular_tail a l R) as R'.
  cbn [map inTurn]. apply walks_along.
  - destruct (snd a); [congruence|discriminate].
  - intros m I. exists (texts (a :: l)), false, es, (texts l), false. split; [exact Rc|]. split; [exact W|]. split.
    + rewrite texts_cons, app_assoc. apply regular_finishes. exact R'.
    + rewrite <- surjective_pairing. apply Hm. exact I.
  - rewrite El, texts_cons, app_assoc, <- app_length. apply IH; [exact R'|].
    rewrite <- app_assoc, <- texts_cons. eapply Rc_step; [exact Rc|exact W].
Qed.
End Walk.
Lemma C85_lemma dict brk l : dictOKo dict -> Regular (entry dict) l -> 2 <= length (texts l) ->
  (forall x, In x brk -> x = 0 \/ x = length (texts l)) ->
  exists ps, pronounced libthai_ct (texts l) dict brk ps /\ In (readOut l) ps.
Proof.
  intros Dk R L B.
  assert (B' : Forall (fun b => b <= length (texts l)) brk) by (apply Forall_forall; intros x Hx; destruct (B x Hx); lia).
  assert (Ne : texts l <> []) by (intros E; rewrite E in L; cbn in L; lia).
  destruct (C24_safe libthai_ct (texts l) dict brk libthai_ok Dk B' (regular_ends dict l R Ne)) as (d & f & H).
  pose proof (H f (le_n _)) as E. destruct (flat_good libthai_ct (texts l) dict brk f d Dk E) as (ps & El & _).
  assert (P : pronounced libthai_ct (texts l) dict brk ps) by (exists f, d; auto).
  exists ps. split; [exact P|]. apply (C57_word_walks (texts l) dict brk ps (regular_thai dict l R) L B Dk P).
  exact (regular_walks dict Dk l [] R (Rc_start _ _)).
Qed.
(** A word in regular spelling: however many pieces it has, the parser lists
    its pronunciation. *)
Theorem C85_regular_words dict brk l : dictOKo dict -> Regular (entry dict) l -> 2 <= length (texts l) ->
  (forall x, In x brk -> x = 0 \/ x = length (texts l)) ->
  exists ps, pronounced libthai_ct (texts l) dict brk ps /\ In (readOut l) ps.
Proof. exact (C85_lemma dict brk l). Qed.
Print Assumptions C85_regular_words.
(** Several words, with the word breaks between them. *)
Lemma thai_follows a b : Forall (fun c => thaiLetter c = true) a -> Forall (fun c => thaiLetter c = true) b ->
  2 <= length a -> 2 <= length b -> follows libthai_ct a b.
Proof.
  intros Ta Tb La Lb. rewrite Forall_forall in Ta, Tb.
  assert (Nd : ~ In 46%N b) by (intros H; specialize (Tb _ H); discriminate Tb).
  destruct b as [|x [|y r]]; [cbn in Lb; lia|cbn in Lb; lia|]. constructor.
  - right. exists x. split; [reflexivity|]. apply letter_token, Tb. left. reflexivity.
  - intros X. injection X as ->. apply Nd. left. reflexivity.
  - right. intros e W. apply wordEnd_sorted in W; [|constructor]. destruct W as [W1 W2 W3 W4 W5].
    intros (g & Hg & Cs & [(X & _)|(_ & X)]).
    + apply Nd. eapply nth_error_In. exact X.
    + subst e. destruct W5 as [W5|[[]|W5]]; [cbn in W5; lia|]. apply W5. exists y. split; [reflexivity|].
      apply letter_token, Tb. right. left. reflexivity.
Qed.
Lemma regular_sentence dict ls : Forall (fun l => Regular (entry dict) l /\ 2 <= length (texts l)) ls ->
  sentence libthai_ct (map texts ls).
Proof.
  induction 1 as [|l ls (R & L) F IH]; [exact I|]. cbn [map sentence]. split; [|split; [|exact IH]].
  - intros E. rewrite E in L. cbn in L. lia.
  - destruct F as [|l2 ls (R2 & L2) F]; [exact I|]. cbn [map].
    apply thai_follows; [eapply regular_thai; exact R|eapply regular_thai; exact R2|exact L|exact L2].
Qed.
Lemma C85_lemma2 dict ls : dictOKo dict -> ls <> [] -> Forall (fun l => Regular (entry dict) l /\ 2 <= length (texts l)) ls ->
  exists ps, pronounced libthai_ct (concat (map texts ls)) dict (wordEnds 0 (map texts ls)) ps /\
    In (inTurn 0 (map texts ls) (map readOut ls)) ps.
Proof.
  intros Dk Ne F.
  assert (A : exists pss, Forall2 (fun w l => pronounced libthai_ct w dict [] l) (map texts ls) pss /\
    Forall2 (@In SylString) (map readOut ls) pss).
  { clear Ne. induction F as [|l ls (R & L) F IH]; [exists []; split; constructor|].
    destruct IH as (pss & A1 & A2). destruct (C85_lemma dict [] l Dk R L ltac:(intros x [])) as (ps & P & I).
    exists (ps :: pss). split; constructor; assumption. }
  destruct A as (pss & A1 & A2).
  destruct (C55_word_by_word libthai_ct dict (map texts ls) pss libthai_ok Dk) as (ps & P & H); [|eapply regular_sentence; exact F|exact A1|].
  - destruct ls; [congruence|discriminate].
  - exists ps. split; [exact P|]. apply H. exists (map readOut ls). split; [exact A2|reflexivity].
Qed.
(** ... and any number of such words, with breaks between them. *)
Theorem C85_sentences dict ls : dictOKo dict -> ls <> [] -> Forall (fun l => Regular (entry dict) l /\ 2 <= length (texts l)) ls ->
  exists ps, pronounced libthai_ct (concat (map texts ls)) dict (wordEnds 0 (map texts ls)) ps /\
    In (inTurn 0 (map texts ls) (map readOut ls)) ps.
Proof. exact (C85_lemma2 dict ls). Qed.
Print Assumptions C85_sentences.

(** "to change", then a listed word. *)
Definition exPieces : list (list N * SylString) :=
  [(letters "เปลี่ยน", [SylOf PA SEC_LA V_IAA KON EK 7]); (letters "กา", [SylOf NA SEC_NONE V_AA EC_NONE SAMAN 2])].
Definition noneBegins (w : list N) (v : Syl) : Prop :=
  exists l, pronounced libthai_ct w None [] l /\ forall s, ~ In (v :: s) l.
Lemma none_begins w v : match listingOf w with
  | Ok l => forallb (fun s => match s with x :: _ => negb (sylSame x v) | [] => true end) l
  | _ => false
  end = true -> noneBegins w v.
Proof.
  intros H. destruct (listingOf w) as [l| | |] eqn:E; try discriminate H. exists l. split; [apply listingOf_pronounced; exact E|].
  intros s I. rewrite forallb_forall in H. specialize (H _ I). cbn in H. unfold sylSame in H.
  rewrite syl_eqb_refl, Z.eqb_refl in H. discriminate H.
Qed.
Example C85_case : dictOKo (Some exDict) /\ Regular (entry (Some exDict)) exPieces /\ texts exPieces = letters "เปลี่ยนกา" /\
  readOut exPieces = [SylOf PA SEC_LA V_IAA KON EK 7; SylOf NA SEC_NONE V_AA EC_NONE SAMAN 9] /\
  (* the excluded neighbours: "เก" before "ยน", "เกร" before "รา" *)
  noneBegins (letters "เกยน") (SylOf KA SEC_NONE V_EE EC_NONE SAMAN 2) /\
  noneBegins (letters "เกรรา") (SylOf KA SEC_RA V_EE EC_NONE SAMAN 3).
Proof.
  split; [exact exDict_ok|]. split; [|split; [reflexivity|split; [vm_compute; reflexivity|split; apply none_begins; vm_compute; reflexivity]]].
  assert (P : thaiConsonant UTH_PO_PLA) by (repeat split; lia || discriminate).
  assert (Nn : thaiConsonant UTH_NO_NU) by (repeat split; lia || discriminate).
  destruct (letter_listed _ P) as (A1 & A2 & _). destruct (letter_listed _ Nn) as (_ & _ & A3 & _).
  pose proof (Rg_word (entry (Some exDict)) (letters "กา") [SylOf NA SEC_NONE V_AA EC_NONE SAMAN 2]
    (match matchGetData exDict (mkMatch 0 (letters "กา") []) with Ok x => match MakeSylStrings x with Ok l => l | _ => [] end | _ => [] end) []) as W.
  apply (Rg_syl (entry (Some exDict)) (letters "เปลี่ยน") (say PA SEC_LA V_IAA KON EK)).
  - apply (RS_closed _ (closed "เ" "ี" "ย" V_IAA false true "") (letters "ปล") PA SEC_LA MID [0x0e48%N] EK EK UTH_NO_NU KON).
    + cbn; tauto.
    + apply On_double. apply (ID_cluster "กขคบปผพฟ" "ล"); [right; left; reflexivity|vm_compute; tauto|exact A1|exact A2].
    + cbn; tauto.
    + exact Nn.
    + exact A3.
    + discriminate.
    + intros [].
    + left. apply TB_mid_ek.
    + intros ((X & _) & _). discriminate X.
    + intros (X & _). discriminate X.
  - intros k r strs (E & _ & d & v & Ed & Hv & _). injection Ed as <-. destruct Hv as (t & Et & t1 & t2 & Hv & _).
    cbn [mTrie exDict] in Et. injection Et as <-.
    assert (Hk : k = letters "กา").
    { destruct t1 as [|x [|y t1]]; [injection Hv as <- _; reflexivity|discriminate|discriminate]. }
    subst k. discriminate E.
  - apply W.
    + exists exDict, 0%Z. split; [reflexivity|]. split; [|split; [discriminate|]].
      * eexists. split; [reflexivity|]. exists [], []. split; [reflexivity|]. intros v' [].
      * eexists. split; [reflexivity|]. vm_compute. reflexivity.
    + vm_compute. tauto.
    + letters_ok.
    + apply endsWell_last. vm_compute. reflexivity.
    + split; [vm_compute; reflexivity|]. vm_compute. intros [H|[H|[]]]; discriminate H.
    + exact I.
    + constructor.
Qed.

(** Prop_Head.v - property C96: the first consonants of a syllable and its tone
    mark decide the initial sounds and the tone. *)
From Coq Require Import String List NArith ZArith Bool Lia Arith Sorted.
From Verif Require Import Base ThUni ThCons Syl Utf Lattice Dag DagProofs PronDag Dict Parser.
From Verif Require Import Spec OrderProofs DictProofs Prop_Syl ParserSpec ParserFacts ParserInv ParserResult ParserListed ParserDict ParserPool ParserProduct.
From Verif Require Import Prop_Output Prop_Parser Grammar GrammarWord TextGrammar TextProof Prop_Span Prop_Size Prop_Vowel.
Import ListNotations.
Local Open Scope string_scope.
Local Open Scope list_scope.
Local Open Scope nat_scope.

(** ** Vocabulary *)
(** The tone marks among letters, and the tone mark they come to: none, or the
    only one. *)
Definition marksIn (g : list N) : list N := filter isMark g.
Definition MarkedBy (g : list N) (m : ETone) : Prop :=
  marksIn g = [] /\ m = SAMAN \/ exists c, marksIn g = [c] /\ m = markOf c.
(** The letters without the vowel sign written before the consonants. *)
Definition body (g : list N) : list N :=
  match g with c :: r => if leadVowel c then r else g | [] => [] end.
(** Initial sound, second sound and class that the first letters give; [pre]:
    the first letter is a weak syllable by itself. *)
Inductive Head (pre : bool) : list N -> EInitConsSound -> ESecInitCons -> EInitConsClass -> Prop :=
| H_one c r : pre = false -> consonant c = true -> Head pre (c :: r) (soundOf c) SEC_NONE (classOf c)
| H_cluster c d s r : pre = false -> consonant c = true ->
    In (d, s) [(UTH_RO_RUA, SEC_RA); (UTH_LO_LING, SEC_LA); (UTH_WO_WAEN, SEC_WA); (UTH_RU, SEC_RA)] ->
    Head pre (c :: d :: r) (soundOf c) s (classOf c)
| H_ho d r : pre = false -> consonant d = true -> classOf d = LOWS ->
    Head pre (UTH_HO_HIP :: d :: r) (soundOf d) SEC_NONE HIGH
| H_led c d r : pre = true -> consonant c = true -> consonant d = true ->
    Head pre (c :: d :: r) (soundOf d) SEC_NONE (match classOf d with LOWS => classOf c | k => k end)
| H_ra c d r : pre = true -> consonant c = true -> d = UTH_RO_RUA \/ d = UTH_RU ->
    Head pre (c :: d :: r) RA SEC_NONE LOWS
| H_ri c r : pre = true -> oneOf "สศ" c -> Head pre (c :: UTH_RU :: r) RA SEC_NONE (classOf c)
| H_ru c r : pre = false -> isRu c -> Head pre (c :: r) (ruSound c) SEC_NONE LOWS.
(** A weak syllable of the consonant [c]. *)
Definition Weak (c : N) (x : Said) : Prop :=
  exists v, (v = V_A \/ v = V_AUU) /\ saSound x = soundOf c /\ saSecond x = SEC_NONE /\ saVowel x = v /\ saFinal x = EC_NONE /\
    toned (classOf c) SAMAN (short v) (short v) (saTone x).
(** A syllable of the letters [g]. *)
Definition Headed (pre : bool) (g : list N) (x : Said) : Prop :=
  exists k m, Head pre (body g) (saSound x) (saSecond x) k /\ MarkedBy g m /\
    toned k m (dead (saVowel x) (saFinal x)) (short (saVowel x)) (saTone x).

(** ** What a reading takes *)
Lemma marks_app a b : marksIn (a ++ b) = marksIn a ++ marksIn b. Proof. apply filter_app. Qed.
Lemma marks_plain c g : isMark c = false -> marksIn (c :: g) = marksIn g.
Proof. intros H. unfold marksIn. cbn [filter]. rewrite H. reflexivity. Qed.
Lemma cons_unmarked c : consonant c = true -> isMark c = false.
Proof.
  intros H. unfold consonant in H. rewrite !andb_true_iff, !N.leb_le in H. apply not_true_is_false. intros X.
  unfold isMark in X. rewrite !andb_true_iff, !N.leb_le in X. lia.
Qed.
Definition Bare (t r : list N) : Prop := exists g, t = g ++ r /\ marksIn g = [].
Lemma bare_refl r : Bare r r. Proof. exists []. auto. Qed.
Lemma bare_cons c t r : isMark c = false -> Bare t r -> Bare (c :: t) r.
Proof. intros H (g & -> & Z). exists (c :: g). split; [reflexivity|]. rewrite marks_plain; assumption. Qed.
Lemma bare_trans a b c : Bare a b -> Bare b c -> Bare a c.
Proof. intros (g & -> & Z) (h & -> & Y). exists (g ++ h). split; [apply app_assoc|]. rewrite marks_app, Z, Y. reflexivity. Qed.
Lemma marked_eq g h m : marksIn h = marksIn g -> MarkedBy g m -> MarkedBy h m.
Proof. unfold MarkedBy. intros ->. exact (fun x => x). Qed.
Lemma mark_marks t m t' : mark t = (m, t') -> exists g, t = g ++ t' /\ MarkedBy g m.
Proof.
  unfold mark. destruct t as [|c t]; [intros E; injection E as <- <-; exists []; split; [reflexivity|left; auto]|].
  destruct (isMark c) eqn:M; intros E; injection E as <- <-.
  - exists [c]. split; [reflexivity|]. right. exists c. split; [unfold marksIn; cbn [filter]; rewrite M; reflexivity|reflexivity].
  - exists []. split; [reflexivity|left; auto].
Qed.
Lemma iu_unmarked c : ((c =? UTH_SARA_I) || (c =? UTH_SARA_U))%N = true -> isMark c = false.
Proof. rewrite orb_true_iff, !N.eqb_eq. intros [-> | ->]; vm_compute; reflexivity. Qed.
Lemma silent_bare t : Bare t (silent t).
Proof.
  destruct t as [|c [|x t]]; cbn [silent]; try apply bare_refl. destruct (_ && _) eqn:E; [|apply bare_refl].
  apply andb_true_iff in E. destruct E as (A & B). apply N.eqb_eq in B. subst x.
  apply bare_cons; [apply cons_unmarked; exact A|]. apply bare_cons; [vm_compute; reflexivity|]. apply bare_refl.
Qed.
Lemma silentIU_bare t : Bare t (silentIU t).
Proof.
  destruct t as [|c [|x [|y t]]]; cbn [silentIU]; try apply bare_refl. destruct (_ && _) eqn:E; [|apply bare_refl].
  rewrite !andb_true_iff in E. destruct E as ((A & B) & C). apply N.eqb_eq in C. subst y.
  apply bare_cons; [apply cons_unmarked; exact A|]. apply bare_cons; [apply iu_unmarked; exact B|].
  apply bare_cons; [vm_compute; reflexivity|]. apply bare_refl.
Qed.
Lemma silent2_bare t : Bare t (silent2 t).
Proof.
  destruct t as [|c [|x [|y t]]]; cbn [silent2]; try apply bare_refl. destruct (_ && _) eqn:E; [|apply bare_refl].
  rewrite !andb_true_iff in E. destruct E as ((A & B) & C). apply N.eqb_eq in C. subst y.
  apply bare_cons; [apply cons_unmarked; exact A|]. apply bare_cons; [apply cons_unmarked; exact B|].
  apply bare_cons; [vm_compute; reflexivity|]. apply bare_refl.
Qed.
Lemma silentAny_bare t : Bare t (silentAny t).
Proof. unfold silentAny. destruct (_ <? _); [apply silent_bare|]. destruct (_ <? _); [apply silentIU_bare|apply silent2_bare]. Qed.
Lemma shorter_bare t : Bare t (if length (silent t) <? length t then silent t else silentIU t).
Proof. destruct (_ <? _); [apply silent_bare|apply silentIU_bare]. Qed.
Lemma final_bare no t e r : Final no t e r -> Bare t r.
Proof. intros [c t' C _]. apply bare_cons; [apply cons_unmarked, end_cons, C|apply silentAny_bare]. Qed.
Lemma shared_bare no t e r b : FinalOrShared no t e r b -> Bare t r.
Proof.
  intros [t' e' r' F|c r' C _ _ _ _|c v r' C _ _ V _|c t' _ _ _ _]; [eapply final_bare; eauto| | |apply bare_refl].
  - apply bare_cons; [apply cons_unmarked, end_cons, C|]. apply bare_cons; [vm_compute; reflexivity|apply bare_refl].
  - apply bare_cons; [apply cons_unmarked, end_cons, C|]. apply bare_cons; [|apply bare_refl].
    unfold oneOf in V. vm_compute in V. destruct V as [<-|[<-|[]]]; vm_compute; reflexivity.
Qed.
Lemma ran_bare (b : bool) r x r' : (if b then r else silent r) = x :: r' -> Bare r (x :: r').
Proof. intros E. destruct b; [subst r; apply bare_refl|rewrite <- E; apply silent_bare]. Qed.

Ltac mks := rewrite ?marks_app; cbn [app];
  repeat first [rewrite marks_plain by (first [assumption|vm_compute; reflexivity|apply cons_unmarked; assumption])|rewrite marks_app];
  repeat match goal with H : marksIn ?g = [] |- context [marksIn ?g] => rewrite H end; cbn [app]; rewrite ?app_nil_r; reflexivity.
Ltac takes := repeat match goal with
  | H : mark ?t = (?m, ?t') |- _ => let g := fresh "g" in
      apply mark_marks in H; destruct H as (g & -> & H)
  | H : Final _ ?t _ ?r |- _ => apply final_bare in H
  | H : FinalOrShared _ ?t _ ?r _ |- _ => apply shared_bare in H
  | H : (if _ then _ else silent _) = _ :: _ |- _ => apply ran_bare in H
  | H : Bare (silent ?t) ?r |- _ => apply (bare_trans _ _ _ (silent_bare t)) in H
  | |- context [if length (silent ?t) <? length ?t then _ else _] =>
      let X := fresh "X" in pose proof (shorter_bare t) as X; set (if length (silent t) <? length t then silent t else silentIU t) in *
  | |- context [silent ?t] => let X := fresh "X" in pose proof (silent_bare t) as X; set (silent t) in *
  end.
Ltac bares := repeat match goal with
  | H : Bare ?t ?r |- _ => let g := fresh "g" in let E := fresh "E" in let Z := fresh "Z" in destruct H as (g & E & Z); first [subst t|rewrite E in *]
  end.
Ltac settle := eexists; split; [apply tk_nil || tk|];
  first [left; split; [mks|reflexivity]|eapply marked_eq; [|eassumption]; mks].
Lemma rime_marks lk o t v e m r b : Rime lk o t v e m r b -> exists g, t = g ++ r /\ MarkedBy g m.
Proof.
  intros H. destruct H.
  all: try match goal with H : In (_, _) _ |- _ => cbn [In] in H; repeat destruct H as [H|H]; try contradiction; injection H as <- <- end.
  all: takes; bares; try settle.
Qed.
Lemma rimeE_marks o t v e m r b : RimeE o t v e m r b -> exists g, t = g ++ r /\ MarkedBy g m.
Proof.
  intros H. destruct H; takes; bares.
  all: try settle.
  exists [c]. split; [reflexivity|]. right. exists c. split; [|reflexivity]. unfold marksIn. cbn [filter]. rewrite H. reflexivity.
Qed.
Lemma rimeL_marks l t v e m r b : RimeL l t v e m r b -> exists g, t = g ++ r /\ MarkedBy g m.
Proof. intros H. destruct H; takes; bares; settle. Qed.
Lemma rimeRu_marks t v e r b : RimeRu t v e r b -> exists g, t = g ++ r /\ MarkedBy g SAMAN.
Proof.
  intros H. destruct H; takes; bares.
  all: try match goal with H : _ = UTH_LAKKHANGYAO \/ _ |- _ => destruct H; subst end.
  all: settle.
Qed.
Definition led (o : Initial) : bool := match oLead o with Some _ => true | None => false end.
Lemma initial_head lk t o t1 : InitialAt lk t o t1 -> exists g, t = g ++ t1 /\ marksIn g = [] /\
  (exists c g', g = c :: g' /\ consonant c = true /\ forall c', oLead o = Some c' -> c' = c) /\
  forall h, Head (led o) (g ++ h) (oSound o) (oSecond o) (oClass o).
Proof.
  assert (Q : forall s c, forallb consonant (letters s) = true -> oneOf s c -> consonant c = true).
  { intros s c H O. eapply one_cons; eauto. }
  assert (M2 : forall c d, consonant c = true -> isMark d = false -> marksIn [c; d] = []).
  { intros c d H1 H2. rewrite !marks_plain; [reflexivity| |]; auto using cons_unmarked. }
  intros I; destruct I; cbn [led oLead oSound oSecond oClass plainOf];
    match goal with
    | |- exists g, ?c :: ?d :: ?t = g ++ ?t /\ _ =>
        exists [c; d]; assert (Cc : consonant c = true);
          [first [assumption|
             match goal with H : oneOf _ c \/ _ |- _ => destruct H as [H|(_ & H)]; eapply Q; [|exact H| |exact H]; vm_compute; reflexivity end|
             match goal with H : oneOf _ c |- _ => eapply Q; [|exact H]; vm_compute; reflexivity end|vm_compute; reflexivity]|]
    | |- exists g, ?c :: ?t = g ++ ?t /\ _ => exists [c]
    end.
  all: split; [reflexivity|].
  all: split; [first [apply M2; [assumption|first [vm_compute; reflexivity|apply cons_unmarked; assumption]]|rewrite marks_plain; [reflexivity|apply cons_unmarked; assumption]]|].
  all: split; [eexists; eexists; split; [reflexivity|]; split; [assumption|]; intros c' E; first [discriminate E|injection E as <-; reflexivity]|].
  all: intros h; cbn [app].
  all: try (apply H_one; [reflexivity|assumption]).
  all: try (apply H_cluster; [reflexivity|assumption|cbn [In]; tauto]).
  all: try (apply H_ho; [reflexivity|assumption|assumption]).
  all: try (apply H_led; [reflexivity|assumption|assumption]).
  all: try (apply H_ri; [reflexivity|assumption]).
  all: try (apply H_ra; [reflexivity|assumption|tauto]).
Qed.
Lemma lead_not c : consonant c = true -> leadVowel c = false.
Proof.
  unfold consonant, leadVowel. rewrite !andb_true_iff, !N.leb_le. intros H. apply not_true_is_false.
  rewrite !andb_true_iff, !N.leb_le. lia.
Qed.
Lemma lead_unmarked c : leadVowel c = true -> isMark c = false.
Proof.
  unfold isMark, leadVowel. rewrite !andb_true_iff, !N.leb_le. intros H. apply not_true_is_false.
  rewrite !andb_true_iff, !N.leb_le. lia.
Qed.
Lemma saysA_weak c p : SaysA c p -> Weak c p.
Proof. intros [t H]. exists V_A. repeat split; auto. Qed.
Lemma saysAuu_weak c p : SaysAuu c p -> Weak c p.
Proof. intros [t H]. exists V_AUU. repeat split; auto. Qed.
(** The pre-syllable, if any, is a weak syllable of the first consonant. *)
Definition preWeak (g : list N) (p : option Said) : Prop :=
  forall y, p = Some y -> exists c r, body g = c :: r /\ consonant c = true /\ Weak c y.
Lemma leads_weak o p c : Leads o p -> (forall c', oLead o = Some c' -> c' = c) -> consonant c = true ->
  (forall y, p = Some y -> Weak c y) /\ led o = match p with Some _ => true | None => false end.
Proof.
  intros [E|c' q E S] H C; (split; [|unfold led; rewrite E; reflexivity]); intros y X; [discriminate X|].
  injection X as <-. rewrite <- (H _ E). apply saysA_weak. exact S.
Qed.
Definition isPre (p : option Said) : bool := match p with Some _ => true | None => false end.
Lemma made_headed l g h o v e m x p : (l = [] \/ exists c, l = [c] /\ leadVowel c = true) -> marksIn g = [] ->
  (exists c g', g = c :: g' /\ consonant c = true /\ forall c', oLead o = Some c' -> c' = c) ->
  (forall h, Head (led o) (g ++ h) (oSound o) (oSecond o) (oClass o)) ->
  MarkedBy h m -> Leads o p -> Sounds o v e m x -> Headed (isPre p) (l ++ g ++ h) x /\ preWeak (l ++ g ++ h) p.
Proof.
  intros Hl Hg (c & g' & -> & C & Hc) Hh Hm L [t S]. destruct (leads_weak o p c L Hc C) as (W & E).
  assert (B : body (l ++ (c :: g') ++ h) = (c :: g') ++ h).
  { destruct Hl as [->|(d & -> & D)]; unfold body; cbn [app]; [rewrite (lead_not _ C)|rewrite D]; reflexivity. }
  split.
  - exists (oClass o), m. rewrite B. cbn [saSound saSecond saVowel saFinal saTone]. unfold isPre. rewrite <- E. split; [apply Hh|]. split; [|exact S].
    eapply marked_eq; [|exact Hm]. rewrite !marks_app, Hg. destruct Hl as [->|(d & -> & D)]; [reflexivity|].
    rewrite marks_plain; [reflexivity|apply lead_unmarked; exact D].
  - intros y Y. exists c, (g' ++ h). split; [exact B|]. split; [exact C|apply W; exact Y].
Qed.
Lemma toned_ra : toned LOWS SAMAN true true TRI. Proof. left. apply TB_low_dead_short. right. reflexivity. Qed.
Lemma implied_headed t p x r : Implied t p x r -> exists g, t = g ++ r /\ Headed (isPre p) g x /\ preWeak g p.
Proof.
  intros H.
  assert (M : forall g, forallb (fun c => negb (isMark c)) g = true -> MarkedBy g SAMAN).
  { intros g. left. split; [|reflexivity]. induction g as [|c g IH]; [reflexivity|]. cbn [forallb] in *. apply andb_true_iff in H0.
    destruct H0 as (A & B). rewrite marks_plain; [apply IH; exact B|apply negb_true_iff; exact A]. }
  destruct H as [c x t p O _ _ S|x t p S|x t p S|x t p _ S|c x t p C _ S|c x t p C _ _ _ S].
  - assert (C : consonant c = true) by (eapply one_cons; [|exact O]; vm_compute; reflexivity).
    exists [c; UTH_RO_RUA]. split; [reflexivity|]. split.
    + exists LOWS, SAMAN. unfold body. rewrite (lead_not _ C). split; [apply H_ra; auto|]. split; [|exact toned_ra].
      apply M. cbn [forallb]. rewrite (cons_unmarked _ C). reflexivity.
    + intros y E. injection E as <-. exists c, [UTH_RO_RUA]. unfold body. rewrite (lead_not _ C). split; [reflexivity|]. split; [exact C|apply saysAuu_weak; exact S].
  - exists [UTH_BO_BAIMAI; UTH_RO_RUA; UTH_SARA_I]. split; [reflexivity|]. split.
    + exists LOWS, SAMAN. split; [apply H_ra; auto|]. split; [apply M; reflexivity|exact toned_ra].
    + intros y E. injection E as <-. exists UTH_BO_BAIMAI, [UTH_RO_RUA; UTH_SARA_I]. split; [reflexivity|]. split; [reflexivity|apply saysAuu_weak; exact S].
  - exists [UTH_CHO_CHAN; UTH_RO_RUA; UTH_SARA_A]. split; [reflexivity|]. split.
    + exists LOWS, SAMAN. split; [apply H_ra; auto|]. split; [apply M; reflexivity|exact toned_ra].
    + intros y E. injection E as <-. exists UTH_CHO_CHAN, [UTH_RO_RUA; UTH_SARA_A]. split; [reflexivity|]. split; [reflexivity|apply saysAuu_weak; exact S].
  - exists [UTH_BO_BAIMAI]. split; [reflexivity|]. split; [|intros y E; discriminate E]. destruct S as [tn S].
    eexists _, SAMAN. split; [apply (H_one false UTH_BO_BAIMAI []); reflexivity|]. split; [apply M; reflexivity|exact S].
  - exists [c]. split; [reflexivity|]. split; [|intros y E; discriminate E]. destruct S as [tn S].
    eexists _, SAMAN. unfold body. rewrite (lead_not _ C). split; [apply (H_one false c []); [reflexivity|exact C]|].
    split; [apply M; cbn [forallb]; rewrite (cons_unmarked _ C); reflexivity|exact S].
  - exists [c; UTH_RU]. split; [reflexivity|]. split.
    + exists LOWS, SAMAN. unfold body. rewrite (lead_not _ C). split; [apply H_ra; auto|]. split; [|exact toned_ra].
      apply M. cbn [forallb]. rewrite (cons_unmarked _ C). reflexivity.
    + intros y E. injection E as <-. exists c, [UTH_RU]. unfold body. rewrite (lead_not _ C). split; [reflexivity|]. split; [exact C|apply saysA_weak; exact S].
Qed.
Lemma reads_headed lk t p x r b : Reads lk t p x r b -> exists g, t = g ++ r /\ Headed (isPre p) g x /\ preWeak g p.
Proof.
  intros [t' o t1 v e m r' b' p' x' I R L S|t' o t1 v e m r' b' p' x' I R L S|l t' o t1 v e m r' b' p' x' I R L S|t' p' x' r' I|c t' v e r' b' tn C R T].
  - destruct (initial_head _ _ _ _ I) as (g & -> & Z & F & Hh). destruct (rime_marks _ _ _ _ _ _ _ _ R) as (h & -> & M).
    exists ([] ++ g ++ h). split; [cbn [app]; rewrite app_assoc; reflexivity|]. eapply made_headed; eauto.
  - destruct (initial_head _ _ _ _ I) as (g & -> & Z & F & Hh). destruct (rimeE_marks _ _ _ _ _ _ _ R) as (h & -> & M).
    exists ([UTH_SARA_E] ++ g ++ h). split; [cbn [app]; rewrite app_assoc; reflexivity|]. eapply made_headed; eauto.
  - destruct (initial_head _ _ _ _ I) as (g & -> & Z & F & Hh). destruct (rimeL_marks _ _ _ _ _ _ _ R) as (h & E & M).
    exists ([l] ++ g ++ h). split; [rewrite E; cbn [app]; rewrite app_assoc; reflexivity|]. eapply made_headed; eauto.
    right. exists l. split; [reflexivity|]. destruct R; vm_compute; reflexivity.
  - apply implied_headed. exact I.
  - destruct (rimeRu_marks _ _ _ _ _ R) as (h & -> & M). exists (c :: h). split; [reflexivity|]. split; [|intros y E; discriminate E].
    assert (Lc : leadVowel c = false /\ isMark c = false) by (destruct C as [-> | ->]; split; vm_compute; reflexivity).
    exists LOWS, SAMAN. unfold body. rewrite (proj1 Lc). split; [apply H_ru; [reflexivity|exact C]|].
    split; [|exact T]. eapply marked_eq; [|exact M]. apply marks_plain. apply Lc.
Qed.

(** ** Where a syllable of a text comes from *)
Lemma names_named g : Forall (fun c => consonant c = true) g -> forall p f v, In (f, v) (along (zn p) (names (zn p) g)) ->
  exists i c, nth_error g i = Some c /\ consonant c = true /\ f = zn (p + i) /\ v = nameOf c (endPos v) /\
    (endPos v = zn (p + i + 1) \/ endPos v = zn (p + i + 2) /\ i + 1 = length g).
Proof.
  intros F. induction F as [|c g C F IH]; intros p f v H; [destruct H|]. destruct g as [|c2 g].
  - cbn [names along In] in H. destruct H as [H|[]]. injection H as <- <-. exists 0, c. split; [reflexivity|]. split; [exact C|].
    split; [f_equal; lia|]. split; [reflexivity|]. right. cbn [nameOf endPos SylOf length]. split; lia.
  - change (names (zn p) (c :: c2 :: g)) with (nameOf c (zn p + 1) :: names (zn p + 1) (c2 :: g)) in H.
    cbn [along] in H. destruct H as [H|H].
    + injection H as <- <-. exists 0, c. split; [reflexivity|]. split; [exact C|].
      split; [f_equal; lia|]. split; [reflexivity|]. left. cbn [nameOf endPos SylOf]. lia.
    + replace (endPos (nameOf c (zn p + 1))) with (zn (S p)) in H by (cbn [nameOf endPos SylOf]; lia).
      replace (zn p + 1)%Z with (zn (S p)) in H by lia. destruct (IH (S p) f v H) as (i & c' & A & B & E & V & X).
      exists (S i), c'. split; [exact A|]. split; [exact B|]. split; [rewrite E; f_equal; lia|]. split; [exact V|].
      destruct X as [->|(-> & X)]; [left; f_equal; lia|right; split; [f_equal; lia|cbn [length] in *; lia]].
Qed.
Section Origin.
Variable w : list N.
Notation n := (length w).
(** The syllable [v] from [f] to [t] is read from the letters [b..e): as a
    pre-syllable, as the syllable itself, or as the name of a letter. *)
Inductive Origin (f t : Z) (v : Syl) (b e : nat) : Prop :=
| O_pre q y x r lk lk' : f = zn b -> t = preNode (zn b) (zn e) -> q <= n -> between w b q = between w b e ++ r ->
    Reads lk (between w b q) (Some y) x r lk' -> v = sylAt y (endPos v) -> Origin f t v b e
| O_main q p x r lk lk' : (0 <= t)%Z -> f = (if isPre p then preNode (zn b) (zn e) else zn b) -> q <= n ->
    between w b q = between w b e ++ r -> Reads lk (between w b q) p x r lk' -> v = sylAt x (endPos v) -> Origin f t v b e
| O_name c : f = zn b -> (0 <= t)%Z -> e = b + 1 -> nth_error w b = Some c -> consonant c = true ->
    v = nameOf c (endPos v) -> Origin f t v b e.
Definition comesFrom (f t : Z) (v : Syl) : Prop := exists b e, inGroup w f t b e /\ Origin f t v b e.

Variable dict : option Dict.
Variable brk : list nat.
Hypothesis sorted : StronglySorted lt brk.
Hypothesis inside : Forall (fun x => x <= n) brk.
Hypothesis dictWF : dictOKo dict.
Notation D := (entry dict).
Lemma pass_origin p lk es e lk' f v : Pass D w brk p lk es e lk' -> In (f, v) es ->
  literal v = [] -> dictSyl dict v \/ comesFrom f (endPos v) v /\
    (endPos v = zn e -> tacit w e -> comesFrom f (zn (e + 1)) (setEndPos v (zn (e + 1)))).
Proof.
  intros P Hi Lv. destruct P as [q F|q k r strs W ((Et & _ & Dk) & _)|q s r W _ _ S|q pre x r lk' W _ _ Ls R].
  - exfalso. destruct Hi as [Hi|[]]. injection Hi as <- <-. cbn [literal SylLiteral] in Lv. destruct F as [A B _ _].
    apply (f_equal (@List.length N)) in Lv. rewrite between_len in Lv by lia. cbn in Lv. lia.
  - left. apply in_flat_map in Hi. destruct Hi as (s & Is & Hi). destruct (along_spoken _ _ _ _ _ Hi) as (v0 & I0 & E0).
    destruct Dk as (d & v1 & Ed & H & _ & Ls). exists d, k, v1, strs, s, v0. repeat split; assumption.
  - right. pose proof W as [A B _ _ _].
    inversion S as [g r' Ng _ Fg Eg E1 E2|r' Er E1 E2|c Hc Ec E1 E2]; subst.
    + destruct (names_named g Fg p f v Hi) as (i & c & Ei & Ci & Ef & Vv & X).
      assert (Li : i < length g) by (apply nth_error_Some; congruence).
      assert (Lg : p + length g + 1 + length r = q).
      { apply (f_equal (@List.length N)) in Eg. rewrite between_len, app_length in Eg by lia. cbn [length] in Eg. lia. }
      assert (Wi : nth_error w (p + i) = Some c).
      { rewrite <- (nth_between w p q) by lia. rewrite <- Eg. rewrite nth_error_app1 by exact Li. exact Ei. }
      assert (Wd : i + 1 = length g -> nth_error w (p + i + 1) = Some 46%N).
      { intros Y. rewrite <- Nat.add_assoc, Y, <- (nth_between w p q) by lia. rewrite <- Eg, nth_error_app2, Nat.sub_diag by lia. reflexivity. }
      split.
      * exists (p + i), (p + i + 1). split.
        -- split; [lia|]. split; [lia|]. left. split; [left; exact Ef|]. destruct X as [->|(-> & Y)]; [left; reflexivity|right].
           split; [f_equal; lia|apply Wd; exact Y].
        -- apply (O_name _ _ _ _ _ c); auto. destruct X as [X|(X & _)]; rewrite X; lia.
      * intros Ee (_ & Hn). exfalso. destruct X as [X|(X & Y)]; rewrite X in Ee; [lia|]. apply Hn. right.
        exists fullStop. split; [|auto]. replace (q - length r - 1) with (p + i + 1) by lia. apply Wd. exact Y.
    + exfalso. destruct Hi as [Hi|[]]. injection Hi as <- <-. discriminate Lv.
    + destruct Hi as [Hi|[]]. injection Hi as <- <-. assert (Wc : nth_error w p = Some c).
      { pose proof (nth_between w p q 0 ltac:(lia)) as X. rewrite <- Ec, Nat.add_0_r in X. symmetry. exact X. }
      assert (Lg : p + 1 = q).
      { apply (f_equal (@List.length N)) in Ec. rewrite between_len in Ec by lia. cbn [length] in Ec. lia. }
      split; [|intros Ee (Hd & _)]; exists p, (p + 1); (split; [split; [lia|]; split; [lia|]; left; split; [left; reflexivity|]|
        apply (O_name _ _ _ _ _ c); auto; cbn [nameOf endPos SylOf]; lia]).
      * left. cbn [nameOf endPos SylOf]. lia.
      * right. cbn [length] in *. split; [lia|]. replace (p + 1) with (q - 0) by lia. exact Hd.
  - right. pose proof W as [A B _ _ _]. pose proof (reads_len _ _ _ _ _ _ R) as L.
    assert (Ls' : q <= seenTo w p q) by (unfold seenTo; destruct (nth_error w p); [destruct (_ && _)|]; lia).
    rewrite between_len in L by lia.
    destruct (reads_spelt _ _ _ _ _ _ R) as (g & Eg & _).
    assert (Lg : length g + length r = seenTo w p q - p).
    { apply (f_equal (@List.length N)) in Eg. rewrite between_len, app_length in Eg by lia. lia. }
    assert (Wg : between w p (seenTo w p q - length r) = g).
    { unfold between at 1. replace (seenTo w p q - length r - p) with (length g) by lia.
      transitivity (firstn (length g) (between w p (seenTo w p q))).
      - unfold between. rewrite firstn_firstn. f_equal. lia.
      - rewrite Eg, firstn_app, firstn_all, Nat.sub_diag, app_nil_r. reflexivity. }
    set (e := seenTo w p q - length r) in *. rewrite <- Wg in Eg.
    assert (He : p < e /\ e <= n) by (destruct pre; lia).
    assert (Mk : marker p e = preNode (zn p) (zn e)) by reflexivity.
    unfold moves in Hi. destruct pre as [y|].
    + destruct Hi as [Hi|[Hi|[]]]; injection Hi as <- <-.
      * split; [|intros X; exfalso; cbn [sylAt endPos SylOf] in X; unfold marker in X; lia].
        exists p, e. split; [split; [lia|]; split; [lia|]; right; auto|].
        eapply O_pre; [reflexivity|reflexivity|exact Ls|exact Eg|exact R|reflexivity].
      * split; [|intros _ (Hd & _)]; exists p, e; (split; [split; [lia|]; split; [lia|]; left; split; [right; reflexivity|]|
          eapply O_main; [|cbn [isPre]|exact Ls|exact Eg|exact R|reflexivity]; [cbn [sylAt endPos SylOf]; lia|reflexivity]]); auto.
    + destruct Hi as [Hi|[]]; injection Hi as <- <-.
      split; [|intros _ (Hd & _)]; exists p, e; (split; [split; [lia|]; split; [lia|]; left; split; [left; reflexivity|]|
          eapply O_main; [|cbn [isPre]|exact Ls|exact Eg|exact R|reflexivity]; [cbn [sylAt endPos SylOf]; lia|reflexivity]]); auto.
Qed.
Lemma way_origin f v : OnWay D w brk f v -> literal v = [] -> dictSyl dict v \/ comesFrom f (endPos v) v.
Proof.
  intros (p & lk & es & e & lk' & _ & St & _ & Hi) Lv. destruct St as [es e lk' P _|es e lk' P T].
  - destruct (pass_origin p lk es e lk' f v P Hi Lv) as [X|(X & _)]; auto.
  - apply extend_in in Hi. destruct Hi as [(Hi & _)|(v0 & Hi & X & ->)].
    + destruct (pass_origin p lk es e lk' f v P Hi Lv) as [Y|(Y & _)]; auto.
    + assert (L0 : literal v0 = []) by (destruct v0; exact Lv).
      destruct (pass_origin p lk es e lk' f v0 P Hi L0) as [(d & k & x & strs & s & u & H)|(_ & Y)].
      * left. exists d, k, x, strs, s, u. destruct v0; exact H.
      * right. specialize (Y X T). destruct v0; exact Y.
Qed.
Lemma origin_lemma l f t v : pronounced libthai_ct w dict brk l -> occurs l f t v -> literal v = [] ->
  dictSyl dict v \/ comesFrom f t v.
Proof.
  intros (fuel & d & E & L) O Lv. pose proof (ParseU16F_inv libthai_ct w dict brk dictWF fuel d E) as G.
  apply (listed_occurs libthai_ct w dict brk d l G L) in O.
  apply (proj1 (edges_way w dict brk sorted inside dictWF fuel d E f t v)) in O. destruct O as (O & <-).
  apply way_origin; assumption.
Qed.
End Origin.

(** ** C96: initial sounds and tone are those of the first letters and the mark *)
Definition saidOf (v : Syl) : Said := say (iCons1 v) (iCons2 v) (vowel v) (eCons v) (tone v).
(** A weak syllable of the first consonant, the name of a consonant, or a
    syllable of the letters [b..e). *)
Definition headWritten (w : list N) (f t : Z) (v : Syl) : Prop :=
  exists b e, inGroup w f t b e /\
    ((exists c r, f = zn b /\ t = preNode (zn b) (zn e) /\ body (between w b e) = c :: r /\ consonant c = true /\ Weak c (saidOf v)) \/
     (exists c, f = zn b /\ (0 <= t)%Z /\ e = b + 1 /\ nth_error w b = Some c /\ consonant c = true /\
        Weak c (saidOf v) /\ vowel v = V_AUU) \/
     (exists pre : bool, (0 <= t)%Z /\ f = (if pre then preNode (zn b) (zn e) else zn b) /\ Headed pre (between w b e) (saidOf v))).
Lemma said_at x e : saidOf (sylAt x e) = x. Proof. destruct x; reflexivity. Qed.
Lemma classOf_valid c : consonant c = true -> classOf c <> IC_INVALID.
Proof.
  intros C. pose proof C as H. unfold consonant in H. rewrite !andb_true_iff, !N.leb_le in H. destruct H as (((A & B) & _) & _).
  assert (T : forallb (fun c => match classOf c with IC_INVALID => negb (consonant c) | _ => true end) (map N.of_nat (seq 0x0e01 46)) = true) by (vm_compute; reflexivity).
  rewrite forallb_forall in T. specialize (T c). intros E. rewrite E in T.
  assert (I : In c (map N.of_nat (seq 0x0e01 46))).
  { replace c with (N.of_nat (N.to_nat c)) by apply N2Nat.id. apply in_map, in_seq. lia. }
  specialize (T I). rewrite C in T. discriminate T.
Qed.
Lemma name_weak c e : consonant c = true -> Weak c (saidOf (nameOf c e)).
Proof.
  intros C. exists V_AUU. split; [right; reflexivity|]. repeat (split; [reflexivity|]). left. cbn [saidOf saTone nameOf SylOf tone].
  assert (K : classOf c <> IC_INVALID) by (apply classOf_valid; exact C).
  destruct (classOf c); cbn; try congruence; constructor; auto.
Qed.

Lemma C96_lemma w dict brk l f t v :
  StronglySorted lt brk -> Forall (fun x => x <= length w) brk -> dictOKo dict ->
  pronounced libthai_ct w dict brk l -> occurs l f t v -> literal v = [] ->
  dictSyl dict v \/ headWritten w f t v.
Proof.
  intros S I Dk P O Lv. destruct (origin_lemma w dict brk S I Dk l f t v P O Lv) as [X|(b & e & G & X)]; [left; exact X|right].
  exists b, e. split; [exact G|]. destruct X as [q y x r lk lk' Ef Et Lq Eg R Ev|q p x r lk lk' Ht Ef Lq Eg R Ev|c Ef Ht Ee Hc C Ev].
  - left. destruct (reads_headed _ _ _ _ _ _ R) as (g & E & _ & Pw). rewrite Eg in E. apply app_inv_tail in E. subst g.
    destruct (Pw y eq_refl) as (c & g' & E & C & Wk). exists c, g'. rewrite Ev, said_at. auto.
  - right. right. destruct (reads_headed _ _ _ _ _ _ R) as (g & E & Hd & _). rewrite Eg in E. apply app_inv_tail in E. subst g.
    exists (isPre p). rewrite Ev, said_at. auto.
  - right. left. exists c. rewrite Ev. repeat (split; [assumption|]). split; [apply name_weak; exact C|reflexivity].
Qed.
Theorem C96_heads_written w dict brk l f t v :
  StronglySorted lt brk -> Forall (fun x => x <= length w) brk -> dictOKo dict ->
  pronounced libthai_ct w dict brk l -> occurs l f t v -> literal v = [] ->
  dictSyl dict v \/ headWritten w f t v.
Proof. exact (C96_lemma w dict brk l f t v). Qed.
Print Assumptions C96_heads_written.

(** No tone mark goes unheard: the syllable over it has the tone of this mark,
    and no other mark stands in it. *)
Lemma head_app pre g s s2 k h : Head pre g s s2 k -> Head pre (g ++ h) s s2 k.
Proof. intros []; cbn [app]; econstructor; eauto. Qed.
Lemma body_app g h : g <> [] -> body (g ++ h) = body g ++ h.
Proof. destruct g as [|c g]; [congruence|]. intros _. cbn [body app]. destruct (leadVowel c); reflexivity. Qed.
Lemma only_mark g c : forall i j x y, marksIn g = [c] -> nth_error g i = Some x -> isMark x = true -> nth_error g j = Some y -> isMark y = true -> i = j /\ x = c.
Proof.
  intros i j x y. revert i j. induction g as [|a g IH]; intros i j M Hi Mx Hj My; [destruct i; discriminate Hi|].
  assert (Z : forall k z, marksIn g = [] -> nth_error g k = Some z -> isMark z = true -> False).
  { intros k z E Hk Mz. apply nth_error_In in Hk. assert (X : In z (marksIn g)) by (apply filter_In; auto). rewrite E in X. destruct X. }
  destruct (isMark a) eqn:A.
  - unfold marksIn in M. cbn [filter] in M. rewrite A in M. injection M as -> M.
    destruct i as [|i]; [|exfalso; eapply (Z i); eauto]. destruct j as [|j]; [|exfalso; eapply (Z j); eauto].
    injection Hi as <-. auto.
  - rewrite marks_plain in M by exact A. destruct i as [|i]; [injection Hi as <-; congruence|]. destruct j as [|j]; [injection Hj as <-; congruence|].
    destruct (IH i j M Hi Mx Hj My) as (-> & ->). auto.
Qed.
Lemma skipn_add (A : Type) a : forall b (l : list A), skipn a (skipn b l) = skipn (b + a) l.
Proof. induction b as [|b IH]; intros l; [reflexivity|]. destruct l; [rewrite !skipn_nil; reflexivity|]. cbn. apply IH. Qed.
Lemma C96_lemma2 w dict brk l f t v k c :
  StronglySorted lt brk -> Forall (fun x => x <= length w) brk -> dictOKo dict ->
  pronounced libthai_ct w dict brk l -> occurs l f t v -> literal v = [] -> ~ dictSyl dict v ->
  (0 <= f <= Z.of_nat k)%Z -> (Z.of_nat k < t)%Z -> nth_error w k = Some c -> isMark c = true ->
  (exists K, Head false (body (between w (Z.to_nat f) (Z.to_nat t))) (iCons1 v) (iCons2 v) K /\
     toned K (markOf c) (dead (vowel v) (eCons v)) (short (vowel v)) (tone v)) /\
  (forall k' c', (f <= Z.of_nat k' < t)%Z -> nth_error w k' = Some c' -> isMark c' = true -> k' = k).
Proof.
  intros S I Dk P O Lv Nd Hf Ht Hc Mc. destruct (C96_lemma w dict brk l f t v S I Dk P O Lv) as [X|(b & e & (Lb & Le & G) & X)]; [contradiction|].
  assert (Nm : (0 <= zn b)%Z) by lia.
  assert (Fb : f = zn b).
  { destruct G as [(Ff & Ft)|(Ff & Ft)]; [|exact Ff]. destruct Ff as [Ff|Ff]; [exact Ff|unfold preNode in Ff; lia]. }
  assert (Te : t = zn e \/ t = zn (e + 1) /\ nth_error w e = Some 46%N).
  { destruct G as [(_ & Ft)|(_ & Ft)]; [exact Ft|exfalso; rewrite Ft in Ht; unfold preNode in Ht; lia]. }
  assert (In_ : forall k' c', (f <= zn k' < t)%Z -> nth_error w k' = Some c' -> isMark c' = true ->
    b <= k' < e /\ nth_error (between w b e) (k' - b) = Some c').
  { intros k' c' H1 H2 H3. assert (Ke : b <= k' < e).
    { split; [lia|]. destruct Te as [Te|(Te & Hd)]; [lia|]. destruct (Nat.eq_dec k' e) as [->|]; [|lia].
      rewrite Hd in H2. injection H2 as <-. discriminate H3. }
    split; [exact Ke|]. rewrite nth_between by lia. replace (b + (k' - b)) with k' by lia. exact H2. }
  destruct (In_ k c ltac:(lia) Hc Mc) as (Kk & Nk).
  destruct X as [(c0 & r & _ & E & _)|[(c0 & _ & _ & E & Wc & Cc & _)|(pre & _ & Ef & K & m & Hd & Mm & Tn)]].
  - exfalso. rewrite E in Ht. unfold preNode in Ht. lia.
  - exfalso. assert (k = b) as -> by lia. rewrite Wc in Hc. injection Hc as <-. rewrite (cons_unmarked _ Cc) in Mc. discriminate Mc.
  - destruct pre; [exfalso; unfold preNode in Ef; lia|]. destruct Mm as [(M0 & _)|(c1 & M1 & ->)].
    + exfalso. assert (X : In c (marksIn (between w b e))) by (apply filter_In; split; [apply (nth_error_In _ _ Nk)|exact Mc]). rewrite M0 in X. destruct X.
    + destruct (only_mark _ c1 _ _ _ _ M1 Nk Mc Nk Mc) as (_ & <-). split.
      * exists K. split; [|exact Tn]. cbn [saidOf saSound saSecond] in Hd. subst f. rewrite Nat2Z.id.
        destruct Te as [->|(-> & Hs)]; rewrite Nat2Z.id; [exact Hd|].
        assert (E : between w b (e + 1) = between w b e ++ between w e (e + 1)).
        { unfold between. rewrite <- (firstn_skipn (e - b) (firstn (e + 1 - b) (skipn b w))).
          rewrite firstn_firstn, skipn_firstn_comm, Nat.min_l by lia. f_equal. f_equal; [lia|]. rewrite skipn_add. f_equal. lia. }
        rewrite E, body_app; [apply head_app; exact Hd|]. intros X. apply (f_equal (@List.length N)) in X. rewrite between_len in X by lia. cbn in X. lia.
      * intros k' c' H1 H2 H3. destruct (In_ k' c' H1 H2 H3) as (Kk' & Nk').
        destruct (only_mark _ c _ _ _ _ M1 Nk' H3 Nk Mc) as (Ek & _). lia.
Qed.
Theorem C96_marks_heard w dict brk l f t v k c :
  StronglySorted lt brk -> Forall (fun x => x <= length w) brk -> dictOKo dict ->
  pronounced libthai_ct w dict brk l -> occurs l f t v -> literal v = [] -> ~ dictSyl dict v ->
  (0 <= f <= Z.of_nat k)%Z -> (Z.of_nat k < t)%Z -> nth_error w k = Some c -> isMark c = true ->
  (exists K, Head false (body (between w (Z.to_nat f) (Z.to_nat t))) (iCons1 v) (iCons2 v) K /\
     toned K (markOf c) (dead (vowel v) (eCons v)) (short (vowel v)) (tone v)) /\
  (forall k' c', (f <= Z.of_nat k' < t)%Z -> nth_error w k' = Some c' -> isMark c' = true -> k' = k).
Proof. exact (C96_lemma2 w dict brk l f t v k c). Qed.
Print Assumptions C96_marks_heard.

(** Four words: a leading HO HIP, a cluster, a weak syllable, a marked
    sonorant. *)
Definition headText : list N := letters "ใหม่ขว้างตลาด น้ำ".
Definition headSyls : SylString :=
  [SylOf MA SEC_NONE V_A KOEY EK 4; SylOf KHA SEC_WA V_AA KONG THO 9; SylOf TA SEC_NONE V_A EC_NONE EK (-913);
   SylOf LA SEC_NONE V_AA KOT EK 13; SylLiteral 14 [0x20%N]; SylOf NA SEC_NONE V_A KOM TRI 17].
Example C96_case : StronglySorted lt [4; 9; 13] /\ Forall (fun x => x <= length headText) [4; 9; 13] /\ dictOKo None /\
  (exists l, pronounced libthai_ct headText None [4; 9; 13] l /\ In headSyls l) /\
  Headed false (letters "ใหม่") (say MA SEC_NONE V_A KOEY EK) /\ Headed false (letters "ขว้าง") (say KHA SEC_WA V_AA KONG THO) /\
  Headed true (letters "ตลาด") (say LA SEC_NONE V_AA KOT EK) /\ Weak 0x0e15 (say TA SEC_NONE V_A EC_NONE EK) /\
  Headed false (letters "น้ำ") (say NA SEC_NONE V_A KOM TRI) /\
  ~ Headed false (letters "น้ำ") (say NA SEC_NONE V_A KOM SAMAN) /\ ~ Headed false (letters "น้ำ") (say LA SEC_NONE V_A KOM TRI).
Proof.
  split; [repeat constructor|]. split; [repeat constructor; vm_compute; lia|]. split; [intros d X; discriminate X|].
  split; [eexists; split; [apply listing_pronounced; vm_compute; reflexivity|]; cbn [In]; unfold headSyls; tauto|].
  split; [exists HIGH, EK; split; [apply (H_ho false 0x0e21%N [0x0e48%N]); reflexivity|]; split; [right; exists 0x0e48%N; split; reflexivity|left; constructor]|].
  split; [exists HIGH, THO; split; [apply (H_cluster false 0x0e02%N); [reflexivity|reflexivity|cbn [In]; tauto]|]; split; [right; exists 0x0e49%N; split; reflexivity|left; constructor]|].
  split; [exists MID, SAMAN; split; [apply (H_led true 0x0e15%N 0x0e25%N); reflexivity|]; split; [left; split; reflexivity|left; constructor]|].
  split; [exists V_A; repeat (split; [auto; reflexivity|]); left; constructor|].
  split; [exists LOWS, THO; split; [apply (H_one false 0x0e19%N); reflexivity|]; split; [right; exists 0x0e49%N; split; reflexivity|left; constructor; auto]|].
  split; intros (k & m & H & M & T).
  - destruct M as [(M & _)|(c & M & ->)]; [discriminate M|]. injection M as <-.
    inversion H; subst; try discriminate; destruct T as [T|(_ & T)]; try discriminate T; vm_compute in T; inversion T.
  - change (body (letters "น้ำ")) with (letters "น้ำ") in H. vm_compute in H. inversion H; subst; try discriminate.
Qed.
(** The words used above, letter by letter. *)
Example C96_letters : map markOf (letters "่้๊๋") = [EK; THO; TRI; CHATTAWA] /\ map isMark (letters "่้๊๋") = [true; true; true; true] /\
  map ruSound (letters "ฤฦ") = [RA; LA] /\ map soundOf (letters "กตรลวส") = [KA; TA; RA; LA; WA; SA] /\
  map classOf (letters "กขคงห") = [MID; HIGH; LOWP; LOWS; HIGH].
Proof. vm_compute. auto. Qed.

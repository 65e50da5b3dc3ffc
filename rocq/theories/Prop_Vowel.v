(** Prop_Vowel.v - property C92: the vowel of a syllable and the vowel signs of
    its letters. *)
From Coq Require Import String List NArith ZArith Bool Lia Arith Sorted.
From Verif Require Import Base ThUni ThCons Syl Utf Lattice Dag DagProofs PronDag Dict Parser.
From Verif Require Import Spec OrderProofs DictProofs Prop_Syl ParserSpec ParserFacts ParserInv ParserResult ParserListed ParserDict ParserPool ParserProduct.
From Verif Require Import Prop_Output Prop_Parser Grammar GrammarWord TextGrammar TextProof Prop_Span Prop_Size.
Import ListNotations.
Local Open Scope string_scope.
Local Open Scope list_scope.
Local Open Scope nat_scope.

(** ** Vocabulary *)
(** The vowel signs among letters, in the order of the letters, except short I
    and U, which can be silent. *)
Definition isSign (c : N) : bool := memN c (letters "ะัาำีึืูเแโใไๅ็").
Definition signsOf (g : list N) : list N := filter isSign g.
(** The signs with which a vowel is written, and letters one of which is also
    needed. *)
Definition vowelTable : list (EVowel * string * string) :=
  [ (V_A, "ะ", ""); (V_A, "ั", ""); (V_A, "ำ", ""); (V_A, "ไ", ""); (V_A, "ใ", ""); (V_A, "เา", ""); (V_A, "", "");
    (V_AA, "า", ""); (V_I, "", "ิฤฦ"); (V_II, "ี", ""); (V_UE, "ึ", ""); (V_UE, "", "ฤฦ");
    (V_UEE, "ื", ""); (V_UEE, "ๅ", "ฤฦ"); (V_UEE, "า", "ฤฦ"); (V_U, "", "ุ"); (V_UU, "ู", "");
    (V_E, "เะ", ""); (V_E, "เ็", ""); (V_EE, "เ", ""); (V_AE, "แะ", ""); (V_AE, "แ็", ""); (V_AEE, "แ", "");
    (V_O, "โะ", ""); (V_O, "", ""); (V_OO, "โ", ""); (V_AU, "เาะ", ""); (V_AU, "็", "อ"); (V_AUU, "", "อรบ");
    (V_OE, "เะ", "อ"); (V_OEE, "เ", "อยิ"); (V_IA, "เีะ", "ย"); (V_IAA, "เี", "ย");
    (V_UEA, "เืะ", "อ"); (V_UEAA, "เื", "อ"); (V_UA, "ัะ", "ว"); (V_UAA, "ั", "ว"); (V_UAA, "", "ว") ]%string.
Definition Spelt (v : EVowel) (g : list N) : Prop :=
  exists s need, In (v, s, need) vowelTable /\ signsOf g = letters s /\
    (need = ""%string \/ exists c, In c (letters need) /\ In c g).

(** ** What a reading takes *)
Definition Tk (t g r : list N) : Prop := t = g ++ r.
Lemma tk_nil r : Tk r [] r. Proof. reflexivity. Qed.
Lemma tk_cons x t g r : Tk t g r -> Tk (x :: t) (x :: g) r. Proof. unfold Tk. intros ->. reflexivity. Qed.
Lemma tk_app a t g r : Tk t g r -> Tk (a ++ t) (a ++ g) r. Proof. unfold Tk. intros ->. apply app_assoc. Qed.
Ltac tk := repeat first [apply tk_nil|apply tk_cons|apply tk_app].
Lemma signs_app a b : signsOf (a ++ b) = signsOf a ++ signsOf b. Proof. apply filter_app. Qed.
Lemma signs_quiet c g : isSign c = false -> signsOf (c :: g) = signsOf g. Proof. intros H. unfold signsOf. cbn [filter]. rewrite H. reflexivity. Qed.
Lemma signs_sign c g : isSign c = true -> signsOf (c :: g) = c :: signsOf g. Proof. intros H. unfold signsOf. cbn [filter]. rewrite H. reflexivity. Qed.
Lemma cons_quiet c : consonant c = true -> isSign c = false.
Proof.
  intros H. unfold consonant in H. rewrite !andb_true_iff, !N.leb_le in H. apply not_true_is_false. intros X. unfold isSign in X.
  apply memN_In in X. vm_compute in X. repeat destruct X as [<-|X]; lia.
Qed.
Lemma mark_quiet c : isMark c = true -> isSign c = false.
Proof.
  intros H. unfold isMark in H. rewrite !andb_true_iff, !N.leb_le in H. apply not_true_is_false. intros X. unfold isSign in X.
  apply memN_In in X. vm_compute in X. repeat destruct X as [<-|X]; lia.
Qed.
Lemma end_cons c : canEnd c -> consonant c = true. Proof. intros (H & _). exact H. Qed.
Definition Quiet (t r : list N) : Prop := exists g, t = g ++ r /\ signsOf g = [].
Lemma quiet_refl r : Quiet r r. Proof. exists []. auto. Qed.
Lemma quiet_cons c t r : isSign c = false -> Quiet t r -> Quiet (c :: t) r.
Proof. intros H (g & -> & Z). exists (c :: g). split; [reflexivity|]. rewrite signs_quiet; assumption. Qed.
Lemma quiet_trans a b c : Quiet a b -> Quiet b c -> Quiet a c.
Proof. intros (g & -> & Z) (h & -> & Y). exists (g ++ h). split; [apply app_assoc|]. rewrite signs_app, Z, Y. reflexivity. Qed.
Lemma mark_took t m t' : mark t = (m, t') -> Quiet t t'.
Proof.
  unfold mark. destruct t as [|c t]; [intros E; injection E as _ <-; apply quiet_refl|].
  destruct (isMark c) eqn:M; intros E; injection E as _ <-; [apply quiet_cons; [apply mark_quiet; exact M|]|]; apply quiet_refl.
Qed.
Lemma thanthakhat_quiet : isSign UTH_THANTHAKHAT = false. Proof. vm_compute. reflexivity. Qed.
Lemma iu_quiet c : ((c =? UTH_SARA_I) || (c =? UTH_SARA_U))%N = true -> isSign c = false.
Proof. rewrite orb_true_iff, !N.eqb_eq. intros [-> | ->]; vm_compute; reflexivity. Qed.
Lemma silent_took t : Quiet t (silent t).
Proof.
  destruct t as [|c [|x t]]; cbn [silent]; try apply quiet_refl. destruct (_ && _) eqn:E; [|apply quiet_refl].
  apply andb_true_iff in E. destruct E as (A & B). apply N.eqb_eq in B. subst x.
  apply quiet_cons; [apply cons_quiet; exact A|]. apply quiet_cons; [exact thanthakhat_quiet|]. apply quiet_refl.
Qed.
Lemma silentIU_took t : Quiet t (silentIU t).
Proof.
  destruct t as [|c [|x [|y t]]]; cbn [silentIU]; try apply quiet_refl. destruct (_ && _) eqn:E; [|apply quiet_refl].
  rewrite !andb_true_iff in E. destruct E as ((A & B) & C). apply N.eqb_eq in C. subst y.
  apply quiet_cons; [apply cons_quiet; exact A|]. apply quiet_cons; [apply iu_quiet; exact B|].
  apply quiet_cons; [exact thanthakhat_quiet|]. apply quiet_refl.
Qed.
Lemma silent2_took t : Quiet t (silent2 t).
Proof.
  destruct t as [|c [|x [|y t]]]; cbn [silent2]; try apply quiet_refl. destruct (_ && _) eqn:E; [|apply quiet_refl].
  rewrite !andb_true_iff in E. destruct E as ((A & B) & C). apply N.eqb_eq in C. subst y.
  apply quiet_cons; [apply cons_quiet; exact A|]. apply quiet_cons; [apply cons_quiet; exact B|].
  apply quiet_cons; [exact thanthakhat_quiet|]. apply quiet_refl.
Qed.
Lemma silentAny_took t : Quiet t (silentAny t).
Proof. unfold silentAny. destruct (_ <? _); [apply silent_took|]. destruct (_ <? _); [apply silentIU_took|apply silent2_took]. Qed.
Lemma shorter_took t : Quiet t (if length (silent t) <? length t then silent t else silentIU t).
Proof. destruct (_ <? _); [apply silent_took|apply silentIU_took]. Qed.
Lemma final_took no t e r : Final no t e r -> Quiet t r.
Proof. intros [c t' C _]. apply quiet_cons; [apply cons_quiet, end_cons, C|apply silentAny_took]. Qed.
Lemma shared_took no t e r b : FinalOrShared no t e r b -> Quiet t r.
Proof.
  intros [t' e' r' F|c r' C _ _ _ _|c v r' C _ _ V _|c t' _ _ _ _]; [eapply final_took; eauto| | |apply quiet_refl].
  - apply quiet_cons; [apply cons_quiet, end_cons, C|]. apply quiet_cons; [vm_compute; reflexivity|apply quiet_refl].
  - apply quiet_cons; [apply cons_quiet, end_cons, C|]. apply quiet_cons; [|apply quiet_refl].
    unfold oneOf in V. vm_compute in V. destruct V as [<-|[<-|[]]]; vm_compute; reflexivity.
Qed.
Lemma ran_took (b : bool) r x r' : (if b then r else silent r) = x :: r' -> Quiet r (x :: r').
Proof. intros E. destruct b; [subst r; apply quiet_refl|rewrite <- E; apply silent_took]. Qed.
Lemma one_cons s c : forallb consonant (letters s) = true -> oneOf s c -> consonant c = true.
Proof. intros H O. rewrite forallb_forall in H. apply H. exact O. Qed.
Lemma initial_took lk t o t1 : InitialAt lk t o t1 -> exists g, t = g ++ t1 /\ signsOf g = [] /\
  forall v, oVowel o = Some v -> In UTH_RU g /\ (v = V_I \/ v = V_UE).
Proof.
  assert (R : isSign UTH_RU = false) by (vm_compute; reflexivity).
  assert (R2 : isSign UTH_RO_RUA = false) by (vm_compute; reflexivity).
  assert (R3 : isSign UTH_LO_LING = false) by (vm_compute; reflexivity).
  assert (R4 : isSign UTH_WO_WAEN = false) by (vm_compute; reflexivity).
  assert (R5 : isSign UTH_HO_HIP = false) by (vm_compute; reflexivity).
  assert (Q : forall s c, forallb consonant (letters s) = true -> oneOf s c -> isSign c = false).
  { intros s c H O. apply cons_quiet. eapply one_cons; eauto. }
  assert (Q2 : forall c d, isSign c = false -> isSign d = false -> signsOf [c; d] = []).
  { intros c d H1 H2. rewrite !signs_quiet by assumption. reflexivity. }
  intros []; cbn [oVowel plainOf];
    match goal with
    | |- exists g, ?c :: ?d :: ?t = g ++ ?t /\ _ => exists [c; d]
    | |- exists g, ?c :: ?t = g ++ ?t /\ _ => exists [c]
    end.
  all: split; [reflexivity|].
  all: split; [|intros ? E; first [discriminate E|injection E as <-; split; [right; left; reflexivity|tauto]]].
  all: try (rewrite signs_quiet; [reflexivity|]); try apply Q2; auto; try (apply cons_quiet; assumption).
  all: try (eapply Q; [|eassumption]; vm_compute; reflexivity).
  match goal with H : _ \/ _ |- _ => destruct H as [H|(_ & H)] end; (eapply Q; [|eassumption]; vm_compute; reflexivity).
Qed.

(** ** Rimes *)
Lemma in_table v s need : existsb (fun x => Z.eqb v (fst (fst x)) && String.eqb s (snd (fst x)) && String.eqb need (snd x)) vowelTable = true ->
  In (v, s, need) vowelTable.
Proof.
  intros H. apply existsb_exists in H. destruct H as (((v' & s') & n') & I & H). cbn [fst snd] in H. rewrite !andb_true_iff in H.
  destruct H as ((A & B) & C). apply Z.eqb_eq in A. apply String.eqb_eq in B, C. subst. exact I.
Qed.
Ltac sig := rewrite ?signs_app; cbn [app];
  repeat first [rewrite signs_quiet by (first [assumption|vm_compute; reflexivity|apply cons_quiet; assumption|apply mark_quiet; assumption])
               |rewrite signs_sign by (vm_compute; reflexivity)|rewrite signs_app];
  repeat match goal with H : signsOf ?g = _ |- context [signsOf ?g] => rewrite H end; cbn [app]; vm_compute; reflexivity.
Ltac inn := repeat (rewrite in_app_iff || cbn [In]); tauto.
Ltac need := first [left; reflexivity|right; first
  [exists UTH_SARA_I; split; [vm_compute; tauto|inn]|exists UTH_RU; split; [vm_compute; tauto|inn]|exists UTH_LU; split; [vm_compute; tauto|inn]|
   exists UTH_SARA_U; split; [vm_compute; tauto|inn]|exists UTH_O_ANG; split; [vm_compute; tauto|inn]|exists UTH_RO_RUA; split; [vm_compute; tauto|inn]|
   exists UTH_YO_YAK; split; [vm_compute; tauto|inn]|exists UTH_WO_WAEN; split; [vm_compute; tauto|inn]|exists UTH_BO_BAIMAI; split; [vm_compute; tauto|inn]]].
Ltac pick s n := exists s%string, n%string; split; [apply in_table; vm_compute; reflexivity|split; [sig|need]].
Ltac spell := first [pick "ะ" ""|pick "ั" ""|pick "ำ" ""|pick "ไ" ""|pick "ใ" ""|pick "เา" ""|pick "" ""|pick "า" ""|pick "" "ิฤฦ"|pick "ี" ""|
  pick "ึ" ""|pick "" "ฤฦ"|pick "ื" ""|pick "ๅ" "ฤฦ"|pick "า" "ฤฦ"|pick "" "ุ"|pick "ู" ""|pick "เะ" ""|pick "เ็" ""|pick "เ" ""|
  pick "แะ" ""|pick "แ็" ""|pick "แ" ""|pick "โะ" ""|pick "โ" ""|pick "เาะ" ""|pick "็" "อ"|pick "" "อรบ"|pick "เะ" "อ"|pick "เ" "อยิ"|
  pick "เีะ" "ย"|pick "เี" "ย"|pick "เืะ" "อ"|pick "เื" "อ"|pick "ัะ" "ว"|pick "ั" "ว"|pick "" "ว"].
Ltac hidden t := let g := fresh "g" in let r := fresh "r" in let E := fresh "E" in let Z := fresh "Z" in
  destruct (silent_took t) as (g & E & Z); set (r := silent t) in *; clearbody r; first [subst t|rewrite E in *].
Ltac took := repeat match goal with
  | H : mark ?t = (?m, ?t') |- _ => let g := fresh "g" in let Z := fresh "Z" in
      apply mark_took in H; destruct H as (g & -> & Z)
  | H : Final _ ?t _ ?r |- _ => apply final_took in H
  | H : FinalOrShared _ ?t _ ?r _ |- _ => apply shared_took in H
  | H : (if _ then _ else silent _) = _ :: _ |- _ => apply ran_took in H
  | H : Quiet (silent ?t) ?r |- _ => apply (quiet_trans _ _ _ (silent_took t)) in H
  | |- context [if length (silent ?t) <? length ?t then _ else _] =>
      let X := fresh "X" in pose proof (shorter_took t) as X; set (if length (silent t) <? length t then silent t else silentIU t) in *
  | |- context [silent ?t] => let X := fresh "X" in pose proof (silent_took t) as X; set (silent t) in *
  end.
Ltac quiets := repeat match goal with
  | H : Quiet ?t ?r |- _ => let g := fresh "g" in let E := fresh "E" in let Z := fresh "Z" in destruct H as (g & E & Z); first [subst t|rewrite E in *]
  end.
Lemma rime_spelt p lk o t v e m r b : Rime lk o t v e m r b -> signsOf p = [] ->
  (forall v, oVowel o = Some v -> In UTH_RU p /\ (v = V_I \/ v = V_UE)) ->
  exists g, t = g ++ r /\ Spelt v (p ++ g).
Proof.
  intros H P V. destruct H.
  all: try match goal with H : In (_, _) _ |- _ => cbn [In] in H; repeat destruct H as [H|H]; try contradiction; injection H as <- <- end.
  all: try match goal with H : oVowel _ = Some _ |- _ => destruct (V _ H) as (? & [-> | ->]) end.
  all: clear V; took; quiets.
  all: try (eexists; split; [apply tk_nil || tk|]; unfold Spelt; spell).
Qed.
Lemma rimeE_spelt p o t v e m r b : RimeE o t v e m r b -> signsOf p = [UTH_SARA_E] -> exists g, t = g ++ r /\ Spelt v (p ++ g).
Proof.
  intros H P. destruct H; took; quiets.
  all: try (eexists; split; [apply tk_nil || tk|]; unfold Spelt; spell).
Qed.
Lemma rimeL_spelt p l t v e m r b : RimeL l t v e m r b -> signsOf p = [l] -> exists g, t = g ++ r /\ Spelt v (p ++ g).
Proof.
  intros H P. destruct H; took; quiets.
  all: try (eexists; split; [apply tk_nil || tk|]; unfold Spelt; spell).
Qed.
Lemma rimeRu_spelt p c t v e r b : RimeRu t v e r b -> isRu c -> p = [c] -> exists g, t = g ++ r /\ Spelt v (p ++ g).
Proof.
  intros H I ->. destruct I as [-> | ->]; destruct H; took; quiets.
  all: try match goal with H : _ = UTH_LAKKHANGYAO \/ _ |- _ => destruct H; subst end.
  all: try destruct (memN _ _).
  all: try (eexists; split; [apply tk_nil || tk|]; unfold Spelt; spell).
Qed.
Definition preVowel (p : option Said) : Prop := forall y, p = Some y -> saVowel y = V_A \/ saVowel y = V_AUU.
Lemma saysA_vowel c p : SaysA c p -> saVowel p = V_A. Proof. intros []. reflexivity. Qed.
Lemma saysAuu_vowel c p : SaysAuu c p -> saVowel p = V_AUU. Proof. intros []. reflexivity. Qed.
Lemma implied_spelt t p x r : Implied t p x r -> exists g, t = g ++ r /\ Spelt (saVowel x) g /\ preVowel p.
Proof.
  assert (Q : forall s c, forallb consonant (letters s) = true -> oneOf s c -> isSign c = false).
  { intros s c H O. apply cons_quiet. eapply one_cons; eauto. }
  intros H. destruct H as [c x t p O _ _ S|x t p S|x t p S|x t p _ S|c x t p C _ S|c x t p C _ _ _ S].
  - apply (Q "กคจทธนบปภมวสหอ") in O; [|vm_compute; reflexivity]. exists [c; UTH_RO_RUA]. split; [reflexivity|].
    split; [unfold Spelt; spell|]. intros y E. injection E as <-. right. eapply saysAuu_vowel; eauto.
  - exists [UTH_BO_BAIMAI; UTH_RO_RUA; UTH_SARA_I]. split; [reflexivity|].
    split; [unfold Spelt; spell|]. intros y E. injection E as <-. right. eapply saysAuu_vowel; eauto.
  - exists [UTH_CHO_CHAN; UTH_RO_RUA; UTH_SARA_A]. split; [reflexivity|].
    split; [unfold Spelt; spell|]. intros y E. injection E as <-. right. eapply saysAuu_vowel; eauto.
  - exists [UTH_BO_BAIMAI]. split; [reflexivity|]. apply saysAuu_vowel in S. rewrite S.
    split; [unfold Spelt; spell|]. intros y E. discriminate E.
  - exists [c]. split; [reflexivity|]. apply saysA_vowel in S. rewrite S. split; [unfold Spelt; spell|]. intros y E. discriminate E.
  - exists [c; UTH_RU]. split; [reflexivity|]. split; [unfold Spelt; spell|]. intros y E. injection E as <-. left. eapply saysA_vowel; eauto.
Qed.
Lemma leads_vowel o p : Leads o p -> preVowel p.
Proof. intros [E|c q E S] y X; [discriminate X|]. injection X as <-. left. eapply saysA_vowel; eauto. Qed.
Lemma sounds_vowel o v e m x : Sounds o v e m x -> saVowel x = v. Proof. intros []. reflexivity. Qed.
Lemma reads_spelt lk t p x r b : Reads lk t p x r b -> exists g, t = g ++ r /\ Spelt (saVowel x) g /\ preVowel p.
Proof.
  intros [t' o t1 v e m r' b' p' x' I R L S|t' o t1 v e m r' b' p' x' I R L S|l t' o t1 v e m r' b' p' x' I R L S|t' p' x' r' I|c t' v e r' b' tn C R _].
  - destruct (initial_took _ _ _ _ I) as (g & -> & Z & V). destruct (rime_spelt g _ _ _ _ _ _ _ _ R Z V) as (h & -> & Sp).
    exists (g ++ h). split; [apply app_assoc|]. rewrite (sounds_vowel _ _ _ _ _ S). split; [exact Sp|eapply leads_vowel; eauto].
  - destruct (initial_took _ _ _ _ I) as (g & -> & Z & V). destruct (rimeE_spelt (UTH_SARA_E :: g) _ _ _ _ _ _ _ R) as (h & -> & Sp).
    { rewrite signs_sign, Z by (vm_compute; reflexivity). reflexivity. }
    exists ((UTH_SARA_E :: g) ++ h). split; [cbn [app]; rewrite app_assoc; reflexivity|]. rewrite (sounds_vowel _ _ _ _ _ S). split; [exact Sp|eapply leads_vowel; eauto].
  - destruct (initial_took _ _ _ _ I) as (g & -> & Z & V). destruct (rimeL_spelt (l :: g) _ _ _ _ _ _ _ R) as (h & -> & Sp).
    { rewrite signs_sign, Z; [reflexivity|]. destruct R; vm_compute; reflexivity. }
    exists ((l :: g) ++ h). split; [cbn [app]; rewrite app_assoc; reflexivity|]. rewrite (sounds_vowel _ _ _ _ _ S). split; [exact Sp|eapply leads_vowel; eauto].
  - apply implied_spelt. exact I.
  - destruct (rimeRu_spelt [c] c _ _ _ _ _ R C eq_refl) as (h & -> & Sp). exists (c :: h). split; [reflexivity|].
    split; [exact Sp|]. intros y E. discriminate E.
Qed.

(** ** C92: the vowel of a syllable is written in its letters *)
(** How the vowel of the syllable [v] from [f] to [t] comes about: a weak
    syllable of the first consonant, the name of a consonant, or vowel signs,
    all of them. *)
Definition vowelWritten (w : list N) (f t : Z) (v : Syl) : Prop :=
  exists b e, inGroup w f t b e /\
    (f = Z.of_nat b /\ t = preNode (Z.of_nat b) (Z.of_nat e) /\ (vowel v = V_A \/ vowel v = V_AUU) \/
     e = b + 1 /\ (exists c, nth_error w b = Some c /\ consonant c = true) /\ vowel v = V_AUU \/
     t <> preNode (Z.of_nat b) (Z.of_nat e) /\ Spelt (vowel v) (firstn (e - b) (skipn b w))).

Lemma along_spoken p s : forall y f v, In (f, v) (along y (shiftEndPos p s)) -> exists v0, In v0 s /\ spoken v0 = spoken v.
Proof.
  induction s as [|u s IH]; intros y f v H; [destruct H|]. cbn [shiftEndPos map along] in H. destruct H as [H|H].
  - injection H as _ <-. exists u. split; [left; reflexivity|]. destruct u; reflexivity.
  - destruct (IH _ _ _ H) as (v0 & A & B). exists v0. split; [right; exact A|exact B].
Qed.
Lemma names_vowel g : Forall (fun c => consonant c = true) g -> forall p f v, In (f, v) (along (zn p) (names (zn p) g)) ->
  exists i c, nth_error g i = Some c /\ consonant c = true /\ f = zn (p + i) /\ vowel v = V_AUU /\
    (endPos v = zn (p + i + 1) \/ endPos v = zn (p + i + 2) /\ i + 1 = length g).
Proof.
  intros F. induction F as [|c g C F IH]; intros p f v H; [destruct H|]. destruct g as [|c2 g].
  - cbn [names along In] in H. destruct H as [H|[]]. injection H as <- <-. exists 0, c. split; [reflexivity|]. split; [exact C|].
    split; [f_equal; lia|]. split; [reflexivity|]. right. cbn [nameOf endPos SylOf length]. split; lia.
  - change (names (zn p) (c :: c2 :: g)) with (nameOf c (zn p + 1) :: names (zn p + 1) (c2 :: g)) in H.
    cbn [along] in H. destruct H as [H|H].
    + injection H as <- <-. exists 0, c. split; [reflexivity|]. split; [exact C|].
      split; [f_equal; lia|]. split; [reflexivity|]. left. cbn [nameOf endPos SylOf]. lia.
    + replace (endPos (nameOf c (zn p + 1))) with (zn (S p)) in H by (cbn [nameOf endPos SylOf]; lia).
      replace (zn p + 1)%Z with (zn (S p)) in H by lia. destruct (IH (S p) f v H) as (i & c' & A & B & E & V & X).
      exists (S i), c'. split; [exact A|]. split; [exact B|]. split; [rewrite E; f_equal; lia|]. split; [exact V|].
      destruct X as [->|(-> & X)]; [left; f_equal; lia|right; split; [f_equal; lia|cbn [length] in *; lia]].
Qed.
Lemma nth_between w p q i : i < q - p -> nth_error (between w p q) i = nth_error w (p + i).
Proof.
  intros H. unfold between. generalize (q - p), H. clear q H. intros k H.
  rewrite <- (firstn_skipn p w) at 2. destruct (le_lt_dec (length w) p) as [L|L].
  - rewrite (skipn_all2 w L), firstn_nil. rewrite app_nil_r, firstn_all2 by exact L.
    destruct i; symmetry; cbn [nth_error]; apply nth_error_None; lia.
  - rewrite nth_error_app2 by (rewrite firstn_length; lia). rewrite firstn_length. replace (p + i - Nat.min p (length w)) with i by lia.
    revert i k H. generalize (skipn p w). intros l. induction l as [|x l IH]; intros i k H; [rewrite firstn_nil; reflexivity|].
    destruct k; [lia|]. destruct i; [reflexivity|]. cbn. apply IH. lia.
Qed.

Section Vowel.
Variable w : list N.
Variable dict : option Dict.
Variable brk : list nat.
Notation n := (length w).
Hypothesis sorted : StronglySorted lt brk.
Hypothesis inside : Forall (fun x => x <= n) brk.
Hypothesis dictWF : dictOKo dict.
Notation D := (entry dict).

Lemma pass_vowel p lk es e lk' f v : Pass D w brk p lk es e lk' -> In (f, v) es ->
  literal v = [] -> dictSyl dict v \/ vowelWritten w f (endPos v) v /\
    (endPos v = zn e -> tacit w e -> vowelWritten w f (zn (e + 1)) v).
Proof.
  intros P Hi Lv. destruct P as [q F|q k r strs W ((Et & _ & Dk) & _)|q s r W _ _ S|q pre x r lk' W _ _ Ls R].
  - exfalso. destruct Hi as [Hi|[]]. injection Hi as <- <-. cbn [literal SylLiteral] in Lv. destruct F as [A B _ _].
    apply (f_equal (@List.length N)) in Lv. rewrite between_len in Lv by lia. cbn in Lv. lia.
  - left. apply in_flat_map in Hi. destruct Hi as (s & Is & Hi). destruct (along_spoken _ _ _ _ _ Hi) as (v0 & I0 & E0).
    destruct Dk as (d & v1 & Ed & H & _ & Ls). exists d, k, v1, strs, s, v0. repeat split; assumption.
  - right. pose proof W as [A B _ _ _].
    inversion S as [g r' Ng _ Fg Eg E1 E2|r' Er E1 E2|c Hc Ec E1 E2]; subst.
    + destruct (names_vowel g Fg p f v Hi) as (i & c & Ei & Ci & Ef & Vv & X).
      assert (Li : i < length g) by (apply nth_error_Some; congruence).
      assert (Lg : p + length g + 1 + length r = q).
      { apply (f_equal (@List.length N)) in Eg. rewrite between_len, app_length in Eg by lia. cbn [length] in Eg. lia. }
      assert (Wi : nth_error w (p + i) = Some c).
      { rewrite <- (nth_between w p q) by lia. rewrite <- Eg. rewrite nth_error_app1 by exact Li. exact Ei. }
      assert (Wd : i + 1 = length g -> nth_error w (p + i + 1) = Some 46%N).
      { intros Y. rewrite <- Nat.add_assoc, Y, <- (nth_between w p q) by lia. rewrite <- Eg, nth_error_app2, Nat.sub_diag by lia. reflexivity. }
      split.
      * exists (p + i), (p + i + 1). split.
        -- split; [lia|]. split; [lia|]. left. split; [left; exact Ef|]. destruct X as [->|(-> & Y)]; [left; reflexivity|right].
           split; [f_equal; lia|apply Wd; exact Y].
        -- right. left. split; [reflexivity|]. split; [exists c; auto|exact Vv].
      * intros Ee (_ & Hn). exfalso. destruct X as [X|(X & Y)]; rewrite X in Ee; [lia|]. apply Hn. right.
        exists fullStop. split; [|auto]. replace (q - length r - 1) with (p + i + 1) by lia. apply Wd. exact Y.
    + exfalso. destruct Hi as [Hi|[]]. injection Hi as <- <-. discriminate Lv.
    + destruct Hi as [Hi|[]]. injection Hi as <- <-. assert (Wc : nth_error w p = Some c).
      { pose proof (nth_between w p q 0 ltac:(lia)) as X. rewrite <- Ec, Nat.add_0_r in X. symmetry. exact X. }
      assert (Lg : p + 1 = q).
      { apply (f_equal (@List.length N)) in Ec. rewrite between_len in Ec by lia. cbn [length] in Ec. lia. }
      cbn [nameOf endPos SylOf vowel]. split; [|intros Ee (Hd & _)]; exists p, (p + 1); (split; [split; [lia|]; split; [lia|]; left; split; [left; reflexivity|]|
        right; left; split; [reflexivity|]; split; [exists c; auto|reflexivity]]).
      * left. lia.
      * right. cbn [length] in *. split; [lia|]. replace (p + 1) with (q - 0) by lia. exact Hd.
  - right. pose proof W as [A B _ _ _]. pose proof (reads_len _ _ _ _ _ _ R) as L.
    assert (Ls' : q <= seenTo w p q) by (unfold seenTo; destruct (nth_error w p); [destruct (_ && _)|]; lia).
    rewrite between_len in L by lia.
    destruct (reads_spelt _ _ _ _ _ _ R) as (g & Eg & Sp & Pv).
    assert (Lg : length g + length r = seenTo w p q - p).
    { apply (f_equal (@List.length N)) in Eg. rewrite between_len, app_length in Eg by lia. lia. }
    assert (Wg : firstn (seenTo w p q - length r - p) (skipn p w) = g).
    { replace (seenTo w p q - length r - p) with (length g) by lia.
      transitivity (firstn (length g) (between w p (seenTo w p q))).
      - unfold between. rewrite firstn_firstn. f_equal. lia.
      - rewrite Eg, firstn_app, firstn_all, Nat.sub_diag, app_nil_r. reflexivity. }
    set (e := seenTo w p q - length r) in *.
    assert (He : p < e /\ e <= n) by (destruct pre; lia).
    assert (Mk : marker p e = preNode (zn p) (zn e)) by reflexivity.
    assert (Ng : forall k, zn k <> preNode (zn p) (zn e)) by (intros k; unfold preNode; lia).
    unfold moves in Hi. destruct pre as [y|].
    + destruct Hi as [Hi|[Hi|[]]]; injection Hi as <- <-; cbn [endPos vowel sylAt SylOf].
      * split; [|intros X; exfalso; unfold marker in X; lia]. exists p, e. split; [split; [lia|]; split; [lia|]; right; auto|].
        left. split; [reflexivity|]. split; [reflexivity|]. apply Pv. reflexivity.
      * split; [|intros _ (Hd & _)]; exists p, e; (split; [split; [lia|]; split; [lia|]; left; split; [right; reflexivity|]|
          right; right; split; [apply Ng|]; rewrite Wg; exact Sp]); auto.
    + destruct Hi as [Hi|[]]; injection Hi as <- <-; cbn [endPos vowel sylAt SylOf].
      split; [|intros _ (Hd & _)]; exists p, e; (split; [split; [lia|]; split; [lia|]; left; split; [left; reflexivity|]|
          right; right; split; [apply Ng|]; rewrite Wg; exact Sp]); auto.
Qed.
Lemma way_vowel f v : OnWay D w brk f v -> literal v = [] -> dictSyl dict v \/ vowelWritten w f (endPos v) v.
Proof.
  intros (p & lk & es & e & lk' & _ & St & _ & Hi) Lv. destruct St as [es e lk' P _|es e lk' P T].
  - destruct (pass_vowel p lk es e lk' f v P Hi Lv) as [X|(X & _)]; auto.
  - apply extend_in in Hi. destruct Hi as [(Hi & _)|(v0 & Hi & X & ->)].
    + destruct (pass_vowel p lk es e lk' f v P Hi Lv) as [Y|(Y & _)]; auto.
    + assert (L0 : literal v0 = []) by (destruct v0; exact Lv).
      destruct (pass_vowel p lk es e lk' f v0 P Hi L0) as [(d & k & x & strs & s & u & H)|(_ & Y)].
      * left. exists d, k, x, strs, s, u. destruct v0; exact H.
      * right. specialize (Y X T). destruct v0; exact Y.
Qed.
Lemma C92_lemma l f t v : pronounced libthai_ct w dict brk l -> occurs l f t v -> literal v = [] ->
  dictSyl dict v \/ vowelWritten w f t v.
Proof.
  intros (fuel & d & E & L) O Lv. pose proof (ParseU16F_inv libthai_ct w dict brk dictWF fuel d E) as G.
  apply (listed_occurs libthai_ct w dict brk d l G L) in O.
  apply (proj1 (edges_way w dict brk sorted inside dictWF fuel d E f t v)) in O. destruct O as (O & <-).
  apply way_vowel; assumption.
Qed.
End Vowel.

Theorem C92_vowels_written w dict brk l f t v :
  StronglySorted lt brk -> Forall (fun x => x <= length w) brk -> dictOKo dict ->
  pronounced libthai_ct w dict brk l -> occurs l f t v -> literal v = [] ->
  dictSyl dict v \/ vowelWritten w f t v.
Proof. intros S I Dk. exact (C92_lemma w dict brk S I Dk l f t v). Qed.
Print Assumptions C92_vowels_written.

(** What each sign can be heard as. *)
Definition heardAs : list (string * list EVowel) :=
  [ ("ะ", [V_A; V_E; V_AE; V_O; V_AU; V_OE; V_IA; V_UEA; V_UA]); ("ั", [V_A; V_UA; V_UAA]);
    ("า", [V_A; V_AA; V_AU; V_UEE]); ("ำ", [V_A]); ("ี", [V_II; V_IA; V_IAA]); ("ึ", [V_UE]);
    ("ื", [V_UEE; V_UEA; V_UEAA]); ("ู", [V_UU]);
    ("เ", [V_A; V_E; V_EE; V_AU; V_OE; V_OEE; V_IA; V_IAA; V_UEA; V_UEAA]);
    ("แ", [V_AE; V_AEE]); ("โ", [V_O; V_OO]); ("ใ", [V_A]); ("ไ", [V_A]); ("ๅ", [V_UEE]); ("็", [V_E; V_AE; V_AU]) ]%string.
Definition hearable (c : N) (v : EVowel) : Prop := exists s vs, In (s, vs) heardAs /\ letters s = [c] /\ In v vs.
Definition hearableb (c : N) (v : EVowel) : bool :=
  existsb (fun p => match letters (fst p) with [x] => (x =? c)%N && existsb (Z.eqb v) (snd p) | _ => false end) heardAs.
Lemma hearable_sound c v : hearableb c v = true -> hearable c v.
Proof.
  intros H. apply existsb_exists in H. destruct H as ((s & vs) & I & H). cbn [fst snd] in H. exists s, vs. split; [exact I|].
  destruct (letters s) as [|x [|? ?]]; try discriminate H. rewrite andb_true_iff, N.eqb_eq, existsb_exists in H.
  destruct H as (-> & y & Iy & E). apply Z.eqb_eq in E. subst y. auto.
Qed.
Lemma table_heard : forallb (fun p => match p with (v, s, _) => forallb (fun c => hearableb c v) (letters s) end) vowelTable = true.
Proof. vm_compute. reflexivity. Qed.
Lemma C92_lemma2 w dict brk l f t v k c :
  StronglySorted lt brk -> Forall (fun x => x <= length w) brk -> dictOKo dict ->
  pronounced libthai_ct w dict brk l -> occurs l f t v -> literal v = [] -> ~ dictSyl dict v ->
  (0 <= f <= Z.of_nat k)%Z -> (Z.of_nat k < t)%Z -> nth_error w k = Some c -> isSign c = true -> hearable c (vowel v).
Proof.
  intros S I Dk P O Lv Nd Hf Ht Hc Sc. destruct (C92_lemma w dict brk S I Dk l f t v P O Lv) as [X|(b & e & (Lb & Le & G) & X)]; [contradiction|].
  assert (Nm : (0 <= zn b)%Z) by lia.
  assert (Ke : b <= k < e).
  { destruct G as [(Ff & Ft)|(Ff & Ft)]; [|exfalso; rewrite Ft in Ht; unfold preNode in Ht; lia].
    assert (f = zn b) as -> by (destruct Ff as [Ff|Ff]; [exact Ff|unfold preNode in Ff; lia]). split; [lia|].
    destruct Ft as [Ft|(Ft & Hd)]; [lia|]. destruct (Nat.eq_dec k e) as [->|]; [|lia].
    rewrite Hd in Hc. injection Hc as <-. discriminate Sc. }
  destruct X as [(_ & E & _)|[(E & (c' & Wc & Cc) & _)|(_ & s & need & It & Sg & _)]].
  - exfalso. rewrite E in Ht. unfold preNode in Ht. lia.
  - exfalso. assert (k = b) as -> by lia. rewrite Wc in Hc. injection Hc as <-. rewrite (cons_quiet _ Cc) in Sc. discriminate Sc.
  - apply hearable_sound. pose proof table_heard as T. rewrite forallb_forall in T. specialize (T _ It). cbn beta iota in T.
    rewrite forallb_forall in T. apply T. rewrite <- Sg. apply filter_In. split; [|exact Sc].
    apply (nth_error_In _ (k - b)). change (firstn (e - b) (skipn b w)) with (between w b e).
    rewrite nth_between by lia. replace (b + (k - b)) with k by lia. exact Hc.
Qed.
(** No sign goes unheard: the syllable over it has one of its vowels. *)
Theorem C92_signs_heard w dict brk l f t v k c :
  StronglySorted lt brk -> Forall (fun x => x <= length w) brk -> dictOKo dict ->
  pronounced libthai_ct w dict brk l -> occurs l f t v -> literal v = [] -> ~ dictSyl dict v ->
  (0 <= f <= Z.of_nat k)%Z -> (Z.of_nat k < t)%Z -> nth_error w k = Some c -> isSign c = true -> hearable c (vowel v).
Proof. exact (C92_lemma2 w dict brk l f t v k c). Qed.
Print Assumptions C92_signs_heard.

(** Three words, the last with a weak syllable, and the name of a letter. *)
Definition vowText : list N := letters "เมียแขกตลาด ก.".
Definition vowSyls : SylString :=
  [SylOf MA SEC_NONE V_IAA EC_NONE SAMAN 4; SylOf KHA SEC_NONE V_AEE KOK EK 7; SylOf TA SEC_NONE V_A EC_NONE EK (-711);
   SylOf LA SEC_NONE V_AA KOT EK 11; SylLiteral 12 [0x20%N]; SylOf KA SEC_NONE V_AUU EC_NONE SAMAN 14].
Example C92_case : StronglySorted lt [4; 7; 11] /\ Forall (fun x => x <= length vowText) [4; 7; 11] /\ dictOKo None /\
  (exists l, pronounced libthai_ct vowText None [4; 7; 11] l /\ In vowSyls l) /\
  Spelt V_IAA (letters "เมีย") /\ Spelt V_AEE (letters "แขก") /\ Spelt V_AA (letters "ตลาด") /\
  ~ Spelt V_AA (letters "แขก") /\ ~ Spelt V_IAA (letters "เม") /\ hearable 0x0e40 V_IAA /\ ~ hearable 0x0e41 V_AA.
Proof.
  assert (T : forall v s need g, In (v, s, need) vowelTable -> signsOf g = letters s -> (need = "" \/ exists c, In c (letters need) /\ In c g) -> Spelt v g)
    by (intros v s need g A B C; exists s, need; auto).
  split; [repeat constructor|]. split; [repeat constructor; vm_compute; lia|]. split; [intros d X; discriminate X|].
  split; [eexists; split; [apply listing_pronounced; vm_compute; reflexivity|]; cbn [In]; unfold vowSyls; tauto|].
  split; [apply (T _ "เี" "ย"); [unfold vowelTable; cbn [In]; tauto|reflexivity|right; exists 0x0e22%N; split; vm_compute; tauto]|].
  split; [apply (T _ "แ" ""); [unfold vowelTable; cbn [In]; tauto|reflexivity|left; reflexivity]|].
  split; [apply (T _ "า" ""); [unfold vowelTable; cbn [In]; tauto|reflexivity|left; reflexivity]|].
  split; [intros (s & need & I & E & _); unfold vowelTable in I; cbn [In] in I; repeat (destruct I as [I|I]; [try discriminate I; injection I as <- <-; discriminate E|]); exact I|].
  split; [intros (s & need & I & E & _); unfold vowelTable in I; cbn [In] in I; repeat (destruct I as [I|I]; [try discriminate I; injection I as <- <-; discriminate E|]); exact I|].
  split; [apply hearable_sound; vm_compute; reflexivity|].
  intros (s & vs & I & E & V). unfold heardAs in I. cbn [In] in I.
  repeat (destruct I as [I|I]; [injection I as <- <-; try discriminate E; cbn [In] in V; repeat (destruct V as [V|V]; [discriminate V|]); exact V|]). exact I.
Qed.

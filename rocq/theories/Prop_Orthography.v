(** Prop_Orthography.v - property C97: the letters of a syllable are a spelling
    of it, from the table of Thai vowels, with nothing left over. *)
From Coq Require Import String List NArith ZArith Bool Lia Arith Sorted.
From Verif Require Import Base ThUni ThCons Syl Utf Lattice Dag DagProofs PronDag Dict Parser.
From Verif Require Import Spec OrderProofs DictProofs Prop_Syl ParserSpec ParserFacts ParserInv ParserResult ParserListed ParserDict ParserPool ParserProduct.
From Verif Require Import Prop_Output Prop_Parser Grammar GrammarWord TextGrammar TextProof Prop_Span Prop_Size Prop_Vowel Prop_Head.
Import ListNotations.
Local Open Scope string_scope.
Local Open Scope list_scope.
Local Open Scope nat_scope.

(** ** Vocabulary *)
(** Letters without the silenced ones: every silencer takes away one consonant,
    one with I or U, or two; no silencer remains. *)
Inductive Strip : list N -> list N -> Prop :=
| St_nil : Strip [] []
| St_keep x g g' : x <> UTH_THANTHAKHAT -> Strip g g' -> Strip (x :: g) (x :: g')
| St_one c g g' : consonant c = true -> Strip g g' -> Strip (c :: UTH_THANTHAKHAT :: g) g'
| St_iu c v g g' : consonant c = true -> oneOf "ิุ" v -> Strip g g' -> Strip (c :: v :: UTH_THANTHAKHAT :: g) g'
| St_two c d g g' : consonant c = true -> consonant d = true -> Strip g g' -> Strip (c :: d :: UTH_THANTHAKHAT :: g) g'.
(** Letters without tone marks. *)
Definition unmarked (g : list N) : list N := filter (fun c => negb (isMark c)) g.

(** How a syllable ends after its vowel: open, with a final consonant, or with
    the final that the vowel sign itself stands for. *)
Inductive Close := Open_ | Closed | Fixed (e : EEndConsClass).
(** Vowels: the sign before the initial consonants, the letters after them, the
    vowel, letters one of which the initial must have, and how it ends. *)
Definition spellings : list (string * string * EVowel * string * Close) :=
  [ ("", "", V_A, "", Open_); ("", "ะ", V_A, "", Open_); ("", "ั", V_A, "", Closed); ("", "ำ", V_A, "", Fixed KOM);
    ("ไ", "", V_A, "", Fixed KOEY); ("ไ", "ย", V_A, "", Fixed KOEY); ("ใ", "", V_A, "", Fixed KOEY); ("เ", "า", V_A, "", Fixed KOEW);
    ("", "รร", V_A, "", Fixed KON); ("", "รร", V_A, "", Closed);
    ("", "า", V_AA, "", Open_); ("", "า", V_AA, "", Closed);
    ("", "ิ", V_I, "", Open_); ("", "ิ", V_I, "", Closed); ("", "", V_I, "ฤฦ", Open_); ("", "", V_I, "ฤฦ", Closed);
    ("", "ี", V_II, "", Open_); ("", "ี", V_II, "", Closed);
    ("", "ึ", V_UE, "", Open_); ("", "ึ", V_UE, "", Closed); ("", "", V_UE, "ฤฦ", Open_); ("", "", V_UE, "ฤฦ", Closed);
    ("", "ือ", V_UEE, "", Open_); ("", "ื", V_UEE, "", Open_); ("", "ื", V_UEE, "", Closed); ("", "ๅ", V_UEE, "ฤฦ", Open_); ("", "า", V_UEE, "ฤฦ", Open_);
    ("", "ุ", V_U, "", Open_); ("", "ุ", V_U, "", Closed); ("", "ู", V_UU, "", Open_); ("", "ู", V_UU, "", Closed);
    ("เ", "ะ", V_E, "", Open_); ("เ", "็", V_E, "", Closed); ("เ", "", V_EE, "", Open_); ("เ", "", V_EE, "", Closed);
    ("แ", "ะ", V_AE, "", Open_); ("แ", "็", V_AE, "", Closed); ("แ", "", V_AEE, "", Open_); ("แ", "", V_AEE, "", Closed);
    ("โ", "ะ", V_O, "", Open_); ("", "", V_O, "", Closed); ("โ", "", V_OO, "", Open_); ("โ", "", V_OO, "", Closed);
    ("เ", "าะ", V_AU, "", Open_); ("", "็อ", V_AU, "", Closed);
    ("", "อ", V_AUU, "", Open_); ("", "อ", V_AUU, "", Closed); ("", "ร", V_AUU, "", Fixed KON); ("", "", V_AUU, "บ", Open_);
    ("เ", "อะ", V_OE, "", Open_); ("เ", "อ", V_OEE, "", Open_); ("เ", "ิ", V_OEE, "", Closed); ("เ", "ย", V_OEE, "", Fixed KOEY);
    ("เ", "ียะ", V_IA, "", Open_); ("เ", "ีย", V_IAA, "", Open_); ("เ", "ีย", V_IAA, "", Closed);
    ("เ", "ือะ", V_UEA, "", Open_); ("เ", "ือ", V_UEAA, "", Open_); ("เ", "ือ", V_UEAA, "", Closed);
    ("", "ัวะ", V_UA, "", Open_); ("", "ัว", V_UAA, "", Open_); ("", "ว", V_UAA, "", Closed) ]%string.
(** The last letters: [next] is the letter after the syllable, which may be
    shared as its final. *)
Inductive Closes (next : option N) : Close -> EEndConsClass -> list N -> Prop :=
| C_open : Closes next Open_ EC_NONE []
| C_fixed e : Closes next (Fixed e) e []
| C_final c : canEnd c -> Closes next Closed (finalOf c) [c]
| C_ro c : canEnd c -> oneOf "กคชตท" c -> Closes next Closed (finalOf c) [c; UTH_RO_RUA]
| C_iu c v : canEnd c -> oneOf "ฒตธร" c -> oneOf "ิุ" v -> Closes next Closed (finalOf c) [c; v]
| C_shared c : canEnd c -> next = Some c -> Closes next Closed (finalOf c) [].
(** The initial letters; [pre]: the first is a weak syllable by itself. *)
Inductive Onset (pre : bool) : list N -> EInitConsSound -> ESecInitCons -> EInitConsClass -> Prop :=
| N_one c : pre = false -> consonant c = true -> Onset pre [c] (soundOf c) SEC_NONE (classOf c)
| N_false c : pre = false -> oneOf "จซศส" c -> Onset pre [c; UTH_RO_RUA] (soundOf c) SEC_NONE (classOf c)
| N_ra c : pre = false -> oneOf "กขคดตทบปพฟ" c -> Onset pre [c; UTH_RO_RUA] (soundOf c) SEC_RA (classOf c)
| N_la c : pre = false -> oneOf "กขคบปผพฟ" c -> Onset pre [c; UTH_LO_LING] (soundOf c) SEC_LA (classOf c)
| N_wa c : pre = false -> oneOf "กขค" c -> Onset pre [c; UTH_WO_WAEN] (soundOf c) SEC_WA (classOf c)
| N_ho d : pre = false -> consonant d = true -> classOf d = LOWS -> Onset pre [UTH_HO_HIP; d] (soundOf d) SEC_NONE HIGH
| N_led c d : pre = true -> consonant c = true -> consonant d = true ->
    Onset pre [c; d] (soundOf d) SEC_NONE (match classOf d with LOWS => classOf c | k => k end)
| N_aura c : pre = true -> oneOf "กคจทธนบปภมวสหอ" c -> Onset pre [c; UTH_RO_RUA] RA SEC_NONE LOWS
| N_kru c : pre = false -> consonant c = true -> ~ oneOf "นสศห" c -> Onset pre [c; UTH_RU] (soundOf c) SEC_RA (classOf c)
| N_sru c : pre = false -> oneOf "สศ" c -> Onset pre [c; UTH_RU] (soundOf c) SEC_NONE (classOf c)
| N_saru c : pre = true -> oneOf "สศ" c -> Onset pre [c; UTH_RU] RA SEC_NONE (classOf c)
| N_karu c : pre = true -> consonant c = true -> ~ oneOf "กตทปวสศ" c -> Onset pre [c; UTH_RU] RA SEC_NONE LOWS
| N_ru c : pre = false -> isRu c -> Onset pre [c] (ruSound c) SEC_NONE LOWS.
(** The letters [g] before the letter [next] spell the syllable [x]. *)
Definition Orthography (pre : bool) (g : list N) (next : option N) (x : Said) : Prop :=
  exists g' lead on rest need k fins K m,
    Strip g g' /\ unmarked g' = letters lead ++ on ++ letters rest ++ fins /\
    Onset pre on (saSound x) (saSecond x) K /\
    In (lead, rest, saVowel x, need, k) spellings /\ (need = "" \/ exists c, In c (letters need) /\ In c on) /\
    Closes next k (saFinal x) fins /\
    MarkedBy g m /\ toned K m (dead (saVowel x) (saFinal x)) (short (saVowel x)) (saTone x).

(** ** What a reading takes *)
Definition Takes (t r ls : list N) : Prop := exists g g', t = g ++ r /\ Strip g g' /\ unmarked g' = ls.
Definition keeps (c : N) : bool := negb (isMark c) && negb (c =? UTH_THANTHAKHAT)%N.
Lemma strip_app a a' b b' : Strip a a' -> Strip b b' -> Strip (a ++ b) (a' ++ b').
Proof. intros A B. induction A; cbn [app]; try (constructor; assumption). exact B. Qed.
Lemma unmarked_app a b : unmarked (a ++ b) = unmarked a ++ unmarked b. Proof. apply filter_app. Qed.
Lemma takes_app a b c x y : Takes a b x -> Takes b c y -> Takes a c (x ++ y).
Proof.
  intros (g & g' & -> & S & <-) (h & h' & -> & S' & <-). exists (g ++ h), (g' ++ h'). split; [apply app_assoc|].
  split; [apply strip_app; assumption|apply unmarked_app].
Qed.
Lemma takes_refl r : Takes r r []. Proof. exists [], []. repeat split; constructor. Qed.
Lemma takes_keep c t r ls : keeps c = true -> Takes t r ls -> Takes (c :: t) r (c :: ls).
Proof.
  intros K (g & g' & -> & S & <-). unfold keeps in K. apply andb_true_iff in K. destruct K as (A & B).
  exists (c :: g), (c :: g'). split; [reflexivity|]. split; [apply St_keep; [|exact S]|].
  - intros ->. discriminate B.
  - unfold unmarked. cbn [filter]. rewrite A. reflexivity.
Qed.
Lemma cons_keeps c : consonant c = true -> keeps c = true.
Proof.
  intros H. unfold keeps. rewrite (cons_unmarked _ H). cbn [negb andb]. apply negb_true_iff, N.eqb_neq. intros ->. discriminate H.
Qed.
Lemma takes_mark t m t' r ls : mark t = (m, t') -> Takes t' r ls -> Takes t r ls.
Proof.
  intros E T. unfold mark in E. destruct t as [|c t]; [injection E as _ <-; exact T|]. destruct (isMark c) eqn:M; injection E as _ <-; [|exact T].
  destruct T as (g & g' & -> & S & <-). exists (c :: g), (c :: g'). split; [reflexivity|]. split.
  - apply St_keep; [|exact S]. intros ->. discriminate M.
  - unfold unmarked. cbn [filter]. rewrite M. reflexivity.
Qed.
Lemma strips a t : Strip a [] -> Takes (a ++ t) t [].
Proof. intros S. exists a, []. auto. Qed.
Lemma silent_takes t : Takes t (silent t) [].
Proof.
  destruct t as [|c [|x t]]; cbn [silent]; try apply takes_refl. destruct (_ && _) eqn:E; [|apply takes_refl].
  apply andb_true_iff in E. destruct E as (A & B). apply N.eqb_eq in B. subst x.
  apply (strips [c; UTH_THANTHAKHAT]). apply St_one; [exact A|constructor].
Qed.
Lemma silentIU_takes t : Takes t (silentIU t) [].
Proof.
  destruct t as [|c [|x [|y t]]]; cbn [silentIU]; try apply takes_refl. destruct (_ && _) eqn:E; [|apply takes_refl].
  rewrite !andb_true_iff in E. destruct E as ((A & B) & C). apply N.eqb_eq in C. subst y.
  apply (strips [c; x; UTH_THANTHAKHAT]). apply St_iu; [exact A| |constructor].
  apply orb_true_iff in B. rewrite !N.eqb_eq in B. destruct B as [-> | ->]; vm_compute; tauto.
Qed.
Lemma silent2_takes t : Takes t (silent2 t) [].
Proof.
  destruct t as [|c [|x [|y t]]]; cbn [silent2]; try apply takes_refl. destruct (_ && _) eqn:E; [|apply takes_refl].
  rewrite !andb_true_iff in E. destruct E as ((A & B) & C). apply N.eqb_eq in C. subst y.
  apply (strips [c; x; UTH_THANTHAKHAT]). apply St_two; [exact A|exact B|constructor].
Qed.
Lemma silentAny_takes t : Takes t (silentAny t) [].
Proof. unfold silentAny. destruct (_ <? _); [apply silent_takes|]. destruct (_ <? _); [apply silentIU_takes|apply silent2_takes]. Qed.
Lemma shorter_takes t : Takes t (if length (silent t) <? length t then silent t else silentIU t) [].
Proof. destruct (_ <? _); [apply silent_takes|apply silentIU_takes]. Qed.
Lemma quiet_takes t t' r ls : Takes t t' [] -> Takes t' r ls -> Takes t r ls.
Proof. intros A B. exact (takes_app _ _ _ _ _ A B). Qed.
Lemma final_takes no t e r : Final no t e r -> exists fins, Closes (hd_error r) Closed e fins /\ Takes t r fins.
Proof.
  intros [c t' C _]. exists [c]. split; [apply C_final; exact C|]. apply takes_keep; [apply cons_keeps, end_cons, C|apply silentAny_takes].
Qed.
Lemma shared_takes no t e r b : FinalOrShared no t e r b -> exists fins, Closes (hd_error r) Closed e fins /\ Takes t r fins.
Proof.
  intros [t' e' r' F|c r' C _ _ O _|c v r' C _ O V _|c t' C _ _ _].
  - eapply final_takes; eauto.
  - exists [c; UTH_RO_RUA]. split; [apply C_ro; assumption|]. apply takes_keep; [apply cons_keeps, end_cons, C|]. apply takes_keep; [vm_compute; reflexivity|apply takes_refl].
  - exists [c; v]. split; [apply C_iu; assumption|]. apply takes_keep; [apply cons_keeps, end_cons, C|]. apply takes_keep; [|apply takes_refl].
    unfold oneOf in V. vm_compute in V. destruct V as [<-|[<-|[]]]; vm_compute; reflexivity.
  - exists []. split; [apply C_shared; [exact C|reflexivity]|apply takes_refl].
Qed.
Lemma ran_takes (b : bool) r x r' : (if b then r else silent r) = x :: r' -> Takes r (x :: r') [].
Proof. intros E. destruct b; [subst r; apply takes_refl|rewrite <- E; apply silent_takes]. Qed.

(** ** Rimes *)
(** The letters after the initial. *)
Definition RimeSpelt (lead : list N) (ru : bool) (t : list N) (v : EVowel) (e : EEndConsClass) (r : list N) : Prop :=
  exists l rest need k fins, letters l = lead /\ In (l, rest, v, need, k) spellings /\
    (need = "" \/ need = "ฤฦ" /\ ru = true) /\ Closes (hd_error r) k e fins /\ Takes t r (letters rest ++ fins).
Local Opaque silent silentIU silent2 silentAny letters mark Nat.ltb.
Ltac tks := repeat first [assumption|apply takes_refl|apply silent_takes|apply shorter_takes|eapply takes_mark; [eassumption|]|
  apply takes_keep; [vm_compute; reflexivity|]|eapply quiet_takes; [apply silent_takes|assumption]|
  match goal with H : Takes ?a _ [] |- Takes ?a _ (_ :: _) => apply (quiet_takes _ _ _ _ H) end].
Ltac row i l rest need k := exists l%string, rest%string, need%string, k; eexists;
  split; [vm_compute; reflexivity|]; split; [apply (nth_error_In spellings i); reflexivity|];
  split; [first [left; reflexivity|right; split; [reflexivity|assumption]]|];
  split; [first [apply C_open|apply C_fixed|eassumption]|];
  let x := eval vm_compute in (letters rest%string) in change (letters rest%string) with x; cbn [app]; solve [tks].
Ltac rows := match goal with
  | |- context [(_, _, V_A, _, _)] => first [row 0 "" "" "" (Open_)|row 1 "" "ะ" "" (Open_)|row 2 "" "ั" "" (Closed)|row 3 "" "ำ" "" (Fixed KOM)|row 4 "ไ" "" "" (Fixed KOEY)|row 5 "ไ" "ย" "" (Fixed KOEY)|row 6 "ใ" "" "" (Fixed KOEY)|row 7 "เ" "า" "" (Fixed KOEW)|row 8 "" "รร" "" (Fixed KON)|row 9 "" "รร" "" (Closed)]
  | |- context [(_, _, V_AA, _, _)] => first [row 10 "" "า" "" (Open_)|row 11 "" "า" "" (Closed)]
  | |- context [(_, _, V_I, _, _)] => first [row 12 "" "ิ" "" (Open_)|row 13 "" "ิ" "" (Closed)|row 14 "" "" "ฤฦ" (Open_)|row 15 "" "" "ฤฦ" (Closed)]
  | |- context [(_, _, V_II, _, _)] => first [row 16 "" "ี" "" (Open_)|row 17 "" "ี" "" (Closed)]
  | |- context [(_, _, V_UE, _, _)] => first [row 18 "" "ึ" "" (Open_)|row 19 "" "ึ" "" (Closed)|row 20 "" "" "ฤฦ" (Open_)|row 21 "" "" "ฤฦ" (Closed)]
  | |- context [(_, _, V_UEE, _, _)] => first [row 22 "" "ือ" "" (Open_)|row 23 "" "ื" "" (Open_)|row 24 "" "ื" "" (Closed)|row 25 "" "ๅ" "ฤฦ" (Open_)|row 26 "" "า" "ฤฦ" (Open_)]
  | |- context [(_, _, V_U, _, _)] => first [row 27 "" "ุ" "" (Open_)|row 28 "" "ุ" "" (Closed)]
  | |- context [(_, _, V_UU, _, _)] => first [row 29 "" "ู" "" (Open_)|row 30 "" "ู" "" (Closed)]
  | |- context [(_, _, V_E, _, _)] => first [row 31 "เ" "ะ" "" (Open_)|row 32 "เ" "็" "" (Closed)]
  | |- context [(_, _, V_EE, _, _)] => first [row 33 "เ" "" "" (Open_)|row 34 "เ" "" "" (Closed)]
  | |- context [(_, _, V_AE, _, _)] => first [row 35 "แ" "ะ" "" (Open_)|row 36 "แ" "็" "" (Closed)]
  | |- context [(_, _, V_AEE, _, _)] => first [row 37 "แ" "" "" (Open_)|row 38 "แ" "" "" (Closed)]
  | |- context [(_, _, V_O, _, _)] => first [row 39 "โ" "ะ" "" (Open_)|row 40 "" "" "" (Closed)]
  | |- context [(_, _, V_OO, _, _)] => first [row 41 "โ" "" "" (Open_)|row 42 "โ" "" "" (Closed)]
  | |- context [(_, _, V_AU, _, _)] => first [row 43 "เ" "าะ" "" (Open_)|row 44 "" "็อ" "" (Closed)]
  | |- context [(_, _, V_AUU, _, _)] => first [row 45 "" "อ" "" (Open_)|row 46 "" "อ" "" (Closed)|row 47 "" "ร" "" (Fixed KON)|row 48 "" "" "บ" (Open_)]
  | |- context [(_, _, V_OE, _, _)] => first [row 49 "เ" "อะ" "" (Open_)]
  | |- context [(_, _, V_OEE, _, _)] => first [row 50 "เ" "อ" "" (Open_)|row 51 "เ" "ิ" "" (Closed)|row 52 "เ" "ย" "" (Fixed KOEY)]
  | |- context [(_, _, V_IA, _, _)] => first [row 53 "เ" "ียะ" "" (Open_)]
  | |- context [(_, _, V_IAA, _, _)] => first [row 54 "เ" "ีย" "" (Open_)|row 55 "เ" "ีย" "" (Closed)]
  | |- context [(_, _, V_UEA, _, _)] => first [row 56 "เ" "ือะ" "" (Open_)]
  | |- context [(_, _, V_UEAA, _, _)] => first [row 57 "เ" "ือ" "" (Open_)|row 58 "เ" "ือ" "" (Closed)]
  | |- context [(_, _, V_UA, _, _)] => first [row 59 "" "ัวะ" "" (Open_)]
  | |- context [(_, _, V_UAA, _, _)] => first [row 60 "" "ัว" "" (Open_)|row 61 "" "ว" "" (Closed)]
  end.
Ltac close := repeat match goal with
  | H : Final _ ?t _ ?r |- _ => let f := fresh "fins" in let C := fresh "C" in apply final_takes in H; destruct H as (f & C & H)
  | H : FinalOrShared _ ?t _ ?r _ |- _ => let f := fresh "fins" in let C := fresh "C" in apply shared_takes in H; destruct H as (f & C & H)
  | H : (if _ then _ else silent _) = _ :: _ |- _ => apply ran_takes in H
  end.
Lemma rime_row ru lk o t v e m r b : Rime lk o t v e m r b ->
  (forall v, oVowel o = Some v -> ru = true /\ (v = V_I \/ v = V_UE)) -> RimeSpelt [] ru t v e r.
Proof.
  intros H V. destruct H.
  all: try match goal with H : In (_, _) _ |- _ => cbn [In] in H; repeat destruct H as [H|H]; try contradiction; injection H as <- <- end.
  all: try match goal with H : oVowel _ = Some _ |- _ => destruct (V _ H) as (? & [-> | ->]) end.
  all: clear V; close.
  all: unfold RimeSpelt.
  all: try solve [rows].
Qed.
Lemma rimeE_row o t v e m r b : RimeE o t v e m r b -> RimeSpelt [UTH_SARA_E] false t v e r.
Proof.
  intros H. destruct H; close; unfold RimeSpelt; try solve [rows].
  exists "เ", "", "", Open_, []. split; [vm_compute; reflexivity|]. split; [apply (nth_error_In spellings 33); reflexivity|].
  split; [left; reflexivity|]. split; [apply C_open|]. exists [c], [c]. split; [reflexivity|].
  split; [apply St_keep; [intros ->; discriminate H|constructor]|]. unfold unmarked. cbn [filter]. rewrite H. reflexivity.
Qed.
Lemma rimeL_row l t v e m r b : RimeL l t v e m r b -> RimeSpelt [l] false t v e r.
Proof. intros H. destruct H; close; unfold RimeSpelt; solve [rows]. Qed.
Lemma rimeRu_row t v e r b : RimeRu t v e r b -> RimeSpelt [] true t v e r.
Proof.
  assert (T : true = true) by reflexivity. intros H. destruct H; close; unfold RimeSpelt.
  all: try match goal with H : _ = UTH_LAKKHANGYAO \/ _ |- _ => destruct H; subst end.
  all: try destruct (memN _ _).
  all: solve [rows].
Qed.
Lemma one_of_sub a b c : forallb (fun x => memN x (letters b)) (letters a) = true -> oneOf a c -> oneOf b c.
Proof. intros H O. rewrite forallb_forall in H. apply memN_In. apply H. exact O. Qed.
Lemma one_of_not a b c : forallb (fun x => negb (memN x (letters b))) (letters a) = true -> oneOf a c -> ~ oneOf b c.
Proof. intros H O X. rewrite forallb_forall in H. specialize (H _ O). apply negb_true_iff in H. apply memN_In in X. congruence. Qed.
Lemma one_of_less a b c : forallb (fun x => memN x (letters b)) (letters a) = true -> ~ oneOf b c -> ~ oneOf a c.
Proof. intros H O X. apply O. eapply one_of_sub; eauto. Qed.
Lemma takes_one c t : consonant c = true -> Takes (c :: t) t [c].
Proof. intros C. apply takes_keep; [apply cons_keeps; exact C|apply takes_refl]. Qed.
Lemma takes_two c d t : consonant c = true -> keeps d = true -> Takes (c :: d :: t) t [c; d].
Proof. intros C D. apply takes_keep; [apply cons_keeps; exact C|]. apply takes_keep; [exact D|apply takes_refl]. Qed.
Ltac cns := first [assumption|vm_compute; reflexivity|
  match goal with H : oneOf ?s ?c |- consonant ?c = true => apply (one_cons s); [vm_compute; reflexivity|exact H] end].
Ltac sub := first [assumption|
  match goal with H : oneOf ?a ?c |- oneOf ?b ?c => apply (one_of_sub a b); [vm_compute; reflexivity|exact H]
  | H : oneOf ?a ?c |- ~ oneOf ?b ?c => apply (one_of_not a b); [vm_compute; reflexivity|exact H]
  | H : ~ oneOf ?a ?c |- ~ oneOf ?b ?c => apply (one_of_less b a); [vm_compute; reflexivity|exact H] end].
Lemma initial_onset lk t o t1 : InitialAt lk t o t1 -> exists on, Takes t t1 on /\
  (forall v, oVowel o = Some v -> In UTH_RU on /\ (v = V_I \/ v = V_UE)) /\
  Onset (led o) on (oSound o) (oSecond o) (oClass o).
Proof.
  intros I. destruct I; cbn [led oLead oSound oSecond oClass oVowel plainOf];
    try match goal with H : _ \/ _ /\ _ |- _ => destruct H as [H|(_ & H)] end;
    (eexists; split; [first [apply takes_two; [cns|first [apply cons_keeps; assumption|vm_compute; reflexivity]]|apply takes_one; cns]|];
    split; [intros ? E; first [discriminate E|injection E as <-; split; [right; left; reflexivity|tauto]]|]).
  - apply N_one; auto.
  - apply N_false; auto.
  - apply N_ra; [reflexivity|sub].
  - apply N_ra; [reflexivity|sub].
  - apply N_la; auto.
  - apply N_wa; auto.
  - apply N_ho; auto.
  - apply N_led; auto.
  - apply N_kru; [reflexivity|cns|sub].
  - apply N_sru; [reflexivity|sub].
  - apply N_saru; [reflexivity|sub].
  - apply N_kru; [reflexivity|cns|sub].
  - apply N_karu; [reflexivity|cns|sub].
  - apply N_kru; [reflexivity|cns|sub].
  - apply N_kru; [reflexivity|cns|sub].
  - apply N_karu; [reflexivity|cns|sub].
Qed.
(** ** Syllables *)
Lemma unmarked_lead l t r ls : leadVowel l = true -> Takes t r ls -> Takes (l :: t) r (l :: ls).
Proof.
  intros L. apply takes_keep. unfold keeps. rewrite (lead_unmarked _ L). cbn [negb andb]. apply negb_true_iff, N.eqb_neq. intros ->. discriminate L.
Qed.
Lemma made_spelt ru lead t o t1 v e m r h x p : (lead = [] \/ exists c, lead = [c] /\ leadVowel c = true) ->
  (exists on, Takes t t1 on /\ Onset (led o) on (oSound o) (oSecond o) (oClass o) /\ (ru = true -> In UTH_RU on)) ->
  RimeSpelt lead ru t1 v e r -> lead ++ t = h ++ r -> MarkedBy h m -> led o = isPre p -> Sounds o v e m x ->
  Orthography (isPre p) h (hd_error r) x.
Proof.
  intros Hl (on & T & O & Ru) (l & rest & need & k & fins & El & Ir & Nd & C & T') Eh M Lp [tn Tn].
  assert (A : Takes (lead ++ t) r (lead ++ on ++ letters rest ++ fins)).
  { destruct Hl as [->|(c & -> & Lc)]; cbn [app]; [|apply unmarked_lead; [exact Lc|]]; eapply takes_app; eauto. }
  destruct A as (g & g' & E & S & U). rewrite Eh in E. apply app_inv_tail in E. subst g.
  exists g', l, on, rest, need, k, fins, (oClass o), m. cbn [saSound saSecond saVowel saFinal saTone]. rewrite <- Lp, El.
  repeat (split; [assumption|]). split; [|auto].
  destruct Nd as [Nd|(-> & Hr)]; [left; exact Nd|right]. exists UTH_RU. split; [vm_compute; tauto|auto].
Qed.
Lemma implied_spelling t p x r h : Implied t p x r -> t = h ++ r -> Orthography (isPre p) h (hd_error r) x.
Proof.
  intros H Eh.
  assert (M : forall g, forallb keeps g = true -> MarkedBy g SAMAN /\ Strip g g /\ unmarked g = g).
  { intros g. induction g as [|c g IH]; intros H0; [split; [left; auto|split; [constructor|reflexivity]]|]. cbn [forallb] in *. apply andb_true_iff in H0.
    destruct H0 as (A & B). destruct (IH B) as (M & S & U). pose proof A as K. unfold keeps in A. apply andb_true_iff in A. destruct A as (A1 & A2). split; [|split].
    - eapply marked_eq; [|exact M]. apply marks_plain. apply negb_true_iff. exact A1.
    - apply St_keep; [|exact S]. intros ->. discriminate A2.
    - unfold unmarked in *. cbn [filter]. rewrite A1, U. reflexivity. }
  assert (B : forall pre on rest v k K x g i, g = on ++ letters rest -> forallb keeps g = true ->
    Onset pre on (saSound x) (saSecond x) K -> saVowel x = v -> saFinal x = EC_NONE -> k = Open_ ->
    (exists need, nth_error spellings i = Some ("", rest, v, need, k) /\ (need = "" \/ exists c, In c (letters need) /\ In c on)) ->
    toned K SAMAN (short v) (short v) (saTone x) -> forall next, Orthography pre g next x).
  { intros pre on rest v k K x0 g i Eg Kg O Ev Ef -> (need & En & Nd) T next. destruct (M g Kg) as (Mg & Sg & Ug).
    exists g, "", on, rest, need, Open_, [], K, SAMAN. rewrite Ev, Ef. split; [exact Sg|].
    split; [rewrite Ug, app_nil_r; exact Eg|]. split; [exact O|]. split; [eapply nth_error_In; exact En|]. split; [exact Nd|].
    split; [apply C_open|]. split; [exact Mg|exact T]. }
  assert (Cut : forall a r, a ++ r = h ++ r -> h = a) by (intros a r0 E; apply app_inv_tail in E; congruence).
  assert (Kc : forall c d, consonant c = true -> keeps d = true -> forallb keeps [c; d] = true).
  { intros c d A D. cbn [forallb]. rewrite (cons_keeps _ A), D. reflexivity. }
  destruct H as [c x t p O _ _ S|x t p S|x t p S|x t p _ S|c x t p C _ S|c x t p C Nc _ _ S].
  - apply (Cut [c; UTH_RO_RUA]) in Eh. subst h. assert (C : consonant c = true) by cns.
    apply (B true [c; UTH_RO_RUA] "" V_A Open_ LOWS _ _ 0); try reflexivity.
    + apply Kc; [exact C|vm_compute; reflexivity].
    + apply N_aura; auto.
    + exists "". auto.
    + exact toned_ra.
  - apply (Cut [UTH_BO_BAIMAI; UTH_RO_RUA; UTH_SARA_I]) in Eh. subst h.
    apply (B true [UTH_BO_BAIMAI; UTH_RO_RUA] "ิ" V_I Open_ LOWS _ _ 12); try reflexivity.
    + apply N_aura; [reflexivity|vm_compute; tauto].
    + exists "". auto.
    + exact toned_ra.
  - apply (Cut [UTH_CHO_CHAN; UTH_RO_RUA; UTH_SARA_A]) in Eh. subst h.
    apply (B true [UTH_CHO_CHAN; UTH_RO_RUA] "ะ" V_A Open_ LOWS _ _ 1); try reflexivity.
    + apply N_aura; [reflexivity|vm_compute; tauto].
    + exists "". auto.
    + exact toned_ra.
  - apply (Cut [UTH_BO_BAIMAI]) in Eh. subst h. destruct S as [tn S].
    apply (B false [UTH_BO_BAIMAI] "" V_AUU Open_ (classOf UTH_BO_BAIMAI) _ _ 48); try reflexivity.
    + apply N_one; reflexivity.
    + exists "บ". split; [reflexivity|right]. exists UTH_BO_BAIMAI. split; [vm_compute; tauto|left; reflexivity].
    + exact S.
  - apply (Cut [c]) in Eh. subst h. destruct S as [tn S].
    apply (B false [c] "" V_A Open_ (classOf c) _ _ 0); try reflexivity.
    + cbn [forallb]. rewrite (cons_keeps _ C). reflexivity.
    + apply N_one; auto.
    + exists "". auto.
    + exact S.
  - apply (Cut [c; UTH_RU]) in Eh. subst h.
    apply (B true [c; UTH_RU] "" V_UE Open_ LOWS _ _ 20); try reflexivity.
    + apply Kc; [exact C|vm_compute; reflexivity].
    + apply N_karu; [reflexivity|exact C|]. apply (one_of_less _ "กตทปสศวน"); [vm_compute; reflexivity|exact Nc].
    + exists "ฤฦ". split; [reflexivity|right]. exists UTH_RU. split; [vm_compute; tauto|right; left; reflexivity].
    + exact toned_ra.
Qed.
Lemma reads_orthography lk t p x r b : Reads lk t p x r b -> exists g, t = g ++ r /\ Orthography (isPre p) g (hd_error r) x.
Proof.
  assert (In_ : forall lk t o t1, InitialAt lk t o t1 -> exists on, Takes t t1 on /\ Onset (led o) on (oSound o) (oSecond o) (oClass o) /\ (false = true -> In UTH_RU on)).
  { intros lk0 t0 o t1 I. destruct (initial_onset _ _ _ _ I) as (on & A & _ & B). exists on. split; [exact A|]. split; [exact B|discriminate]. }
  assert (Lp : forall o p, Leads o p -> led o = isPre p) by (intros o q [E|c y E _]; unfold led; rewrite E; reflexivity).
  intros [t' o t1 v e m r' b' p' x' I R L S|t' o t1 v e m r' b' p' x' I R L S|l t' o t1 v e m r' b' p' x' I R L S|t' p' x' r' I|c t' v e r' b' tn C R T].
  - destruct (initial_head _ _ _ _ I) as (g & Eg & Z & _). destruct (rime_marks _ _ _ _ _ _ _ _ R) as (h & Eh & M).
    exists (g ++ h). split; [rewrite Eg, Eh; apply app_assoc|]. destruct (initial_onset _ _ _ _ I) as (on & A & V & B).
    apply (made_spelt (existsb (N.eqb UTH_RU) on) [] t' o t1 v e m r' (g ++ h) x' p'); auto.
    + exists on. split; [exact A|]. split; [exact B|]. intros X. apply existsb_exists in X. destruct X as (y & Iy & X). apply N.eqb_eq in X. subst y. exact Iy.
    + eapply rime_row; [exact R|]. intros u Hu. destruct (V u Hu) as (Iu & Vu). split; [|exact Vu].
      apply existsb_exists. exists UTH_RU. split; [exact Iu|apply N.eqb_refl].
    + cbn [app]. rewrite Eg, Eh. apply app_assoc.
    + eapply marked_eq; [|exact M]. rewrite marks_app, Z. reflexivity.
  - destruct (initial_head _ _ _ _ I) as (g & Eg & Z & _). destruct (rimeE_marks _ _ _ _ _ _ _ R) as (h & Eh & M).
    exists (UTH_SARA_E :: g ++ h). split; [rewrite Eg, Eh; cbn [app]; rewrite app_assoc; reflexivity|].
    apply (made_spelt false [UTH_SARA_E] t' o t1 v e m r' _ x' p'); auto.
    + right. exists UTH_SARA_E. split; reflexivity.
    + eapply In_; eauto.
    + eapply rimeE_row; eauto.
    + rewrite Eg, Eh. cbn [app]. rewrite app_assoc. reflexivity.
    + eapply marked_eq; [|exact M]. rewrite marks_plain, marks_app, Z by (vm_compute; reflexivity). reflexivity.
  - destruct (initial_head _ _ _ _ I) as (g & Eg & Z & _). destruct (rimeL_marks _ _ _ _ _ _ _ R) as (h & Eh & M).
    assert (Ll : leadVowel l = true) by (destruct R; vm_compute; reflexivity).
    exists (l :: g ++ h). split; [rewrite Eg, Eh; cbn [app]; rewrite app_assoc; reflexivity|].
    apply (made_spelt false [l] t' o t1 v e m r' _ x' p'); auto.
    + right. exists l. auto.
    + eapply In_; eauto.
    + eapply rimeL_row; eauto.
    + rewrite Eg, Eh. cbn [app]. rewrite app_assoc. reflexivity.
    + eapply marked_eq; [|exact M]. rewrite marks_plain, marks_app, Z by (apply lead_unmarked; exact Ll). reflexivity.
  - destruct (implied_headed _ _ _ _ I) as (g & Eg & _). exists g. split; [exact Eg|]. eapply implied_spelling; eauto.
  - destruct (rimeRu_marks _ _ _ _ _ R) as (h & Eh & M). exists (c :: h). split; [rewrite Eh; reflexivity|].
    assert (Lc : keeps c = true /\ isMark c = false) by (destruct C as [-> | ->]; split; vm_compute; reflexivity).
    destruct (rimeRu_row _ _ _ _ _ R) as (l & rest & need & k & fins & El & Ir & Nd & Cl & g & g' & E & S & U).
    rewrite Eh in E. apply app_inv_tail in E. subst g.
    exists (c :: g'), l, [c], rest, need, k, fins, LOWS, SAMAN. cbn [saSound saSecond saVowel saFinal saTone].
    split; [apply St_keep; [|exact S]; destruct C as [-> | ->]; intros X; discriminate X|].
    split; [unfold unmarked; cbn [filter]; rewrite (proj2 Lc); cbn [negb]; fold (unmarked g'); rewrite U, El; reflexivity|].
    split; [apply N_ru; auto|]. split; [exact Ir|]. split; [destruct Nd as [Nd|(-> & _)]; [left; exact Nd|right; exists c; split; [|left; reflexivity]]|].
    { destruct C as [-> | ->]; vm_compute; tauto. }
    split; [exact Cl|]. split; [|exact T]. eapply marked_eq; [|exact M]. apply marks_plain. apply Lc.
Qed.

(** ** C97: the letters of a syllable are a spelling of it *)
(** The syllable [v] from [f] to [t]: a weak syllable of a first consonant, the
    name of a consonant, or spelt by all the letters [b..e). *)
Definition spelledAt (w : list N) (f t : Z) (v : Syl) : Prop :=
  exists b e, inGroup w f t b e /\
    ((exists c r, f = zn b /\ t = preNode (zn b) (zn e) /\ body (between w b e) = c :: r /\ consonant c = true /\ Weak c (saidOf v)) \/
     (exists c, f = zn b /\ (0 <= t)%Z /\ e = b + 1 /\ nth_error w b = Some c /\ consonant c = true /\
        Weak c (saidOf v) /\ vowel v = V_AUU) \/
     (exists pre : bool, (0 <= t)%Z /\ f = (if pre then preNode (zn b) (zn e) else zn b) /\
        Orthography pre (between w b e) (nth_error w e) (saidOf v))).
Lemma closes_next a b k e fins : (forall c, a = Some c -> b = Some c) -> Closes a k e fins -> Closes b k e fins.
Proof. intros H []; try (constructor; assumption). apply C_shared; auto. Qed.
Lemma next_letter w b e q r : q <= length w -> b < e -> e <= length w -> between w b q = between w b e ++ r ->
  forall c, hd_error r = Some c -> nth_error w e = Some c.
Proof.
  intros Lq Lb Le E c Hc. destruct r as [|x r]; [discriminate Hc|]. injection Hc as ->.
  assert (L : length (between w b q) = (e - b) + length (c :: r)).
  { rewrite E, app_length. f_equal. rewrite between_len by lia. reflexivity. }
  assert (Bq : b <= q). { destruct (le_lt_dec b q) as [?|X]; [assumption|]. unfold between in L. replace (q - b) with 0 in L by lia. cbn [firstn length] in L. lia. }
  rewrite between_len in L by lia. cbn [length] in L.
  pose proof (nth_between w b q (e - b) ltac:(lia)) as X. rewrite E, nth_error_app2 in X by (rewrite between_len by lia; lia).
  rewrite between_len, Nat.sub_diag in X by lia. cbn [nth_error] in X. replace (b + (e - b)) with e in X by lia. symmetry. exact X.
Qed.
Lemma C97_lemma w dict brk l f t v :
  StronglySorted lt brk -> Forall (fun x => x <= length w) brk -> dictOKo dict ->
  pronounced libthai_ct w dict brk l -> occurs l f t v -> literal v = [] ->
  dictSyl dict v \/ spelledAt w f t v.
Proof.
  intros S I Dk P O Lv. destruct (origin_lemma w dict brk S I Dk l f t v P O Lv) as [X|(b & e & G & X)]; [left; exact X|right].
  exists b, e. split; [exact G|]. destruct G as (Lb & Le & _).
  destruct X as [q y x r lk lk' Ef Et Lq Eg R Ev|q p x r lk lk' Ht Ef Lq Eg R Ev|c Ef Ht Ee Hc C Ev].
  - left. destruct (reads_headed _ _ _ _ _ _ R) as (g & E & _ & Pw). rewrite Eg in E. apply app_inv_tail in E. subst g.
    destruct (Pw y eq_refl) as (c & g' & E & C & Wk). exists c, g'. rewrite Ev, said_at. auto.
  - right. right. destruct (reads_orthography _ _ _ _ _ _ R) as (g & E & (g' & lead & on & rest & need & k & fins & K & m & H1 & H2 & H3 & H4 & H5 & H6 & H7)).
    rewrite Eg in E. apply app_inv_tail in E. subst g. exists (isPre p). split; [exact Ht|]. split; [exact Ef|]. rewrite Ev, said_at.
    exists g', lead, on, rest, need, k, fins, K, m. repeat (split; [assumption|]). split; [|exact H7].
    eapply closes_next; [|exact H6]. eapply next_letter; eauto.
  - right. left. exists c. rewrite Ev. repeat (split; [assumption|]). split; [apply name_weak; exact C|reflexivity].
Qed.
Theorem C97_spelt w dict brk l f t v :
  StronglySorted lt brk -> Forall (fun x => x <= length w) brk -> dictOKo dict ->
  pronounced libthai_ct w dict brk l -> occurs l f t v -> literal v = [] ->
  dictSyl dict v \/ spelledAt w f t v.
Proof. exact (C97_lemma w dict brk l f t v). Qed.
Print Assumptions C97_spelt.

(** ** C88 in any text *)
Lemma C88_lemma3 w dict brk l f t v :
  StronglySorted lt brk -> Forall (fun x => x <= length w) brk -> dictOKo dict ->
  pronounced libthai_ct w dict brk l -> occurs l f t v -> literal v = [] ->
  dictSyl dict v \/ exists b e, inGroup w f t b e /\ e <= b + 12.
Proof.
  intros S I Dk P O Lv. destruct (origin_lemma w dict brk S I Dk l f t v P O Lv) as [X|(b & e & G & X)]; [left; exact X|right].
  exists b, e. split; [exact G|]. destruct G as (Lb & Le & _).
  assert (K : forall q r, q <= length w -> between w b q = between w b e ++ r -> length (between w b q) <= length r + 12 -> e <= b + 12).
  { intros q r Lq E L. rewrite E, app_length, between_len in L by lia. lia. }
  destruct X as [q y x r lk lk' _ _ Lq Eg R _|q p x r lk lk' _ _ Lq Eg R _|c _ _ Ee _ _ _]; [| |lia];
    apply reads_len in R; (apply (K q r); [exact Lq|exact Eg|lia]).
Qed.
(** In any text the letters read at once, for one syllable or for two with the
    first letter apart, are at most twelve. *)
Theorem C88_any_text w dict brk l f t v :
  StronglySorted lt brk -> Forall (fun x => x <= length w) brk -> dictOKo dict ->
  pronounced libthai_ct w dict brk l -> occurs l f t v -> literal v = [] ->
  dictSyl dict v \/ exists b e, inGroup w f t b e /\ e <= b + 12.
Proof. exact (C88_lemma3 w dict brk l f t v). Qed.
Print Assumptions C88_any_text.

(** Two silenced consonants, a shortened vowel, a tone mark, a silent letter
    after the final; and letters that do not spell a syllable without their
    final. *)
Local Transparent silent silentIU silent2 silentAny letters mark Nat.ltb.
Definition orthoText : list N := letters "จันทร์เพ็ญไว้จักร".
Definition orthoSyls : SylString :=
  [SylOf JA SEC_NONE V_A KON SAMAN 6; SylOf PHA SEC_NONE V_E KON SAMAN 10; SylOf WA SEC_NONE V_A KOEY TRI 13; SylOf JA SEC_NONE V_A KOK EK 17].
Ltac ortho i g' lead on rest need k fins K m := exists (letters g'), lead, (letters on), rest, need, k, (letters fins), K, m;
  split; [vm_compute; repeat first [apply St_two; [reflexivity|reflexivity|]|apply St_keep; [intros X; discriminate X|]|apply St_nil]|];
  split; [vm_compute; reflexivity|]; split; [constructor; reflexivity|]; split; [apply (nth_error_In spellings i); vm_compute; reflexivity|];
  split; [left; reflexivity|].
Example C97_case : StronglySorted lt [6; 10; 13] /\ Forall (fun x => x <= length orthoText) [6; 10; 13] /\ dictOKo None /\
  (exists l, pronounced libthai_ct orthoText None [6; 10; 13] l /\ In orthoSyls l) /\
  Orthography false (letters "จันทร์") (Some UTH_SARA_E) (say JA SEC_NONE V_A KON SAMAN) /\
  Orthography false (letters "เพ็ญ") (Some UTH_SARA_AI_MAIMALAI) (say PHA SEC_NONE V_E KON SAMAN) /\
  Orthography false (letters "ไว้") (Some UTH_CHO_CHAN) (say WA SEC_NONE V_A KOEY TRI) /\
  Orthography false (letters "จักร") None (say JA SEC_NONE V_A KOK EK) /\
  (forall next, ~ Orthography false (letters "กาน") next (say KA SEC_NONE V_AA EC_NONE SAMAN)) /\
  (forall next, ~ Orthography false (letters "ไว้") next (say WA SEC_NONE V_A KOEY SAMAN)).
Proof.
  split; [repeat constructor|]. split; [repeat constructor; vm_compute; lia|]. split; [intros d X; discriminate X|].
  split; [eexists; split; [apply listing_pronounced; vm_compute; reflexivity|]; cbn [In]; unfold orthoSyls; tauto|].
  split; [ortho 2 "จัน" "" "จ" "ั" "" Closed "น" MID SAMAN; split; [apply (C_final _ 0x0e19%N); split; [reflexivity|discriminate]|]; split; [left; split; reflexivity|left; constructor]|].
  split; [ortho 32 "เพ็ญ" "เ" "พ" "็" "" Closed "ญ" LOWP SAMAN; split; [apply (C_final _ 0x0e0d%N); split; [reflexivity|discriminate]|]; split; [left; split; reflexivity|left; constructor; auto]|].
  split; [ortho 4 "ไว้" "ไ" "ว" "" "" (Fixed KOEY) "" LOWS THO; split; [apply C_fixed|]; split; [right; exists 0x0e49%N; split; reflexivity|left; constructor; auto]|].
  split; [ortho 2 "จักร" "" "จ" "ั" "" Closed "กร" MID SAMAN; split; [apply (C_ro _ 0x0e01%N); [split; [reflexivity|discriminate]|vm_compute; tauto]|]; split; [left; split; reflexivity|left; constructor]|].
  assert (Sk : forall g g', Strip g g' -> ~ In UTH_THANTHAKHAT g -> g' = g).
  { intros g g' S. induction S; intros Nt; cbn [In] in Nt; try tauto. rewrite IHS by tauto. reflexivity. }
  split; intros next (g' & lead & on & rest & need & k & fins & K & m & St & U & O & I & _ & C & M & T); cbn [saSound saSecond saVowel saFinal saTone] in *;
    apply Sk in St; try (vm_compute; intuition discriminate); subst g'.
  - unfold spellings in I. cbn [In] in I. repeat (destruct I as [I|I]; [try discriminate I; injection I as <- <- <- <-|]); try contradiction;
      inversion C; subst; try (match goal with H : canEnd _ |- _ => destruct H; contradiction end);
      inversion O; subst; vm_compute in U; discriminate U.
  - destruct M as [(M & _)|(c & M & ->)]; [discriminate M|]. injection M as <-.
    destruct T as [T|(_ & T)]; [inversion T|discriminate T].
Qed.

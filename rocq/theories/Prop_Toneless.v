(** Prop_Toneless.v - property C112: romanized and soundex lines do not depend
    on which tone mark is written. *)
From Coq Require Import String Ascii List NArith ZArith Bool Lia Arith Sorted.
From Verif Require Import Base ThUni ThCons Syl Utf Lattice Dag PronDag Dict Parser SylOut ThaiOut Output.
From Verif Require Import Spec OrderProofs DictProofs Prop_Syl ParserSpec ParserFacts ParserInv ParserResult ParserListed ParserDict.
From Verif Require Import Prop_Output Prop_Parser Grammar GrammarIff GrammarWord TextGrammar TextProof Prop_Every Prop_Grammar Prop_Cycle Prop_Alike.
Import ListNotations.
Local Open Scope string_scope.
Local Open Scope list_scope.
Local Open Scope bool_scope.
Local Open Scope nat_scope.

(** ** Vocabulary *)
(** The ways to print a pronunciation: a line with a delimiter, a line of
    romanization, an element of a JSON list. *)
Inductive Print := P_line (f : Syl -> Res string) (d : ascii) | P_roman (cap : bool) | P_json (f : Syl -> Res string).
Definition printOf (p : Print) (s : SylString) : Res string :=
  match p with P_line f d => delimOutputStr f d s | P_roman cap => romanOutputStr cap s | P_json f => jsonOutputStr f s end.
(** Those in romanization and soundex. *)
Inductive Toneless : Print -> Prop :=
| T_line f d : f = RomanSylOutput \/ f = SoundexOutput -> Toneless (P_line f d)
| T_roman cap : Toneless (P_roman cap)
| T_json f : f = RomanSylOutput \/ f = SoundexOutput -> Toneless (P_json f).
Definition printed (p : Print) (l : list SylString) (text : string) : Prop := exists s, In s l /\ printOf p s = Ok text.

(** ** Syllables of a pronunciation are no blanks *)
Definition noBlank (x : Syl) : Prop := literal x = [] -> iCons1 x <> ICS_INVALID.
Lemma blank_not x : noBlank x -> syl_eqb x Blank = false.
Proof.
  intros H. apply not_true_is_false. intros E. apply syl_eqb_spoken in E. unfold spoken in E.
  destruct (literal x) eqn:L; cbn in E; [|discriminate E]. apply (H L). congruence.
Qed.
Lemma pron_blank w dict brk l s : dictOKo dict -> pronounced libthai_ct w dict brk l -> In s l -> Forall noBlank s.
Proof.
  intros D P I. apply Forall_forall. intros v J L. apply in_split in J. destruct J as (s1 & s2 & ->).
  assert (O : occurs l (startPos s1) (endPos v) v) by (exists s1, s2; auto).
  destruct (C30_lemma libthai_ct w dict brk l _ _ v libthai_ok D P O L) as (_ & X & _). exact X.
Qed.

(** ** What is printed of syllables that agree but for the tone *)
Definition sylText (f : Syl -> Res string) : Prop := f = RomanSylOutput \/ f = SoundexOutput.
Lemma text_like f x y : sylText f -> SylAlike false x y -> noBlank x -> noBlank y -> f x = f y.
Proof.
  intros H (A & B & C & D & E & _) Nx Ny. pose proof (blank_not x Nx) as Bx. pose proof (blank_not y Ny) as By.
  destruct H as [-> | ->]; unfold RomanSylOutput, SoundexOutput, isLiteral; rewrite Bx, By, A, ?B, C, D, E; reflexivity.
Qed.
Lemma texts_like f s s' : sylText f -> Forall2 (SylAlike false) s s' -> Forall noBlank s -> Forall noBlank s' -> mapM f s = mapM f s'.
Proof.
  intros H F. induction F as [|x y s s' X F IH]; intros N N'; [reflexivity|]. inversion N; inversion N'; subst.
  cbn [mapM]. rewrite (text_like f x y H X) by assumption. rewrite IH by assumption. reflexivity.
Qed.
Lemma line_like f d s s' : sylText f -> Forall2 (SylAlike false) s s' -> Forall noBlank s -> Forall noBlank s' ->
  forall b, delimLoop f d b s = delimLoop f d b s'.
Proof.
  intros H F. induction F as [|x y s s' X F IH]; intros N N' b; [reflexivity|]. inversion N; inversion N'; subst.
  cbn [delimLoop]. rewrite (blank_not x), (blank_not y), (text_like f x y H X), IH by assumption. reflexivity.
Qed.
Lemma roman_like s s' : Forall2 (SylAlike false) s s' -> Forall noBlank s -> Forall noBlank s' ->
  forall b x y, eCons x = eCons y -> romanLoop b x s = romanLoop b y s'.
Proof.
  intros F. induction F as [|u v s s' X F IH]; intros N N' b x y E; [reflexivity|]. inversion N; inversion N'; subst.
  cbn [romanLoop]. rewrite (blank_not u), (blank_not v), (text_like RomanSylOutput u v (or_introl eq_refl) X) by assumption.
  destruct X as (A & _ & _ & D & _). rewrite (IH ltac:(assumption) ltac:(assumption) b u v D), A, E. reflexivity.
Qed.
Lemma print_like p s s' : Toneless p -> Forall2 (SylAlike false) s s' -> Forall noBlank s -> Forall noBlank s' -> printOf p s = printOf p s'.
Proof.
  intros T F N N'. destruct T as [f d H|cap|f H]; cbn [printOf].
  - apply line_like; assumption.
  - destruct F as [|x y s s' X F]; [reflexivity|]. inversion N; inversion N'; subst. cbn [romanOutputStr].
    rewrite (text_like RomanSylOutput x y (or_introl eq_refl) X) by assumption.
    rewrite (roman_like s s' F ltac:(assumption) ltac:(assumption) false x y); [reflexivity|]. destruct X as (_ & _ & _ & D & _). exact D.
  - destruct F as [|x y s s' X F]; [reflexivity|]. inversion N; inversion N'; subst. cbn [jsonOutputStr].
    rewrite (text_like f x y H X), (texts_like f s s' H F) by assumption. reflexivity.
Qed.

(** ** C112 *)
Lemma C112_lemma w w' dict brk l l' p text : dictOKo dict -> StronglySorted lt brk -> Forall (fun x => x <= length w) brk ->
  TextAlike false w w' -> (forall p q strs, entry dict (between w p q) strs <-> entry dict (between w' p q) strs) ->
  pronounced libthai_ct w dict brk l -> pronounced libthai_ct w' dict brk l' -> Toneless p ->
  (printed p l text <-> printed p l' text).
Proof.
  intros D S B T E P P' H. destruct (C100_lemma false w w' dict brk D S B T E) as (_ & X). destruct (X l l' P P') as (X1 & X2).
  assert (G : forall s s', In s l -> In s' l' -> Forall2 (SylAlike false) s s' -> printOf p s = printOf p s').
  { intros s s' I I' F. apply print_like; [exact H|exact F|exact (pron_blank w dict brk l s D P I)|exact (pron_blank w' dict brk l' s' D P' I')]. }
  split; intros (s & I & Y).
  - destruct (X1 s I) as (s' & I' & F). exists s'. split; [exact I'|]. rewrite <- (G s s' I I' F). exact Y.
  - destruct (X2 s I) as (s' & I' & F). exists s'. split; [exact I'|]. rewrite (G s' s I' I F). exact Y.
Qed.
(** Texts that differ only in letters of one group, tone marks among them, have
    the same romanized and soundex lines and JSON elements. *)
Theorem C112_same_lines w w' dict brk l l' p text : dictOKo dict -> StronglySorted lt brk -> Forall (fun x => x <= length w) brk ->
  TextAlike false w w' -> (forall p q strs, entry dict (between w p q) strs <-> entry dict (between w' p q) strs) ->
  pronounced libthai_ct w dict brk l -> pronounced libthai_ct w' dict brk l' -> Toneless p ->
  (printed p l text <-> printed p l' text).
Proof. exact (C112_lemma w w' dict brk l l' p text). Qed.
Print Assumptions C112_same_lines.

Definition lines (p : Print) (w : list N) : Res (list string) := (l <- listed500 w ;; mapM (printOf p) l)%res.
Lemma C112_lemma2 f d : f = ThaiOutput \/ f = PhoneticOutput \/ f = RawOutput ->
  exists w w' l l' text, TextAlike false w w' /\ pronounced libthai_ct w None [] l /\ pronounced libthai_ct w' None [] l' /\
    printed (P_line f d) l text /\ ~ printed (P_line f d) l' text.
Proof.
  intros H. exists (letters "ก่า"), (letters "ก้า"), [[SylOf KA SEC_NONE V_AA EC_NONE EK 3]], [[SylOf KA SEC_NONE V_AA EC_NONE THO 3]].
  assert (X : exists a b, delimOutputStr f d [SylOf KA SEC_NONE V_AA EC_NONE EK 3] = Ok a /\ delimOutputStr f d [SylOf KA SEC_NONE V_AA EC_NONE THO 3] = Ok b /\ a <> b).
  { destruct H as [->|[-> | ->]]; eexists; eexists; (split; [vm_compute; reflexivity|split; [vm_compute; reflexivity|discriminate]]). }
  destruct X as (a & b & Ea & Eb & N). exists a. split; [apply textAlike_by; vm_compute; reflexivity|].
  split; [apply listing_pronounced; vm_compute; reflexivity|]. split; [apply listing_pronounced; vm_compute; reflexivity|].
  split; [eexists; split; [left; reflexivity|exact Ea]|]. intros (s & [<-|[]] & E). cbn [printOf] in E. congruence.
Qed.
(** The other notations show the tone. *)
Theorem C112_tones_shown_refuted f d : f = ThaiOutput \/ f = PhoneticOutput \/ f = RawOutput ->
  ~ forall w w' l l' text, TextAlike false w w' -> pronounced libthai_ct w None [] l -> pronounced libthai_ct w' None [] l' ->
    (printed (P_line f d) l text <-> printed (P_line f d) l' text).
Proof.
  intros H X. destruct (C112_lemma2 f d H) as (w & w' & l & l' & text & T & P & P' & Y & N). apply N. apply (X w w' l l' text T P P'). exact Y.
Qed.
Print Assumptions C112_tones_shown_refuted.

(** "ข้าวต้ม" and "ข่าวต๊ม". *)
Example C112_case : TextAlike false (letters "ข้าวต้ม") (letters "ข่าวต๊ม") /\
  listed500 (letters "ข้าวต้ม") <> listed500 (letters "ข่าวต๊ม") /\
  lines (P_roman false) (letters "ข้าวต้ม") = Ok ["khawatom"; "khawatom"; "khaotom"]%string /\
  lines (P_roman false) (letters "ข่าวต๊ม") = Ok ["khawatom"; "khawatom"; "khaotom"]%string /\
  lines (P_line SoundexOutput "-") (letters "ข้าวต้ม") = Ok ["ca_-wa_-tom"; "ca_-wa_-tom"; "caw-tom"]%string /\
  lines (P_line SoundexOutput "-") (letters "ข่าวต๊ม") = Ok ["ca_-wa_-tom"; "ca_-wa_-tom"; "caw-tom"]%string.
Proof. split; [apply textAlike_by; vm_compute; reflexivity|]. split; [vm_compute; discriminate|]. vm_compute. auto. Qed.

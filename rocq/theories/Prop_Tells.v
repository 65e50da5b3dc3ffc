(** Prop_Tells.v - property C105: what a pronunciation printed in one notation
    tells of the same pronunciation in another. *)
From Coq Require Import List NArith ZArith Bool String Ascii Lia Arith.
From Verif Require Import Base ThUni ThCons Syl Utf Lattice Dag PronDag SylOut ThaiOut Output Dict Parser Cli.
From Verif Require Import Spec OrderProofs Prop_Syl ParserSpec ParserFacts ParserListed Prop_Parser Prop_Notation Prop_Output Prop_Cli Prop_Roman
  Prop_Listing Prop_ThaiSame Prop_Lines.
Import ListNotations.
Local Open Scope string_scope.
Local Open Scope list_scope.
Local Open Scope nat_scope.

(** The pronunciations without foreign text that the parser lists. *)
Definition spokenBy (s : SylString) : Prop :=
  exists w dict brk l, dictOKo dict /\ (101 * Z.of_nat (List.length w) < 2 ^ 31)%Z /\ pronounced libthai_ct w dict brk l /\ In s l /\
    Forall (fun v => literal v = []) s.
(** The line printed for a pronunciation with the option of this letter, and
    the element of the JSON list (thpronun/thpronun.cxx:87-165). *)
Definition lineIn (c : ascii) (s : SylString) : Res string :=
  if (c =? "r")%char then romanOutputStr false s
  else match notationOf c with Some (f, delim) => delimOutputStr f delim s | None => Throw end.
Definition itemIn (c : ascii) (s : SylString) : Res string :=
  match notationOf c with Some (f, _) => jsonOutputStr f s | None => Throw end.
(** Alike in the one, alike in the other. *)
Definition tells (out out' : SylString -> Res string) : Prop :=
  forall s s', spokenBy s -> spokenBy s' -> out s = out s' -> out' s = out' s'.

Lemma spoken_raw s : spokenBy s -> Forall rawOk s.
Proof.
  intros (w & dict & brk & l & D & Size & P & Is & L). rewrite Forall_forall in *. intros v Iv. split.
  - apply in_split in Iv as Iv'. destruct Iv' as (s1 & s2 & E).
    assert (O : occurs l (startPos s1) (endPos v) v) by (exists s1, s2; subst s; auto).
    exact (C30_well_formed libthai_ct w dict brk l _ _ v libthai_ok D P O (L v Iv)).
  - pose proof (listed_fits libthai_ct w dict brk l s v D P Size Is Iv) as Ft. unfold fitsInt in Ft. unfold intRange. lia.
Qed.
Lemma raw_wf s : Forall rawOk s -> Forall wellFormed s.
Proof. apply Forall_impl. intros v (W & _). exact W. Qed.
Lemma or_blank (W : Syl -> Prop) s : Forall W s -> Forall (orBlank W) s.
Proof. apply Forall_impl. intros v H. left. exact H. Qed.
Lemma looks_wf R s s' : Forall wellFormed s -> Forall2 (looksAs R) s s' -> Forall2 R s s'.
Proof.
  intros W H. induction H as [|a b s s' X H IH]; [constructor|]. inversion W; subst. constructor; [|auto].
  destruct X as [(X & _)|(_ & _ & X)]; [|exact X]. contradiction (wf_spoken a ltac:(assumption) X).
Qed.
Lemma forall2_eq (s s' : SylString) : Forall2 eq s s' -> s = s'.
Proof. induction 1; congruence. Qed.
Lemma one_item f s s' : s <> [] -> s' <> [] -> jsonOutputStr f s = jsonOutputStr f s' <-> jsonOutputList f [s] = jsonOutputList f [s'].
Proof.
  intros _ _. unfold jsonOutputList. cbn [mapM bind map String.concat]. split; [intros ->; reflexivity|].
  destruct (jsonOutputStr f s) as [a| | |], (jsonOutputStr f s') as [b| | |]; cbn [bind]; intros E; try discriminate E; try reflexivity.
  injection E as E. f_equal. assert (X : forall x y : string, (x ++ "]" = y ++ "]")%string -> x = y).
  { induction x as [|c x IH]; intros [|d y] E'; cbn in E'; try reflexivity.
    - injection E' as _ E'. destruct y; discriminate.
    - injection E' as _ E'. destruct x; discriminate.
    - injection E' as -> E'. f_equal. apply IH. exact E'. }
  apply X. exact E.
Qed.
Lemma json_alike f W R s s' : WrittenJson f W R -> Forall W s -> Forall W s' -> s <> [] -> s' <> [] ->
  (jsonOutputStr f s = jsonOutputStr f s' <-> Forall2 (looksAs R) s s').
Proof.
  intros J A B N N'. rewrite (one_item f s s' N N'). rewrite (C95_json f W R [s] [s'] J); try discriminate.
  - split; [intros H; inversion H; assumption|intros H; constructor; [exact H|constructor]].
  - constructor; [|constructor]. split; [exact N|apply or_blank, A].
  - constructor; [|constructor]. split; [exact N'|apply or_blank, B].
Qed.
Lemma json_some f W R s : WrittenJson f W R -> Forall W s -> s <> [] -> jsonOutputStr f s <> UB.
Proof.
  intros J A N. destruct (writtenJson_faithful f W R J) as (d & F). destruct s as [|x s]; [congruence|]. inversion A; subst. cbn [jsonOutputStr].
  rewrite (fa_text _ _ _ _ _ F x) by assumption. cbn [bind].
  assert (M : exists os, mapM f s = Ok os).
  { assert (A' : Forall W s) by assumption. clear - A' F. induction A' as [|v s V A' (os & IH)]; [eexists; reflexivity|].
    cbn [mapM]. rewrite (fa_text _ _ _ _ _ F v V), IH. eexists. reflexivity. }
  destruct M as (os & ->). discriminate.
Qed.
Lemma raw_line s s' : Forall rawOk s -> Forall rawOk s' -> delimOutputStr RawOutput "," s = delimOutputStr RawOutput "," s' -> s = s'.
Proof.
  intros A B E. apply forall2_eq. apply looks_wf; [apply raw_wf, A|].
  assert (P : delimOutputList RawOutput "," [s] = delimOutputList RawOutput "," [s']) by (unfold delimOutputList; cbn [mapM]; rewrite E; reflexivity).
  apply (C95_pages RawOutput "," rawOk eq) in P; [inversion P; assumption|constructor| |];
    (constructor; [apply or_blank; assumption|constructor]).
Qed.
Lemma raw_item s s' : Forall rawOk s -> Forall rawOk s' -> jsonOutputStr RawOutput s = jsonOutputStr RawOutput s' -> s = s'.
Proof.
  intros A B E. destruct s as [|x s], s' as [|y s'].
  - reflexivity.
  - symmetry in E. contradiction (json_some RawOutput rawOk eq (y :: s') (Wj_line _ _ _ _ Wr_raw) B ltac:(discriminate) E).
  - contradiction (json_some RawOutput rawOk eq (x :: s) (Wj_line _ _ _ _ Wr_raw) A ltac:(discriminate) E).
  - apply forall2_eq. apply looks_wf; [apply raw_wf, A|].
    apply (json_alike RawOutput rawOk eq (x :: s) (y :: s') (Wj_line _ _ _ _ Wr_raw) A B); [discriminate|discriminate|exact E].
Qed.
Lemma sounds_roman a b : wellFormed a -> wellFormed b -> soundsAs a b -> romanSame a b.
Proof.
  intros (_ & _ & Sa & Va & _) (_ & _ & Sb & Vb & _) (O & V & E & _). split; [|split; [left; rewrite V; apply qualityB_ok|exact E]].
  - unfold romanOnset. revert O. unfold validSec in *. generalize dependent (iCons1 a). generalize dependent (iCons1 b).
    cbn [In] in Sa, Sb. intros i j. destruct Sa as [<-|[<-|[<-|[<-|[]]]]], Sb as [<-|[<-|[<-|[<-|[]]]]]; destruct i, j; cbn; intros X; try discriminate X; reflexivity.
  - unfold validVowel in Vb. rewrite <- V in *. revert Va. generalize (vowel a). intros v Iv.
    assert (S : forallb (fun v => qualityB v v) vowelCodes = true) by (vm_compute; reflexivity).
    rewrite forallb_forall in S. exact (S v Iv).
Qed.

(** ** Two pronunciations alike in one notation and not in the other *)
Definition noForeign (s : SylString) : bool := forallb (fun v => match literal v with [] => true | _ => false end) s.
Definition apart (out out' : SylString -> Res string) (a : string) (i : nat) (b : string) (j : nat) : bool :=
  match listing None [] a, listing None [] b with
  | Ok l, Ok l' =>
      match nth_error l i, nth_error l' j with
      | Some s, Some s' => noForeign s && noForeign s' && (List.length (letters a) <? 100)%nat && (List.length (letters b) <? 100)%nat &&
          resStrEqb (out s) (out s') && negb (resStrEqb (out' s) (out' s')) &&
          match out s, out' s, out' s' with Ok _, Ok _, Ok _ => true | _, _, _ => false end
      | _, _ => false
      end
  | _, _ => false
  end.
Lemma heard a i l s : listing None [] a = Ok l -> nth_error l i = Some s -> noForeign s = true -> List.length (letters a) < 100 -> spokenBy s.
Proof.
  intros L E F Sz. exists (letters a), None, [], l. split; [intros d X; discriminate X|]. split; [lia|].
  split; [apply listing_pronounced, L|]. split; [exact (nth_error_In _ _ E)|]. apply Forall_forall. intros v Iv.
  unfold noForeign in F. rewrite forallb_forall in F. specialize (F v Iv). destruct (literal v); [reflexivity|discriminate F].
Qed.
Lemma res_eqb (a b : Res string) : resStrEqb a b = true -> match a with Ok _ => a = b | _ => True end.
Proof. destruct a, b; cbn; try discriminate; auto. intros E. apply String.eqb_eq in E. congruence. Qed.
Lemma apart_not out out' a i b j : apart out out' a i b j = true -> ~ tells out out'.
Proof.
  unfold apart. destruct (listing None [] a) as [l| | |] eqn:La; try discriminate. destruct (listing None [] b) as [l'| | |] eqn:Lb; try discriminate.
  destruct (nth_error l i) as [s|] eqn:Ea; [|discriminate]. destruct (nth_error l' j) as [s'|] eqn:Eb; [|discriminate].
  rewrite !andb_true_iff, !Nat.ltb_lt. intros ((((((Fa & Fb) & Sa) & Sb) & E) & N) & X) T.
  specialize (T s s' (heard a i l s La Ea Fa Sa) (heard b j l' s' Lb Eb Fb Sb)). apply res_eqb in E.
  destruct (out s) as [o| | |]; try discriminate X. specialize (T E). rewrite T in N. destruct (out' s'); [|destruct (out' s); discriminate X..].
  cbn in N. rewrite String.eqb_refl in N. discriminate N.
Qed.
(** "ra" with a silent glottal and without, also after "ka"; "ko" with two
    vowels; "ro" and "lo"; "hrang" and a rising "rang". *)
Definition witness (c : ascii) : string * nat * string * nat :=
  if (c =? "p")%char then ("กาอฤ๋ะ", 0, "การ๋ะ", 0)
  else if (c =? "r")%char then ("กอ", 0, "โก", 0)
  else if (c =? "s")%char then ("รอ", 0, "ลอ", 0)
  else ("ฮฤั๋ง", 0, "รั๋ง", 0).
Definition pairs_apart (out : ascii -> SylString -> Res string) (free : ascii -> ascii -> bool) : bool :=
  forallb (fun c => forallb (fun c' => free c c' || (let '(a, i, b, j) := witness c in apart (out c) (out c') a i b j)) notationLetters) notationLetters.
Definition lineFree (c c' : ascii) : bool := (c =? c')%char || (c =? "w")%char.
Definition itemFree (c c' : ascii) : bool := (c =? c')%char || (c =? "w")%char || (c =? "p")%char && (c' =? "r")%char.
Lemma lines_apart : pairs_apart lineIn lineFree = true.
Proof. vm_compute. reflexivity. Qed.
Lemma items_apart : pairs_apart itemIn itemFree = true.
Proof. vm_compute. reflexivity. Qed.
Lemma pair_not out free c c' : pairs_apart out free = true -> In c notationLetters -> In c' notationLetters -> tells (out c) (out c') -> free c c' = true.
Proof.
  intros H Ic Ic' T. unfold pairs_apart in H. rewrite forallb_forall in H. specialize (H c Ic). rewrite forallb_forall in H. specialize (H c' Ic').
  apply orb_true_iff in H. destruct H as [H|H]; [exact H|]. destruct (witness c) as (((a & i) & b) & j). contradiction (apart_not _ _ _ _ _ _ H T).
Qed.
Lemma phonetic_roman s s' : Forall wellFormed s -> Forall wellFormed s' ->
  jsonOutputStr PhoneticOutput s = jsonOutputStr PhoneticOutput s' -> jsonOutputStr RomanSylOutput s = jsonOutputStr RomanSylOutput s'.
Proof.
  intros A B E. pose proof (Wj_line _ _ _ _ Wr_phonetic) as J. destruct s as [|x s], s' as [|y s'].
  - reflexivity.
  - symmetry in E. contradiction (json_some PhoneticOutput wellFormed soundsAs (y :: s') J B ltac:(discriminate) E).
  - contradiction (json_some PhoneticOutput wellFormed soundsAs (x :: s) J A ltac:(discriminate) E).
  - apply (json_alike PhoneticOutput wellFormed soundsAs _ _ J A B) in E; [|discriminate|discriminate].
    apply (json_alike RomanSylOutput wellFormed romanSame _ _ Wj_roman A B); [discriminate|discriminate|].
    revert A B E. generalize (x :: s) (y :: s'). clear. intros s s' A B E. induction E as [|a b s s' X E IH]; [constructor|].
    inversion A; inversion B; subst. constructor; [|auto]. destruct X as [X|(X & Y & Z)]; [left; exact X|right].
    split; [exact X|]. split; [exact Y|]. apply sounds_roman; assumption.
Qed.
Lemma C105_lemma c c' : In c notationLetters -> In c' notationLetters -> (tells (lineIn c) (lineIn c') <-> c = c' \/ c = "w"%char).
Proof.
  intros I I'. split.
  - intros T. pose proof (pair_not lineIn lineFree c c' lines_apart I I' T) as F. unfold lineFree in F. rewrite orb_true_iff, !Ascii.eqb_eq in F. exact F.
  - intros [<-| ->] s s' S S' E; [exact E|]. apply spoken_raw in S, S'.
    rewrite (raw_line s s' S S'); [reflexivity|]. exact E.
Qed.
Theorem C105_lines c c' : In c notationLetters -> In c' notationLetters -> (tells (lineIn c) (lineIn c') <-> c = c' \/ c = "w"%char).
Proof. exact (C105_lemma c c'). Qed.
Print Assumptions C105_lines.
Lemma C105_lemma2 c c' : In c notationLetters -> In c' notationLetters ->
  (tells (itemIn c) (itemIn c') <-> c = c' \/ c = "w"%char \/ (c = "p"%char /\ c' = "r"%char)).
Proof.
  intros I I'. split.
  - intros T. pose proof (pair_not itemIn itemFree c c' items_apart I I' T) as F. unfold itemFree in F.
    rewrite !orb_true_iff, andb_true_iff, !Ascii.eqb_eq in F. tauto.
  - intros [<-|[->|(-> & ->)]] s s' S S' E; [exact E| |]; apply spoken_raw in S, S'.
    + rewrite (raw_item s s' S S'); [reflexivity|]. exact E.
    + exact (phonetic_roman s s' (raw_wf s S) (raw_wf s' S') E).
Qed.
Theorem C105_json c c' : In c notationLetters -> In c' notationLetters ->
  (tells (itemIn c) (itemIn c') <-> c = c' \/ c = "w"%char \/ (c = "p"%char /\ c' = "r"%char)).
Proof. exact (C105_lemma2 c c'). Qed.
Print Assumptions C105_json.

(** The whole answer in raw lines or raw JSON is the list of pronunciations. *)
Lemma C105_lemma3 l l' : Forall spokenBy l -> Forall spokenBy l' ->
  (delimOutputList RawOutput "," l = delimOutputList RawOutput "," l' -> l = l') /\
  (l <> [] -> l' <> [] -> Forall (fun s => s <> []) l -> Forall (fun s => s <> []) l' ->
   (jsonOutputList RawOutput l = jsonOutputList RawOutput l' -> l = l') /\
   (jsonOutputList PhoneticOutput l = jsonOutputList PhoneticOutput l' -> jsonOutputList RomanSylOutput l = jsonOutputList RomanSylOutput l')).
Proof.
  intros S S'. assert (K : forall x, Forall spokenBy x -> Forall (Forall rawOk) x) by (intros x; apply Forall_impl, spoken_raw).
  apply K in S, S'. clear K.
  assert (Eq : Forall2 (Forall2 (looksAs eq)) l l' -> l = l').
  { intros H. clear S'. induction H as [|s s' l l' X H IH]; [reflexivity|]. inversion S; subst. f_equal; [|auto].
    apply forall2_eq, looks_wf; [apply raw_wf; assumption|exact X]. }
  split.
  - intros E. apply Eq. apply (C95_pages RawOutput "," rawOk eq) in E; [exact E|constructor| |];
      [revert S|revert S']; apply Forall_impl; intros s; apply or_blank.
  - intros N N' F F'.
    assert (Fi : forall W x, Forall (Forall W) x -> Forall (fun s : SylString => s <> []) x -> Forall (filled W) x).
    { intros W x A B. rewrite Forall_forall in *. intros s Is. split; [exact (B s Is)|apply or_blank, A, Is]. }
    assert (Wf : Forall (Forall wellFormed) l /\ Forall (Forall wellFormed) l').
    { split; [revert S|revert S']; apply Forall_impl; intros s; apply raw_wf. }
    split.
    + intros E. apply Eq. apply (C95_json RawOutput rawOk eq l l' (Wj_line _ _ _ _ Wr_raw) N N'); auto.
    + intros E. destruct Wf as (A & B).
      apply (C95_json PhoneticOutput wellFormed soundsAs l l' (Wj_line _ _ _ _ Wr_phonetic) N N') in E; auto.
      apply (C95_json RomanSylOutput wellFormed romanSame l l' Wj_roman N N'); auto.
      clear - A B E. induction E as [|s s' l l' X E IH]; [constructor|]. inversion A as [|? ? As A']; inversion B as [|? ? Bs B']; subst. constructor; [|auto].
      clear - As Bs X. induction X as [|a b s s' X E IH]; [constructor|]. inversion As; inversion Bs; subst. constructor; [|auto].
      destruct X as [X|(X & Y & Z)]; [left; exact X|right]. split; [exact X|]. split; [exact Y|]. apply sounds_roman; assumption.
Qed.
Theorem C105_answers l l' : Forall spokenBy l -> Forall spokenBy l' ->
  (delimOutputList RawOutput "," l = delimOutputList RawOutput "," l' -> l = l') /\
  (l <> [] -> l' <> [] -> Forall (fun s => s <> []) l -> Forall (fun s => s <> []) l' ->
   (jsonOutputList RawOutput l = jsonOutputList RawOutput l' -> l = l') /\
   (jsonOutputList PhoneticOutput l = jsonOutputList PhoneticOutput l' -> jsonOutputList RomanSylOutput l = jsonOutputList RomanSylOutput l')).
Proof. exact (C105_lemma3 l l'). Qed.
Print Assumptions C105_answers.

(** The two readings of "kara" that are alike in phonetic notation; the
    romanized lines show the glottal, the romanized JSON does not. *)
Example C105_case : exists s s', spokenBy s /\ spokenBy s' /\ s <> s' /\ lineIn "p" s = Ok "kaa0 rah4" /\ lineIn "p" s' = Ok "kaa0 rah4" /\
  lineIn "r" s = Ok "ka-ra" /\ lineIn "r" s' = Ok "kara" /\ itemIn "r" s = itemIn "r" s' /\
  lineIn "t" s = Ok "กา-อฺร๋ะ" /\ lineIn "t" s' = Ok "กา-ร๋ะ" /\ lineIn "s" s = Ok "ka_-?a_" /\ lineIn "s" s' = Ok "ka_-la_".
Proof.
  set (a := [SylOf KA SEC_NONE V_AA EC_NONE SAMAN 2; SylOf ICS_A SEC_RA V_A EC_NONE CHATTAWA 6]).
  set (b := [SylOf KA SEC_NONE V_AA EC_NONE SAMAN 2; SylOf RA SEC_NONE V_A EC_NONE CHATTAWA 5]). exists a, b.
  split; [eapply (heard "กาอฤ๋ะ" 0); [vm_compute; reflexivity|reflexivity|reflexivity|apply Nat.ltb_lt; vm_compute; reflexivity]|].
  split; [eapply (heard "การ๋ะ" 0); [vm_compute; reflexivity|reflexivity|reflexivity|apply Nat.ltb_lt; vm_compute; reflexivity]|].
  split; [discriminate|]. repeat split; vm_compute; reflexivity.
Qed.

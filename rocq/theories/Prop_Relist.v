(** Prop_Relist.v - property C110: a word listed with the pronunciations it has
    anyway keeps them. *)
From Coq Require Import String Ascii List NArith ZArith Bool Lia Arith.
From Verif Require Import Base ThUni ThCons Syl Utf Lattice Dag PronDag SylOut Dict GenDict Parser.
From Verif Require Import Spec OrderProofs DictProofs Prop_Syl ParserSpec ParserFacts ParserInv ParserResult ParserListed UtfProofs.
From Verif Require Import Prop_Parser Prop_Notation Prop_Dict Prop_Roman Prop_Codes Grammar GrammarWord Prop_Grammar Prop_Pipeline.
From Verif Require Prop_Span Prop_Shipped.
Import ListNotations.
Local Open Scope string_scope.
Local Open Scope list_scope.
Local Open Scope nat_scope.

(** ** Vocabulary *)
(** [D1] lists the word [w] with the pronunciations [strs], and otherwise what
    [D0] lists. *)
Definition relists (D0 D1 : list N -> list SylString -> Prop) (w : list N) (strs : list SylString) : Prop :=
  forall k ss, D1 k ss <-> k = w /\ ss = strs \/ k <> w /\ D0 k ss.

(** ** Walks *)
Lemma shift0 s : shiftEndPos 0 s = s.
Proof.
  unfold shiftEndPos. rewrite <- (map_id s) at 2. apply map_ext. intros [a b c d e f p]. unfold setEndPos, shiftPos. cbn.
  destruct (p <? 0)%Z; f_equal; lia.
Qed.
Lemma along_in f v s x : In (f, v) (along x s) -> In v s.
Proof.
  revert x. induction s as [|u s IH]; intros x H; [destruct H|]. cbn [along] in H. destruct H as [H|H]; [injection H as <- <-; left; reflexivity|right; exact (IH _ H)].
Qed.
Section Relist.
Variables D0 D1 : list N -> list SylString -> Prop.
Variable w : list N.
Variable strs : list SylString.
Hypothesis Nw : w <> [].
Hypothesis N0 : forall k s, D0 k s -> k <> [].
Hypothesis R : relists D0 D1 w strs.
Hypothesis S : forall s, In s strs <-> Walks D0 w 0 s (Z.of_nat (length w)).

Lemma N1 k s : D1 k s -> k <> [].
Proof. intros H. apply R in H. destruct H as [(-> & _)|(_ & H)]; [exact Nw|exact (N0 _ _ H)]. Qed.
Lemma way_less (D : list N -> list SylString -> Prop) t lk es r lk' : (forall k s, D k s -> k <> []) -> Way D w t lk es r lk' -> length r < length t.
Proof.
  intros N [t0 l k r0 ss (-> & _ & H)|t0 l p x r0 l' _ H].
  - apply N in H. destruct k; [congruence|]. rewrite app_length. cbn [length]. lia.
  - apply Prop_Span.reads_len in H. destruct p; lia.
Qed.
Lemma wordAt_same t k r ss : length t < length w -> wordAt D1 t k r ss <-> wordAt D0 t k r ss.
Proof.
  intros L. assert (K : t = k ++ r -> k <> w) by (intros -> ->; rewrite app_length in L; lia).
  split; intros (A & B & C); (split; [exact A|]; split; [exact B|]).
  - apply R in C. destruct C as [(X & _)|(_ & C)]; [destruct (K A X)|exact C].
  - apply R. right. split; [exact (K A)|exact C].
Qed.
Lemma way_same t lk es r lk' : length t < length w -> Way D1 w t lk es r lk' -> Way D0 w t lk es r lk'.
Proof.
  intros L W. revert L. destruct W as [t0 l k r0 ss H|t0 l p x r0 l' H Rd]; intros L.
  - apply (W_word D0 w t0 l k). exact (proj1 (wordAt_same _ _ _ _ L) H).
  - apply W_read; [|exact Rd]. intros k r ss X. exact (H k r ss (proj2 (wordAt_same _ _ _ _ L) X)).
Qed.
Lemma fin_same t lk : Finishes D1 w t lk -> length t < length w -> Finishes D0 w t lk.
Proof.
  induction 1 as [lk|t lk es r lk' W F IH]; intros L; [apply Fn_end|].
  pose proof (way_less D1 _ _ _ _ _ N1 W). eapply Fn_step; [apply way_same; eassumption|apply IH; lia].
Qed.
Lemma self_at : wordAt D1 w w [] strs.
Proof. split; [symmetry; apply app_nil_r|]. split; [exact I|]. apply R. left. split; reflexivity. Qed.
(** From the start only listed words are taken: the word itself or others that
    [D0] lists. *)
Lemma way_first lk es r lk' : Way D1 w w lk es r lk' ->
  r = [] /\ es = wordMoves w w strs \/ length r < length w /\ Way D0 w w lk es r lk'.
Proof.
  intros W. pose proof (way_less D1 _ _ _ _ _ N1 W) as L. remember w as t eqn:Et in W at 2.
  destruct W as [t0 l k r0 ss (A & B & C)|t0 l p x r0 l' H _].
  - apply R in C. destruct C as [(-> & ->)|(K & C)].
    + left. subst t0. split; [|reflexivity]. apply (app_inv_head w). rewrite app_nil_r. symmetry. exact A.
    + right. split; [lia|]. subst t0. apply (W_word D0 w w l k). split; [exact A|]. split; [exact B|exact C].
  - subst t0. destruct (H w [] strs self_at).
Qed.
Lemma reached_same t lk : Reached D1 w t lk -> t = [] \/ Reached D0 w t lk /\ (t = w \/ length t < length w).
Proof.
  induction 1 as [|t lk es r lk' _ [->|(A & B)] W].
  - right. split; [apply Rc_start|left; reflexivity].
  - pose proof (way_less D1 _ _ _ _ _ N1 W) as L. cbn in L. lia.
  - pose proof (way_less D1 _ _ _ _ _ N1 W) as L. destruct B as [->|B].
    + destruct (way_first _ _ _ _ W) as [(-> & _)|(L' & W')]; [left; reflexivity|]. right. split; [eapply Rc_step; eassumption|right; exact L'].
    + right. split; [eapply Rc_step; [exact A|apply way_same; eassumption]|right; lia].
Qed.
Lemma along_moves D s : forall f e, Walks D w f s e -> forall x v, In (x, v) (along f s) -> Move D w x v.
Proof.
  induction s as [|u s IH]; intros f e H x v I0; [destruct I0|]. destruct H as (M & H). destruct I0 as [I0|I0]; [injection I0 as <- <-; exact M|exact (IH _ _ H _ _ I0)].
Qed.
Lemma start0 : startOf w w = 0%Z.
Proof. unfold startOf. rewrite Nat.sub_diag. reflexivity. Qed.
Lemma move_old f v : Move D1 w f v -> Move D0 w f v.
Proof.
  intros (t & lk & es & r & lk' & A & W & F & I0). pose proof (way_less D1 _ _ _ _ _ N1 W) as L.
  destruct (reached_same _ _ A) as [->|(A' & [->|B])]; [cbn in L; lia| |].
  - destruct (way_first _ _ _ _ W) as [(-> & ->)|(_ & W')].
    + unfold wordMoves in I0. apply in_flat_map in I0. destruct I0 as (s & Is & I0). rewrite start0, shift0 in I0. apply S in Is.
      exact (along_moves D0 s _ _ Is _ _ I0).
    + exists w, lk, es, r, lk'. split; [exact A'|]. split; [exact W'|]. split; [exact (fin_same _ _ F L)|exact I0].
  - exists t, lk, es, r, lk'. split; [exact A'|]. split; [exact (way_same _ _ _ _ _ B W)|]. split; [exact (fin_same _ _ F (Nat.lt_trans _ _ _ L B))|exact I0].
Qed.
Lemma walks_same s : Walks D1 w 0 s (Z.of_nat (length w)) <-> In s strs.
Proof.
  split.
  - intros H. apply S. revert H. generalize 0%Z. induction s as [|v s IH]; intros f H; [exact H|]. destruct H as (M & H). split; [exact (move_old _ _ M)|exact (IH _ H)].
  - intros H. assert (M : forall x v, In (x, v) (along 0 s) -> Move D1 w x v).
    { intros x v I0. exists w, false, (wordMoves w w strs), [], false. split; [apply Rc_start|]. split; [apply W_word with (k := w); exact self_at|]. split; [apply Fn_end|].
      unfold wordMoves. apply in_flat_map. exists s. split; [exact H|]. rewrite start0, shift0. exact I0. }
    apply S in H. revert H M. generalize 0%Z. clear - w. induction s as [|v s IH]; intros f H M; [exact H|]. destruct H as (_ & H).
    split; [apply M; left; reflexivity|]. apply IH; [exact H|]. intros x u I0. apply M. right. exact I0.
Qed.
End Relist.

(** ** C110 *)
Lemma C110_lemma w dict dict' brk brk' l l' strs : Forall (fun c => thaiLetter c = true) w -> 2 <= length w ->
  (forall x, In x brk -> x = 0 \/ x = length w) -> (forall x, In x brk' -> x = 0 \/ x = length w) ->
  dictOKo dict -> dictOKo dict' -> pronounced libthai_ct w dict brk l -> (forall s, In s strs <-> In s l) ->
  relists (entry dict) (entry dict') w strs -> pronounced libthai_ct w dict' brk' l' ->
  forall s, In s l' <-> In s l.
Proof.
  intros L N B B' D D' P E Rl P' s. rewrite (C57_word_walks w dict' brk' l' L N B' D' P' s).
  rewrite (walks_same (entry dict) (entry dict') w strs); [apply E|intros ->; cbn in N; lia| |exact Rl|].
  - intros k ss (d & v & _ & _ & K & _). exact K.
  - intros x. rewrite E. exact (C57_word_walks w dict brk l L N B D P x).
Qed.
(** A word added to any dictionary with the pronunciations it has there, in any
    order, keeps exactly these. *)
Theorem C110_relisted w dict dict' brk brk' l l' strs : Forall (fun c => thaiLetter c = true) w -> 2 <= length w ->
  (forall x, In x brk -> x = 0 \/ x = length w) -> (forall x, In x brk' -> x = 0 \/ x = length w) ->
  dictOKo dict -> dictOKo dict' -> pronounced libthai_ct w dict brk l -> (forall s, In s strs <-> In s l) ->
  relists (entry dict) (entry dict') w strs -> pronounced libthai_ct w dict' brk' l' ->
  forall s, In s l' <-> In s l.
Proof. exact (C110_lemma w dict dict' brk brk' l l' strs). Qed.
Print Assumptions C110_relisted.

(** ** From the source list *)
Lemma last_relists es w strs : relists (lastEntry es) (lastEntry (es ++ [(w, strs)])) w strs.
Proof.
  intros k ss. split.
  - intros (l1 & l2 & E & H). destruct l2 as [|x l2] using rev_ind.
    + apply app_inj_tail in E. destruct E as (_ & E). injection E as -> ->. left. split; reflexivity.
    + clear IHl2. rewrite app_comm_cons, app_assoc in E. apply app_inj_tail in E. destruct E as (-> & <-). right. split.
      * intros ->. apply (H strs). apply in_or_app. right. left. reflexivity.
      * exists l1, l2. split; [reflexivity|]. intros x I0. apply (H x). apply in_or_app. left. exact I0.
  - intros [(-> & ->)|(K & l1 & l2 & -> & H)].
    + exists es, []. split; [reflexivity|]. intros x [].
    + exists l1, (l2 ++ [(w, strs)]). split; [rewrite <- app_assoc; reflexivity|]. intros x I0. apply in_app_or in I0. destruct I0 as [I0|[I0|[]]]; [exact (H x I0)|congruence].
Qed.
Lemma reached_suf D w t lk : Reached D w t lk -> exists u, w = u ++ t.
Proof.
  induction 1 as [|t lk es r lk' _ (u & E) W]; [exists []; reflexivity|].
  destruct W as [t0 l k r0 ss (A & _)|t0 l p x r0 l' _ H].
  - exists (u ++ k). rewrite E, A, app_assoc. reflexivity.
  - destruct (reads_suf t0 l t0 p x r0 l' ltac:(exists []; reflexivity) H) as (q & Eq). exists (u ++ q). rewrite E, Eq at 1. rewrite app_assoc. reflexivity.
Qed.
(** The pronunciations of a word can be listed: they are well-formed. *)
Lemma pron_good w dict brk l : Forall (fun c => thaiLetter c = true) w -> 2 <= length w ->
  (forall x, In x brk -> x = 0 \/ x = length w) -> dictOKo dict -> pronounced libthai_ct w dict brk l -> l <> [] -> goodWord (w, l).
Proof.
  intros L N B D P Nl. assert (A : inAbc w).
  { intros c I0. rewrite Forall_forall in L. pose proof (letter_range c (L c I0)). lia. }
  split; [cbn; intros ->; cbn in N; lia|]. split; [exact A|]. split; [exact Nl|]. cbn [fst snd].
  apply Forall_forall. intros s Is. pose proof P as (fuel & g & E & Lg).
  destruct (C25_lemma libthai_ct w dict brk fuel g D E) as (l2 & L2 & W & _). assert (l2 = l) by congruence. subst l2.
  split; [exact (W s Is)|]. apply Forall_forall. intros v Iv. destruct (in_split _ _ Iv) as (s1 & s2 & ->).
  apply (C30_lemma libthai_ct w dict brk l (startPos s1) (endPos v) v libthai_ok D P); [exists s1, s2; auto|].
  apply (C57_word_walks w dict brk l L N B D P) in Is. clear - Is D A. revert Is. generalize 0%Z. induction s1 as [|u s1 IH]; intros f H; [|destruct H as (_ & H); exact (IH _ H)].
  destruct H as ((t & lk & es & r & lk' & Re & Wy & _ & I0) & _). apply reached_suf in Re. destruct Re as (pre & Ew).
  destruct Wy as [t0 l0 k r0 ss (Et & _ & (d & x & Ed & Hd & K & Li))|t0 l0 p x r0 l' _ _].
  - unfold wordMoves in I0. apply in_flat_map in I0. destruct I0 as (q & Iq & I0). apply along_in in I0. unfold shiftEndPos in I0. apply in_map_iff in I0. destruct I0 as (u & <- & Iu).
    destruct (D d Ed k x Hd K) as (ss' & Li' & F).
    { intros c Ic. apply A. rewrite Ew, Et. apply in_or_app. right. apply in_or_app. left. exact Ic. }
    assert (ss' = ss) by (destruct Li as (a & A1 & A2), Li' as (a' & A1' & A2'); congruence). subst ss'.
    rewrite Forall_forall in F. destruct (F q Iq) as (_ & F'). rewrite Forall_forall in F'. pose proof (wf_lit u (F' u Iu)) as Lu.
    destruct u as [u1 u2 u3 u4 u5 u6 u7]. unfold isLiteral in Lu. cbn in *. destruct u6; [reflexivity|discriminate Lu].
  - unfold readMoves in I0. destruct p as [p|]; cbn in I0; [destruct I0 as [I0|[I0|[]]]|destruct I0 as [I0|[]]]; injection I0 as _ <-; reflexivity.
Qed.
Lemma C110_lemma2 w dict es brk l input : Forall (fun c => thaiLetter c = true) w -> 2 <= length w ->
  (forall x, In x brk -> x = 0 \/ x = length w) -> dictOKo dict -> Forall goodWord es -> (forall k ss, entry dict k ss <-> lastEntry es k ss) ->
  pronounced libthai_ct w dict brk l -> l <> [] -> sourceOf (es ++ [(w, l)]) input -> (Z.of_nat (String.length input) < 1073741824)%Z ->
  exists f d, GenDict input = Ok (Some f) /\ DictOpen (ATrie f) = Ok (d, true) /\
    forall brk' l', (forall x, In x brk' -> x = 0 \/ x = length w) -> pronounced libthai_ct w (Some d) brk' l' ->
      forall s, In s l' <-> In s l.
Proof.
  intros L N B D G H P Nl So Li. pose proof (pron_good w dict brk l L N B D P Nl) as Gw.
  destruct (C68_lemma (es ++ [(w, l)]) input) as (f & d & E1 & E2 & OK & H'); [destruct es; discriminate|apply Forall_app; split; [exact G|constructor; [exact Gw|constructor]]|exact So|exact Li|].
  exists f, d. split; [exact E1|]. split; [exact E2|]. intros brk' l' B' P'.
  apply (C110_lemma w dict (Some d) brk brk' l l' l L N B B' D); [intros d' X; injection X as <-; exact OK|exact P|tauto| |exact P'].
  intros k ss. rewrite H', (last_relists es w l k ss), H. tauto.
Qed.
(** Take the pronunciations a word has with the dictionary made from a source
    list, or with none and the empty list; add to the list a line with the
    word and their raw codes: with the new dictionary it has the same. *)
Theorem C110_source w dict es brk l input : Forall (fun c => thaiLetter c = true) w -> 2 <= length w ->
  (forall x, In x brk -> x = 0 \/ x = length w) -> dictOKo dict -> Forall goodWord es -> (forall k ss, entry dict k ss <-> lastEntry es k ss) ->
  pronounced libthai_ct w dict brk l -> l <> [] -> sourceOf (es ++ [(w, l)]) input -> (Z.of_nat (String.length input) < 1073741824)%Z ->
  exists f d, GenDict input = Ok (Some f) /\ DictOpen (ATrie f) = Ok (d, true) /\
    forall brk' l', (forall x, In x brk' -> x = 0 \/ x = length w) -> pronounced libthai_ct w (Some d) brk' l' ->
      forall s, In s l' <-> In s l.
Proof. exact (C110_lemma2 w dict es brk l input). Qed.
Print Assumptions C110_source.

(** ** Examples *)
Definition prons (o : option Dict) (w : string) : list SylString := match listing o [] w with Ok l => l | _ => [] end.
Lemma prons_ok o w : (match listing o [] w with Ok _ => true | _ => false end) = true -> pronounced libthai_ct (letters w) o [] (prons o w).
Proof. unfold prons. destruct (listing o [] w) as [l| | |] eqn:E; intros X; try discriminate X. apply listing_pronounced. exact E. Qed.
(** A source list of one word, and the dictionary made from it. *)
Definition lineFor (w t : string) : string := (w ++ String tab (t ++ String lf ""))%string.
Definition dictFor (w t : string) : Dict :=
  match GenDict (lineFor w t) with
  | Ok (Some f) => match DictOpen (ATrie f) with Ok (d, true) => d | _ => exDict end
  | _ => exDict
  end.
Definition takLom : SylString := [SylOf TA SEC_NONE V_AA KOK EK 3; SylOf LA SEC_NONE V_O KOM SAMAN 5].
Lemma dictFor_ok w t : (match GenDict (lineFor w t) with Ok (Some f) => match DictOpen (ATrie f) with Ok (_, true) => true | _ => false end | _ => false end) = true ->
  exists f, GenDict (lineFor w t) = Ok (Some f) /\ DictOpen (ATrie f) = Ok (dictFor w t, true).
Proof.
  unfold dictFor. destruct (GenDict (lineFor w t)) as [[f|]| | |]; intros X; try discriminate X. exists f. split; [reflexivity|].
  destruct (DictOpen (ATrie f)) as [[d []]| | |]; try discriminate X. reflexivity.
Qed.
Lemma lineFor_source w t l : goodWord (letters w, l) -> forallb (forallb (fun v => (Z.abs (endPos v) <? 1000)%Z)) l = true ->
  Prop_Shipped.rawData l = Some t -> utf8Encode (letters w) = w -> (String.length (lineText (letters w) t) <=? 254) = true ->
  sourceOf [(letters w, l)] (lineFor w t).
Proof.
  intros (_ & _ & _ & F) A Rw U L. exists [(letters w, t)]. split.
  - replace (lineFor w t) with (lineText (letters w) t ++ String lf "")%string; [apply F_line, F_nil|]. unfold lineText, lineFor. rewrite U.
    generalize w. clear. induction w as [|c w IH]; [reflexivity|]. cbn [String.append]. rewrite IH. reflexivity.
  - constructor; [|constructor]. split; [reflexivity|]. split; [exact (Prop_Shipped.rawData_of _ l t F A Rw)|]. apply Nat.leb_le. exact L.
Qed.
(** A word without a dictionary, and with the one made of its line. *)
Lemma self_listed w t : Forall (fun c => thaiLetter c = true) (letters w) -> (2 <=? length (letters w)) = true ->
  (match listing None [] w with Ok (_ :: _) => true | _ => false end) = true ->
  forallb (forallb (fun v => (Z.abs (endPos v) <? 1000)%Z)) (prons None w) = true -> Prop_Shipped.rawData (prons None w) = Some t ->
  utf8Encode (letters w) = w -> (String.length (lineText (letters w) t) <=? 254) = true ->
  (Z.of_nat (String.length (lineFor w t)) <? 1073741824)%Z = true ->
  (match GenDict (lineFor w t) with Ok (Some f) => match DictOpen (ATrie f) with Ok (_, true) => true | _ => false end | _ => false end) = true ->
  pronounced libthai_ct (letters w) None [] (prons None w) /\ sourceOf [(letters w, prons None w)] (lineFor w t) /\
  exists f, GenDict (lineFor w t) = Ok (Some f) /\ DictOpen (ATrie f) = Ok (dictFor w t, true) /\ dictOK (dictFor w t) /\
    forall k ss, entry (Some (dictFor w t)) k ss <-> lastEntry [(letters w, prons None w)] k ss.
Proof.
  intros L N Ls A Rw U Le Z G. assert (P : pronounced libthai_ct (letters w) None [] (prons None w)).
  { apply prons_ok. destruct (listing None [] w); [reflexivity|discriminate Ls..]. }
  assert (Ne : prons None w <> []) by (unfold prons; destruct (listing None [] w) as [[|]| | |]; discriminate).
  assert (Gw : goodWord (letters w, prons None w)).
  { apply (pron_good (letters w) None [] _ L); [apply Nat.leb_le; exact N|intros x []|intros d X; discriminate X|exact P|exact Ne]. }
  split; [exact P|]. pose proof (lineFor_source w t _ Gw A Rw U Le) as So. split; [exact So|].
  destruct (dictFor_ok w t G) as (f & E1 & E2). exists f. split; [exact E1|]. split; [exact E2|].
  destruct (C68_lemma [(letters w, prons None w)] (lineFor w t)) as (f' & d' & E1' & E2' & OK & H); [discriminate|constructor; [exact Gw|constructor]|exact So|apply Z.ltb_lt; exact Z|].
  assert (f' = f) by congruence. subst f'. assert (d' = dictFor w t) by congruence. subst d'. split; [exact OK|exact H].
Qed.
(** "ตากลม" is "ตา-กลม", "ตาก-ลม" and more; with "ตา" listed just as it is said,
    "ตาก-ลม" is lost. *)
Lemma C110_lemma3 : exists l f d l1 l2, pronounced libthai_ct (letters "ตา") None [] l /\
  GenDict (lineFor "ตา" "t_A_0@2") = Ok (Some f) /\ DictOpen (ATrie f) = Ok (d, true) /\ entry (Some d) (letters "ตา") l /\
  pronounced libthai_ct (letters "ตากลม") None [] l1 /\ pronounced libthai_ct (letters "ตากลม") (Some d) [] l2 /\
  In takLom l1 /\ ~ In takLom l2.
Proof.
  destruct (self_listed "ตา" "t_A_0@2") as (P & _ & f & E1 & E2 & _ & H); [letters_ok|vm_compute; reflexivity..|].
  exists (prons None "ตา"), f, (dictFor "ตา" "t_A_0@2"), (prons None "ตากลม"), (prons (Some (dictFor "ตา" "t_A_0@2")) "ตากลม").
  split; [exact P|]. split; [exact E1|]. split; [exact E2|]. split; [apply (proj2 (H _ _)); exists [], []; split; [reflexivity|intros x []]|].
  split; [apply prons_ok; vm_compute; reflexivity|]. split; [apply prons_ok; vm_compute; reflexivity|].
  split; [apply (proj1 (Prop_Shipped.inStrs_In _ _)); vm_compute; reflexivity|]. intros X. apply (proj2 (Prop_Shipped.inStrs_In _ _)) in X. revert X. vm_compute. discriminate.
Qed.
(** Longer words that begin like the listed word can lose pronunciations. *)
Theorem C110_longer_refuted : exists l f d l1 l2, pronounced libthai_ct (letters "ตา") None [] l /\
  GenDict (lineFor "ตา" "t_A_0@2") = Ok (Some f) /\ DictOpen (ATrie f) = Ok (d, true) /\ entry (Some d) (letters "ตา") l /\
  pronounced libthai_ct (letters "ตากลม") None [] l1 /\ pronounced libthai_ct (letters "ตากลม") (Some d) [] l2 /\
  In takLom l1 /\ ~ In takLom l2.
Proof. exact C110_lemma3. Qed.
Print Assumptions C110_longer_refuted.
(** "ตากลม" with the line that lists its seven pronunciations. *)
Definition takCodes : string :=
  "t_A_0@2,klom0@5;t_A_0@2,k_a_1@-205,l_om0@5;t_A_0@2,k_a_1@3,l_om0@5;t_Ak1@3,l_om0@5;t_Ak1@2,klom0@5;t_Ak1@2,k_a_1@-205,l_om0@5;t_Ak1@2,k_a_1@3,l_om0@5".
Example C110_case : let w := letters "ตากลม" in let l := prons None "ตากลม" in
  Forall (fun c => thaiLetter c = true) w /\ 2 <= length w /\ dictOKo None /\ (forall k ss, entry None k ss <-> lastEntry [] k ss) /\
  pronounced libthai_ct w None [] l /\ length l = 7 /\ sourceOf ([] ++ [(w, l)]) (lineFor "ตากลม" takCodes) /\
  exists f d l', GenDict (lineFor "ตากลม" takCodes) = Ok (Some f) /\ DictOpen (ATrie f) = Ok (d, true) /\
    pronounced libthai_ct w (Some d) [] l' /\ length l' = 7 /\ forall s, In s l' <-> In s l.
Proof.
  cbv zeta. destruct (self_listed "ตากลม" takCodes) as (P & So & f & E1 & E2 & _ & _); [letters_ok|vm_compute; reflexivity..|].
  assert (L : Forall (fun c => thaiLetter c = true) (letters "ตากลม")) by letters_ok. assert (N : 2 <= length (letters "ตากลม")) by (vm_compute; lia).
  assert (D : dictOKo None) by (intros d X; discriminate X).
  assert (H : forall k ss, entry None k ss <-> lastEntry [] k ss).
  { intros k ss. split; [intros (d & v & X & _); discriminate X|intros (l1 & l2 & X & _); destruct l1; discriminate X]. }
  assert (Q : pronounced libthai_ct (letters "ตากลม") (Some (dictFor "ตากลม" takCodes)) [] (prons (Some (dictFor "ตากลม" takCodes)) "ตากลม")) by (apply prons_ok; vm_compute; reflexivity).
  split; [exact L|]. split; [exact N|]. split; [exact D|]. split; [exact H|]. split; [exact P|]. split; [vm_compute; reflexivity|]. split; [exact So|].
  destruct (C110_source (letters "ตากลม") None [] [] _ (lineFor "ตากลม" takCodes) L N ltac:(intros x []) D (Forall_nil _) H P ltac:(vm_compute; discriminate) So ltac:(vm_compute; reflexivity))
    as (f' & d' & E1' & E2' & C).
  assert (f' = f) by congruence. subst f'. assert (d' = dictFor "ตากลม" takCodes) by congruence. subst d'.
  exists f, (dictFor "ตากลม" takCodes), (prons (Some (dictFor "ตากลม" takCodes)) "ตากลม"). split; [exact E1|]. split; [exact E2|]. split; [exact Q|].
  split; [vm_compute; reflexivity|]. exact (C [] _ ltac:(intros x []) Q).
Qed.
(** The same word with the three pronunciations it has where "ตา" is listed. *)
Definition eyes : list (list N * list SylString) := [(letters "ตา", prons None "ตา")].
Definition eyesDict : Dict := dictFor "ตา" "t_A_0@2".
Definition eyesInput : string :=
  (lineFor "ตา" "t_A_0@2" ++ lineFor "ตากลม" "t_A_0@2,klom0@5;t_A_0@2,k_a_1@-205,l_om0@5;t_A_0@2,k_a_1@3,l_om0@5")%string.
Example C110_case2 : let w := letters "ตากลม" in let l := prons (Some eyesDict) "ตากลม" in
  dictOKo (Some eyesDict) /\ Forall goodWord eyes /\ (forall k ss, entry (Some eyesDict) k ss <-> lastEntry eyes k ss) /\
  pronounced libthai_ct w (Some eyesDict) [] l /\ length l = 3 /\ sourceOf (eyes ++ [(w, l)]) eyesInput /\
  exists f d, GenDict eyesInput = Ok (Some f) /\ DictOpen (ATrie f) = Ok (d, true) /\
    forall l', pronounced libthai_ct w (Some d) [] l' -> forall s, In s l' <-> In s l.
Proof.
  cbv zeta. destruct (self_listed "ตา" "t_A_0@2") as (P0 & _ & f & E1 & E2 & OK & H); [letters_ok|vm_compute; reflexivity..|].
  fold eyesDict in OK, H. fold eyes in H.
  assert (L0 : Forall (fun c => thaiLetter c = true) (letters "ตา")) by letters_ok.
  assert (L : Forall (fun c => thaiLetter c = true) (letters "ตากลม")) by letters_ok. assert (N : 2 <= length (letters "ตากลม")) by (vm_compute; lia).
  assert (D : dictOKo (Some eyesDict)) by (intros d X; injection X as <-; exact OK).
  assert (G0 : goodWord (letters "ตา", prons None "ตา")).
  { apply (pron_good _ None [] _ L0); [vm_compute; lia|intros x []|intros d X; discriminate X|exact P0|vm_compute; discriminate]. }
  assert (G : Forall goodWord eyes) by (constructor; [exact G0|constructor]).
  assert (P : pronounced libthai_ct (letters "ตากลม") (Some eyesDict) [] (prons (Some eyesDict) "ตากลม")) by (apply prons_ok; vm_compute; reflexivity).
  assert (Gw : goodWord (letters "ตากลม", prons (Some eyesDict) "ตากลม")).
  { apply (pron_good _ (Some eyesDict) [] _ L N); [intros x []|exact D|exact P|vm_compute; discriminate]. }
  assert (So : sourceOf (eyes ++ [(letters "ตากลม", prons (Some eyesDict) "ตากลม")]) eyesInput).
  { exists [(letters "ตา", "t_A_0@2"%string); (letters "ตากลม", "t_A_0@2,klom0@5;t_A_0@2,k_a_1@-205,l_om0@5;t_A_0@2,k_a_1@3,l_om0@5"%string)].
    split; [apply (F_line (letters "ตา") "t_A_0@2"), (F_line (letters "ตากลม") "t_A_0@2,klom0@5;t_A_0@2,k_a_1@-205,l_om0@5;t_A_0@2,k_a_1@3,l_om0@5"), F_nil|].
    destruct G0 as (_ & _ & _ & F0), Gw as (_ & _ & _ & Fw).
    constructor; [|constructor; [|constructor]]; (split; [reflexivity|]); (split; [|vm_compute; lia]); cbn [fst snd].
    - apply (Prop_Shipped.rawData_of _ _ _ F0); vm_compute; reflexivity.
    - apply (Prop_Shipped.rawData_of _ _ _ Fw); vm_compute; reflexivity. }
  split; [exact D|]. split; [exact G|]. split; [exact H|]. split; [exact P|]. split; [vm_compute; reflexivity|]. split; [exact So|].
  destruct (C110_source (letters "ตากลม") (Some eyesDict) eyes [] _ eyesInput L N ltac:(intros x []) D G H P ltac:(vm_compute; discriminate) So ltac:(vm_compute; reflexivity))
    as (f' & d' & E1' & E2' & C).
  exists f', d'. split; [exact E1'|]. split; [exact E2'|]. intros l' P'. exact (C [] l' ltac:(intros x []) P').
Qed.

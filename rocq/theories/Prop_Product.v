(** Prop_Product.v - property theorems C54, C55: the pronunciations of a text
    are the combinations of the pronunciations of its words. *)
From Coq Require Import String List NArith ZArith Bool Arith Lia Sorted.
From Verif Require Import Spec Base ThUni ThCons Syl OrderProofs Lattice LatticeProofs
  Dag DagProofs PronDag PathProofs GroupProofs ListDagProofs Dict DictProofs Parser Wp
  ParserSpec ParserRules ParserActs ParserLoop ParserFacts ParserInv ParserPool ParserResult
  ParserListed ParserShift ParserLocal ParserProduct Prop_Syl Prop_Parser.
Import ListNotations.
Local Open Scope nat_scope.

(** ** C54: a word boundary divides the text into independent parts *)
Lemma C54_lemma ct a b dict brk la lb : ctype_ok ct -> dictOKo dict -> StronglySorted lt brk ->
  Forall (fun x => x <= length (a ++ b)) brk -> wordBoundary ct a b brk ->
  pronounced ct a dict (breaksBefore (length a) brk) la ->
  pronounced ct b dict (breaksAfter (length a) brk) lb ->
  exists l, pronounced ct (a ++ b) dict brk l /\
    forall s, In s l <-> exists s1 s2, In s1 la /\ In s2 lb /\ s = s1 ++ shiftEndPos (Z.of_nat (length a)) s2.
Proof. intros C D S B W. apply product; assumption. Qed.
Theorem C54_independent_parts ct a b dict brk la lb : ctype_ok ct -> dictOKo dict -> StronglySorted lt brk ->
  Forall (fun x => x <= length (a ++ b)) brk -> wordBoundary ct a b brk ->
  pronounced ct a dict (breaksBefore (length a) brk) la ->
  pronounced ct b dict (breaksAfter (length a) brk) lb ->
  exists l, pronounced ct (a ++ b) dict brk l /\
    forall s, In s l <-> exists s1 s2, In s1 la /\ In s2 lb /\ s = s1 ++ shiftEndPos (Z.of_nat (length a)) s2.
Proof. exact (C54_lemma ct a b dict brk la lb). Qed.
Print Assumptions C54_independent_parts.
Lemma notLetters_second ct b e c : nth_error b 1 = Some c -> th_wcisthcons ct c = false -> c <> 46%N ->
  1 < e -> ~ lettersOnly ct b e.
Proof.
  intros E N D L (g & Hg & Cs & H). destruct H as [(H & _)|(_ & H)]; [|lia].
  destruct (Nat.eq_dec g 1) as [->|]; [congruence|].
  destruct (Cs 1 ltac:(lia)) as (c' & E' & N'). congruence.
Qed.
(** "สมร" + "สบาย" with a break between them: two readings times two. *)
Example C54_case :
  let a := letters "สมร" in let b := letters "สบาย" in
  ctype_ok libthai_ct /\ dictOKo (Some exDict) /\ wordBoundary libthai_ct a b [3; 7] /\
  exists la lb, pronounced libthai_ct a (Some exDict) (breaksBefore (length a) [3; 7]) la /\
    pronounced libthai_ct b (Some exDict) (breaksAfter (length a) [3; 7]) lb /\ length la = 2 /\ length lb = 2.
Proof.
  cbv zeta. split; [exact libthai_ok|]. split; [exact exDict_ok|]. split.
  - constructor; try discriminate.
    + left. eexists. split; vm_compute; reflexivity.
    + left. vm_compute. auto.
    + right. intros e W. assert (e = 4).
      { refine (wEnd_fun libthai_ct (letters "สบาย") _ 0 e 4 W _). apply wordEnd_sorted.
        - vm_compute. repeat constructor.
        - constructor.
          + lia.
          + vm_compute. lia.
          + intros k H. do 4 (destruct k as [|k]; [eexists; split; vm_compute; reflexivity|]). lia.
          + intros x Hx L. vm_compute in Hx. destruct Hx as [<-|[]]. lia.
          + left. vm_compute. reflexivity. }
      subst e. intros (g & Hg & Cs & [(X & Y)|(_ & X)]); [|lia].
      do 4 (destruct g as [|g]; [vm_compute in X; congruence|]). lia.
  - eexists _, _. split; [apply (listing_pronounced _ _ "สมร"); vm_compute; reflexivity|].
    split; [apply (listing_pronounced _ _ "สบาย"); vm_compute; reflexivity|]. split; reflexivity.
Qed.

(** ** C55: a sentence is read word by word *)
(** The end of every word of the sentence. *)
Fixpoint wordEnds (off : nat) (ws : list (list N)) : list nat :=
  match ws with
  | [] => []
  | w :: ws => (off + length w) :: wordEnds (off + length w) ws
  end.
(** One pronunciation per word, one after the other. *)
Fixpoint inTurn (off : nat) (ws : list (list N)) (ss : list SylString) : SylString :=
  match ws, ss with
  | w :: ws, s :: ss => shiftEndPos (Z.of_nat off) s ++ inTurn (off + length w) ws ss
  | _, _ => []
  end.
(** Two words that can follow one another: at least one of them is Thai where
    they meet, and the second is not read as letter names, unless it stands
    after a blank or a full stop. *)
Record follows (ct : CType) (a b : list N) : Prop := {
  fo_thai : (exists c, nth_error a (length a - 1) = Some c /\ tokenChar ct c = true) \/
            (exists c, nth_error b 0 = Some c /\ tokenChar ct c = true);
  fo_dot : nth_error b 0 <> Some 46%N;
  fo_letters : (exists c, nth_error a (length a - 1) = Some c /\ (c = 0x20 \/ c = 0x2e)%N) \/
    forall e, wordEnd ct b [] 0 e -> ~ lettersOnly ct b e
}.
Fixpoint sentence (ct : CType) (ws : list (list N)) : Prop :=
  match ws with
  | [] => True
  | a :: ws' => a <> [] /\ match ws' with [] => True | b :: _ => follows ct a b end /\ sentence ct ws'
  end.

Lemma wordEnds_add k ws : forall off, map (fun x => x - k) (filter (fun x => k <? x) (wordEnds (k + off) ws)) =
  filter (fun x => 0 <? x) (wordEnds off ws).
Proof.
  induction ws as [|w ws IH]; intros off; [reflexivity|]. cbn [wordEnds filter].
  rewrite <- Nat.add_assoc. destruct (Nat.ltb_spec k (k + (off + length w))), (Nat.ltb_spec 0 (off + length w)); try lia.
  - cbn [map]. rewrite IH. f_equal. lia.
  - apply IH.
Qed.
Lemma wordEnds_add0 k ws : map (fun x => x - k) (filter (fun x => k <? x) (wordEnds k ws)) =
  filter (fun x => 0 <? x) (wordEnds 0 ws).
Proof. rewrite <- (wordEnds_add k ws 0), Nat.add_0_r. reflexivity. Qed.
Lemma wordEnds_ge ws : forall off x, Forall (fun w => w <> []) ws -> In x (wordEnds off ws) -> off < x.
Proof.
  induction ws as [|w ws IH]; intros off x F H; [destruct H|]. inversion F as [|? ? Nw F']; subst.
  assert (0 < length w) by (destruct w; [congruence|cbn; lia]).
  destruct H as [<-|H]; [lia|]. apply IH in H; [lia|exact F'].
Qed.
Lemma wordEnds_le ws : forall off x, In x (wordEnds off ws) -> x <= off + length (concat ws).
Proof.
  induction ws as [|w ws IH]; intros off x H; [destruct H|]. cbn [concat]. rewrite app_length.
  destruct H as [<-|H]; [lia|]. apply IH in H. lia.
Qed.
Lemma wordEnds_sorted ws : forall off, Forall (fun w => w <> []) ws -> StronglySorted lt (wordEnds off ws).
Proof.
  induction ws as [|w ws IH]; intros off F; cbn [wordEnds]; [constructor|]. inversion F as [|? ? Nw F']; subst.
  constructor; [apply IH; exact F'|]. rewrite Forall_forall. intros x Hx. eapply wordEnds_ge; eauto.
Qed.
Lemma sentence_nonempty ct ws : sentence ct ws -> Forall (fun w => w <> []) ws.
Proof.
  induction ws as [|w ws IH]; intros S; [constructor|]. destruct S as (A & _ & B). constructor; auto.
Qed.
Lemma filter_none {A} (f : A -> bool) l : (forall x, In x l -> f x = false) -> filter f l = [].
Proof.
  induction l as [|a l IH]; intros H; cbn; [reflexivity|]. rewrite (H a (or_introl eq_refl)).
  apply IH. intros x Hx. apply H. right; exact Hx.
Qed.
Lemma filter_all {A} (f : A -> bool) l : (forall x, In x l -> f x = true) -> filter f l = l.
Proof.
  induction l as [|a l IH]; intros H; cbn; [reflexivity|]. rewrite (H a (or_introl eq_refl)).
  f_equal. apply IH. intros x Hx. apply H. right; exact Hx.
Qed.

(** Only the next break after each position matters. *)
Lemma parse_breaks ct fuel w dict brk brk' : (forall p, p < length w -> nextBrk (length w) p brk = nextBrk (length w) p brk') ->
  ParseU16F ct fuel w dict brk = ParseU16F ct fuel w dict brk'.
Proof.
  intros H.
  assert (G : forall s, skipGap ct w brk s = skipGap ct w brk' s).
  { intros s. rewrite !skipGap_act. unfold gapAct.
    set (p := if sPos s <? _ then _ else _). destruct (Nat.ltb_spec p (length w)) as [L|L]; [|reflexivity].
    unfold NextWordStop. rewrite (H p L). reflexivity. }
  unfold ParseU16F. rewrite G. apply bind_ext. intros s. generalize (poolAdd [] s) as pool, (@dagEmpty Syl) as acc.
  induction fuel as [|fuel IH]; intros pool acc; destruct pool as [|x pool]; try reflexivity. cbn [parseLoop].
  destruct (length w <=? sPos x); [apply IH|].
  assert (stepStates ct w dict brk x = stepStates ct w dict brk' x) as ->.
  { unfold stepStates. rewrite G. reflexivity. }
  apply bind_ext. intros l. apply IH.
Qed.
Lemma one_word ct w dict l : pronounced ct w dict [] l <-> pronounced ct w dict [length w] l.
Proof.
  assert (E : forall fuel, ParseU16F ct fuel w dict [] = ParseU16F ct fuel w dict [length w]).
  { intros fuel. apply parse_breaks. intros p L. cbn [nextBrk]. destruct (Nat.ltb_spec p (length w)); [reflexivity|lia]. }
  unfold pronounced. split; intros (fuel & d & A & B); exists fuel, d; rewrite E in * || rewrite <- E in *; auto.
Qed.
Lemma shift_inTurn k ws : forall ss off,
  shiftEndPos (Z.of_nat k) (inTurn off ws ss) = inTurn (k + off) ws ss.
Proof.
  induction ws as [|w ws IH]; intros ss off; [reflexivity|]. destruct ss as [|s ss]; [reflexivity|].
  cbn [inTurn]. unfold shiftEndPos at 1. rewrite map_app. fold (shiftEndPos (Z.of_nat k) (inTurn (off + length w) ws ss)).
  rewrite IH, Nat.add_assoc. f_equal. unfold shiftEndPos. rewrite map_map. apply map_ext.
  intros v. exact (mvSyl_add k off v).
Qed.
Lemma wordEnd_first ct b r e : b <> [] -> wordEnd' ct (b ++ concat r) (wordEnds 0 (b :: r)) 0 e -> wordEnd ct b [] 0 e.
Proof.
  intros Nb [A B C D E]. apply wordEnd_sorted; [constructor|]. cbn [wordEnds] in *.
  assert (L : 0 < length b) by (destruct b; [congruence|cbn; lia]).
  assert (e <= length b) by (apply D; [left; reflexivity|lia]).
  constructor; auto.
  - intros k Hk. destruct (C k Hk) as (c & X & Y). exists c. rewrite nth_error_app1 in X by lia. auto.
  - intros x [].
  - destruct (Nat.eq_dec e (length b)) as [->|Ne]; [auto|].
    destruct E as [E|[E|E]].
    + rewrite app_length in E. lia.
    + destruct E as [E|E]; [lia|].
      assert (length b <= e); [|lia]. clear - E. revert E. change (0 + length b) with (length b).
      generalize (length b) as m. induction r as [|w r IH]; intros m E; [destruct E|].
      destruct E as [E|E]; [lia|]. apply IH in E. lia.
    + right; right. intros (c & X & Y). apply E. exists c. rewrite nth_error_app1 by lia. auto.
Qed.
Lemma follows_boundary ct a b r : a <> [] -> b <> [] -> follows ct a b ->
  Forall (fun w => w <> []) r ->
  wordBoundary ct a (b ++ concat r) (wordEnds 0 (a :: b :: r)).
Proof.
  intros Na Nb [F1 F2 F3] Fr.
  assert (La : 0 < length a) by (destruct a; [congruence|cbn; lia]).
  assert (Lb : 0 < length b) by (destruct b; [congruence|cbn; lia]).
  assert (TA : forall c, nth_error a (length a - 1) = Some c -> nth_error (a ++ b ++ concat r) (length a - 1) = Some c).
  { intros c H. rewrite nth_error_app1 by lia. exact H. }
  assert (TB : forall c, nth_error b 0 = Some c -> nth_error (a ++ b ++ concat r) (length a) = Some c).
  { intros c H. rewrite nth_error_app2, Nat.sub_diag, nth_error_app1 by lia. exact H. }
  constructor; auto.
  - destruct b; [congruence|discriminate].
  - destruct F1 as [(c & X & Y)|(c & X & Y)]; [left|right]; exists c; auto.
  - left. left. lia.
  - rewrite nth_error_app1 by lia. exact F2.
  - destruct F3 as [(c & X & Y)|F3]; [left; right; exists c; auto|right].
    intros e W. rewrite wordEnd_sorted in W.
    + assert (EB : breaksAfter (length a) (wordEnds 0 (a :: b :: r)) = wordEnds 0 (b :: r)).
      { unfold breaksAfter. change (wordEnds 0 (a :: b :: r)) with (length a :: wordEnds (length a) (b :: r)).
        cbn [filter]. rewrite Nat.ltb_irrefl. rewrite wordEnds_add0. apply filter_all. intros x Hx. apply Nat.ltb_lt.
        eapply wordEnds_ge; [|exact Hx]. constructor; assumption. }
      rewrite EB in W. pose proof (wordEnd_first ct b r e Nb W) as Wb. specialize (F3 e Wb).
      assert (Le : e <= length b) by (destruct Wb; assumption).
      intros (g & Hg & Cs & H). apply F3. exists g. split; [exact Hg|].
      assert (Lg : g <= length b) by (destruct H as [(_ & H)|(-> & ->)]; lia). split.
      * intros i Hi. destruct (Cs i Hi) as (c & X & Y). rewrite nth_error_app1 in X by lia. eauto.
      * destruct H as [(H & L)|H]; [left|auto]. rewrite nth_error_app1 in H by lia. auto.
    + apply breaksAfter_sorted, wordEnds_sorted. repeat (constructor; try assumption).
Qed.

Lemma C55_lemma ct dict ws ls : ctype_ok ct -> dictOKo dict -> ws <> [] -> sentence ct ws ->
  Forall2 (fun w l => pronounced ct w dict [] l) ws ls ->
  exists l, pronounced ct (concat ws) dict (wordEnds 0 ws) l /\
    forall s, In s l <-> exists ss, Forall2 (@In SylString) ss ls /\ s = inTurn 0 ws ss.
Proof.
  intros C D Ne S F. revert Ne S. induction F as [|a la ws ls Ha F IH]; intros Ne S; [congruence|clear Ne].
  pose proof (sentence_nonempty ct _ S) as NE. destruct S as (Na & Fo & S).
  destruct ws as [|b r].
  - inversion F; subst. cbn [concat wordEnds]. rewrite app_nil_r. exists la. split; [apply one_word; exact Ha|].
    intros s. assert (Z0 : forall x : SylString, shiftEndPos (Z.of_nat 0) x = x).
    { intros x. unfold shiftEndPos. transitivity (map (fun v : Syl => v) x); [|apply map_id].
      apply map_ext. exact mvSyl_0. }
    split.
    + intros H. exists [s]. split; [constructor; [exact H|constructor]|].
      cbn [inTurn]. rewrite app_nil_r. symmetry. apply Z0.
    + intros (ss & H & ->). inversion H as [|x y ? ? X Y]; subst. inversion Y; subst.
      cbn [inTurn]. rewrite app_nil_r, Z0. exact X.
  - destruct (IH ltac:(discriminate) S) as (lb & Hb & Eb). clear IH.
    inversion NE as [|? ? _ NE']; subst.
    assert (La : 0 < length a) by (destruct a; [congruence|cbn; lia]).
    set (brk := wordEnds 0 (a :: b :: r)).
    assert (EA : breaksBefore (length a) brk = [length a]).
    { unfold breaksBefore, brk. change (wordEnds 0 (a :: b :: r)) with (length a :: wordEnds (length a) (b :: r)).
      cbn [filter]. rewrite Nat.leb_refl. f_equal. apply filter_none. intros x Hx. apply Nat.leb_gt.
      eapply wordEnds_ge; eauto. }
    assert (EB : breaksAfter (length a) brk = wordEnds 0 (b :: r)).
    { unfold breaksAfter, brk. change (wordEnds 0 (a :: b :: r)) with (length a :: wordEnds (length a) (b :: r)).
      cbn [filter]. rewrite Nat.ltb_irrefl. rewrite wordEnds_add0. apply filter_all. intros x Hx. apply Nat.ltb_lt.
      eapply wordEnds_ge; [|exact Hx]. exact NE'. }
    destruct (C54_lemma ct a (concat (b :: r)) dict brk la lb) as (l & P & E); auto.
    + apply wordEnds_sorted. exact NE.
    + rewrite Forall_forall. intros x Hx. apply wordEnds_le in Hx. exact Hx.
    + cbn [concat]. inversion NE'; subst. apply follows_boundary; auto.
    + rewrite EA. apply one_word. exact Ha.
    + rewrite EB. exact Hb.
    + exists l. split; [exact P|]. intros s. rewrite E. split.
      * intros (s1 & s2 & I1 & I2 & ->). apply Eb in I2. destruct I2 as (ss & I2 & ->).
        exists (s1 :: ss). split; [constructor; assumption|]. rewrite shift_inTurn, Nat.add_0_r.
        change (inTurn 0 (a :: b :: r) (s1 :: ss)) with (shiftEndPos (Z.of_nat 0) s1 ++ inTurn (length a) (b :: r) ss).
        f_equal. unfold shiftEndPos. transitivity (map (fun v : Syl => v) s1); [symmetry; apply map_id|].
        apply map_ext. intros v. symmetry. exact (mvSyl_0 v).
      * intros (ss & I & ->). inversion I as [|s1 y ss' ? I1 I2]; subst. exists s1, (inTurn 0 (b :: r) ss').
        split; [exact I1|]. split; [apply Eb; eauto|]. rewrite shift_inTurn, Nat.add_0_r.
        change (inTurn 0 (a :: b :: r) (s1 :: ss')) with (shiftEndPos (Z.of_nat 0) s1 ++ inTurn (length a) (b :: r) ss').
        f_equal. unfold shiftEndPos. transitivity (map (fun v : Syl => v) s1); [|apply map_id].
        apply map_ext. exact mvSyl_0.
Qed.
Theorem C55_word_by_word ct dict ws ls : ctype_ok ct -> dictOKo dict -> ws <> [] -> sentence ct ws ->
  Forall2 (fun w l => pronounced ct w dict [] l) ws ls ->
  exists l, pronounced ct (concat ws) dict (wordEnds 0 ws) l /\
    forall s, In s l <-> exists ss, Forall2 (@In SylString) ss ls /\ s = inTurn 0 ws ss.
Proof. exact (C55_lemma ct dict ws ls). Qed.
Print Assumptions C55_word_by_word.
(** A boolean check of the conditions, for the example. *)
Definition followsb (ct : CType) (a b : list N) : bool :=
  match nth_error a (length a - 1), nth_error b 0, nth_error b 1 with
  | Some x, Some y, z =>
      (tokenChar ct x || tokenChar ct y) && negb (y =? 46)%N &&
      ((x =? 32)%N || (x =? 46)%N || negb (th_wcisthcons ct y) ||
       match z with Some c => negb (th_wcisthcons ct c) && negb (c =? 46)%N && tokenChar ct c | None => false end)
  | _, _, _ => false
  end.
Lemma followsb_sound ct a b : followsb ct a b = true -> follows ct a b.
Proof.
  unfold followsb. destruct (nth_error a (length a - 1)) as [x|] eqn:Ex; [|discriminate].
  destruct (nth_error b 0) as [y|] eqn:Ey; [|discriminate].
  rewrite !andb_true_iff, !orb_true_iff. intros ((A & B) & H). constructor.
  - destruct A as [A|A]; [left|right]; eauto.
  - rewrite Ey. intros X. injection X as ->. discriminate.
  - destruct H as [[[H|H]|H]|H].
    + left. exists x. apply N.eqb_eq in H. auto.
    + left. exists x. apply N.eqb_eq in H. auto.
    + right. intros e _ (g & Hg & Cs & _). destruct (Cs 0 ltac:(lia)) as (c & X & Y).
      rewrite Ey in X. injection X as <-. rewrite Y in H. discriminate.
    + right. destruct (nth_error b 1) as [z|] eqn:Ez; [|discriminate].
      rewrite !andb_true_iff in H. destruct H as ((H1 & H2) & H3).
      intros e W. apply wordEnd_sorted in W; [|constructor]. apply (notLetters_second ct b e z); auto.
      * destruct (th_wcisthcons ct z); [discriminate|reflexivity].
      * intros ->. discriminate.
      * destruct W as [W1 W2 W3 W4 W5]. destruct (Nat.eq_dec e 1) as [->|]; [exfalso|lia].
        destruct W5 as [W5|[[]|W5]].
        -- rewrite W5 in Ez. assert (nth_error b (length b) = None) by (apply nth_error_None; lia). congruence.
        -- apply W5. exists z. auto.
Qed.
(** A sentence of Thai words, a blank and a foreign word; 2 x 2 x 2 readings. *)
Example C55_case :
  let ws := map letters ["สมร"; "กา"; " "; "สบาย"; " abc "; "สา"]%string in
  ws <> [] /\ sentence libthai_ct ws /\ wordEnds 0 ws = [3; 5; 6; 10; 15; 17] /\
  exists ls, Forall2 (fun w l => pronounced libthai_ct w (Some exDict) [] l) ws ls /\
    map (@length SylString) ls = [2; 2; 1; 2; 1; 1].
Proof.
  cbv zeta. split; [discriminate|]. split; [|split; [vm_compute; reflexivity|]].
  - cbn [map sentence].
    repeat match goal with
    | |- _ /\ _ => split
    | |- letters _ <> [] => vm_compute; discriminate
    | |- follows _ _ _ => apply followsb_sound; vm_compute; reflexivity
    | |- True => exact I
    end.
  - eexists. split.
    + cbn [map]. repeat (constructor; [apply listing_pronounced; vm_compute; reflexivity|]). constructor.
    + vm_compute. reflexivity.
Qed.

(** Prop_Lines.v - property C95: what a printed page tells apart. *)
From Coq Require Import String Ascii List ZArith NArith Bool Arith Lia.
From Verif Require Import Spec Base ThUni ThCons Syl OrderProofs Lattice Dag PronDag Utf UtfProofs SylOut ThaiOut Output Cli ParserSpec
  Prop_Syl Prop_Notation Prop_Output Prop_Roman Prop_ThaiSame.
Import ListNotations.
Local Open Scope string_scope.
Local Open Scope list_scope.
Local Open Scope nat_scope.

(** Two syllables that look the same: both blank, or neither and related by [R]. *)
Definition looksAs (R : Syl -> Syl -> Prop) (a b : Syl) : Prop :=
  (isBlank a /\ isBlank b) \/ (~ isBlank a /\ ~ isBlank b /\ R a b).
(** The alternatives of a group, in their order. *)
Definition groupAs (R : Syl -> Syl -> Prop) (a b : PronunFrac) : Prop :=
  Forall2 (Forall2 (looksAs R)) (alts a) (alts b).

(** ** Texts that end by themselves *)
Definition sapp := String.append.
Lemma sappA a b c : sapp (sapp a b) c = sapp a (sapp b c).
Proof. unfold sapp. induction a as [|x a IH]; cbn; congruence. Qed.
Lemma sapp0 a : sapp a "" = a.
Proof. unfold sapp. induction a as [|x a IH]; cbn; congruence. Qed.
(** [stops P r]: [r] is empty or begins with a character of [P]. *)
Definition stops (P : ascii -> Prop) (r : string) : Prop := match r with "" => True | String c _ => P c end.
Fixpoint free (P : ascii -> Prop) (s : string) : Prop := match s with "" => True | String c s' => ~ P c /\ free P s' end.
Lemma free_split P a : forall b x y, free P a -> free P b -> stops P x -> stops P y -> sapp a x = sapp b y -> a = b /\ x = y.
Proof.
  unfold sapp. induction a as [|c a IH]; intros [|d b] x y; cbn [free String.append].
  - auto.
  - intros _ (N & _) X _ E. subst x. contradiction.
  - intros (N & _) _ _ Y E. subst y. contradiction.
  - intros (_ & A) (_ & B) X Y E. injection E as -> E. destruct (IH b x y A B X Y E) as (-> & ->). auto.
Qed.
Lemma free_app P a b : free P a -> free P b -> free P (sapp a b).
Proof. unfold sapp. induction a as [|c a IH]; cbn [free String.append]; tauto. Qed.
Lemma free_or (P Q : ascii -> Prop) s : free P s -> free Q s -> free (fun c => P c \/ Q c) s.
Proof. induction s as [|c s IH]; cbn [free]; tauto. Qed.
Lemma free_imp (P Q : ascii -> Prop) s : (forall c, Q c -> P c) -> free P s -> free Q s.
Proof. intros H. induction s as [|c s IH]; cbn [free]; [auto|]. intros (A & B). split; auto. Qed.

Definition newLine : ascii := ascii_of_nat 10.
Definition quote : ascii := ascii_of_nat 34.
(** [text] writes the syllables of [W] as [f] does, with [R] telling which look
    alike; no text has a blank, a line end, a quote or the delimiter [d]. *)
Record Faithful (f : Syl -> Res string) (text : Syl -> string) (d : ascii) (W : Syl -> Prop) (R : Syl -> Syl -> Prop) : Prop := {
  fa_text : forall v, W v -> f v = Ok (text v);
  fa_blank : forall v, isBlank v -> f v = Ok " ";
  fa_spoken : forall v, W v -> ~ isBlank v;
  fa_ne : forall v, W v -> text v <> "";
  fa_clean : forall v, W v -> free (fun c => c = " "%char \/ c = d \/ c = newLine \/ c = quote) (text v);
  fa_same : forall a b, W a -> W b -> (text a = text b <-> R a b) }.

Section Faithful.
Variables (f : Syl -> Res string) (text : Syl -> string) (d : ascii) (W : Syl -> Prop) (R : Syl -> Syl -> Prop).
Hypothesis F : Faithful f text d W R.
Hypothesis Dn : d <> newLine.
Hypothesis Dq : d <> quote.
Definition okSyl (v : Syl) : Prop := W v \/ isBlank v.
(** No blanks if they look like the delimiter. *)
Definition okLine (s : SylString) : Prop := Forall okSyl s /\ (d = " "%char -> Forall W s).
Lemma okLine_cons v s : okLine (v :: s) -> okSyl v /\ (d = " "%char -> W v) /\ okLine s.
Proof.
  intros (A & B). inversion A; subst. split; [assumption|]. split; [intros E; specialize (B E); inversion B; assumption|].
  split; [assumption|]. intros E. specialize (B E). inversion B; assumption.
Qed.
Fixpoint lineText (b : bool) (s : SylString) : string :=
  match s with
  | [] => ""
  | v :: s' => if syl_eqb v Blank then String " " (lineText true s')
               else sapp (if b then "" else String d "") (sapp (text v) (lineText false s'))
  end.
Lemma line_text b s : Forall okSyl s -> delimLoop f d b s = Ok (lineText b s).
Proof.
  intros H. revert b. induction H as [|v s V H IH]; intros b; [reflexivity|]. cbn [delimLoop lineText].
  destruct (syl_eqb v Blank) eqn:E; [rewrite IH; reflexivity|].
  destruct V as [V|V]; [|apply blank_iff in V; congruence].
  rewrite (fa_text _ _ _ _ _ F v V), IH. reflexivity.
Qed.
Lemma line_stop s : Forall okSyl s -> stops (fun c => c = " "%char \/ c = d) (lineText false s).
Proof. destruct 1 as [|v s V H]; cbn [lineText]; [exact I|]. destruct (syl_eqb v Blank); cbn; auto. Qed.
Lemma text_first v : W v -> exists c r, text v = String c r /\ c <> " "%char /\ c <> d.
Proof.
  intros H. pose proof (fa_ne _ _ _ _ _ F v H). pose proof (fa_clean _ _ _ _ _ F v H) as C. destruct (text v) as [|c r]; [congruence|].
  exists c, r. cbn [free] in C. split; [reflexivity|]. split; intros E; apply C; auto.
Qed.
Lemma text_free v : W v -> free (fun c => c = " "%char \/ c = d) (text v).
Proof. intros H. apply (free_imp _ _ _ (fun c (E : c = " "%char \/ c = d) => match E with or_introl x => or_introl x | or_intror x => or_intror (or_introl x) end) (fa_clean _ _ _ _ _ F v H)). Qed.
Lemma line_inj s : forall b s', okLine s -> okLine s' -> lineText b s = lineText b s' -> Forall2 (looksAs R) s s'.
Proof.
  induction s as [|v s IH]; intros b s' S S'.
  - destruct s' as [|v' s']; [constructor|]. cbn [lineText]. destruct (okLine_cons _ _ S') as (V & _ & _). intros E.
    destruct (syl_eqb v' Blank) eqn:B; [discriminate|]. destruct V as [V|V]; [|apply blank_iff in V; congruence].
    destruct (text_first v' V) as (c & r & T & _). rewrite T in E. destruct b; discriminate.
  - destruct (okLine_cons _ _ S) as (V & V0 & S1). destruct s' as [|v' s'].
    { cbn [lineText]. intros E. destruct (syl_eqb v Blank) eqn:B; [discriminate|].
      destruct V as [V|V]; [|apply blank_iff in V; congruence].
      destruct (text_first v V) as (c & r & T & _). rewrite T in E. destruct b; discriminate. }
    destruct (okLine_cons _ _ S') as (V' & V0' & S1'). cbn [lineText].
    destruct (syl_eqb v Blank) eqn:B, (syl_eqb v' Blank) eqn:B'; intros E.
    + injection E as E. constructor; [|eapply IH; eauto]. left. split; apply blank_iff; assumption.
    + exfalso. destruct V' as [V'|V']; [|apply blank_iff in V'; congruence].
      destruct (text_first v' V') as (c & r & T & C1 & C2). rewrite T in E. destruct b; cbn in E; injection E; intros; [congruence|].
      subst. apply blank_iff in B. apply (fa_spoken _ _ _ _ _ F v); auto.
    + exfalso. destruct V as [V|V]; [|apply blank_iff in V; congruence].
      destruct (text_first v V) as (c & r & T & C1 & C2). rewrite T in E. destruct b; cbn in E; injection E; intros; [congruence|].
      subst. apply blank_iff in B'. apply (fa_spoken _ _ _ _ _ F v'); auto.
    + destruct V as [V|V]; [|apply blank_iff in V; congruence]. destruct V' as [V'|V']; [|apply blank_iff in V'; congruence].
      assert (E1 : sapp (text v) (lineText false s) = sapp (text v') (lineText false s')).
      { destruct b; [exact E|]. cbn in E. injection E. auto. }
      apply (free_split (fun c => c = " "%char \/ c = d)) in E1; auto using text_free, line_stop.
      2: apply line_stop, S1. 2: apply line_stop, S1'.
      destruct E1 as (E1 & E2). constructor; [|eapply IH; eauto]. right.
      split; [apply (fa_spoken _ _ _ _ _ F); exact V|]. split; [apply (fa_spoken _ _ _ _ _ F); exact V'|].
      apply (fa_same _ _ _ _ _ F); auto.
Qed.
Lemma line_same s s' : Forall okSyl s -> Forall okSyl s' -> Forall2 (looksAs R) s s' -> forall b, lineText b s = lineText b s'.
Proof.
  intros S S' H. induction H as [|v v' s s' L H IH]; intros b; [reflexivity|]. inversion S; inversion S'; subst. cbn [lineText].
  destruct L as [(L1 & L2)|(L1 & L2 & L3)].
  - apply blank_iff in L1, L2. rewrite L1, L2, IH by assumption. reflexivity.
  - destruct (syl_eqb v Blank) eqn:B; [apply blank_iff in B; contradiction|].
    destruct (syl_eqb v' Blank) eqn:B'; [apply blank_iff in B'; contradiction|].
    rewrite IH by assumption. replace (text v) with (text v'); [reflexivity|]. symmetry.
    apply (fa_same _ _ _ _ _ F); [| |exact L3]; unfold okSyl in *; tauto.
Qed.
Lemma line_free b s : Forall okSyl s -> free (fun c => c = newLine) (lineText b s).
Proof.
  intros H. revert b. induction H as [|v s V H IH]; intros b; [exact I|]. cbn [lineText].
  destruct (syl_eqb v Blank) eqn:B; [split; [discriminate|apply IH]|].
  destruct V as [V|V]; [|apply blank_iff in V; congruence].
  apply free_app; [destruct b; cbn; auto|]. apply free_app; [|apply IH].
  apply (free_imp _ _ _ (fun c (E : c = newLine) => or_intror (or_intror (or_introl E))) (fa_clean _ _ _ _ _ F v V)).
Qed.
(** *** Pages of lines *)
Definition pageText (l : list SylString) : string := fold_right (fun s r => sapp (lineText true s) (String newLine r)) "" l.
Lemma page_text l : Forall (Forall okSyl) l -> delimOutputList f d l = Ok (pageText l).
Proof.
  intros H. unfold delimOutputList.
  assert (M : mapM (delimOutputStr f d) l = Ok (map (lineText true) l)).
  { induction H as [|s l S H IH]; [reflexivity|]. cbn [mapM map]. unfold delimOutputStr at 1. rewrite line_text by exact S. cbn [bind]. rewrite IH. reflexivity. }
  rewrite M. cbn [bind]. f_equal. clear. induction l as [|s l IH]; [reflexivity|]. cbn [map pageText fold_right].
  fold (pageText l). rewrite <- IH. clear IH.
  set (x := map (fun x => (x ++ nl)%string) (map (lineText true) l)).
  assert (C : forall a (y : list string), String.concat "" (a :: y) = (a ++ String.concat "" y)%string).
  { intros a [|z y]; [symmetry; apply sapp0|reflexivity]. }
  rewrite C. change nl with (String newLine ""). change String.append with sapp. rewrite sappA. reflexivity.
Qed.
Lemma page_iff l l' : Forall okLine l -> Forall okLine l' ->
  (delimOutputList f d l = delimOutputList f d l' <-> Forall2 (Forall2 (looksAs R)) l l').
Proof.
  intros L L'. assert (K : forall l, Forall okLine l -> Forall (Forall okSyl) l) by (intros x; apply Forall_impl; intros ? (X & _); exact X).
  rewrite !page_text by auto. split.
  - intros E. injection E as E. revert l' L' E. induction L as [|s l S L IH]; intros l' L' E.
    + destruct L' as [|s' l' S' L']; [constructor|]. cbn [pageText fold_right] in E. destruct (lineText true s'); discriminate.
    + destruct L' as [|s' l' S' L']; cbn [pageText fold_right] in E; [destruct (lineText true s); discriminate|].
      apply (free_split (fun c => c = newLine)) in E; [|apply line_free, S|apply line_free, S'|reflexivity|reflexivity].
      destruct E as (E1 & E2). injection E2 as E2. constructor; [|apply IH; assumption]. apply (line_inj s true s' S S' E1).
  - intros H. f_equal. apply K in L, L'. induction H as [|s s' l l' X H IH]; [reflexivity|]. inversion L; inversion L'; subst.
    cbn [pageText fold_right]. fold (pageText l) (pageText l'). rewrite IH by assumption. rewrite (line_same s s') by assumption. reflexivity.
Qed.

(** *** JSON *)
Lemma ok_eq (a b : string) : Ok a = Ok b -> a = b.
Proof. congruence. Qed.
(** Texts that end by themselves, do not begin like an end or a next element, and tell apart what [Q] does. *)
Record Closed {A} (P : A -> Prop) (t : A -> string) (Q : A -> A -> Prop) : Prop := {
  cl_inj : forall a b x y, P a -> P b -> sapp (t a) x = sapp (t b) y -> Q a b /\ x = y;
  cl_same : forall a b, P a -> P b -> Q a b -> t a = t b;
  cl_first : forall a, P a -> stops (fun c => c <> "]"%char) (t a) /\ t a <> "" }.
Lemma commas_inj {A} (P : A -> Prop) t Q : Closed P t Q -> forall l l' x y, Forall P l -> Forall P l' ->
  sapp (fold_right (fun a r => sapp "," (sapp (t a) r)) "]" l) x = sapp (fold_right (fun a r => sapp "," (sapp (t a) r)) "]" l') y ->
  Forall2 Q l l' /\ x = y.
Proof.
  intros C l l' x y L. revert l'. induction L as [|a l Pa L IH]; intros l' L' E.
  - destruct L' as [|b l' Pb L']; [|discriminate]. split; [constructor|]. cbn in E. injection E. auto.
  - destruct L' as [|b l' Pb L']; [discriminate|]. cbn [fold_right] in E. unfold sapp at 2 6 in E. cbn [String.append] in E.
    unfold sapp at 1 in E. cbn [String.append] in E. fold sapp in E.
    injection E as E. change String.append with sapp in E. rewrite !sappA in E.
    apply (cl_inj _ _ _ C) in E; [|exact Pa|exact Pb]. destruct E as (E1 & E2). destruct (IH l' L' E2). auto.
Qed.
Lemma bracket_fold (l : list string) : bracket l = match l with [] => "[]" | a :: l' => sapp "[" (sapp a (fold_right (fun a r => sapp "," (sapp a r)) "]" l')) end.
Proof.
  unfold bracket. destruct l as [|a l]; [reflexivity|]. change String.append with sapp. f_equal. revert a.
  induction l as [|b l IH]; intros a; [reflexivity|]. cbn [fold_right].
  change (String.concat "," (a :: b :: l)) with (sapp a (sapp "," (String.concat "," (b :: l)))).
  rewrite !sappA. f_equal. f_equal. apply IH.
Qed.
Lemma fold_map {A} (t : A -> string) l : fold_right (fun a r => sapp "," (sapp a r)) "]" (map t l) = fold_right (fun a r => sapp "," (sapp (t a) r)) "]" l.
Proof. induction l as [|a l IH]; [reflexivity|]. cbn [map fold_right]. rewrite IH. reflexivity. Qed.
Lemma bracket_closed {A} (P : A -> Prop) t Q : Closed P t Q -> Closed (Forall P) (fun l => bracket (map t l)) (Forall2 Q).
Proof.
  intros C. split.
  - intros a b x y Pa Pb E. rewrite !bracket_fold in E.
    destruct Pa as [|u a Pu Pa], Pb as [|v b Pv Pb]; cbn [map] in E.
    + split; [constructor|]. cbn in E. injection E. auto.
    + exfalso. destruct (cl_first _ _ _ C v Pv) as (N & N'). destruct (t v) as [|c r]; [congruence|]. cbn in E, N. injection E as E _. congruence.
    + exfalso. destruct (cl_first _ _ _ C u Pu) as (N & N'). destruct (t u) as [|c r]; [congruence|]. cbn in E, N. injection E as E _. congruence.
    + rewrite !fold_map in E. rewrite !sappA in E. cbn in E. injection E as E. change String.append with sapp in E. rewrite ?sappA in E.
      apply (cl_inj _ _ _ C) in E; [|exact Pu|exact Pv]. destruct E as (E1 & E2). apply (commas_inj P t Q C) in E2; [|exact Pa|exact Pb].
      destruct E2. auto.
  - intros a b Pa Pb H. f_equal. induction H as [|u v a b H1 H2 IH]; [reflexivity|]. inversion Pa; inversion Pb; subst.
    cbn [map]. rewrite IH by assumption. f_equal. apply (cl_same _ _ _ C); assumption.
  - intros a _. split; discriminate.
Qed.
Lemma closed_iff {A} (P : A -> Prop) t Q : Closed P t Q -> forall a b, P a -> P b -> (t a = t b <-> Q a b).
Proof.
  intros C a b Pa Pb. split; [|apply (cl_same _ _ _ C); assumption]. intros E.
  apply (cl_inj _ _ _ C a b "" ""); auto. rewrite E. reflexivity.
Qed.

Definition sylText (v : Syl) : string := if syl_eqb v Blank then " " else text v.
Definition quoted (v : Syl) : string := sapp dquote (sapp (sylText v) dquote).
Lemma syl_text v : okSyl v -> f v = Ok (sylText v).
Proof.
  unfold sylText. intros [V|V].
  - destruct (syl_eqb v Blank) eqn:B; [|apply (fa_text _ _ _ _ _ F); exact V].
    apply blank_iff in B. contradiction (fa_spoken _ _ _ _ _ F v V B).
  - rewrite (fa_blank _ _ _ _ _ F v V). apply blank_iff in V. rewrite V. reflexivity.
Qed.
Lemma syl_free v : okSyl v -> free (fun c => c = quote) (sylText v).
Proof.
  unfold sylText. intros V. destruct (syl_eqb v Blank) eqn:B; [split; [discriminate|exact I]|].
  destruct V as [V|V]; [|apply blank_iff in V; congruence].
  apply (free_imp _ _ _ (fun c (E : c = quote) => or_intror (or_intror (or_intror E))) (fa_clean _ _ _ _ _ F v V)).
Qed.
Lemma syl_looks a b : okSyl a -> okSyl b -> (sylText a = sylText b <-> looksAs R a b).
Proof.
  intros A B. unfold sylText. destruct (syl_eqb a Blank) eqn:Ea, (syl_eqb b Blank) eqn:Eb; unfold looksAs; rewrite <- !blank_iff, Ea, Eb.
  - intuition auto.
  - destruct B as [B|B]; [|apply blank_iff in B; congruence]. destruct (text_first b B) as (c & r & -> & N & _).
    split; [intros E; injection E as E; congruence|intuition congruence].
  - destruct A as [A|A]; [|apply blank_iff in A; congruence]. destruct (text_first a A) as (c & r & -> & N & _).
    split; [intros E; injection E as E; congruence|intuition congruence].
  - destruct A as [A|A]; [|apply blank_iff in A; congruence]. destruct B as [B|B]; [|apply blank_iff in B; congruence].
    rewrite (fa_same _ _ _ _ _ F a b A B). intuition congruence.
Qed.
Lemma quoted_closed : Closed okSyl quoted (looksAs R).
Proof.
  split.
  - intros a b x y A B E. unfold quoted in E. rewrite !sappA in E. cbn in E. injection E as E. change String.append with sapp in E.
    rewrite ?sappA in E. apply (free_split (fun c => c = quote)) in E; [|apply syl_free, A|apply syl_free, B|reflexivity|reflexivity].
    destruct E as (E1 & E2). split; [apply syl_looks; assumption|]. cbn in E2. injection E2. auto.
  - intros a b A B H. unfold quoted. apply syl_looks in H; auto. rewrite H. reflexivity.
  - intros a _. split; discriminate.
Qed.
Definition okItem (s : SylString) : Prop := s <> [] /\ Forall okSyl s.
Definition itemText (s : SylString) : string := bracket (map quoted s).
Lemma item_closed : Closed okItem itemText (Forall2 (looksAs R)).
Proof.
  pose proof (bracket_closed _ _ _ quoted_closed) as C. split.
  - intros a b x y (_ & A) (_ & B). apply (cl_inj _ _ _ C); assumption.
  - intros a b (_ & A) (_ & B). apply (cl_same _ _ _ C); assumption.
  - intros a (_ & A). apply (cl_first _ _ _ C); assumption.
Qed.
Lemma mapM_text s : Forall okSyl s -> mapM f s = Ok (map sylText s).
Proof. induction 1 as [|v s V H IH]; [reflexivity|]. cbn [mapM map]. rewrite syl_text by exact V. cbn [bind]. rewrite IH. reflexivity. Qed.
Lemma concat0 (g : string -> string) l : String.concat "" (map g l) = fold_right (fun a r => sapp (g a) r) "" l.
Proof.
  induction l as [|a l IH]; [reflexivity|]. cbn [map fold_right]. rewrite <- IH. destruct (map g l); [symmetry; apply sapp0|reflexivity].
Qed.
Lemma item_text s : okItem s -> jsonOutputStr f s = Ok (itemText s).
Proof.
  intros (N & H). destruct H as [|v s V H]; [congruence|]. unfold jsonOutputStr. rewrite (syl_text v V), mapM_text by exact H. cbn [bind].
  f_equal. unfold itemText. cbn [map]. rewrite bracket_fold, concat0. change String.append with sapp. unfold quoted at 1. rewrite !sappA.
  do 4 f_equal. clear. induction s as [|v s IH]; [reflexivity|]. cbn [map fold_right]. unfold quoted at 1. rewrite !sappA, IH. reflexivity.
Qed.
Lemma items_text l : Forall okItem l -> mapM (jsonOutputStr f) l = Ok (map itemText l).
Proof. induction 1 as [|v s V H IH]; [reflexivity|]. cbn [mapM map]. rewrite item_text by exact V. cbn [bind]. rewrite IH. reflexivity. Qed.
Lemma json_text l : l <> [] -> Forall okItem l -> jsonOutputList f l = Ok (bracket (map itemText l)).
Proof.
  intros N H. destruct H as [|v s V H]; [congruence|]. unfold jsonOutputList. rewrite (item_text v V), items_text by exact H. cbn [bind].
  f_equal. cbn [map]. rewrite bracket_fold, concat0. change String.append with sapp. do 2 f_equal.
  clear. generalize (map itemText s) as l. induction l as [|a l IH]; [reflexivity|]. cbn [fold_right]. rewrite !sappA, IH. reflexivity.
Qed.
Lemma json_iff l l' : l <> [] -> l' <> [] -> Forall okItem l -> Forall okItem l' ->
  (jsonOutputList f l = jsonOutputList f l' <-> Forall2 (Forall2 (looksAs R)) l l').
Proof.
  intros N N' L L'. rewrite !json_text by assumption. rewrite <- (closed_iff _ _ _ (bracket_closed _ _ _ item_closed) l l' L L').
  split; [apply ok_eq|congruence].
Qed.
Definition okFrac (x : PronunFrac) : Prop := Forall okItem (alts x).
Definition fracText (x : PronunFrac) : string := bracket (map itemText (alts x)).
Lemma frac_closed : Closed okFrac fracText (groupAs R).
Proof.
  pose proof (bracket_closed _ _ _ item_closed) as C. split; intros a; intros; [apply (cl_inj _ _ _ C)|apply (cl_same _ _ _ C)|apply (cl_first _ _ _ C)]; assumption.
Qed.
Lemma latt_text l : Forall (Forall okFrac) l -> gjsonOutputLatt f l = Ok (bracket (map (fun c => bracket (map fracText c)) l)).
Proof.
  intros H. unfold gjsonOutputLatt.
  assert (M : mapM (gjsonOutputChain f) l = Ok (map (fun c => bracket (map fracText c)) l)).
  { induction H as [|c l C H IH]; [reflexivity|]. cbn [mapM map]. unfold gjsonOutputChain at 1.
    assert (M : mapM (gjsonOutputFrac f) c = Ok (map fracText c)).
    { clear IH. induction C as [|x c X C IH]; [reflexivity|]. cbn [mapM map]. unfold gjsonOutputFrac at 1. rewrite items_text by exact X. cbn [bind]. rewrite IH. reflexivity. }
    rewrite M. cbn [bind]. rewrite IH. reflexivity. }
  rewrite M. reflexivity.
Qed.
Lemma latt_iff l l' : Forall (Forall okFrac) l -> Forall (Forall okFrac) l' ->
  (gjsonOutputLatt f l = gjsonOutputLatt f l' <-> Forall2 (Forall2 (groupAs R)) l l').
Proof.
  intros L L'. rewrite !latt_text by assumption.
  rewrite <- (closed_iff _ _ _ (bracket_closed _ _ _ (bracket_closed _ _ _ frac_closed)) l l' L L').
  split; [apply ok_eq|congruence].
Qed.
End Faithful.

(** ** The five notations *)
Fixpoint allChars (g : ascii -> bool) (s : string) : bool := match s with "" => true | String c s' => g c && allChars g s' end.
Lemma allChars_app g a b : allChars g (a ++ b)%string = (allChars g a && allChars g b)%bool.
Proof. induction a as [|c a IH]; cbn [String.append allChars]; [reflexivity|]. rewrite IH, andb_assoc. reflexivity. Qed.
Lemma allChars_free g (P : ascii -> Prop) s : (forall c, P c -> g c = false) -> allChars g s = true -> free P s.
Proof.
  intros H. induction s as [|c s IH]; cbn [allChars free]; [auto|]. rewrite andb_true_iff. intros (A & B).
  split; [|auto]. intros X. rewrite (H c X) in A. discriminate.
Qed.
Lemma assoc_chars {K} (eqb : K -> K -> bool) g tbl k t : forallb (fun x => allChars g (snd x)) tbl = true ->
  assocAt eqb tbl k = Ok t -> allChars g t = true.
Proof.
  induction tbl as [|[k' t'] tbl IH]; cbn [forallb snd assocAt]; [discriminate|]. rewrite andb_true_iff. intros (A & B).
  destruct (eqb k k'); [intros E; injection E as <-; exact A|auto].
Qed.
Definition badChars (d c : ascii) : Prop := c = " "%char \/ c = d \/ c = newLine \/ c = quote.
Definition okChar (d c : ascii) : bool := negb (existsb (Ascii.eqb c) [" "%char; d; newLine; quote]).
Lemma okChar_bad d c : badChars d c -> okChar d c = false.
Proof.
  intros H. unfold okChar. apply negb_false_iff. apply existsb_exists. exists c. split; [|apply Ascii.eqb_refl].
  cbn [In]. destruct H as [H|[H|[H|H]]]; subst; auto.
Qed.

Lemma faithful_of f d (W : Syl -> Prop) R : (forall v, W v -> writes f v) -> (forall v, isBlank v -> f v = Ok " ") -> (forall v, W v -> ~ isBlank v) ->
  (forall v t, W v -> f v = Ok t -> allChars (okChar d) t = true) -> (forall a b, W a -> W b -> (f a = f b <-> R a b)) ->
  Faithful f (textOf f) d W R.
Proof.
  intros H1 H2 H3 H4 H5. unfold textOf. split; auto.
  - intros v V. destruct (H1 v V) as (t & -> & _). reflexivity.
  - intros v V. destruct (H1 v V) as (t & -> & N). exact N.
  - intros v V. pose proof (H4 v) as K. destruct (H1 v V) as (t & E & _). rewrite E in *. specialize (K t V eq_refl).
    exact (allChars_free _ _ _ (okChar_bad d) K).
  - intros a b A B. rewrite <- (H5 a b A B). destruct (H1 a A) as (t & -> & _), (H1 b B) as (u & -> & _). split; congruence.
Qed.
Lemma wf_spoken v : wellFormed v -> ~ isBlank v.
Proof. intros W. rewrite <- blank_iff, wf_blank by exact W. discriminate. Qed.
Lemma blank_eqb v : isBlank v -> syl_eqb v Blank = true.
Proof. apply blank_iff. Qed.
Lemma dec_chars g fuel : (forall x, (0 <= x < 10)%Z -> g (digitChar x) = true) -> forall n acc, allChars g acc = true -> allChars g (decLoop fuel n acc) = true.
Proof.
  intros G. induction fuel as [|k IH]; intros n acc A; [exact A|]. cbn [decLoop]. cbv zeta.
  assert (A' : allChars g (String (digitChar (n mod 10)) acc) = true) by (cbn [allChars]; rewrite A, G by (apply Z.mod_pos_bound; lia); reflexivity).
  destruct (n <? 10)%Z; auto.
Qed.
Lemma raw_chars z : allChars (okChar ",") (to_string z) = true.
Proof.
  assert (G : forall x, (0 <= x < 10)%Z -> okChar "," (digitChar x) = true).
  { intros x X. assert (K : In x [0; 1; 2; 3; 4; 5; 6; 7; 8; 9]%Z) by (cbn; lia).
    cbn [In] in K. repeat (destruct K as [<-|K]; [reflexivity|]). contradiction. }
  unfold to_string. destruct (z <? 0)%Z; [rewrite allChars_app|]; rewrite dec_chars; auto.
Qed.
Ltac parts H := repeat match type of H with bind ?m _ = Ok _ => let E := fresh "E" in destruct m eqn:E; cbn [bind] in H; try discriminate H end;
  injection H as <-; rewrite !allChars_app, !andb_true_iff;
  repeat match goal with E : assocAt _ _ _ = Ok _ |- context [allChars ?g _] => apply (assoc_chars _ g) in E; [|vm_compute; reflexivity] end;
  repeat split; auto using raw_chars.
Lemma pho_faithful : Faithful PhoneticOutput (textOf PhoneticOutput) " " wellFormed soundsAs.
Proof.
  apply faithful_of; [exact pho_total| |exact wf_spoken| |exact C16_phonetic_unambiguous].
  - intros v V. unfold PhoneticOutput. rewrite blank_eqb by exact V. reflexivity.
  - intros v t W H. unfold PhoneticOutput in H. rewrite wf_blank, wf_lit in H by exact W. parts H.
Qed.
Definition soundexSame (a b : Syl) : Prop :=
  sameInitial (iCons1 a) (iCons1 b) /\ sameQuality (vowel a) (vowel b) /\ eCons a = eCons b.
Lemma sdx_faithful : Faithful SoundexOutput (textOf SoundexOutput) "-" wellFormed soundexSame.
Proof.
  apply faithful_of; [exact sdx_total| |exact wf_spoken| |exact C17_soundex_exact].
  - intros v V. unfold SoundexOutput. rewrite blank_eqb by exact V. reflexivity.
  - intros v t W H. unfold SoundexOutput in H. rewrite wf_blank, wf_lit in H by exact W. parts H.
Qed.
Lemma rom_faithful : Faithful RomanSylOutput (textOf RomanSylOutput) "-" wellFormed romanSame.
Proof.
  apply faithful_of; [exact rom_total| |exact wf_spoken| |exact C60_roman_merges].
  - intros v V. unfold RomanSylOutput. rewrite blank_eqb by exact V. reflexivity.
  - intros v t W H. unfold RomanSylOutput in H. rewrite wf_blank, wf_lit in H by exact W. parts H.
Qed.
Definition rawOk (v : Syl) : Prop := wellFormed v /\ intRange (endPos v).
Lemma raw_faithful : Faithful RawOutput (textOf RawOutput) "," rawOk eq.
Proof.
  apply faithful_of.
  - intros v (W & _). apply raw_total, W.
  - intros v V. unfold RawOutput. rewrite blank_eqb by exact V. reflexivity.
  - intros v (W & _). apply wf_spoken, W.
  - intros v t (W & _) H. unfold RawOutput in H. rewrite wf_blank, wf_lit in H by exact W. parts H.
    change (allChars (okChar ",") (to_string (endPos v)) = true). apply raw_chars.
  - intros a b (A & A') (B & B'). split; [|congruence]. intros E.
    destruct (C05_raw_round_trip a 0 A A') as (t & T & D), (C05_raw_round_trip b 0 B B') as (t' & T' & D'). congruence.
Qed.
Lemma thai_chars u : forallb thaiLetter u = true -> allChars (okChar "-") (utf8Encode u) = true.
Proof.
  assert (S : forallb (fun c => allChars (okChar "-") (utf8Encode [c])) (map N.of_nat (seq 0xe01 91)) = true) by (vm_compute; reflexivity).
  rewrite forallb_forall in S. induction u as [|c u IH]; [reflexivity|]. cbn [forallb]. rewrite andb_true_iff. intros (A & B).
  assert (E : utf8Encode (c :: u) = (utf8Encode [c] ++ utf8Encode u)%string).
  { destruct (spells_app (utf8Encode [c]) (utf8Encode u) [c] u) as (E & _); [split; [reflexivity|cbn; rewrite A; reflexivity]|split; [reflexivity|exact B]|].
    symmetry. exact E. }
  rewrite E, allChars_app, (IH B), (S c); [reflexivity|]. unfold thaiLetter in A. rewrite andb_true_iff, !N.leb_le in A.
  apply in_map_iff. exists (N.to_nat c). split; [apply N2Nat.id|]. apply in_seq. lia.
Qed.
Lemma thai_faithful : Faithful ThaiOutput (textOf ThaiOutput) "-" wellFormed (fun a b => said a = said b).
Proof.
  apply faithful_of; [exact thai_total| |exact wf_spoken| |exact C94_thai_merges].
  - intros v V. unfold isBlank, spoken in V. destruct v as [i1 i2 w e t l p]. cbn in V.
    destruct l; cbn in V; [|discriminate]. injection V as -> -> -> -> ->. reflexivity.
  - intros v t W H. destruct (thai_parts v W) as (ini & mk & t' & _ & _ & _ & E & (S & S') & _). assert (t = t') by congruence. subst t. rewrite S.
    apply thai_chars. exact S'.
Qed.

(** ** C95 *)
Definition orBlank (W : Syl -> Prop) (v : Syl) : Prop := W v \/ isBlank v.
(** The notations with their delimiters (thpronun/thpronun.cxx:87-165), the
    syllables they write and what they merge; the romanization has no delimiter. *)
Inductive Written : (Syl -> Res string) -> ascii -> (Syl -> Prop) -> (Syl -> Syl -> Prop) -> Prop :=
| Wr_thai : Written ThaiOutput "-" wellFormed (fun a b => said a = said b)
| Wr_soundex : Written SoundexOutput "-" wellFormed soundexSame
| Wr_raw : Written RawOutput "," rawOk eq
| Wr_phonetic : Written PhoneticOutput " " wellFormed soundsAs.
Lemma written_faithful f d W R : Written f d W R -> Faithful f (textOf f) d W R /\ d <> newLine /\ d <> quote.
Proof.
  intros [| | |]; (split; [first [exact thai_faithful|exact sdx_faithful|exact raw_faithful|exact pho_faithful]|]);
    split; discriminate.
Qed.
Lemma C95_lemma f d W R l l' : Written f d W R ->
  Forall (Forall (if Ascii.eqb d " " then W else orBlank W)) l -> Forall (Forall (if Ascii.eqb d " " then W else orBlank W)) l' ->
  (delimOutputList f d l = delimOutputList f d l' <-> Forall2 (Forall2 (looksAs R)) l l').
Proof.
  intros H L L'. destruct (written_faithful f d W R H) as (F & N & Q). apply (page_iff f (textOf f) d W R F N).
  - revert L. apply Forall_impl. intros s S. unfold okLine, okSyl. destruct (Ascii.eqb_spec d " ").
    + split; [|auto]. revert S. apply Forall_impl. auto.
    + split; [exact S|intros E; contradiction].
  - revert L'. apply Forall_impl. intros s S. unfold okLine, okSyl. destruct (Ascii.eqb_spec d " ").
    + split; [|auto]. revert S. apply Forall_impl. auto.
    + split; [exact S|intros E; contradiction].
Qed.
Theorem C95_pages f d W R l l' : Written f d W R ->
  Forall (Forall (if Ascii.eqb d " " then W else orBlank W)) l -> Forall (Forall (if Ascii.eqb d " " then W else orBlank W)) l' ->
  (delimOutputList f d l = delimOutputList f d l' <-> Forall2 (Forall2 (looksAs R)) l l').
Proof. exact (C95_lemma f d W R l l'). Qed.
Print Assumptions C95_pages.
(** With --json the romanization belongs to them too. *)
Inductive WrittenJson : (Syl -> Res string) -> (Syl -> Prop) -> (Syl -> Syl -> Prop) -> Prop :=
| Wj_line f d W R : Written f d W R -> WrittenJson f W R
| Wj_roman : WrittenJson RomanSylOutput wellFormed romanSame.
Lemma writtenJson_faithful f W R : WrittenJson f W R -> exists d, Faithful f (textOf f) d W R.
Proof. intros [g d W' R' H|]; [exists d; apply (written_faithful g d W' R' H)|exists "-"%char; exact rom_faithful]. Qed.
Definition filled (W : Syl -> Prop) (s : SylString) : Prop := s <> [] /\ Forall (orBlank W) s.
Lemma C95_lemma2 f W R l l' : WrittenJson f W R -> l <> [] -> l' <> [] -> Forall (filled W) l -> Forall (filled W) l' ->
  (jsonOutputList f l = jsonOutputList f l' <-> Forall2 (Forall2 (looksAs R)) l l').
Proof.
  intros H N N' L L'. destruct (writtenJson_faithful f W R H) as (d & F). apply (json_iff f (textOf f) d W R F); assumption.
Qed.
Theorem C95_json f W R l l' : WrittenJson f W R -> l <> [] -> l' <> [] -> Forall (filled W) l -> Forall (filled W) l' ->
  (jsonOutputList f l = jsonOutputList f l' <-> Forall2 (Forall2 (looksAs R)) l l').
Proof. exact (C95_lemma2 f W R l l'). Qed.
Print Assumptions C95_json.
Lemma C95_lemma3 f W R l l' : WrittenJson f W R ->
  Forall (Forall (fun x => Forall (filled W) (alts x))) l -> Forall (Forall (fun x => Forall (filled W) (alts x))) l' ->
  (gjsonOutputLatt f l = gjsonOutputLatt f l' <-> Forall2 (Forall2 (groupAs R)) l l').
Proof.
  intros H L L'. destruct (writtenJson_faithful f W R H) as (d & F). apply (latt_iff f (textOf f) d W R F); assumption.
Qed.
Theorem C95_groups f W R l l' : WrittenJson f W R ->
  Forall (Forall (fun x => Forall (filled W) (alts x))) l -> Forall (Forall (fun x => Forall (filled W) (alts x))) l' ->
  (gjsonOutputLatt f l = gjsonOutputLatt f l' <-> Forall2 (Forall2 (groupAs R)) l l').
Proof. exact (C95_lemma3 f W R l l'). Qed.
Print Assumptions C95_groups.
(** What the options of the program print (with -j, with -j -g, with neither). *)
Inductive Option_ : (bool -> bool -> Out) -> (Syl -> Prop) -> (Syl -> Syl -> Prop) -> bool -> Prop :=
| O_thai : Option_ MakeThaiOutput wellFormed (fun a b => said a = said b) true
| O_soundex : Option_ MakeSoundexOutput wellFormed soundexSame true
| O_raw : Option_ MakeRawOutput rawOk eq true
| O_phonetic : Option_ MakePhoneticOutput wellFormed soundsAs true
| O_roman : Option_ MakeRomanOutput wellFormed romanSame false.
Lemma option_written mk W R lines : Option_ mk W R lines -> exists f, WrittenJson f W R /\
  (forall g, mk true g = if g then OutGroupedJson f else OutJson f) /\
  (lines = true -> forall g, exists d, mk false g = OutDelim f d /\ Written f d W R).
Proof.
  intros [| | | |]; eexists; (split; [first [exact Wj_roman|eapply Wj_line; constructor]|]; split; [intros []; reflexivity|]);
    intros L g; try discriminate L; eexists; (split; [reflexivity|constructor]).
Qed.
Lemma C95_lemma5 mk W R lines d d' l l' : Option_ mk W R lines -> DAGSylStrings d 0 = Ok l -> DAGSylStrings d' 0 = Ok l' ->
  Forall (Forall W) l -> Forall (Forall W) l' ->
  (lines = true -> forall g, outputDAG (mk false g) d = outputDAG (mk false g) d' <-> Forall2 (Forall2 R) l l') /\
  (l <> [] -> l' <> [] -> Forall (fun s => s <> []) l -> Forall (fun s => s <> []) l' ->
   outputDAG (mk true false) d = outputDAG (mk true false) d' <-> Forall2 (Forall2 R) l l') /\
  (forall fd x fd' x', fracDAG d = Ok fd -> fracLattice fd = Ok x -> fracDAG d' = Ok fd' -> fracLattice fd' = Ok x' ->
   Forall (Forall (fun y => Forall (filled W) (alts y))) x -> Forall (Forall (fun y => Forall (filled W) (alts y))) x' ->
   outputDAG (mk true true) d = outputDAG (mk true true) d' <-> Forall2 (Forall2 (groupAs R)) x x').
Proof.
  intros O E E' L L'. destruct (option_written mk W R lines O) as (f & J & Hj & Hl).
  assert (S : forall v, W v -> ~ isBlank v) by (destruct (writtenJson_faithful f W R J) as (c & F); exact (fa_spoken _ _ _ _ _ F)).
  assert (Eq : Forall2 (Forall2 (looksAs R)) l l' <-> Forall2 (Forall2 R) l l').
  { clear E E' O J Hj Hl. revert l' L'. induction L as [|s l Ls L IH]; intros l' L'.
    - split; intros H; inversion H; constructor.
    - assert (Eq1 : forall s', Forall W s' -> Forall2 (looksAs R) s s' <-> Forall2 R s s').
      { clear IH L L' l l'. induction Ls as [|v s Wv Ls IH]; intros s' Ls'.
        - split; intros H; inversion H; constructor.
        - split; intros H; inversion H as [|? v' ? s'' X Y]; subst; inversion Ls'; subst.
          + constructor; [|apply IH; assumption]. destruct X as [(X & _)|(_ & _ & X)]; [contradiction (S v Wv X)|exact X].
          + constructor; [|apply IH; assumption]. right. auto. }
      split; intros H; inversion H as [|? s' ? l'' X Y]; subst; inversion L'; subst;
        (constructor; [apply Eq1; assumption|apply IH; assumption]). }
  assert (K : forall x, Forall (Forall W) x -> Forall (Forall (orBlank W)) x).
  { intros x. apply Forall_impl. intros s. apply Forall_impl. intros v. left. assumption. }
  split; [|split].
  - intros Li g. destruct (Hl Li g) as (c & -> & Wr). cbn [outputDAG]. unfold delimOutputDAG. rewrite E, E'. cbn [bind]. rewrite <- Eq.
    apply (C95_lemma f c W R); [exact Wr| |]; (destruct (Ascii.eqb c " "); [assumption|apply K; assumption]).
  - intros N N' F F'. rewrite Hj. cbn [outputDAG]. unfold jsonOutputDAG. rewrite E, E'. cbn [bind]. rewrite <- Eq.
    apply K in L, L'. rewrite Forall_forall in L, L', F, F'. apply (C95_lemma2 f W R); try assumption;
      apply Forall_forall; intros s Is; (split; [first [apply F; exact Is|apply F'; exact Is]|first [apply L; exact Is|apply L'; exact Is]]).
  - intros fd x fd' x' A B A' B' F F'. rewrite Hj. cbn [outputDAG]. unfold gjsonOutputDAG. rewrite A, A'. cbn [bind]. rewrite B, B'. cbn [bind].
    apply (C95_lemma3 f W R); assumption.
Qed.
Theorem C95_printed mk W R lines d d' l l' : Option_ mk W R lines -> DAGSylStrings d 0 = Ok l -> DAGSylStrings d' 0 = Ok l' ->
  Forall (Forall W) l -> Forall (Forall W) l' ->
  (lines = true -> forall g, outputDAG (mk false g) d = outputDAG (mk false g) d' <-> Forall2 (Forall2 R) l l') /\
  (l <> [] -> l' <> [] -> Forall (fun s => s <> []) l -> Forall (fun s => s <> []) l' ->
   outputDAG (mk true false) d = outputDAG (mk true false) d' <-> Forall2 (Forall2 R) l l') /\
  (forall fd x fd' x', fracDAG d = Ok fd -> fracLattice fd = Ok x -> fracDAG d' = Ok fd' -> fracLattice fd' = Ok x' ->
   Forall (Forall (fun y => Forall (filled W) (alts y))) x -> Forall (Forall (fun y => Forall (filled W) (alts y))) x' ->
   outputDAG (mk true true) d = outputDAG (mk true true) d' <-> Forall2 (Forall2 (groupAs R)) x x').
Proof. exact (C95_lemma5 mk W R lines d d' l l'). Qed.
Print Assumptions C95_printed.
(** The romanized line does not show where a syllable ends, the romanized JSON
    text does; and a blank in a phonetic line looks like the delimiter. *)
Definition takra : SylString := [SylOf TA SEC_NONE V_AA EC_NONE SAMAN 2; SylOf KA SEC_RA V_AA EC_NONE SAMAN 5].
Definition tak_ra : SylString := [SylOf TA SEC_NONE V_AA KOK EK 3; SylOf RA SEC_NONE V_AA EC_NONE SAMAN 5].
Lemma C95_lemma4 : exists s s', Forall wellFormed s /\ Forall wellFormed s' /\ romanOutputList false [s] = romanOutputList false [s'] /\
  ~ Forall2 (looksAs romanSame) s s' /\ jsonOutputList RomanSylOutput [s] <> jsonOutputList RomanSylOutput [s'].
Proof.
  exists takra, tak_ra. split; [unfold takra; repeat (apply Forall_cons; [wf|]); apply Forall_nil|].
  split; [unfold tak_ra; repeat (apply Forall_cons; [wf|]); apply Forall_nil|].
  split; [vm_compute; reflexivity|]. split; [|vm_compute; discriminate].
  intros H. inversion H as [|? ? ? ? X Y]; subst. destruct X as [(X & _)|(_ & _ & _ & _ & X)]; [|discriminate].
  apply blank_iff in X. discriminate.
Qed.
Theorem C95_roman_lines_refuted : exists s s', Forall wellFormed s /\ Forall wellFormed s' /\ romanOutputList false [s] = romanOutputList false [s'] /\
  ~ Forall2 (looksAs romanSame) s s' /\ jsonOutputList RomanSylOutput [s] <> jsonOutputList RomanSylOutput [s'].
Proof. exact C95_lemma4. Qed.
Print Assumptions C95_roman_lines_refuted.
Example C95_case : Forall (Forall (orBlank wellFormed)) [takra; [gA KA; Blank; gA NA]; []] /\
  delimOutputList ThaiOutput "-" [takra; [gA KA; Blank; gA NA]; []]
  = Ok ("ตา-กฺรา" ++ String newLine "กา นา" ++ String newLine (String newLine ""))%string /\
  delimOutputList ThaiOutput "-" [takra] <> delimOutputList ThaiOutput "-" [tak_ra] /\
  delimOutputList PhoneticOutput " " [[gA KA; Blank; gA NA]] = delimOutputList PhoneticOutput " " [[gA KA; gA NA]] /\
  ~ Forall2 (looksAs soundsAs) [gA KA; Blank; gA NA] [gA KA; gA NA].
Proof.
  split; [|split; [vm_compute; reflexivity|split; [vm_compute; discriminate|split; [vm_compute; reflexivity|]]]].
  - assert (B : isBlank Blank) by reflexivity.
    repeat first [apply Forall_nil | apply Forall_cons]; unfold orBlank; first [right; exact B|left; wf].
  - intros H. inversion H as [|? ? ? ? _ H']; subst. inversion H' as [|? ? ? ? _ H'']; subst. inversion H''.
Qed.
Example C95_printed_case : let d := pronDAGOfList [takra] in let d' := pronDAGOfList [tak_ra] in
  DAGSylStrings d 0 = Ok [takra] /\ DAGSylStrings d' 0 = Ok [tak_ra] /\ Forall (Forall wellFormed) [takra; tak_ra] /\
  (exists fd x, fracDAG d = Ok fd /\ fracLattice fd = Ok x /\ Forall (Forall (fun y => Forall (filled wellFormed) (alts y))) x) /\
  outputDAG (MakeThaiOutput false false) d <> outputDAG (MakeThaiOutput false false) d' /\
  outputDAG (MakeRomanOutput true true) d <> outputDAG (MakeRomanOutput true true) d' /\
  outputDAG (MakeRomanOutput false false) d = outputDAG (MakeRomanOutput false false) d'.
Proof.
  cbv zeta. split; [vm_compute; reflexivity|]. split; [vm_compute; reflexivity|].
  assert (W : Forall (Forall wellFormed) [takra; tak_ra]) by (repeat first [apply Forall_nil | apply Forall_cons]; wf).
  split; [exact W|]. split; [|split; [vm_compute; discriminate|split; [vm_compute; discriminate|vm_compute; reflexivity]]].
  assert (X : exists fd x, fracDAG (pronDAGOfList [takra]) = Ok fd /\ fracLattice fd = Ok x /\ map (map alts) x = [[[takra]]]).
  { eexists _, _. split; [vm_compute; reflexivity|]. split; vm_compute; reflexivity. }
  destruct X as (fd & x & A & B & C). exists fd, x. split; [exact A|]. split; [exact B|].
  destruct x as [|c [|]]; try discriminate. cbn [map] in C. injection C as C. destruct c as [|y [|]]; try discriminate. cbn [map] in C. injection C as C.
  constructor; [|constructor]. constructor; [|constructor]. rewrite C. constructor; [|constructor]. split; [discriminate|].
  inversion W; subst. revert H1. apply Forall_impl. intros v. left. assumption.
Qed.

(** Prop_Shipped.v - property C75: the words of the shipped exception lists are
    pronounced as listed. *)
From Coq Require Import List NArith ZArith Bool String Ascii Lia Arith Sorted Permutation.
From Verif Require Import Base ThUni ThCons Syl Utf Lattice Dag PronDag SylOut ThaiOut Output Dict GenDict Data Parser Cli.
From Verif Require Import Spec OrderProofs DictProofs Prop_Syl ParserSpec ParserFacts ParserInv ParserResult ParserListed ParserDict UtfProofs.
From Verif Require Import ParserProduct Prop_Parser Prop_Notation Prop_Graph Prop_Output Prop_Cli Prop_Cli2 Prop_Roman Prop_Codes Prop_Listing
  Prop_Product Prop_Sweep Grammar GrammarWord Prop_Pipeline TextGrammar TextProof Prop_Every Prop_Grammar Prop_Text Prop_Breaks Prop_Program Prop_ProgramJson Prop_ProgramEvery.
Import ListNotations.
Local Open Scope string_scope.
Local Open Scope list_scope.
Local Open Scope nat_scope.

(** ** Vocabulary *)
(** A line of the shipped lists: the word, and its pronunciations in raw
    notation. *)
Definition shippedLine (key : string) (k : list N) (strs : list SylString) : Prop :=
  exists desc, In (key ++ Data.tab ++ desc)%string except_src /\ from_bytes key = Ok k /\
    goodWord (k, strs) /\ dataOf strs desc.
(** A word or a blank, and what is said for it. *)
Inductive said : list N -> list SylString -> Prop :=
| said_word key k strs : shippedLine key k strs -> key <> "สิริกิติ์"%string -> said k strs
| said_blank : said [0x20%N] [[SylLiteral 1 [0x20%N]]].
(** No blank after a blank. *)
Fixpoint singleBlanks (ws : list (list N)) : Prop :=
  match ws with
  | [] => True
  | a :: ws' => (a = [0x20%N] -> forall b r, ws' = b :: r -> b <> [0x20%N]) /\ singleBlanks ws'
  end.

(** ** The sweep *)
Definition syl_dec (a b : Syl) : {a = b} + {a <> b}.
Proof.
  destruct a as [a1 a2 a3 a4 a5 a6 a7], b as [b1 b2 b3 b4 b5 b6 b7].
  destruct (Z.eq_dec a7 b7); [|right; congruence]. destruct (list_eq_dec N.eq_dec a6 b6); [|right; congruence].
  destruct (ics_eqb a1 b1) eqn:E1; [apply ics_eqb_eq in E1|right; intros X; injection X as X; subst; rewrite (proj2 (ics_eqb_eq b1 b1) eq_refl) in E1; discriminate].
  destruct (Z.eq_dec a2 b2); [|right; congruence]. destruct (Z.eq_dec a3 b3); [|right; congruence].
  destruct (ec_eqb a4 b4) eqn:E4; [apply ec_eqb_eq in E4|right; intros X; injection X as X; subst; rewrite (proj2 (ec_eqb_eq b4 b4) eq_refl) in E4; discriminate].
  destruct (tone_eqb a5 b5) eqn:E5; [apply tone_eqb_eq in E5|right; intros X; injection X as X; subst; rewrite (proj2 (tone_eqb_eq b5 b5) eq_refl) in E5; discriminate].
  left. congruence.
Defined.
Definition inStrs (s : SylString) (l : list SylString) : bool :=
  existsb (fun x => if list_eq_dec syl_dec s x then true else false) l.
Lemma inStrs_In s l : inStrs s l = true <-> In s l.
Proof.
  unfold inStrs. rewrite existsb_exists. split.
  - intros (x & I1 & E). destruct (list_eq_dec syl_dec s x) as [->|]; [exact I1|discriminate].
  - intros I1. exists s. split; [exact I1|]. destruct (list_eq_dec syl_dec s s); congruence.
Qed.
Definition listW (d : Dict) (w : list N) : Res (list SylString) :=
  (g <- ParseU16F libthai_ct 600 w (Some d) [] ;; DAGSylStrings g 0)%res.
Lemma listW_pron d w l : listW d w = Ok l -> pronounced libthai_ct w (Some d) [] l.
Proof.
  unfold listW. destruct (ParseU16F libthai_ct 600 w (Some d) []) as [g| | |] eqn:E; cbn [bind]; try discriminate.
  intros H. exists 600, g. auto.
Qed.
(** No full stop, at least two characters, all of them Thai: no part of it is
    spelled out letter by letter. *)
Definition notNames (k : list N) : bool :=
  forallb (fun c => negb (c =? 46)%N) k && (2 <=? List.length k) && forallb (tokenChar libthai_ct) k.
Definition rawData (strs : list SylString) : option string :=
  option_map (String.concat ";") (fold_right (fun s r =>
    match fold_right (fun v q => match RawOutput v, q with Ok t, Some q => Some (t :: q) | _, _ => None end) (Some []) s, r with
    | Some ts, Some r => Some (String.concat "," ts :: r)
    | _, _ => None
    end) (Some []) strs).
Definition lineCheck (d : Dict) (line : string) : bool :=
  match splitTab line with
  | None => false
  | Some (key, desc) =>
      match from_bytes key, MakeSylStrings desc with
      | Ok k, Ok strs =>
          match splitTab desc with Some _ => false | None => true end && notNames k && (List.length k <=? 254) &&
          negb (List.length k =? 0) && forallb inAlphabet k &&
          negb (List.length strs =? 0) && forallb (strOKb (Z.of_nat (List.length k))) strs &&
          match rawData strs with Some t => String.eqb t desc | None => false end &&
          forallb (forallb (fun v => (Z.abs (endPos v) <? 1000)%Z)) strs &&
          match listW d k with
          | Ok l => forallb (fun s => inStrs s l) strs && ((key =? "สิริกิติ์")%string || (List.length strs <=? List.length l) && forallb (fun s => inStrs s strs) l)
          | _ => false
          end
      | _, _ => false
      end
  end.
Definition sweep (r : Res (Dict * bool)) (src : list string) : bool :=
  match r with
  | Ok (d, true) =>
      match mTrie d with
      | Some t => forallb (fun kv => entryOKb d (fst kv)) t
      | None => false
      end && forallb (lineCheck d) src &&
      match listW d [0x20%N] with
      | Ok [[v]] => if syl_dec v (SylLiteral 1 [0x20%N]) then true else false
      | _ => false
      end
  | _ => false
  end.
Lemma sweep_ok : sweep except_dict except_src = true.
Proof. vm_cast_no_check (eq_refl true). Qed.
Lemma sweep_sound r src d : sweep r src = true -> r = Ok (d, true) -> dictOK d /\ Forall (fun line => lineCheck d line = true) src /\
  pronounced libthai_ct [0x20%N] (Some d) [] [[SylLiteral 1 [0x20%N]]].
Proof.
  intros H ->. unfold sweep in H.
  rewrite !andb_true_iff in H. destruct H as ((A & B) & C). destruct (mTrie d) as [t|] eqn:Et; [|discriminate].
  split; [exact (dictCheck_sound d t Et A)|]. split; [apply Forall_forall; apply forallb_forall; exact B|].
  destruct (listW d [0x20%N]) as [l| | |] eqn:El; try discriminate. apply listW_pron in El.
  destruct l as [|[|v [|]] [|]]; try discriminate. destruct (syl_dec v (SylLiteral 1 [0x20%N])) as [->|]; [exact El|discriminate].
Qed.

Lemma one_tab s : forall a b a' b', s = (a ++ Data.tab ++ b)%string -> splitTab s = Some (a', b') -> splitTab b' = None ->
  a = a' /\ b = b'.
Proof.
  assert (Has : forall a b, splitTab (a ++ Data.tab ++ b) <> None).
  { induction a as [|c a IH]; intros b; [discriminate|]. cbn [String.append splitTab].
    destruct (Ascii.eqb c (ascii_of_nat 9)); [discriminate|]. specialize (IH b). destruct (splitTab (a ++ Data.tab ++ b)) as [[x y]|]; congruence. }
  induction s as [|c s IH]; intros a b a' b' E H N; [discriminate|]. cbn [splitTab] in H. destruct a as [|x a].
  - change ("" ++ Data.tab ++ b)%string with (String (ascii_of_nat 9) b) in E. injection E as -> ->. cbn in H. injection H as <- <-. auto.
  - cbn [String.append] in E. injection E as -> E. change (s = (a ++ Data.tab ++ b)%string) in E. destruct (Ascii.eqb x (ascii_of_nat 9)) eqn:Ex.
    + injection H as <- <-. exfalso. apply (Has a b). rewrite <- E. exact N.
    + destruct (splitTab s) as [[y z]|] eqn:Es; [|discriminate]. injection H as <- <-.
      destruct (IH a b y z E eq_refl N) as (-> & ->). auto.
Qed.
Lemma rawData_of k strs t : Forall (fun s => wellPositioned k s /\ Forall wellFormed s) strs ->
  forallb (forallb (fun v => (Z.abs (endPos v) <? 1000)%Z)) strs = true -> rawData strs = Some t -> dataOf strs t.
Proof.
  unfold rawData, dataOf. intros F R H.
  match type of H with option_map _ ?x = _ => destruct x as [cs|] eqn:E; [|discriminate] end.
  cbn [option_map] in H. injection H as <-. exists cs. split; [|reflexivity]. revert cs E.
  induction strs as [|s strs IH]; intros cs E; cbn [fold_right] in E; [injection E as <-; constructor|].
  inversion F as [|? ? (_ & W) F']; subst. cbn [forallb] in R. apply andb_true_iff in R. destruct R as (R1 & R2).
  match type of E with match ?x with _ => _ end = _ => destruct x as [ts|] eqn:E1; [|discriminate] end.
  match type of E with match ?x with _ => _ end = _ => destruct x as [r|] eqn:E2; [|discriminate] end.
  injection E as <-. constructor; [|apply IH; auto]. exists ts. split; [|reflexivity].
  clear - W R1 E1. revert ts E1. induction s as [|v s IH]; intros ts E1; cbn [fold_right] in E1; [injection E1 as <-; constructor|].
  inversion W; subst. cbn [forallb] in R1. apply andb_true_iff in R1. destruct R1 as (R1 & R2).
  destruct (RawOutput v) as [u| | |] eqn:Ev; try discriminate.
  match type of E1 with match ?x with _ => _ end = _ => destruct x as [q|] eqn:E2; [|discriminate] end.
  injection E1 as <-. constructor; [|apply IH; auto]. apply C67_raw_text; [assumption| |exact Ev].
  apply Z.ltb_lt in R1. unfold intRange. lia.
Qed.
(** What the sweep says of a line. *)
Record lineFacts (d : Dict) (key desc : string) (k : list N) (strs : list SylString) (l : list SylString) : Prop := {
  lf_key : from_bytes key = Ok k;
  lf_read : MakeSylStrings desc = Ok strs;
  lf_good : goodWord (k, strs);
  lf_data : dataOf strs desc;
  lf_names : notNames k = true;
  lf_short : List.length k <= 254;
  lf_pron : pronounced libthai_ct k (Some d) [] l;
  lf_in : incl strs l;
  lf_only : key <> "สิริกิติ์"%string -> List.length strs <= List.length l /\ incl l strs
}.
Lemma lineCheck_sound d line : lineCheck d line = true ->
  exists key desc k strs l, line = (key ++ Data.tab ++ desc)%string /\ lineFacts d key desc k strs l /\
    forall key' desc', line = (key' ++ Data.tab ++ desc')%string -> key' = key /\ desc' = desc.
Proof.
  unfold lineCheck. destruct (splitTab line) as [[key desc]|] eqn:E; [|discriminate].
  destruct (from_bytes key) as [k| | |] eqn:Ek; try discriminate. destruct (MakeSylStrings desc) as [strs| | |] eqn:Es; try discriminate.
  rewrite !andb_true_iff. intros (((((((((T & Nn) & Sh) & K0) & Ab) & S0) & Ok') & Rd) & Ps) & Li).
  destruct (splitTab desc) eqn:Et; [discriminate|]. destruct (rawData strs) as [t|] eqn:Er; [|discriminate]. apply String.eqb_eq in Rd. subst t.
  destruct (listW d k) as [l| | |] eqn:El; try discriminate. apply andb_true_iff in Li. destruct Li as (L1 & L2).
  rewrite forallb_forall in Ok'.
  assert (F : Forall (fun s => wellPositioned (Z.of_nat (List.length k)) s /\ Forall wellFormed s) strs).
  { rewrite Forall_forall. intros s Hs. apply strOKb_sound. auto. }
  exists key, desc, k, strs, l. split; [apply splitTab_app; exact E|]. split.
  - constructor; auto.
    + split; [destruct k; discriminate|]. split; [|split; [destruct strs; discriminate|exact F]].
      intros c Hc. rewrite forallb_forall in Ab. apply inAlphabet_spec. auto.
    + exact (rawData_of _ _ _ F Ps Er).
    + apply Nat.leb_le. exact Sh.
    + apply listW_pron. exact El.
    + intros s Hs. rewrite forallb_forall in L1. apply inStrs_In. auto.
    + intros Nk. apply String.eqb_neq in Nk. rewrite Nk in L2. cbn [orb] in L2. apply andb_true_iff in L2. destruct L2 as (L2 & L3).
      split; [apply Nat.leb_le; exact L2|]. intros s Hs. rewrite forallb_forall in L3. apply inStrs_In. auto.
  - intros key' desc' E'. destruct (one_tab line key' desc' key desc E' E Et). auto.
Qed.
Lemma shipped_facts d : except_dict = Ok (d, true) -> dictOK d /\ Forall (fun line => lineCheck d line = true) except_src /\
  pronounced libthai_ct [0x20%N] (Some d) [] [[SylLiteral 1 [0x20%N]]].
Proof. exact (sweep_sound except_dict except_src d sweep_ok). Qed.
Lemma except_opened f : except_dic = Ok (Some f) -> except_dict = DictOpen (ATrie f).
Proof. unfold except_dict. intros ->. reflexivity. Qed.
Opaque except_dict except_src except_dic.
Lemma line_facts d key k strs : except_dict = Ok (d, true) -> shippedLine key k strs -> exists desc l, lineFacts d key desc k strs l.
Proof.
  intros E (desc & I1 & B & G & Da). destruct (shipped_facts d E) as (_ & F & _). rewrite Forall_forall in F.
  destruct (lineCheck_sound d _ (F _ I1)) as (key' & desc' & k' & strs' & l & E' & LF & U).
  destruct (U _ _ eq_refl) as (<- & <-). pose proof (lf_key _ _ _ _ _ _ LF) as B'. rewrite B in B'. injection B' as <-.
  pose proof (data_read k strs desc G (lf_short _ _ _ _ _ _ LF) Da) as R. rewrite (lf_read _ _ _ _ _ _ LF) in R. injection R as ->.
  eauto.
Qed.
(** Every line of the lists is one. *)
Lemma C75_lemma0 line : In line except_src -> exists key k strs desc, shippedLine key k strs /\
  line = (key ++ Data.tab ++ desc)%string /\ dataOf strs desc.
Proof.
  intros H. destruct C47_shipped as (d & _ & E & _). destruct (shipped_facts d E) as (_ & F & _). rewrite Forall_forall in F.
  destruct (lineCheck_sound d _ (F _ H)) as (key & desc & k & strs & l & -> & [] & _).
  exists key, k, strs, desc. split; [exists desc; auto|]. auto.
Qed.
Theorem C75_covered line : In line except_src -> exists key k strs desc, shippedLine key k strs /\
  line = (key ++ Data.tab ++ desc)%string /\ dataOf strs desc.
Proof. exact (C75_lemma0 line). Qed.
Print Assumptions C75_covered.
Lemma C75_lemma d key k strs : except_dict = Ok (d, true) -> shippedLine key k strs -> key <> "สิริกิติ์"%string ->
  exists l, pronounced libthai_ct k (Some d) [] l /\ Permutation l strs.
Proof.
  intros E S N. destruct (line_facts d key k strs E S) as (desc & l & []). destruct (lf_only0 N) as (L & In1).
  destruct (shipped_facts d E) as (D & _). exists l. split; [assumption|]. apply NoDup_Permutation_bis; auto.
  apply (pron_nodup libthai_ct k (Some d) []); [|assumption]. intros d' X. injection X as <-. exact D.
Qed.
(** With the shipped dictionary every word of the shipped lists but one gets
    the pronunciations of its line, each once and no other. *)
Theorem C75_as_listed d key k strs : except_dict = Ok (d, true) -> shippedLine key k strs -> key <> "สิริกิติ์"%string ->
  exists l, pronounced libthai_ct k (Some d) [] l /\ Permutation l strs.
Proof. exact (C75_lemma d key k strs). Qed.
Print Assumptions C75_as_listed.

(** ** The exception *)
Definition extraLine (d : Dict) (line : string) : bool :=
  match splitTab line with
  | None => false
  | Some (key, desc) =>
      (key =? "สิริกิติ์")%string &&
      match from_bytes key, MakeSylStrings desc with
      | Ok k, Ok strs =>
          match listW d k with
          | Ok l =>
              match filter (fun s => negb (inStrs s strs)) l with
              | [s] => (S (List.length strs) <=? List.length l) && strOKb (Z.of_nat (List.length k)) s &&
                  forallb (forallb (fun v => (Z.abs (endPos v) <? 1000)%Z)) [s] &&
                  match rawData [s] with Some t => String.eqb t "s_i_1@2,r_i_1@4,k_i_1@9" | None => false end
              | _ => false
              end
          | _ => false
          end
      | _, _ => false
      end
  end.
Definition extraSweep (r : Res (Dict * bool)) (src : list string) : bool :=
  match r with Ok (d, true) => existsb (extraLine d) src | _ => false end.
Lemma extra_ok : extraSweep except_dict except_src = true.
Proof. vm_cast_no_check (eq_refl true). Qed.
Lemma extra_sound r src d : extraSweep r src = true -> r = Ok (d, true) -> exists line, In line src /\ extraLine d line = true.
Proof. intros H ->. apply existsb_exists. exact H. Qed.
Lemma extraLine_sound d line : extraLine d line = true -> exists key desc k strs l s,
  line = (key ++ Data.tab ++ desc)%string /\ key = "สิริกิติ์"%string /\ from_bytes key = Ok k /\ MakeSylStrings desc = Ok strs /\
  pronounced libthai_ct k (Some d) [] l /\ S (List.length strs) <= List.length l /\ incl l (s :: strs) /\ ~ In s strs /\
  codeOf s "s_i_1@2,r_i_1@4,k_i_1@9".
Proof.
  unfold extraLine. destruct (splitTab line) as [[key desc]|] eqn:Es; [|discriminate].
  rewrite andb_true_iff. intros (K & X). apply String.eqb_eq in K.
  destruct (from_bytes key) as [k| | |] eqn:Ek; try discriminate. destruct (MakeSylStrings desc) as [strs| | |] eqn:Em; try discriminate.
  destruct (listW d k) as [l| | |] eqn:Ew; try discriminate. apply listW_pron in Ew.
  destruct (filter (fun s => negb (inStrs s strs)) l) as [|s [|]] eqn:Ef; try discriminate.
  rewrite !andb_true_iff in X. destruct X as (((X1 & X2) & X3) & X4).
  assert (Hs : In s (filter (fun s => negb (inStrs s strs)) l)) by (rewrite Ef; left; reflexivity). apply filter_In in Hs. destruct Hs as (Hs & Ns).
  exists key, desc, k, strs, l, s. split; [apply splitTab_app; exact Es|]. split; [exact K|]. split; [exact Ek|]. split; [exact Em|].
  split; [exact Ew|]. split; [apply Nat.leb_le in X1; exact X1|]. split; [|split].
  - intros x Hx. destruct (inStrs x strs) eqn:Ex; [right; apply inStrs_In; exact Ex|]. left.
    assert (Y : In x [s]) by (rewrite <- Ef; apply filter_In; rewrite Ex; auto). destruct Y as [Y|[]]. exact Y.
  - intros Y. apply inStrs_In in Y. rewrite Y in Ns. discriminate.
  - destruct (rawData [s]) as [t|] eqn:Er; [|discriminate]. apply String.eqb_eq in X4. subst t.
    assert (W : Forall (fun s => wellPositioned (Z.of_nat (List.length k)) s /\ Forall wellFormed s) [s]).
    { constructor; [apply strOKb_sound; exact X2|constructor]. }
    destruct (rawData_of _ _ _ W X3 Er) as (cs & F2 & Ec).
    inversion F2 as [|? c ? ? C F3]; subst. inversion F3; subst. cbn [String.concat] in Ec. rewrite Ec. exact C.
Qed.
Lemma C75_lemma2 d : except_dict = Ok (d, true) -> exists k strs l s, shippedLine "สิริกิติ์" k strs /\
  pronounced libthai_ct k (Some d) [] l /\ Permutation l (s :: strs) /\ ~ In s strs /\ codeOf s "s_i_1@2,r_i_1@4,k_i_1@9".
Proof.
  intros E. destruct (extra_sound except_dict except_src d extra_ok E) as (line & I1 & X).
  destruct (shipped_facts d E) as (D & F & _). rewrite Forall_forall in F.
  destruct (lineCheck_sound d line (F line I1)) as (key & desc & k & strs & l & El & LF & U).
  destruct (extraLine_sound d line X) as (key' & desc' & k' & strs' & l' & s & El' & K & Ek & Em & P & L & Inc & Ns & C).
  destruct (U _ _ El') as (-> & ->). pose proof (lf_key _ _ _ _ _ _ LF) as Q1. pose proof (lf_read _ _ _ _ _ _ LF) as Q2.
  assert (k' = k) by congruence. assert (strs' = strs) by congruence. subst k' strs'.
  exists k, strs, l', s. split; [|split; [exact P|split; [|split; assumption]]].
  - exists desc. split; [rewrite <- K, <- El; exact I1|]. split; [rewrite <- K; exact Q1|]. split; apply LF.
  - apply NoDup_Permutation_bis; [|exact L|exact Inc].
    apply (pron_nodup libthai_ct k (Some d) []); [intros d' Y; injection Y as <-; exact D|exact P].
Qed.
(** The word left out gets, besides the pronunciations of its line, one more:
    the reading of its first part is also listed as a word of its own. *)
Theorem C75_extra_refuted d : except_dict = Ok (d, true) -> exists k strs l s, shippedLine "สิริกิติ์" k strs /\
  pronounced libthai_ct k (Some d) [] l /\ Permutation l (s :: strs) /\ ~ In s strs /\ codeOf s "s_i_1@2,r_i_1@4,k_i_1@9".
Proof. exact (C75_lemma2 d). Qed.
Print Assumptions C75_extra_refuted.

(** ** Sentences *)
Lemma notNames_follows a b : (exists c, nth_error a (List.length a - 1) = Some c /\ (c = 0x20 \/ tokenChar libthai_ct c = true)%N) ->
  notNames b = true -> follows libthai_ct a b.
Proof.
  intros (c & Ec & Hc) N. unfold notNames in N. rewrite !andb_true_iff in N. destruct N as ((N1 & N2) & N3).
  rewrite forallb_forall in N1, N3. apply Nat.leb_le in N2.
  destruct b as [|x [|y r]]; [cbn in N2; lia|cbn in N2; lia|]. set (b := x :: y :: r) in *.
  assert (T : forall i z, nth_error b i = Some z -> tokenChar libthai_ct z = true /\ z <> 46%N).
  { intros i z Hz. apply nth_error_In in Hz. split; [apply N3; exact Hz|]. specialize (N1 z Hz). intros ->. discriminate. }
  constructor.
  - right. exists x. split; [reflexivity|]. apply (T 0 x eq_refl).
  - intros X. apply (proj2 (T 0 46%N X)). reflexivity.
  - right. intros e W. apply wordEnd_sorted in W; [|constructor]. destruct W as [W1 W2 W3 W4 W5].
    intros (g & Hg & Cs & [(X & _)|(_ & X)]).
    + apply (proj2 (T g 46%N X)). reflexivity.
    + subst e. destruct W5 as [W5|[[]|W5]]; [cbn in W5; lia|]. apply W5. exists y. split; [reflexivity|]. apply (T 1 y eq_refl).
Qed.
Lemma said_facts d k strs : except_dict = Ok (d, true) -> said k strs ->
  exists l, pronounced libthai_ct k (Some d) [] l /\ Permutation l strs /\ k <> [] /\
    (exists c, nth_error k (List.length k - 1) = Some c /\ (c = 0x20 \/ tokenChar libthai_ct c = true)%N) /\
    (k = [0x20%N] \/ notNames k = true).
Proof.
  intros E [key k' strs' S N|].
  - destruct (C75_lemma d key k' strs' E S N) as (l & P & Pe). exists l. split; [exact P|]. split; [exact Pe|].
    destruct (line_facts d key k' strs' E S) as (desc & l' & []). destruct lf_good0 as (Nk & _). cbn [fst] in Nk. split; [exact Nk|].
    split; [|right; assumption]. destruct (nth_error k' (List.length k' - 1)) as [c|] eqn:Ec.
    + exists c. split; [reflexivity|]. right. unfold notNames in lf_names0. rewrite !andb_true_iff, !forallb_forall in lf_names0.
      apply lf_names0. eapply nth_error_In. exact Ec.
    + apply nth_error_None in Ec. destruct k'; [congruence|cbn [List.length] in Ec; lia].
  - exists [[SylLiteral 1 [0x20%N]]]. split; [apply (shipped_facts d E)|]. split; [apply Permutation_refl|]. split; [discriminate|].
    split; [exists 0x20%N; auto|auto].
Qed.
Lemma C75_lemma3 d ws sss : except_dict = Ok (d, true) -> ws <> [] -> Forall2 said ws sss -> singleBlanks ws ->
  exists l, pronounced libthai_ct (List.concat ws) (Some d) (wordEnds 0 ws) l /\
    forall s, In s l <-> exists ss, Forall2 (@In SylString) ss sss /\ s = inTurn 0 ws ss.
Proof.
  intros E Ne F B. destruct (shipped_facts d E) as (D & _).
  assert (X : exists ls, Forall2 (fun w l => pronounced libthai_ct w (Some d) [] l) ws ls /\ Forall2 (@Permutation SylString) ls sss /\
    sentence libthai_ct ws).
  { clear Ne. induction F as [|k strs ws sss S F IH]; [exists []; repeat split; constructor|].
    destruct B as (B1 & B2). destruct (IH B2) as (ls & A1 & A2 & A3).
    destruct (said_facts d k strs E S) as (l & P & Pe & Nk & Lc & _). exists (l :: ls).
    split; [constructor; assumption|]. split; [constructor; assumption|]. split; [exact Nk|]. split; [|exact A3].
    destruct F as [|b sb r sr Sb F]; [exact I|]. destruct (said_facts d b sb E Sb) as (_ & _ & _ & _ & _ & [->|Nb]).
    - destruct Lc as (c & Ec & [->|Tc]).
      + exfalso. inversion S as [key k' strs' Sl Nn|]; subst; [|exact (B1 eq_refl _ _ eq_refl eq_refl)].
        destruct (line_facts d key k strs E Sl) as (desc & l' & []). unfold notNames in lf_names0.
        rewrite !andb_true_iff, !forallb_forall in lf_names0. apply nth_error_In in Ec.
        pose proof (proj2 lf_names0 _ Ec) as T. vm_compute in T. discriminate.
      + constructor.
        * left. eauto.
        * discriminate.
        * right. intros e _ (g & Hg & Cs & _). destruct (Cs 0 ltac:(lia)) as (x & X & Y). injection X as <-. vm_compute in Y. discriminate.
    - apply notNames_follows; assumption. }
  destruct X as (ls & A1 & A2 & A3).
  destruct (C55_lemma libthai_ct (Some d) ws ls) as (l & P & H); auto; [exact libthai_ok|intros d' Y; injection Y as <-; exact D|].
  exists l. split; [exact P|]. intros s. rewrite H.
  assert (Y : forall ss, Forall2 (@In SylString) ss ls <-> Forall2 (@In SylString) ss sss).
  { clear - A2. induction A2 as [|x y ls sss Pe A2 IH]; intros ss; [reflexivity|].
    split; intros G; inversion G as [|s1 ? ss' ? G1 G2]; subst; constructor; try (apply IH; assumption).
    - eapply Permutation_in; eauto.
    - eapply Permutation_in; [apply Permutation_sym|]; eauto. }
  split; intros (ss & G & ->); exists ss; (split; [apply Y; exact G|reflexivity]).
Qed.
(** A text of shipped words and single blanks is read word by word, as listed. *)
Theorem C75_sentence d ws sss : except_dict = Ok (d, true) -> ws <> [] -> Forall2 said ws sss -> singleBlanks ws ->
  exists l, pronounced libthai_ct (List.concat ws) (Some d) (wordEnds 0 ws) l /\
    forall s, In s l <-> exists ss, Forall2 (@In SylString) ss sss /\ s = inTurn 0 ws ss.
Proof. exact (C75_lemma3 d ws sss). Qed.
Print Assumptions C75_sentence.

(** ** The program *)
(** [word] is written with shipped words and single blanks, and the word
    breaks are their ends. *)
Definition spelled (b : list N -> list nat) (word : string) (ws : list (list N)) (sss : list (list SylString)) : Prop :=
  let w := List.concat ws in
  ws <> [] /\ Forall2 said ws sss /\ singleBlanks ws /\ from_bytes word = Ok w /\ (101 * Z.of_nat (List.length w) < 2 ^ 31)%Z /\
  sameBreaks libthai_ct w (b w) (wordEnds 0 ws).
(** What is printed: for every letter a block, with one line for each way to
    say the listed words in turn. *)
Definition listedAnswer (b : list N -> list nat) (cs : list ascii) (word text : string) : Prop :=
  exists l outs, NoDup l /\
    (forall ws sss, spelled b word ws sss -> forall s, In s l <-> exists ss, Forall2 (@In SylString) ss sss /\ s = inTurn 0 ws ss) /\
    Forall2 (block l) cs outs /\ text = frame word outs.
Lemma spelled_pron d b word ws sss : except_dict = Ok (d, true) -> spelled b word ws sss ->
  exists l, pronounced libthai_ct (List.concat ws) (Some d) (b (List.concat ws)) l /\
    forall s, In s l <-> exists ss, Forall2 (@In SylString) ss sss /\ s = inTurn 0 ws ss.
Proof.
  intros E (N & F & S & B & _ & Br). destruct (C75_lemma3 d ws sss E N F S) as (l & P & H). exists l. split; [|exact H].
  exact (same_pronounced _ _ _ _ _ _ libthai_ok (same_sym _ _ _ _ Br) P).
Qed.
Lemma listed_answer d b cs word : except_dict = Ok (d, true) -> (exists ws sss, spelled b word ws sss) -> Forall (fun c => In c notationLetters) cs ->
  exists fuel0 text, listedAnswer b cs word text /\
    forall fuel, fuel0 <= fuel -> saidOf (parseWordF libthai_ct fuel (Some d) b) Lines cs word text.
Proof.
  intros E (ws & sss & R) F. destruct (spelled_pron d b word ws sss E R) as (l & P & _). destruct (shipped_facts d E) as (D & _).
  assert (Do : dictOKo (Some d)) by (intros d' Y; injection Y as <-; exact D).
  pose proof R as (_ & _ & _ & B & Size & _). remember (List.concat ws) as w eqn:Hw.
  destruct (listing_answer (Some d) b cs word w l Do B Size P F) as (f2 & outs & A1 & Sa).
  eexists f2, _. split; [|exact Sa].
  exists l, outs. split; [apply (pron_nodup libthai_ct w (Some d) (b w)); assumption|]. split; [|split; [exact A1|reflexivity]].
  intros ws' sss' R' s. destruct (spelled_pron d b word ws' sss' E R') as (l' & P' & H').
  assert (Ew : List.concat ws' = w) by (destruct R' as (_ & _ & _ & B' & _); congruence).
  rewrite Ew in P'. rewrite (pron_fun _ _ _ _ _ _ P P'). apply H'.
Qed.
Lemma C75_lemma4 breaker VERSION default files stdin prog args cs words path b f :
  Forall accepted args -> structureIs args Lines -> wanted args cs ->
  wordsAre stdin args words -> dictIs default args path -> except_dic = Ok (Some f) -> files path = ATrie f ->
  breaksFor breaker args b -> Forall (fun word => exists ws sss, spelled b word ws sss) words ->
  exists fuel0 texts, Forall2 (listedAnswer b cs) words texts /\
    forall fuel, fuel0 <= fuel ->
      main libthai_ct breaker VERSION default files stdin fuel (prog :: args) = mkRun (String.concat "" texts) "" (Ok 0%Z).
Proof.
  intros A S Wa W Di Ef Efile B R. pose proof (wanted_in args cs Wa) as F.
  destruct C47_shipped as (d & _ & E & _). pose proof (except_opened f Ef) as O. rewrite E, <- Efile in O. symmetry in O.
  assert (X : exists fuel0 texts, Forall2 (listedAnswer b cs) words texts /\
    forall fuel, fuel0 <= fuel -> Forall2 (saidOf (parseWordF libthai_ct fuel (Some d) b) Lines cs) words texts).
  { clear W. induction R as [|word words Hw R (f1 & texts & An & Sa)]; [exists 0, []; split; constructor|].
    destruct (listed_answer d b cs word E Hw F) as (f2 & text & A2 & S2).
    exists (Nat.max f1 f2), (text :: texts). split; [constructor; assumption|]. intros fuel L. constructor; [apply S2|apply Sa]; lia. }
  destruct X as (fuel0 & texts & An & Sa). exists fuel0, texts. split; [exact An|]. intros fuel L.
  destruct (C42_run libthai_ct breaker VERSION default files stdin fuel prog args Lines cs words path b d true texts) as (e & We & ->); auto.
  rewrite We. reflexivity.
Qed.
(** The program, run with the dictionary made from the shipped lists on texts
    of shipped words and single blanks, prints what the lists say of every
    word and nothing else, without a warning, and exits with 0. *)
Theorem C75_program breaker VERSION default files stdin prog args cs words path b f :
  Forall accepted args -> structureIs args Lines -> wanted args cs ->
  wordsAre stdin args words -> dictIs default args path -> except_dic = Ok (Some f) -> files path = ATrie f ->
  breaksFor breaker args b -> Forall (fun word => exists ws sss, spelled b word ws sss) words ->
  exists fuel0 texts, Forall2 (listedAnswer b cs) words texts /\
    forall fuel, fuel0 <= fuel ->
      main libthai_ct breaker VERSION default files stdin fuel (prog :: args) = mkRun (String.concat "" texts) "" (Ok 0%Z).
Proof. exact (C75_lemma4 breaker VERSION default files stdin prog args cs words path b f). Qed.
Print Assumptions C75_program.

(** A listed word with two pronunciations, alone and after itself and a blank. *)
Transparent except_dict except_src except_dic.
Definition puumStrs : list SylString :=
  Eval vm_compute in match MakeSylStrings "P_Um0@4;P_U_0@2,m_i_3@4" with Ok l => l | _ => [] end.
Lemma puum : shippedLine "ภูมิ" (letters "ภูมิ") puumStrs.
Proof.
  exists "P_Um0@4;P_U_0@2,m_i_3@4"%string. split; [exact (proj2 C47_case)|]. split; [vm_compute; reflexivity|].
  assert (F : Forall (fun s => wellPositioned (Z.of_nat (List.length (letters "ภูมิ"))) s /\ Forall wellFormed s) puumStrs).
  { rewrite Forall_forall. intros s Hs. apply strOKb_sound. destruct Hs as [<-|[<-|[]]]; vm_compute; reflexivity. }
  split.
  - split; [vm_compute; discriminate|]. split; [|split; [discriminate|exact F]].
    intros c Hc. apply inAlphabet_spec. revert c Hc. apply forallb_forall. vm_compute. reflexivity.
  - apply (rawData_of _ _ _ F); vm_compute; reflexivity.
Qed.
Lemma puum_said : said (letters "ภูมิ") puumStrs.
Proof. apply (said_word "ภูมิ"); [exact puum|discriminate]. Qed.
Lemma puum_blanks : singleBlanks [letters "ภูมิ"; letters "ภูมิ"; letters " "; letters "ภูมิ"].
Proof.
  cbn [singleBlanks]. split; [intros H; vm_compute in H; discriminate H|]. split; [intros H; vm_compute in H; discriminate H|].
  split; [|split; [intros H; vm_compute in H; discriminate H|exact I]]. intros _ b r G. apply (f_equal (@hd (list N) [])) in G. cbn [hd] in G.
  subst b. intros H. vm_compute in H. discriminate H.
Qed.
Example C75_case : exists d, except_dict = Ok (d, true) /\ shippedLine "ภูมิ" (letters "ภูมิ") puumStrs /\ List.length puumStrs = 2 /\
  Forall2 said [letters "ภูมิ"; letters "ภูมิ"; letters " "; letters "ภูมิ"] [puumStrs; puumStrs; [[SylLiteral 1 [0x20%N]]]; puumStrs] /\
  singleBlanks [letters "ภูมิ"; letters "ภูมิ"; letters " "; letters "ภูมิ"].
Proof.
  destruct C47_shipped as (d & _ & E & _). exists d. split; [exact E|]. split; [exact puum|]. split; [reflexivity|]. split.
  - repeat apply Forall2_cons; try exact puum_said; [exact said_blank|constructor].
  - exact puum_blanks.
Qed.
Definition theFile : DictFile := match except_dic with Ok (Some f) => f | _ => mkDictFile [] "" end.
Lemma theFile_ok : match except_dic with Ok (Some f) => true | _ => false end = true.
Proof. vm_cast_no_check (eq_refl true). Qed.
Lemma theFile_is (r : Res (option DictFile)) : match r with Ok (Some f) => true | _ => false end = true ->
  r = Ok (Some (match r with Ok (Some f) => f | _ => mkDictFile [] "" end)).
Proof. destruct r as [[f|]| | |]; try discriminate. reflexivity. Qed.
(** Two texts in raw notation: the word between breaks, and twice with a blank. *)
Example C75_program_case : let args := ["-w"; "-dx"; "ภูมิ"; "ภูมิ ภูมิ"]%string in
  let breaker := fun w : list N => if List.length w =? 4 then [] else [4; 5] in
  let files := fun p => if (p =? "x")%string then ATrie theFile else NoFile in
  Forall accepted args /\ structureIs args Lines /\ wanted args ["w"]%char /\
  wordsAre "" args ["ภูมิ"; "ภูมิ ภูมิ"]%string /\ dictIs "/d" args "x" /\ except_dic = Ok (Some theFile) /\ files "x"%string = ATrie theFile /\
  breaksFor breaker args breaker /\ spelled breaker "ภูมิ" [letters "ภูมิ"] [puumStrs] /\
  spelled breaker "ภูมิ ภูมิ" [letters "ภูมิ"; letters " "; letters "ภูมิ"] [puumStrs; [[SylLiteral 1 [0x20%N]]]; puumStrs] /\
  main libthai_ct breaker "1" "/d" files "" 600 ("thpronun"%string :: args) = mkRun
    ("ภูมิ:" ++ nl ++ "P_Um0@4" ++ nl ++ "P_U_0@2,m_i_3@4" ++ nl ++ nl ++
      "ภูมิ ภูมิ:" ++ nl ++ "P_Um0@4,( )@5,P_Um0@9" ++ nl ++ "P_Um0@4,( )@5,P_U_0@7,m_i_3@9" ++ nl ++
      "P_U_0@2,m_i_3@4,( )@5,P_Um0@9" ++ nl ++ "P_U_0@2,m_i_3@4,( )@5,P_U_0@7,m_i_3@9" ++ nl ++ nl)%string "" (Ok 0%Z).
Proof.
  cbv zeta.
  assert (NT : forall a, match a with String x _ => is "-" x | _ => false end = false -> ~ isOption a).
  { intros a H (t & ->). discriminate. }
  split.
  { apply Forall_cons; [apply acc_letter; cbn; tauto|]. apply Forall_cons; [apply acc_dict; discriminate|].
    do 2 (apply Forall_cons; [apply acc_text, NT; reflexivity|]). apply Forall_nil. }
  split; [split; rewrite <- givenb_ok; discriminate|]. split.
  { exists ["w"]%char. split; [|reflexivity]. apply (named_take "w" ""); [cbn; tauto|].
    do 3 (apply named_skip; [intros c [<-|[<-|[<-|[<-|[<-|[]]]]]] H; apply letterb_ok in H; discriminate|]). constructor. }
  split.
  { exists ["ภูมิ"; "ภูมิ ภูมิ"]%string. split; [|reflexivity]. do 2 (apply texts_skip; [eexists; reflexivity|]).
    do 2 (apply texts_take; [apply NT; reflexivity|]). constructor. }
  split; [left; exists ["-w"]%string, ["ภูมิ"; "ภูมิ ภูมิ"]%string; split; [reflexivity|rewrite <- givenb_ok; discriminate]|].
  split; [exact (theFile_is except_dic theFile_ok)|]. split; [reflexivity|]. split.
  { right. split; [rewrite <- givenb_ok; discriminate|reflexivity]. }
  split; [|split].
  - split; [discriminate|]. split; [repeat constructor; exact puum_said|]. split; [exact (proj2 (proj2 (proj2 puum_blanks)))|].
    split; [vm_compute; reflexivity|]. split; [vm_compute; reflexivity|apply sameBreaksb_sound; vm_compute; reflexivity].
  - split; [discriminate|]. split; [repeat apply Forall2_cons; try exact puum_said; [exact said_blank|constructor]|]. split; [exact (proj2 puum_blanks)|].
    split; [vm_compute; reflexivity|]. split; [vm_compute; reflexivity|apply sameBreaksb_sound; vm_compute; reflexivity].
  - vm_compute. reflexivity.
Qed.

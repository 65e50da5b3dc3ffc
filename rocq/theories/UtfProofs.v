(** UtfProofs.v - the text conversions lose nothing. *)
From Coq Require Import String Ascii List NArith ZArith Bool Lia Arith.
From Verif Require Import Base Utf.
Import ListNotations.
Local Open Scope N_scope.
Ltac dlia := zify; Z.to_euclidean_division_equations; lia.

(** ** Specification *)
(** A character number: anything up to U+10FFFF except the surrogates. *)
Definition scalar (c : N) : Prop := c < 0xD800 \/ (0xE000 <= c /\ c <= 0x10FFFF).
(** Well-formed UTF-16: units of 16 bits, surrogates in pairs. *)
Inductive WF16 : list N -> Prop :=
| W_nil : WF16 []
| W_one c u : c < 0xD800 \/ (0xE000 <= c /\ c < 0x10000) -> WF16 u -> WF16 (c :: u)
| W_pair h l u : 0xD800 <= h < 0xDC00 -> 0xDC00 <= l < 0xE000 -> WF16 u -> WF16 (h :: l :: u).

Lemma len_ind {A} (P : list A -> Prop) :
  (forall l, (forall m, (length m < length l)%nat -> P m) -> P l) -> forall l, P l.
Proof.
  intros H l. assert (X : forall k m, (length m <= k)%nat -> P m).
  { induction k as [|k IH]; intros m L; apply H; intros m' L'; [lia|apply IH; lia]. }
  apply (X (length l)). lia.
Qed.

(** ** UTF-16 *)
Ltac tests :=
  repeat match goal with
  | |- context [ (?a <? ?b) ] => destruct (N.ltb_spec a b)
  | |- context [ (?a <=? ?b) ] => destruct (N.leb_spec a b)
  end; cbn [andb orb negb].
Lemma hi_yes c : 0xD800 <= c < 0xDC00 -> isHiSur c = true.
Proof. intros H. unfold isHiSur. tests; try reflexivity; lia. Qed.
Lemma hi_no c : c < 0xD800 \/ 0xDC00 <= c -> isHiSur c = false.
Proof. intros H. unfold isHiSur. tests; try reflexivity; lia. Qed.
Lemma lo_yes c : 0xDC00 <= c < 0xE000 -> isLoSur c = true.
Proof. intros H. unfold isLoSur. tests; try reflexivity; lia. Qed.
Lemma lo_no c : c < 0xDC00 \/ 0xE000 <= c -> isLoSur c = false.
Proof. intros H. unfold isLoSur. tests; try reflexivity; lia. Qed.
Lemma dec16_one c u : c < 0xD800 \/ 0xE000 <= c -> utf16Decode (c :: u) = (r <- utf16Decode u ;; Ok (c :: r))%res.
Proof. intros H. cbn [utf16Decode]. rewrite hi_no, lo_no by lia. reflexivity. Qed.
Lemma dec16_pair h l u : 0xD800 <= h < 0xDC00 -> 0xDC00 <= l < 0xE000 ->
  utf16Decode (h :: l :: u) =
  (r <- utf16Decode u ;; Ok (0x10000 + (h - 0xD800) * 0x400 + (l - 0xDC00) :: r))%res.
Proof. intros H H'. cbn [utf16Decode]. rewrite hi_yes, lo_yes by lia. reflexivity. Qed.
Lemma dec16_bad u : ~ WF16 u -> Forall (fun c => c < 0x10000) u -> utf16Decode u = Throw.
Proof.
  induction u as [u IH] using len_ind. intros NW F. destruct u as [|h u]; [exfalso; apply NW; constructor|].
  inversion F as [|? ? F1 F2]; subst.
  assert (C : h < 0xD800 \/ (0xD800 <= h < 0xDC00) \/ (0xDC00 <= h < 0xE000) \/ 0xE000 <= h) by lia.
  destruct C as [C|[C|[C|C]]].
  - rewrite dec16_one by auto. rewrite IH; [reflexivity|cbn; lia| |exact F2].
    intros W. apply NW. apply W_one; [lia|exact W].
  - destruct u as [|l u].
    + cbn [utf16Decode]. rewrite hi_yes by lia. reflexivity.
    + destruct (N.ltb_spec l 0xDC00) as [L|L].
      * cbn [utf16Decode]. rewrite hi_yes, lo_no by lia. reflexivity.
      * destruct (N.ltb_spec l 0xE000) as [L'|L'].
        -- rewrite dec16_pair by lia. inversion F2; subst. rewrite IH; [reflexivity|cbn; lia| |assumption].
           intros W. apply NW. apply W_pair; [lia|lia|exact W].
        -- cbn [utf16Decode]. rewrite hi_yes, lo_no by lia. reflexivity.
  - cbn [utf16Decode]. rewrite hi_no, lo_yes by lia. reflexivity.
  - rewrite dec16_one by auto. rewrite IH; [reflexivity|cbn; lia| |exact F2].
    intros W. apply NW. apply W_one; [lia|exact W].
Qed.
Lemma dec16_ok u : WF16 u -> exists cps, utf16Decode u = Ok cps /\ Forall scalar cps /\ utf16Encode cps = u.
Proof.
  induction 1 as [|c u H W (cps & E & S & R)|h l u H1 H2 W (cps & E & S & R)].
  - exists []. repeat split; constructor.
  - exists (c :: cps). rewrite dec16_one by lia. rewrite E. split; [reflexivity|].
    split; [constructor; [unfold scalar; lia|exact S]|].
    cbn [utf16Encode flat_map]; fold (utf16Encode cps). unfold utf16EncodeCp at 1. tests; [|lia]. cbn [app]. rewrite R. reflexivity.
  - eexists. rewrite dec16_pair by lia. rewrite E. split; [reflexivity|].
    split; [constructor; [unfold scalar; lia|exact S]|].
    cbn [utf16Encode flat_map]; fold (utf16Encode cps). unfold utf16EncodeCp at 1. tests; [lia|]. cbn [app]. rewrite R.
    f_equal; [dlia|]. f_equal. dlia.
Qed.
Lemma enc16_ok cps : Forall scalar cps -> WF16 (utf16Encode cps) /\ utf16Decode (utf16Encode cps) = Ok cps.
Proof.
  induction 1 as [|c cps S F (W & E)]; [split; constructor|].
  change (utf16Encode (c :: cps)) with (utf16EncodeCp c ++ utf16Encode cps)%list. unfold utf16EncodeCp. unfold scalar in S. tests; cbn [app].
  - split; [apply W_one; [lia|exact W]|]. rewrite dec16_one by lia. rewrite E. reflexivity.
  - split; [apply W_pair; [dlia|dlia|exact W]|]. rewrite dec16_pair by dlia. rewrite E. cbn [bind].
    do 2 f_equal. dlia.
Qed.
Lemma dec16_fuel u : utf16Decode u <> NoFuel /\ utf16Decode u <> UB.
Proof.
  induction u as [u IH] using len_ind. destruct u as [|h u]; [split; discriminate|]. cbn [utf16Decode].
  destruct (isHiSur h).
  - destruct u as [|l u]; [split; discriminate|]. destruct (isLoSur l); [|split; discriminate].
    destruct (IH u) as (A & B); [cbn; lia|].
    destruct (utf16Decode u); cbn [bind]; split; congruence.
  - destruct (isLoSur h); [split; discriminate|].
    destruct (IH u) as (A & B); [cbn; lia|].
    destruct (utf16Decode u); cbn [bind]; split; congruence.
Qed.

(** ** UTF-8 *)
Definition enc8 (cps : list N) : list ascii := flat_map utf8EncodeCp cps.
Lemma byteN n : n < 256 -> N_of_ascii (byte n) = n.
Proof. apply N_ascii_embedding. Qed.
Ltac dec_tests :=
  repeat match goal with
  | |- context [ (?a <? ?b) ] =>
      first [ replace (a <? b) with true by (symmetry; apply N.ltb_lt; lia)
            | replace (a <? b) with false by (symmetry; apply N.ltb_ge; lia) ]
  | |- context [ (?a <=? ?b) ] =>
      first [ replace (a <=? b) with true by (symmetry; apply N.leb_le; lia)
            | replace (a <=? b) with false by (symmetry; apply N.leb_gt; lia) ]
  end; cbn [andb orb negb].
Lemma dec8_enc c l : scalar c ->
  utf8DecodeL (utf8EncodeCp c ++ l) = (r <- utf8DecodeL l ;; Ok (c :: r))%res.
Proof.
  intros S. unfold scalar in S. unfold utf8EncodeCp.
  destruct (N.ltb_spec c 0x80) as [H1|H1]; [|destruct (N.ltb_spec c 0x800) as [H2|H2];
    [|destruct (N.ltb_spec c 0x10000) as [H3|H3]]]; cbn [app utf8DecodeL]; unfold isCont.
  - rewrite byteN by lia. dec_tests. reflexivity.
  - assert (D : c = (c / 0x40) * 0x40 + c mod 0x40) by dlia.
    assert (D1 : c mod 0x40 < 0x40) by dlia.
    revert D D1. generalize (c / 0x40) as q1, (c mod 0x40) as q2. intros q1 q2 D D1.
    rewrite !byteN by lia. dec_tests.
    replace ((0xC0 + q1 - 0xC0) * 0x40 + (0x80 + q2 - 0x80)) with c by lia. reflexivity.
  - assert (D : c = (c / 0x1000) * 0x1000 + ((c / 0x40) mod 0x40) * 0x40 + c mod 0x40) by dlia.
    assert (D1 : c mod 0x40 < 0x40) by dlia. assert (D2 : (c / 0x40) mod 0x40 < 0x40) by dlia.
    revert D D1 D2. generalize (c / 0x1000) as q1, ((c / 0x40) mod 0x40) as q2, (c mod 0x40) as q3.
    intros q1 q2 q3 D D1 D2. rewrite !byteN by lia.
    replace ((0xE0 + q1 - 0xE0) * 0x1000 + (0x80 + q2 - 0x80) * 0x40 + (0x80 + q3 - 0x80)) with c by lia.
    dec_tests. destruct (N.leb_spec 0xD800 c); [|reflexivity]. dec_tests. reflexivity.
  - assert (D : c = (c / 0x40000) * 0x40000 + ((c / 0x1000) mod 0x40) * 0x1000 + ((c / 0x40) mod 0x40) * 0x40 + c mod 0x40) by dlia.
    assert (D1 : c mod 0x40 < 0x40) by dlia. assert (D2 : (c / 0x40) mod 0x40 < 0x40) by dlia.
    assert (D3 : (c / 0x1000) mod 0x40 < 0x40) by dlia.
    revert D D1 D2 D3.
    generalize (c / 0x40000) as q1, ((c / 0x1000) mod 0x40) as q2, ((c / 0x40) mod 0x40) as q3, (c mod 0x40) as q4.
    intros q1 q2 q3 q4 D D1 D2 D3. rewrite !byteN by lia.
    replace ((0xF0 + q1 - 0xF0) * 0x40000 + (0x80 + q2 - 0x80) * 0x1000 + (0x80 + q3 - 0x80) * 0x40
             + (0x80 + q4 - 0x80)) with c by lia.
    dec_tests. reflexivity.
Qed.
Lemma dec8_encs cps : Forall scalar cps -> utf8DecodeL (enc8 cps) = Ok cps.
Proof.
  induction 1 as [|c cps S F IH]; [reflexivity|]. cbn [enc8 flat_map]. rewrite dec8_enc by exact S.
  fold (enc8 cps). rewrite IH. reflexivity.
Qed.
Lemma byte_inv a n : N_of_ascii a = n -> byte n = a.
Proof. intros <-. apply ascii_N_embedding. Qed.
Lemma ascii256 a : N_of_ascii a < 256.
Proof. apply N_ascii_bounded. Qed.
Lemma dec8_sound l : forall cps, utf8DecodeL l = Ok cps -> Forall scalar cps /\ enc8 cps = l.
Proof.
  induction l as [l IH] using len_ind. intros cps E. destruct l as [|a l1]; cbn [utf8DecodeL] in E.
  { injection E as <-. split; [constructor|reflexivity]. }
  pose proof (ascii256 a) as A0.
  destruct (N.ltb_spec (N_of_ascii a) 0x80) as [H|H].
  { destruct (utf8DecodeL l1) as [r| | |] eqn:E1; cbn [bind] in E; try discriminate. injection E as <-.
    destruct (IH l1 ltac:(cbn; lia) r E1) as (S & R). split; [constructor; [unfold scalar; lia|exact S]|].
    cbn [enc8 flat_map]. unfold utf8EncodeCp at 1. dec_tests. cbn [app]. fold (enc8 r). rewrite R.
    f_equal. apply byte_inv. reflexivity. }
  destruct (N.ltb_spec (N_of_ascii a) 0xC2) as [H0|H0]; [discriminate|].
  destruct l1 as [|a1 l2]; [discriminate|]. unfold isCont in E.
  pose proof (ascii256 a1) as A1.
  destruct (N.leb_spec 0x80 (N_of_ascii a1)) as [B1|B1]; [|discriminate].
  destruct (N.leb_spec (N_of_ascii a1) 0xBF) as [B2|B2]; [|discriminate]. cbn [andb negb] in E.
  destruct (N.ltb_spec (N_of_ascii a) 0xE0) as [H1|H1].
  { destruct (utf8DecodeL l2) as [r| | |] eqn:E1; cbn [bind] in E; try discriminate. injection E as <-.
    destruct (IH l2 ltac:(cbn; lia) r E1) as (S & R). split; [constructor; [unfold scalar; lia|exact S]|].
    cbn [enc8 flat_map]. unfold utf8EncodeCp at 1. dec_tests. cbn [app]. fold (enc8 r). rewrite R.
    f_equal; [|f_equal]; symmetry; rewrite <- ascii_N_embedding at 1; unfold byte; f_equal; dlia. }
  destruct l2 as [|a2 l3]; [discriminate|]. pose proof (ascii256 a2) as A2.
  destruct (N.leb_spec 0x80 (N_of_ascii a2)) as [C1|C1]; [|discriminate].
  destruct (N.leb_spec (N_of_ascii a2) 0xBF) as [C2|C2]; [|discriminate]. cbn [andb negb] in E.
  destruct (N.ltb_spec (N_of_ascii a) 0xF0) as [H2|H2].
  { set (c := (N_of_ascii a - 0xE0) * 0x1000 + (N_of_ascii a1 - 0x80) * 0x40 + (N_of_ascii a2 - 0x80)) in *.
    destruct (N.ltb_spec c 0x800) as [D1|D1]; [discriminate|]. cbn [orb] in E.
    destruct ((0xD800 <=? c) && (c <=? 0xDFFF)) eqn:D2; [discriminate|].
    apply andb_false_iff in D2. rewrite !N.leb_gt in D2.
    destruct (utf8DecodeL l3) as [r| | |] eqn:E1; cbn [bind] in E; try discriminate. injection E as <-.
    destruct (IH l3 ltac:(cbn; lia) r E1) as (S & R).
    assert (c < 0x10000) by (unfold c; lia).
    split; [constructor; [unfold scalar; lia|exact S]|].
    cbn [enc8 flat_map]. unfold utf8EncodeCp at 1. dec_tests. cbn [app]. fold (enc8 r). rewrite R.
    f_equal; [|f_equal; [|f_equal]]; symmetry; rewrite <- ascii_N_embedding at 1; unfold byte; f_equal; unfold c; dlia. }
  destruct l3 as [|a3 l4]; [discriminate|]. pose proof (ascii256 a3) as A3.
  destruct (N.leb_spec 0x80 (N_of_ascii a3)) as [G1|G1]; [|discriminate].
  destruct (N.leb_spec (N_of_ascii a3) 0xBF) as [G2|G2]; [|discriminate]. cbn [andb negb] in E.
  destruct (N.ltb_spec (N_of_ascii a) 0xF5) as [H3|H3]; [|discriminate].
  set (c := (N_of_ascii a - 0xF0) * 0x40000 + (N_of_ascii a1 - 0x80) * 0x1000 + (N_of_ascii a2 - 0x80) * 0x40
            + (N_of_ascii a3 - 0x80)) in *.
  destruct (N.ltb_spec c 0x10000) as [D1|D1]; [discriminate|]. cbn [orb] in E.
  destruct (N.ltb_spec 0x10FFFF c) as [D2|D2]; [discriminate|].
  destruct (utf8DecodeL l4) as [r| | |] eqn:E1; cbn [bind] in E; try discriminate. injection E as <-.
  destruct (IH l4 ltac:(cbn; lia) r E1) as (S & R).
  split; [constructor; [unfold scalar; lia|exact S]|].
  cbn [enc8 flat_map]. unfold utf8EncodeCp at 1. dec_tests. cbn [app]. fold (enc8 r). rewrite R.
  f_equal; [|f_equal; [|f_equal; [|f_equal]]]; symmetry; rewrite <- ascii_N_embedding at 1; unfold byte; f_equal; unfold c; dlia.
Qed.
Lemma dec8_fuel l : utf8DecodeL l <> NoFuel /\ utf8DecodeL l <> UB.
Proof.
  induction l as [l IH] using len_ind. destruct l as [|a l1]; [split; discriminate|]. cbn [utf8DecodeL].
  repeat match goal with
  | |- context [if ?b then _ else _] => destruct b
  | |- context [match ?l with [] => _ | _ :: _ => _ end] => is_var l; destruct l
  end; try (split; discriminate);
  match goal with |- context [utf8DecodeL ?m] =>
    destruct (IH m ltac:(cbn; lia)) as (A & B); destruct (utf8DecodeL m); cbn [bind]; split; congruence end.
Qed.

(** ** Both *)
Lemma from_bytes_total s : from_bytes s <> NoFuel.
Proof.
  unfold from_bytes, utf8Decode. destruct (dec8_fuel (list_ascii_of_string s)) as (A & _).
  destruct (utf8DecodeL (list_ascii_of_string s)); cbn [bind]; congruence.
Qed.
Lemma from_bytes_safe s : from_bytes s = Throw \/ exists u, from_bytes s = Ok u.
Proof.
  unfold from_bytes, utf8Decode. destruct (dec8_fuel (list_ascii_of_string s)) as (A & B).
  destruct (utf8DecodeL (list_ascii_of_string s)); cbn [bind]; try congruence; eauto.
Qed.
Lemma to_bytes_safe u : to_bytes u = Throw \/ exists s, to_bytes u = Ok s.
Proof.
  unfold to_bytes. destruct (dec16_fuel u) as (A & B).
  destruct (utf16Decode u); cbn [bind]; try congruence; eauto.
Qed.
Lemma to_bytes_wf u : WF16 u -> exists s, to_bytes u = Ok s /\ from_bytes s = Ok u.
Proof.
  intros W. destruct (dec16_ok u W) as (cps & E & S & R). unfold to_bytes. rewrite E. cbn [bind].
  eexists. split; [reflexivity|]. unfold from_bytes, utf8Decode, utf8Encode.
  rewrite list_ascii_of_string_of_list_ascii. change (flat_map utf8EncodeCp cps) with (enc8 cps).
  rewrite dec8_encs by exact S. cbn [bind]. rewrite R. reflexivity.
Qed.
Lemma to_bytes_bad u : Forall (fun c => c < 0x10000) u -> ~ WF16 u -> to_bytes u = Throw.
Proof. intros F N. unfold to_bytes. rewrite dec16_bad by assumption. reflexivity. Qed.
Lemma from_bytes_inv s u : from_bytes s = Ok u -> WF16 u /\ to_bytes u = Ok s.
Proof.
  unfold from_bytes, utf8Decode. destruct (utf8DecodeL (list_ascii_of_string s)) as [cps| | |] eqn:E; cbn [bind]; try discriminate.
  intros H. injection H as <-. destruct (dec8_sound _ _ E) as (S & R). destruct (enc16_ok cps S) as (W & D).
  split; [exact W|]. unfold to_bytes. rewrite D. cbn [bind]. unfold utf8Encode.
  change (flat_map utf8EncodeCp cps) with (enc8 cps). rewrite R. rewrite string_of_list_ascii_of_string. reflexivity.
Qed.

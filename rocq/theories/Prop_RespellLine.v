(** Prop_RespellLine.v - property C76: a whole line in Thai respelling is read
    back. *)
From Coq Require Import List NArith ZArith Bool String Ascii Lia Arith Sorted.
From Verif Require Import Base ThUni ThCons Syl Utf Lattice Dag PronDag SylOut ThaiOut Output Dict GenDict Parser Cli.
From Verif Require Import Spec OrderProofs DictProofs Prop_Syl ParserSpec ParserFacts ParserInv ParserResult ParserListed ParserDict UtfProofs.
From Verif Require Import ParserProduct Prop_Parser Prop_Notation Prop_Graph Prop_Output Prop_Listing
  Prop_Product Prop_Sweep Grammar GrammarWord Prop_Grammar Prop_Respell Prop_Text Prop_Breaks.
Import ListNotations.
Local Open Scope string_scope.
Local Open Scope list_scope.
Local Open Scope nat_scope.

(** ** Vocabulary *)
(** [t] is the Thai text of [s], in letters [w], and follows Thai spelling. *)
Record respelt (s : Syl) (t : string) (w : list N) : Prop := {
  rs_well : wellFormed s;
  rs_tone : tone s = SAMAN -> writtenDead (vowel s) (eCons s) = false;
  rs_text : ThaiOutput s = Ok t;
  rs_letters : from_bytes t = Ok w;
  rs_even : ~ odd s w
}.
(** The elements of [l] with [x] between them. *)
Fixpoint between {A} (x : A) (l : list A) : list A :=
  match l with
  | [] => []
  | [a] => [a]
  | a :: l' => a :: x :: between x l'
  end.
Definition hyphen : N := 0x2d%N.
(** The syllables [vs] with literal hyphens between them, over the letters [ws]. *)
Definition hyphened (ws : list (list N)) (vs : list Syl) : SylString :=
  inTurn 0 (between [hyphen] ws) (between [SylLiteral 1 [hyphen]] (map (fun v => [v]) vs)).

(** ** Lemmas *)
Lemma from_bytes_app a b wa wb : from_bytes a = Ok wa -> from_bytes b = Ok wb -> from_bytes (a ++ b)%string = Ok (wa ++ wb).
Proof.
  unfold from_bytes, utf8Decode.
  destruct (utf8DecodeL (list_ascii_of_string a)) as [ca| | |] eqn:Ea; try discriminate.
  destruct (utf8DecodeL (list_ascii_of_string b)) as [cb| | |] eqn:Eb; try discriminate. cbn [bind].
  intros Ha Hb. injection Ha as <-. injection Hb as <-.
  assert (X : list_ascii_of_string (a ++ b) = list_ascii_of_string a ++ list_ascii_of_string b).
  { clear. induction a as [|c a IH]; [reflexivity|]. cbn. f_equal. exact IH. }
  destruct (dec8_sound _ _ Ea) as (Sa & Xa). destruct (dec8_sound _ _ Eb) as (Sb & Xb).
  rewrite X, <- Xa, <- Xb. replace (enc8 ca ++ enc8 cb) with (enc8 (ca ++ cb)) by (unfold enc8; apply flat_map_app).
  rewrite dec8_encs by (apply Forall_app; auto). cbn [bind]. unfold utf16Encode. rewrite flat_map_app. reflexivity.
Qed.
Definition shapeBack (i1 : EInitConsSound) (i2 : ESecInitCons) (v : EVowel) (e : EEndConsClass) (t : ETone) : bool :=
  if tone_eqb t SAMAN && writtenDead v e then true else
  match ThaiOutput (mkSyl i1 i2 v e t [] 0) with
  | Ok t => match from_bytes t with
    | Ok w0 => let w := undot w0 in
      forallb Grammar.thaiLetter w && (2 <=? List.length w) && forallb (tokenChar libthai_ct) w && forallb (fun c => negb (c =? 46)%N) w &&
      negb (memN (List.last w 0%N) [UTH_SARA_AE; UTH_SARA_O; UTH_SARA_AI_MAIMUAN; UTH_SARA_AI_MAIMALAI])
    | _ => true
    end
  | _ => true
  end.
Lemma shape_ok : sweep5 shapeBack (tl allICS) allSec vowelCodes allEC allTones = true.
Proof. vm_cast_no_check (eq_refl true). Qed.
Inductive Forall3 {A B C} (R : A -> B -> C -> Prop) : list A -> list B -> list C -> Prop :=
| F3_nil : Forall3 R [] [] []
| F3_cons a b c la lb lc : R a b c -> Forall3 R la lb lc -> Forall3 R (a :: la) (b :: lb) (c :: lc).

Lemma last_nth (w : list N) : nth_error w (List.length w - 1) = Some (List.last w 0%N) \/ w = [].
Proof.
  destruct w as [|c w] using rev_ind; [right; reflexivity|left]. rewrite last_last, app_length. cbn [List.length].
  rewrite nth_error_app2 by lia. replace (_ - _) with 0 by lia. reflexivity.
Qed.
(** The shape of a respelling. *)
Record shaped (u : list N) : Prop := {
  sh_two : 2 <= List.length u;
  sh_token : forall c, In c u -> tokenChar libthai_ct c = true;
  sh_dot : ~ In 46%N u;
  sh_last : forall c, nth_error u (List.length u - 1) = Some c -> ~ strayVowel c
}.
Lemma respelt_shape s t w : respelt s t w -> shaped (undot w).
Proof.
  intros [W T Ht Hw _]. pose proof W as (A1 & A2 & A3 & A4 & A5).
  assert (IT : In (tone s) allTones) by (destruct (tone s); cbn; tauto).
  pose proof (sweep5_in _ _ _ _ _ _ _ _ _ _ _ shape_ok (sound_in _ A2) A3 A4 (ec_in (eCons s)) IT) as S.
  unfold shapeBack in S. rewrite <- (thai_endPos _ _ _ _ _ (endPos s) A2) in S.
  destruct s as [i1 i2 vw e tn lit pos]. cbn [iCons1 iCons2 vowel eCons tone literal endPos] in *. subst lit.
  destruct (tone_eqb tn SAMAN && writtenDead vw e) eqn:E1.
  { apply andb_true_iff in E1. destruct E1 as (E1 & E2). apply tone_eqb_eq in E1. rewrite (T E1) in E2. discriminate. }
  rewrite Ht, Hw in S. cbv zeta in S. remember (undot w) as u eqn:Eu.
  rewrite !andb_true_iff in S. destruct S as ((((S1 & S2) & S3) & S4) & S5). apply Nat.leb_le in S2.
  rewrite forallb_forall in S3, S4. constructor; auto.
  - intros X. specialize (S4 _ X). discriminate.
  - intros c Hc X. destruct (last_nth u) as [E|E]; [|subst u; rewrite E in S2; cbn in S2; lia].
    rewrite Hc in E. injection E as ->. apply negb_true_iff in S5. 
    destruct X as [X|[X|[X|X]]]; rewrite X in S5; vm_compute in S5; discriminate.
Qed.
Lemma shaped_pron dict u : dictOKo dict -> shaped u -> exists l, pronounced libthai_ct u dict [] l.
Proof.
  intros D [_ _ _ L]. destruct (C24_safe libthai_ct u dict [] libthai_ok D (Forall_nil _) L) as (d & f & H).
  pose proof (H f (le_n _)) as E. destruct (flat_good libthai_ct u dict [] f d D E) as (l & El & _). exists l, f, d. auto.
Qed.
Lemma hyphen_pron dict : pronounced libthai_ct [hyphen] dict [] [[SylLiteral 1 [hyphen]]].
Proof.
  destruct (C29_foreign_text libthai_ct [hyphen] dict [] 1) as (d & E & L); [|discriminate|lia|].
  - intros [|k] (c & Ec & T); [injection Ec as <-; vm_compute in T; discriminate|destruct k; discriminate].
  - exists 1, d. auto.
Qed.
Lemma follows_hyphen a : shaped a -> follows libthai_ct a [hyphen].
Proof.
  intros [S1 S2 S3 _]. constructor.
  - left. destruct (last_nth a) as [E|E]; [|subst a; cbn in S1; lia]. eexists. split; [exact E|]. apply S2. eapply nth_error_In. exact E.
  - discriminate.
  - right. intros e _ (g & Hg & Cs & _). destruct (Cs 0 ltac:(lia)) as (x & X & Y). injection X as <-. vm_compute in Y. discriminate.
Qed.
Lemma hyphen_follows b : shaped b -> follows libthai_ct [hyphen] b.
Proof.
  intros [S1 S2 S3 _]. destruct b as [|x [|y r]]; [cbn in S1; lia|cbn in S1; lia|]. constructor.
  - right. exists x. split; [reflexivity|]. apply S2. left. reflexivity.
  - intros X. injection X as ->. apply S3. left. reflexivity.
  - right. intros e W. apply wordEnd_sorted in W; [|constructor]. destruct W as [W1 W2 W3 W4 W5].
    intros (g & Hg & Cs & [(X & _)|(_ & X)]).
    + apply S3. eapply nth_error_In. exact X.
    + subst e. destruct W5 as [W5|[[]|W5]]; [cbn in W5; lia|]. apply W5. exists y. split; [reflexivity|]. apply S2. right. left. reflexivity.
Qed.
Lemma hyphened_sentence us : Forall shaped us -> sentence libthai_ct (between [hyphen] us).
Proof.
  induction 1 as [|a us Sa F IH]; [exact I|]. assert (Na : a <> []) by (destruct Sa as [S1 _ _ _]; destruct a; [cbn in S1; lia|discriminate]).
  destruct us as [|b us]; [split; [exact Na|split; exact I]|].
  change (between [hyphen] (a :: b :: us)) with (a :: [hyphen] :: between [hyphen] (b :: us)).
  split; [exact Na|]. split; [apply follows_hyphen; exact Sa|]. split; [discriminate|]. split; [|exact IH].
  inversion F; subst. destruct us; apply hyphen_follows; assumption.
Qed.
Lemma hyphen_ends us : forall pre x, In x (wordEnds (List.length pre) (between [hyphen] us)) ->
  ~ insideThai libthai_ct (pre ++ List.concat (between [hyphen] us)) x.
Proof.
  assert (Nh : forall pre post, ~ tokenAt libthai_ct (pre ++ hyphen :: post) (List.length pre)).
  { intros pre post (c & Ec & T). rewrite nth_error_app2, Nat.sub_diag in Ec by lia. injection Ec as <-. vm_compute in T. discriminate. }
  induction us as [|a us IH]; intros pre x Hx; [destruct Hx|]. destruct us as [|b us].
  - cbn [between wordEnds] in Hx. destruct Hx as [<-|[]]. intros (_ & _ & (c & Ec & _)). cbn [between List.concat] in Ec.
    rewrite app_nil_r in Ec. assert (nth_error (pre ++ a) (List.length pre + List.length a) = None) by (apply nth_error_None; rewrite app_length; lia). congruence.
  - change (between [hyphen] (a :: b :: us)) with (a :: [hyphen] :: between [hyphen] (b :: us)) in *.
    cbn [wordEnds] in Hx. cbn [List.concat]. destruct Hx as [<-|[<-|Hx]].
    + intros (_ & _ & T). apply (Nh (pre ++ a) (List.concat (between [hyphen] (b :: us)))). rewrite app_length, <- app_assoc. exact T.
    + intros (_ & T & _). apply (Nh (pre ++ a) (List.concat (between [hyphen] (b :: us)))). rewrite app_length, <- app_assoc.
      cbn [List.length] in T. replace (List.length pre + List.length a + 1 - 1) with (List.length pre + List.length a) in T by lia. exact T.
    + specialize (IH (pre ++ a ++ [hyphen]) x). rewrite !app_length, Nat.add_assoc in IH. specialize (IH Hx).
      rewrite <- !app_assoc in IH. exact IH.
Qed.
Lemma undot_app a b : undot (a ++ b) = undot a ++ undot b.
Proof. unfold undot. apply filter_app. Qed.
Lemma line_letters ss ts ws : Forall3 respelt ss ts ws -> ss <> [] ->
  exists W, from_bytes (String.concat "-" ts) = Ok W /\ undot W = List.concat (between [hyphen] (map undot ws)).
Proof.
  induction 1 as [|s t w ss ts ws R F IH]; intros Ne; [congruence|clear Ne]. pose proof (rs_letters _ _ _ R) as Ew.
  destruct F as [|s2 t2 w2 ss ts ws R2 F].
  - exists w. split; [exact Ew|]. cbn. rewrite app_nil_r. reflexivity.
  - destruct (IH ltac:(discriminate)) as (W & EW & U). exists (w ++ [hyphen] ++ W). split.
    + change (String.concat "-" (t :: t2 :: ts)) with (t ++ "-" ++ String.concat "-" (t2 :: ts))%string.
      apply from_bytes_app; [exact Ew|]. apply from_bytes_app; [reflexivity|exact EW].
    + rewrite !undot_app, U. reflexivity.
Qed.
Lemma line_parts dict ss ts ws : dictOKo dict -> Forall3 respelt ss ts ws -> Forall (unlisted dict) (map undot ws) ->
  exists ls vs, Forall2 (fun w l => pronounced libthai_ct w dict [] l) (between [hyphen] (map undot ws)) ls /\
    Forall3 heard ss (map undot ws) vs /\ Forall2 (@In SylString) (between [SylLiteral 1 [hyphen]] (map (fun v => [v]) vs)) ls.
Proof.
  intros D. induction 1 as [|s t w ss ts ws R F IH]; intros U; [exists [], []; repeat split; constructor|].
  inversion U as [|? ? U1 U2]; subst. destruct (IH U2) as (ls & vs & A1 & A2 & A3).
  destruct (shaped_pron dict (undot w) D (respelt_shape _ _ _ R)) as (l & P).
  destruct (proj1 (C62_reads_back s t w dict [] l (rs_well _ _ _ R) (rs_tone _ _ _ R) (rs_text _ _ _ R) (rs_letters _ _ _ R)
    ltac:(intros x []) D U1 P) (rs_even _ _ _ R)) as (v & I1 & H).
  destruct F as [|s2 t2 w2 ss ts ws R2 F].
  - inversion A2; subst. exists [l], [v]. split; [constructor; [exact P|constructor]|]. split; [constructor; [exact H|constructor]|].
    constructor; [exact I1|constructor].
  - inversion A2 as [|? ? v2 ? ? vs' H2 A2']; subst. cbn [map] in A1, A3.
    exists (l :: [[SylLiteral 1 [hyphen]]] :: ls), (v :: v2 :: vs'). split; [|split].
    + apply Forall2_cons; [exact P|]. apply Forall2_cons; [apply hyphen_pron|exact A1].
    + constructor; [exact H|exact A2].
    + apply Forall2_cons; [exact I1|]. apply Forall2_cons; [left; reflexivity|exact A3].
Qed.
Lemma C76_lemma ss ts ws W dict brk : ss <> [] -> Forall3 respelt ss ts ws -> from_bytes (String.concat "-" ts) = Ok W ->
  dictOKo dict -> Forall (unlisted dict) (map undot ws) -> sameBreaks libthai_ct (undot W) brk [] ->
  exists l vs, pronounced libthai_ct (undot W) dict brk l /\ Forall3 heard ss (map undot ws) vs /\ In (hyphened (map undot ws) vs) l.
Proof.
  intros Ne F EW D U Br. destruct (line_letters ss ts ws F Ne) as (W' & EW' & Eu). rewrite EW in EW'. injection EW' as <-.
  destruct (line_parts dict ss ts ws D F U) as (ls & vs & A1 & A2 & A3).
  assert (Sh : Forall shaped (map undot ws)).
  { clear - F. induction F as [|s t w ss ts ws R F IH]; [constructor|]. cbn [map]. constructor; [exact (respelt_shape _ _ _ R)|exact IH]. }
  pose proof (hyphened_sentence _ Sh) as Se. pose proof (sentence_nonempty _ _ Se) as Nn.
  assert (Nw : between [hyphen] (map undot ws) <> []).
  { inversion F as [|? ? w ? ? ws' R F']; subst; [congruence|]. cbn [map between]. destruct (map undot ws'); discriminate. }
  destruct (C55_word_by_word libthai_ct dict _ ls libthai_ok D Nw Se A1) as (l & P & H). rewrite <- Eu in P.
  exists l, vs. split; [|split; [exact A2|]].
  - apply (same_pronounced _ _ _ (wordEnds 0 (between [hyphen] (map undot ws)))); [exact libthai_ok| |exact P].
    destruct Br as [B1 _ B3 _ B5]. constructor; auto.
    + apply wordEnds_sorted. exact Nn.
    + apply Forall_forall. intros x Hx. apply wordEnds_le in Hx. rewrite Eu. exact Hx.
    + intros x Ix. rewrite (B5 x Ix). split; [|intros []]. intros Hx. exfalso. rewrite Eu in Ix.
      exact (hyphen_ends (map undot ws) [] x Hx Ix).
  - apply H. exists (between [SylLiteral 1 [hyphen]] (map (fun v => [v]) vs)). split; [exact A3|reflexivity].
Qed.
(** A line in Thai respelling, without its dots: the parser lists the same
    syllables, with literal hyphens between them. *)
Theorem C76_line_read_back ss ts ws W dict brk : ss <> [] -> Forall3 respelt ss ts ws -> from_bytes (String.concat "-" ts) = Ok W ->
  dictOKo dict -> Forall (unlisted dict) (map undot ws) -> sameBreaks libthai_ct (undot W) brk [] ->
  exists l vs, pronounced libthai_ct (undot W) dict brk l /\ Forall3 heard ss (map undot ws) vs /\ In (hyphened (map undot ws) vs) l.
Proof. exact (C76_lemma ss ts ws W dict brk). Qed.
Print Assumptions C76_line_read_back.
(** "axe" and "crow", as printed by the program; word breaks where libthai
    would put them. *)
Example C76_case : let ss := [SylOf KHA SEC_WA V_AA KON CHATTAWA 4; SylOf KA SEC_NONE V_AA EC_NONE SAMAN 2] in
  let ts := ["ขฺวาน"; "กา"]%string in let ws := [letters "ขฺวาน"; letters "กา"] in
  Forall3 respelt ss ts ws /\ from_bytes (String.concat "-" ts) = Ok (letters "ขฺวาน-กา") /\
  undot (letters "ขฺวาน-กา") = letters "ขวาน-กา" /\ dictOKo None /\ Forall (unlisted None) (map undot ws) /\
  sameBreaks libthai_ct (letters "ขวาน-กา") [4; 5; 7] [] /\
  hyphened (map undot ws) ss = [SylOf KHA SEC_WA V_AA KON CHATTAWA 4; SylLiteral 5 [hyphen]; SylOf KA SEC_NONE V_AA EC_NONE SAMAN 7].
Proof.
  cbv zeta. split; [|split; [vm_compute; reflexivity|split; [vm_compute; reflexivity|split; [intros d E; discriminate E|split; [|split]]]]].
  - constructor; [|constructor; [|constructor]]; constructor.
    + wf.
    + discriminate.
    + vm_compute; reflexivity.
    + vm_compute; reflexivity.
    + intros O. apply oddB_ok in O. vm_compute in O. discriminate.
    + wf.
    + intros _. vm_compute. reflexivity.
    + vm_compute; reflexivity.
    + vm_compute; reflexivity.
    + intros O. apply oddB_ok in O. vm_compute in O. discriminate.
  - repeat constructor; apply unlisted_none.
  - apply sameBreaksb_sound. vm_compute. reflexivity.
  - vm_compute. reflexivity.
Qed.

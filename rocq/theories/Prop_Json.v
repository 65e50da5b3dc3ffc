(** Prop_Json.v - property C104: for which texts JSON output is right. *)
From Coq Require Import List NArith ZArith Bool String Ascii Lia Arith Sorted.
From Verif Require Import Base ThUni ThCons Syl Utf Lattice Dag PronDag SylOut ThaiOut Output Dict GenDict Parser Cli.
From Verif Require Import Spec OrderProofs DictProofs PathProofs GroupProofs GroupSyl Prop_Syl Wp ParserSpec ParserFacts ParserInv ParserResult ParserListed
  ParserDict ParserLiteral UtfProofs.
From Verif Require Import Prop_Parser Prop_Notation Prop_Graph Prop_Output Prop_Cli Prop_Cli2 Prop_Roman Prop_Codes Prop_Listing
  Prop_Product Grammar GrammarWord TextGrammar TextProof Prop_Every Prop_Grammar Prop_Text Prop_Breaks Prop_Program Prop_ProgramJson Prop_ProgramEvery.
Import ListNotations.
Local Open Scope string_scope.
Local Open Scope list_scope.
Local Open Scope nat_scope.

(** ** JSON *)
(** The strings and arrays of RFC 8259: white space, escapes, and \u with one
    unit or a surrogate pair. *)
Definition hexDigit (c : ascii) : option N :=
  let n := N_of_ascii c in
  if (48 <=? n)%N && (n <=? 57)%N then Some (n - 48)%N
  else if (65 <=? n)%N && (n <=? 70)%N then Some (n - 55)%N
  else if (97 <=? n)%N && (n <=? 102)%N then Some (n - 87)%N else None.
Inductive Hex4 : string -> N -> Prop :=
| H4 a b c d x y z t : hexDigit a = Some x -> hexDigit b = Some y -> hexDigit c = Some z -> hexDigit d = Some t ->
    Hex4 (String a (String b (String c (String d "")))) (4096 * x + 256 * y + 16 * z + t)%N.
Definition backslash : ascii := ascii_of_nat 92.
Definition uEscape (h : string) : string := String backslash (String "u" h).
(** Between the quotes, and what it stands for. *)
Inductive Body : string -> string -> Prop :=
| B_end : Body "" ""
| B_char c s t : isQuote c = false -> isBackslash c = false -> isControl c = false -> Body s t -> Body (String c s) (String c t)
| B_short e x s t : escChar e = Some x -> Body s t -> Body (String backslash (String e s)) (String x t)
| B_unit h n s t : Hex4 h n -> (n < 0xD800 \/ 0xDFFF < n)%N -> Body s t -> Body (uEscape h ++ s) (utf8Encode [n] ++ t)
| B_pair h1 h2 m n s t : Hex4 h1 m -> Hex4 h2 n -> (0xD800 <= m < 0xDC00)%N -> (0xDC00 <= n < 0xE000)%N -> Body s t ->
    Body (uEscape h1 ++ uEscape h2 ++ s) (utf8Encode [0x10000 + (m - 0xD800) * 0x400 + (n - 0xDC00)]%N ++ t).
Definition isSpace (c : ascii) : bool := existsb (N.eqb (N_of_ascii c)) [32; 9; 10; 13]%N.
Fixpoint space (s : string) : bool := match s with EmptyString => true | String c s' => isSpace c && space s' end.
Inductive Denotes : string -> Json -> Prop :=
| D_str b t : Body b t -> Denotes (dquote ++ b ++ dquote) (JStr t)
| D_none a : space a = true -> Denotes ("[" ++ a ++ "]") (JArr [])
| D_some s l : Elements s l -> Denotes ("[" ++ s ++ "]") (JArr l)
with Elements : string -> list Json -> Prop :=
| E_last a s b j : space a = true -> Denotes s j -> space b = true -> Elements (a ++ s ++ b) [j]
| E_next a s b j s' l : space a = true -> Denotes s j -> space b = true -> Elements s' l -> Elements (a ++ s ++ b ++ "," ++ s') (j :: l).
Scheme Denotes_ind2 := Induction for Denotes Sort Prop with Elements_ind2 := Induction for Elements Sort Prop.
Combined Scheme Denotes_Elements from Denotes_ind2, Elements_ind2.
(** A JSON text for a value. *)
Definition JsonText (s : string) (j : Json) : Prop :=
  exists a b c, s = (a ++ b ++ c)%string /\ space a = true /\ Denotes b j /\ space c = true.

(** *** One value at most *)
Lemma hex4_fun h n n' : Hex4 h n -> Hex4 h n' -> n = n'.
Proof. intros [? ? ? ? ? ? ? ? A B C D] H. inversion H; subst. congruence. Qed.
Lemma hex4_len h n : Hex4 h n -> String.length h = 4.
Proof. intros [? ? ? ? ? ? ? ? A B C D]. reflexivity. Qed.
Lemma app_len_inv a b r r' : String.length a = String.length b -> (a ++ r)%string = (b ++ r')%string -> a = b /\ r = r'.
Proof.
  revert b. induction a as [|c a IH]; intros [|c' b] L E; cbn in L, E; try discriminate L; [auto|].
  injection E as -> E. injection L as L. destruct (IH b L E) as (-> & ->). auto.
Qed.
Lemma sapp_inv a r r' : (a ++ r)%string = (a ++ r')%string -> r = r'.
Proof. intros E. apply (app_len_inv a a r r' eq_refl E). Qed.
Lemma esc_u : escChar "u" = None.
Proof. reflexivity. Qed.
Lemma bs_bs : isBackslash backslash = true.
Proof. reflexivity. Qed.
Lemma body_fun s t : Body s t -> forall s' t' r r', Body s' t' -> (s ++ dquote ++ r)%string = (s' ++ dquote ++ r')%string -> s = s' /\ t = t'.
Proof.
  assert (Q : forall x r r', (dquote ++ r)%string = String x r' -> isQuote x = true /\ isBackslash x = false)
    by (intros x r r' E; injection E as <- _; split; reflexivity).
  induction 1 as [|c s t Q1 B1 C1 H IH|e x s t Ee H IH|h n s t Hh Hn H IH|h1 h2 m n s t Hh1 Hh2 Hm Hn H IH];
    intros s' t' r r' H' E; destruct H' as [|c' s' t' Q2 B2 C2 H'|e' x' s' t' Ee' H'|h' n' s' t' Hh' Hn' H'|h1' h2' m' n' s' t' Hh1' Hh2' Hm' Hn' H'];
    unfold uEscape in E; rewrite ?sapp_assoc in E; cbn [String.append] in E;
    try (apply Q in E; destruct E as (E1 & E2); first [congruence|discriminate E1]); try (symmetry in E; apply Q in E; destruct E as (E1 & E2); first [congruence|discriminate E1]); auto.
  - injection E as -> E. destruct (IH _ _ _ _ H' E) as (-> & ->). auto.
  - injection E as -> E. discriminate B1.
  - injection E as -> E. discriminate B1.
  - injection E as -> E. discriminate B1.
  - injection E as <- E. discriminate B2.
  - injection E as -> E. assert (x' = x) by congruence. subst. destruct (IH _ _ _ _ H' E) as (-> & ->). auto.
  - injection E as -> E. discriminate Ee.
  - injection E as -> E. discriminate Ee.
  - injection E as <- E. discriminate B2.
  - injection E as <- E. discriminate Ee'.
  - injection E as E. apply app_len_inv in E; [|rewrite (hex4_len _ _ Hh), (hex4_len _ _ Hh'); reflexivity]. destruct E as (<- & E).
    rewrite <- (hex4_fun _ _ _ Hh Hh'). destruct (IH _ _ _ _ H' E) as (-> & ->). auto.
  - injection E as E. apply app_len_inv in E; [|rewrite (hex4_len _ _ Hh), (hex4_len _ _ Hh1'); reflexivity]. destruct E as (<- & E).
    pose proof (hex4_fun _ _ _ Hh Hh1'). lia.
  - injection E as <- E. discriminate B2.
  - injection E as <- E. discriminate Ee'.
  - injection E as E. apply app_len_inv in E; [|rewrite (hex4_len _ _ Hh1), (hex4_len _ _ Hh'); reflexivity]. destruct E as (<- & E).
    pose proof (hex4_fun _ _ _ Hh1 Hh'). lia.
  - injection E as E. apply app_len_inv in E; [|rewrite (hex4_len _ _ Hh1), (hex4_len _ _ Hh1'); reflexivity]. destruct E as (<- & E).
    unfold uEscape in E. rewrite ?sapp_assoc in E. cbn [String.append] in E.
    injection E as E. apply app_len_inv in E; [|rewrite (hex4_len _ _ Hh2), (hex4_len _ _ Hh2'); reflexivity]. destruct E as (<- & E).
    rewrite <- (hex4_fun _ _ _ Hh1 Hh1'), <- (hex4_fun _ _ _ Hh2 Hh2'). destruct (IH _ _ _ _ H' E) as (-> & ->). auto.
Qed.
(** [s] does not begin with white space. *)
Definition tight (s : string) : Prop := exists c r, s = String c r /\ isSpace c = false.
Lemma space_split a : space a = true -> forall b r r', space b = true -> tight r -> tight r' -> (a ++ r)%string = (b ++ r')%string -> a = b /\ r = r'.
Proof.
  induction a as [|c a IH]; intros Sa [|c' b] r r' Sb T T' E; cbn [space] in Sa, Sb; cbn [String.append] in E; auto.
  - destruct T as (x & y & -> & T). injection E as -> E. rewrite T in Sb. discriminate Sb.
  - destruct T' as (x & y & -> & T'). injection E as -> E. rewrite T' in Sa. discriminate Sa.
  - apply andb_true_iff in Sa, Sb. injection E as -> E. destruct (IH (proj2 Sa) b r r' (proj2 Sb) T T' E) as (-> & ->). auto.
Qed.
Lemma tight_app s r : tight s -> tight (s ++ r).
Proof. intros (c & q & -> & H). exists c, (q ++ r)%string. split; [reflexivity|exact H]. Qed.
Lemma denotes_first s j : Denotes s j -> exists c r, s = String c r /\ isSpace c = false /\ c <> "]"%char.
Proof. destruct 1; eexists _, _; (split; [reflexivity|]); split; try reflexivity; discriminate. Qed.
Lemma denotes_tight s j r : Denotes s j -> tight (s ++ r).
Proof. intros H. apply tight_app. destruct (denotes_first s j H) as (c & q & E & S & _). exists c, q. auto. Qed.
Lemma mark_tight c r : isSpace c = false -> tight (String c r).
Proof. intros H. exists c, r. auto. Qed.
Lemma elements_not_end s l a r r' : Elements s l -> space a = true -> (s ++ r)%string = (a ++ "]" ++ r')%string -> False.
Proof.
  intros H Sa E. assert (X : exists b q j p, s = (b ++ q ++ p)%string /\ space b = true /\ Denotes q j) by (destruct H; eauto 8).
  destruct X as (b & q & j & p & -> & Sb & Dq). rewrite !sapp_assoc in E.
  apply space_split in E; auto; [|eapply denotes_tight; exact Dq|apply mark_tight; reflexivity].
  destruct E as (_ & E). destruct (denotes_first q j Dq) as (c & x & -> & _ & N). injection E as E _. contradiction.
Qed.
Lemma denotes_fun :
  (forall s j, Denotes s j -> forall s' j' r r', Denotes s' j' -> (s ++ r)%string = (s' ++ r')%string -> s = s' /\ j = j') /\
  (forall s l, Elements s l -> forall s' l' r r', Elements s' l' -> (s ++ "]" ++ r)%string = (s' ++ "]" ++ r')%string -> s = s' /\ l = l').
Proof.
  apply Denotes_Elements.
  - intros b t B s' j' r r' [b' t' B'|a' S'|s2 l' H'] E; rewrite !sapp_assoc in E; cbn [String.append] in E; [|discriminate E|discriminate E].
    injection E as E. destruct (body_fun b t B b' t' r r' B' E) as (-> & ->). auto.
  - intros a S s' j' r r' [b' t' B'|a' S'|s2 l' H'] E; rewrite !sapp_assoc in E; cbn [String.append] in E; [discriminate E| |]; injection E as E.
    + apply space_split in E; auto; [|apply mark_tight; reflexivity|apply mark_tight; reflexivity]. destruct E as (-> & _). auto.
    + exfalso. symmetry in E. exact (elements_not_end s2 l' a _ r H' S E).
  - intros s l H IH s' j' r r' [b' t' B'|a' S'|s2 l' H'] E; rewrite !sapp_assoc in E; cbn [String.append] in E; [discriminate E| |]; injection E as E.
    + exfalso. exact (elements_not_end s l a' _ r' H S' E).
    + destruct (IH s2 l' r r' H' E) as (-> & ->). auto.
  - intros a s b j Sa H IH Sb s' l' r r' H' E. destruct H' as [a' s1 b' j' Sa' H1 Sb'|a' s1 b' j' s2 l' Sa' H1 Sb' H2]; rewrite !sapp_assoc in E;
      (apply space_split in E; auto; [|eapply denotes_tight; eassumption|eapply denotes_tight; eassumption]); destruct E as (-> & E);
      destruct (IH _ _ _ _ H1 E) as (-> & ->); apply sapp_inv in E;
      (apply space_split in E; auto; [|apply mark_tight; reflexivity|apply mark_tight; reflexivity]); destruct E as (-> & E); [auto|discriminate E].
  - intros a s b j s0 l Sa H IH Sb Hl IHl s' l' r r' H' E. destruct H' as [a' s1 b' j' Sa' H1 Sb'|a' s1 b' j' s2 l' Sa' H1 Sb' H2]; rewrite !sapp_assoc in E;
      (apply space_split in E; auto; [|eapply denotes_tight; eassumption|eapply denotes_tight; eassumption]); destruct E as (-> & E);
      destruct (IH _ _ _ _ H1 E) as (-> & ->); apply sapp_inv in E;
      (apply space_split in E; auto; [|apply mark_tight; reflexivity|apply mark_tight; reflexivity]); destruct E as (-> & E); [discriminate E|].
    injection E as E. destruct (IHl _ _ _ _ H2 E) as (-> & ->). auto.
Qed.
Lemma json_fun s j j' : JsonText s j -> JsonText s j' -> j = j'.
Proof.
  intros (a & b & c & E & Sa & Db & Sc) (a' & b' & c' & E' & Sa' & Db' & Sc'). rewrite E in E'.
  apply space_split in E'; auto; [|eapply denotes_tight; eassumption|eapply denotes_tight; eassumption].
  destruct E' as (_ & E'). exact (proj2 (proj1 denotes_fun b j Db b' j' c c' Db' E')).
Qed.

(** *** Writing without escapes *)
Lemma body_plain s : plain s = true -> Body s s.
Proof.
  induction s as [|c s IH]; [constructor|]. cbn [plain]. unfold plainChar. rewrite !andb_true_iff, !negb_true_iff.
  intros (((Q & B) & C) & H). constructor; auto.
Qed.
Lemma denotes_enc j : plainJ j = true -> Denotes (enc j) j.
Proof.
  induction j as [s|l IH] using Json_ind'; intros P; cbn [enc plainJ] in *; [constructor; apply body_plain; exact P|].
  destruct l as [|x l]; [apply (D_none ""); reflexivity|]. apply D_some.
  revert x IH P. induction l as [|y l IHl]; intros x F P; inversion F as [|? ? Fx Fl]; subst; cbn [forallb] in P; apply andb_true_iff in P; destruct P as (Px & Pl).
  - cbn [map String.concat]. rewrite <- (sapp_nil (enc x)). apply (E_last "" (enc x) ""); auto.
  - change (map enc (x :: y :: l)) with (enc x :: map enc (y :: l)). rewrite concat_cons. cbn match. cbn [map].
    apply (E_next "" (enc x) ""); auto. exact (IHl y Fl Pl).
Qed.
Lemma utf8_len n : 1 <= String.length (utf8Encode [n]) <= 4.
Proof.
  unfold utf8Encode. cbn [flat_map]. rewrite app_nil_r. unfold utf8EncodeCp.
  destruct (n <? 0x80)%N; [cbn; lia|]. destruct (n <? 0x800)%N; [cbn; lia|]. destruct (n <? 0x10000)%N; cbn; lia.
Qed.
Lemma body_len s t : Body s t -> String.length t <= String.length s /\ (String.length t = String.length s -> plain t = true).
Proof.
  induction 1 as [|c s t Q1 B1 C1 H IH|e x s t Ee H IH|h n s t Hh Hn H IH|h1 h2 m n s t Hh1 Hh2 Hm Hn H IH].
  - split; [cbn; lia|reflexivity].
  - cbn [String.length plain]. unfold plainChar. rewrite Q1, B1, C1. cbn. split; [lia|]. intros E. apply IH. lia.
  - cbn [String.length]. split; lia.
  - unfold uEscape. cbn [String.append String.length]. rewrite !slen_app, (hex4_len _ _ Hh). pose proof (utf8_len n) as L. split; lia.
  - unfold uEscape. cbn [String.append String.length]. rewrite !slen_app. cbn [String.length]. rewrite !slen_app, (hex4_len _ _ Hh1), (hex4_len _ _ Hh2).
    match goal with |- context [utf8Encode [?k]] => pose proof (utf8_len k) as L end. split; lia.
Qed.
Lemma denotes_len :
  (forall s j, Denotes s j -> String.length (enc j) <= String.length s /\ (String.length (enc j) = String.length s -> plainJ j = true)) /\
  (forall s l, Elements s l -> String.length (String.concat "," (map enc l)) <= String.length s /\
     (String.length (String.concat "," (map enc l)) = String.length s -> forallb plainJ l = true)).
Proof.
  apply Denotes_Elements.
  - intros b t B. destruct (body_len b t B) as (L & P). cbn [enc plainJ]. rewrite !slen_app. split; [lia|]. intros E. apply P. lia.
  - intros a S. cbn [enc plainJ map String.concat forallb]. rewrite !slen_app. cbn [String.length]. split; [lia|reflexivity].
  - intros s l H (L & P). cbn [enc plainJ]. rewrite !slen_app. split; [lia|]. intros E. apply P. lia.
  - intros a s b j Sa H (L & P) Sb. cbn [map String.concat forallb]. rewrite !slen_app, andb_true_r. split; [lia|]. intros E. apply P. lia.
  - intros a s b j s' l Sa H (L & P) Sb Hl (Ll & Pl). cbn [map forallb]. rewrite concat_cons. destruct l as [|y l]; [inversion Hl|].
    change (map enc (y :: l)) with (enc y :: map enc l) in *. cbn match. rewrite !slen_app. cbn [String.length].
    split; [lia|]. intros E. rewrite P, Pl by lia. reflexivity.
Qed.
(** Text written without escapes is JSON for what it was written for exactly
    when nothing in it needed escaping. *)
Lemma json_enc j : JsonText (enc j) j <-> plainJ j = true.
Proof.
  split.
  - intros (a & b & c & E & _ & H & _). destruct (proj1 denotes_len b j H) as (L & P). apply P.
    apply (f_equal String.length) in E. rewrite !slen_app in E. lia.
  - intros P. exists "", (enc j), "". rewrite sapp_nil. repeat split; try reflexivity. apply denotes_enc. exact P.
Qed.

(** ** Copied text in the output *)
Lemma special_foreign c : ~ plainUnit c -> tokenChar libthai_ct c = false.
Proof.
  intros N. assert (L : (c < 93)%N) by (unfold plainUnit in N; lia).
  assert (T : forallb (fun k => (k =? 46)%N || negb (tokenChar libthai_ct k)) (map N.of_nat (seq 0 93)) = true) by (vm_compute; reflexivity).
  rewrite forallb_forall in T. specialize (T c). assert (I : In c (map N.of_nat (seq 0 93))).
  { apply in_map_iff. exists (N.to_nat c). split; [apply N2Nat.id|apply in_seq; lia]. }
  specialize (T I). apply orb_true_iff in T. destruct T as [T|T]; [|apply negb_true_iff; exact T].
  apply N.eqb_eq in T. subst c. exfalso. apply N. unfold plainUnit. lia.
Qed.
Lemma copied_text f v u : In f notations -> literal v <> [] -> outputLiteral (literal v) = Ok ("(" ++ u ++ ")")%string ->
  plain (textOf f v) = true -> plain u = true.
Proof.
  intros If N O.
  assert (Bl : syl_eqb v Blank = false).
  { destruct (syl_eqb v Blank) eqn:E; [|reflexivity]. apply blank_iff in E. unfold isBlank, spoken in E.
    destruct (literal v); [contradiction (N eq_refl)|]. discriminate E. }
  assert (L : isLiteral v = true) by (unfold isLiteral; destruct (literal v); [contradiction (N eq_refl)|reflexivity]).
  unfold textOf. cbn in If. repeat destruct If as [<-|If]; try contradiction;
    unfold RawOutput, PhoneticOutput, RomanSylOutput, SoundexOutput, ThaiOutput; rewrite ?Bl, L, O; cbn [bind];
    rewrite !plain_app; rewrite ?andb_true_iff; tauto.
Qed.
Section Copied.
Variables (bytes : string) (w : list N) (dict : option Dict) (brk : list nat) (l : list SylString) (f : Syl -> Res string).
Hypothesis D : dictOKo dict.
Hypothesis B : from_bytes bytes = Ok w.
Hypothesis P : pronounced libthai_ct w dict brk l.
Hypothesis If : In f notations.
Lemma shows s v : In s l -> In v s -> Prop_Output.says f (textOf f) v.
Proof.
  intros Is Iv. pose proof (C15_lemma2 libthai_ct bytes w dict brk l s v libthai_ok D B P Is Iv) as W. rewrite Forall_forall in W.
  destruct (W f If) as (t & E & _). unfold Prop_Output.says, textOf. rewrite E. reflexivity.
Qed.
(** Copied text shows in every notation. *)
Lemma copied_plain s v : In s l -> In v s -> plain (textOf f v) = true -> Forall plainUnit (literal v).
Proof.
  intros Is Iv. destruct (literal v) as [|x lv] eqn:El; [constructor|]. rewrite <- El.
  assert (N : literal v <> []) by (rewrite El; discriminate).
  destruct (C44_lemma2 libthai_ct bytes w dict brk l s v libthai_ok D B P Is Iv N) as (u & U1 & U2 & O).
  intros Pl. apply (plain_text u (literal v) U2). exact (copied_text f v u If N O Pl).
Qed.
(** One pronunciation shows every special character of the text. *)
Lemma plain_one s : In s l -> (forall v, In v s -> Forall plainUnit (literal v)) -> plain bytes = true.
Proof.
  intros Is H. apply (plain_text bytes w B). apply Forall_forall. intros c Ic.
  destruct (N.eq_dec c 34) as [E1|E1]; [|destruct (N.eq_dec c 92) as [E2|E2]; [|destruct (N.le_gt_cases 32 c) as [E3|E3]; [unfold plainUnit; auto|]]];
  (exfalso; assert (Np : ~ plainUnit c) by (unfold plainUnit; lia); apply In_nth_error in Ic; destruct Ic as (k & Ek);
   assert (Nt : ~ tokenAt libthai_ct w k) by (intros (c' & Ec & T); rewrite Ek in Ec; injection Ec as <-; rewrite (special_foreign c Np) in T; discriminate T);
   destruct (C28_nothing_dropped libthai_ct w dict brk l s k c libthai_ok D P Is Ek Nt) as (s1 & v & s2 & b & Es & _ & _ & En);
   assert (Iv : In v s) by (rewrite Es; apply in_or_app; right; left; reflexivity);
   specialize (H v Iv); rewrite Forall_forall in H; apply Np, H; eapply nth_error_In; exact En).
Qed.
End Copied.

(** ** C104: for which texts JSON output is right *)
Lemma plain_arr_inv {A} (g : A -> Json) l x : plainJ (JArr (map g l)) = true -> In x l -> plainJ (g x) = true.
Proof. cbn [plainJ]. intros H I. rewrite forallb_forall in H. apply H. apply in_map. exact I. Qed.
Lemma C104_lemma bytes w dict brk fuel d f flat latt : dictOKo dict -> In f notations -> from_bytes bytes = Ok w ->
  ParseU16F libthai_ct fuel w dict brk = Ok d -> DAGSylStrings d 0 = Ok flat -> grouped d = Ok latt ->
  (flat <> [] -> exists out, jsonOutputDAG f d = Ok out /\ out = enc (jlist (textOf f) flat) /\
    (JsonText out (jlist (textOf f) flat) <-> plain bytes = true)) /\
  (exists out, gjsonOutputDAG f d = Ok out /\ out = enc (jlatt (textOf f) latt) /\
    (JsonText out (jlatt (textOf f) latt) <-> flat = [] \/ plain bytes = true)).
Proof.
  intros D Hf B E L G.
  destruct (flat_good libthai_ct w dict brk fuel d D E) as (l & El & P & Ne & Ed). rewrite L in El. injection El as <-.
  destruct (C26_acyclic_rooted libthai_ct w dict brk fuel d D E) as (A & Nr & _).
  destruct (grouped_good (fun v => exists s, In s flat /\ In v s) d A ltac:(intros x y v H; exact (Ed x y v H))) as (fd & latt' & E1 & E2 & H).
  destruct (C11_grouping_preserves d A Nr) as (latt2 & flat2 & G2 & L2 & Q). rewrite L in L2. injection L2 as <-. rewrite G in G2. injection G2 as <-.
  unfold grouped in G. rewrite E1 in G. cbv beta iota delta [bind] in G. rewrite E2 in G. injection G as <-.
  assert (X : forall c g s v, In c latt' -> In g c -> In s (alts g) -> In v s -> exists s0, In s0 flat /\ In v s0).
  { intros c g s v Ic Ig Is Iv. destruct (H c Ic) as (_ & F). rewrite Forall_forall in F. destruct (F g Ig) as (_ & Y). unfold fracP in Y.
    rewrite Forall_forall in Y. specialize (Y s Is). rewrite Forall_forall in Y. exact (Y v Iv). }
  split.
  - intros Nf. exists (enc (jlist (textOf f) flat)). split; [|split; [reflexivity|]].
    + unfold jsonOutputDAG. rewrite L. cbn [bind]. apply list_enc; [exact Nf|]. apply Forall_forall. intros s Is. split; [exact (Ne s Is)|].
      apply Forall_forall. intros v Iv. exact (shows bytes w dict brk flat f D B P Hf s v Is Iv).
    + rewrite json_enc. split.
      * intros Pl. destruct flat as [|s flat]; [congruence|]. apply (plain_one bytes w dict brk (s :: flat) D B P s); [left; reflexivity|].
        intros v Iv. apply (copied_plain bytes w dict brk (s :: flat) f D B P Hf s v); [left; reflexivity|exact Iv|].
        exact (plain_arr_inv (fun v => JStr (textOf f v)) s v (plain_arr_inv (jword (textOf f)) (s :: flat) s Pl (or_introl eq_refl)) Iv).
      * intros Pb. apply plain_jlist. intros s v Is Iv. apply (parse_plain libthai_ct bytes w dict brk flat f s v libthai_ok D Pb B P Hf Is Iv).
  - exists (enc (jlatt (textOf f) latt')). split; [|split; [reflexivity|]].
    + unfold gjsonOutputDAG. rewrite E1. cbn [bind]. rewrite E2. cbn [bind]. apply latt_enc. intros c g s Ic Ig Is. destruct (H c Ic) as (_ & F).
      rewrite Forall_forall in F. destruct (F g Ig) as ((_ & N) & _). rewrite Forall_forall in N. split; [exact (N s Is)|].
      apply Forall_forall. intros v Iv. destruct (X c g s v Ic Ig Is Iv) as (s0 & I0 & V0). exact (shows bytes w dict brk flat f D B P Hf s0 v I0 V0).
    + rewrite json_enc. split.
      * intros Pl. destruct flat as [|s flat]; [left; reflexivity|right].
        destruct (proj2 (Q s)) as (c & Ic & s' & Ds & Eq); [exists s; split; [left; reflexivity|apply str_eqb_spoken; reflexivity]|].
        apply (plain_one bytes w dict brk (s :: flat) D B P s); [left; reflexivity|]. intros v Iv.
        apply str_eqb_spoken in Eq. 
        assert (V : exists v', In v' s' /\ spoken v' = spoken v).
        { apply (in_map spoken) in Iv. rewrite <- Eq in Iv. apply in_map_iff in Iv. destruct Iv as (v' & E' & I'). eauto. }
        destruct V as (v' & Iv' & Sv). assert (Lv : literal v = literal v') by (unfold spoken in Sv; destruct (literal v'), (literal v); congruence). rewrite Lv.
        assert (Y : exists g a, In g c /\ In a (alts g) /\ In v' a).
        { clear - Ds Iv'. induction Ds as [|g c a s2 Ia Ds IH]; [destruct Iv'|]. apply in_app_or in Iv'. destruct Iv' as [Iv'|Iv'].
          - exists g, a. split; [left; reflexivity|]. auto.
          - destruct (IH Iv') as (g' & a' & I1 & I2 & I3). exists g', a'. split; [right; exact I1|]. auto. }
        destruct Y as (g & a & Ig & Ia & Iva). destruct (X c g a v' Ic Ig Ia Iva) as (s0 & I0 & V0).
        apply (copied_plain bytes w dict brk (s :: flat) f D B P Hf s0 v' I0 V0).
        pose proof (plain_arr_inv (jchain (textOf f)) latt' c Pl Ic) as Pc. pose proof (plain_arr_inv (fun f0 => jlist (textOf f) (alts f0)) c g Pc Ig) as Pg.
        pose proof (plain_arr_inv (jword (textOf f)) (alts g) a Pg Ia) as Pa. exact (plain_arr_inv (fun v => JStr (textOf f v)) a v' Pa Iva).
      * intros Pb. apply plain_jlatt. intros c g s v Ic Ig Is Iv. destruct (X c g s v Ic Ig Is Iv) as (s0 & I0 & V0).
        destruct Pb as [Pb|Pb]; [rewrite Pb in I0; destruct I0|].
        apply (parse_plain libthai_ct bytes w dict brk flat f s0 v libthai_ok D Pb B P Hf I0 V0).
Qed.
(** JSON output is the value of the pronunciations written without escapes; it
    is JSON for that value if and only if the text is without quotes,
    backslashes and control characters. *)
Theorem C104_json bytes w dict brk fuel d f flat latt : dictOKo dict -> In f notations -> from_bytes bytes = Ok w ->
  ParseU16F libthai_ct fuel w dict brk = Ok d -> DAGSylStrings d 0 = Ok flat -> grouped d = Ok latt ->
  (flat <> [] -> exists out, jsonOutputDAG f d = Ok out /\ out = enc (jlist (textOf f) flat) /\
    (JsonText out (jlist (textOf f) flat) <-> plain bytes = true)) /\
  (exists out, gjsonOutputDAG f d = Ok out /\ out = enc (jlatt (textOf f) latt) /\
    (JsonText out (jlatt (textOf f) latt) <-> flat = [] \/ plain bytes = true)).
Proof. exact (C104_lemma bytes w dict brk fuel d f flat latt). Qed.
Print Assumptions C104_json.
(** A JSON text has one value at most. *)
Theorem C104_one_value s j j' : JsonText s j -> JsonText s j' -> j = j'.
Proof. exact (json_fun s j j'). Qed.
Print Assumptions C104_one_value.

(** *** The program *)
(** The line is the value written without escapes, and JSON for it if the text
    allows. *)
Definition jsonFor (l : list SylString) (word o : string) (j : Json) : Prop :=
  o = enc j /\ (JsonText o j <-> l = [] \/ plain word = true).
Definition jsonLines dict b (cs : list ascii) (word text : string) : Prop :=
  ~ hopeless dict b word /\ exists l outs, allReadings dict b word l /\ l <> [] /\ flatValuesBy (jsonFor l word) cs l outs /\ text = frame word outs.
Definition chainLines dict b (cs : list ascii) (word text : string) : Prop :=
  ~ hopeless dict b word /\ exists l outs, allReadings dict b word l /\ groupValuesBy (jsonFor l word) cs l outs /\ text = frame word outs.
Lemma listing_any dict b cs word w l st : dictOKo dict -> Forall (fun c => In c notationLetters) cs ->
  from_bytes word = Ok w -> (101 * Z.of_nat (List.length w) < 2 ^ 31)%Z -> pronounced libthai_ct w dict (b w) l ->
  st = Flat /\ l <> [] \/ st = Grouped ->
  exists fuel0 outs, match st with Flat => flatValuesBy (jsonFor l word) cs l outs | _ => groupValuesBy (jsonFor l word) cs l outs end /\
    forall fuel, fuel0 <= fuel -> saidOf (parseWordF libthai_ct fuel dict b) st cs word (frame word outs).
Proof.
  intros D F B Size P. apply (listing_by (jsonFor l word) dict b cs word w l st); auto. intros fuel d f flat latt E Hf L G.
  assert (El : flat = l) by (apply (pron_fun libthai_ct w dict (b w) flat l); [exists fuel, d; auto|exact P]). subst flat.
  destruct (C104_lemma word w dict (b w) fuel d f l latt D Hf B E L G) as (H1 & out & O & Eo & H2). split.
  - intros N. destruct (H1 N) as (out1 & O1 & E1 & H). exists out1. split; [exact O1|]. split; [exact E1|]. rewrite H. tauto.
  - exists out. split; [exact O|]. split; [exact Eo|exact H2].
Qed.
Lemma C104_lemma2 breaker VERSION default files stdin prog args cs words path b dict loaded :
  Forall accepted args -> structureIs args Flat -> wanted args cs ->
  wordsAre stdin args words -> dictIs default args path -> DictOpen (files path) = Ok (dict, loaded) -> dictOK dict ->
  breaksFor breaker args b -> Forall (modest b) words ->
  exists fuel0 pre texts post e, words = pre ++ post /\ warning default args loaded e /\
    Forall2 (jsonLines (Some dict) b cs) pre texts /\
    ((post = [] /\ forall fuel, fuel0 <= fuel ->
        main libthai_ct breaker VERSION default files stdin fuel (prog :: args) = mkRun (String.concat "" texts) e (Ok 0%Z)) \/
     (exists bad rest, post = bad :: rest /\ hopeless (Some dict) b bad /\ forall fuel, fuel0 <= fuel ->
        main libthai_ct breaker VERSION default files stdin fuel (prog :: args)
        = mkRun (String.concat "" texts ++ bad ++ ":" ++ nl) e Throw) \/
     (exists bad rest, post = bad :: rest /\ ~ hopeless (Some dict) b bad /\ allReadings (Some dict) b bad [] /\
        forall fuel, fuel0 <= fuel -> rRes (main libthai_ct breaker VERSION default files stdin fuel (prog :: args)) = UB)).
Proof.
  intros A S Wa W Di O OK B M. pose proof (wanted_in args cs Wa) as F. pose proof (wanted_some args cs Wa) as Nc.
  assert (D : dictOKo (Some dict)) by (intros d' H; injection H as <-; exact OK).
  destruct (program_total dict b cs Flat breaker (jsonLines (Some dict) b cs)
    (fun word h => hopeless (Some dict) b word /\ h = Exception \/ (~ hopeless (Some dict) b word /\ allReadings (Some dict) b word []) /\ h = Undefined)
    VERSION default files stdin prog args words path loaded A S Wa W Di O B) as (f & pre & texts & post & e & E & We & An & R).
  - rewrite Forall_forall in *. intros word Hw. destruct (word_cases (Some dict) b word D (M word Hw)) as [(Ho & f & T)|(NH & w & l & Eb & Size & P & Rd)].
    + exists f. right. exists Exception. split; [auto|]. intros fuel L. apply throw_off, T, L.
    + assert (Cl : l = [] \/ l <> []) by (destruct l; [left; reflexivity|right; discriminate]). destruct Cl as [->|Nl].
      * destruct P as (f1 & d & E & L). destruct (C23_lemma libthai_ct w (Some dict) (b w)) as (r & f2 & _ & St & Al).
        assert (Er : r = Ok d) by (destruct (Al f1) as [X|X]; congruence). subst r.
        exists f2. right. exists Undefined. split; [auto|]. intros fuel Lf p Pp. unfold DoParse. rewrite Pp. unfold parseWordF.
        rewrite Eb. cbn [bind]. rewrite (St fuel Lf). destruct cs as [|c cs']; [congruence|].
        destruct (flat_out c (F c (or_introl eq_refl))) as (g & Ig & Eg). cbn [flat_map]. rewrite Eg.
        destruct (C21_parse_json libthai_ct word w (Some dict) (b w) f1 d g libthai_ok D Ig Eb E) as (l1 & out1 & E1 & _ & U & _).
        rewrite L in E1. injection E1 as <-. cbn [app printAll outputDAG].
        rewrite rbind_out, rbind_ok, (U eq_refl). cbn. rewrite !sapp_nil. reflexivity.
      * destruct (listing_any (Some dict) b cs word w l Flat D ltac:(rewrite Forall_forall; exact F) Eb Size P) as (f & outs & V & Sa); [auto|].
        exists f. left. eexists. split; [|exact Sa]. split; [exact NH|]. exists l, outs. auto.
  - exists f, pre, texts, post, e. split; [exact E|]. split; [exact We|]. split; [exact An|].
    destruct R as [R|(bad & rest & h & Ep & [(Ho & ->)|((Ho & Rd) & ->)] & R)]; [left; exact R|right; left; eauto|right; right].
    exists bad, rest. repeat (split; [assumption|]). intros fuel L. rewrite (R fuel L). reflexivity.
Qed.
(** With [-j], on any words: like C72, without a condition on the characters. *)
Theorem C104_program breaker VERSION default files stdin prog args cs words path b dict loaded :
  Forall accepted args -> structureIs args Flat -> wanted args cs ->
  wordsAre stdin args words -> dictIs default args path -> DictOpen (files path) = Ok (dict, loaded) -> dictOK dict ->
  breaksFor breaker args b -> Forall (modest b) words ->
  exists fuel0 pre texts post e, words = pre ++ post /\ warning default args loaded e /\
    Forall2 (jsonLines (Some dict) b cs) pre texts /\
    ((post = [] /\ forall fuel, fuel0 <= fuel ->
        main libthai_ct breaker VERSION default files stdin fuel (prog :: args) = mkRun (String.concat "" texts) e (Ok 0%Z)) \/
     (exists bad rest, post = bad :: rest /\ hopeless (Some dict) b bad /\ forall fuel, fuel0 <= fuel ->
        main libthai_ct breaker VERSION default files stdin fuel (prog :: args)
        = mkRun (String.concat "" texts ++ bad ++ ":" ++ nl) e Throw) \/
     (exists bad rest, post = bad :: rest /\ ~ hopeless (Some dict) b bad /\ allReadings (Some dict) b bad [] /\
        forall fuel, fuel0 <= fuel -> rRes (main libthai_ct breaker VERSION default files stdin fuel (prog :: args)) = UB)).
Proof. exact (C104_lemma2 breaker VERSION default files stdin prog args cs words path b dict loaded). Qed.
Print Assumptions C104_program.
Lemma C104_lemma3 breaker VERSION default files stdin prog args cs words path b dict loaded :
  Forall accepted args -> structureIs args Grouped -> wanted args cs ->
  wordsAre stdin args words -> dictIs default args path -> DictOpen (files path) = Ok (dict, loaded) -> dictOK dict ->
  breaksFor breaker args b -> Forall (modest b) words ->
  exists fuel0 pre texts post e, words = pre ++ post /\ warning default args loaded e /\
    Forall2 (chainLines (Some dict) b cs) pre texts /\
    ((post = [] /\ forall fuel, fuel0 <= fuel ->
        main libthai_ct breaker VERSION default files stdin fuel (prog :: args) = mkRun (String.concat "" texts) e (Ok 0%Z)) \/
     (exists bad rest, post = bad :: rest /\ hopeless (Some dict) b bad /\ forall fuel, fuel0 <= fuel ->
        main libthai_ct breaker VERSION default files stdin fuel (prog :: args)
        = mkRun (String.concat "" texts ++ bad ++ ":" ++ nl) e Throw)).
Proof.
  intros A S Wa W Di O OK B M. pose proof (wanted_in args cs Wa) as F.
  assert (D : dictOKo (Some dict)) by (intros d' H; injection H as <-; exact OK).
  destruct (program_total dict b cs Grouped breaker (chainLines (Some dict) b cs) (fun word h => hopeless (Some dict) b word /\ h = Exception)
    VERSION default files stdin prog args words path loaded A S Wa W Di O B) as (f & pre & texts & post & e & E & We & An & R).
  - rewrite Forall_forall in *. intros word Hw. destruct (word_cases (Some dict) b word D (M word Hw)) as [(Ho & f & T)|(NH & w & l & Eb & Size & P & Rd)].
    + exists f. right. exists Exception. split; [auto|]. intros fuel L. apply throw_off, T, L.
    + destruct (listing_any (Some dict) b cs word w l Grouped D ltac:(rewrite Forall_forall; exact F) Eb Size P) as (f & outs & V & Sa); [auto|].
      exists f. left. eexists. split; [|exact Sa]. split; [exact NH|]. exists l, outs. auto.
  - exists f, pre, texts, post, e. split; [exact E|]. split; [exact We|]. split; [exact An|].
    destruct R as [R|(bad & rest & h & Ep & (Ho & ->) & R)]; [left; exact R|right; eauto].
Qed.
(** With [-g]. *)
Theorem C104_program_grouped breaker VERSION default files stdin prog args cs words path b dict loaded :
  Forall accepted args -> structureIs args Grouped -> wanted args cs ->
  wordsAre stdin args words -> dictIs default args path -> DictOpen (files path) = Ok (dict, loaded) -> dictOK dict ->
  breaksFor breaker args b -> Forall (modest b) words ->
  exists fuel0 pre texts post e, words = pre ++ post /\ warning default args loaded e /\
    Forall2 (chainLines (Some dict) b cs) pre texts /\
    ((post = [] /\ forall fuel, fuel0 <= fuel ->
        main libthai_ct breaker VERSION default files stdin fuel (prog :: args) = mkRun (String.concat "" texts) e (Ok 0%Z)) \/
     (exists bad rest, post = bad :: rest /\ hopeless (Some dict) b bad /\ forall fuel, fuel0 <= fuel ->
        main libthai_ct breaker VERSION default files stdin fuel (prog :: args)
        = mkRun (String.concat "" texts ++ bad ++ ":" ++ nl) e Throw)).
Proof. exact (C104_lemma3 breaker VERSION default files stdin prog args cs words path b dict loaded). Qed.
Print Assumptions C104_program_grouped.

(** *** Forged answers *)
(** A quote, brackets and a parenthesis in the text end one pronunciation and
    begin another. *)
Definition forgery : string := (")" ++ dquote ++ "],[" ++ dquote ++ "(")%string.
Definition forged (ts : list string) : Json := JArr (map (fun t => JArr [JStr ("(" ++ t ++ ")")%string]) ts).
Lemma forged_text t ts : enc (forged (t :: ts)) = ("[[" ++ dquote ++ "(" ++ String.concat forgery (t :: ts) ++ ")" ++ dquote ++ "]]")%string.
Proof.
  unfold forged. cbn [enc].
  assert (X : String.concat "," (map enc (map (fun t => JArr [JStr ("(" ++ t ++ ")")%string]) (t :: ts))) =
    ("[" ++ dquote ++ "(" ++ String.concat forgery (t :: ts) ++ ")" ++ dquote ++ "]")%string).
  { revert t. induction ts as [|u ts IH]; intros t.
    - cbn [map String.concat enc]. rewrite !sapp_assoc. reflexivity.
    - change (map enc (map (fun t => JArr [JStr ("(" ++ t ++ ")")%string]) (t :: u :: ts)))
        with (enc (JArr [JStr ("(" ++ t ++ ")")%string]) :: map enc (map (fun t => JArr [JStr ("(" ++ t ++ ")")%string]) (u :: ts))).
      rewrite concat_cons. cbn match. cbn [map] in IH |- *. rewrite (IH u). rewrite (concat_cons forgery t). cbn [map enc String.concat].
      unfold forgery. rewrite !sapp_assoc. reflexivity. }
  rewrite X, !sapp_assoc. reflexivity.
Qed.
Lemma C104_lemma4 t ts w dict brk fuel f : Forall (fun t => plain t = true) (t :: ts) ->
  from_bytes (String.concat forgery (t :: ts)) = Ok w -> (forall k, ~ tokenAt libthai_ct w k) -> w <> [] -> 1 <= fuel ->
  In f [PhoneticOutput; RomanSylOutput; SoundexOutput; ThaiOutput] ->
  exists d out, ParseU16F libthai_ct fuel w dict brk = Ok d /\ DAGSylStrings d 0 = Ok [[SylLiteral (Z.of_nat (List.length w)) w]] /\
    jsonOutputDAG f d = Ok out /\ JsonText out (forged (t :: ts)).
Proof.
  intros Pl B T N L If. destruct (C29_foreign_text libthai_ct w dict brk fuel T N L) as (d & E & El).
  exists d, (enc (forged (t :: ts))). split; [exact E|]. split; [exact El|]. split.
  - rewrite forged_text. unfold jsonOutputDAG. rewrite El. cbn [bind jsonOutputList jsonOutputStr mapM].
    assert (O : outputLiteral w = Ok ("(" ++ String.concat forgery (t :: ts) ++ ")")%string).
    { unfold outputLiteral. rewrite (C44_lossless _ _ B). reflexivity. }
    assert (Lw : isLiteral (SylLiteral (Z.of_nat (List.length w)) w) = true) by (destruct w; [congruence|reflexivity]).
    assert (Bl : syl_eqb (SylLiteral (Z.of_nat (List.length w)) w) Blank = false).
    { destruct (syl_eqb (SylLiteral (Z.of_nat (List.length w)) w) Blank) eqn:Eb; [|reflexivity]. apply blank_iff in Eb. unfold isBlank, spoken in Eb.
      cbn [literal SylLiteral] in Eb. destruct w; [congruence|discriminate Eb]. }
    assert (Ef : f (SylLiteral (Z.of_nat (List.length w)) w) = Ok ("(" ++ String.concat forgery (t :: ts) ++ ")")%string).
    { repeat destruct If as [<-|If]; try contradiction; unfold PhoneticOutput, RomanSylOutput, SoundexOutput, ThaiOutput; rewrite ?Bl, Lw;
        exact O. }
    rewrite Ef. cbn [bind]. f_equal. rewrite !sapp_assoc. reflexivity.
  - apply json_enc. unfold forged. apply plain_arr. intros u Iu. cbn [plainJ forallb]. rewrite !plain_app. rewrite Forall_forall in Pl. rewrite (Pl u Iu). reflexivity.
Qed.
(** Any plain foreign texts can be made to look like the pronunciations of one
    text. *)
Theorem C104_no_forgery_refuted t ts w dict brk fuel f : Forall (fun t => plain t = true) (t :: ts) ->
  from_bytes (String.concat forgery (t :: ts)) = Ok w -> (forall k, ~ tokenAt libthai_ct w k) -> w <> [] -> 1 <= fuel ->
  In f [PhoneticOutput; RomanSylOutput; SoundexOutput; ThaiOutput] ->
  exists d out, ParseU16F libthai_ct fuel w dict brk = Ok d /\ DAGSylStrings d 0 = Ok [[SylLiteral (Z.of_nat (List.length w)) w]] /\
    jsonOutputDAG f d = Ok out /\ JsonText out (forged (t :: ts)).
Proof. exact (C104_lemma4 t ts w dict brk fuel f). Qed.
Print Assumptions C104_no_forgery_refuted.
(** A text that forges two pronunciations, one whose backslash takes the letter
    after it along, and a quote after a Thai word. *)
Definition forgedWord : string := String.concat forgery ["a"; "b"]%string.
Definition escWord : string := String backslash "n".
Definition quotedWord : string := ("กา" ++ dquote)%string.
Definition jsonWords : list string := [forgedWord; escWord; quotedWord].
Definition jsonArgs (form : string) : list string := ("-p" :: form :: "-dx" :: jsonWords)%string.
Lemma jsonArgs_ok st form : In (st, form) [(Flat, "-j"); (Grouped, "-g")]%string ->
  Forall accepted (jsonArgs form) /\ structureIs (jsonArgs form) st /\ wanted (jsonArgs form) ["p"]%char /\
  wordsAre "" (jsonArgs form) jsonWords /\ dictIs "/d" (jsonArgs form) "x" /\ breaksFor noBreaks (jsonArgs form) noBreaks.
Proof.
  assert (NT : forall a, match a with String x _ => is "-" x | _ => false end = false -> ~ isOption a).
  { intros a H (t & ->). discriminate. }
  intros [X|[X|[]]]; injection X as <- <-; unfold jsonArgs, jsonWords, forgedWord, escWord, quotedWord; cbn [app];
  (split; [repeat (apply Forall_cons; [first [apply acc_letter; cbn; tauto|apply acc_dict; discriminate|apply acc_text, NT; reflexivity]|]); apply Forall_nil|]);
  (split; [cbn; first [split; rewrite <- givenb_ok; first [reflexivity|discriminate]|rewrite <- givenb_ok; reflexivity]|]);
  (split; [exists ["p"]%char; split; [|reflexivity]; apply (named_take "p" ""); [cbn; tauto|];
    repeat (apply named_skip; [intros c [<-|[<-|[<-|[<-|[<-|[]]]]]] H; apply letterb_ok in H; discriminate|]); constructor|]);
  (split; [exists jsonWords; split; [|reflexivity];
    repeat (apply texts_skip; [eexists; reflexivity|]); repeat (apply texts_take; [apply NT; reflexivity|]); constructor|]);
  (split; [|right; split; [rewrite <- givenb_ok; discriminate|reflexivity]]); left.
  - exists ["-p"; "-j"]%string, jsonWords. split; [reflexivity|rewrite <- givenb_ok; discriminate].
  - exists ["-p"; "-g"]%string, jsonWords. split; [reflexivity|rewrite <- givenb_ok; discriminate].
Qed.
Lemma jsonWords_ok : Forall (modest noBreaks) jsonWords /\ forallb plain jsonWords = false.
Proof.
  split; [|reflexivity]. unfold jsonWords.
  repeat (apply Forall_cons; [intros w E; vm_compute in E; injection E as <-;
    split; [vm_compute; reflexivity|split; [apply SSorted_nil|apply Forall_nil]]|]). apply Forall_nil.
Qed.
Definition unitsOf (s : string) : list N := match from_bytes s with Ok w => w | _ => [] end.
Lemma foreign_all w : forallb (fun c => negb (tokenChar libthai_ct c)) w = true -> forall k, ~ tokenAt libthai_ct w k.
Proof.
  intros H k (c & E & T). rewrite forallb_forall in H. specialize (H c (nth_error_In _ _ E)). rewrite T in H. discriminate H.
Qed.
Example C104_case :
  (exists dict, DictOpen (exFiles "x") = Ok (dict, true) /\ dictOK dict) /\ Forall (modest noBreaks) jsonWords /\
  (forall st form, In (st, form) [(Flat, "-j"); (Grouped, "-g")]%string ->
    Forall accepted (jsonArgs form) /\ structureIs (jsonArgs form) st /\ wanted (jsonArgs form) ["p"]%char /\
    wordsAre "" (jsonArgs form) jsonWords /\ dictIs "/d" (jsonArgs form) "x" /\ breaksFor noBreaks (jsonArgs form) noBreaks) /\
  main libthai_ct noBreaks "1" "/d" exFiles "" 500 ("thpronun"%string :: jsonArgs "-j") = mkRun
    (forgedWord ++ ":" ++ nl ++ "[[" ++ q "(a)" ++ "],[" ++ q "(b)" ++ "]]" ++ nl ++
     escWord ++ ":" ++ nl ++ "[[" ++ q ("(" ++ escWord ++ ")") ++ "]]" ++ nl ++
     quotedWord ++ ":" ++ nl ++ "[[" ++ q "kaa0" ++ "," ++ q ("(" ++ dquote ++ ")") ++ "]]" ++ nl)%string "" (Ok 0%Z) /\
  (exists w, from_bytes (String.concat forgery ["a"; "b"]%string) = Ok w /\ (forall k, ~ tokenAt libthai_ct w k) /\ w <> []) /\
  JsonText ("[[" ++ q ("(" ++ escWord ++ ")") ++ "]]") (JArr [JArr [JStr ("(" ++ nl ++ ")")%string]]) /\
  JsonText (" [ " ++ q (uEscape "0e01") ++ " , " ++ q (uEscape "d83D" ++ uEscape "DE00") ++ "]") (JArr [JStr "ก"; JStr "😀"]%string).
Proof.
  split; [eexists; split; [vm_compute; reflexivity|eapply dictCheck_sound; [reflexivity|vm_compute; reflexivity]]|].
  split; [apply jsonWords_ok|]. split; [exact jsonArgs_ok|]. split; [vm_compute; reflexivity|]. split; [|split].
  - exists (unitsOf forgedWord). split; [vm_compute; reflexivity|]. split; [apply foreign_all; vm_compute; reflexivity|vm_compute; discriminate].
  - exists "", ("[[" ++ q ("(" ++ escWord ++ ")") ++ "]]")%string, "". split; [reflexivity|]. split; [reflexivity|]. split; [|reflexivity].
    apply (D_some ("[" ++ q ("(" ++ escWord ++ ")") ++ "]")). apply (E_last "" ("[" ++ q ("(" ++ escWord ++ ")") ++ "]") ""); [reflexivity| |reflexivity].
    apply (D_some (q ("(" ++ escWord ++ ")"))). apply (E_last "" (q ("(" ++ escWord ++ ")")) ""); [reflexivity| |reflexivity].
    apply (D_str ("(" ++ escWord ++ ")")). apply B_char; [reflexivity|reflexivity|reflexivity|]. apply B_short; [reflexivity|].
    apply B_char; [reflexivity|reflexivity|reflexivity|]. apply B_end.
  - exists " ", ("[ " ++ q (uEscape "0e01") ++ " , " ++ q (uEscape "d83D" ++ uEscape "DE00") ++ "]")%string, "".
    split; [reflexivity|]. split; [reflexivity|]. split; [|reflexivity].
    apply (D_some (" " ++ q (uEscape "0e01") ++ " " ++ "," ++ " " ++ q (uEscape "d83D" ++ uEscape "DE00"))).
    apply (E_next " " (q (uEscape "0e01")) " "); [reflexivity| |reflexivity|].
    + apply (D_str (uEscape "0e01" ++ "") ("ก" ++ "")). apply (B_unit "0e01" 0xe01%N); [|lia|apply B_end].
      apply (H4 "0" "e" "0" "1" 0 14 0 1); reflexivity.
    + apply (E_last " " (q (uEscape "d83D" ++ uEscape "DE00")) ""); [reflexivity| |reflexivity].
      apply (D_str (uEscape "d83D" ++ uEscape "DE00" ++ "") ("😀" ++ "")). apply (B_pair "d83D" "DE00" 0xd83d 0xde00); [| |lia|lia|apply B_end].
      * apply (H4 "d" "8" "3" "D" 13 8 3 13); reflexivity.
      * apply (H4 "D" "E" "0" "0" 13 14 0 0); reflexivity.
Qed.

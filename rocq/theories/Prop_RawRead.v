(** Prop_RawRead.v - what the reader of raw notation accepts (C79). *)
From Coq Require Import String List NArith ZArith Bool Arith Lia Ascii.
From Verif Require Import Spec Base ThUni ThCons Syl OrderProofs Lattice LatticeProofs
  Dag DagProofs PronDag PathProofs GroupProofs ListDagProofs Dict DictProofs Utf SylOut ThaiOut Parser Wp
  ParserSpec ParserRules ParserActs ParserLoop ParserFacts ParserInv ParserDict Output Prop_Syl Prop_Parser Prop_Notation.
Import ListNotations.
Local Open Scope nat_scope.

(** ** The notation *)
(** Codes by letter. *)
Definition onsetCodes : list (string * EInitConsSound) :=
  [("k", KA); ("c", KHA); ("g", NGA); ("j", JA); ("J", CHA); ("y", YA); ("d", DA); ("t", TA); ("T", THA);
   ("n", NA); ("b", BA); ("p", PA); ("P", PHA); ("f", FA); ("m", MA); ("r", RA); ("l", LA); ("w", WA);
   ("s", SA); ("h", HA); ("?", ICS_A); ("*", ICS_INVALID)]%string.
Definition finalCodes : list (string * EEndConsClass) :=
  [("_", EC_NONE); ("k", KOK); ("t", KOT); ("p", KOP); ("g", KONG); ("n", KON); ("m", KOM); ("y", KOEY); ("w", KOEW)]%string.
Definition toneCodes : list (string * ETone) :=
  [("0", SAMAN); ("1", EK); ("2", THO); ("3", TRI); ("4", CHATTAWA); ("*", T_INVALID)]%string.
Definition one (c : ascii) : string := String c EmptyString.
(** A byte as a C [char], which is signed. *)
Definition SignedByte (c : ascii) (z : Z) : Prop :=
  exists b, c = ascii_of_nat b /\ (b < 128 /\ z = Z.of_nat b \/ 128 <= b < 256 /\ (z = Z.of_nat b - 256)%Z).
(** An integer as C's [strtol] reads it: blanks, a sign, digits, and then
    whatever follows. *)
Definition blanks : list ascii := map ascii_of_nat [32; 9; 10; 11; 12; 13].
Definition digits : string := "0123456789".
Definition Digit (c : ascii) (d : nat) : Prop := d < 10 /\ String.get d digits = Some c.
Inductive Digits : string -> Z -> Prop :=
| Dg_one c d : Digit c d -> Digits (one c) (Z.of_nat d)
| Dg_more t n c d : Digits t n -> Digit c d -> Digits (t ++ one c) (10 * n + Z.of_nat d)%Z.
Inductive AllIn (l : list ascii) : string -> Prop :=
| AI_nil : AllIn l EmptyString
| AI_cons c s : In c l -> AllIn l s -> AllIn l (String c s).
Definition NoDigitFirst (s : string) : Prop := forall c r d, s = String c r -> ~ Digit c d.
Definition IntText (t : string) (z : Z) : Prop :=
  exists b sg ds rest n, t = (b ++ sg ++ ds ++ rest)%string /\ AllIn blanks b /\ Digits ds n /\ NoDigitFirst rest /\
    ((sg = "" \/ sg = "+") /\ z = n \/ sg = "-" /\ z = (- n)%Z)%string.
(** What follows the five letters: "@" and a number that fits an int, or
    anything else that does not begin with "@" and at least one more letter. *)
Inductive EndMark (dflt : Z) : string -> Z -> Prop :=
| EM_pos t z : t <> EmptyString -> IntText t z -> intRange z -> EndMark dflt ("@" ++ t) z
| EM_none t : (forall u, t = ("@" ++ u)%string -> u = EmptyString) -> EndMark dflt t dflt.
Inductive Reads (dflt : Z) : string -> Syl -> Prop :=
| Rd c0 c1 c2 c3 c4 rest i v1 v2 e t p :
    In (one c0, i) onsetCodes -> SignedByte c1 v1 -> SignedByte c2 v2 -> In (one c3, e) finalCodes ->
    In (one c4, t) toneCodes -> EndMark dflt rest p ->
    Reads dflt (one c0 ++ one c1 ++ one c2 ++ one c3 ++ one c4 ++ rest) (SylOf i v1 v2 e t p).
(** Too short to be looked at: an onset code and at most one more letter. *)
Definition TooShort (desc : string) : Prop :=
  exists c0 i, In (one c0, i) onsetCodes /\ (desc = one c0 \/ exists c1, desc = (one c0 ++ one c1)%string).

(** ** Tables *)
Lemma onset_ok c i : InitConsCodeToSound c = Ok i <-> In (one c, i) onsetCodes.
Proof.
  split.
  - unfold InitConsCodeToSound, InitConsCodeToSoundTbl_. cbn [assocAt].
    repeat match goal with |- (if Ascii.eqb c ?k then _ else _) = _ -> _ =>
      destruct (Ascii.eqb_spec c k) as [->|_]; [intros H; injection H as <-; cbn; tauto|] end. discriminate.
  - unfold one. cbn. intros H. repeat (destruct H as [H|H]; [injection H as <- <-; reflexivity|]); destruct H.
Qed.
Lemma final_ok c i : EndConsCodeToClass c = Ok i <-> In (one c, i) finalCodes.
Proof.
  split.
  - unfold EndConsCodeToClass, EndConsCodeToClassTbl_. cbn [assocAt].
    repeat match goal with |- (if Ascii.eqb c ?k then _ else _) = _ -> _ =>
      destruct (Ascii.eqb_spec c k) as [->|_]; [intros H; injection H as <-; cbn; tauto|] end. discriminate.
  - unfold one. cbn. intros H. repeat (destruct H as [H|H]; [injection H as <- <-; reflexivity|]); destruct H.
Qed.
Lemma tone_ok c i : ToneCodeToTone c = Ok i <-> In (one c, i) toneCodes.
Proof.
  split.
  - unfold ToneCodeToTone, ToneCodeToToneTbl_. cbn [assocAt].
    repeat match goal with |- (if Ascii.eqb c ?k then _ else _) = _ -> _ =>
      destruct (Ascii.eqb_spec c k) as [->|_]; [intros H; injection H as <-; cbn; tauto|] end. discriminate.
  - unfold one. cbn. intros H. repeat (destruct H as [H|H]; [injection H as <- <-; reflexivity|]); destruct H.
Qed.
Lemma assoc_out {K V} (eqb : K -> K -> bool) (t : list (K * V)) k :
  (exists v, assocAt eqb t k = Ok v) \/ assocAt eqb t k = Throw.
Proof.
  induction t as [|(x & v) t IH]; cbn [assocAt]; [right; reflexivity|].
  destruct (eqb _ _); [left; eauto|exact IH].
Qed.
Lemma byte_ok c z : char_code c = z <-> SignedByte c z.
Proof.
  unfold char_code. pose proof (nat_ascii_bounded c) as B.
  assert (E : Z.of_N (N_of_ascii c) = Z.of_nat (nat_of_ascii c)) by (unfold nat_of_ascii; lia).
  rewrite E. split.
  - intros H. exists (nat_of_ascii c). split; [symmetry; apply ascii_nat_embedding|].
    destruct (Z.ltb_spec (Z.of_nat (nat_of_ascii c)) 128); lia.
  - intros (b & -> & H). rewrite nat_ascii_embedding by lia.
    destruct (Z.ltb_spec (Z.of_nat b) 128); lia.
Qed.
Lemma digit_ok c d : digitVal c = Some (Z.of_nat d) <-> Digit c d.
Proof.
  unfold Digit. split.
  - unfold digitVal. destruct (_ && _)%bool eqn:E; [|discriminate]. intros H. injection H as H.
    apply andb_true_iff in E. destruct E as (E1 & E2). apply Z.leb_le in E1, E2.
    assert (Hd : d < 10) by lia. split; [exact Hd|].
    assert (C : c = ascii_of_N (N.of_nat (48 + d))).
    { rewrite <- (ascii_N_embedding c). f_equal. lia. }
    rewrite C. clear - Hd. do 10 (destruct d as [|d]; [reflexivity|]). lia.
  - intros (Hd & H). do 10 (destruct d as [|d]; [injection H as <-; reflexivity|]). lia.
Qed.
Lemma digit_none c : digitVal c = None <-> forall d, ~ Digit c d.
Proof.
  split.
  - intros E d H. apply digit_ok in H. congruence.
  - intros H. destruct (digitVal c) as [z|] eqn:E; [|reflexivity]. exfalso. apply (H (Z.to_nat z)). apply digit_ok.
    rewrite Z2Nat.id; [exact E|]. unfold digitVal in E. destruct (_ && _)%bool eqn:X; [|discriminate].
    injection E as <-. apply andb_true_iff in X. destruct X as (X & _). apply Z.leb_le in X. lia.
Qed.
Lemma digit_some c z : digitVal c = Some z -> exists d, Digit c d /\ z = Z.of_nat d.
Proof.
  intros E. exists (Z.to_nat z). assert (0 <= z)%Z.
  { unfold digitVal in E. destruct (_ && _)%bool eqn:X; [|discriminate].
    injection E as <-. apply andb_true_iff in X. destruct X as (X & _). apply Z.leb_le in X. lia. }
  split; [|lia]. apply digit_ok. rewrite Z2Nat.id by assumption. exact E.
Qed.
Lemma digit_fun c d d' : Digit c d -> Digit c d' -> d = d'.
Proof. intros A B. apply digit_ok in A, B. rewrite A in B. injection B as B. lia. Qed.
Lemma blank_ok c : isCSpace c = true <-> In c blanks.
Proof. destruct c as [[] [] [] [] [] [] [] []]; cbv; split; intros H; try discriminate H; try reflexivity; try tauto;
  repeat (destruct H as [H|H]; [discriminate H|]); destruct H. Qed.
Lemma blank_nodigit c d : In c blanks -> ~ Digit c d.
Proof.
  intros H (Hd & E). cbn in H. repeat (destruct H as [<-|H]; [do 10 (destruct d as [|d]; [discriminate E|]); lia|]); destruct H.
Qed.
Lemma sign_nodigit c d : c = "+"%char \/ c = "-"%char -> ~ Digit c d.
Proof.
  intros H (Hd & E). destruct H as [-> | ->]; do 10 (destruct d as [|d]; [discriminate E|]); lia.
Qed.
Lemma sign_noblank c : c = "+"%char \/ c = "-"%char -> ~ In c blanks.
Proof. intros [-> | ->] H; cbn in H; repeat (destruct H as [H|H]; [discriminate H|]); destruct H. Qed.

(** ** Numbers *)
(** A run of digits that begins a text, read from the left. *)
Lemma digits_left t n : Digits t n -> forall s acc,
  digitsVal acc (t ++ s) = digitsVal (acc * 10 ^ Z.of_nat (String.length t) + n) s.
Proof.
  induction 1 as [c d D|t n c d D IH E]; intros s acc.
  - apply digit_ok in D. cbn [one String.append digitsVal String.length]. rewrite D. f_equal.
  - replace ((t ++ one c) ++ s)%string with (t ++ (one c ++ s))%string
      by (clear; induction t as [|x t IH]; cbn [String.append]; [reflexivity|]; now rewrite IH).
    rewrite IH. apply digit_ok in E. cbn [one String.append digitsVal]. rewrite E. f_equal.
    assert (L : String.length (t ++ one c) = S (String.length t)).
    { clear. induction t as [|x t IH]; cbn [String.append String.length]; [reflexivity|]. now rewrite IH. }
    rewrite L, Nat2Z.inj_succ, Z.pow_succ_r by lia. lia.
Qed.
Lemma digits_first t n : Digits t n -> exists c r d, t = String c r /\ Digit c d.
Proof.
  induction 1 as [c d D|t n c d D (c0 & r & d0 & -> & H) E]; [exists c, ""%string, d; split; [reflexivity|exact D]|].
  exists c0, (r ++ one c)%string, d0. split; [reflexivity|exact H].
Qed.
Lemma digitsVal_stop s acc : NoDigitFirst s -> digitsVal acc s = acc.
Proof.
  intros H. destruct s as [|c r]; [reflexivity|]. cbn [digitsVal].
  assert (E : digitVal c = None). { apply digit_none. intros d. exact (H c r d eq_refl). }
  rewrite E. reflexivity.
Qed.
(** Every text that begins with a digit splits. *)
Lemma digits_split s : forall pre n, Digits pre n -> exists ds rest m, (pre ++ s = ds ++ rest)%string /\ Digits ds m /\ NoDigitFirst rest.
Proof.
  induction s as [|c s IH]; intros pre n D.
  - exists pre, ""%string, n. split; [reflexivity|]. split; [exact D|]. intros c r d X. discriminate X.
  - destruct (digitVal c) as [z|] eqn:E.
    + destruct (digit_some c z E) as (d & Hd & ->).
      destruct (IH _ _ (Dg_more pre n c d D Hd)) as (ds & rest & m & A & B & C).
      exists ds, rest, m. split; [|auto]. rewrite <- A.
      clear. induction pre as [|x t IH]; cbn [one String.append]; [reflexivity|]. now rewrite IH.
    + exists pre, (String c s), n. split; [reflexivity|]. split; [exact D|]. intros c' r d X. injection X as <- <-.
      apply digit_none. exact E.
Qed.
Lemma stoiDigits_ok neg s z : stoiDigits neg s = Ok z <->
  exists ds rest n, s = (ds ++ rest)%string /\ Digits ds n /\ NoDigitFirst rest /\ z = (if neg then - n else n)%Z /\ intRange z.
Proof.
  assert (V : forall ds rest n, Digits ds n -> NoDigitFirst rest -> digitsVal 0 (ds ++ rest) = n).
  { intros ds rest n D N. rewrite (digits_left _ _ D). rewrite digitsVal_stop by exact N. lia. }
  assert (R : forall x, inInt x = true <-> intRange x).
  { intros x. unfold inInt, intRange. rewrite andb_true_iff, !Z.leb_le. reflexivity. }
  split.
  - intros H. destruct s as [|c s]; [discriminate H|]. unfold stoiDigits in H. destruct (digitVal c) as [x|] eqn:E; [|discriminate H].
    destruct (digit_some c x E) as (d & Hd & ->).
    destruct (digits_split s (one c) _ (Dg_one c d Hd)) as (ds & rest & m & A & B & C).
    change (one c ++ s)%string with (String c s) in A. rewrite A in H. rewrite (V _ _ _ B C) in H.
    destruct (inInt _) eqn:I; [|discriminate H]. injection H as <-. exists ds, rest, m.
    split; [exact A|]. split; [exact B|]. split; [exact C|]. split; [reflexivity|]. apply R. exact I.
  - intros (ds & rest & n & -> & D & N & -> & I). destruct (digits_first _ _ D) as (c & r & d & E & Hd).
    unfold stoiDigits. pose proof (V _ _ _ D N) as Y. rewrite E in *. cbn [String.append] in *.
    apply digit_ok in Hd. rewrite Hd, Y. apply R in I. rewrite I. reflexivity.
Qed.
Lemma skip_ok s : exists b, s = (b ++ skipSpaces s)%string /\ AllIn blanks b /\ forall c r, skipSpaces s = String c r -> ~ In c blanks.
Proof.
  induction s as [|c s IH].
  - exists ""%string. split; [reflexivity|]. split; [constructor|]. intros c r X. discriminate X.
  - cbn [skipSpaces]. destruct (isCSpace c) eqn:E.
    + destruct IH as (b & A & B & C). exists (String c b). split; [cbn [String.append]; now rewrite <- A|]. split; [|exact C].
      constructor; [apply blank_ok; exact E|exact B].
    + exists ""%string. split; [reflexivity|]. split; [constructor|]. intros c' r X. injection X as <- <-. intros Y.
      apply blank_ok in Y. congruence.
Qed.
Lemma skip_blanks b : AllIn blanks b -> forall s, skipSpaces (b ++ s) = skipSpaces s.
Proof.
  induction 1 as [|c b H _ IH]; intros s; [reflexivity|]. cbn [String.append skipSpaces].
  apply blank_ok in H. rewrite H. apply IH.
Qed.
Lemma skip_first c r : ~ In c blanks -> skipSpaces (String c r) = String c r.
Proof.
  intros N. cbn [skipSpaces]. destruct (isCSpace c) eqn:E; [apply blank_ok in E; contradiction|reflexivity].
Qed.
Lemma stoi_form s : stoi s =
  match skipSpaces s with
  | String c s' => if Ascii.eqb c "-" then stoiDigits true s' else if Ascii.eqb c "+" then stoiDigits false s'
                   else stoiDigits false (String c s')
  | EmptyString => Throw
  end.
Proof.
  unfold stoi. destruct (skipSpaces s) as [|c s']; [reflexivity|].
  destruct c as [[] [] [] [] [] [] [] []]; reflexivity.
Qed.
Lemma stoi_ok s z : stoi s = Ok z <-> IntText s z /\ intRange z.
Proof.
  rewrite stoi_form. split.
  - destruct (skip_ok s) as (b & A & B & C). intros H.
    destruct (skipSpaces s) as [|c s'] eqn:E; [discriminate H|]. specialize (C c s' eq_refl).
    destruct (Ascii.eqb_spec c "-") as [->|N1].
    + apply stoiDigits_ok in H. destruct H as (ds & rest & n & -> & D & N & -> & I). split; [|exact I].
      exists b, "-"%string, ds, rest, n. split; [exact A|]. auto 10.
    + destruct (Ascii.eqb_spec c "+") as [->|N2].
      * apply stoiDigits_ok in H. destruct H as (ds & rest & n & -> & D & N & -> & I). split; [|exact I].
        exists b, "+"%string, ds, rest, n. split; [exact A|]. auto 10.
      * apply stoiDigits_ok in H. destruct H as (ds & rest & n & X & D & N & -> & I). split; [|exact I]. rewrite X in A.
        exists b, ""%string, ds, rest, n. split; [exact A|]. auto 10.
  - intros ((b & sg & ds & rest & n & -> & B & D & N & S) & I). rewrite skip_blanks by exact B.
    destruct (digits_first _ _ D) as (c & r & d & E & Hd).
    assert (NB : ~ In c blanks) by (intros X; exact (blank_nodigit c d X Hd)).
    destruct S as [([-> | ->] & ->)|(-> & ->)]; cbn [String.append].
    + rewrite E in *. cbn [String.append]. rewrite skip_first by exact NB.
      destruct (Ascii.eqb_spec c "-") as [->|_]; [exfalso; exact (sign_nodigit _ d (or_intror eq_refl) Hd)|].
      destruct (Ascii.eqb_spec c "+") as [->|_]; [exfalso; exact (sign_nodigit _ d (or_introl eq_refl) Hd)|].
      apply stoiDigits_ok. exists (String c r), rest, n. auto 10.
    + rewrite skip_first by (apply sign_noblank; auto). change (Ascii.eqb "+" "-") with false. change (Ascii.eqb "+" "+") with true.
      cbv iota. apply stoiDigits_ok. exists ds, rest, n. auto 10.
    + rewrite skip_first by (apply sign_noblank; auto). change (Ascii.eqb "-" "-") with true.
      cbv iota. apply stoiDigits_ok. exists ds, rest, n. auto 10.
Qed.
Lemma stoi_out s : (exists z, stoi s = Ok z) \/ stoi s = Throw.
Proof.
  assert (D : forall b t, (exists z, stoiDigits b t = Ok z) \/ stoiDigits b t = Throw).
  { intros b [|c t]; cbn [stoiDigits]; [auto|]. destruct (digitVal c); [|auto]. destruct (inInt _); eauto. }
  rewrite stoi_form. destruct (skipSpaces s) as [|c t]; [auto|].
  destruct (Ascii.eqb c "-"); [apply D|]. destruct (Ascii.eqb c "+"); apply D.
Qed.

(** ** One syllable *)
Lemma drop6 c0 c1 c2 c3 c4 c5 s : strDrop 6 (String c0 (String c1 (String c2 (String c3 (String c4 (String c5 s)))))) = s.
Proof.
  unfold strDrop. cbn [String.length Nat.sub substring]. rewrite Nat.sub_0_r. apply substring_all.
Qed.
Definition afterFive (dflt : Z) (rest : string) : Res Z :=
  match rest with
  | String c5 t => match t with
                   | EmptyString => Ok dflt
                   | _ => if Ascii.eqb c5 "@" then stoi t else Ok dflt
                   end
  | EmptyString => Ok dflt
  end.
Lemma desc_form c0 c1 c2 c3 c4 rest pos :
  SylOfDesc (one c0 ++ one c1 ++ one c2 ++ one c3 ++ one c4 ++ rest) pos =
  (i <- InitConsCodeToSound c0 ;; e <- EndConsCodeToClass c3 ;; t <- ToneCodeToTone c4 ;;
   p <- afterFive pos rest ;; Ok (mkSyl i (char_code c1) (char_code c2) e t [] p))%res.
Proof.
  unfold SylOfDesc. cbn [one String.append strIdx bind]. destruct (InitConsCodeToSound c0) as [i| | |]; try reflexivity.
  cbn [bind]. destruct (EndConsCodeToClass c3) as [e| | |]; try reflexivity. cbn [bind].
  destruct (ToneCodeToTone c4) as [t| | |]; try reflexivity. cbn [bind].
  destruct rest as [|c5 [|c6 r]]; [reflexivity|reflexivity|].
  cbn [String.length Nat.ltb Nat.leb strIdx bind afterFive]. rewrite drop6. reflexivity.
Qed.
Lemma after_ok dflt rest z : afterFive dflt rest = Ok z <-> EndMark dflt rest z.
Proof.
  split.
  - intros H. destruct rest as [|c5 [|c6 r]]; cbn [afterFive] in H.
    + injection H as <-. apply EM_none. intros u X. discriminate X.
    + injection H as <-. apply EM_none. intros u X. cbn [String.append] in X. injection X as _ <-. reflexivity.
    + destruct (Ascii.eqb_spec c5 "@") as [->|N].
      * apply stoi_ok in H. destruct H as (H & I). apply (EM_pos dflt (String c6 r)); [discriminate|exact H|exact I].
      * injection H as <-. apply EM_none. intros u X. cbn [String.append] in X. injection X as X _. contradiction.
  - intros [t x N H I|t N].
    + destruct t as [|c6 r]; [congruence|]. cbn [String.append afterFive]. change (Ascii.eqb "@" "@") with true. cbv iota.
      apply stoi_ok. auto.
    + destruct t as [|c5 [|c6 r]]; cbn [afterFive]; [reflexivity|reflexivity|].
      destruct (Ascii.eqb_spec c5 "@") as [->|_]; [|reflexivity]. specialize (N (String c6 r) eq_refl). discriminate N.
Qed.
Lemma after_out dflt rest : (exists z, afterFive dflt rest = Ok z) \/ afterFive dflt rest = Throw.
Proof.
  destruct rest as [|c5 [|c6 r]]; cbn [afterFive]; eauto. destruct (Ascii.eqb c5 "@"); eauto. apply stoi_out.
Qed.
Lemma final_nul : EndConsCodeToClass Ascii.zero = Throw.
Proof. reflexivity. Qed.
Lemma tone_nul : ToneCodeToTone Ascii.zero = Throw.
Proof. reflexivity. Qed.
Lemma onset_nul : InitConsCodeToSound Ascii.zero = Throw.
Proof. reflexivity. Qed.
(** The five outcomes by length. *)
Lemma desc_cases desc pos :
  (desc = EmptyString /\ SylOfDesc desc pos = Throw) \/
  (exists c0, (desc = one c0 \/ exists c1, desc = (one c0 ++ one c1)%string) /\
     SylOfDesc desc pos = (_ <- InitConsCodeToSound c0 ;; UB)%res) \/
  ((exists c0 c1 c2, desc = (one c0 ++ one c1 ++ one c2)%string \/ exists c3, desc = (one c0 ++ one c1 ++ one c2 ++ one c3)%string) /\
     SylOfDesc desc pos = Throw) \/
  (exists c0 c1 c2 c3 c4 rest, desc = one c0 ++ one c1 ++ one c2 ++ one c3 ++ one c4 ++ rest)%string.
Proof.
  destruct desc as [|c0 [|c1 [|c2 [|c3 [|c4 rest]]]]].
  - left. split; reflexivity.
  - right. left. exists c0. split; [left; reflexivity|]. unfold SylOfDesc. cbn [strIdx bind].
    destruct (InitConsCodeToSound c0); reflexivity.
  - right. left. exists c0. split; [right; exists c1; reflexivity|]. unfold SylOfDesc. cbn [strIdx bind].
    destruct (InitConsCodeToSound c0); reflexivity.
  - right. right. left. split; [exists c0, c1, c2; left; reflexivity|]. unfold SylOfDesc. cbn [strIdx bind]. rewrite final_nul.
    destruct (assoc_out Ascii.eqb InitConsCodeToSoundTbl_ c0) as [(i & E)|E];
      fold (InitConsCodeToSound c0) in E; rewrite E; reflexivity.
  - right. right. left. split; [exists c0, c1, c2; right; exists c3; reflexivity|]. unfold SylOfDesc. cbn [strIdx bind].
    rewrite tone_nul. destruct (assoc_out Ascii.eqb InitConsCodeToSoundTbl_ c0) as [(i & E)|E];
      fold (InitConsCodeToSound c0) in E; rewrite E; [|reflexivity]. cbn [bind].
    destruct (assoc_out Ascii.eqb EndConsCodeToClassTbl_ c3) as [(e & E')|E'];
      fold (EndConsCodeToClass c3) in E'; rewrite E'; reflexivity.
  - right. right. right. exists c0, c1, c2, c3, c4, rest. reflexivity.
Qed.
Lemma long_out c0 c1 c2 c3 c4 rest pos :
  (exists s, SylOfDesc (one c0 ++ one c1 ++ one c2 ++ one c3 ++ one c4 ++ rest) pos = Ok s) \/
  SylOfDesc (one c0 ++ one c1 ++ one c2 ++ one c3 ++ one c4 ++ rest) pos = Throw.
Proof.
  rewrite desc_form.
  destruct (assoc_out Ascii.eqb InitConsCodeToSoundTbl_ c0) as [(i & E)|E];
    fold (InitConsCodeToSound c0) in E; rewrite E; [|auto]. cbn [bind].
  destruct (assoc_out Ascii.eqb EndConsCodeToClassTbl_ c3) as [(e & E')|E'];
    fold (EndConsCodeToClass c3) in E'; rewrite E'; [|auto]. cbn [bind].
  destruct (assoc_out Ascii.eqb ToneCodeToToneTbl_ c4) as [(t & E2)|E2];
    fold (ToneCodeToTone c4) in E2; rewrite E2; [|auto]. cbn [bind].
  destruct (after_out pos rest) as [(p & ->)| ->]; cbn [bind]; eauto.
Qed.
Lemma C79_lemma desc pos :
  (forall s, SylOfDesc desc pos = Ok s <-> Reads pos desc s) /\
  (SylOfDesc desc pos = UB <-> TooShort desc) /\
  (SylOfDesc desc pos = Throw <-> (forall s, ~ Reads pos desc s) /\ ~ TooShort desc).
Proof.
  assert (OK : forall s, SylOfDesc desc pos = Ok s <-> Reads pos desc s).
  { intros s. split.
    - intros H. destruct (desc_cases desc pos) as [(-> & E)|[(c0 & _ & E)|[(_ & E)|(c0 & c1 & c2 & c3 & c4 & rest & ->)]]].
      + rewrite E in H. discriminate H.
      + rewrite E in H. destruct (InitConsCodeToSound c0); discriminate H.
      + rewrite E in H. discriminate H.
      + rewrite desc_form in H.
        destruct (InitConsCodeToSound c0) as [i| | |] eqn:E0; try discriminate H. cbn [bind] in H.
        destruct (EndConsCodeToClass c3) as [e| | |] eqn:E3; try discriminate H. cbn [bind] in H.
        destruct (ToneCodeToTone c4) as [t| | |] eqn:E4; try discriminate H. cbn [bind] in H.
        destruct (afterFive pos rest) as [p| | |] eqn:E5; try discriminate H. cbn [bind] in H. injection H as <-.
        apply onset_ok in E0. apply final_ok in E3. apply tone_ok in E4. apply after_ok in E5.
        apply (Rd pos c0 c1 c2 c3 c4 rest i _ _ e t p); auto; apply byte_ok; reflexivity.
    - intros [c0 c1 c2 c3 c4 rest i v1 v2 e t p H0 H1 H2 H3 H4 H5].
      apply onset_ok in H0. apply final_ok in H3. apply tone_ok in H4. apply after_ok in H5. apply byte_ok in H1, H2.
      rewrite desc_form, H0, H3, H4, H5. cbn [bind]. rewrite H1, H2. reflexivity. }
  assert (UBs : SylOfDesc desc pos = UB <-> TooShort desc).
  { split.
    - intros H. destruct (desc_cases desc pos) as [(-> & E)|[(c0 & X & E)|[(_ & E)|(c0 & c1 & c2 & c3 & c4 & rest & ->)]]].
      + rewrite E in H. discriminate H.
      + rewrite E in H. destruct (InitConsCodeToSound c0) as [i| | |] eqn:E0; try discriminate H.
        * exists c0, i. split; [apply onset_ok; exact E0|exact X].
        * exfalso. revert E0. unfold InitConsCodeToSound. destruct (assoc_out Ascii.eqb InitConsCodeToSoundTbl_ c0) as [(i & ->)| ->]; discriminate.
      + rewrite E in H. discriminate H.
      + destruct (long_out c0 c1 c2 c3 c4 rest pos) as [(s & E)|E]; rewrite E in H; discriminate H.
    - intros (c0 & i & H & [-> |(c1 & ->)]); apply onset_ok in H; unfold SylOfDesc; cbn [one String.append strIdx bind];
        rewrite H; reflexivity. }
  split; [exact OK|]. split; [exact UBs|]. split.
  - intros H. split.
    + intros s X. apply OK in X. congruence.
    + intros X. apply UBs in X. congruence.
  - intros (H1 & H2). destruct (SylOfDesc desc pos) as [s| | |] eqn:E; [|reflexivity| |].
    + exfalso. apply (H1 s). apply OK. reflexivity.
    + exfalso. apply H2. apply UBs. reflexivity.
    + exfalso. exact (NF_SylOfDesc desc pos E).
Qed.
(** A raw code is read exactly when it has the form of the notation; every
    other text is refused with an exception, except that an onset code alone
    or with one more letter reads past the end of the text. *)
Theorem C79_one_syllable desc pos :
  (forall s, SylOfDesc desc pos = Ok s <-> Reads pos desc s) /\
  (SylOfDesc desc pos = UB <-> TooShort desc) /\
  (SylOfDesc desc pos = Throw <-> (forall s, ~ Reads pos desc s) /\ ~ TooShort desc).
Proof. exact (C79_lemma desc pos). Qed.
Print Assumptions C79_one_syllable.

(** ** A whole entry *)
(** Texts joined by a separator that none of them contains. *)
Inductive Joined (sep : ascii) : list string -> string -> Prop :=
| J_one t : noChar sep t -> Joined sep [t] t
| J_more t ts u : noChar sep t -> Joined sep ts u -> Joined sep (t :: ts) (t ++ String sep u).
(** The codes of an entry: readings between semicolons, syllables between commas. *)
Definition Codes (data : string) (ts : list (list string)) : Prop :=
  exists rs, Joined ";" rs data /\ Forall2 (Joined ",") ts rs.
Definition Readable (t : string) (s : Syl) : Prop := Reads (-1) t s.
(** [l] is read up to a first code that is not readable. *)
Inductive FirstBad : list string -> string -> Prop :=
| FB_here t l : (forall s, ~ Readable t s) -> FirstBad (t :: l) t
| FB_later t s l b : Readable t s -> FirstBad l b -> FirstBad (t :: l) b.

Lemma splitOn_joined sep s : Joined sep (splitOn sep s) s.
Proof.
  induction s as [|c s IH]; cbn [splitOn]; [constructor; exact I|].
  destruct (Ascii.eqb_spec c sep) as [->|N].
  - change (String sep s) with ("" ++ String sep s)%string. constructor; [exact I|exact IH].
  - inversion IH as [t H E1 E2|t ts u H J E1 E2]; subst.
    + constructor. split; assumption.
    + change (String c (t ++ String sep u)) with (String c t ++ String sep u)%string. constructor; [split; assumption|exact J].
Qed.
Lemma joined_split sep l s : Joined sep l s -> splitOn sep s = l.
Proof.
  induction 1 as [t H|t ts u H _ IH]; [apply splitOn_none; exact H|]. rewrite splitOn_app by exact H. now rewrite IH.
Qed.
Lemma codes_ok data : exists ts, Codes data ts.
Proof.
  exists (map (splitOn ",") (splitOn ";" data)), (splitOn ";" data). split; [apply splitOn_joined|].
  induction (splitOn ";" data) as [|x l IH]; cbn [map]; constructor; [apply splitOn_joined|exact IH].
Qed.
Lemma codes_eq data ts : Codes data ts -> map (splitOn ",") (splitOn ";" data) = ts.
Proof.
  intros (rs & J & F). rewrite (joined_split _ _ _ J). clear J data.
  induction F as [|t r ts rs H _ IH]; [reflexivity|]. cbn [map]. rewrite (joined_split _ _ _ H), IH. reflexivity.
Qed.
Definition readList (l : list string) : Res SylString := mapM (fun d => SylOfDesc d (-1)) l.
Lemma make_form data ts : Codes data ts -> MakeSylStrings data = mapM readList ts.
Proof.
  intros C. rewrite <- (codes_eq _ _ C). unfold MakeSylStrings. induction (splitOn ";" data) as [|x l IH]; [reflexivity|].
  cbn [map mapM]. unfold readList at 1. fold (SylStringOfDesc x). now rewrite IH.
Qed.
Lemma readable_ok t s : SylOfDesc t (-1) = Ok s <-> Readable t s.
Proof. apply (C79_lemma t (-1)). Qed.
Lemma short_ok t : SylOfDesc t (-1) = UB <-> TooShort t.
Proof. apply (C79_lemma t (-1)). Qed.
Lemma readable_fun t s s' : Readable t s -> Readable t s' -> s = s'.
Proof. intros A B. apply readable_ok in A, B. congruence. Qed.
Lemma mapM_all {A B} (f : A -> Res B) (R : A -> B -> Prop) : (forall a b, f a = Ok b <-> R a b) ->
  forall l m, mapM f l = Ok m <-> Forall2 R l m.
Proof.
  intros H. induction l as [|a l IH]; intros m; cbn [mapM].
  - split; [intros E; injection E as <-; constructor|intros F; inversion F; reflexivity].
  - split.
    + intros E. destruct (f a) as [b| | |] eqn:Ea; try discriminate E. cbn [bind] in E.
      destruct (mapM f l) as [m'| | |] eqn:El; try discriminate E. cbn [bind] in E. injection E as <-.
      constructor; [apply H; exact Ea|apply IH; reflexivity].
    + intros F. inversion F as [|? b ? m' X Y]; subst. apply H in X. apply IH in Y. rewrite X. cbn [bind]. rewrite Y. reflexivity.
Qed.
Lemma bad_reads l b : FirstBad l b -> readList l = (_ <- SylOfDesc b (-1) ;; Throw)%res.
Proof.
  induction 1 as [t l H|t s l b H F IH]; unfold readList in *; cbn [mapM].
  - destruct (SylOfDesc t (-1)) as [s| | |] eqn:E; try reflexivity. exfalso. apply (H s). apply readable_ok. exact E.
  - apply readable_ok in H. rewrite H. cbn [bind]. rewrite IH.
    destruct (SylOfDesc b (-1)); reflexivity.
Qed.
Lemma good_or_bad l : (exists ss, Forall2 Readable l ss) \/ exists b, FirstBad l b.
Proof.
  induction l as [|t l IH]; [left; exists []; constructor|].
  destruct (SylOfDesc t (-1)) as [s| | |] eqn:E.
  - apply readable_ok in E. destruct IH as [(ss & F)|(b & F)]; [left; exists (s :: ss); constructor; assumption|].
    right. exists b. econstructor 2; eauto.
  - right. exists t. constructor. intros s X. apply readable_ok in X. congruence.
  - right. exists t. constructor. intros s X. apply readable_ok in X. congruence.
  - right. exists t. constructor. intros s X. apply readable_ok in X. congruence.
Qed.
Lemma firstBad_concat ts b : FirstBad (List.concat ts) b ->
  exists pre bad post, ts = pre ++ bad :: post /\ (exists ss, Forall2 (Forall2 Readable) pre ss) /\ FirstBad bad b.
Proof.
  induction ts as [|t ts IH]; cbn [List.concat]; intros H; [inversion H|].
  destruct (good_or_bad t) as [(ss & F)|(b' & F)].
  - assert (X : FirstBad (List.concat ts) b).
    { revert H. induction F as [|x y l l' R F IHF]; [auto|]. cbn [app]. intros H. inversion H as [? ? N|? ? ? ? ? G]; subst; [exfalso; eapply N; eauto|auto]. }
    destruct (IH X) as (pre & bad & post & -> & (ss' & G) & B).
    exists (t :: pre), bad, post. split; [reflexivity|]. split; [exists (ss :: ss'); constructor; assumption|exact B].
  - exists [], t, ts. split; [reflexivity|]. split; [exists []; constructor|].
    assert (b' = b) as ->; [|exact F]. clear - H F. induction F as [x l N|x s l b' R F IHF].
    + cbn [app] in H. inversion H; subst; [reflexivity|]. exfalso. eapply N; eauto.
    + cbn [app] in H. inversion H as [? ? N|? ? ? ? ? G]; subst; [exfalso; eapply N; eauto|auto].
Qed.
Lemma C79_lemma2 data ts : Codes data ts ->
  (forall ss, MakeSylStrings data = Ok ss <-> Forall2 (Forall2 Readable) ts ss) /\
  (MakeSylStrings data = UB <-> exists b, FirstBad (List.concat ts) b /\ TooShort b) /\
  (MakeSylStrings data = Throw <-> exists b, FirstBad (List.concat ts) b /\ ~ TooShort b).
Proof.
  intros C. rewrite (make_form _ _ C). clear C data.
  assert (OK : forall ss, mapM readList ts = Ok ss <-> Forall2 (Forall2 Readable) ts ss).
  { apply mapM_all. intros l m. apply mapM_all. intros t s. apply readable_ok. }
  assert (BAD : forall b, FirstBad (List.concat ts) b -> mapM readList ts = (_ <- SylOfDesc b (-1) ;; Throw)%res).
  { intros b H. destruct (firstBad_concat _ _ H) as (pre & bad & post & -> & (ss & F) & B). clear - F B.
    induction F as [|l m pre ss R F IH]; cbn [app mapM].
    - rewrite (bad_reads _ _ B). destruct (SylOfDesc b (-1)); reflexivity.
    - assert (E : readList l = Ok m) by (apply (mapM_all _ Readable); [intros; apply readable_ok|exact R]).
      rewrite E. cbn [bind]. rewrite IH. destruct (SylOfDesc b (-1)); reflexivity. }
  assert (ALT : (exists ss, mapM readList ts = Ok ss) \/ exists b, FirstBad (List.concat ts) b).
  { destruct (good_or_bad (List.concat ts)) as [(ss & F)|B]; [left|right; exact B]. clear - F OK.
    assert (X : exists ss', Forall2 (Forall2 Readable) ts ss').
    { clear OK. revert ss F. induction ts as [|t ts IH]; intros ss F; [exists []; constructor|]. cbn [List.concat] in F.
      apply Forall2_app_inv_l in F. destruct F as (l1 & l2 & F1 & F2 & _). destruct (IH _ F2) as (ss' & G).
      exists (l1 :: ss'). constructor; assumption. }
    destruct X as (ss' & X). exists ss'. apply OK. exact X. }
  assert (BN : forall b, FirstBad (List.concat ts) b -> forall s, ~ Readable b s).
  { intros b H. remember (List.concat ts) as l. clear - H. induction H; auto. }
  split; [exact OK|]. split; split.
  - intros H. destruct ALT as [(ss & E)|(b & B)]; [congruence|]. exists b. split; [exact B|].
    rewrite (BAD b B) in H. apply short_ok. destruct (SylOfDesc b (-1)); try discriminate H; reflexivity.
  - intros (b & B & T). rewrite (BAD b B). apply short_ok in T. rewrite T. reflexivity.
  - intros H. destruct ALT as [(ss & E)|(b & B)]; [congruence|]. exists b. split; [exact B|].
    intros T. apply short_ok in T. rewrite (BAD b B), T in H. discriminate H.
  - intros (b & B & T). rewrite (BAD b B). destruct (C79_lemma b (-1)) as (_ & _ & X).
    rewrite (proj2 X); [reflexivity|]. split; [exact (BN b B)|exact T].
Qed.
(** A dictionary entry is read exactly when each of its codes is; otherwise
    the first unreadable code decides the failure. *)
Theorem C79_entry data : (exists ts, Codes data ts) /\ forall ts, Codes data ts ->
  (forall ss, MakeSylStrings data = Ok ss <-> Forall2 (Forall2 Readable) ts ss) /\
  (MakeSylStrings data = UB <-> exists b, FirstBad (List.concat ts) b /\ TooShort b) /\
  (MakeSylStrings data = Throw <-> exists b, FirstBad (List.concat ts) b /\ ~ TooShort b).
Proof. split; [exact (codes_ok data)|]. intros ts. exact (C79_lemma2 data ts). Qed.
Print Assumptions C79_entry.

(** ** In the parser *)
(** The text stored for the word [k]. *)
Definition wordData (d : Dict) (k : list N) (data : string) : Prop :=
  exists v, holds d k v /\ v <> TRIE_DATA_ERROR /\ dictGetData d v = Ok data.
Lemma wordData_match d k data : wordData d k data -> matchGetData d (mkMatch 0 k []) = Ok data.
Proof.
  intros (v & H & N & E). unfold matchGetData. destruct (mTrie d) as [t|] eqn:Et.
  - apply (holds_find d t _ _ Et) in H. cbn [mPre]. unfold trieGetData. rewrite H.
    destruct (Z.eqb_spec v TRIE_DATA_ERROR); [contradiction|exact E].
  - destruct H as (t & X & _). congruence.
Qed.
Lemma word_end_fun ct w brk b e e' : wordEnd ct w brk b e -> wordEnd ct w brk b e' -> e = e'.
Proof.
  assert (H : forall e e', wordEnd ct w brk b e -> wordEnd ct w brk b e' -> e < e' -> False).
  { intros x y [a1 a2 a3 a4 a5] [b1 b2 b3 b4 b5] L. destruct a5 as [X|[X|X]]; [lia| |].
    - specialize (b4 x X). lia.
    - apply X. apply b3. lia. }
  intros A B. destruct (Nat.lt_trichotomy e e') as [L|[L|L]]; [exfalso; eauto|exact L|exfalso; eauto].
Qed.
Lemma first_gap ct w brk e s : wordEnd ct w brk 0 e -> skipGap ct w brk (mkState 0 0 dagEmpty false) = Ok s ->
  s = mkState 0 e dagEmpty false.
Proof.
  intros E H. pose proof (we_tok _ _ _ _ _ E 0 ltac:(destruct E; lia)) as T.
  assert (K : SkipNonThai ct w 0 = 0).
  { destruct (SkipNonThai_spec ct w 0 ltac:(lia)) as (A & B & _).
    destruct (Nat.eq_dec (SkipNonThai ct w 0) 0) as [X|X]; [exact X|]. exfalso. apply (B 0); [lia|exact T]. }
  unfold skipGap in H. cbn [sPos sStop sDag sLinked] in H. rewrite K in H. change (0 <? 0) with false in H. cbn [sPos sStop sDag sLinked] in H.
  destruct (Nat.ltb_spec 0 (length w)) as [L|L]; [|destruct E; lia].
  pose proof (NextWordStop_sat ct w brk True (or_introl I) 0 T) as S.
  destruct (NextWordStop ct w 0 brk) as [st| | |]; cbn [bind] in H; try discriminate H.
  assert (X : st = e) by exact (word_end_fun _ _ _ _ _ _ S E). subst st.
  inversion H. reflexivity.
Qed.
Lemma C79_lemma3 ct w d brk fuel e k data ts b g :
  wordEnd ct w brk 0 e -> applicable ct w d 0 e k -> wordData d k data -> Codes data ts -> FirstBad (List.concat ts) b ->
  ParseU16F ct fuel w (Some d) brk <> Ok g.
Proof.
  intros E A D C B H. unfold ParseU16F in H.
  destruct (skipGap ct w brk (mkState 0 0 dagEmpty false)) as [s| | |] eqn:G; cbn [bind] in H; try discriminate H.
  apply (first_gap ct w brk e s E) in G. subst s.
  pose proof (we_lt _ _ _ _ _ E) as E1. pose proof (we_le _ _ _ _ _ E) as E2.
  change (poolAdd [] (mkState 0 e dagEmpty false)) with [mkState 0 e dagEmpty false] in H.
  destruct fuel as [|f]; cbn [parseLoop] in H; [discriminate H|]. cbn [sPos] in H.
  destruct (Nat.leb_spec (length w) 0) as [L|_]; [lia|].
  destruct (stepStates ct w (Some d) brk (mkState 0 e dagEmpty false)) as [l| | |] eqn:S; cbn [bind] in H; try discriminate H.
  destruct (exc_exact ct w d brk (mkState 0 e dagEmpty false) l k E1 E2 A S) as (_ & X).
  destruct (X k A) as (strs & _ & (data' & M1 & M2) & _).
  rewrite (wordData_match _ _ _ D) in M1. injection M1 as <-.
  destruct (C79_lemma2 data ts C) as (_ & U & T).
  assert (Y : TooShort b \/ ~ TooShort b).
  { destruct (SylOfDesc b (-1)) as [x| | |] eqn:Q.
    - right. intros Z. apply short_ok in Z. congruence.
    - right. intros Z. apply short_ok in Z. congruence.
    - left. apply short_ok. exact Q.
    - right. intros Z. apply short_ok in Z. congruence. }
  destruct Y as [Y|Y].
  - assert (Z : MakeSylStrings data = UB) by (apply U; exists b; auto). congruence.
  - assert (Z : MakeSylStrings data = Throw) by (apply T; exists b; auto). congruence.
Qed.
(** A word of the dictionary with an unreadable code kills the parser
    wherever a text begins with it. *)
Theorem C79_parser ct w d brk fuel e k data ts b g :
  wordEnd ct w brk 0 e -> applicable ct w d 0 e k -> wordData d k data -> Codes data ts -> FirstBad (List.concat ts) b ->
  ParseU16F ct fuel w (Some d) brk <> Ok g.
Proof. exact (C79_lemma3 ct w d brk fuel e k data ts b g). Qed.
Print Assumptions C79_parser.

(** The second letter and the vowel are not looked up, so a code can be read
    that four of the outputs cannot write and the fifth writes as a space. *)
Lemma C79_lemma4 : exists t s, Readable t s /\ RawOutput s = Throw /\ PhoneticOutput s = Throw /\
  RomanSylOutput s = Throw /\ SoundexOutput s = Throw /\ ThaiOutput s = Ok " "%string.
Proof.
  exists "k_Q_0@2"%string, (SylOf KA SEC_NONE 81 EC_NONE SAMAN 2)%Z. split; [apply readable_ok; vm_compute; reflexivity|].
  repeat split; vm_compute; reflexivity.
Qed.
Theorem C79_writable_refuted : exists t s, Readable t s /\ RawOutput s = Throw /\ PhoneticOutput s = Throw /\
  RomanSylOutput s = Throw /\ SoundexOutput s = Throw /\ ThaiOutput s = Ok " "%string.
Proof. exact C79_lemma4. Qed.
Print Assumptions C79_writable_refuted.

(** Blanks and a sign before the number, letters after it, a code without
    position, and "@" alone. *)
Example C79_case :
  SylOfDesc "krAn1@ +12x" 7 = Ok (SylOf KA SEC_RA V_AA KON EK 12)%Z /\
  Reads 7 "krAn1@ +12x" (SylOf KA SEC_RA V_AA KON EK 12)%Z /\
  Reads 7 "krAn1@-0003" (SylOf KA SEC_RA V_AA KON EK (-3))%Z /\
  Reads 7 "krAn1" (SylOf KA SEC_RA V_AA KON EK 7)%Z /\ Reads 7 "krAn1@" (SylOf KA SEC_RA V_AA KON EK 7)%Z /\
  SylOfDesc "krAn1@x" 7 = Throw /\ SylOfDesc "krAn1@2147483648" 7 = Throw /\
  Reads 7 "krAn1@-2147483648" (SylOf KA SEC_RA V_AA KON EK (-2147483648))%Z /\
  TooShort "k" /\ TooShort "k_" /\ ~ TooShort "k_A" /\ SylOfDesc "k_A" 7 = Throw /\ SylOfDesc "x" 7 = Throw.
Proof.
  assert (R : forall t s, SylOfDesc t 7 = Ok s -> Reads 7 t s) by (intros t s; apply (C79_lemma t 7)).
  assert (S : forall t, SylOfDesc t (-1) = UB -> TooShort t) by (intros t; apply short_ok).
  assert (Q : ~ TooShort "k_A") by (intros X; apply short_ok in X; discriminate X).
  repeat match goal with |- _ /\ _ => split end; try exact Q; first [apply R | apply S | idtac]; vm_compute; reflexivity.
Qed.
(** "kan" is listed with a code that lacks its tone, "ka" with an onset
    alone. *)
Example C79_case2 :
  let d := mkDict (Some [(letters "กาล", 0%Z); (letters "มา", 5%Z)]) (Some ("k_An" ++ nul ++ "m" ++ nul)%string) in
  let w := letters "กาลกา" in
  wordEnd libthai_ct w [] 0 5 /\ applicable libthai_ct w d 0 5 (letters "กาล") /\
  wordData d (letters "กาล") "k_An" /\ Codes "k_An" [["k_An"]]%string /\
  FirstBad (List.concat [["k_An"]]%string) "k_An" /\
  ParseU16F libthai_ct 100 w (Some d) [] = Throw /\ ParseU16F libthai_ct 100 (letters "มา") (Some d) [] = UB.
Proof.
  cbv zeta. split.
  { constructor; [lia|cbn; lia| | |left; reflexivity].
    - intros k Hk. do 5 (destruct k as [|k]; [eexists; split; [reflexivity|vm_compute; reflexivity]|]). lia.
    - intros x (l1 & l2 & X & _). destruct l1; discriminate X. }
  split.
  { split; [|split; [discriminate|split; [|split; [|split; [cbn; lia|]]]]].
    - exists 0%Z. eexists. split; [reflexivity|]. exists [], [(letters "มา", 5%Z)]. split; [reflexivity|]. intros v' [].
    - intros c Hc. vm_compute in Hc. destruct Hc as [<-|[<-|[<-|[]]]]; vm_compute; split; discriminate.
    - exists (letters "กา"). reflexivity.
    - right. eexists. split; [reflexivity|vm_compute; reflexivity]. }
  split.
  { exists 0%Z. split; [|split; [discriminate|vm_compute; reflexivity]].
    eexists. split; [reflexivity|]. exists [], [(letters "มา", 5%Z)]. split; [reflexivity|]. intros v' []. }
  split; [exists ["k_An"%string]; split; [|repeat constructor]; repeat constructor; discriminate|].
  split; [cbn [List.concat app]; constructor; intros s X; apply readable_ok in X; discriminate X|].
  split; vm_compute; reflexivity.
Qed.

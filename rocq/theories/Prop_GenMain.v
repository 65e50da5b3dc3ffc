(** Prop_GenMain.v - property theorem C78: the dictionary generator as a
    program, and thpronun run with the dictionary it makes. *)
From Coq Require Import List NArith ZArith Bool String Ascii Lia Arith Sorted.
From Verif Require Import Base ThUni ThCons Syl Utf UtfProofs Lattice Dag PronDag SylOut ThaiOut Output Dict GenDict Parser Cli GenMain.
From Verif Require Import Spec OrderProofs DictProofs Prop_Syl ParserSpec ParserFacts ParserInv ParserResult ParserListed ParserDict.
From Verif Require Import Prop_Output Prop_Parser Grammar GrammarWord TextGrammar TextProof.
From Verif Require Import Prop_Dict Prop_Cli Prop_Cli2 Prop_Every Prop_Program Prop_ProgramJson Prop_ProgramEvery Prop_Pipeline Prop_Codes.
Import ListNotations.
Local Open Scope string_scope.
Local Open Scope list_scope.
Local Open Scope nat_scope.

(** ** Lines *)
(** A line whose word can be read but has a character outside the Thai block. *)
Definition foreignLine (k : list N) (data : string) : Prop :=
  Forall scalar k /\ Forall (fun c => c <> 0 /\ c <> 9 /\ c <> 10)%N k /\ ~ inAbc k /\
  noNul data /\ lacks lf data /\ String.length (lineText k data) <= 254.
(** What is said about a line that cannot be taken apart. *)
Inductive complaint (bad : string) : string -> Prop :=
| cm_tab : lacks tab bad -> complaint bad ("Cannot find TAB delimeter." ++ nl ++ "Line:" ++ bad ++ nl)
| cm_word key d : bad = (key ++ String tab d)%string -> lacks tab key ->
    complaint bad ("Fail to convert word '" ++ key ++ "'." ++ nl).

(** [t] is [n] in lower-case hexadecimal digits. *)
Inductive Hex : N -> string -> Prop :=
| hx_nil : Hex 0 ""
| hx_digit n t d c : Hex n t -> String.get (N.to_nat d) "0123456789abcdef" = Some c -> Hex (16 * n + d) (t ++ String c "").
(** What is said about a word that is not stored. *)
Definition notStored (k : list N) (data m : string) : Prop :=
  exists n codes, Numeral (Z.of_nat (List.length k)) n /\ Forall2 (fun c t => Hex c t /\ String.length t = 8) k codes /\
    (m = "Failed to store word of length " ++ n ++ ", data '" ++ data ++ "'" ++ nl
      ++ "Word: [" ++ String.concat "," codes ++ "]" ++ nl)%string.

Lemma hex_digit d : (d < 16)%N -> String.get (N.to_nat d) "0123456789abcdef" = Some (hexDigit d).
Proof.
  intros H. assert (S : forallb (fun i => match String.get i "0123456789abcdef" with Some c => Ascii.eqb c (hexDigit (N.of_nat i)) | None => false end) (seq 0 16) = true)
    by (vm_compute; reflexivity).
  rewrite forallb_forall in S. specialize (S (N.to_nat d)). rewrite N2Nat.id in S.
  destruct (String.get (N.to_nat d) "0123456789abcdef") as [c|]; [|discriminate S; apply in_seq; lia].
  f_equal. apply Ascii.eqb_eq. apply S. apply in_seq. lia.
Qed.
Lemma hex_step c k t : Hex (N.shiftr c (k + 4)) t -> Hex (N.shiftr c k) (t ++ String (hexDigit (N.modulo (N.shiftr c k) 16)) "").
Proof.
  intros H. rewrite (N.div_mod' (N.shiftr c k) 16) at 1. rewrite <- N.shiftr_shiftr, N.shiftr_div_pow2 with (n := 4%N) in H.
  apply hx_digit; [exact H|]. apply hex_digit. apply N.mod_lt. discriminate.
Qed.
Lemma hex8_ok c : (c < 4294967296)%N -> Hex c (hex8 c) /\ String.length (hex8 c) = 8.
Proof.
  intros H. split; [|reflexivity].
  assert (Z : Hex (N.shiftr c 32) "").
  { replace (N.shiftr c 32) with 0%N; [constructor|]. rewrite N.shiftr_div_pow2. symmetry. apply N.div_small. exact H. }
  apply (hex_step c 28), (hex_step c 24), (hex_step c 20), (hex_step c 16), (hex_step c 12), (hex_step c 8), (hex_step c 4), (hex_step c 0) in Z.
  rewrite N.shiftr_0_r in Z. exact Z.
Qed.

Lemma snil s : (s ++ "")%string = s.
Proof. induction s as [|c s IH]; [reflexivity|]. cbn [String.append]. rewrite IH. reflexivity. Qed.
Lemma readR_nl t r : lacks lf t -> lacks Ascii.zero t -> String.length t < 255 ->
  ReadInputR (t ++ String lf r) = rbind (done t) (fun l => takeLine l r).
Proof.
  intros F1 F2 L. unfold ReadInputR, fgets. destruct (t ++ String lf r)%string as [|x s] eqn:Es; [destruct t; discriminate Es|].
  rewrite <- Es. rewrite fgets_line by assumption. rewrite cut0_id.
  2:{ apply lacks_app. split; [exact F2|]. cbn [lacks]. split; [discriminate|exact I]. }
  unfold trimLine. destruct (t ++ String lf "")%string as [|y s'] eqn:Es'; [destruct t; discriminate Es'|].
  rewrite <- Es', dropNl_nl. reflexivity.
Qed.
Lemma readR_last t : lacks lf t -> lacks Ascii.zero t -> t <> ""%string -> String.length t <= 255 ->
  ReadInputR t = rbind (done t) (fun l => takeLine l "").
Proof.
  intros F1 F2 N L. unfold ReadInputR, fgets. destruct t as [|x s] eqn:Es; [contradiction (N eq_refl)|]. rewrite <- Es in *.
  rewrite fgets_last by assumption. rewrite cut0_id by exact F2. unfold trimLine. rewrite Es, <- Es, dropNl_id by exact F1. reflexivity.
Qed.
Lemma rbind_done {A B} (a : A) (k : A -> Run B) : rbind (done a) k = k a.
Proof. unfold rbind, done. cbn [rRes rOut rErr]. destruct (k a); reflexivity. Qed.
Lemma take_well k d r : wellLine (k, d) -> takeLine (lineText k d) r = done (Some (k, d, r)).
Proof.
  intros W. pose proof (decode_line k d W) as E. unfold takeLine. destruct (splitTab (lineText k d)) as [[word data]|]; [|discriminate E].
  destruct (decodeWord 255 word); [|discriminate E]. injection E as -> ->. reflexivity.
Qed.
Lemma take_bad bad r : badLine bad -> exists e, complaint bad e /\ takeLine bad r = mkRun "" e (Ok None).
Proof.
  intros (N & F & Z & L & T). unfold takeLine. destruct T as [T|(key & d & -> & T & X)].
  - exists ("Cannot find TAB delimeter." ++ nl ++ "Line:" ++ bad ++ nl)%string. split; [constructor; exact T|].
    rewrite splitTab_none by exact T. unfold rbind, err, done. cbn [rRes rOut rErr]. f_equal.
    rewrite snil, !sapp_assoc. reflexivity.
  - exists ("Fail to convert word '" ++ key ++ "'." ++ nl)%string. split; [econstructor; [reflexivity|exact T]|].
    rewrite splitTab_at by exact T. destruct (decodeWord 255 key) as [l|] eqn:Ek.
    + exfalso. apply X. rewrite slen_app in L. apply C37_lemma5 in Ek; [|lia]. destruct Ek as (us & H & _). eauto.
    + unfold rbind, err, done. cbn [rRes rOut rErr]. f_equal.
      apply snil.
Qed.
Lemma cp_lacks c x : scalar c -> (byteZ x < 128)%Z -> Z.of_N c <> byteZ x -> lacks x (string_of_list_ascii (utf8EncodeCp c)).
Proof.
  intros H X N. unfold utf8EncodeCp. unfold scalar in H.
  destruct (cont_mk c) as (C1 & _). destruct (cont_mk (c / 64)) as (C2 & _). destruct (cont_mk (c / 4096)) as (C3 & _). unfold contByte in *.
  destruct (N.ltb_spec c 0x80) as [L1|L1].
  - cbn [string_of_list_ascii lacks]. split; [|exact I]. intros E. apply N. rewrite <- E. rewrite byteZ_byte by lia. reflexivity.
  - destruct (N.ltb_spec c 0x800) as [L2|L2]; [|destruct (N.ltb_spec c 0x10000) as [L3|L3]].
    + assert (D : (c / 64 < 32)%N) by (apply N.div_lt_upper_bound; lia).
      assert (B : byteZ (byte (0xC0 + c / 0x40)) = (192 + Z.of_N (c / 64))%Z).
      { rewrite byteZ_byte by (revert D; generalize (c / 64)%N; intros; lia). lia. }
      cbn [string_of_list_ascii lacks]. repeat split; intros E; rewrite E in *; try lia.
      pose proof (N2Z.is_nonneg (c / 64)). lia.
    + assert (D : (c / 4096 < 16)%N) by (apply N.div_lt_upper_bound; lia).
      assert (B : byteZ (byte (0xE0 + c / 0x1000)) = (224 + Z.of_N (c / 4096))%Z).
      { rewrite byteZ_byte by (revert D; generalize (c / 4096)%N; intros; lia). lia. }
      cbn [string_of_list_ascii lacks]. repeat split; intros E; rewrite E in *; try lia.
      pose proof (N2Z.is_nonneg (c / 4096)). lia.
    + assert (D : (c / 262144 < 8)%N) by (apply N.div_lt_upper_bound; lia).
      assert (B : byteZ (byte (0xF0 + c / 0x40000)) = (240 + Z.of_N (c / 262144))%Z).
      { rewrite byteZ_byte by (revert D; generalize (c / 262144)%N; intros; lia). lia. }
      cbn [string_of_list_ascii lacks]. repeat split; intros E; rewrite E in *; try lia.
      pose proof (N2Z.is_nonneg (c / 262144)). lia.
Qed.
Lemma word_lacks k x : Forall scalar k -> (byteZ x < 128)%Z -> Forall (fun c => Z.of_N c <> byteZ x) k -> lacks x (utf8Encode k).
Proof.
  intros S X N. unfold utf8Encode. induction S as [|c k Sc S IH]; [exact I|]. inversion N; subst. cbn [flat_map].
  rewrite sola_app, lacks_app. split; [apply cp_lacks; assumption|apply IH; assumption].
Qed.
Lemma word_len k : List.length k <= String.length (utf8Encode k).
Proof.
  unfold utf8Encode. induction k as [|c k IH]; [apply le_n|]. cbn [flat_map]. rewrite sola_app, slen_app. cbn [List.length].
  assert (1 <= String.length (string_of_list_ascii (utf8EncodeCp c))); [|lia]. unfold utf8EncodeCp.
  destruct (c <? 0x80)%N; [|destruct (c <? 0x800)%N; [|destruct (c <? 0x10000)%N]]; cbn [string_of_list_ascii String.length]; lia.
Qed.
Lemma foreign_line k d : foreignLine k d ->
  lacks lf (lineText k d) /\ lacks Ascii.zero (lineText k d) /\ lineText k d <> ""%string /\ String.length (lineText k d) <= 254 /\
  (forall r, takeLine (lineText k d) r = done (Some (k, d, r))) /\ forall t i, trieStore t k i = None.
Proof.
  intros (S & Z & A & D1 & D2 & L).
  assert (T : lacks tab (utf8Encode k)).
  { apply word_lacks; [exact S|vm_compute; reflexivity|]. eapply Forall_impl; [|exact Z]. cbn. intros c Hc E. apply Hc. change (byteZ tab) with 9%Z in E. lia. }
  assert (T2 : lacks lf (utf8Encode k)).
  { apply word_lacks; [exact S|vm_compute; reflexivity|]. eapply Forall_impl; [|exact Z]. cbn. intros c Hc E. apply Hc. change (byteZ lf) with 10%Z in E. lia. }
  assert (T3 : lacks Ascii.zero (utf8Encode k)).
  { apply word_lacks; [exact S|vm_compute; reflexivity|]. eapply Forall_impl; [|exact Z]. cbn. intros c Hc E. apply Hc. change (byteZ Ascii.zero) with 0%Z in E. lia. }
  unfold lineText in *. rewrite !lacks_app. cbn [lacks].
  split; [split; [exact T2|split; [discriminate|exact D2]]|].
  split; [split; [exact T3|split; [discriminate|apply noNul_lacks; exact D1]]|].
  split; [destruct (utf8Encode k); discriminate|]. split; [exact L|]. split.
  - intros r. unfold takeLine. rewrite splitTab_at by exact T. rewrite slen_app in L. pose proof (word_len k) as W.
    assert (Z' : Forall (fun c => c <> 0%N) k) by (eapply Forall_impl; [|exact Z]; cbn; intros c Hc; apply Hc).
    rewrite C37_lemma3 by (auto; lia). rewrite cutKey_id by exact Z'. reflexivity.
  - intros t i. unfold trieStore. destruct (forallb inAlphabet k) eqn:Al; [|reflexivity]. exfalso. apply A.
    intros c Ic. apply inAlphabet_spec. rewrite forallb_forall in Al. exact (Al c Ic).
Qed.

(** ** The loop *)
Lemma loopR_file lines input : FileOf lines input -> Forall wellLine lines -> forall fuel t b,
  (String.length input < fuel)%nat -> genLoopR fuel input t b = lift (genLoop fuel input t b).
Proof.
  induction 1 as [|k d|k d l s F IH]; intros W fuel t b L; (destruct fuel as [|fuel]; [lia|]); cbn [genLoop genLoopR].
  - reflexivity.
  - inversion W as [|? ? W1 _]; subst. destruct (line_lacks k d W1) as (F1 & F2 & F3). pose proof W1 as (_ & _ & _ & _ & Len). cbn [fst snd] in Len.
    rewrite (read_last k d W1), readR_last by (auto; lia). rewrite rbind_done, take_well, rbind_done by exact W1. cbn [bind].
    destruct (DataBankAddData b d) as [p| | |]; [|reflexivity..]. cbn [bind]. change (lift (Ok p)) with (done p). rewrite rbind_done.
    destruct (trieStore t k (snd p)) as [t'|] eqn:Et; [|exfalso].
    + destruct fuel; [exfalso; destruct (lineText k d); [contradiction (F3 eq_refl)|cbn [String.length] in L; lia]|]. reflexivity.
    + destruct W1 as (_ & A & _). unfold trieStore in Et. cbn [fst] in A. replace (forallb inAlphabet k) with true in Et; [discriminate Et|].
      symmetry. apply forallb_forall. intros c I. apply inAlphabet_spec. auto.
  - inversion W as [|? ? W1 W2]; subst. destruct (line_lacks k d W1) as (F1 & F2 & F3). pose proof W1 as (_ & _ & _ & _ & Len). cbn [fst snd] in Len.
    rewrite (read_nl k d s W1), readR_nl by (auto; lia). rewrite rbind_done, take_well, rbind_done by exact W1. cbn [bind].
    destruct (DataBankAddData b d) as [p| | |]; [|reflexivity..]. cbn [bind]. change (lift (Ok p)) with (done p). rewrite rbind_done.
    rewrite slen_app in L. cbn [String.length] in L.
    destruct (trieStore t k (snd p)) as [t'|] eqn:Et; [apply IH; [exact W2|lia]|exfalso].
    destruct W1 as (_ & A & _). unfold trieStore in Et. cbn [fst] in A. replace (forallb inAlphabet k) with true in Et; [discriminate Et|].
    symmetry. apply forallb_forall. intros c I. apply inAlphabet_spec. auto.
Qed.
Lemma loopR_lines l : Forall wellLine l -> forall fuel fuel0 t b t' b' rest, (String.length (linesText l) < fuel)%nat ->
  genLoop fuel0 (linesText l) t b = Ok (Some (t', b')) ->
  exists fuel', (fuel - String.length (linesText l) <= fuel')%nat /\ genLoopR fuel (linesText l ++ rest) t b = genLoopR fuel' rest t' b'.
Proof.
  induction 1 as [|[k d] l W1 W2 IH]; intros fuel fuel0 t b t' b' rest L E.
  - destruct fuel0 as [|fuel0]; [discriminate E|]. cbn [linesText fold_right genLoop] in E. rewrite read_end in E. cbn [bind] in E. injection E as -> ->.
    exists fuel. split; [lia|reflexivity].
  - destruct fuel0 as [|fuel0]; [discriminate E|]. destruct fuel as [|fuel]; [lia|].
    cbn [linesText fold_right fst snd] in *. fold (linesText l) in *. cbn [genLoop] in E. rewrite (read_nl k d _ W1) in E. cbn [bind] in E.
    destruct (line_lacks k d W1) as (F1 & F2 & F3). pose proof W1 as (_ & _ & _ & _ & Len). cbn [fst snd] in Len.
    rewrite slen_app in L. cbn [String.length] in L.
    rewrite sapp_assoc. cbn [String.append genLoopR]. rewrite readR_nl by (auto; lia). rewrite rbind_done, take_well, rbind_done by exact W1.
    destruct (DataBankAddData b d) as [p| | |]; try discriminate E. cbn [bind] in E. change (lift (Ok p)) with (done p). rewrite rbind_done.
    destruct (trieStore t k (snd p)) as [t2|]; [|discriminate E].
    destruct (IH fuel fuel0 t2 (fst p) t' b' rest ltac:(lia) E) as (f' & Lf & ->). exists f'. split; [|reflexivity].
    rewrite slen_app. cbn [String.length]. lia.
Qed.
Lemma gen_size l : Forall wellLine l -> forall fuel t b t' b', genLoop fuel (linesText l) t b = Ok (Some (t', b')) ->
  (dataSize b' <= dataSize b + Z.of_nat (String.length (linesText l)))%Z.
Proof.
  induction 1 as [|[k d] l W1 W2 IH]; intros fuel t b t' b' E; (destruct fuel as [|fuel]; [discriminate E|]).
  - cbn [linesText fold_right genLoop] in E. rewrite read_end in E. cbn [bind] in E. injection E as <- <-. lia.
  - cbn [linesText fold_right fst snd] in *. fold (linesText l) in *. cbn [genLoop] in E. rewrite (read_nl k d _ W1) in E. cbn [bind] in E.
    assert (S : forall p, DataBankAddData b d = Ok p -> dataSize (fst p) = (dataSize b + Z.of_nat (String.length d) + 1)%Z).
    { intros p. unfold DataBankAddData. destruct (DataBankAllocate b _) as [z| | |]; cbn [bind]; try discriminate.
      destruct (z <? _)%Z; [discriminate|]. intros Q. injection Q as <-. unfold dataSize. cbn [fst bPool]. rewrite !slen_app. cbn [String.length]. lia. }
    destruct (DataBankAddData b d) as [p| | |]; try discriminate E. cbn [bind] in E. specialize (S p eq_refl).
    destruct (trieStore t k (snd p)) as [t2|]; [|discriminate E]. apply IH in E. rewrite slen_app. unfold lineText. rewrite slen_app. cbn [String.length]. lia.
Qed.
Lemma gen_lines l : Forall wellLine l -> (Z.of_nat (String.length (linesText l)) < 1073741824)%Z ->
  exists t b, genLoop (S (String.length (linesText l))) (linesText l) [] NewDataBank = Ok (Some (t, b)) /\
    GenDict (linesText l) = Ok (Some (mkDictFile t (fst (DataBankWrite b)))) /\ (0 <= dataSize b <= 1073741824)%Z /\ bankOK b.
Proof.
  intros W L. destruct (gen_ok l _ (linesText_file l) W (S (String.length (linesText l))) [] [] NewDataBank) as (t & b & E & G & D1 & _);
    [lia|apply inv0|change (dataSize NewDataBank) with 0%Z; lia|].
  exists t, b. split; [exact E|]. split; [unfold GenDict; rewrite E; reflexivity|].
  split; [unfold dataSize in *; lia|apply G].
Qed.

(** ** C78: the generator *)
(** The dictionary file holds, for every word, what its last line says, and
    nothing else; made of no line at all, it does not open. *)
Definition madeOf (f : DictFile) (lines : list (list N * string)) : Prop :=
  (lines <> [] -> exists d, DictOpen (ATrie f) = Ok (d, true) /\
     forall k s, (exists i, holds d k i /\ dictGetData d i = Ok s) <-> lastSays lines k s) /\
  (lines = [] -> exists d, DictOpen (ATrie f) = Ok (d, false)).
Lemma made_of lines input : FileOf lines input -> Forall wellLine lines -> (Z.of_nat (String.length input) < 1073741824)%Z ->
  exists f, GenDict input = Ok (Some f) /\ madeOf f lines.
Proof.
  intros F W L. destruct lines as [|x lines].
  - inversion F; subst. eexists. split; [reflexivity|]. split; [intros N; contradiction (N eq_refl)|]. intros _. eexists. reflexivity.
  - destruct (C38_all_kept (x :: lines) input F W ltac:(discriminate) L) as (f & d & E1 & E2 & H & _).
    exists f. split; [exact E1|]. split; [|discriminate]. intros _. exists d. split; assumption.
Qed.
Lemma gen_file lines input : FileOf lines input -> Forall wellLine lines -> GenDictR input = lift (GenDict input).
Proof.
  intros F W. unfold GenDictR, GenDict. rewrite (loopR_file lines input F W) by lia.
  destruct (genLoop _ input [] NewDataBank) as [r| | |]; reflexivity.
Qed.

Lemma C78_refused_lemma readable writable same prog source target : 
  (forall argv, List.length argv <> 3 ->
     genMain readable writable same argv =
     mkRun ("Usage: gen-lookup-dict <input-file> <dict-file>" ++ nl) "" (Ok (mkExit 1 Untouched))) /\
  (readable source = None ->
     genMain readable writable same [prog; source; target] =
     mkRun "" ("Fail to open input file """ ++ source ++ """ for reading." ++ nl) (Ok (mkExit 1 Untouched))) /\
  (readable source <> None -> writable target = false ->
     genMain readable writable same [prog; source; target] =
     mkRun "" ("Fail to open output file """ ++ target ++ """ for writing." ++ nl) (Ok (mkExit 1 Untouched))).
Proof.
  split; [|split].
  - intros argv L. destruct argv as [|a [|b [|c [|d argv]]]]; try reflexivity. contradiction (L eq_refl).
  - intros E. unfold genMain. rewrite E. unfold rbind, err, done. cbn [rRes rOut rErr]. f_equal. apply snil.
  - intros N E. unfold genMain. destruct (readable source); [|contradiction (N eq_refl)]. rewrite E.
    unfold rbind, err, done. cbn [rRes rOut rErr]. f_equal. apply snil.
Qed.
(** Nothing is written when the program is called wrongly or a file cannot be
    opened; the status is 1 and the reason is printed. *)
Theorem C78_refused readable writable same prog source target : 
  (forall argv, List.length argv <> 3 ->
     genMain readable writable same argv =
     mkRun ("Usage: gen-lookup-dict <input-file> <dict-file>" ++ nl) "" (Ok (mkExit 1 Untouched))) /\
  (readable source = None ->
     genMain readable writable same [prog; source; target] =
     mkRun "" ("Fail to open input file """ ++ source ++ """ for reading." ++ nl) (Ok (mkExit 1 Untouched))) /\
  (readable source <> None -> writable target = false ->
     genMain readable writable same [prog; source; target] =
     mkRun "" ("Fail to open output file """ ++ target ++ """ for writing." ++ nl) (Ok (mkExit 1 Untouched))).
Proof. exact (C78_refused_lemma readable writable same prog source target). Qed.
Print Assumptions C78_refused.

(** The files of a run: the source is [input], the target can be written and is
    another file. *)
Record ready (readable : string -> option string) (writable : string -> bool) (same : string -> string -> bool)
    (source target input : string) : Prop := {
  rd_read : readable source = Some input;
  rd_write : writable target = true;
  rd_other : same source target = false;
  rd_size : (Z.of_nat (String.length input) < 1073741824)%Z }.
Lemma main_ready readable writable same prog source target input : ready readable writable same source target input ->
  genMain readable writable same [prog; source; target] =
  rbind (GenDictR input) (fun r => match r with
    | None => rbind (err ("Fail to generate dictionary" ++ nl)) (fun _ => done (mkExit 1 Emptied))
    | Some f => done (mkExit 0 (Dictionary f)) end).
Proof. intros [R W O _]. unfold genMain. rewrite R, W, O. reflexivity. Qed.
Lemma C78_success_lemma readable writable same prog source target input lines :
  ready readable writable same source target input -> FileOf lines input -> Forall wellLine lines ->
  exists f, genMain readable writable same [prog; source; target] = mkRun "" "" (Ok (mkExit 0 (Dictionary f))) /\ madeOf f lines.
Proof.
  intros Rd F W. destruct (made_of lines input F W (rd_size _ _ _ _ _ _ Rd)) as (f & E & M). exists f. split; [|exact M].
  rewrite (main_ready _ _ _ _ _ _ _ Rd), (gen_file lines input F W), E. reflexivity.
Qed.
(** A source of well-formed lines: no message, status 0, and the dictionary is
    the one of these lines. *)
Theorem C78_success readable writable same prog source target input lines :
  ready readable writable same source target input -> FileOf lines input -> Forall wellLine lines ->
  exists f, genMain readable writable same [prog; source; target] = mkRun "" "" (Ok (mkExit 0 (Dictionary f))) /\ madeOf f lines.
Proof. exact (C78_success_lemma readable writable same prog source target input lines). Qed.
Print Assumptions C78_success.

Lemma C78_cut_lemma readable writable same prog source target l bad rest :
  ready readable writable same source target (linesText l ++ bad ++ String lf rest) -> Forall wellLine l -> badLine bad ->
  exists f e, genMain readable writable same [prog; source; target] = mkRun "" e (Ok (mkExit 0 (Dictionary f))) /\
    complaint bad e /\ madeOf f l.
Proof.
  intros Rd W B. pose proof (rd_size _ _ _ _ _ _ Rd) as L. rewrite slen_app in L.
  destruct (made_of l _ (linesText_file l) W ltac:(lia)) as (f & E & M).
  destruct (gen_lines l W ltac:(lia)) as (t & b & E1 & E2 & _). rewrite E2 in E. remember (mkDictFile t (fst (DataBankWrite b))) as F eqn:EF. injection E as <-.
  destruct (take_bad bad rest B) as (e & Ce & Te). exists F, e. split; [|split; [exact Ce|exact M]].
  rewrite (main_ready _ _ _ _ _ _ _ Rd). unfold GenDictR.
  match goal with |- context [genLoopR ?x _ _ _] => destruct (loopR_lines l W x _ [] NewDataBank t b (bad ++ String lf rest)
    ltac:(rewrite slen_app; lia) E1) as (fuel' & Lf & ->) end.
  rewrite !slen_app in Lf. cbn [String.length] in Lf. destruct fuel' as [|fuel']; [lia|]. cbn [genLoopR].
  destruct B as (_ & Fl & Z & Lb & _). rewrite readR_nl by (first [assumption|apply noNul_lacks; exact Z|lia]).
  rewrite rbind_done, Te. unfold rbind, done. cbn [rRes rOut rErr]. rewrite <- EF. rewrite !snil. reflexivity.
Qed.
(** A line that cannot be taken apart is complained about and ends the
    reading; the lines before it make the dictionary, and the status is 0. *)
Theorem C78_cut_short_refuted readable writable same prog source target l bad rest :
  ready readable writable same source target (linesText l ++ bad ++ String lf rest) -> Forall wellLine l -> badLine bad ->
  exists f e, genMain readable writable same [prog; source; target] = mkRun "" e (Ok (mkExit 0 (Dictionary f))) /\
    complaint bad e /\ madeOf f l.
Proof. exact (C78_cut_lemma readable writable same prog source target l bad rest). Qed.
Print Assumptions C78_cut_short_refuted.

Lemma store_says k data : Forall scalar k -> List.length k <= 254 -> notStored k data (storeMessage k data).
Proof.
  intros S L. exists (to_string (Z.of_nat (List.length k))), (map hex8 k). split; [apply numeral_ok; [unfold Prop_Notation.intRange; lia|reflexivity]|].
  split; [|reflexivity]. clear L. induction S as [|c k Sc S IH]; constructor; [|exact IH]. apply hex8_ok. unfold scalar in Sc. lia.
Qed.
Lemma C78_stopped_lemma readable writable same prog source target l k data rest :
  ready readable writable same source target (linesText l ++ lineText k data ++ rest) -> Forall wellLine l -> foreignLine k data ->
  (rest = "" \/ exists r, rest = String lf r)%string ->
  exists m, notStored k data m /\ genMain readable writable same [prog; source; target] =
    mkRun "" (m ++ "Fail to generate dictionary" ++ nl) (Ok (mkExit 1 Emptied)).
Proof.
  intros Rd W B R. pose proof (rd_size _ _ _ _ _ _ Rd) as L. rewrite !slen_app in L.
  destruct (gen_lines l W ltac:(lia)) as (t & b & E1 & E2 & Sz & K).
  destruct (foreign_line k data B) as (F1 & F2 & F3 & Lb & T & St).
  assert (X : exists r', forall fuel, genLoopR (S fuel) (lineText k data ++ rest) t b =
    rbind (lift (DataBankAddData b data)) (fun p => match trieStore t k (snd p) with
          | None => rbind (err (storeMessage k data)) (fun _ => done None)
          | Some t' => genLoopR fuel r' t' (fst p) end)).
  { destruct R as [->|(r & ->)].
    - exists ""%string. intros fuel. rewrite snil. cbn [genLoopR]. rewrite readR_last by (auto; lia). rewrite rbind_done, T, rbind_done. reflexivity.
    - exists r. intros fuel. cbn [genLoopR]. rewrite readR_nl by (auto; lia). rewrite rbind_done, T, rbind_done. reflexivity. }
  destruct X as (r' & X).
  assert (Y : exists p, DataBankAddData b data = Ok p).
  { destruct (add_ok b data K) as (size & E & _); [|eauto]. pose proof (gen_size l W _ _ _ _ _ E1) as G. change (dataSize NewDataBank) with 0%Z in G.
    assert (Z.of_nat (String.length data) + 1 <= Z.of_nat (String.length (lineText k data)))%Z by (unfold lineText; rewrite slen_app; cbn [String.length]; lia).
    lia. }
  destruct Y as (p & Ep). exists (storeMessage k data). split.
  { destruct B as (Sk & _ & _ & _ & _ & Lk). apply store_says; [exact Sk|]. unfold lineText in Lk. rewrite slen_app in Lk. pose proof (word_len k). lia. }
  rewrite (main_ready _ _ _ _ _ _ _ Rd). unfold GenDictR.
  match goal with |- context [genLoopR ?x _ _ _] => destruct (loopR_lines l W x _ [] NewDataBank t b (lineText k data ++ rest)
    ltac:(rewrite slen_app; lia) E1) as (fuel' & Lf & ->) end.
  rewrite !slen_app in Lf. destruct fuel' as [|fuel']; [lia|]. rewrite X, Ep. change (lift (Ok p)) with (done p). rewrite rbind_done, St.
  unfold rbind, done, err. cbn [rRes rOut rErr]. rewrite !snil. reflexivity.
Qed.
(** A word with a character outside the Thai block ends the run with a message
    and status 1; nothing is left of the dictionary that was there. *)
Theorem C78_stopped_refuted readable writable same prog source target l k data rest :
  ready readable writable same source target (linesText l ++ lineText k data ++ rest) -> Forall wellLine l -> foreignLine k data ->
  (rest = "" \/ exists r, rest = String lf r)%string ->
  exists m, notStored k data m /\ genMain readable writable same [prog; source; target] =
    mkRun "" (m ++ "Fail to generate dictionary" ++ nl) (Ok (mkExit 1 Emptied)).
Proof. exact (C78_stopped_lemma readable writable same prog source target l k data rest). Qed.
Print Assumptions C78_stopped_refuted.

Lemma C78_in_place_lemma readable writable same prog source target :
  readable source <> None -> writable target = true -> same source target = true ->
  exists f d, genMain readable writable same [prog; source; target] = mkRun "" "" (Ok (mkExit 0 (Dictionary f))) /\
    DictOpen (ATrie f) = Ok (d, false) /\ forall k i, ~ holds d k i.
Proof.
  intros R W S. unfold genMain. destruct (readable source); [|contradiction (R eq_refl)]. rewrite W, S.
  eexists _, _. split; [reflexivity|]. split; [reflexivity|]. intros k i (t & E & (l1 & l2 & H & _)).
  cbn [fTrie mTrie] in E. injection E as <-. destruct l1; discriminate H.
Qed.
(** Run with the same file as source and target, it destroys the source, makes
    a dictionary of no words, which does not open, and reports success. *)
Theorem C78_in_place_refuted readable writable same prog source target :
  readable source <> None -> writable target = true -> same source target = true ->
  exists f d, genMain readable writable same [prog; source; target] = mkRun "" "" (Ok (mkExit 0 (Dictionary f))) /\
    DictOpen (ATrie f) = Ok (d, false) /\ forall k i, ~ holds d k i.
Proof. exact (C78_in_place_lemma readable writable same prog source target). Qed.
Print Assumptions C78_in_place_refuted.

(** ** Both programs *)
Section Ext.
Variables (D E : list N -> list SylString -> Prop) (w : list N) (brk : list nat).
Hypothesis X : forall k s, D k s <-> E k s.
Lemma listed_ext t k r strs : listedWord D t k r strs <-> listedWord E t k r strs.
Proof. unfold listedWord, wordAt. rewrite X. reflexivity. Qed.
Lemma pass_ext p lk es e lk' : Pass D w brk p lk es e lk' -> Pass E w brk p lk es e lk'.
Proof.
  intros [q F|q k r strs W L|q s r W N P S|q pre x r lk2 W N P L R].
  - apply P_foreign; exact F.
  - apply (P_word E w brk p lk q k r strs W). apply listed_ext. exact L.
  - apply P_names; auto. intros k r0 strs L. apply (N k r0 strs). apply listed_ext. exact L.
  - apply P_read; auto. intros k r0 strs L0. apply (N k r0 strs). apply listed_ext. exact L0.
Qed.
Lemma step_ext p lk es e lk' : Step D w brk p lk es e lk' -> Step E w brk p lk es e lk'.
Proof. intros [es0 e0 lk0 P T|es0 e0 lk0 P T]; [apply St_plain|apply St_stop]; auto; apply pass_ext; exact P. Qed.
Lemma comes_ext p lk : Comes D w brk p lk -> Comes E w brk p lk.
Proof. induction 1; [constructor|]. eapply Co_step; [eassumption|]. apply step_ext. eassumption. Qed.
Lemma ends_ext p lk : Ends D w brk p lk -> Ends E w brk p lk.
Proof. induction 1; [constructor|]. eapply En_step; [apply step_ext; eassumption|assumption]. Qed.
Lemma path_ext s : forall f e, TextGrammar.Path D w brk f s e -> TextGrammar.Path E w brk f s e.
Proof.
  induction s as [|v s IH]; intros f e; [exact (fun H => H)|]. intros ((p & lk & es & q & lk' & A & B & C & I) & H).
  split; [|exact (IH _ _ H)]. exists p, lk, es, q, lk'. split; [apply comes_ext; exact A|].
  split; [apply step_ext; exact B|]. split; [apply ends_ext; exact C|exact I].
Qed.
Lemma stuck_ext : stuck D w brk -> stuck E w brk.
Proof.
  intros (p & lk & c & A & B & C & G & N). exists p, lk, c. split; [apply comes_ext; exact A|]. split; [exact B|]. split; [exact C|].
  split; [exact G|]. intros k r strs L. apply (N k r strs). apply listed_ext. exact L.
Qed.
End Ext.
(** The readings of [word] with the words of [es] as dictionary, each once. *)
Definition readWith (es : list (list N * list SylString)) (b : list N -> list nat) (word : string) (l : list SylString) : Prop :=
  exists w, from_bytes word = Ok w /\ ~ stuck (lastEntry es) w (b w) /\ NoDup l /\
    forall s, In s l <-> Reading (lastEntry es) w (b w) s.
Definition noReading (es : list (list N * list SylString)) (b : list N -> list nat) (word : string) : Prop :=
  (forall w, from_bytes word <> Ok w) \/ exists w, from_bytes word = Ok w /\ stuck (lastEntry es) w (b w).
Lemma C78_both_lemma readable writable same prog source target input es :
  ready readable writable same source target input -> es <> [] -> Forall goodWord es -> sourceOf es input ->
  exists f, genMain readable writable same [prog; source; target] = mkRun "" "" (Ok (mkExit 0 (Dictionary f))) /\
    forall breaker VERSION default files stdin prog2 args cs words path b,
      Forall accepted args -> structureIs args Lines -> wanted args cs -> wordsAre stdin args words ->
      dictIs default args path -> files path = ATrie f -> breaksFor breaker args b -> Forall (modest b) words ->
      exists fuel0 pre texts post, words = pre ++ post /\
        Forall2 (fun word text => exists l outs, readWith es b word l /\ Forall2 (block l) cs outs /\ text = frame word outs) pre texts /\
        ((post = [] /\ forall fuel, fuel0 <= fuel ->
            Cli.main libthai_ct breaker VERSION default files stdin fuel (prog2 :: args) = mkRun (String.concat "" texts) "" (Ok 0%Z)) \/
         (exists bad rest, post = bad :: rest /\ noReading es b bad /\ forall fuel, fuel0 <= fuel ->
            Cli.main libthai_ct breaker VERSION default files stdin fuel (prog2 :: args)
            = mkRun (String.concat "" texts ++ bad ++ ":" ++ nl) "" Throw)).
Proof.
  intros Rd Ne G So. pose proof (rd_size _ _ _ _ _ _ Rd) as L.
  destruct (C68_words_kept es input Ne G So L) as (f & d & E1 & E2 & OK & H). exists f. split.
  { destruct So as (lines & FO & F). pose proof (source_lines _ _ F G) as W.
    rewrite (main_ready _ _ _ _ _ _ _ Rd), (gen_file lines input FO W), E1. reflexivity. }
  intros breaker VERSION default files stdin prog2 args cs words path b A S Wa W Di Ef B M.
  destruct (C72_program breaker VERSION default files stdin prog2 args cs words path b d true A S Wa W Di) as (fuel0 & pre & texts & post & e & Ew & We & An & R); auto.
  { rewrite Ef. exact E2. }
  assert (X : forall k s, entry (Some d) k s <-> lastEntry es k s) by exact H.
  assert (X' : forall k s, lastEntry es k s <-> entry (Some d) k s) by (intros; symmetry; apply X).
  assert (Ee : e = ""%string) by exact We. subst e.
  exists fuel0, pre, texts, post. split; [exact Ew|]. split.
  - clear - An X X'. induction An as [|word text pre texts (Nh & l & outs & (w & Fb & Nd & Rd) & Bl & Et) An IH]; constructor; [|exact IH].
    exists l, outs. split; [|split; [exact Bl|exact Et]]. exists w. split; [exact Fb|]. split.
    { intros St. apply Nh. right. exists w. split; [exact Fb|]. exact (stuck_ext _ _ _ _ X' St). }
    split; [exact Nd|]. intros s. rewrite Rd. unfold Reading. split; intros (Ns & P); (split; [exact Ns|]); eapply path_ext; try exact P; assumption.
  - destruct R as [R|(bad & rest & Ep & [Hh|(w & Fb & St)] & R)]; [left; exact R|right|right]; exists bad, rest; (split; [exact Ep|]); (split; [|exact R]).
    + left. exact Hh.
    + right. exists w. split; [exact Fb|]. exact (stuck_ext _ _ _ _ X St).
Qed.
(** The generator is run on a source of words with their pronunciations, then
    thpronun with the file it wrote: it prints the readings of its arguments
    with these words as dictionary. *)
Theorem C78_both_programs readable writable same prog source target input es :
  ready readable writable same source target input -> es <> [] -> Forall goodWord es -> sourceOf es input ->
  exists f, genMain readable writable same [prog; source; target] = mkRun "" "" (Ok (mkExit 0 (Dictionary f))) /\
    forall breaker VERSION default files stdin prog2 args cs words path b,
      Forall accepted args -> structureIs args Lines -> wanted args cs -> wordsAre stdin args words ->
      dictIs default args path -> files path = ATrie f -> breaksFor breaker args b -> Forall (modest b) words ->
      exists fuel0 pre texts post, words = pre ++ post /\
        Forall2 (fun word text => exists l outs, readWith es b word l /\ Forall2 (block l) cs outs /\ text = frame word outs) pre texts /\
        ((post = [] /\ forall fuel, fuel0 <= fuel ->
            Cli.main libthai_ct breaker VERSION default files stdin fuel (prog2 :: args) = mkRun (String.concat "" texts) "" (Ok 0%Z)) \/
         (exists bad rest, post = bad :: rest /\ noReading es b bad /\ forall fuel, fuel0 <= fuel ->
            Cli.main libthai_ct breaker VERSION default files stdin fuel (prog2 :: args)
            = mkRun (String.concat "" texts ++ bad ++ ":" ++ nl) "" Throw)).
Proof. exact (C78_both_lemma readable writable same prog source target input es). Qed.
Print Assumptions C78_both_programs.

(** ** Examples *)
Definition disk (input p : string) : option string := if String.eqb p "words.src" then Some input else None.
Definition mayWrite (p : string) : bool := negb (String.eqb p "words.src").
Lemma disk_ready input : (Z.of_nat (String.length input) < 1073741824)%Z -> ready (disk input) mayWrite String.eqb "words.src" "x" input.
Proof. intros L. constructor; [reflexivity..|exact L]. Qed.
Definition gen (input : string) : Run Exit := genMain (disk input) mayWrite String.eqb ["gen-lookup-dict"; "words.src"; "x"].
Definition wordsLeft (r : Run Exit) : option (list (list N)) :=
  match rRes r with Ok (mkExit _ (Dictionary f)) => Some (map fst (fTrie f)) | _ => None end.
Example C78_case : ready (disk Prop_Dict.exFile) mayWrite String.eqb "words.src" "x" Prop_Dict.exFile /\ FileOf Prop_Dict.exLines Prop_Dict.exFile /\ Forall wellLine Prop_Dict.exLines /\
  rErr (gen Prop_Dict.exFile) = "" /\ wordsLeft (gen Prop_Dict.exFile) = Some [letters "กา"; letters "นา"].
Proof.
  split; [apply disk_ready; vm_compute; reflexivity|]. split; [apply C38_case|]. split; [apply C38_case|].
  split; vm_compute; reflexivity.
Qed.
Definition cutInput : string := (linesText [(letters "กา", "k_A_0@2"%string)] ++ "นา n_A_0@2" ++ String lf
  (linesText [(letters "ขา", "c_A_4@2"%string)]))%string.
Example C78_cut_case : ready (disk cutInput) mayWrite String.eqb "words.src" "x" cutInput /\
  Forall wellLine [(letters "กา", "k_A_0@2"%string)] /\ badLine "นา n_A_0@2" /\
  rErr (gen cutInput) = ("Cannot find TAB delimeter." ++ nl ++ "Line:นา n_A_0@2" ++ nl)%string /\
  wordsLeft (gen cutInput) = Some [letters "กา"].
Proof.
  split; [apply disk_ready; vm_compute; reflexivity|]. split; [apply C38_lost_case|]. split; [apply C38_lost_case|].
  split; vm_compute; reflexivity.
Qed.
Definition foreignInput : string := (linesText [(letters "กา", "k_A_0@2"%string)] ++ lineText (letters "ขa") "c_A_4@2" ++ String lf "")%string.
Example C78_stopped_case : ready (disk foreignInput) mayWrite String.eqb "words.src" "x" foreignInput /\
  foreignLine (letters "ขa") "c_A_4@2" /\
  gen foreignInput = mkRun "" ("Failed to store word of length 2, data 'c_A_4@2'" ++ nl ++ "Word: [00000e02,00000061]" ++ nl
    ++ "Fail to generate dictionary" ++ nl) (Ok (mkExit 1 Emptied)).
Proof.
  split; [apply disk_ready; vm_compute; reflexivity|]. split; [|vm_compute; reflexivity].
  unfold foreignLine. split; [repeat constructor; vm_compute; auto|]. split; [repeat constructor; discriminate|].
  split; [intros H; specialize (H 97%N (or_intror (or_introl eq_refl))); vm_compute in H; destruct H as [H _]; apply H; reflexivity|].
  split; [vm_compute; repeat split; discriminate|]. split; [vm_compute; repeat split; discriminate|vm_compute; lia].
Qed.
Example C78_in_place_case : genMain (disk Prop_Dict.exFile) (fun _ => true) String.eqb ["gen-lookup-dict"; "words.src"; "words.src"] =
  mkRun "" "" (Ok (mkExit 0 (Dictionary (mkDictFile [] (FileWriteInt32 0))))).
Proof. vm_compute. reflexivity. Qed.
(** thpronun after the generator: the last line for "กา" counts. *)
Definition thpronunAfter (r : Run Exit) (args : list string) : Run Z :=
  Cli.main libthai_ct (fun _ => []) "0" "/d"
    (fun p => match rRes r with Ok (mkExit _ (Dictionary f)) => if String.eqb p "x" then ATrie f else NoFile | _ => NoFile end)
    "" 100 ("thpronun" :: args).
Example C78_both_case : ready (disk exSource) mayWrite String.eqb "words.src" "x" exSource /\ Forall goodWord Prop_Pipeline.exWords /\
  sourceOf Prop_Pipeline.exWords exSource /\
  thpronunAfter (gen exSource) ["-w"; "-dx"; "กากา"; "กา ก."]%string =
    mkRun ("กากา:" ++ nl ++ "k_A_0@2,k_A_0@4" ++ nl ++ "k_A_0@2,k_A_1@4" ++ nl ++ "k_A_1@-4,k_A_0@4" ++ nl
      ++ "k_A_1@2,k_A_0@4" ++ nl ++ "k_A_1@2,k_A_1@4" ++ nl ++ nl ++ "กา ก.:" ++ nl ++ "k_A_1@2,( )@3,k_C_0@5" ++ nl ++ nl)%string "" (Ok 0%Z).
Proof.
  split; [apply disk_ready; vm_compute; reflexivity|]. split; [apply C68_case|]. split; [apply C68_case|]. vm_compute. reflexivity.
Qed.

(** Prop_Crlf.v - property C114: input lines that end with carriage return and
    newline. *)
From Coq Require Import String Ascii List NArith ZArith Bool Lia Arith Sorted.
From Verif Require Import Base ThUni ThCons Syl Utf Lattice Dag PronDag SylOut ThaiOut Output Dict GenDict Parser Cli.
From Verif Require Import Spec OrderProofs DictProofs Prop_Syl ParserSpec ParserFacts ParserListed Prop_Parser Grammar GrammarWord TextGrammar TextProof.
From Verif Require Import ParserProduct Prop_Product UtfProofs Prop_Cli Prop_SameRun.
Import ListNotations.
Local Open Scope string_scope.
Local Open Scope list_scope.
Local Open Scope nat_scope.

(** ** Vocabulary *)
Definition cr : ascii := ascii_of_nat 13.
Definition withCr (w : string) : string := (w ++ String cr "")%string.
(** Lines of an input, each with carriage return and newline. *)
Definition crLines (ws : list string) : string := String.concat "" (map (fun w => w ++ String cr (String newline ""))%string ws).

(** ** Lemmas *)
Lemma bytes_app a b : list_ascii_of_string (a ++ b)%string = list_ascii_of_string a ++ list_ascii_of_string b.
Proof. induction a as [|c a IH]; [reflexivity|]. cbn [String.append list_ascii_of_string app]. rewrite IH. reflexivity. Qed.
Lemma cr_bytes word w : from_bytes word = Ok w -> from_bytes (withCr word) = Ok (w ++ [13%N]).
Proof.
  unfold from_bytes, utf8Decode, withCr. rewrite bytes_app. destruct (utf8DecodeL (list_ascii_of_string word)) as [cps| | |] eqn:E; try discriminate.
  cbn [bind]. intros H. injection H as <-. destruct (dec8_sound _ _ E) as (S & B).
  replace (list_ascii_of_string word ++ list_ascii_of_string (String cr "")) with (enc8 (cps ++ [13%N])).
  - rewrite dec8_encs; [cbn [bind]; unfold utf16Encode; rewrite flat_map_app; reflexivity|].
    apply Forall_app. split; [exact S|]. constructor; [|constructor]. unfold scalar. lia.
  - unfold enc8 in *. rewrite flat_map_app, B. reflexivity.
Qed.
Lemma noNl_app a b : noNewline a -> noNewline b -> noNewline (a ++ b).
Proof. induction a as [|c a IH]; [auto|]. cbn [String.append noNewline]. intros (A & B) C. split; auto. Qed.
Lemma cr_lines ws : Forall noNewline ws -> LinesOf (crLines ws) (map withCr ws).
Proof.
  induction 1 as [|w ws H _ IH]; [constructor|]. unfold crLines. cbn [map]. rewrite sconcat_cons.
  replace ((w ++ String cr (String newline "")) ++ String.concat "" (map (fun w0 => w0 ++ String cr (String newline "")) ws))%string
    with (withCr w ++ String newline (crLines ws))%string.
  - apply lines_cons; [|exact IH]. apply noNl_app; [exact H|]. cbn. split; [discriminate|exact I].
  - unfold withCr. rewrite !sapp_assoc. reflexivity.
Qed.
Lemma foreign_cr dict brk : pronounced libthai_ct [13%N] dict brk [[SylLiteral 1 [13%N]]].
Proof.
  destruct (C29_lemma libthai_ct [13%N] dict brk 1) as (d & E & L); [|discriminate|lia|exists 1, d; auto].
  intros k T. apply thai_tok in T. destruct T as (c & E & T). destruct k as [|[|k]]; cbn in E; try discriminate E. injection E as <-. discriminate T.
Qed.

Lemma shift_cr n : shiftEndPos n [SylLiteral 1 [13%N]] = [SylLiteral (n + 1) [13%N]].
Proof. unfold shiftEndPos, shiftPos. cbn [map endPos SylLiteral]. change (1 <? 0)%Z with false. cbv iota. rewrite Z.add_comm. reflexivity. Qed.

(** ** C114 *)
Lemma C114_lemma word w z dict brk l : from_bytes word = Ok w -> nth_error w (length w - 1) = Some z -> thaiChar z = true ->
  dictOKo dict -> StronglySorted lt brk -> Forall (fun x => x <= S (length w)) brk -> pronounced libthai_ct w dict (breaksBefore (length w) brk) l ->
  from_bytes (withCr word) = Ok (w ++ [13%N]) /\
  exists l', pronounced libthai_ct (w ++ [13%N]) dict brk l' /\
    forall s, In s l' <-> exists s1, In s1 l /\ s = s1 ++ [SylLiteral (Z.of_nat (length w) + 1) [13%N]].
Proof.
  intros Fb Ez Tz D S B P. split; [apply cr_bytes; exact Fb|].
  assert (Nw : w <> []) by (intros ->; discriminate Ez).
  assert (X : ~ tokenAt libthai_ct (w ++ [13%N]) (length w)).
  { intros T. apply thai_tok in T. destruct T as (c & E & T). rewrite nth_error_app2, Nat.sub_diag in E by lia. injection E as <-. discriminate T. }
  assert (Wb : wordBoundary libthai_ct w [13%N] brk).
  { constructor; [exact Nw|discriminate| | |discriminate|].
    - left. apply thai_tok. exists z. split; [|exact Tz]. rewrite nth_error_app1; [exact Ez|]. destruct w; [congruence|cbn; lia].
    - right. intros (_ & T). exact (X T).
    - right. intros e _ (g & Hg & Cs & _). destruct (Cs 0 ltac:(lia)) as (c & E & T). injection E as <-. vm_compute in T. discriminate T. }
  destruct (C54_lemma libthai_ct w [13%N] dict brk l [[SylLiteral 1 [13%N]]] libthai_ok D S) as (l' & P' & H); [|exact Wb|exact P|apply foreign_cr|].
  { rewrite app_length. cbn [length]. rewrite Nat.add_1_r. exact B. }
  exists l'. split; [exact P'|]. intros s. rewrite H. split.
  - intros (s1 & s2 & I1 & [<-|[]] & ->). exists s1. split; [exact I1|]. rewrite shift_cr. reflexivity.
  - intros (s1 & I1 & ->). exists s1, [SylLiteral 1 [13%N]]. split; [exact I1|]. split; [left; reflexivity|].
    rewrite shift_cr. reflexivity.
Qed.
(** A carriage return after a Thai letter is read as foreign text: every
    pronunciation ends with it. *)
Theorem C114_heard word w z dict brk l : from_bytes word = Ok w -> nth_error w (length w - 1) = Some z -> thaiChar z = true ->
  dictOKo dict -> StronglySorted lt brk -> Forall (fun x => x <= S (length w)) brk -> pronounced libthai_ct w dict (breaksBefore (length w) brk) l ->
  from_bytes (withCr word) = Ok (w ++ [13%N]) /\
  exists l', pronounced libthai_ct (w ++ [13%N]) dict brk l' /\
    forall s, In s l' <-> exists s1, In s1 l /\ s = s1 ++ [SylLiteral (Z.of_nat (length w) + 1) [13%N]].
Proof. exact (C114_lemma word w z dict brk l). Qed.
Print Assumptions C114_heard.

Lemma C114_lemma2 ct breaker VERSION default files fuel stdin prog args os ws :
  Forall accepted args -> Parted args os (map withCr ws) -> ws <> [] -> Forall noNewline ws ->
  main ct breaker VERSION default files (crLines ws) fuel (prog :: os) = main ct breaker VERSION default files stdin fuel (prog :: args).
Proof.
  intros A P N F. destruct (asks_exists os) as (st & letters & d & n & K). destruct (parted_only _ _ _ P) as [T _].
  apply (C111_lemma ct breaker VERSION default files fuel (crLines ws) stdin prog prog os args st letters d n (map withCr ws)
           (parted_accepted _ _ _ P A) A K (parted_asks _ _ _ _ _ _ _ P K)).
  - exists []. split; [exact T|]. apply cr_lines. exact F.
  - exists (map withCr ws). split; [exact (parted_texts _ _ _ P)|]. destruct ws; [congruence|reflexivity].
Qed.
(** Lines that end with carriage return and newline are read as texts that end
    with a carriage return. *)
Theorem C114_input ct breaker VERSION default files fuel stdin prog args os ws :
  Forall accepted args -> Parted args os (map withCr ws) -> ws <> [] -> Forall noNewline ws ->
  main ct breaker VERSION default files (crLines ws) fuel (prog :: os) = main ct breaker VERSION default files stdin fuel (prog :: args).
Proof. exact (C114_lemma2 ct breaker VERSION default files fuel stdin prog args os ws). Qed.
Print Assumptions C114_input.

(** What is printed for a line "กา" that ends so. *)
Example C114_case :
  run noFiles (crLines ["กา"; "นา"])%string ["-t"]%string =
  mkRun ("กา" ++ String cr ":" ++ nl ++ "กา-(" ++ String cr ")" ++ nl ++ nl ++ "นา" ++ String cr ":" ++ nl ++ "นา-(" ++ String cr ")" ++ nl ++ nl)%string
    (rErr (run noFiles "" ["-t"; "กา"]%string)) (Ok 0%Z) /\
  Forall noNewline ["กา"; "นา"]%string /\ from_bytes "กา" = Ok (letters "กา").
Proof. split; [vm_compute; reflexivity|]. split; [repeat constructor; discriminate|vm_compute; reflexivity]. Qed.
(** One would expect such lines to be read as those of newlines. *)
Theorem C114_same_refuted : ~ (forall files ws args, ws <> [] -> Forall noNewline ws -> Forall accepted args -> Texts args [] ->
  run files (crLines ws) args = run files (asLines ws) args).
Proof.
  intros H. specialize (H noFiles ["กา"%string] ["-t"%string]). apply (f_equal rOut) in H; [vm_compute in H; discriminate H|discriminate| | |].
  - repeat constructor; discriminate.
  - constructor; [apply acc_letter; cbn; tauto|constructor].
  - apply texts_skip; [eexists; reflexivity|constructor].
Qed.
Print Assumptions C114_same_refuted.
Example C114_case2 : let w := letters "ตากลม" in
  from_bytes "ตากลม" = Ok w /\ nth_error w (length w - 1) = Some UTH_MO_MA /\ thaiChar UTH_MO_MA = true /\ dictOKo None /\
  exists l l', pronounced libthai_ct w None (breaksBefore (length w) [5; 6]) l /\ pronounced libthai_ct (w ++ [13%N]) None [5; 6] l' /\
    1 < length l /\ length l' = length l /\ forall s, In s l' -> last s Blank = SylLiteral 6 [13%N].
Proof.
  cbv zeta. split; [vm_compute; reflexivity|]. split; [reflexivity|]. split; [reflexivity|].
  assert (D : dictOKo None) by (intros d X; discriminate X). split; [exact D|].
  eexists. eexists. split; [apply listing_pronounced; vm_compute; reflexivity|].
  split; [apply (listing_pronounced _ _ (withCr "ตากลม")); vm_compute; reflexivity|].
  split; [vm_compute; lia|]. split; [reflexivity|]. intros s I. repeat destruct I as [<-|I]; try reflexivity. destruct I.
Qed.

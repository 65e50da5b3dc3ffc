(** Prop_Dict.v - property theorems C36-C39: data bank, UTF-8 keys, dictionary
    generator, dictionary loading. *)
From Coq Require Import String Ascii List ZArith NArith Bool Arith Lia.
From Verif Require Import Spec Base ThUni Utf UtfProofs Dict DictProofs GenDict Parser ParserSpec Prop_Syl Prop_Parser.
Import ListNotations.
Local Open Scope Z_scope.

(** ** C36: the data bank *)
Lemma byteZ_of z : byteZ (ascii_of_N (Z.to_N (z mod 256))) = z mod 256.
Proof.
  unfold byteZ. pose proof (Z.mod_pos_bound z 256 ltac:(lia)) as B.
  rewrite N_ascii_embedding; [apply Z2N.id; lia|]. change 256%N with (Z.to_N 256). apply Z2N.inj_lt; lia.
Qed.
Lemma C36_lemma v r : -2147483648 <= v < 2147483648 -> ReadInt32 (FileWriteInt32 v ++ r) = Some (v, r).
Proof.
  intros B. cbn [FileWriteInt32 String.append ReadInt32]. rewrite !byteZ_of, !Z.shiftr_div_pow2 by lia.
  f_equal. f_equal. change (2 ^ 24) with 16777216. change (2 ^ 16) with 65536. change (2 ^ 8) with 256. change (2 ^ 0) with 1.
  match goal with |- (if ?x <? _ then _ else _) = _ => assert (E : x = v mod 4294967296) end.
  { Z.div_mod_to_equations. lia. }
  rewrite E. destruct (Z.ltb_spec (v mod 4294967296) 2147483648); Z.div_mod_to_equations; lia.
Qed.
Theorem C36_length_field v r : -2147483648 <= v < 2147483648 -> ReadInt32 (FileWriteInt32 v ++ r) = Some (v, r).
Proof. exact (C36_lemma v r). Qed.
Print Assumptions C36_length_field.

(** Adding one text after another; the offsets returned. *)
Fixpoint addAll (bank : DataBank) (l : list string) : Res (DataBank * list Z) :=
  match l with
  | [] => Ok (bank, [])
  | x :: l' =>
      (p <- DataBankAddData bank x ;;
       q <- addAll (fst p) l' ;; Ok (fst q, snd p :: snd q))%res
  end.
Fixpoint noNul (s : string) : Prop :=
  match s with EmptyString => True | String c s' => c <> Ascii.zero /\ noNul s' end.
(** The bytes a list of texts needs. *)
Definition bytesOf (l : list string) : Z := fold_right (fun s n => Z.of_nat (String.length s) + 1 + n) 0 l.
(** The bank of a file holds the text [s] at [i]. *)
Definition stored (bank : string) (i : Z) (s : string) : Prop :=
  forall t, dictGetData (mkDict t (Some bank)) i = Ok s.

Lemma slen_app a b : String.length (a ++ b) = (String.length a + String.length b)%nat.
Proof. induction a as [|c a IH]; [reflexivity|]. cbn [String.append String.length]. rewrite IH. reflexivity. Qed.
Lemma sapp_assoc (a b c : string) : ((a ++ b) ++ c = a ++ (b ++ c))%string.
Proof. induction a as [|x a IH]; [reflexivity|]. cbn [String.append]. rewrite IH. reflexivity. Qed.
Lemma cstr_read s r : noNul s -> cstr (s ++ String Ascii.zero r) = Ok s.
Proof.
  induction s as [|c s IH]; [reflexivity|]. intros (N & H). cbn [String.append cstr].
  destruct (Ascii.eqb_spec c Ascii.zero) as [E|_]; [contradiction|]. rewrite (IH H). reflexivity.
Qed.
Lemma cstrFrom_0 s : cstrFrom s 0 = cstr s.
Proof. destruct s; reflexivity. Qed.
Lemma cstrFrom_read a s r : noNul s -> cstrFrom (a ++ s ++ String Ascii.zero r) (String.length a) = Ok s.
Proof. intros N. induction a as [|c a IH]; [cbn [String.append String.length]; rewrite cstrFrom_0; apply cstr_read; exact N|]. cbn [String.append String.length cstrFrom]. exact IH. Qed.
Lemma cstr_more s x r : cstr s = Ok x -> cstr (s ++ r) = Ok x.
Proof.
  revert x. induction s as [|c s IH]; intros x; [discriminate|]. cbn [String.append cstr].
  destruct (Ascii.eqb c Ascii.zero); [auto|]. destruct (cstr s) as [y| | |]; cbn [bind]; try discriminate.
  rewrite (IH y eq_refl). auto.
Qed.
Lemma cstrFrom_more s n x r : cstrFrom s n = Ok x -> cstrFrom (s ++ r) n = Ok x.
Proof.
  revert s. induction n as [|n IH]; intros s; [rewrite !cstrFrom_0; apply cstr_more|]. destruct s as [|c s]; [discriminate|]. apply IH.
Qed.
Lemma stored_more b i s r : stored b i s -> stored (b ++ r) i s.
Proof.
  intros H t. specialize (H t). unfold dictGetData in *. cbn [mData] in *. destruct (i <? 0); [discriminate|].
  apply cstrFrom_more. exact H.
Qed.
Lemma stored_new b s r : noNul s -> stored (b ++ s ++ String Ascii.zero r) (Z.of_nat (String.length b)) s.
Proof.
  intros N t. unfold dictGetData. cbn [mData]. destruct (Z.ltb_spec (Z.of_nat (String.length b)) 0) as [|_]; [lia|].
  rewrite Nat2Z.id. apply cstrFrom_read. exact N.
Qed.
(** The used bytes lie in the allocated block. *)
Definition bankOK (b : DataBank) : Prop := dataSize b <= bPoolSize b.
Lemma toInt_id z : 0 <= z < 2147483648 -> toInt z = z.
Proof. intros H. unfold toInt. rewrite Z.mod_small by lia. destruct (Z.ltb_spec z 2147483648); lia. Qed.
Lemma add_ok b s : bankOK b -> dataSize b + Z.of_nat (String.length s) + 1 <= 1073741824 ->
  exists size, DataBankAddData b s = Ok (mkBank (bPool b ++ s ++ String Ascii.zero "") size, dataSize b) /\
    bankOK (mkBank (bPool b ++ s ++ String Ascii.zero "") size) /\
    dataSize (mkBank (bPool b ++ s ++ String Ascii.zero "") size) = dataSize b + Z.of_nat (String.length s) + 1.
Proof.
  intros K L. unfold bankOK in *.
  assert (D : forall z, dataSize (mkBank (bPool b ++ s ++ String Ascii.zero "") z) = dataSize b + Z.of_nat (String.length s) + 1).
  { intros z. unfold dataSize. cbn [bPool]. rewrite !slen_app. cbn [String.length]. lia. }
  unfold DataBankAddData, DataBankAllocate.
  assert (P : 0 <= dataSize b) by (unfold dataSize; lia).
  set (n := Z.of_nat (String.length s) + 1) in *.
  assert (Hn : 0 < n) by (unfold n; lia). rewrite toInt_id by lia.
  destruct (Z.ltb_spec (bPoolSize b) (dataSize b + n)) as [G|G].
  - destruct (Z.ltb_spec 2147483647 (bPoolSize b * 2)) as [X|_]; [lia|]. cbn [bind].
    set (z := Z.max (bPoolSize b * 2) (dataSize b + n)) in *. assert (Z1 : dataSize b + n <= z) by (unfold z; lia).
    destruct (Z.ltb_spec z (dataSize b + n)) as [X|_]; [lia|]. exists z. split; [reflexivity|]. rewrite D. cbn [bPoolSize]. lia.
  - cbn [bind]. destruct (Z.ltb_spec (bPoolSize b) (dataSize b + n)) as [X|_]; [lia|]. exists (bPoolSize b).
    split; [reflexivity|]. rewrite D. cbn [bPoolSize]. lia.
Qed.
Lemma addAll_ok l : forall b, bankOK b -> Forall noNul l -> dataSize b + bytesOf l <= 1073741824 ->
  exists b' is, addAll b l = Ok (b', is) /\ bankOK b' /\ dataSize b' = dataSize b + bytesOf l /\
    (exists r, bPool b' = (bPool b ++ r)%string) /\ Forall2 (stored (bPool b')) is l.
Proof.
  assert (NN : forall l, 0 <= bytesOf l).
  { intros l0. unfold bytesOf. induction l0 as [|y l0 IH0]; cbn [fold_right]; [lia|]. fold (bytesOf l0) in *. lia. }
  induction l as [|x l IH]; intros b K F L.
  - exists b, []. cbn [addAll bytesOf fold_right]. split; [reflexivity|]. split; [exact K|]. split; [unfold bytesOf; cbn; lia|].
    split; [exists EmptyString|constructor]. induction (bPool b) as [|c s IHs]; [reflexivity|]. cbn [String.append]. congruence.
  - inversion F as [|? ? Nx Fl]; subst. change (bytesOf (x :: l)) with (Z.of_nat (String.length x) + 1 + bytesOf l) in *.
    pose proof (NN l) as Nl. destruct (add_ok b x K ltac:(lia)) as (size & E & K1 & D1).
    set (b1 := mkBank (bPool b ++ x ++ String Ascii.zero "") size) in *.
    destruct (IH b1 K1 Fl ltac:(lia)) as (b' & is & E' & K' & D' & (r & R) & S).
    exists b', (dataSize b :: is). cbn [addAll]. rewrite E. cbn [bind fst snd]. rewrite E'. cbn [bind fst snd].
    split; [reflexivity|]. split; [exact K'|]. split; [lia|]. split.
    + exists ((x ++ String Ascii.zero "") ++ r)%string. rewrite R. unfold b1. cbn [bPool]. rewrite !sapp_assoc. reflexivity.
    + constructor; [|exact S]. rewrite R. unfold b1, dataSize. cbn [bPool]. rewrite !sapp_assoc. cbn [String.append].
      apply stored_new. exact Nx.
Qed.
Lemma substring_app a r : substring 0 (String.length a) (a ++ r) = a.
Proof. induction a as [|c a IH]; [destruct r; reflexivity|]. cbn [String.length String.append substring]. rewrite IH. reflexivity. Qed.
Lemma read_bank b r : 0 < dataSize b < 2147483648 -> ReadDataBank (fst (DataBankWrite b) ++ r) = Ok (Some (bPool b)).
Proof.
  intros D. unfold ReadDataBank, DataBankWrite. cbn [fst]. rewrite sapp_assoc, C36_lemma by lia.
  destruct (Z.ltb_spec (dataSize b) 0) as [|_]; [lia|]. destruct (Z.eqb_spec (dataSize b) 0) as [|_]; [lia|].
  rewrite slen_app. destruct (Z.ltb_spec (Z.of_nat (String.length (bPool b) + String.length r)) (dataSize b)) as [X|_].
  { unfold dataSize in X. lia. }
  unfold dataSize. rewrite Nat2Z.id, substring_app. reflexivity.
Qed.
Lemma C36_lemma2 l : l <> [] -> Forall noNul l -> bytesOf l <= 1073741824 ->
  exists b is, addAll NewDataBank l = Ok (b, is) /\ snd (DataBankWrite b) = true /\
    forall r, exists data, ReadDataBank (fst (DataBankWrite b) ++ r) = Ok (Some data) /\ Forall2 (stored data) is l.
Proof.
  intros Ne F L. destruct (addAll_ok l NewDataBank) as (b & is & E & K & D & _ & S); auto.
  { unfold bankOK. cbn. discriminate. }
  exists b, is. split; [exact E|].
  assert (P : 0 < dataSize b <= 1073741824).
  { rewrite D. split; [|exact L]. destruct l as [|x l]; [contradiction (Ne eq_refl)|].
    change (bytesOf (x :: l)) with (Z.of_nat (String.length x) + 1 + bytesOf l).
    assert (0 <= bytesOf l); [|change (dataSize NewDataBank) with 0; lia].
    clear. unfold bytesOf. induction l as [|y l IH]; cbn [fold_right]; [lia|]. lia. }
  split.
  - unfold DataBankWrite. cbn [snd]. destruct (Z.eqb_spec (dataSize b) 0); [lia|reflexivity].
  - intros r. exists (bPool b). split; [apply read_bank; lia|exact S].
Qed.
(** Every text is read back at its offset, whatever follows in the file. *)
Theorem C36_round_trip l : l <> [] -> Forall noNul l -> bytesOf l <= 1073741824 ->
  exists b is, addAll NewDataBank l = Ok (b, is) /\ snd (DataBankWrite b) = true /\
    forall r, exists data, ReadDataBank (fst (DataBankWrite b) ++ r) = Ok (Some data) /\ Forall2 (stored data) is l.
Proof. exact (C36_lemma2 l). Qed.
Print Assumptions C36_round_trip.
Fixpoint rep (n : nat) (s : string) : string := match n with O => ""%string | S n' => (s ++ rep n' s)%string end.
(** Three additions, the second and third past the first block of 256 bytes. *)
Example C36_case : let l := ["kA_0@2"; rep 30 "0123456789"; ""; "n_ak1@3"]%string in
  Forall noNul l /\ bytesOf l = 317 /\
  exists b, addAll NewDataBank l = Ok (b, [0; 7; 308; 309]) /\ bPoolSize b = 512.
Proof.
  cbv zeta. split; [repeat (apply Forall_cons; [vm_compute; repeat split; discriminate|]); apply Forall_nil|].
  split; [reflexivity|]. eexists. split; vm_compute; reflexivity.
Qed.
(** Nothing added: the writer reports failure and the reader rejects the
    bytes. *)
Theorem C36_empty_refuted : snd (DataBankWrite NewDataBank) = false /\
  ReadDataBank (fst (DataBankWrite NewDataBank)) = Ok None.
Proof. split; reflexivity. Qed.
Print Assumptions C36_empty_refuted.
(** The size limit: an addition that has to double a block of 2^30 bytes
    overflows. *)
Theorem C36_limit_refuted b s : bPoolSize b = 1073741824 -> dataSize b = 1073741824 ->
  Z.of_nat (String.length s) < 1000 -> DataBankAddData b s = UB.
Proof.
  intros P D L. unfold DataBankAddData, DataBankAllocate. rewrite P, D, toInt_id by lia.
  destruct (Z.ltb_spec 1073741824 (1073741824 + (Z.of_nat (String.length s) + 1))) as [_|X]; [reflexivity|lia].
Qed.
Print Assumptions C36_limit_refuted.

(** ** C37: reading UTF-8 *)
(** The lead byte of a form with [n] continuation bytes, and its value bits. *)
Inductive Lead : nat -> Z -> Z -> Prop :=
| L_1 h : 0xC0 <= h < 0xE0 -> Lead 1 h (h - 0xC0)
| L_2 h : 0xE0 <= h < 0xF0 -> Lead 2 h (h - 0xE0)
| L_3 h : 0xF0 <= h < 0xF8 -> Lead 3 h (h - 0xF0)
| L_4 h : 0xF8 <= h < 0xFC -> Lead 4 h (h - 0xF8)
| L_5 h : 0xFC <= h < 0xFE -> Lead 5 h (h - 0xFC)
| L_6 : Lead 6 0xFE 0.
Definition contByte (c : ascii) : Prop := 0x80 <= byteZ c < 0xC0.
Definition sixBits (u : Z) (c : ascii) : Z := u * 64 + (byteZ c - 0x80).
(** What is accepted: [s] starts with a form of value [u], [r] follows. *)
Inductive Accepts : string -> Z -> string -> Prop :=
| A_ascii c r : 1 <= byteZ c < 128 -> Accepts (String c r) (byteZ c) r
| A_multi c n bits conts r : Lead n (byteZ c) bits -> length conts = n -> Forall contByte conts ->
    Accepts (String c (string_of_list_ascii conts ++ r)) (fold_left sixBits conts bits mod 2 ^ 32) r.

Definition leadSpec (h : Z) : option (nat * Z) :=
  if h <? 0xC0 then None else if h <? 0xE0 then Some (1%nat, h - 0xC0) else if h <? 0xF0 then Some (2%nat, h - 0xE0)
  else if h <? 0xF8 then Some (3%nat, h - 0xF0) else if h <? 0xFC then Some (4%nat, h - 0xF8)
  else if h <? 0xFE then Some (5%nat, h - 0xFC) else if h <? 0xFF then Some (6%nat, 0) else None.
Lemma leadSpec_ok h n bits : leadSpec h = Some (n, bits) <-> Lead n h bits.
Proof.
  unfold leadSpec. split.
  - repeat match goal with |- context [?a <? ?b] => destruct (Z.ltb_spec a b) end; intros H'; try discriminate;
      injection H' as <- <-; try (constructor; lia). assert (h = 0xFE) by lia. subst h. constructor.
  - intros H; inversion H; subst;
      repeat match goal with |- context [?a <? ?b] => destruct (Z.ltb_spec a b) end; try lia; reflexivity.
Qed.
Lemma byteZ_range c : 0 <= byteZ c < 256.
Proof. unfold byteZ. pose proof (N_ascii_bounded c). lia. Qed.
Definition leadCheck (h : Z) : bool :=
  let '(check, mask) := leadLoop 8 h 64 63 in
  match leadSpec h with
  | Some (n, bits) => (check =? 2 ^ (6 - Z.of_nat n)) && (Z.land h mask =? bits)
  | None => (check =? 64) || ((h =? 255) && (check =? 0))
  end.
Lemma lead_ok c : 128 <= byteZ c -> leadCheck (byteZ c) = true.
Proof.
  destruct c as [[] [] [] [] [] [] [] []]; intros H; try reflexivity; exfalso; revert H; vm_compute; intros H; apply H; reflexivity.
Qed.
Lemma land_cont c : Z.land (byteZ c) 192 = 128 <-> contByte c.
Proof.
  unfold contByte. rewrite <- Z.eqb_eq, <- Z.leb_le, <- Z.ltb_lt, <- andb_true_iff.
  assert (E : (Z.land (byteZ c) 192 =? 128) = (0x80 <=? byteZ c) && (byteZ c <? 0xC0)); [|rewrite E; reflexivity].
  destruct c as [[] [] [] [] [] [] [] []]; reflexivity.
Qed.
Lemma land63 c : contByte c -> Z.land (byteZ c) 63 = byteZ c - 128.
Proof.
  intros H. change 63 with (Z.ones 6). rewrite Z.land_ones by lia. unfold contByte in H. change (2 ^ 6) with 64.
  Z.div_mod_to_equations. lia.
Qed.
Lemma six u c : contByte c -> 0 <= u -> Z.lor (Z.shiftl u 6) (Z.land (byteZ c) 63) = sixBits u c.
Proof.
  intros H U. rewrite land63 by exact H. unfold sixBits, contByte in *. rewrite Z.shiftl_mul_pow2 by lia. change (2 ^ 6) with 64.
  assert (E : Z.lor (u * 64) (byteZ c - 128) = u * 64 + (byteZ c - 128)); [|exact E].
  rewrite Z.add_nocarry_lxor; [symmetry; apply Z.lxor_lor|]; apply Z.bits_inj'; intros k K; rewrite Z.land_spec, Z.bits_0;
    (destruct (Z.lt_ge_cases k 6) as [L|L];
     [change 64 with (2 ^ 6); rewrite Z.mul_pow2_bits_low by lia; reflexivity|
      rewrite (Z.bits_above_log2 (byteZ c - 128)); [apply andb_false_r|lia|];
      destruct (Z.eq_dec (byteZ c - 128) 0) as [->|Nz]; [cbn; lia|];
      assert (Z.log2 (byteZ c - 128) < 6) by (apply Z.log2_lt_pow2; lia); lia]).
Qed.
Lemma land32 z : Z.land z 4294967295 = z mod 2 ^ 32.
Proof. change 4294967295 with (Z.ones 32). apply Z.land_ones. lia. Qed.
Lemma fold_mod conts : forall u v, u mod 2 ^ 32 = v mod 2 ^ 32 ->
  fold_left sixBits conts u mod 2 ^ 32 = fold_left sixBits conts v mod 2 ^ 32.
Proof.
  induction conts as [|c conts IH]; intros u v H; [exact H|]. cbn [fold_left]. apply IH. unfold sixBits.
  rewrite (Z.add_mod (u * 64)), (Z.add_mod (v * 64)), (Z.mul_mod u), (Z.mul_mod v), H by lia. reflexivity.
Qed.
Lemma shl_check m : 0 <= m < 6 -> Z.land (Z.shiftl (2 ^ m) 1) 255 = 2 ^ (m + 1).
Proof.
  intros H. assert (C : m = 0 \/ m = 1 \/ m = 2 \/ m = 3 \/ m = 4 \/ m = 5) by lia.
  repeat destruct C as [C|C]; subst; reflexivity.
Qed.
Lemma check64 m : 0 <= m < 6 -> (2 ^ m =? 64) = false.
Proof. intros H. assert (C : m = 0 \/ m = 1 \/ m = 2 \/ m = 3 \/ m = 4 \/ m = 5) by lia. repeat destruct C as [C|C]; subst; reflexivity. Qed.
Lemma cont_step s check uc : check =? 64 = false -> contLoop s check uc =
  match s with
  | EmptyString => None
  | String c s' => if negb (Z.land (byteZ c) 192 =? 128) then None
      else contLoop s' (Z.land (Z.shiftl check 1) 255) (Z.land (Z.lor (Z.shiftl uc 6) (Z.land (byteZ c) 63)) 4294967295)
  end.
Proof. intros H. destruct s; cbn [contLoop]; rewrite H; reflexivity. Qed.
(** With a count of [n] bytes left the loop reads exactly them. *)
Lemma cont_ok n : (n <= 6)%nat -> forall s uc u r, 0 <= uc < 2 ^ 32 ->
  contLoop s (2 ^ (6 - Z.of_nat n)) uc = Some (u, r) <->
  exists conts, length conts = n /\ Forall contByte conts /\ s = (string_of_list_ascii conts ++ r)%string /\
    u = fold_left sixBits conts uc mod 2 ^ 32.
Proof.
  induction n as [|n IH]; intros L s uc u r U.
  - assert (E : contLoop s (2 ^ (6 - Z.of_nat 0)) uc = Some (uc, s)) by (destruct s; reflexivity). rewrite E. split.
    + intros H. injection H as <- <-. exists []. repeat split; [constructor|]. symmetry. apply Z.mod_small. exact U.
    + intros ([|] & Le & _ & -> & ->); [|discriminate]. cbn. rewrite Z.mod_small by exact U. reflexivity.
  - rewrite cont_step by (apply check64; lia). destruct s as [|c s].
    + split; [discriminate|]. intros ([|] & Le & _ & E & _); discriminate.
    + destruct (Z.eqb_spec (Z.land (byteZ c) 192) 128) as [Ec|Ec]; cbn [negb].
      * apply land_cont in Ec. rewrite shl_check by lia. replace (6 - Z.of_nat (S n) + 1) with (6 - Z.of_nat n) by lia.
        rewrite six by (auto; lia). rewrite land32. rewrite IH by (try lia; apply Z.mod_pos_bound; lia). split.
        -- intros (conts & Le & F & -> & ->). exists (c :: conts). cbn [length fold_left]. repeat split; auto.
           apply fold_mod. rewrite Z.mod_mod by lia. reflexivity.
        -- intros ([|c' conts] & Le & F & E & ->); [discriminate|]. cbn [string_of_list_ascii String.append] in E.
           injection E as <- ->. inversion F; subst. exists conts. cbn [length] in Le. repeat split; [lia|assumption|].
           cbn [fold_left]. apply fold_mod. rewrite Z.mod_mod by lia. reflexivity.
      * split; [discriminate|]. intros ([|c' conts] & Le & F & E & _); [discriminate|]. cbn [string_of_list_ascii String.append] in E.
        injection E as <- ->. inversion F; subst. apply land_cont in H1. contradiction.
Qed.
(** With [check] 0 nothing is ever accepted. *)
Lemma cont_zero s uc : contLoop s 0 uc = None.
Proof.
  revert uc. induction s as [|c s IH]; intros uc; [reflexivity|]. cbn [contLoop Z.eqb].
  destruct (negb _); [reflexivity|]. apply IH.
Qed.
Lemma lead_small n h bits : Lead n h bits -> (n <= 6)%nat /\ 0 <= bits < 2 ^ 32 /\ 0xC0 <= h.
Proof. intros H. assert (2 ^ 32 = 4294967296) by reflexivity. inversion H; subst; lia. Qed.
Lemma C37_lemma s u r : GetUTF8 s = Some (u, r) <-> Accepts s u r.
Proof.
  destruct s as [|c s]; [split; [discriminate|intros H; inversion H]|]. cbn [GetUTF8].
  pose proof (byteZ_range c) as B.
  destruct (Z.eqb_spec (byteZ c) 0) as [Z0|Z0].
  { split; [discriminate|]. intros H; inversion H as [? ? X|? ? ? ? ? X Y W]; subst; [lia|]. apply lead_small in X. lia. }
  assert (H80 : Z.land (byteZ c) 128 = 0 <-> byteZ c < 128).
  { clear. destruct c as [[] [] [] [] [] [] [] []]; vm_compute; split; intros H; try discriminate H; reflexivity. }
  destruct (Z.eqb_spec (Z.land (byteZ c) 128) 0) as [Z8|Z8].
  - apply H80 in Z8. split.
    + intros H. injection H as <- <-. constructor. lia.
    + intros H; inversion H as [? ? X|? ? ? ? ? X Y W]; subst; [reflexivity|]. apply lead_small in X. lia.
  - assert (G : 128 <= byteZ c) by lia. pose proof (lead_ok c G) as K. unfold leadCheck in K.
    destruct (leadLoop 8 (byteZ c) 64 63) as [check mask]. destruct (leadSpec (byteZ c)) as [[n bits]|] eqn:El.
    + apply leadSpec_ok in El. apply andb_true_iff in K. destruct K as (K1 & K2). apply Z.eqb_eq in K1, K2. subst check bits.
      destruct (lead_small _ _ _ El) as (Ln & Lb & _).
      assert (Np : (1 <= n)%nat) by (inversion El; lia). rewrite check64 by lia. rewrite (cont_ok n Ln s _ u r Lb). split.
      * intros (conts & Le & F & -> & ->). apply (A_multi c n); assumption.
      * intros H; inversion H as [? ? X|? n' ? conts ? X Y W]; subst; [lia|]. apply leadSpec_ok in X, El.
        rewrite X in El. injection El as El1 El2. exists conts. rewrite <- El2. auto.
    + split.
      * apply orb_true_iff in K. destruct K as [K|K]; [rewrite K; discriminate|]. apply andb_true_iff in K.
        destruct K as (_ & K). apply Z.eqb_eq in K. subst check. cbn [Z.eqb]. rewrite cont_zero. discriminate.
      * intros H; inversion H as [? ? X|? n' ? conts ? X Y W]; subst; [lia|]. apply leadSpec_ok in X. congruence.
Qed.
Theorem C37_accepted_forms s u r : GetUTF8 s = Some (u, r) <-> Accepts s u r.
Proof. exact (C37_lemma s u r). Qed.
Print Assumptions C37_accepted_forms.
Lemma byteZ_byte n : (n < 256)%N -> byteZ (byte n) = Z.of_N n.
Proof. intros H. unfold byteZ. rewrite byteN by exact H. reflexivity. Qed.
Lemma cont_mk x : contByte (byte (0x80 + x mod 0x40)) /\ byteZ (byte (0x80 + x mod 0x40)) = 128 + Z.of_N (x mod 64).
Proof.
  assert (M : (x mod 64 < 64)%N) by (apply N.mod_lt; lia).
  assert (E : byteZ (byte (0x80 + x mod 0x40)) = 128 + Z.of_N (x mod 64)) by (rewrite byteZ_byte by (revert M; generalize (x mod 64)%N; intros; lia); lia).
  split; [|exact E]. unfold contByte. rewrite E. revert M. generalize (x mod 64)%N. intros; lia.
Qed.
Lemma C37_lemma2 c r : scalar c -> c <> 0%N ->
  GetUTF8 (string_of_list_ascii (utf8EncodeCp c) ++ r) = Some (Z.of_N c, r).
Proof.
  intros S Nz. apply C37_lemma. unfold scalar in S. unfold utf8EncodeCp.
  assert (P32 : 2 ^ 32 = 4294967296) by reflexivity.
  assert (Q : forall k, (0 < k)%N -> Z.of_N (c / k) = Z.of_N c / Z.of_N k) by (intros; apply N2Z.inj_div).
  destruct (N.ltb_spec c 0x80) as [H1|H1]; [|destruct (N.ltb_spec c 0x800) as [H2|H2]; [|destruct (N.ltb_spec c 0x10000) as [H3|H3]]];
    cbn [string_of_list_ascii String.append].
  - rewrite <- (byteZ_byte c) by lia. constructor. rewrite byteZ_byte by lia. lia.
  - assert (D : (c / 64 < 32)%N) by (apply N.div_lt_upper_bound; lia).
    assert (B : byteZ (byte (0xC0 + c / 0x40)) = 192 + Z.of_N (c / 64)) by (rewrite byteZ_byte by (revert D; generalize (c / 64)%N; intros; lia); lia).
    destruct (cont_mk c) as (C1 & E1).
    replace (Z.of_N c) with (fold_left sixBits [byte (0x80 + c mod 0x40)] (byteZ (byte (0xC0 + c / 0x40)) - 0xC0) mod 2 ^ 32).
    { apply (A_multi _ 1 _ [byte (0x80 + c mod 0x40)%N]); [constructor|reflexivity|repeat constructor; apply C1].
      rewrite B. revert D. generalize (c / 64)%N. intros; lia. }
    cbn [fold_left]. unfold sixBits. rewrite B, E1, P32, N2Z.inj_mod, Q by lia. Z.div_mod_to_equations. lia.
  - assert (D : (c / 4096 < 16)%N) by (apply N.div_lt_upper_bound; lia).
    assert (B : byteZ (byte (0xE0 + c / 0x1000)) = 224 + Z.of_N (c / 4096)) by (rewrite byteZ_byte by (revert D; generalize (c / 4096)%N; intros; lia); lia).
    destruct (cont_mk c) as (C1 & E1). destruct (cont_mk (c / 64)) as (C2 & E2).
    replace (Z.of_N c) with (fold_left sixBits [byte (0x80 + (c / 0x40) mod 0x40); byte (0x80 + c mod 0x40)] (byteZ (byte (0xE0 + c / 0x1000)) - 0xE0) mod 2 ^ 32).
    { apply (A_multi _ 2 _ [byte (0x80 + (c / 0x40) mod 0x40)%N; byte (0x80 + c mod 0x40)%N]);
        [constructor|reflexivity|apply Forall_cons; [apply C2|apply Forall_cons; [apply C1|constructor]]].
      rewrite B. revert D. generalize (c / 4096)%N. intros; lia. }
    cbn [fold_left]. unfold sixBits. rewrite B, E1, E2, P32, !N2Z.inj_mod, !Q by lia. Z.div_mod_to_equations. lia.
  - assert (D : (c / 262144 < 5)%N) by (apply N.div_lt_upper_bound; lia).
    assert (B : byteZ (byte (0xF0 + c / 0x40000)) = 240 + Z.of_N (c / 262144)) by (rewrite byteZ_byte by (revert D; generalize (c / 262144)%N; intros; lia); lia).
    destruct (cont_mk c) as (C1 & E1). destruct (cont_mk (c / 64)) as (C2 & E2). destruct (cont_mk (c / 4096)) as (C3 & E3).
    replace (Z.of_N c) with (fold_left sixBits [byte (0x80 + (c / 0x1000) mod 0x40); byte (0x80 + (c / 0x40) mod 0x40); byte (0x80 + c mod 0x40)] (byteZ (byte (0xF0 + c / 0x40000)) - 0xF0) mod 2 ^ 32).
    { apply (A_multi _ 3 _ [byte (0x80 + (c / 0x1000) mod 0x40)%N; byte (0x80 + (c / 0x40) mod 0x40)%N; byte (0x80 + c mod 0x40)%N]);
        [constructor|reflexivity|apply Forall_cons; [apply C3|apply Forall_cons; [apply C2|apply Forall_cons; [apply C1|constructor]]]].
      rewrite B. revert D. generalize (c / 262144)%N. intros; lia. }
    cbn [fold_left]. unfold sixBits. rewrite B, E1, E2, E3, P32, !N2Z.inj_mod, !Q by lia. Z.div_mod_to_equations. lia.
Qed.
(** Every well-formed character is decoded to its code point, and exactly its
    bytes are consumed. *)
Theorem C37_well_formed c r : scalar c -> c <> 0%N ->
  GetUTF8 (string_of_list_ascii (utf8EncodeCp c) ++ r) = Some (Z.of_N c, r).
Proof. exact (C37_lemma2 c r). Qed.
Print Assumptions C37_well_formed.
Lemma sola_app a b : string_of_list_ascii (a ++ b) = (string_of_list_ascii a ++ string_of_list_ascii b)%string.
Proof. induction a as [|c a IH]; [reflexivity|]. cbn [app string_of_list_ascii String.append]. rewrite IH. reflexivity. Qed.
Lemma C37_lemma3 k cps : Forall scalar cps -> Forall (fun c => c <> 0%N) cps -> (length cps <= k)%nat ->
  decodeWord k (utf8Encode cps) = Some cps.
Proof.
  revert k. induction cps as [|c cps IH]; intros k F Z L; [destruct k; reflexivity|]. inversion F; inversion Z; subst.
  destruct k as [|k]; [cbn in L; lia|]. cbn [length] in L.
  assert (E : utf8Encode (c :: cps) = (string_of_list_ascii (utf8EncodeCp c) ++ utf8Encode cps)%string) by apply sola_app.
  pose proof (C37_lemma2 c (utf8Encode cps) H1 H5) as G. rewrite <- E in G.
  destruct (utf8Encode (c :: cps)) as [|x s] eqn:Es; [discriminate G|]. cbn [decodeWord]. rewrite G.
  rewrite IH by (auto; lia). rewrite N2Z.id. reflexivity.
Qed.
(** A whole key, up to the limit of 255 characters. *)
Theorem C37_key k cps : Forall scalar cps -> Forall (fun c => c <> 0%N) cps -> (length cps <= k)%nat ->
  decodeWord k (utf8Encode cps) = Some cps.
Proof. exact (C37_lemma3 k cps). Qed.
Print Assumptions C37_key.
Example C37_case : let cps := [0x0e01; 0x41; 0xe9; 0x1F600]%N in
  Forall scalar cps /\ Forall (fun c => c <> 0%N) cps /\ decodeWord 255 (utf8Encode cps) = Some cps.
Proof.
  cbv zeta. unfold scalar. split; [|split; [|vm_compute; reflexivity]];
    repeat (apply Forall_cons; [lia|]); apply Forall_nil.
Qed.
(** A whole key is decoded iff it is made of accepted characters. *)
Inductive Chars : string -> list Z -> Prop :=
| Ch_end : Chars "" []
| Ch_char s u r us : Accepts s u r -> Chars r us -> Chars s (u :: us).
Lemma accepts_shorter s u r : Accepts s u r -> (String.length r < String.length s)%nat.
Proof. destruct 1; cbn [String.length]; rewrite ?slen_app; lia. Qed.
Lemma C37_lemma5 k s l : (String.length s <= k)%nat ->
  decodeWord k s = Some l <-> exists us, Chars s us /\ l = map Z.to_N us.
Proof.
  revert s l. induction k as [|k IH]; intros s l L.
  - destruct s as [|c s]; [|cbn in L; lia]. cbn [decodeWord]. split.
    + intros H. injection H as <-. exists []. split; [constructor|reflexivity].
    + intros (us & H & ->). inversion H as [|? ? ? ? A]; subst; [reflexivity|inversion A].
  - destruct s as [|c s].
    { cbn [decodeWord]. split.
      + intros H. injection H as <-. exists []. split; [constructor|reflexivity].
      + intros (us & H & ->). inversion H as [|? ? ? ? A]; subst; [reflexivity|inversion A]. }
    cbn [decodeWord]. destruct (GetUTF8 (String c s)) as [[u r]|] eqn:E.
    + apply C37_lemma in E. pose proof (accepts_shorter _ _ _ E) as Lr. cbn [String.length] in L, Lr.
      destruct (decodeWord k r) as [l'|] eqn:Er.
      * apply IH in Er; [|lia]. destruct Er as (us & H & ->). split.
        -- intros X. injection X as <-. exists (u :: us). split; [econstructor; eauto|reflexivity].
        -- intros (us' & H' & ->). inversion H' as [|? u' r' us'' A H'']; subst.
           apply C37_lemma in A. apply C37_lemma in E. rewrite E in A. injection A as <- <-.
           assert (X : exists us, Chars r us /\ map Z.to_N us'' = map Z.to_N us) by eauto.
           apply IH in X; [|lia]. assert (Y : exists us0, Chars r us0 /\ map Z.to_N us = map Z.to_N us0) by eauto.
           apply IH in Y; [|lia]. rewrite X in Y. injection Y as Y. cbn [map]. rewrite Y. reflexivity.
      * split; [discriminate|]. intros (us' & H' & ->). exfalso. inversion H' as [|? u' r' us'' A H'']; subst.
        apply C37_lemma in A. apply C37_lemma in E. rewrite E in A. injection A as <- <-.
        assert (X : exists us, Chars r us /\ map Z.to_N us'' = map Z.to_N us) by eauto.
        apply IH in X; [|lia]. congruence.
    + split; [discriminate|]. intros (us' & H' & ->). exfalso. inversion H' as [|? u' r' us'' A H'']; subst.
      apply C37_lemma in A. congruence.
Qed.
Theorem C37_key_exact k s l : (String.length s <= k)%nat ->
  decodeWord k s = Some l <-> exists us, Chars s us /\ l = map Z.to_N us.
Proof. exact (C37_lemma5 k s l). Qed.
Print Assumptions C37_key_exact.
(** A stray continuation byte, the byte 0xFF, and a form cut short or broken
    by another byte are rejected. *)
Lemma C37_lemma4 c s : 128 <= byteZ c ->
  (forall n bits, Lead n (byteZ c) bits -> ~ exists conts r, length conts = n /\ Forall contByte conts /\
     s = (string_of_list_ascii conts ++ r)%string) ->
  GetUTF8 (String c s) = None.
Proof.
  intros G H. destruct (GetUTF8 (String c s)) as [[u r]|] eqn:E; [|reflexivity]. exfalso. apply C37_lemma in E.
  inversion E as [? ? X|? n bits conts ? X Y W]; subst; [lia|]. apply (H _ _ X). exists conts, r. auto.
Qed.
Theorem C37_malformed_rejected c s : 128 <= byteZ c ->
  (forall n bits, Lead n (byteZ c) bits -> ~ exists conts r, length conts = n /\ Forall contByte conts /\
     s = (string_of_list_ascii conts ++ r)%string) ->
  GetUTF8 (String c s) = None.
Proof. exact (C37_lemma4 c s). Qed.
Print Assumptions C37_malformed_rejected.
Definition b8 (n : nat) : ascii := ascii_of_nat n.
(** Not strict: an overlong form, a surrogate, a value beyond Unicode and a
    seven byte form are accepted. *)
Theorem C37_lax_refuted :
  GetUTF8 (String (b8 0xC1) (String (b8 0x81) "")) = Some (0x41, ""%string) /\
  GetUTF8 (String (b8 0xED) (String (b8 0xA0) (String (b8 0x80) ""))) = Some (0xD800, ""%string) /\
  GetUTF8 (String (b8 0xF7) (String (b8 0xBF) (String (b8 0xBF) (String (b8 0xBF) "")))) = Some (0x1FFFFF, ""%string) /\
  GetUTF8 (String (b8 0xFE) (rep 5 (String (b8 0x80) "") ++ String (b8 0x81) ""))%string = Some (1, ""%string).
Proof. vm_compute. repeat split. Qed.
Print Assumptions C37_lax_refuted.

(** ** C38: the generator keeps the entries *)
Definition tab : ascii := ascii_of_nat 9.
Definition lf : ascii := ascii_of_nat 10.
Fixpoint lacks (x : ascii) (s : string) : Prop :=
  match s with EmptyString => True | String c s' => c <> x /\ lacks x s' end.
Definition lineText (k : list N) (data : string) : string := (utf8Encode k ++ String tab data)%string.
(** A line the generator can take: a Thai key, data on the same line, at most
    254 bytes. *)
Definition wellLine (p : list N * string) : Prop :=
  fst p <> [] /\ inAbc (fst p) /\ noNul (snd p) /\ lacks lf (snd p) /\
  (String.length (lineText (fst p) (snd p)) <= 254)%nat.
(** The file with the given lines; the last may lack its newline. *)
Inductive FileOf : list (list N * string) -> string -> Prop :=
| F_nil : FileOf [] ""
| F_last k data : FileOf [(k, data)] (lineText k data)
| F_line k data l s : FileOf l s -> FileOf ((k, data) :: l) (lineText k data ++ String lf s).
(** The last line for the key [k] says [data]. *)
Definition lastSays (l : list (list N * string)) (k : list N) (data : string) : Prop :=
  exists l1 l2, l = (l1 ++ (k, data) :: l2)%list /\ forall x, ~ In (k, x) l2.

Lemma lacks_app x a b : lacks x (a ++ b) <-> lacks x a /\ lacks x b.
Proof. induction a as [|c a IH]; cbn [String.append lacks]; [tauto|]. rewrite IH. tauto. Qed.
Lemma noNul_lacks s : noNul s <-> lacks Ascii.zero s.
Proof. induction s as [|c s IH]; cbn [noNul lacks]; [tauto|]. rewrite IH. tauto. Qed.
Lemma fgets_line n l r : lacks lf l -> (String.length l < n)%nat -> fgetsN n (l ++ String lf r) = ((l ++ String lf "")%string, r).
Proof.
  revert n. induction l as [|c l IH]; intros n F L; (destruct n as [|n]; [cbn in L; lia|]); cbn [String.append fgetsN].
  - change (Ascii.eqb lf (ascii_of_nat 10)) with true. reflexivity.
  - destruct F as (F1 & F2). cbn [String.length] in L. destruct (Ascii.eqb_spec c (ascii_of_nat 10)) as [E|_]; [contradiction|].
    rewrite IH by (auto; lia). reflexivity.
Qed.
Lemma fgets_last n l : lacks lf l -> (String.length l <= n)%nat -> fgetsN n l = (l, ""%string).
Proof.
  revert n. induction l as [|c l IH]; intros n F L; [destruct n; reflexivity|]. destruct n as [|n]; [cbn in L; lia|]. cbn [fgetsN].
  destruct F as (F1 & F2). cbn [String.length] in L. destruct (Ascii.eqb_spec c (ascii_of_nat 10)) as [E|_]; [contradiction|].
  rewrite IH by (auto; lia). reflexivity.
Qed.
Lemma cut0_id s : lacks Ascii.zero s -> cut0 s = s.
Proof.
  induction s as [|c s IH]; [reflexivity|]. intros (F1 & F2). cbn [cut0]. destruct (Ascii.eqb_spec c Ascii.zero) as [E|_]; [contradiction|].
  rewrite IH by exact F2. reflexivity.
Qed.
Lemma dropNl_nl s : dropNl (s ++ String lf "") = s.
Proof.
  induction s as [|c s IH]; [reflexivity|]. cbn [String.append dropNl]. rewrite IH. destruct s; reflexivity.
Qed.
Lemma dropNl_id s : lacks lf s -> dropNl s = s.
Proof.
  induction s as [|c s IH]; [reflexivity|]. intros (F1 & F2). cbn [dropNl]. rewrite IH by exact F2. destruct s; [|reflexivity].
  destruct (Ascii.eqb_spec c (ascii_of_nat 10)) as [E|_]; [contradiction|reflexivity].
Qed.
Lemma splitTab_at k d : lacks tab k -> splitTab (k ++ String tab d) = Some (k, d).
Proof.
  induction k as [|c k IH]; [reflexivity|]. intros (F1 & F2). cbn [String.append splitTab].
  destruct (Ascii.eqb_spec c (ascii_of_nat 9)) as [E|_]; [contradiction|]. rewrite IH by exact F2. reflexivity.
Qed.
Lemma thai_bytes c x : (0x0e01 <= c <= 0x0e5b)%N -> byteZ x < 128 -> lacks x (string_of_list_ascii (utf8EncodeCp c)).
Proof.
  intros H X. unfold utf8EncodeCp. destruct (N.ltb_spec c 0x80); [lia|]. destruct (N.ltb_spec c 0x800); [lia|].
  destruct (N.ltb_spec c 0x10000); [|lia].
  assert (D : (c / 4096 < 16)%N) by (apply N.div_lt_upper_bound; lia).
  destruct (cont_mk c) as (C1 & _). destruct (cont_mk (c / 64)) as (C2 & _). unfold contByte in *.
  cbn [string_of_list_ascii lacks]. repeat split; try (intros E; rewrite E in *; lia).
  intros E. assert (B : byteZ (byte (0xE0 + c / 0x1000)) = 224 + Z.of_N (c / 4096)) by (rewrite byteZ_byte by (revert D; generalize (c / 4096)%N; intros; lia); lia).
  rewrite E in B. pose proof (N2Z.is_nonneg (c / 4096)) as P. revert B P. generalize (Z.of_N (c / 4096)). intros; lia.
Qed.
Lemma key_lacks k x : inAbc k -> byteZ x < 128 -> lacks x (utf8Encode k).
Proof.
  intros H X. unfold utf8Encode. induction k as [|c k IH]; [exact I|]. cbn [flat_map]. rewrite sola_app, lacks_app. split.
  - apply thai_bytes; [apply H; left; reflexivity|exact X].
  - apply IH. intros y Iy. apply H. right; exact Iy.
Qed.
Lemma abc_scalar k : inAbc k -> Forall scalar k /\ Forall (fun c => c <> 0%N) k.
Proof. intros H. split; apply Forall_forall; intros c I; specialize (H c I); unfold scalar; lia. Qed.
Lemma cutKey_id k : Forall (fun c => c <> 0%N) k -> cutKey k = k.
Proof.
  induction 1 as [|c k N F IH]; [reflexivity|]. cbn [cutKey]. destruct (N.eqb_spec c 0) as [E|_]; [contradiction|]. rewrite IH. reflexivity.
Qed.
Lemma key_len k : inAbc k -> String.length (utf8Encode k) = (3 * length k)%nat.
Proof.
  intros H. unfold utf8Encode. induction k as [|c k IH]; [reflexivity|]. cbn [flat_map]. rewrite sola_app, slen_app, IH.
  2:{ intros y Iy. apply H. right; exact Iy. }
  specialize (H c (or_introl eq_refl)). unfold utf8EncodeCp. destruct (N.ltb_spec c 0x80); [lia|]. destruct (N.ltb_spec c 0x800); [lia|].
  destruct (N.ltb_spec c 0x10000); [|lia]. cbn [string_of_list_ascii String.length length]. lia.
Qed.
Lemma decode_line k d : wellLine (k, d) ->
  match splitTab (lineText k d) with
  | None => None
  | Some (word, data) => match decodeWord 255 word with None => None | Some w => Some (cutKey w, data) end
  end = Some (k, d).
Proof.
  intros (N & A & D1 & D2 & L). cbn [fst snd] in *. unfold lineText in *.
  rewrite splitTab_at by (apply key_lacks; [exact A|vm_compute; reflexivity]).
  destruct (abc_scalar k A) as (S & Z). rewrite slen_app, key_len in L by exact A.
  rewrite C37_lemma3 by (auto; lia). rewrite cutKey_id by exact Z. reflexivity.
Qed.
Lemma line_lacks k d : wellLine (k, d) -> lacks lf (lineText k d) /\ lacks Ascii.zero (lineText k d) /\ lineText k d <> ""%string.
Proof.
  intros (N & A & D1 & D2 & L). cbn [fst snd] in *. unfold lineText. rewrite !lacks_app. cbn [lacks].
  split; [split; [apply key_lacks; [exact A|vm_compute; reflexivity]|split; [discriminate|exact D2]]|].
  split; [split; [apply key_lacks; [exact A|vm_compute; reflexivity]|split; [discriminate|apply noNul_lacks; exact D1]]|].
  destruct (utf8Encode k); discriminate.
Qed.
Lemma read_nl k d r : wellLine (k, d) -> ReadInput (lineText k d ++ String lf r) = Ok (Some (k, d, r)).
Proof.
  intros W. destruct (line_lacks k d W) as (F1 & F2 & F3). pose proof (decode_line k d W) as E.
  assert (L : (String.length (lineText k d) < 255)%nat) by (destruct W as (_ & _ & _ & _ & L); cbn [fst snd] in L; lia).
  unfold ReadInput, fgets. destruct (lineText k d ++ String lf r)%string as [|x s] eqn:Es.
  { destruct (lineText k d); discriminate Es. }
  rewrite <- Es. rewrite fgets_line by assumption. rewrite cut0_id.
  2:{ apply lacks_app. split; [exact F2|]. cbn [lacks]. split; [discriminate|exact I]. }
  unfold trimLine. destruct (lineText k d ++ String lf "")%string as [|y s'] eqn:Es'.
  { destruct (lineText k d); discriminate Es'. }
  rewrite <- Es', dropNl_nl. cbn [bind]. destruct (splitTab (lineText k d)) as [[word data]|]; [|discriminate E].
  destruct (decodeWord 255 word); [|discriminate E]. injection E as -> ->. reflexivity.
Qed.
Lemma read_last k d : wellLine (k, d) -> ReadInput (lineText k d) = Ok (Some (k, d, ""%string)).
Proof.
  intros W. destruct (line_lacks k d W) as (F1 & F2 & F3). pose proof (decode_line k d W) as E.
  assert (L : (String.length (lineText k d) <= 255)%nat) by (destruct W as (_ & _ & _ & _ & L); cbn [fst snd] in L; lia).
  unfold ReadInput, fgets. destruct (lineText k d) as [|x s] eqn:Es; [contradiction (F3 eq_refl)|].
  rewrite <- Es in *. rewrite fgets_last by assumption. rewrite cut0_id by exact F2.
  unfold trimLine. rewrite Es, <- Es, dropNl_id by exact F1. cbn [bind]. destruct (splitTab (lineText k d)) as [[word data]|]; [|discriminate E].
  destruct (decodeWord 255 word); [|discriminate E]. injection E as -> ->. reflexivity.
Qed.
Lemma find_filter t k k' : k' <> k -> trieFind (filter (fun kv => negb (keyEqb k (fst kv))) t) k' = trieFind t k'.
Proof.
  intros N. induction t as [|[x v] t IH]; [reflexivity|]. cbn [filter trieFind fst].
  destruct (keyEqb k x) eqn:E; cbn [negb].
  - apply keyEqb_eq in E. subst x. destruct (keyEqb k' k) eqn:E2; [apply keyEqb_eq in E2; contradiction|]. exact IH.
  - cbn [trieFind]. rewrite IH. reflexivity.
Qed.
Lemma keyEqb_refl k : keyEqb k k = true.
Proof. apply keyEqb_eq. reflexivity. Qed.
(** The trie and the bank agree with the lines read so far. *)
Record genInv (l : list (list N * string)) (t : Trie) (b : DataBank) : Prop := {
  gi_bank : bankOK b;
  gi_some : forall k i, trieFind t k = Some i -> exists s, lastSays l k s /\ stored (bPool b) i s;
  gi_none : forall k s, trieFind t k = None -> ~ In (k, s) l }.
Lemma lastSays_snoc l k s : lastSays (l ++ [(k, s)]) k s.
Proof. exists l, []. split; [reflexivity|]. intros x []. Qed.
Lemma lastSays_other l k s k' s' : k' <> k -> lastSays l k' s' -> lastSays (l ++ [(k, s)]) k' s'.
Proof.
  intros N (l1 & l2 & -> & H). exists l1, (l2 ++ [(k, s)])%list. split; [rewrite <- app_assoc; reflexivity|].
  intros x I. apply in_app_or in I. destruct I as [I|[I|[]]]; [exact (H x I)|]. injection I as -> _. contradiction.
Qed.
Lemma gen_step l t b k s : genInv l t b -> wellLine (k, s) ->
  dataSize b + Z.of_nat (String.length s) + 1 <= 1073741824 ->
  exists t' b' i, DataBankAddData b s = Ok (b', i) /\ trieStore t k i = Some t' /\ genInv (l ++ [(k, s)]) t' b' /\
    dataSize b' = dataSize b + Z.of_nat (String.length s) + 1.
Proof.
  intros [K S N] (_ & A & D & _ & _) L. cbn [fst snd] in *. destruct (add_ok b s K L) as (size & E & K' & D').
  assert (Al : forallb inAlphabet k = true) by (apply forallb_forall; intros c I; apply inAlphabet_spec; auto).
  unfold trieStore. rewrite Al. eexists _, _, _. split; [exact E|]. split; [reflexivity|]. split; [|exact D'].
  constructor; [exact K'| |].
  - intros k' i. cbn [trieFind]. destruct (keyEqb k' k) eqn:Ek.
    + apply keyEqb_eq in Ek. subst k'. intros H. injection H as <-. exists s. split; [apply lastSays_snoc|].
      cbn [bPool]. apply stored_new. exact D.
    + assert (Nk : k' <> k) by (intros ->; rewrite keyEqb_refl in Ek; discriminate).
      rewrite find_filter by exact Nk. intros H. destruct (S k' i H) as (s' & L' & St). exists s'.
      split; [apply lastSays_other; assumption|]. cbn [bPool]. apply stored_more. exact St.
  - intros k' s'. cbn [trieFind]. destruct (keyEqb k' k) eqn:Ek; [discriminate|].
    assert (Nk : k' <> k) by (intros ->; rewrite keyEqb_refl in Ek; discriminate).
    rewrite find_filter by exact Nk. intros H I. apply in_app_or in I. destruct I as [I|[I|[]]]; [exact (N k' s' H I)|].
    injection I as -> _. contradiction.
Qed.
Lemma read_end : ReadInput "" = Ok None.
Proof. reflexivity. Qed.
Lemma gen_ok lines input : FileOf lines input -> Forall wellLine lines -> forall fuel done t b,
  (String.length input < fuel)%nat -> genInv done t b -> dataSize b + Z.of_nat (String.length input) + 1 <= 1073741824 ->
  exists t' b', genLoop fuel input t b = Ok (Some (t', b')) /\ genInv (done ++ lines) t' b' /\
    dataSize b <= dataSize b' <= 1073741824 /\ (lines <> [] -> 0 < dataSize b').
Proof.
  induction 1 as [|k d|k d l s F IH]; intros W fuel done t b L G Sz; (destruct fuel as [|fuel]; [lia|]); cbn [genLoop].
  - exists t, b. rewrite read_end. cbn [bind]. rewrite app_nil_r. repeat split; auto; try apply G; try lia. intros X. contradiction (X eq_refl).
  - inversion W as [|? ? W1 _]; subst. rewrite (read_last k d W1). cbn [bind].
    assert (Ld : (String.length d + 1 <= String.length (lineText k d))%nat) by (unfold lineText; rewrite slen_app; cbn [String.length]; lia).
    destruct (gen_step done t b k d G W1 ltac:(lia)) as (t' & b' & i & E1 & E2 & G' & D'). rewrite E1. cbn [bind fst snd]. rewrite E2.
    destruct fuel as [|fuel]; [lia|]. cbn [genLoop]. rewrite read_end. cbn [bind]. exists t', b'.
    split; [reflexivity|]. split; [exact G'|]. assert (0 <= dataSize b) by (unfold dataSize; lia). split; [lia|]. intros _. lia.
  - inversion W as [|? ? W1 W2]; subst. rewrite (read_nl k d s W1). cbn [bind].
    rewrite slen_app in L, Sz. cbn [String.length] in L, Sz.
    assert (Ld : (String.length d + 1 <= String.length (lineText k d))%nat) by (unfold lineText; rewrite slen_app; cbn [String.length]; lia).
    destruct (gen_step done t b k d G W1 ltac:(lia)) as (t' & b' & i & E1 & E2 & G' & D'). rewrite E1. cbn [bind fst snd]. rewrite E2.
    destruct (IH W2 fuel _ t' b' ltac:(lia) G' ltac:(lia)) as (t2 & b2 & E3 & G2 & D2 & _).
    exists t2, b2. split; [exact E3|]. rewrite <- app_assoc in G2. split; [exact G2|].
    assert (0 <= dataSize b) by (unfold dataSize; lia). split; [lia|]. intros _. lia.
Qed.
Lemma inv0 : genInv [] [] NewDataBank.
Proof. constructor; [vm_compute; discriminate|discriminate|intros k s _ []]. Qed.
Lemma C38_lemma lines input : FileOf lines input -> Forall wellLine lines -> lines <> [] ->
  Z.of_nat (String.length input) < 1073741824 ->
  exists f d, GenDict input = Ok (Some f) /\ DictOpen (ATrie f) = Ok (d, true) /\
    (forall k s, (exists i, holds d k i /\ dictGetData d i = Ok s) <-> lastSays lines k s) /\
    (forall k i, holds d k i -> exists s, dictGetData d i = Ok s).
Proof.
  intros F W Ne L. destruct (gen_ok lines input F W (S (String.length input)) [] [] NewDataBank) as (t & b & E & G & D1 & D2);
    [lia|apply inv0|change (dataSize NewDataBank) with 0; lia|]. specialize (D2 Ne). cbn [app] in G.
  exists (mkDictFile t (fst (DataBankWrite b))), (mkDict (Some t) (Some (bPool b))).
  split; [unfold GenDict; rewrite E; reflexivity|]. split.
  { cbn [DictOpen fBytes fTrie]. pose proof (read_bank b "" ltac:(lia)) as R.
    assert (A : forall s, (s ++ "")%string = s) by (induction s as [|c s IH]; [reflexivity|cbn [String.append]; rewrite IH; reflexivity]).
    rewrite A in R. rewrite R. reflexivity. }
  split; [|intros k i H; apply (holds_find _ t) in H; [|reflexivity]; destruct (gi_some _ _ _ G k i H) as (s & _ & St); exists s; apply St].
  intros k s. split.
  - intros (i & H & E1). apply (holds_find _ t) in H; [|reflexivity]. destruct (gi_some _ _ _ G k i H) as (s' & Ls & St).
    specialize (St (Some t)). rewrite E1 in St. injection St as <-. exact Ls.
  - intros Ls. destruct (trieFind t k) as [i|] eqn:Ef.
    + exists i. split; [apply (holds_find _ t); [reflexivity|exact Ef]|]. destruct (gi_some _ _ _ G k i Ef) as (s' & Ls' & St).
      assert (s' = s); [|subst s'; apply St]. destruct Ls as (a1 & a2 & E1 & H1). destruct Ls' as (c1 & c2 & E2 & H2).
      rewrite E1 in E2. clear - E2 H1 H2. revert c1 E2. induction a1 as [|x a1 IH]; intros [|y c1] E2; cbn [app] in E2; injection E2 as X Y.
      * congruence.
      * exfalso. apply (H1 s'). rewrite Y. apply in_or_app. right; left; reflexivity.
      * exfalso. apply (H2 s). rewrite <- Y. apply in_or_app. right; left; reflexivity.
      * exact (IH c1 Y).
    + exfalso. destruct Ls as (l1 & l2 & E1 & _). apply (gi_none _ _ _ G k s Ef). rewrite E1. apply in_or_app. right; left; reflexivity.
Qed.
(** A file of well-formed lines: the generated dictionary opens and holds, for
    every key, what its last line says, and nothing else; the data of every
    key can be read. *)
Theorem C38_all_kept lines input : FileOf lines input -> Forall wellLine lines -> lines <> [] ->
  Z.of_nat (String.length input) < 1073741824 ->
  exists f d, GenDict input = Ok (Some f) /\ DictOpen (ATrie f) = Ok (d, true) /\
    (forall k s, (exists i, holds d k i /\ dictGetData d i = Ok s) <-> lastSays lines k s) /\
    (forall k i, holds d k i -> exists s, dictGetData d i = Ok s).
Proof. exact (C38_lemma lines input). Qed.
Print Assumptions C38_all_kept.
Definition exLines : list (list N * string) :=
  [(letters "กา", "k_A_0@2"); (letters "นา", "n_A_0@2"); (letters "กา", "k_A_1@2")]%string.
Definition exFile : string :=
  ("กา" ++ String tab ("k_A_0@2" ++ String lf ("นา" ++ String tab ("n_A_0@2" ++ String lf ("กา" ++ String tab "k_A_1@2")))))%string.
Ltac line_ok :=
  unfold wellLine; cbn [fst snd]; split; [discriminate|]; split;
  [let c := fresh in let I := fresh in intros c I; cbn in I; repeat destruct I as [<-|I]; try contradiction; lia|];
  split; [vm_compute; repeat split; discriminate|]; split; [vm_compute; repeat split; discriminate|vm_compute; lia].
Example C38_case : FileOf exLines exFile /\ Forall wellLine exLines /\
  lastSays exLines (letters "กา") "k_A_1@2" /\ lastSays exLines (letters "นา") "n_A_0@2".
Proof.
  split; [|split; [|split]].
  - apply (F_line (letters "กา") "k_A_0@2"). apply (F_line (letters "นา") "n_A_0@2"). apply F_last.
  - repeat (apply Forall_cons; [line_ok|]). apply Forall_nil.
  - eexists [_; _], []. split; [reflexivity|]. intros x [].
  - eexists [_], [_]. split; [reflexivity|]. intros x [H|[]]. discriminate H.
Qed.
(** A line without tab, a line whose key is not UTF-8: everything after it is
    dropped, and the run still reports success. *)
Definition badLine (bad : string) : Prop :=
  bad <> ""%string /\ lacks lf bad /\ noNul bad /\ (String.length bad <= 254)%nat /\
  (lacks tab bad \/ exists key d, bad = (key ++ String tab d)%string /\ lacks tab key /\ ~ exists us, Chars key us).
Lemma splitTab_none s : lacks tab s -> splitTab s = None.
Proof.
  induction s as [|c s IH]; [reflexivity|]. intros (F1 & F2). cbn [splitTab].
  destruct (Ascii.eqb_spec c (ascii_of_nat 9)) as [E|_]; [contradiction|]. rewrite IH by exact F2. reflexivity.
Qed.
Lemma read_bad bad rest : badLine bad -> ReadInput (bad ++ String lf rest) = Ok None.
Proof.
  intros (N & F & Z & L & T). unfold ReadInput, fgets. destruct (bad ++ String lf rest)%string as [|x s] eqn:Es.
  { destruct bad; discriminate Es. }
  rewrite <- Es. rewrite fgets_line by (auto; lia). rewrite cut0_id.
  2:{ apply lacks_app. split; [apply noNul_lacks; exact Z|]. cbn [lacks]. split; [discriminate|exact I]. }
  unfold trimLine. destruct (bad ++ String lf "")%string as [|y s'] eqn:Es'; [destruct bad; discriminate Es'|].
  rewrite <- Es', dropNl_nl. cbn [bind]. destruct T as [T|(key & d & -> & T & X)].
  - rewrite splitTab_none by exact T. reflexivity.
  - rewrite splitTab_at by exact T. destruct (decodeWord 255 key) as [l|] eqn:Ek; [|reflexivity]. exfalso. apply X.
    rewrite slen_app in L. apply C37_lemma5 in Ek; [|lia]. destruct Ek as (us & H & _). eauto.
Qed.
(** The text of complete lines. *)
Definition linesText (l : list (list N * string)) : string :=
  fold_right (fun p s => lineText (fst p) (snd p) ++ String lf s)%string ""%string l.
Lemma linesText_file l : FileOf l (linesText l).
Proof. induction l as [|[k d] l IH]; [constructor|]. apply F_line. exact IH. Qed.
Lemma gen_bad l bad rest : Forall wellLine l -> badLine bad -> forall fuel fuel' t b,
  (String.length (linesText l) < fuel)%nat -> (String.length (linesText l) < fuel')%nat ->
  genLoop fuel (linesText l ++ bad ++ String lf rest) t b = genLoop fuel' (linesText l) t b.
Proof.
  intros W B. induction W as [|[k d] l W1 W2 IH]; intros fuel fuel' t b L L';
    (destruct fuel as [|fuel]; [lia|]); (destruct fuel' as [|fuel']; [lia|]); cbn [genLoop].
  - change (("" ++ bad ++ String lf rest)%string) with ((bad ++ String lf rest)%string). cbn [linesText fold_right String.append].
    rewrite (read_bad bad rest B), read_end. reflexivity.
  - cbn [linesText fold_right fst snd] in *. fold (linesText l) in *. rewrite sapp_assoc. cbn [String.append].
    rewrite !(read_nl k d) by exact W1. cbn [bind]. rewrite slen_app in L, L'. cbn [String.length] in L, L'.
    destruct (DataBankAddData b d) as [[b' i]| | |]; cbn [bind]; try reflexivity. cbn [fst snd].
    destruct (trieStore t k i) as [t'|]; [|reflexivity]. apply IH; lia.
Qed.
Lemma C38_lemma2 l bad rest : Forall wellLine l -> badLine bad ->
  GenDict (linesText l ++ bad ++ String lf rest) = GenDict (linesText l).
Proof.
  intros W B. unfold GenDict. rewrite (gen_bad l bad rest W B _ (S (String.length (linesText l)))); [reflexivity| |]; rewrite ?slen_app; lia.
Qed.
Theorem C38_later_lines_lost_refuted l bad rest : Forall wellLine l -> badLine bad ->
  GenDict (linesText l ++ bad ++ String lf rest) = GenDict (linesText l).
Proof. exact (C38_lemma2 l bad rest). Qed.
Print Assumptions C38_later_lines_lost_refuted.
Definition keysOf (r : Res (option DictFile)) : option (list (list N)) :=
  match r with Ok (Some f) => Some (map fst (fTrie f)) | _ => None end.
Example C38_lost_case : Forall wellLine [(letters "กา", "k_A_0@2"%string)] /\ badLine "นา n_A_0@2" /\
  keysOf (GenDict (linesText [(letters "กา", "k_A_0@2"%string)] ++ "นา n_A_0@2" ++ String lf
                   (linesText [(letters "ขา", "c_A_4@2"%string)]))) = Some [letters "กา"].
Proof.
  split; [apply Forall_cons; [line_ok|apply Forall_nil]|]. split; [|vm_compute; reflexivity].
  split; [discriminate|]. split; [vm_compute; repeat split; discriminate|]. split; [vm_compute; repeat split; discriminate|].
  split; [vm_compute; lia|]. left. vm_compute; repeat split; discriminate.
Qed.
(** A key cut in the middle of a character. *)
Example C38_lost_case2 : badLine (String (Ascii.ascii_of_nat 0xE0) (String (Ascii.ascii_of_nat 0xB8) (String tab "n_A_0@2"))).
Proof.
  split; [discriminate|]. split; [vm_compute; repeat split; discriminate|]. split; [vm_compute; repeat split; discriminate|].
  split; [vm_compute; lia|]. right.
  exists (String (Ascii.ascii_of_nat 0xE0) (String (Ascii.ascii_of_nat 0xB8) "")), "n_A_0@2"%string.
  split; [reflexivity|]. split; [vm_compute; repeat split; discriminate|].
  intros (us & H). assert (X : decodeWord 255 (String (Ascii.ascii_of_nat 0xE0) (String (Ascii.ascii_of_nat 0xB8) "")) = Some (map Z.to_N us)).
  { apply C37_lemma5; [vm_compute; lia|]. eauto. }
  vm_compute in X. discriminate X.
Qed.
(** A line of more than 254 bytes is cut: its data loses the end, and what is
    left of the line ends the run. *)
Theorem C38_long_line_refuted :
  exists f d, GenDict (linesText [(letters "กา", rep 30 "0123456789")] ++ linesText [(letters "ขา", "c_A_4@2"%string)]) = Ok (Some f) /\
    DictOpen (ATrie f) = Ok (d, true) /\ map fst (fTrie f) = [letters "กา"] /\
    dictGetData d 0 = Ok (rep 24 "0123456789" ++ "01234567")%string.
Proof. eexists _, _. split; [vm_compute; reflexivity|]. vm_compute. repeat split. Qed.
Print Assumptions C38_long_line_refuted.
(** An empty file: success is reported, the dictionary does not open. *)
Theorem C38_empty_refuted : exists f d, GenDict "" = Ok (Some f) /\ DictOpen (ATrie f) = Ok (d, false).
Proof. eexists _, _. split; reflexivity. Qed.
Print Assumptions C38_empty_refuted.
(** A line that starts with a NUL byte reads before the buffer. *)
Theorem C38_nul_refuted r : ReadInput (String Ascii.zero (String lf r)) = UB.
Proof. reflexivity. Qed.
Print Assumptions C38_nul_refuted.

(** ** C39: a dictionary that does not load *)
Lemma no_trie ct fuel w d brk : mTrie d = None -> ParseU16F ct fuel w (Some d) brk = ParseU16F ct fuel w None brk.
Proof.
  intros H.
  assert (E : forall s, FindExceptions ct w s d = Ok []).
  { intros s. unfold FindExceptions. cbn [allMatches]. unfold findNext. rewrite H. reflexivity. }
  assert (S : forall s, stepStates ct w (Some d) brk s = stepStates ct w None brk s).
  { intros s. unfold stepStates. destruct (_ <=? _)%nat; [reflexivity|]. rewrite E. reflexivity. }
  assert (P : forall fuel pool acc, parseLoop ct fuel w (Some d) brk pool acc = parseLoop ct fuel w None brk pool acc).
  { induction fuel0 as [|fuel0 IH]; intros [|s pool] acc; try reflexivity. cbn [parseLoop].
    destruct (_ <=? _)%nat; [apply IH|]. rewrite S. destruct (stepStates ct w None brk s); cbn [bind]; try reflexivity. apply IH. }
  unfold ParseU16F. destruct (skipGap ct w brk _); cbn [bind]; try reflexivity. apply P.
Qed.
(** A missing file, or one without an index: the object works as no
    dictionary. *)
Lemma C39_lemma p d ok : DictOpen p = Ok (d, ok) -> (p = NoFile \/ exists rest, p = NotATrie rest) ->
  ok = false /\ forall ct fuel w brk, ParseU16F ct fuel w (Some d) brk = ParseU16F ct fuel w None brk.
Proof.
  intros H [->|(rest & ->)]; cbn [DictOpen] in H.
  - injection H as <- <-. split; [reflexivity|]. intros. apply no_trie. reflexivity.
  - destruct (ReadDataBank rest); cbn [bind] in H; try discriminate. injection H as <- <-. split; [reflexivity|].
    intros. apply no_trie. reflexivity.
Qed.
Theorem C39_no_index p d ok : DictOpen p = Ok (d, ok) -> (p = NoFile \/ exists rest, p = NotATrie rest) ->
  ok = false /\ forall ct fuel w brk, ParseU16F ct fuel w (Some d) brk = ParseU16F ct fuel w None brk.
Proof. exact (C39_lemma p d ok). Qed.
Print Assumptions C39_no_index.
Example C39_case : exists d, DictOpen (NotATrie "some other file") = Ok (d, false).
Proof. eexists. vm_compute. reflexivity. Qed.
(** A reported failure with an index: the index stays in use without data, and
    looking up any stored word is undefined. *)
Lemma C39_lemma2 f d : DictOpen (ATrie f) = Ok (d, false) ->
  mTrie d = Some (fTrie f) /\ forall k i, holds d k i -> i <> TRIE_DATA_ERROR ->
    forall pos rest, matchGetData d (mkMatch pos k rest) = UB.
Proof.
  cbn [DictOpen]. destruct (ReadDataBank (fBytes f)) as [[b|]| | |]; cbn [bind]; intros H; try discriminate.
  injection H as <-. split; [reflexivity|]. intros k i Hk N pos rest. apply (holds_find _ (fTrie f)) in Hk; [|reflexivity].
  unfold matchGetData, trieGetData. cbn [mTrie mPre]. rewrite Hk. destruct (Z.eqb_spec i TRIE_DATA_ERROR) as [E|_]; [contradiction|].
  reflexivity.
Qed.
Theorem C39_failed_load_refuted f d : DictOpen (ATrie f) = Ok (d, false) ->
  mTrie d = Some (fTrie f) /\ forall k i, holds d k i -> i <> TRIE_DATA_ERROR ->
    forall pos rest, matchGetData d (mkMatch pos k rest) = UB.
Proof. exact (C39_lemma2 f d). Qed.
Print Assumptions C39_failed_load_refuted.
(** The generated dictionary cut off inside its data, and the parse of its
    word. *)
Definition cutFile : DictFile := mkDictFile [(letters "กา", 0)] (FileWriteInt32 8 ++ "k_A").
Theorem C39_parse_refuted : exists d, DictOpen (ATrie cutFile) = Ok (d, false) /\
  ParseU16F libthai_ct 100 (letters "กา") (Some d) [] = UB /\
  (exists g, ParseU16F libthai_ct 100 (letters "กา") None [] = Ok g).
Proof. eexists. split; [vm_compute; reflexivity|]. split; [vm_compute; reflexivity|]. eexists. vm_compute. reflexivity. Qed.
Print Assumptions C39_parse_refuted.
(** A size field with its top bit set makes loading throw. *)
Theorem C39_throw_refuted rest a b c d : 128 <= byteZ a ->
  DictOpen (NotATrie (String a (String b (String c (String d rest))))) = Throw.
Proof.
  intros H. cbn [DictOpen]. unfold ReadDataBank. cbn [ReadInt32].
  pose proof (byteZ_range a). pose proof (byteZ_range b). pose proof (byteZ_range c). pose proof (byteZ_range d).
  destruct (Z.ltb_spec (byteZ a * 16777216 + byteZ b * 65536 + byteZ c * 256 + byteZ d) 2147483648) as [X|X]; [lia|].
  match goal with |- context [?x <? 0] => destruct (Z.ltb_spec x 0) as [Y|Y] end; [reflexivity|lia].
Qed.
Print Assumptions C39_throw_refuted.

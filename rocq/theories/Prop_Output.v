(** Prop_Output.v - property theorems C19-C22: delimited, JSON, grouped JSON
    and romanized output. *)
From Coq Require Import String Ascii List ZArith NArith Bool Arith Lia.
From Verif Require Import Spec Base ThUni ThCons Syl OrderProofs Lattice LatticeProofs Dag PronDag DagProofs PathProofs GroupProofs GroupSyl
  Dict Utf UtfProofs SylOut ThaiOut Output Parser Wp ParserSpec ParserFacts ParserResult ParserListed
  ParserLiteral Prop_Syl Prop_Graph Prop_Parser Prop_Notation.
Import ListNotations.
Local Open Scope string_scope.

(** ** C19: delimited output *)
Definition isBlank (v : Syl) : Prop := spoken v = spoken Blank.
(** The words of a string: what stands between its blanks. *)
Inductive Words : SylString -> list SylString -> Prop :=
| W_last w : Forall (fun v => ~ isBlank v) w -> Words w [w]
| W_next w b s ws : Forall (fun v => ~ isBlank v) w -> isBlank b -> Words s ws ->
    Words (w ++ b :: s)%list (w :: ws).
Definition line (delim : ascii) (text : Syl -> string) (ws : list SylString) : string :=
  String.concat " " (map (fun w => String.concat (String delim "") (map text w)) ws).

Lemma blank_iff v : syl_eqb v Blank = true <-> isBlank v.
Proof. unfold isBlank. apply syl_eqb_spoken. Qed.
Lemma words_exist s : exists ws, Words s ws.
Proof.
  induction s as [|v s (ws & IH)]; [exists [[]]; constructor; constructor|].
  destruct (syl_eqb v Blank) eqn:E.
  - exists ([] :: ws). apply (W_next [] v s ws); [constructor|apply blank_iff; exact E|exact IH].
  - assert (N : ~ isBlank v) by (rewrite <- blank_iff; congruence).
    inversion IH as [x F Ex|w b s' ws' F B W Ex]; subst.
    + exists [v :: s]. apply W_last. constructor; auto.
    + exists ((v :: w) :: ws'). apply (W_next (v :: w) b s' ws'); auto.
Qed.
Definition renders (f : Syl -> Res string) (text : Syl -> string) (s : SylString) : Prop :=
  forall v, In v s -> ~ isBlank v -> f v = Ok (text v).
Lemma words_ne s ws : Words s ws -> ws <> [].
Proof. destruct 1; discriminate. Qed.
Lemma words_nonblank v s ws : ~ isBlank v -> Words (v :: s) ws ->
  exists w ws', ws = (v :: w) :: ws' /\ Words s (w :: ws').
Proof.
  intros N H. inversion H as [x F Ex|w b s' ws' F B W Ex]; subst.
  - inversion F; subst. exists s, []. split; [reflexivity|]. constructor. assumption.
  - destruct w as [|v' w]; cbn [app] in Ex; injection Ex as -> Ex.
    + contradiction.
    + subst s. inversion F; subst. exists w, ws'. split; [reflexivity|]. constructor; assumption.
Qed.
Lemma words_blank v s ws : isBlank v -> Words (v :: s) ws -> exists ws', ws = [] :: ws' /\ Words s ws'.
Proof.
  intros B H. inversion H as [x F Ex|w b s' ws' F B' W Ex]; subst.
  - inversion F; subst. contradiction.
  - destruct w as [|v' w]; cbn [app] in Ex; injection Ex as -> Ex.
    + subst. eauto.
    + inversion F; subst. contradiction.
Qed.
Lemma sapp_nil s : s ++ "" = s.
Proof. induction s as [|c s IH]; [reflexivity|]. cbn [String.append]. rewrite IH. reflexivity. Qed.
Lemma concat_cons sep x l : String.concat sep (x :: l) = match l with [] => x | _ => x ++ sep ++ String.concat sep l end.
Proof. destruct l; reflexivity. Qed.
Lemma delim_ok f delim text s : renders f text s -> forall ws b, Words s ws ->
  delimLoop f delim b s =
  Ok ((if b then "" else match ws with [] :: _ => "" | _ => String delim "" end) ++ line delim text ws).
Proof.
  induction s as [|v s IH]; intros R ws b W.
  - inversion W as [x F Ex|w b' s' ws' F B W' Ex]; subst.
    + destruct b; reflexivity.
    + destruct w; discriminate.
  - cbn [delimLoop]. assert (R' : renders f text s) by (intros x I; apply R; right; exact I).
    destruct (syl_eqb v Blank) eqn:B.
    + apply blank_iff in B. destruct (words_blank v s ws B W) as (ws' & -> & W').
      rewrite (IH R' ws' true W'). cbn [bind]. f_equal. unfold line. cbn [map]. rewrite concat_cons.
      pose proof (words_ne _ _ W') as N. destruct ws' as [|w ws']; [contradiction (N eq_refl)|]. cbn [map]. destruct b; reflexivity.
    + assert (N : ~ isBlank v) by (rewrite <- blank_iff; congruence).
      destruct (words_nonblank v s ws N W) as (w & ws' & -> & W').
      rewrite (R v (or_introl eq_refl) N). cbn [bind]. rewrite (IH R' _ false W'). cbn [bind]. f_equal.
      unfold line. cbn [map]. rewrite !concat_cons.
      destruct b; cbn [String.append]; [|f_equal]; destruct w as [|v' w], ws' as [|w' ws']; cbn [map String.concat String.append];
        rewrite ?sapp_assoc, ?sapp_nil; cbn [String.append]; reflexivity.
Qed.
Lemma C19_lemma f delim text s ws : renders f text s -> Words s ws ->
  delimOutputStr f delim s = Ok (line delim text ws).
Proof. intros R W. unfold delimOutputStr. rewrite (delim_ok f delim text s R ws true W). reflexivity. Qed.
Theorem C19_line_structure f delim text s ws : renders f text s -> Words s ws ->
  delimOutputStr f delim s = Ok (line delim text ws).
Proof. exact (C19_lemma f delim text s ws). Qed.
Print Assumptions C19_line_structure.
Lemma C19_lemma2 f delim text l wss : Forall (renders f text) l -> Forall2 Words l wss ->
  delimOutputList f delim l = Ok (String.concat "" (map (fun ws => line delim text ws ++ nl) wss)).
Proof.
  intros R W. unfold delimOutputList.
  assert (M : mapM (delimOutputStr f delim) l = Ok (map (line delim text) wss)).
  { induction W as [|s ws l wss W1 W2 IH]; [reflexivity|]. inversion R; subst. cbn [mapM map].
    rewrite (C19_lemma f delim text s ws) by assumption. cbn [bind]. rewrite IH by assumption. reflexivity. }
  rewrite M. cbn [bind]. rewrite map_map. reflexivity.
Qed.
Theorem C19_lines f delim text l wss : Forall (renders f text) l -> Forall2 Words l wss ->
  delimOutputList f delim l = Ok (String.concat "" (map (fun ws => line delim text ws ++ nl) wss)).
Proof. exact (C19_lemma2 f delim text l wss). Qed.
Print Assumptions C19_lines.
(** Every string has its words. *)
Theorem C19_words_exist s : exists ws, Words s ws.
Proof. exact (words_exist s). Qed.
Print Assumptions C19_words_exist.
Definition gA (i : EInitConsSound) : Syl := SylOf i SEC_NONE V_AA EC_NONE SAMAN (-1).
Definition textOf (f : Syl -> Res string) (v : Syl) : string := match f v with Ok t => t | _ => "" end.
Lemma notBlank v : iCons1 v <> ICS_INVALID -> literal v = [] -> ~ isBlank v.
Proof.
  intros N L. unfold isBlank, spoken. rewrite L. cbn. intros X. injection X. intros. congruence.
Qed.
Example C19_case : let s := [gA KA; gA TA; Blank; gA NA] in
  Words s [[gA KA; gA TA]; [gA NA]] /\ renders ThaiOutput (textOf ThaiOutput) s /\
  delimOutputStr ThaiOutput "-" s = Ok "กา-ตา นา".
Proof.
  cbv zeta. assert (G : forall i, i <> ICS_INVALID -> ~ isBlank (gA i)) by (intros; apply notBlank; auto).
  split; [|split; [|vm_compute; reflexivity]].
  - apply (W_next [gA KA; gA TA] Blank [gA NA] [[gA NA]]); [|reflexivity|apply W_last];
      repeat (apply Forall_cons; [apply G; discriminate|]); apply Forall_nil.
  - intros v I N. cbn in I. repeat destruct I as [<-|I]; try contradiction; try reflexivity.
Qed.

(** ** C20: JSON output *)
(** JSON restricted to strings and arrays, and a decoder: no white space (none
    is written), the one-letter escapes (not \u). *)
Inductive Json := JStr (s : string) | JArr (l : list Json).
Definition escChar (c : ascii) : option ascii :=
  let n := N_of_ascii c in
  if N.eqb n 34 then Some c else if N.eqb n 92 then Some c else if N.eqb n 47 then Some c
  else if N.eqb n 98 then Some (ascii_of_N 8) else if N.eqb n 102 then Some (ascii_of_N 12)
  else if N.eqb n 110 then Some (ascii_of_N 10) else if N.eqb n 114 then Some (ascii_of_N 13)
  else if N.eqb n 116 then Some (ascii_of_N 9) else None.
Definition isQuote (c : ascii) : bool := N.eqb (N_of_ascii c) 34.
Definition isBackslash (c : ascii) : bool := N.eqb (N_of_ascii c) 92.
Definition isControl (c : ascii) : bool := N.ltb (N_of_ascii c) 32.
(** After the opening quote: the text and what follows the closing quote. *)
Fixpoint jstr (s : string) : option (string * string) :=
  match s with
  | EmptyString => None
  | String c s' =>
      if isQuote c then Some (EmptyString, s')
      else if isBackslash c then
        match s' with
        | EmptyString => None
        | String e s'' =>
            match escChar e, jstr s'' with
            | Some x, Some (t, r) => Some (String x t, r)
            | _, _ => None
            end
        end
      else if isControl c then None
      else match jstr s' with Some (t, r) => Some (String c t, r) | None => None end
  end.
Fixpoint jval (fuel : nat) (s : string) : option (Json * string) :=
  match fuel with
  | O => None
  | S f =>
      match s with
      | String c s' =>
          if isQuote c then match jstr s' with Some (t, r) => Some (JStr t, r) | None => None end
          else if Ascii.eqb c "[" then
            match s' with
            | String c' r => if Ascii.eqb c' "]" then Some (JArr [], r)
                             else match jelems f s' with Some (l, r) => Some (JArr l, r) | None => None end
            | EmptyString => None
            end
          else None
      | EmptyString => None
      end
  end
with jelems (fuel : nat) (s : string) : option (list Json * string) :=
  match fuel with
  | O => None
  | S f =>
      match jval f s with
      | Some (v, String c r) =>
          if Ascii.eqb c "," then match jelems f r with Some (l, r') => Some (v :: l, r') | None => None end
          else if Ascii.eqb c "]" then Some ([v], r) else None
      | _ => None
      end
  end.
Definition decode (s : string) : option Json :=
  match jval (2 * String.length s) s with Some (v, EmptyString) => Some v | _ => None end.

(** Text that needs no escaping. *)
Definition plainChar (c : ascii) : bool := negb (isQuote c) && negb (isBackslash c) && negb (isControl c).
Fixpoint plain (s : string) : bool :=
  match s with EmptyString => true | String c s' => plainChar c && plain s' end.

Fixpoint enc (j : Json) : string :=
  match j with
  | JStr s => dquote ++ s ++ dquote
  | JArr l => "[" ++ String.concat "," (map enc l) ++ "]"
  end.
Fixpoint plainJ (j : Json) : bool :=
  match j with JStr s => plain s | JArr l => forallb plainJ l end.
Fixpoint need (j : Json) : nat :=
  match j with JStr _ => 1 | JArr l => S (list_sum (map (fun x => S (need x)) l)) end.
Lemma Json_ind' (P : Json -> Prop) : (forall s, P (JStr s)) -> (forall l, Forall P l -> P (JArr l)) -> forall j, P j.
Proof.
  intros HS HA. fix IH 1. intros [s|l]; [apply HS|]. apply HA.
  induction l as [|x l IHl]; constructor; [apply IH|exact IHl].
Qed.
Lemma jstr_plain s r : plain s = true -> jstr (s ++ dquote ++ r) = Some (s, r).
Proof.
  induction s as [|c s IH]; [reflexivity|]. cbn [plain]. unfold plainChar. rewrite !andb_true_iff, !negb_true_iff.
  intros (((Q & B) & C) & H). cbn [String.append jstr]. rewrite Q, B, C. cbn [String.append] in IH. rewrite (IH H). reflexivity.
Qed.
Lemma enc_first j : exists c s, enc j = String c s /\ Ascii.eqb c "]" = false.
Proof. destruct j; cbn [enc String.append]; eexists _, _; split; try reflexivity. Qed.
Lemma decode_val j : plainJ j = true -> forall fuel r, (need j <= fuel)%nat -> jval fuel (enc j ++ r) = Some (j, r).
Proof.
  induction j as [s|l IH] using Json_ind'; intros Pl fuel r L.
  - destruct fuel as [|f]; [cbn in L; lia|]. cbn [enc]. unfold dquote. cbn [String.append jval].
    change (isQuote (ascii_of_nat 34)) with true. cbn match. rewrite sapp_assoc.
    change (String (ascii_of_nat 34) "" ++ r) with (dquote ++ r). rewrite jstr_plain by exact Pl. reflexivity.
  - destruct fuel as [|f]; [cbn in L; lia|]. cbn [need] in L. cbn [enc].
    rewrite !sapp_assoc. cbn [String.append]. cbn [jval]. change (isQuote "[") with false. change (Ascii.eqb "[" "[") with true. cbn match.
    destruct l as [|x l]; [reflexivity|].
    assert (E : forall x l f, Forall (fun j => plainJ j = true -> forall fuel r, (need j <= fuel)%nat -> jval fuel (enc j ++ r) = Some (j, r)) (x :: l) ->
      forallb plainJ (x :: l) = true -> (list_sum (map (fun x => S (need x)) (x :: l)) <= f)%nat ->
      jelems f (String.concat "," (map enc (x :: l)) ++ "]" ++ r) = Some (x :: l, r)).
    { clear. intros x l. revert x. induction l as [|y l IHl]; intros x f F Pl L.
      - inversion F as [|? ? F1 F2]; subst. cbn [forallb] in Pl. rewrite andb_true_r in Pl.
        destruct f as [|f]; [cbn in L; lia|]. cbn [map String.concat jelems]. cbn [map list_sum fold_right] in L.
        rewrite F1 by (auto; lia). reflexivity.
      - inversion F as [|? ? F1 F2]; subst. cbn [forallb] in Pl. apply andb_true_iff in Pl. destruct Pl as (P1 & P2).
        destruct f as [|f]; [cbn in L; lia|]. change (map enc (x :: y :: l)) with (enc x :: map enc (y :: l)).
        rewrite concat_cons. cbn [map]. rewrite !sapp_assoc. cbn [jelems].
        change (map (fun x => S (need x)) (x :: y :: l)) with (S (need x) :: map (fun x => S (need x)) (y :: l)) in L.
        change (list_sum (S (need x) :: map (fun x => S (need x)) (y :: l))) with
          (S (need x) + list_sum (map (fun x => S (need x)) (y :: l)))%nat in L.
        rewrite F1 by (auto; lia). cbn [String.append]. change (Ascii.eqb "," ",") with true. cbn match.
        cbn [map] in IHl. cbn [String.append] in IHl. cbn [map] in L. rewrite (IHl y f); [reflexivity|exact F2|exact P2|lia]. }
    destruct (enc_first x) as (c & s & Ec & Nc).
    assert (H : exists s', String.concat "," (map enc (x :: l)) ++ "]" ++ r = String c s').
    { cbn [map]. rewrite concat_cons, Ec. destruct (map enc l); cbn [String.append]; eauto. }
    destruct H as (s' & H). cbn [String.append] in H. rewrite H, Nc, <- H. specialize (E x l f IH Pl ltac:(lia)).
    cbn [String.append] in E. rewrite E. reflexivity.
Qed.
Lemma slen_app a b : String.length (a ++ b) = (String.length a + String.length b)%nat.
Proof. induction a as [|c a IH]; [reflexivity|]. cbn [String.append String.length]. rewrite IH. reflexivity. Qed.
Lemma need_len j : (need j <= 2 * String.length (enc j))%nat.
Proof.
  induction j as [s|l IH] using Json_ind'.
  - cbn [enc need]. unfold dquote. rewrite !slen_app. cbn [String.length]. lia.
  - cbn [enc need]. rewrite !slen_app. cbn [String.length].
    assert (E : (list_sum (map (fun x => S (need x)) l) <= 2 * String.length (String.concat "," (map enc l)) + 1)%nat).
    { induction IH as [|x l H F IHl]; [cbn; lia|]. cbn [map]. rewrite concat_cons. 
      change (list_sum (S (need x) :: map (fun x => S (need x)) l)) with (S (need x) + list_sum (map (fun x => S (need x)) l))%nat.
      destruct l as [|y l]; [cbn; lia|]. change (map enc (y :: l)) with (enc y :: map enc l) in *.
      cbn match. rewrite !slen_app. change (String.length ",") with 1%nat. lia. }
    lia.
Qed.
Lemma decode_enc j : plainJ j = true -> decode (enc j) = Some j.
Proof.
  intros P. unfold decode. rewrite <- (sapp_nil (enc j)) at 2. rewrite decode_val; [reflexivity|exact P|apply need_len].
Qed.

(** What each level of the output is meant to say. *)
Definition jword (text : Syl -> string) (s : SylString) : Json := JArr (map (fun v => JStr (text v)) s).
Definition jlist (text : Syl -> string) (l : list SylString) : Json := JArr (map (jword text) l).
Definition jchain (text : Syl -> string) (c : PronunChain) : Json := JArr (map (fun f => jlist text (alts f)) c).
Definition jlatt (text : Syl -> string) (l : PronunLatt) : Json := JArr (map (jchain text) l).
(** The notation writes [text v] for [v], and that needs no escaping. *)
Definition saysPlain (f : Syl -> Res string) (text : Syl -> string) (v : Syl) : Prop :=
  f v = Ok (text v) /\ plain (text v) = true.

Lemma concat_tail x l : x ++ String.concat "" (map (fun y => "," ++ y) l) = String.concat "," (x :: l).
Proof.
  revert x. induction l as [|y l IH]; intros x; [apply sapp_nil|].
  cbn [map]. rewrite (concat_cons "," x), (concat_cons "" ("," ++ y)), <- (IH y). destruct (map (fun y0 => "," ++ y0) l) eqn:E.
  - cbn [String.concat]. rewrite sapp_nil. reflexivity.
  - rewrite !sapp_assoc. reflexivity.
Qed.
Lemma mapM_ok {A B} (f : A -> Res B) (g : A -> B) l : (forall a, In a l -> f a = Ok (g a)) -> mapM f l = Ok (map g l).
Proof.
  induction l as [|a l IH]; intros H; [reflexivity|]. cbn [mapM map]. rewrite (H a) by (left; reflexivity). cbn [bind].
  rewrite IH by (intros; apply H; right; assumption). reflexivity.
Qed.
Section JsonText.
Variable f : Syl -> Res string.
Variable text : Syl -> string.
Definition says (v : Syl) : Prop := f v = Ok (text v).
Lemma word_enc s : s <> [] -> Forall says s -> jsonOutputStr f s = Ok (enc (jword text s)).
Proof.
  intros N F. destruct s as [|x s]; [contradiction (N eq_refl)|]. inversion F as [|? ? Fx Fs]; subst. cbn [jsonOutputStr].
  rewrite Fx. cbn [bind]. rewrite (mapM_ok f text s).
  2:{ intros a I. rewrite Forall_forall in Fs. apply Fs. exact I. }
  cbn [bind]. f_equal. unfold jword. cbn [enc map]. rewrite <- concat_tail. rewrite !sapp_assoc, !map_map. reflexivity.
Qed.
Definition goodStr (s : SylString) : Prop := s <> [] /\ Forall says s.
Lemma words_enc l : Forall goodStr l -> mapM (jsonOutputStr f) l = Ok (map enc (map (jword text) l)).
Proof.
  intros F. rewrite Forall_forall in F. rewrite map_map. apply mapM_ok. intros s I. destruct (F s I).
  apply word_enc; assumption.
Qed.
Lemma list_enc l : l <> [] -> Forall goodStr l -> jsonOutputList f l = Ok (enc (jlist text l)).
Proof.
  intros N F. destruct l as [|x l]; [contradiction (N eq_refl)|]. inversion F as [|? ? (Nx & Fx) Fl]; subst.
  cbn [jsonOutputList]. rewrite (word_enc x Nx Fx). cbn [bind]. rewrite (words_enc l Fl). cbn [bind].
  f_equal. unfold jlist. cbn [enc map]. rewrite <- concat_tail. rewrite !sapp_assoc. reflexivity.
Qed.
Lemma latt_enc l : (forall c g s, In c l -> In g c -> In s (alts g) -> goodStr s) ->
  gjsonOutputLatt f l = Ok (enc (jlatt text l)).
Proof.
  intros F.
  assert (A : forall g, Forall goodStr (alts g) -> gjsonOutputFrac f g = Ok (enc (jlist text (alts g)))).
  { intros g G. unfold gjsonOutputFrac. rewrite (words_enc _ G). reflexivity. }
  assert (B : forall c, In c l -> gjsonOutputChain f c = Ok (enc (jchain text c))).
  { intros c Ic. unfold gjsonOutputChain. rewrite (mapM_ok _ (fun g => enc (jlist text (alts g)))).
    - cbn [bind]. unfold jchain. cbn [enc]. rewrite map_map. reflexivity.
    - intros g Ig. apply A. apply Forall_forall. intros s. apply (F c g s Ic Ig). }
  unfold gjsonOutputLatt. rewrite (mapM_ok _ (fun c => enc (jchain text c))) by exact B.
  cbn [bind]. unfold jlatt. cbn [enc]. rewrite map_map. reflexivity.
Qed.
End JsonText.
Lemma plain_arr {A} (g : A -> Json) l : (forall x, In x l -> plainJ (g x) = true) -> plainJ (JArr (map g l)) = true.
Proof.
  intros H. cbn [plainJ]. apply forallb_forall. intros j I. apply in_map_iff in I. destruct I as (x & <- & I). auto.
Qed.
Lemma plain_jlist text l : (forall s v, In s l -> In v s -> plain (text v) = true) -> plainJ (jlist text l) = true.
Proof. intros H. apply plain_arr. intros s Is. apply plain_arr. intros v Iv. exact (H s v Is Iv). Qed.
Lemma plain_jlatt text l : (forall c g s v, In c l -> In g c -> In s (alts g) -> In v s -> plain (text v) = true) ->
  plainJ (jlatt text l) = true.
Proof.
  intros H. apply plain_arr. intros c Ic. apply plain_arr. intros g Ig. apply plain_jlist. intros s v Is Iv.
  exact (H c g s v Ic Ig Is Iv).
Qed.
Lemma good_of f text s : s <> [] /\ Forall (saysPlain f text) s -> goodStr f text s.
Proof. intros (N & F). split; [exact N|]. rewrite Forall_forall in *. intros v I. apply (F v I). Qed.
Lemma C20_lemma f text l : l <> [] -> Forall (fun s => s <> [] /\ Forall (saysPlain f text) s) l ->
  exists out, jsonOutputList f l = Ok out /\ decode out = Some (jlist text l).
Proof.
  intros N F. rewrite Forall_forall in F. exists (enc (jlist text l)). split.
  - apply list_enc; [exact N|]. apply Forall_forall. intros s I. apply good_of. auto.
  - apply decode_enc, plain_jlist. intros s v Is Iv. destruct (F s Is) as (_ & G). rewrite Forall_forall in G. apply G, Iv.
Qed.
Theorem C20_flat_decodes f text l : l <> [] -> Forall (fun s => s <> [] /\ Forall (saysPlain f text) s) l ->
  exists out, jsonOutputList f l = Ok out /\ decode out = Some (jlist text l).
Proof. exact (C20_lemma f text l). Qed.
Print Assumptions C20_flat_decodes.
Lemma C20_lemma2 f text l :
  (forall c g s, In c l -> In g c -> In s (alts g) -> s <> [] /\ Forall (saysPlain f text) s) ->
  exists out, gjsonOutputLatt f l = Ok out /\ decode out = Some (jlatt text l).
Proof.
  intros H. exists (enc (jlatt text l)). split.
  - apply latt_enc. intros c g s Ic Ig Is. apply good_of. eauto.
  - apply decode_enc, plain_jlatt. intros c g s v Ic Ig Is Iv. destruct (H c g s Ic Ig Is) as (_ & G).
    rewrite Forall_forall in G. apply G, Iv.
Qed.
Theorem C20_grouped_decodes f text l :
  (forall c g s, In c l -> In g c -> In s (alts g) -> s <> [] /\ Forall (saysPlain f text) s) ->
  exists out, gjsonOutputLatt f l = Ok out /\ decode out = Some (jlatt text l).
Proof. exact (C20_lemma2 f text l). Qed.
Print Assumptions C20_grouped_decodes.

(** Plain text parses give plain notations. *)
Lemma plain_app a b : plain (a ++ b) = plain a && plain b.
Proof. induction a as [|c a IH]; [reflexivity|]. cbn [String.append plain]. rewrite IH, andb_assoc. reflexivity. Qed.
Lemma plain_tbl {K} (eqb : K -> K -> bool) tbl k : forallb (fun p : K * string => plain (snd p)) tbl = true ->
  Sat True (assocAt eqb tbl k) (fun t => plain t = true).
Proof.
  induction tbl as [|[x t] tbl IH]; intros H; [exact I|]. cbn [assocAt]. cbn [forallb] in H. apply andb_true_iff in H.
  destruct H as (H1 & H2). destruct (eqb _ _); [exact H1|apply IH; exact H2].
Qed.
Lemma plain_hilo k : Sat True (hiloCons1 k) (fun p => plain (fst p) = true /\ plain (snd p) = true).
Proof. destruct k; vm_compute; auto. Qed.
Lemma plain_dec n : forall z acc, (0 <= z)%Z -> plain acc = true -> plain (decLoop n z acc) = true.
Proof.
  induction n as [|n IH]; intros z acc Z P; [exact P|]. cbn [decLoop].
  assert (D : plain (String (digitChar (z mod 10)) acc) = true).
  { cbn [plain]. rewrite P, andb_true_r. pose proof (Z.mod_pos_bound z 10 ltac:(lia)) as B.
    assert (C : (z mod 10 = 0 \/ z mod 10 = 1 \/ z mod 10 = 2 \/ z mod 10 = 3 \/ z mod 10 = 4 \/
                z mod 10 = 5 \/ z mod 10 = 6 \/ z mod 10 = 7 \/ z mod 10 = 8 \/ z mod 10 = 9)%Z) by lia.
    repeat destruct C as [C|C]; rewrite C; reflexivity. }
  destruct (z <? 10)%Z; [exact D|]. apply IH; [apply Z.div_pos; lia|exact D].
Qed.
Lemma plain_to_string z : plain (to_string z) = true.
Proof.
  unfold to_string. destruct (z <? 0)%Z eqn:E; [apply Z.ltb_lt in E|apply Z.ltb_ge in E].
  - rewrite plain_app. rewrite plain_dec by (auto; lia). reflexivity.
  - apply plain_dec; auto.
Qed.
Ltac plain_go :=
  repeat first
    [ apply Sat_bind
    | eapply Sat_mono; [apply plain_tbl; vm_compute; reflexivity|intros ? _ ?]
    | eapply Sat_mono; [apply plain_hilo|intros ? _ [? ?]] ];
  cbn [Sat fst snd].
Lemma plain_sec p i : plain (fst p) = true -> plain (snd p) = true ->
  Sat True (withSec p i) (fun q => plain (fst q) = true /\ plain (snd q) = true).
Proof.
  intros A B. unfold withSec, secICons. plain_go. rewrite plain_app, A. auto.
Qed.
Definition plainPair (m : Res (string * string)) : Prop :=
  Sat True m (fun q => plain (fst q) = true /\ plain (snd q) = true).
Ltac pair_go t :=
  unfold plainPair; apply Sat_bind;
  eapply Sat_mono with (P := fun q => plain (fst q) = true /\ plain (snd q) = true);
  [|intros ? _ [? ?]; apply plain_sec; assumption];
  unfold midCons1, toneStr; destruct (isMidCons _); plain_go; try destruct (tone_eqb EK t); plain_go; auto;
  destruct t; cbn [fst snd]; auto.
Lemma plain_live i1 i2 t : plainPair (ThaiLiveIConsTonePair i1 i2 t).
Proof. unfold ThaiLiveIConsTonePair. pair_go t. Qed.
Lemma plain_ds i1 i2 t : plainPair (ThaiDeadShortIConsTonePair i1 i2 t).
Proof. unfold ThaiDeadShortIConsTonePair. pair_go t. Qed.
Lemma plain_dl i1 i2 t : plainPair (ThaiDeadLongIConsTonePair i1 i2 t).
Proof. unfold ThaiDeadLongIConsTonePair. pair_go t. Qed.
Lemma plain_pair b i1 i2 e t : plainPair (pairFor b i1 i2 e t).
Proof. unfold pairFor. destruct (IsDeadSyl b e), b; auto using plain_live, plain_ds, plain_dl. Qed.
Ltac thai_go :=
  repeat first
    [ match goal with |- Sat _ (bind _ _) _ => apply Sat_bind end
    | eapply Sat_mono; [apply plain_live|intros ? _ [? ?]]
    | eapply Sat_mono; [apply plain_ds|intros ? _ [? ?]]
    | eapply Sat_mono; [apply plain_dl|intros ? _ [? ?]]
    | eapply Sat_mono; [apply plain_pair|intros ? _ [? ?]]
    | eapply Sat_mono; [apply plain_tbl; vm_compute; reflexivity|intros ? _ ?]
    | match goal with |- context [if ?b then _ else _] => destruct b end ];
  cbn [Sat fst snd]; cbv beta in *; rewrite ?plain_app;
  repeat match goal with H : plain _ = true |- _ => rewrite H; clear H end; try reflexivity.
Lemma plain_thai s : literal s = [] -> Sat True (ThaiOutput s) (fun t => plain t = true).
Proof.
  intros L. unfold ThaiOutput, isLiteral. rewrite L.
  unfold ThaiSylA, ThaiSylAA, ThaiSylBelowAbove, ThaiSylUEE, ThaiSylLeadShort, ThaiSylLeadLong, ThaiSylO, ThaiSylIA,
    ThaiSylUEA, ThaiSylUA, ThaiSylAU, ThaiSylOE, endConsStr. cbn zeta.
  thai_go.
Qed.

(** Code units that need no escaping. *)
Definition plainUnit (c : N) : Prop := (c <> 34 /\ c <> 92 /\ 32 <= c)%N.
Lemma plain_byte n : (n < 256)%N -> (plainChar (byte n) = true <-> plainUnit n).
Proof.
  intros L. unfold plainChar, isQuote, isBackslash, isControl, plainUnit. rewrite byteN by exact L.
  rewrite !andb_true_iff, !negb_true_iff, !N.eqb_neq, N.ltb_ge. tauto.
Qed.
Lemma plain_list l : plain (string_of_list_ascii l) = forallb plainChar l.
Proof. induction l as [|c l IH]; [reflexivity|]. cbn [string_of_list_ascii plain forallb]. rewrite IH. reflexivity. Qed.
Lemma high_byte n : (128 <= n < 256)%N -> plainChar (byte n) = true.
Proof. intros H. apply plain_byte; [lia|]. unfold plainUnit. lia. Qed.
Lemma plain_cp c : scalar c -> (forallb plainChar (utf8EncodeCp c) = true <-> plainUnit c).
Proof.
  intros S. unfold scalar in S. unfold utf8EncodeCp.
  destruct (N.ltb_spec c 0x80) as [H1|H1].
  { cbn [forallb]. rewrite andb_true_r. apply plain_byte. lia. }
  assert (U : plainUnit c) by (unfold plainUnit; lia). split; [auto|]. intros _.
  assert (M : forall x, (x mod 64 < 64)%N) by (intros; apply N.mod_lt; lia).
  assert (C : forall x, plainChar (byte (128 + x mod 64)) = true) by (intros x; apply high_byte; pose proof (M x) as Mx; revert Mx; generalize (x mod 64)%N; intros; lia).
  destruct (N.ltb_spec c 0x800) as [H2|H2]; [|destruct (N.ltb_spec c 0x10000) as [H3|H3]]; cbn [forallb]; rewrite !C, ?andb_true_r;
    apply high_byte.
  - assert (H : (c / 64 < 32)%N) by (apply N.div_lt_upper_bound; lia). revert H; generalize (c / 64)%N (c / 4096)%N (c / 262144)%N; intros; lia.
  - assert (H : (c / 4096 < 16)%N) by (apply N.div_lt_upper_bound; lia). revert H; generalize (c / 64)%N (c / 4096)%N (c / 262144)%N; intros; lia.
  - assert (H : (c / 262144 < 5)%N) by (apply N.div_lt_upper_bound; lia). revert H; generalize (c / 64)%N (c / 4096)%N (c / 262144)%N; intros; lia.
Qed.
Lemma plain_cps cps : Forall scalar cps -> (plain (utf8Encode cps) = true <-> Forall plainUnit cps).
Proof.
  intros S. unfold utf8Encode. rewrite plain_list. induction S as [|c cps Sc S IH]; [split; [constructor|reflexivity]|].
  cbn [flat_map]. rewrite forallb_app, andb_true_iff, plain_cp by exact Sc. rewrite IH. split.
  - intros (A & B). constructor; auto.
  - intros F. inversion F; auto.
Qed.
Lemma plain_units cps : Forall scalar cps -> (Forall plainUnit cps <-> Forall plainUnit (utf16Encode cps)).
Proof.
  induction 1 as [|c cps Sc S IH]; [split; constructor|].
  change (utf16Encode (c :: cps)) with (utf16EncodeCp c ++ utf16Encode cps)%list. rewrite Forall_app, <- IH.
  assert (E : plainUnit c <-> Forall plainUnit (utf16EncodeCp c)).
  { unfold utf16EncodeCp. destruct (N.ltb_spec c 0x10000) as [H|H].
    - split; [intros U; apply Forall_cons; [exact U|constructor]|intros F; inversion F; auto].
    - split; [|intros _; unfold plainUnit; lia]. intros _. repeat apply Forall_cons; [| |constructor]; unfold plainUnit;
        generalize ((c - 65536) / 1024)%N ((c - 65536) mod 1024)%N; intros; lia. }
  rewrite <- E. split; [intros F; inversion F; auto|intros (A & B); constructor; auto].
Qed.
(** A text is plain if and only if its code units are. *)
Lemma plain_text bytes w : from_bytes bytes = Ok w -> (plain bytes = true <-> Forall plainUnit w).
Proof.
  unfold from_bytes, utf8Decode. destruct (utf8DecodeL _) as [cps| | |] eqn:E; cbn [bind]; try discriminate.
  intros H. injection H as <-. destruct (dec8_sound _ _ E) as (S & R). rewrite <- plain_units, <- plain_cps by exact S.
  unfold utf8Encode. change (flat_map utf8EncodeCp cps) with (enc8 cps). rewrite R, string_of_list_ascii_of_string. tauto.
Qed.
Lemma plain_notation f v : In f notations -> literal v = [] -> Sat True (f v) (fun t => plain t = true).
Proof.
  intros I L. cbn in I. repeat destruct I as [<-|I]; try contradiction; [| | | |apply plain_thai; exact L];
    unfold RawOutput, PhoneticOutput, RomanSylOutput, SoundexOutput, isLiteral; rewrite L;
    (destruct (syl_eqb v Blank); [reflexivity|]); plain_go; cbv beta in *; rewrite ?plain_app, ?plain_to_string;
    repeat match goal with H : plain _ = true |- _ => rewrite H; clear H end; reflexivity.
Qed.
Lemma plain_literal f v t : In f notations -> literal v <> [] -> to_bytes (literal v) = Ok t -> plain t = true ->
  Sat True (f v) (fun t => plain t = true).
Proof.
  intros I N T P.
  assert (B : syl_eqb v Blank = false).
  { destruct (syl_eqb v Blank) eqn:E; [|reflexivity]. apply blank_iff in E. unfold isBlank, spoken in E.
    destruct (literal v); [contradiction (N eq_refl)|]. discriminate E. }
  assert (O : outputLiteral (literal v) = Ok ("(" ++ t ++ ")")) by (unfold outputLiteral; rewrite T; reflexivity).
  assert (L : isLiteral v = true) by (unfold isLiteral; destruct (literal v); [contradiction (N eq_refl)|reflexivity]).
  cbn in I. repeat destruct I as [<-|I]; try contradiction;
    unfold RawOutput, PhoneticOutput, RomanSylOutput, SoundexOutput, ThaiOutput; rewrite ?B, L, O; cbn [bind Sat];
    rewrite !plain_app, ?plain_to_string, P; reflexivity.
Qed.
Lemma text_incl w b e c : In c (text w b e) -> In c w.
Proof.
  unfold text. intros I. assert (J : In c (skipn b w)) by (rewrite <- (firstn_skipn (e - b) (skipn b w)); apply in_or_app; auto).
  rewrite <- (firstn_skipn b w). apply in_or_app. auto.
Qed.
(** Parsing a plain text: every notation of every syllable is plain. *)
Lemma parse_plain ct bytes w dict brk l f s v : ctype_ok ct -> dictOKo dict -> plain bytes = true ->
  from_bytes bytes = Ok w -> pronounced ct w dict brk l -> In f notations -> In s l -> In v s ->
  saysPlain f (textOf f) v.
Proof.
  intros C D Pb B P If Is Iv.
  pose proof (C15_lemma2 ct bytes w dict brk l s v C D B P Is Iv) as W. rewrite Forall_forall in W.
  destruct (W f If) as (t & E & _). unfold saysPlain, textOf. rewrite E. split; [reflexivity|].
  assert (S : Sat True (f v) (fun t => plain t = true)); [|rewrite E in S; exact S].
  destruct (literal v) as [|x lv] eqn:El; [apply plain_notation; assumption|].
  assert (N : literal v <> []) by (rewrite El; discriminate).
  destruct (C44_lemma2 ct bytes w dict brk l s v C D B P Is Iv N) as (u & U1 & U2 & _).
  apply (plain_literal f v u If N U1). apply (plain_text u (literal v) U2).
  pose proof Iv as Iv'. apply in_split in Iv'. destruct Iv' as (s1 & s2 & Es).
  assert (O : occurs l (startPos s1) (endPos v) v) by (exists s1, s2; subst s; auto).
  destruct (proj1 (occurs_literal ct w dict brk D C l _ _ v P O) N) as (b & e & _ & _ & T & _).
  pose proof (proj1 (plain_text bytes w B) Pb) as F. rewrite Forall_forall in *. intros c Ic. apply F.
  rewrite T in Ic. apply (text_incl w b e). exact Ic.
Qed.

Lemma flat_good ct w dict brk fuel d : dictOKo dict -> ParseU16F ct fuel w dict brk = Ok d ->
  exists l, DAGSylStrings d 0 = Ok l /\ pronounced ct w dict brk l /\ (forall s, In s l -> s <> []) /\
    (forall f t v, InE d f t v -> exists s, In s l /\ In v s).
Proof.
  intros D E. destruct (C25_full_cover ct w dict brk fuel d D E) as (l & El & Wp & Oc). exists l.
  split; [exact El|]. split; [exists fuel, d; auto|]. split; [intros s I; apply (Wp s I)|].
  intros f t v H. apply Oc in H. destruct H as (s1 & s2 & I & _). exists (s1 ++ v :: s2)%list. split; [exact I|].
  apply in_or_app. right; left; reflexivity.
Qed.
Lemma C20_lemma3 ct bytes w dict brk fuel d f : ctype_ok ct -> dictOKo dict -> In f notations ->
  from_bytes bytes = Ok w -> plain bytes = true -> ParseU16F ct fuel w dict brk = Ok d ->
  exists flat latt, DAGSylStrings d 0 = Ok flat /\ grouped d = Ok latt /\
    (flat <> [] -> exists out, jsonOutputDAG f d = Ok out /\ decode out = Some (jlist (textOf f) flat)) /\
    (exists out, gjsonOutputDAG f d = Ok out /\ decode out = Some (jlatt (textOf f) latt)).
Proof.
  intros C D If B Pb E. destruct (flat_good ct w dict brk fuel d D E) as (l & El & P & Ne & Ed).
  assert (G : forall x y v, InE d x y v -> saysPlain f (textOf f) v).
  { intros x y v H. destruct (Ed x y v H) as (s & Is & Iv). exact (parse_plain ct bytes w dict brk l f s v C D Pb B P If Is Iv). }
  destruct (C26_acyclic_rooted ct w dict brk fuel d D E) as (A & _ & _).
  destruct (grouped_good _ d A G) as (fd & latt & E1 & E2 & H).
  exists l, latt. split; [exact El|]. split; [unfold grouped; rewrite E1; exact E2|]. split.
  - intros N. unfold jsonOutputDAG. rewrite El. cbn [bind]. apply C20_lemma; [exact N|]. apply Forall_forall. intros s Is.
    split; [apply Ne; exact Is|]. apply Forall_forall. intros v Iv.
    exact (parse_plain ct bytes w dict brk l f s v C D Pb B P If Is Iv).
  - unfold gjsonOutputDAG. rewrite E1. cbn [bind]. rewrite E2. cbn [bind]. apply C20_lemma2.
    intros c g s Ic Ig Is. destruct (H c Ic) as (_ & F). rewrite Forall_forall in F. destruct (F g Ig) as ((_ & N) & Q).
    unfold fracP in Q. rewrite Forall_forall in N, Q. auto.
Qed.
Theorem C20_parse_decodes ct bytes w dict brk fuel d f : ctype_ok ct -> dictOKo dict -> In f notations ->
  from_bytes bytes = Ok w -> plain bytes = true -> ParseU16F ct fuel w dict brk = Ok d ->
  exists flat latt, DAGSylStrings d 0 = Ok flat /\ grouped d = Ok latt /\
    (flat <> [] -> exists out, jsonOutputDAG f d = Ok out /\ decode out = Some (jlist (textOf f) flat)) /\
    (exists out, gjsonOutputDAG f d = Ok out /\ decode out = Some (jlatt (textOf f) latt)).
Proof. exact (C20_lemma3 ct bytes w dict brk fuel d f). Qed.
Print Assumptions C20_parse_decodes.
(** Parsing and writing in one go, for examples. *)
Definition jsonOf (f : Syl -> Res string) (s : string) : Res string :=
  (d <- ParseU16F libthai_ct 500 (letters s) None [] ;; jsonOutputDAG f d)%res.
Definition gjsonOf (f : Syl -> Res string) (s : string) : Res string :=
  (d <- ParseU16F libthai_ct 500 (letters s) None [] ;; gjsonOutputDAG f d)%res.
Definition bslash : string := String (ascii_of_nat 92) "".
Example C20_case : plain "ภูมิ a" = true /\ from_bytes "ภูมิ a" = Ok (letters "ภูมิ a") /\
  (exists out, jsonOf ThaiOutput "ภูมิ a" = Ok out /\
     decode out = Some (JArr [JArr [JStr "พูม"; JStr "มิ"; JStr "( a)"]; JArr [JStr "พู"; JStr "มิ"; JStr "( a)"]])) /\
  (exists out, gjsonOf ThaiOutput "ภูมิ a" = Ok out /\ decode out <> None).
Proof. vm_compute. repeat split; eexists; split; reflexivity || discriminate. Qed.
(** A quotation mark in the text ends the string early, and a backslash
    changes the letter after it. *)
Theorem C20_escapes_refuted :
  (exists l out, listing None [] ("a" ++ dquote) = Ok l /\ jsonOf ThaiOutput ("a" ++ dquote) = Ok out /\
     l = [[SylLiteral 2 (letters ("a" ++ dquote))]] /\ decode out = None) /\
  (exists l out, listing None [] (bslash ++ "n") = Ok l /\ jsonOf ThaiOutput (bslash ++ "n") = Ok out /\
     l = [[SylLiteral 2 (letters (bslash ++ "n"))]] /\
     decode out = Some (JArr [JArr [JStr ("(" ++ nl ++ ")")]])).
Proof. split; eexists _, _; vm_compute; repeat split. Qed.
Print Assumptions C20_escapes_refuted.

(** ** C21: JSON output of an empty result *)
(** In terms of the graph: defined when there is a pronunciation, undefined
    behaviour when there is none. *)
Lemma C21_lemma d f : Acyclic d -> (forall x y v, InE d x y v -> exists t, f v = Ok t) ->
  exists l, DAGSylStrings d 0 = Ok l /\
    (l <> [] -> exists out, jsonOutputDAG f d = Ok out) /\ (l = [] -> jsonOutputDAG f d = UB).
Proof.
  intros A T. destruct (DAGSylStrings_spec d 0 A) as (paths & _ & E & C).
  exists (map (map edgeVal) paths). split; [exact E|]. unfold jsonOutputDAG. rewrite E. cbn [bind]. split.
  - intros N. exists (enc (jlist (textOf f) (map (map edgeVal) paths))). apply list_enc; [exact N|].
    apply Forall_forall. intros s Is. apply in_map_iff in Is. destruct Is as (p & <- & Ip). apply C in Ip.
    destruct Ip as (Np & m & Pa & _). split; [destruct p; [contradiction (Np eq_refl)|discriminate]|].
    clear - Pa T. induction Pa as [|n e p m Ie H IH]; [constructor|]. cbn [map]. constructor; [|exact IH].
    destruct (T n (target e) (edgeVal e)) as (t & Et); [apply out_InE; exact Ie|]. unfold says, textOf. rewrite Et. reflexivity.
  - intros X. rewrite X. reflexivity.
Qed.
Theorem C21_flat_defined_iff d f : Acyclic d -> (forall x y v, InE d x y v -> exists t, f v = Ok t) ->
  exists l, DAGSylStrings d 0 = Ok l /\
    (l <> [] -> exists out, jsonOutputDAG f d = Ok out) /\ (l = [] -> jsonOutputDAG f d = UB).
Proof. exact (C21_lemma d f). Qed.
Print Assumptions C21_flat_defined_iff.
Lemma den_exists c : Forall (fun g => alts g <> []) c -> exists s, ChainDen c s.
Proof.
  induction 1 as [|g c N F (s & IH)]; [exists []; constructor|]. destruct (alts g) as [|a l] eqn:E; [contradiction (N eq_refl)|].
  exists (a ++ s)%list. constructor; [rewrite E; left; reflexivity|exact IH].
Qed.
Lemma C21_lemma2 d f : Acyclic d -> (forall x v, ~ InE d x 0 v) -> (forall x y v, InE d x y v -> exists t, f v = Ok t) ->
  exists l out, DAGSylStrings d 0 = Ok l /\ gjsonOutputDAG f d = Ok out /\ (l = [] <-> out = "[]").
Proof.
  intros A R T.
  destruct (grouped_good (fun v => exists t, f v = Ok t) d A T) as (fd & latt & E1 & E2 & H).
  destruct (C11_lemma d A R) as (latt' & flat & G & El & Q).
  unfold grouped in G. rewrite E1 in G. cbv beta iota delta [bind] in G. rewrite E2 in G. injection G as <-.
  exists flat, (enc (jlatt (textOf f) latt)). split; [exact El|]. split.
  - unfold gjsonOutputDAG. rewrite E1. cbn [bind]. rewrite E2. cbn [bind]. apply latt_enc. intros c g s Ic Ig Is.
    destruct (H c Ic) as (_ & F). rewrite Forall_forall in F. destruct (F g Ig) as ((_ & N) & X). unfold fracP in X.
    rewrite Forall_forall in N, X. split; [apply N; exact Is|]. specialize (X s Is). rewrite Forall_forall in *.
    intros v Iv. destruct (X v Iv) as (t & Et). unfold says, textOf. rewrite Et. reflexivity.
  - assert (L : latt = [] <-> flat = []).
    { split; intros ->.
      - destruct flat as [|s flat]; [reflexivity|]. exfalso. destruct (proj2 (Q s)) as (c & [] & _).
        exists s. split; [left; reflexivity|]. apply str_eqb_spoken. reflexivity.
      - destruct latt as [|c latt]; [reflexivity|]. exfalso. destruct (H c (or_introl eq_refl)) as (_ & F).
        destruct (den_exists c) as (s & Ds).
        { rewrite Forall_forall in *. intros g Ig. apply (F g Ig). }
        destruct (proj1 (Q s)) as (s' & [] & _). exists c. split; [left; reflexivity|]. exists s. split; [exact Ds|].
        apply str_eqb_spoken. reflexivity. }
    rewrite <- L. split; [intros ->; reflexivity|]. intros O. destruct latt as [|c latt]; [reflexivity|exfalso].
    unfold jlatt in O. cbn [enc map] in O. rewrite concat_cons in O. cbn [String.append enc jchain] in O.
    destruct (map enc (map (jchain (textOf f)) latt)); discriminate O.
Qed.
Theorem C21_grouped_defined d f : Acyclic d -> (forall x v, ~ InE d x 0 v) ->
  (forall x y v, InE d x y v -> exists t, f v = Ok t) ->
  exists l out, DAGSylStrings d 0 = Ok l /\ gjsonOutputDAG f d = Ok out /\ (l = [] <-> out = "[]").
Proof. exact (C21_lemma2 d f). Qed.
Print Assumptions C21_grouped_defined.
(** For parses of any valid text: *)
Lemma C21_lemma3 ct bytes w dict brk fuel d f : ctype_ok ct -> dictOKo dict -> In f notations ->
  from_bytes bytes = Ok w -> ParseU16F ct fuel w dict brk = Ok d ->
  exists l out, DAGSylStrings d 0 = Ok l /\ (l <> [] -> exists out, jsonOutputDAG f d = Ok out) /\
    (l = [] -> jsonOutputDAG f d = UB) /\ gjsonOutputDAG f d = Ok out /\ (l = [] <-> out = "[]").
Proof.
  intros C D If B E. destruct (flat_good ct w dict brk fuel d D E) as (l & El & P & _ & Ed).
  assert (T : forall x y v, InE d x y v -> exists t, f v = Ok t).
  { intros x y v H. destruct (Ed x y v H) as (s & Is & Iv).
    pose proof (C15_lemma2 ct bytes w dict brk l s v C D B P Is Iv) as W. rewrite Forall_forall in W.
    destruct (W f If) as (t & Et & _). exists t. exact Et. }
  destruct (C26_acyclic_rooted ct w dict brk fuel d D E) as (A & R & _).
  destruct (C21_lemma d f A T) as (l1 & E1 & X & Y). destruct (C21_lemma2 d f A R T) as (l2 & out & E2 & G & Z).
  rewrite El in E1, E2. injection E1 as <-. injection E2 as <-. exists l, out. auto.
Qed.
Theorem C21_parse_json ct bytes w dict brk fuel d f : ctype_ok ct -> dictOKo dict -> In f notations ->
  from_bytes bytes = Ok w -> ParseU16F ct fuel w dict brk = Ok d ->
  exists l out, DAGSylStrings d 0 = Ok l /\ (l <> [] -> exists out, jsonOutputDAG f d = Ok out) /\
    (l = [] -> jsonOutputDAG f d = UB) /\ gjsonOutputDAG f d = Ok out /\ (l = [] <-> out = "[]").
Proof. exact (C21_lemma3 ct bytes w dict brk fuel d f). Qed.
Print Assumptions C21_parse_json.
Theorem C21_empty_refuted :
  listing None [] "กิย" = Ok [] /\ jsonOf ThaiOutput "กิย" = UB /\ gjsonOf ThaiOutput "กิย" = Ok "[]" /\
  jsonOf ThaiOutput "" = UB /\ gjsonOf ThaiOutput "" = Ok "[]".
Proof. vm_compute. repeat split. Qed.
Print Assumptions C21_empty_refuted.
Example C21_case : Acyclic sample /\ (forall x v, ~ InE sample x 0 v) /\
  (forall x y v, InE sample x y v -> exists t, ThaiOutput v = Ok t).
Proof.
  split; [apply sample_acyclic|]. split; [apply sample_start|]. intros x y v H. vm_compute in H.
  repeat (destruct H as [H|H]; [injection H as <- <- <-; eexists; vm_compute; reflexivity|]). destruct H.
Qed.

(** ** C22: hyphens of the romanization *)
(** The Royal Institute rule: a hyphen before a syllable starting with a
    vowel, and between a syllable without ending and one starting with ng. *)
Definition needHyphen (a b : Syl) : Prop := iCons1 b = ICS_A \/ eCons a = EC_NONE /\ iCons1 b = NGA.
Inductive Hyphenated (text : Syl -> string) : SylString -> string -> Prop :=
| H_last v : Hyphenated text [v] (text v)
| H_hyphen a b s o : needHyphen a b -> Hyphenated text (b :: s) o -> Hyphenated text (a :: b :: s) (text a ++ "-" ++ o)
| H_plain a b s o : ~ needHyphen a b -> Hyphenated text (b :: s) o -> Hyphenated text (a :: b :: s) (text a ++ o).
Lemma need_iff a b : ics_eqb ICS_A (iCons1 b) || (ec_eqb EC_NONE (eCons a) && ics_eqb NGA (iCons1 b)) = true <-> needHyphen a b.
Proof.
  unfold needHyphen. rewrite orb_true_iff, andb_true_iff, !ics_eqb_eq, ec_eqb_eq. intuition congruence.
Qed.
(** After a blank no hyphen is written any more. *)
Lemma roman_begin text prev s : renders RomanSylOutput text s ->
  romanLoop true prev s = Ok (String.concat "" (map (fun v => if syl_eqb v Blank then " " else text v) s)).
Proof.
  revert prev. induction s as [|v s IH]; intros prev R; [reflexivity|]. cbn [romanLoop map].
  assert (R' : renders RomanSylOutput text s) by (intros x I; apply R; right; exact I).
  assert (X : forall a l, String.concat "" (a :: l) = a ++ String.concat "" l).
  { intros a [|y l]; [cbn [String.concat]; rewrite sapp_nil; reflexivity|reflexivity]. }
  rewrite X. destruct (syl_eqb v Blank) eqn:B.
  - rewrite (IH v R'). reflexivity.
  - rewrite (R v (or_introl eq_refl)) by (rewrite <- blank_iff; congruence). cbn [bind negb andb].
    rewrite (IH v R'). reflexivity.
Qed.
Lemma roman_words text a w rest out : renders RomanSylOutput text (w ++ rest)%list ->
  Forall (fun v => ~ isBlank v) w -> Hyphenated text (a :: w) out ->
  (rest = [] \/ exists b r, rest = b :: r /\ isBlank b) ->
  exists o, out = text a ++ o /\
    romanLoop false a (w ++ rest)%list =
    Ok (o ++ String.concat "" (map (fun v => if syl_eqb v Blank then " " else text v) rest)).
Proof.
  revert a out. induction w as [|b w IH]; intros a out R F H D.
  - inversion H; subst. exists "". split; [rewrite sapp_nil; reflexivity|]. cbn [app] in *. destruct D as [-> | (b & r & -> & B)]; [reflexivity|].
    cbn [romanLoop map]. pose proof (proj2 (blank_iff b) B) as Bb. rewrite Bb.
    rewrite (roman_begin text b r) by (intros x I; apply R; right; exact I).
    cbn [bind String.append]. f_equal. destruct (map _ r) eqn:Em; reflexivity.
  - inversion F as [|? ? Fb Fw]; subst. cbn [app romanLoop].
    assert (Bb : syl_eqb b Blank = false) by (destruct (syl_eqb b Blank) eqn:Eb; [apply blank_iff in Eb; contradiction|reflexivity]).
    rewrite Bb. rewrite (R b) by (auto; left; reflexivity). cbn [bind].
    assert (R' : renders RomanSylOutput text (w ++ rest)%list) by (intros x I; apply R; right; exact I).
    cbn [negb andb].
    inversion H as [|? ? ? o' Nh H'|? ? ? o' Nh H']; subst;
      destruct (IH b o' R' Fw H' D) as (o & -> & E); rewrite E; cbn [bind].
    + rewrite (proj2 (need_iff a b) Nh). exists ("-" ++ text b ++ o). split; [reflexivity|]. rewrite !sapp_assoc. reflexivity.
    + destruct (_ || _) eqn:Q; [apply need_iff in Q; contradiction|]. exists (text b ++ o). split; [reflexivity|].
      rewrite !sapp_assoc. reflexivity.
Qed.
(** A capitalized word has its first letter in upper case. *)
Definition upper (c : ascii) : ascii :=
  let n := nat_of_ascii c in (if (97 <=? n) && (n <=? 122) then ascii_of_nat (n - 32) else c)%nat.
Lemma upper_ok c : toupper c = upper c.
Proof. destruct c as [[] [] [] [] [] [] [] []]; reflexivity. Qed.
Definition capitalized (cap : bool) (s : string) : string :=
  match s with EmptyString => s | String c s' => if cap then String (upper c) s' else s end.
(** Every non-empty string is a first syllable, syllables up to the first
    blank after it, and the rest. *)
Lemma C22_lemma cap text x w rest out :
  RomanSylOutput x = Ok (text x) -> text x <> "" -> renders RomanSylOutput text (w ++ rest)%list ->
  Forall (fun v => ~ isBlank v) w -> Hyphenated text (x :: w) out ->
  (rest = [] \/ exists b r, rest = b :: r /\ isBlank b) ->
  romanOutputStr cap (x :: w ++ rest)%list =
  Ok (capitalized cap out ++ String.concat "" (map (fun v => if syl_eqb v Blank then " " else text v) rest)).
Proof.
  intros X N R F H D. cbn [romanOutputStr]. rewrite X. cbn [bind].
  destruct (roman_words text x w rest out R F H D) as (o & -> & E). rewrite E. cbn [bind]. f_equal. rewrite <- sapp_assoc. f_equal.
  destruct (text x) as [|c t]; [contradiction (N eq_refl)|]. cbn [String.append capitalized capFirst].
  rewrite upper_ok. destruct cap; reflexivity.
Qed.
Theorem C22_hyphens cap text x w rest out :
  RomanSylOutput x = Ok (text x) -> text x <> "" -> renders RomanSylOutput text (w ++ rest)%list ->
  Forall (fun v => ~ isBlank v) w -> Hyphenated text (x :: w) out ->
  (rest = [] \/ exists b r, rest = b :: r /\ isBlank b) ->
  romanOutputStr cap (x :: w ++ rest)%list =
  Ok (capitalized cap out ++ String.concat "" (map (fun v => if syl_eqb v Blank then " " else text v) rest)).
Proof. exact (C22_lemma cap text x w rest out). Qed.
Print Assumptions C22_hyphens.
(** Every string has a hyphenation, and only one. *)
Lemma C22_lemma2 text s : s <> [] -> exists! o, Hyphenated text s o.
Proof.
  induction s as [|a s IH]; intros N; [contradiction (N eq_refl)|]. destruct s as [|b s].
  - exists (text a). split; [constructor|]. intros o H. inversion H; reflexivity.
  - destruct (IH ltac:(discriminate)) as (o & Ho & U).
    destruct (ics_eqb ICS_A (iCons1 b) || (ec_eqb EC_NONE (eCons a) && ics_eqb NGA (iCons1 b))) eqn:Q.
    + apply need_iff in Q. exists (text a ++ "-" ++ o). split; [constructor; assumption|]. intros o2 H.
      inversion H; subst; [|contradiction]. f_equal. f_equal. apply U. assumption.
    + assert (Q' : ~ needHyphen a b) by (rewrite <- need_iff; congruence).
      exists (text a ++ o). split; [apply H_plain; assumption|]. intros o2 H.
      inversion H; subst; [contradiction|]. f_equal. apply U. assumption.
Qed.
Theorem C22_hyphenation_unique text s : s <> [] -> exists! o, Hyphenated text s o.
Proof. exact (C22_lemma2 text s). Qed.
Print Assumptions C22_hyphenation_unique.
Example C22_case : let s := [gA KA; gA NGA; gA ICS_A; gA KA] in
  Hyphenated (textOf RomanSylOutput) s "ka-nga-aka" /\ romanOutputStr true s = Ok "Ka-nga-aka".
Proof.
  cbv zeta. split; [|vm_compute; reflexivity].
  change "ka-nga-aka" with (textOf RomanSylOutput (gA KA) ++ "-" ++ (textOf RomanSylOutput (gA NGA) ++ "-" ++
    (textOf RomanSylOutput (gA ICS_A) ++ textOf RomanSylOutput (gA KA)))).
  apply H_hyphen; [right; split; reflexivity|]. apply H_hyphen; [left; reflexivity|].
  apply H_plain; [intros [X|(_ & X)]; discriminate X|]. apply H_last.
Qed.
(** In the second word the hyphen is missing; a string that starts with a
    blank gets one where the word begins. *)
Theorem C22_after_blank_refuted :
  needHyphen (gA KA) (gA ICS_A) /\
  romanOutputStr false [gA KA; gA ICS_A] = Ok "ka-a" /\
  romanOutputStr false [gA NA; Blank; gA KA; gA ICS_A] = Ok "na kaa" /\
  romanOutputStr false [Blank; gA ICS_A] = Ok " -a".
Proof. split; [left; reflexivity|]. vm_compute. repeat split. Qed.
Print Assumptions C22_after_blank_refuted.

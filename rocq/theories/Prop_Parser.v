(** Prop_Parser.v - property theorems C23-C33: termination, safety, coverage
    and content of parse results, transparency and order of the pool. *)
From Coq Require Import String List NArith ZArith Bool Arith Lia Sorted.
From Verif Require Import Spec Base ThUni ThCons Syl OrderProofs Lattice LatticeProofs
  Dag DagProofs PronDag PathProofs GroupProofs ListDagProofs Dict DictProofs Utf UtfProofs Parser Wp
  ParserSpec ParserRules ParserActs ParserLoop ParserFacts ParserInv ParserResult
  ParserPool ParserDict ParserListed Prop_Syl Prop_Graph.
Import ListNotations.
Local Open Scope nat_scope.

(** ** Example data *)
(** A dictionary with the single word "กา", read in two ways. *)
Definition nul : string := String Ascii.zero EmptyString.
Definition exBank : string := ("n_A_0@2;k_A_0@2" ++ nul)%string.
Definition exDict : Dict := mkDict (Some [(letters "กา", 0%Z)]) (Some exBank).
Lemma exDict_ok : dictOKo (Some exDict).
Proof.
  intros d H. injection H as <-. apply (dictCheck_sound exDict [(letters "กา", 0%Z)]); [reflexivity|].
  vm_compute. reflexivity.
Qed.
Lemma libthai_ok : ctype_ok libthai_ct.
Proof.
  constructor; intros c H; cbn [libthai_ct th_wcisthcons th_wcisthvowel th_wcisthtone th_wcisldvowel th_wcisupvowel th_wcisblvowel] in H;
    repeat match goal with
    | H : _ && _ = true |- _ => apply andb_true_iff in H; destruct H
    | H : _ || _ = true |- _ => apply orb_true_iff in H
    | H : _ \/ _ |- _ => destruct H
    | H : negb _ = true |- _ => apply negb_true_iff in H
    | H : (_ <=? _)%N = true |- _ => apply N.leb_le in H
    | H : (_ =? _)%N = true |- _ => apply N.eqb_eq in H
    | H : (_ =? _)%N = false |- _ => apply N.eqb_neq in H
    end; unfold UTH_KO_KAI, UTH_HO_NOKHUK, UTH_RU, UTH_LU, UTH_MAI_EK, UTH_MAI_THO, UTH_MAI_TRI, UTH_MAI_CHATTAWA,
         UTH_SARA_E, UTH_SARA_AE, UTH_SARA_O, UTH_SARA_AI_MAIMUAN, UTH_SARA_AI_MAIMALAI, UTH_MAI_HAN_AKAT,
         UTH_SARA_I, UTH_SARA_II, UTH_SARA_UE, UTH_SARA_UEE, UTH_SARA_U, UTH_SARA_UU, UTH_SARA_A, UTH_LAKKHANGYAO in *; lia.
Qed.

(** Run of the whole parser with the model's classification, for examples. *)
Definition listing (dict : option Dict) (brk : list nat) (s : string) : Res (list SylString) :=
  (d <- ParseU16F libthai_ct 500 (letters s) dict brk ;; DAGSylStrings d 0)%res.
Lemma listing_pronounced dict brk s l : listing dict brk s = Ok l -> pronounced libthai_ct (letters s) dict brk l.
Proof.
  unfold listing. destruct (ParseU16F libthai_ct 500 (letters s) dict brk) as [d| | |] eqn:E; cbn [bind]; try discriminate.
  intros H. exists 500, d. auto.
Qed.

(** The [j]-th syllable of the [i]-th pronunciation. *)
Definition sylAt (l : list SylString) (i j : nat) : Syl := nth j (nth i l []) (SylLiteral 0 []).
Lemma split_at {A} (d : A) s : forall j, j < length s -> s = firstn j s ++ nth j s d :: skipn (S j) s.
Proof.
  induction s as [|a s IH]; intros j H; cbn [length] in H; [lia|]. destruct j as [|j]; [reflexivity|].
  cbn [firstn nth app]. f_equal. apply IH. lia.
Qed.
Lemma occurs_at l i j : i < length l -> j < length (nth i l []) ->
  occurs l (startPos (firstn j (nth i l []))) (endPos (sylAt l i j)) (sylAt l i j).
Proof.
  intros Hi Hj. exists (firstn j (nth i l [])), (skipn (S j) (nth i l [])). split; [|split; reflexivity].
  pose proof (split_at (SylLiteral 0 []) (nth i l []) j Hj) as E.
  pose proof (nth_In l [] Hi) as X. rewrite E in X. exact X.
Qed.

Ltac occ i j :=
  match goal with |- occurs ?l _ _ _ =>
    exact (occurs_at l i j ltac:(cbn [length]; lia) ltac:(cbn [length nth]; lia)) end.

(** ** C23: parsing terminates *)
(** The fuel only bounds the number of iterations of the loop: beyond some
    number it changes nothing, and no smaller number gives another outcome. *)
Lemma C23_lemma ct w dict brk : exists r fuel0, r <> NoFuel /\
  (forall fuel, fuel0 <= fuel -> ParseU16F ct fuel w dict brk = r) /\
  (forall fuel, ParseU16F ct fuel w dict brk = NoFuel \/ ParseU16F ct fuel w dict brk = r).
Proof.
  exists (ParseU16F ct (enough ct w dict brk) w dict brk), (enough ct w dict brk).
  split; [apply ParseU16F_terminates; lia|]. split; [intros; apply ParseU16F_stable; assumption|].
  intros fuel. destruct (ParseU16F ct fuel w dict brk) eqn:E; auto; right; rewrite <- E; apply ParseU16F_any; congruence.
Qed.
Theorem C23_terminates ct w dict brk : exists r fuel0, r <> NoFuel /\
  (forall fuel, fuel0 <= fuel -> ParseU16F ct fuel w dict brk = r) /\
  (forall fuel, ParseU16F ct fuel w dict brk = NoFuel \/ ParseU16F ct fuel w dict brk = r).
Proof. exact (C23_lemma ct w dict brk). Qed.
Print Assumptions C23_terminates.
(** The same from UTF-8 text, with any word breaker. *)
Lemma C23_lemma2 ct dict brks word : exists r fuel0, r <> NoFuel /\
  (forall fuel, fuel0 <= fuel -> parseWordF ct fuel dict brks word = r) /\
  (forall fuel, parseWordF ct fuel dict brks word = NoFuel \/ parseWordF ct fuel dict brks word = r).
Proof.
  unfold parseWordF. destruct (from_bytes word) as [w| | |] eqn:E; cbn [bind].
  - apply C23_lemma.
  - exists Throw, 0. split; [discriminate|]. auto.
  - exists UB, 0. split; [discriminate|]. auto.
  - exfalso. revert E. apply from_bytes_total.
Qed.
Theorem C23_terminates_utf8 ct dict brks word : exists r fuel0, r <> NoFuel /\
  (forall fuel, fuel0 <= fuel -> parseWordF ct fuel dict brks word = r) /\
  (forall fuel, parseWordF ct fuel dict brks word = NoFuel \/ parseWordF ct fuel dict brks word = r).
Proof. exact (C23_lemma2 ct dict brks word). Qed.
Print Assumptions C23_terminates_utf8.
Example C23_case : exists l, listing (Some exDict) [2] "กากา" = Ok l /\ length l = 4.
Proof. eexists. split; vm_compute; reflexivity. Qed.

(** ** C24: no out-of-range access *)
(** The four leading vowels that must be followed by something. *)
Definition strayVowel (c : N) : Prop :=
  c = UTH_SARA_AE \/ c = UTH_SARA_O \/ c = UTH_SARA_AI_MAIMUAN \/ c = UTH_SARA_AI_MAIMALAI.
Lemma C24_lemma ct w dict brk : ctype_ok ct -> dictOKo dict -> Forall (fun b => b <= length w) brk ->
  (forall c, nth_error w (length w - 1) = Some c -> ~ strayVowel c) ->
  exists d fuel0, forall fuel, fuel0 <= fuel -> ParseU16F ct fuel w dict brk = Ok d.
Proof.
  intros C D B T.
  assert (T' : forall c, nth_error w (length w - 1) = Some c -> th_wcisldvowel ct c = true -> c = UTH_SARA_E).
  { intros c E L. specialize (T c E). unfold strayVowel in T. destruct (ldvowel_range _ C c L); tauto. }
  set (m := enough ct w dict brk).
  assert (NFu : ParseU16F ct m w dict brk <> NoFuel) by (apply ParseU16F_terminates; unfold m; lia).
  pose proof (ParseU16F_sat ct w dict brk D False (or_intror C) (or_intror B) (or_intror T') m NFu) as S.
  destruct (ParseU16F ct m w dict brk) as [d| | |] eqn:E; cbn [Sat] in S; try contradiction.
  exists d, m. intros fuel L. rewrite <- E. apply ParseU16F_stable. exact L.
Qed.
Theorem C24_safe ct w dict brk : ctype_ok ct -> dictOKo dict -> Forall (fun b => b <= length w) brk ->
  (forall c, nth_error w (length w - 1) = Some c -> ~ strayVowel c) ->
  exists d fuel0, forall fuel, fuel0 <= fuel -> ParseU16F ct fuel w dict brk = Ok d.
Proof. exact (C24_lemma ct w dict brk). Qed.
Print Assumptions C24_safe.
Example C24_case : ctype_ok libthai_ct /\ dictOKo (Some exDict) /\
  Forall (fun b => b <= length (letters "กาแกไa.เ")) [2; 4] /\
  (forall c, nth_error (letters "กาแกไa.เ") (length (letters "กาแกไa.เ") - 1) = Some c -> ~ strayVowel c).
Proof.
  split; [exact libthai_ok|]. split; [exact exDict_ok|]. split; [repeat constructor; vm_compute; lia|].
  intros c H. vm_compute in H. injection H as <-. unfold strayVowel.
  intros [H|[H|[H|H]]]; discriminate.
Qed.
(** The exclusion is needed: such a vowel alone, or after a complete syllable,
    raises an exception that nothing catches. *)
Lemma C24_lemma2 v : strayVowel v ->
  (forall fuel, 1 <= fuel -> ParseU16F libthai_ct fuel [v] None [] = Throw) /\
  (forall fuel, 2 <= fuel -> ParseU16F libthai_ct fuel (letters "กา" ++ [v]) None [] = Throw).
Proof.
  intros [->|[->|[->| ->]]]; split; intros [|[|fuel]] L; try lia; vm_compute; reflexivity.
Qed.
Theorem C24_stray_vowel_refuted v : strayVowel v ->
  (forall fuel, 1 <= fuel -> ParseU16F libthai_ct fuel [v] None [] = Throw) /\
  (forall fuel, 2 <= fuel -> ParseU16F libthai_ct fuel (letters "กา" ++ [v]) None [] = Throw).
Proof. exact (C24_lemma2 v). Qed.
Print Assumptions C24_stray_vowel_refuted.
Example C24_stray_case : strayVowel 0x0e41%N.
Proof. left; reflexivity. Qed.

(** ** C25: every pronunciation covers the whole input *)
(** The end positions go up from 0 (in reading order: a pre-syllable node lies
    between the positions it encodes) and the last is the text length.  Every
    edge of the result graph is in some pronunciation. *)
Lemma C25_lemma ct w dict brk fuel d : dictOKo dict -> ParseU16F ct fuel w dict brk = Ok d ->
  exists l, DAGSylStrings d 0 = Ok l /\
    (forall s, In s l -> wellPositioned (Z.of_nat (length w)) s) /\
    (forall f t v, InE d f t v <-> occurs l f t v).
Proof.
  intros D E. pose proof (ParseU16F_inv ct w dict brk D fuel d E) as G.
  destruct (res_cover ct w dict brk d G) as (l & L & P & _). exists l. split; [exact L|]. split; [exact P|].
  intros f t v. symmetry. apply (listed_occurs ct w dict brk d l G L).
Qed.
Theorem C25_full_cover ct w dict brk fuel d : dictOKo dict -> ParseU16F ct fuel w dict brk = Ok d ->
  exists l, DAGSylStrings d 0 = Ok l /\
    (forall s, In s l -> wellPositioned (Z.of_nat (length w)) s) /\
    (forall f t v, InE d f t v <-> occurs l f t v).
Proof. exact (C25_lemma ct w dict brk fuel d). Qed.
Print Assumptions C25_full_cover.
Example C25_case : dictOKo (Some exDict) /\ exists l, listing (Some exDict) [] "สบาย กา" = Ok l /\
  map (map endPos) l = [[-4; 4; 5; 7]; [-4; 4; 5; 7]; [1; 4; 5; 7]; [1; 4; 5; 7]]%Z.
Proof. split; [exact exDict_ok|]. eexists. split; vm_compute; reflexivity. Qed.

(** ** C26: the result graph is acyclic and starts at the beginning *)
Lemma C26_lemma ct w dict brk fuel d : dictOKo dict -> ParseU16F ct fuel w dict brk = Ok d ->
  Acyclic d /\ (forall x v, ~ InE d x 0 v) /\
  exists l flat, grouped d = Ok l /\ DAGSylStrings d 0 = Ok flat /\
    (forall s, (exists c, In c l /\ exists s', ChainDen c s' /\ str_eqb s' s = true) <->
               (exists s', In s' flat /\ str_eqb s' s = true)).
Proof.
  intros D E. pose proof (ParseU16F_inv ct w dict brk D fuel d E) as G.
  pose proof (res_acyclic ct w dict brk d G) as A. pose proof (res_start ct w dict brk d G) as S.
  split; [exact A|]. split; [exact S|]. apply C11_lemma; assumption.
Qed.
Theorem C26_acyclic_rooted ct w dict brk fuel d : dictOKo dict -> ParseU16F ct fuel w dict brk = Ok d ->
  Acyclic d /\ (forall x v, ~ InE d x 0 v) /\
  exists l flat, grouped d = Ok l /\ DAGSylStrings d 0 = Ok flat /\
    (forall s, (exists c, In c l /\ exists s', ChainDen c s' /\ str_eqb s' s = true) <->
               (exists s', In s' flat /\ str_eqb s' s = true)).
Proof. exact (C26_lemma ct w dict brk fuel d). Qed.
Print Assumptions C26_acyclic_rooted.
Example C26_case : dictOKo (Some exDict) /\ exists d,
  ParseU16F libthai_ct 500 (letters "กากา") (Some exDict) [] = Ok d /\ length (edgesF d) = 4.
Proof. split; [exact exDict_ok|]. eexists. split; vm_compute; reflexivity. Qed.

(** ** C27: pre-syllable nodes never collide *)
Lemma C27_lemma b e b' e' : b < e <= b + 100 -> b' < e' <= b' + 100 ->
  preNode (Z.of_nat b) (Z.of_nat e) = preNode (Z.of_nat b') (Z.of_nat e') -> b = b' /\ e = e'.
Proof. unfold preNode. intros H H' E. assert (b = b') by lia. lia. Qed.
Theorem C27_nodes_distinct b e b' e' : b < e <= b + 100 -> b' < e' <= b' + 100 ->
  preNode (Z.of_nat b) (Z.of_nat e) = preNode (Z.of_nat b') (Z.of_nat e') -> b = b' /\ e = e'.
Proof. exact (C27_lemma b e b' e'). Qed.
Print Assumptions C27_nodes_distinct.
(** Negative nodes in a result come from groups of at most 20 characters (or
    from the dictionary). *)
Lemma C27_lemma2 ct w dict brk l f t v : ctype_ok ct -> dictOKo dict ->
  pronounced ct w dict brk l -> occurs l f t v -> dictSyl dict v \/
  ((f < 0)%Z -> exists b e, b < e <= length w /\ e <= b + 20 /\ f = preNode (Z.of_nat b) (Z.of_nat e) /\
     (t = Z.of_nat e \/ t = Z.of_nat (e + 1) /\ nth_error w e = Some 46%N)) /\
  ((t < 0)%Z -> exists b e, b < e <= length w /\ e <= b + 20 /\ f = Z.of_nat b /\
     t = preNode (Z.of_nat b) (Z.of_nat e)).
Proof.
  intros C D P O. apply (orig_pre ct w dict brk C D). eapply occurs_orig; eauto.
Qed.
Theorem C27_node_spans ct w dict brk l f t v : ctype_ok ct -> dictOKo dict ->
  pronounced ct w dict brk l -> occurs l f t v -> dictSyl dict v \/
  ((f < 0)%Z -> exists b e, b < e <= length w /\ e <= b + 20 /\ f = preNode (Z.of_nat b) (Z.of_nat e) /\
     (t = Z.of_nat e \/ t = Z.of_nat (e + 1) /\ nth_error w e = Some 46%N)) /\
  ((t < 0)%Z -> exists b e, b < e <= length w /\ e <= b + 20 /\ f = Z.of_nat b /\
     t = preNode (Z.of_nat b) (Z.of_nat e)).
Proof. exact (C27_lemma2 ct w dict brk l f t v). Qed.
Print Assumptions C27_node_spans.
(** The bound 100 is sharp for the encoding. *)
Theorem C27_long_span_refuted : preNode 0 102 = preNode 1 2.
Proof. reflexivity. Qed.
Print Assumptions C27_long_span_refuted.
Example C27_case : exists l, pronounced libthai_ct (letters "กาสบาย") None [] l /\
  occurs l 2 (preNode 2 6) (sylAt l 0 1) /\ ~ dictSyl None (sylAt l 0 1).
Proof.
  eexists. split; [apply listing_pronounced; vm_compute; reflexivity|]. split.
  - occ 0 1.
  - intros (d & _ & _ & _ & _ & _ & H & _). discriminate.
Qed.

(** ** C28: non-Thai text passes through verbatim *)
(** A literal is the text of its span, without an absorbed full stop.  It
    holds no Thai character, except that a full stop on its own can be one. *)
Lemma C28_lemma ct w dict brk l f t v : ctype_ok ct -> dictOKo dict ->
  pronounced ct w dict brk l -> occurs l f t v ->
  (literal v <> [] -> exists b e, f = Z.of_nat b /\ b < e <= length w /\
     literal v = text w b e /\
     (t = Z.of_nat e \/ t = Z.of_nat (e + 1) /\ nth_error w e = Some 46%N) /\
     ((forall i, b <= i < e -> ~ tokenAt ct w i) \/ e = b + 1 /\ nth_error w b = Some 46%N)) /\
  (literal v = [] -> forall k, touches f t k -> tokenAt ct w k).
Proof.
  intros C D P O. destruct (occurs_literal ct w dict brk D C l f t v P O) as (A & B).
  split; [exact A|]. intros L. apply B. exact L.
Qed.
Theorem C28_verbatim_spans ct w dict brk l f t v : ctype_ok ct -> dictOKo dict ->
  pronounced ct w dict brk l -> occurs l f t v ->
  (literal v <> [] -> exists b e, f = Z.of_nat b /\ b < e <= length w /\
     literal v = text w b e /\
     (t = Z.of_nat e \/ t = Z.of_nat (e + 1) /\ nth_error w e = Some 46%N) /\
     ((forall i, b <= i < e -> ~ tokenAt ct w i) \/ e = b + 1 /\ nth_error w b = Some 46%N)) /\
  (literal v = [] -> forall k, touches f t k -> tokenAt ct w k).
Proof. exact (C28_lemma ct w dict brk l f t v). Qed.
Print Assumptions C28_verbatim_spans.
(** No other character is dropped: each is in a literal of every
    pronunciation, at its place. *)
Lemma C28_lemma2 ct w dict brk l s k c : ctype_ok ct -> dictOKo dict ->
  pronounced ct w dict brk l -> In s l -> nth_error w k = Some c -> ~ tokenAt ct w k ->
  exists s1 v s2 b, s = s1 ++ v :: s2 /\ startPos s1 = Z.of_nat b /\ b <= k /\
    nth_error (literal v) (k - b) = Some c.
Proof. intros C D. apply verbatim; assumption. Qed.
Theorem C28_nothing_dropped ct w dict brk l s k c : ctype_ok ct -> dictOKo dict ->
  pronounced ct w dict brk l -> In s l -> nth_error w k = Some c -> ~ tokenAt ct w k ->
  exists s1 v s2 b, s = s1 ++ v :: s2 /\ startPos s1 = Z.of_nat b /\ b <= k /\
    nth_error (literal v) (k - b) = Some c.
Proof. exact (C28_lemma2 ct w dict brk l s k c). Qed.
Print Assumptions C28_nothing_dropped.
Example C28_case : exists l, pronounced libthai_ct (letters "กา ab1.กา") (Some exDict) [] l /\
  length l = 4 /\ literal (sylAt l 0 1) = letters " ab1" /\
  occurs l 2 7 (sylAt l 0 1).
Proof.
  eexists. split; [apply listing_pronounced; vm_compute; reflexivity|]. split; [reflexivity|].
  split; [vm_compute; reflexivity|]. occ 0 1.
Qed.

(** ** C29: a text without Thai is returned unchanged *)
Lemma C29_lemma ct w dict brk fuel : (forall k, ~ tokenAt ct w k) -> w <> [] -> 1 <= fuel ->
  exists d, ParseU16F ct fuel w dict brk = Ok d /\
    DAGSylStrings d 0 = Ok [[SylLiteral (Z.of_nat (length w)) w]].
Proof. intros N E. apply noThai_parse; assumption. Qed.
Theorem C29_foreign_text ct w dict brk fuel : (forall k, ~ tokenAt ct w k) -> w <> [] -> 1 <= fuel ->
  exists d, ParseU16F ct fuel w dict brk = Ok d /\
    DAGSylStrings d 0 = Ok [[SylLiteral (Z.of_nat (length w)) w]].
Proof. exact (C29_lemma ct w dict brk fuel). Qed.
Print Assumptions C29_foreign_text.
Example C29_case : (forall k, ~ tokenAt libthai_ct (letters "Hello, 世界 12") k) /\ letters "Hello, 世界 12" <> [].
Proof.
  split; [|vm_compute; discriminate]. intros k (c & E & T). vm_compute in E.
  do 12 (destruct k as [|k]; [cbn in E; injection E as <-; vm_compute in T; discriminate|]).
  cbn in E. destruct k; discriminate.
Qed.

(** ** C30: every spoken syllable is well-formed *)
Lemma C30_lemma ct w dict brk l f t v : ctype_ok ct -> dictOKo dict ->
  pronounced ct w dict brk l -> occurs l f t v -> literal v = [] -> wellFormed v.
Proof.
  intros C D P O L. destruct (occurs_literal ct w dict brk D C l f t v P O) as (_ & B). apply B. exact L.
Qed.
Theorem C30_well_formed ct w dict brk l f t v : ctype_ok ct -> dictOKo dict ->
  pronounced ct w dict brk l -> occurs l f t v -> literal v = [] -> wellFormed v.
Proof. exact (C30_lemma ct w dict brk l f t v). Qed.
Print Assumptions C30_well_formed.
Example C30_case : exists l, pronounced libthai_ct (letters "ปลาหมอ") None [] l /\
  exists f t, occurs l f t (sylAt l 0 0) /\ sylAt l 0 0 = SylOf PA SEC_LA V_AA EC_NONE SAMAN 3.
Proof.
  eexists. split; [apply listing_pronounced; vm_compute; reflexivity|]. eexists _, _. split.
  - occ 0 0.
  - vm_compute. reflexivity.
Qed.

(** ** C31, C48, C49: nothing in a rule-made syllable is invented *)
(** Each spoken syllable that does not come from the dictionary belongs to a
    group [b..e) of at most 20 characters (its own span, or that of the pair
    with its pre-syllable, a following full stop aside) and
    - its initial sound is that of a consonant written in the group, or the
      "r"/"l" of RU/LU (C31);
    - its final is absent, or the final sound of a consonant of the group or
      of the one after it (shared with the next syllable), or that of SARA AM,
      SARA E + SARA AA, SARA AI (C48);
    - its tone is what the tone rules give for the class of a consonant and
      the tone mark (or none) of the group (C49). *)
Lemma grounded_lemma ct w dict brk l f t v : ctype_ok ct -> dictOKo dict ->
  pronounced ct w dict brk l -> occurs l f t v -> literal v = [] ->
  dictSyl dict v \/ exists b e, e <= b + 20 /\ inGroup w f t b e /\
    soundIn ct w b e (iCons1 v) /\ endIn w b (e + 1) (eCons v) /\ toneByRule ct w b e v.
Proof.
  intros C D P O L. destruct (occurs_grounded ct w dict brk D C l f t v P O L) as [X|(b & e & H & [G1 G2 G3 G4])];
    [left; exact X|right]. exists b, e. auto.
Qed.
Theorem C31_initial_written ct w dict brk l f t v : ctype_ok ct -> dictOKo dict ->
  pronounced ct w dict brk l -> occurs l f t v -> literal v = [] ->
  dictSyl dict v \/ exists b e, e <= b + 20 /\ inGroup w f t b e /\ soundIn ct w b e (iCons1 v).
Proof.
  intros C D P O L. destruct (grounded_lemma ct w dict brk l f t v C D P O L) as [X|(b & e & H1 & H2 & H3 & _)];
    [left; exact X|right]. exists b, e. auto.
Qed.
Print Assumptions C31_initial_written.
Theorem C48_final_written ct w dict brk l f t v : ctype_ok ct -> dictOKo dict ->
  pronounced ct w dict brk l -> occurs l f t v -> literal v = [] ->
  dictSyl dict v \/ exists b e, e <= b + 20 /\ inGroup w f t b e /\ endIn w b (e + 1) (eCons v).
Proof.
  intros C D P O L. destruct (grounded_lemma ct w dict brk l f t v C D P O L) as [X|(b & e & H1 & H2 & _ & H3 & _)];
    [left; exact X|right]. exists b, e. auto.
Qed.
Print Assumptions C48_final_written.
Theorem C49_tone_written ct w dict brk l f t v : ctype_ok ct -> dictOKo dict ->
  pronounced ct w dict brk l -> occurs l f t v -> literal v = [] ->
  dictSyl dict v \/ exists b e, e <= b + 20 /\ inGroup w f t b e /\ toneByRule ct w b e v.
Proof.
  intros C D P O L. destruct (grounded_lemma ct w dict brk l f t v C D P O L) as [X|(b & e & H1 & H2 & _ & _ & H3)];
    [left; exact X|right]. exists b, e. auto.
Qed.
Print Assumptions C49_tone_written.
Example C31_case : exists l, pronounced libthai_ct (letters "ตลาด") None [] l /\
  occurs l (preNode 0 4) 4 (sylAt l 0 1) /\ ~ dictSyl None (sylAt l 0 1) /\
  soundIn libthai_ct (letters "ตลาด") 0 4 (iCons1 (sylAt l 0 1)) /\ iCons1 (sylAt l 0 1) = LA.
Proof.
  eexists. split; [apply listing_pronounced; vm_compute; reflexivity|].
  split; [occ 0 1|].
  split; [intros (d & _ & _ & _ & _ & _ & H & _); discriminate|].
  split; [|reflexivity]. left. exists 0x0e25%N. split; [|split; reflexivity].
  exists 1. split; [lia|reflexivity].
Qed.
Example C48_case : exists l, pronounced libthai_ct (letters "น้ำ") None [] l /\
  occurs l 0 3 (sylAt l 0 0) /\ eCons (sylAt l 0 0) = KOM /\
  endIn (letters "น้ำ") 0 3 KOM.
Proof.
  eexists. split; [apply listing_pronounced; vm_compute; reflexivity|].
  split; [occ 0 0|].
  split; [reflexivity|]. right; right; left. split; [|reflexivity]. exists 2. split; [lia|reflexivity].
Qed.
Example C49_case : exists l, pronounced libthai_ct (letters "น้ำ") None [] l /\
  occurs l 0 3 (sylAt l 0 0) /\ tone (sylAt l 0 0) = TRI /\
  toneByRule libthai_ct (letters "น้ำ") 0 3 (sylAt l 0 0).
Proof.
  eexists. split; [apply listing_pronounced; vm_compute; reflexivity|].
  split; [occ 0 0|].
  split; [reflexivity|]. exists LOWS, THO. split.
  - left. exists 0x0e19%N. split; [exists 0; split; [lia|reflexivity]|]. split; reflexivity.
  - split; [right; exists 0x0e49%N; split; [exists 1; split; [lia|reflexivity]|reflexivity]|].
    left. apply TB_low_tho. right; reflexivity.
Qed.

(** ** C32: pooling partial analyses loses and adds nothing *)
(** [Run r]: the analysis [r] is reached by following single analyses, with no
    pool.  The result graph holds exactly the edges (up to equality of
    syllables) of the analyses that reach the end of the text, and when
    parsing succeeds no followed analysis fails. *)
Lemma C32_lemma ct w dict brk fuel d : Forall (fun b => b <= length w) brk ->
  ParseU16F ct fuel w dict brk = Ok d ->
  (forall f t v, Has syl_eqb d f t v <->
     exists r, Run ct w dict brk r /\ length w <= sPos r /\ Has syl_eqb (sDag r) f t v) /\
  (forall r, Run ct w dict brk r -> sPos r < length w ->
     exists l, stepStates ct w dict brk r = Ok l).
Proof.
  intros B E. split.
  - intros f t v. apply (transparent ct w dict brk B fuel d E).
  - apply (run_defined ct w dict brk B fuel d E).
Qed.
Theorem C32_pool_transparent ct w dict brk fuel d : Forall (fun b => b <= length w) brk ->
  ParseU16F ct fuel w dict brk = Ok d ->
  (forall f t v, Has syl_eqb d f t v <->
     exists r, Run ct w dict brk r /\ length w <= sPos r /\ Has syl_eqb (sDag r) f t v) /\
  (forall r, Run ct w dict brk r -> sPos r < length w ->
     exists l, stepStates ct w dict brk r = Ok l).
Proof. exact (C32_lemma ct w dict brk fuel d). Qed.
Print Assumptions C32_pool_transparent.
Example C32_case : Forall (fun b => b <= length (letters "กาสบาย")) [2] /\
  exists d, ParseU16F libthai_ct 500 (letters "กาสบาย") None [2] = Ok d /\ length (edgesF d) = 5.
Proof. split; [repeat constructor; vm_compute; lia|]. eexists. split; vm_compute; reflexivity. Qed.

(** ** C33: the pool serves states in text order *)
(** Histories of a pool: [added] in order of addition, [served] in order of
    being popped. *)
Inductive PoolHistory : list ParseState -> list ParseState -> StatePool -> Prop :=
| PH_new : PoolHistory [] [] []
| PH_add added served pool s : PoolHistory added served pool ->
    PoolHistory (added ++ [s]) served (poolAdd pool s)
| PH_pop added served pool s : PoolHistory added served (s :: pool) ->
    PoolHistory added (served ++ [s]) pool.
Lemma kept_app a b p k f t v : kept (a ++ b) p k f t v <-> kept a p k f t v \/ kept b p k f t v.
Proof.
  unfold kept. split.
  - intros (s & H & R). apply in_app_or in H. destruct H as [H|H]; [left|right]; exists s; auto.
  - intros [(s & H & R)|(s & H & R)]; exists s; (split; [apply in_or_app; auto|exact R]).
Qed.
Lemma C33_lemma added served pool : PoolHistory added served pool ->
  StronglySorted (fun a b => sPos a <= sPos b) pool /\
  (forall p linked f t v,
     kept added p linked f t v <-> kept served p linked f t v \/ kept pool p linked f t v).
Proof.
  induction 1 as [|added served pool s H (S & K)|added served pool s H (S & K)].
  - split; [constructor|]. intros. split; [auto|]. intros [H|H]; exact H.
  - split; [apply poolAdd_sorted; exact S|]. intros p b f t v.
    rewrite kept_app, poolAdd_kept, K.
    assert (X : kept [s] p b f t v <-> sPos s = p /\ sLinked s = b /\ Has syl_eqb (sDag s) f t v).
    { unfold kept. split; [intros (x & [<-|[]] & R); exact R|]. intros R. exists s. split; [left; reflexivity|exact R]. }
    rewrite X. tauto.
  - inversion S; subst. split; [assumption|]. intros p b f t v. rewrite K, kept_app.
    change (s :: pool) with ([s] ++ pool). rewrite kept_app. tauto.
Qed.
(** The next state served is at the least position of the pool; every edge of
    an added state is kept, with its position and link flag, and no other. *)
Theorem C33_pool_order added served pool : PoolHistory added served pool ->
  StronglySorted (fun a b => sPos a <= sPos b) pool /\
  (forall p linked f t v,
     kept added p linked f t v <-> kept served p linked f t v \/ kept pool p linked f t v).
Proof. exact (C33_lemma added served pool). Qed.
Print Assumptions C33_pool_order.
(** There can be two states for the same position and link flag. *)
Definition poolKey (s : ParseState) : nat * bool := (sPos s, sLinked s).
Lemma C33_lemma2 : exists added pool, PoolHistory added [] pool /\ ~ NoDup (map poolKey pool).
Proof.
  set (st := fun b => mkState 5 9 dagEmpty b).
  exists [st true; st false; st true],
    (poolAdd (poolAdd (poolAdd [] (st true)) (st false)) (st true)).
  split.
  - change [st true; st false; st true] with ((([] ++ [st true]) ++ [st false]) ++ [st true]).
    repeat apply PH_add. apply PH_new.
  - vm_compute. intros H. inversion H as [|? ? X _]; subst. apply X. right; left; reflexivity.
Qed.
Theorem C33_unique_keys_refuted : exists added pool, PoolHistory added [] pool /\ ~ NoDup (map poolKey pool).
Proof. exact C33_lemma2. Qed.
Print Assumptions C33_unique_keys_refuted.
Example C33_case : exists added served pool, PoolHistory added served pool /\
  map sPos added = [7; 3; 5] /\ map sPos served = [3] /\ map sPos pool = [5; 7].
Proof.
  set (st := fun p => mkState p 9 dagEmpty false).
  exists [st 7; st 3; st 5], [st 3], [st 5; st 7]. repeat split.
  change [st 7; st 3; st 5] with ((([] ++ [st 7]) ++ [st 3]) ++ [st 5]).
  change [st 5; st 7] with (poolAdd [st 7] (st 5)). apply PH_add.
  change [st 3] with ([] ++ [st 3]). apply PH_pop.
  change [st 3; st 7] with (poolAdd (poolAdd [] (st 7)) (st 3)). repeat apply PH_add. apply PH_new.
Qed.

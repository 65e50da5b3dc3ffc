(** GrammarWord.v - the pronunciations of a word are the walks through the
    readings of the grammar. *)
From Coq Require Import String List NArith ZArith Bool Arith Lia Sorted.
From Verif Require Import Spec Base ThUni ThCons Syl OrderProofs Lattice LatticeProofs
  Dag DagProofs PronDag PathProofs GroupProofs ListDagProofs Dict DictProofs Utf Parser Wp
  ParserSpec ParserRules ParserActs ParserLoop ParserFacts ParserInv ParserResult ParserDict ParserListed
  ParserPool ParserProduct Prop_Syl Grammar GrammarRun GrammarIff.
From Verif Require Prop_Parser.
Import ListNotations.
Local Open Scope nat_scope.
Local Notation "a =n b" := (N.eqb a b) (at level 70).

(** The words of a dictionary. *)
Definition entry (dict : option Dict) (k : list N) (strs : list SylString) : Prop :=
  exists d v, dict = Some d /\ holds d k v /\ k <> [] /\ ParserFacts.listed d k strs.

Lemma letter_range c : thaiLetter c = true -> (0x0e01 <= c <= 0x0e4c)%N.
Proof.
  unfold thaiLetter. rewrite andb_true_iff, !orb_true_iff, !andb_true_iff, !N.leb_le. lia.
Qed.
Lemma letter_in c : thaiLetter c = true -> In c (map N.of_nat (seq 0xe01 76)).
Proof.
  intros H. apply letter_range in H. apply in_map_iff. exists (N.to_nat c). rewrite N2Nat.id.
  split; [reflexivity|]. apply in_seq. lia.
Qed.
Lemma letter_token c : thaiLetter c = true -> tokenChar ct c = true.
Proof.
  intros H. assert (A : forallb (fun c => implb (thaiLetter c) (tokenChar ct c)) (map N.of_nat (seq 0xe01 76)) = true)
    by (vm_compute; reflexivity).
  rewrite forallb_forall in A. specialize (A c (letter_in c H)). rewrite H in A. exact A.
Qed.
Lemma ct_ok : ctype_ok ct. Proof. exact Prop_Parser.libthai_ok. Qed.

(** What remains is the end of the text. *)
Section Rest.
Variable w : list N.
Notation Suf := (Suf w).
Lemma mark_suf t m r : Suf t -> mark t = (m, r) -> Suf r.
Proof. intros H E. pose proof (suf_mark w t H) as X. rewrite E in X. exact X. Qed.
Lemma tl_suf c t : Suf (c :: t) -> Suf t. Proof. apply suf_tl. Qed.
Lemma final_suf no t e r : Suf t -> Final no t e r -> Suf r.
Proof. intros H F. destruct F. apply suf_silentAny. eapply suf_tl; eauto. Qed.
Lemma shared_suf no t e r b : Suf t -> FinalOrShared no t e r b -> Suf r.
Proof.
  intros H F. destruct F; eauto using final_suf, tl_suf.
Qed.
Lemma initial_suf lk t o r : Suf t -> InitialAt lk t o r -> Suf r.
Proof. intros H F. destruct F; eauto using tl_suf. Qed.
Lemma sil2_suf (t : list N) : Suf t -> Suf (if length (silent t) <? length t then silent t else silentIU t).
Proof. intros H. destruct (_ <? _); [apply suf_silent|apply suf_silentIU]; exact H. Qed.
Lemma if_suf (b : bool) t r : Suf t -> (if b then t else silent t) = r -> Suf r.
Proof. intros H <-. destruct b; [exact H|apply suf_silent; exact H]. Qed.
(** Close the remaining letters one step at a time. *)
Ltac rest :=
  repeat match goal with
  | H : Suf ?t, E : mark ?t = (?m, ?r) |- _ => apply (mark_suf t m r H) in E
  | H : Suf (?c :: ?t) |- _ => apply tl_suf in H
  end.
Ltac close :=
  rest; try assumption;
  try match goal with
  | |- Suf (silent _) => apply suf_silent; rest; assumption
  | |- Suf (if _ then silent _ else silentIU _) => apply sil2_suf; rest; assumption
  | F : Final _ ?t _ ?r |- Suf ?r => apply (fun H => final_suf _ t _ r H F); try apply suf_silent; rest; assumption
  | F : FinalOrShared _ ?t _ ?r _ |- Suf ?r => apply (fun H => shared_suf _ t _ r _ H F); try apply suf_silent; rest; assumption
  end.
Lemma rime_suf lk o t v e m r b : Suf t -> Rime lk o t v e m r b -> Suf r.
Proof.
  intros H F. destruct F; try solve [close].
  - rest. apply suf_silent. apply (tl_suf UTH_RO_RUA). eapply if_suf; eauto.
  - rest. eapply shared_suf; [|eassumption]. apply (tl_suf UTH_RO_RUA). eapply if_suf; eauto.
  - eapply mark_suf; eauto.
Qed.
Lemma rimeE_suf o t v e m r b : Suf t -> RimeE o t v e m r b -> Suf r.
Proof.
  intros H F. destruct F; try solve [close].
  - apply suf_silent. eapply mark_suf; eauto.
  - eapply shared_suf; [|eassumption]. apply suf_silent. eapply mark_suf; eauto.
Qed.
Lemma rimeL_suf l t v e m r b : Suf t -> RimeL l t v e m r b -> Suf r.
Proof. intros H F. destruct F; solve [close]. Qed.
Lemma reads_suf lk t p x r b : Suf t -> Reads lk t p x r b -> Suf r.
Proof.
  intros H R. destruct R as [t o t1 v e m r b p x I R L S|t o t1 v e m r b p x I R L S|l t o t1 v e m r b p x I R L S
    |t p x r M|c t v e r b tn Hc R T].
  - eapply rime_suf; [|exact R]. eapply initial_suf; eauto.
  - eapply rimeE_suf; [|exact R]. eapply initial_suf; [|exact I]. eauto using tl_suf.
  - eapply rimeL_suf; [|exact R]. eapply initial_suf; [|exact I]. eauto using tl_suf.
  - destruct M; eauto 6 using tl_suf.
  - destruct R; eauto 6 using tl_suf, shared_suf.
Qed.
End Rest.

Section Walk.
Variable w : list N.
Variable dict : option Dict.
Variable brk : list nat.
Notation n := (length w).
Hypothesis letters_only : Forall (fun c => thaiLetter c = true) w.
Hypothesis long : 2 <= n.
Hypothesis noBreak : forall x, In x brk -> x = 0 \/ x = n.
Hypothesis dictWF : dictOKo dict.
Notation D := (entry dict).

Lemma brk_ok : Forall (fun x => x <= n) brk.
Proof. apply Forall_forall. intros x Hx. destruct (noBreak x Hx); lia. Qed.
Lemma nth_letter i c : nth_error w i = Some c -> thaiLetter c = true.
Proof. intros H. apply nth_error_In in H. rewrite Forall_forall in letters_only. auto. Qed.
Lemma tok_all i : i < n -> tokenAt ct w i.
Proof.
  intros H. destruct (nth_error w i) as [c|] eqn:E; [|apply nth_error_None in E; lia].
  exists c. split; [exact E|]. apply letter_token. eapply nth_letter; eauto.
Qed.
Lemma wordEnd_n p e : wordEnd ct w brk p e -> e = n.
Proof.
  intros [A B C F G]. destruct G as [G|[G|G]]; [exact G| |].
  - destruct G as (l1 & l2 & E & L & _). destruct (noBreak e); [rewrite E; apply in_app_iff; right; left; reflexivity|lia|assumption].
  - destruct (Nat.lt_ge_cases e n) as [L|L]; [exfalso; apply G, tok_all, L|lia].
Qed.
Lemma start_eq : skipGap ct w brk s0 = Ok (mkState 0 n dagEmpty false).
Proof.
  rewrite skipGap_act. unfold gapAct. cbn [s0 sPos sLinked].
  destruct (SkipNonThai_spec ct w 0 ltac:(lia)) as (A & B & C). set (e := SkipNonThai ct w 0) in *.
  assert (e = 0) as -> by (destruct (Nat.eq_dec e 0); [assumption|exfalso; apply (B 0); [lia|apply tok_all; lia]]).
  change (0 <? 0) with false. cbv iota. destruct (Nat.ltb_spec 0 n); [|lia].
  pose proof (NextWordStop_sat ct w brk False (or_intror brk_ok) 0 (tok_all 0 ltac:(lia))) as S.
  destruct (NextWordStop ct w 0 brk) as [e'| | |]; cbn [Sat bind] in *; try contradiction.
  apply wordEnd_n in S. subst e'. reflexivity.
Qed.

Lemma skipn_suf t : Suf w t -> skipn (pos w t) w = t.
Proof.
  intros (u & E). unfold pos. rewrite E at 1 2. rewrite app_length.
  replace (length u + length t - length t) with (length u) by lia. rewrite skipn_app, skipn_all, Nat.sub_diag. reflexivity.
Qed.
Lemma suf_inj t t' : Suf w t -> Suf w t' -> pos w t = pos w t' -> t = t'.
Proof. intros A B E. rewrite <- (skipn_suf t A), <- (skipn_suf t' B), E. reflexivity. Qed.
Lemma suf_app k r : Suf w (k ++ r) -> Suf w r.
Proof. intros (u & E). exists (u ++ k). rewrite <- app_assoc. exact E. Qed.
Lemma pos_app k r : Suf w (k ++ r) -> pos w r = pos w (k ++ r) + length k.
Proof. intros H. apply suf_le in H. unfold pos. rewrite app_length in *. lia. Qed.
Lemma nth_suf t i : Suf w t -> nth_error w (pos w t + i) = nth_error t i.
Proof.
  intros H. pose proof (skipn_suf t H) as E. rewrite <- E at 2. clear.
  generalize (pos w t) as p. induction w as [|a u IH]; intros p; destruct p as [|p]; cbn [skipn Nat.add nth_error]; auto.
  - destruct i; reflexivity.
Qed.
Lemma pos_lt t : Suf w t -> t <> [] -> pos w t < n.
Proof. intros H N. apply suf_le in H. unfold pos. destruct t; [congruence|]. cbn [length] in *. lia. Qed.
Lemma lt_pos t : Suf w t -> pos w t < n -> t <> [].
Proof. intros H L ->. unfold pos in L. cbn [length] in L. lia. Qed.

(** ** Dictionary words *)
Lemma applicable_iff d t k : Suf w t -> dict = Some d ->
  applicable ct w d (pos w t) n k <-> (exists v, holds d k v) /\ k <> [] /\ exists r, t = k ++ r /\ endOrSyl r.
Proof.
  intros H Ed. unfold applicable, writtenAt. rewrite (skipn_suf t H). split.
  - intros (A & B & _ & (r & E) & L & G). split; [exact A|]. split; [exact B|]. exists r. split; [exact E|].
    subst t. destruct r as [|c r]; [exact I|]. cbn [endOrSyl]. destruct G as [G|(c' & G & Gc)].
    + pose proof (suf_le w _ H) as X. unfold pos in *. rewrite app_length in *. cbn [length] in *. lia.
    + rewrite <- (pos_app k (c :: r)) in G by exact H.
      pose proof (nth_suf (c :: r) 0 (suf_app _ _ H)) as Y. rewrite Nat.add_0_r in Y. rewrite Y in G.
      cbn [nth_error] in G. inj G. exact Gc.
  - intros (A & B & r & E & G). subst t. split; [exact A|]. split; [exact B|]. split.
    + intros c Hc. destruct H as (u & E). rewrite Forall_forall in letters_only.
      assert (Q : thaiLetter c = true). { apply letters_only. rewrite E, !in_app_iff. auto. }
      apply letter_range in Q. lia.
    + split; [exists r; reflexivity|]. rewrite <- (pos_app k r H). pose proof (suf_le w _ (suf_app _ _ H)) as X.
      split; [unfold pos; lia|]. destruct r as [|c r]; [left; unfold pos; cbn [length]; lia|]. right.
      exists c. pose proof (nth_suf (c :: r) 0 (suf_app _ _ H)) as Y. rewrite Nat.add_0_r in Y. split; [exact Y|exact G].
Qed.

(** ** One step *)
Definition Next (s : ParseState) (es : list (Z * Syl)) (r : list N) (lk : bool) (s' : ParseState) : Prop :=
  sPos s' = pos w r /\ sStop s' = n /\ sLinked s' = lk /\
  forall f t v, PHas (sDag s') f t v <->
    PHas (sDag s) f t v \/ exists v0, In (f, v0) es /\ endPos v0 = t /\ syl_eqb v0 v = true.

Lemma strEdges_along s : forall x f t v, In (f, t, v) (strEdges x s) <-> In (f, v) (along x s) /\ endPos v = t.
Proof.
  induction s as [|u s IH]; intros x f t v; cbn [strEdges along In]; [tauto|]. rewrite IH. split.
  - intros [H|H]; [inj H; auto|tauto].
  - intros ([H|H] & E); [inj H; auto|tauto].
Qed.
Lemma takes_next s t k r strs s' : Suf w t -> sPos s = pos w t -> sStop s = n -> t = k ++ r ->
  takesWord s k strs s' -> Next s (wordMoves w t strs) r false s'.
Proof.
  intros H P S -> (A & B & C & E). split; [rewrite A, P; symmetry; apply pos_app; exact H|]. split; [congruence|].
  split; [exact C|]. intros f x v. rewrite E. unfold wordMoves. rewrite P. unfold startOf.
  change (n - length (k ++ r)) with (pos w (k ++ r)).
  split; (intros [X|X]; [left; exact X|right]).
  - destruct X as (str & v0 & X1 & X2 & X3). apply strEdges_along in X2. exists v0. split; [|tauto].
    apply in_flat_map. exists str. tauto.
  - destruct X as (v0 & X1 & X2 & X3). apply in_flat_map in X1. destruct X1 as (str & X1 & X4).
    exists str, v0. split; [exact X1|]. split; [|exact X3]. apply strEdges_along. auto.
Qed.

Lemma emEdges_moves t y e : norm' w e = toEm w y -> (forall q, preSyl (emSyl e) = Some q -> literal q = []) ->
  forall f x v, In (f, x, v) (emEdges (pos w t) e) <->
    In (f, v) (readMoves w t (preF y) (saidF y) (rRest y)) /\ endPos v = x.
Proof.
  intros E Q f x v. unfold norm', toEm in E. injection E as E1 E2 E3 E4 E5 E6 E7 E8 E9.
  unfold emEdges, readMoves, preF. cbv zeta. rewrite <- E2, E1.
  assert (M : mainSyl (emSyl e) (Z.of_nat (pos w (rRest y))) = sylAt (saidF y) (startOf w (rRest y))).
  { unfold mainSyl, sylAt, saidF, deadF. cbn [saSound saSecond saVowel saFinal saTone].
    rewrite E3, E4, E5, E6, E7, E8. reflexivity. }
  rewrite M. change (Z.of_nat (pos w t)) with (startOf w t). change (Z.of_nat (pos w (rRest y))) with (startOf w (rRest y)).
  destruct (preSyl (emSyl e)) as [q|]; cbn [option_map In].
  - change (- (startOf w t * 100 + startOf w (rRest y)))%Z with (within w t (rRest y)).
    assert (S : setEndPos q (within w t (rRest y)) = sylAt (saidOf q) (within w t (rRest y))).
    { specialize (Q q eq_refl). destruct q; cbn in *. subst. reflexivity. }
    rewrite S. split.
    + intros [X|[X|[]]]; inj X; auto.
    + intros ([X|[X|[]]] & Y); inj X; auto.
  - split; [intros [X|[]]; inj X; auto|intros ([X|[]] & Y); inj X; auto].
Qed.

(** No abbreviation: the text has two letters or more and no full stop. *)
Lemma scan_none k : forall i m c, i + k = n -> c <> 46%N -> (k = 0 -> 1 < m) -> (k = 1 -> 0 < m) ->
  exists r, abbrScan ct k w i m c = Ok r /\ (r = None \/ exists e m' c', r = Some (e, m', c') /\ 1 < m' /\ c' <> 46%N).
Proof.
  induction k as [|k IH]; intros i m c Hi Hc H0 H1; cbn [abbrScan].
  - eexists. split; [reflexivity|]. right. exists i, m, c. auto.
  - unfold at16. destruct (nth_error w i) as [c0|] eqn:E; [|apply nth_error_None in E; lia]. cbn [bind].
    assert (N46 : c0 <> 46%N) by (apply nth_letter, letter_range in E; lia).
    destruct (th_wcisthcons ct c0).
    + destruct (4 <? S m); [eauto|]. apply IH; try assumption; try lia.
    + destruct (N.eqb_spec 46 c0); [congruence|]. eauto.
Qed.
Lemma no_abbr p : p < n -> abbrAct ct w p n = Ok None.
Proof.
  intros L. unfold abbrAct. destruct p as [|i].
  - cbn [bind negb]. destruct (scan_none (n - 0) 0 0 0%N) as (r & E & H); try lia; try discriminate.
    rewrite E. cbn [bind]. destruct H as [->|(e & m & c & -> & H1 & H2)]; [reflexivity|].
    destruct (Nat.ltb_spec 1 m); [|lia]. destruct (N.eqb_spec c 46); [contradiction|]. reflexivity.
  - unfold at16. destruct (nth_error w i) as [c|] eqn:E; [|apply nth_error_None in E; lia]. cbn [bind].
    apply nth_letter, letter_range in E.
    destruct (N.eqb_spec c 32), (N.eqb_spec c 46); try lia; reflexivity.
Qed.
Lemma rules_only t lk c u : Suf w t -> t = c :: u ->
  acts ct w None brk (pos w t) n lk = bind (ruleEms ct w (pos w t) n lk c) (fun l => Ok (map (emAct (pos w t) n) l)).
Proof.
  intros H E. assert (L : pos w t < n) by (apply pos_lt; [exact H|congruence]).
  unfold acts. destruct (Nat.leb_spec n (pos w t)); [lia|]. cbn [bind]. rewrite no_abbr by exact L. cbn [bind].
  unfold ruleActs, at16. pose proof (nth_suf t 0 H) as X. rewrite Nat.add_0_r in X. subst t. cbn [nth_error] in X.
  rewrite X. cbn [bind]. apply nth_letter, letter_range in X.
  destruct (N.eqb_spec 46 c); [lia|]. rewrite andb_false_r. reflexivity.
Qed.
Lemma lead_last t lk c : Suf w t -> t = [c] -> leadVowel c = true -> c <> UTH_SARA_E ->
  ruleEms ct w (pos w t) n lk c = Throw.
Proof.
  intros H -> Hl Hn. unfold ruleEms. rewrite isCons_eq, isLdv_eq, Hl, (lead_notCons c Hl).
  destruct (N.eqb_spec UTH_SARA_E c); [congruence|].
  unfold ParseOtherLV, MatchInitCons, at16. pose proof (nth_suf [c] 0 H) as X. rewrite Nat.add_0_r in X. rewrite X.
  rewrite (nth_suf [c] 1 H). reflexivity.
Qed.

Lemma stepN s t l : SI ct w brk s -> Suf w t -> t <> [] -> sPos s = pos w t -> sStop s = n ->
  stepStates ct w None brk s = Ok l ->
  (forall s', In s' l -> exists p x r lk', Reads (sLinked s) t p x r lk' /\ Suf w r /\ pos w t < pos w r <= pos w t + 20 /\
     Next s (readMoves w t p x r) r lk' s') /\
  (forall p x r lk', Reads (sLinked s) t p x r lk' -> exists s', In s' l /\ Next s (readMoves w t p x r) r lk' s').
Proof.
  intros HS H Ht P S E. destruct t as [|c u] eqn:Et; [congruence|]. rewrite <- Et in *.
  assert (L : sPos s < n) by (rewrite P; apply pos_lt; [exact H|congruence]).
  assert (Ea : acts ct w None brk (sPos s) (sStop s) (sLinked s) =
    bind (ruleEms ct w (pos w t) n (sLinked s) c) (fun l => Ok (map (emAct (pos w t) n) l))).
  { rewrite P, S. eapply rules_only; eauto. }
  rewrite stepStates_acts, Ea in E.
  assert (G : gives w (ruleEms ct w (pos w t) n (sLinked s) c) (readsF (sLinked s) t)).
  { rewrite Et in *. apply readsF_ok; [exact H|]. intros Hl Hn ->.
    rewrite (lead_last [c] (sLinked s) c H eq_refl Hl Hn) in E. discriminate. }
  destruct G as (l0 & El & M). rewrite El in *. cbn [bind] in E.
  pose proof (ruleEms_sat ct w True (or_introl I) (or_introl I)
    (pos w t) n (sLinked s) c ltac:(rewrite P in L; exact L) (le_n n)) as Sat0.
  assert (Hc : nth_error w (pos w t) = Some c).
  { pose proof (nth_suf t 0 H) as X. rewrite Nat.add_0_r in X. rewrite X, Et. reflexivity. }
  specialize (Sat0 Hc). rewrite El in Sat0. cbn [Sat] in Sat0. rewrite Forall_forall in Sat0.
  destruct (mapM_applyAct s (map (emAct (pos w t) n) l0) (proj1 HS)) as (l' & El' & F).
  rewrite El' in E. injection E as <-. clear Et.
  assert (K : forall e y s', In e l0 -> norm' w e = toEm w y -> In y (readsF (sLinked s) t) ->
    applyAct s (emAct (pos w t) n e) = Ok s' -> Next s (readMoves w t (preF y) (saidF y) (rRest y)) (rRest y) (rShared y) s').
  { intros e y s' He Ey Hy Es. unfold applyAct, emAct in Es. cbn [aStretch aPos aStop aEdges aLinked] in Es. inj Es.
    unfold Next. cbn [sPos sStop sLinked sDag].
    pose proof (f_equal emPos Ey) as Q1. pose proof (f_equal emLinked Ey) as Q2. cbn [norm' toEm emPos emLinked] in Q1, Q2.
    split; [exact Q1|]. split; [reflexivity|]. split; [exact Q2|]. intros f x v. rewrite addAll_Has.
    assert (Lit : forall q, preSyl (emSyl e) = Some q -> literal q = []).
    { intros q Eq. destruct (Sat0 e He) as (G & _). apply (eg_pre _ _ _ _ _ _ G q Eq). }
    split; (intros [X|(v0 & X & Y)]; [left; exact X|right]; exists v0).
    - apply (emEdges_moves t y e Ey Lit) in X. tauto.
    - split; [apply (emEdges_moves t y e Ey Lit); tauto|tauto]. }
  split.
  - intros s' Hs'. destruct (Forall2_in_r _ _ _ _ F Hs') as (a & Ha & Es). apply in_map_iff in Ha.
    destruct Ha as (e & <- & He). assert (In (norm' w e) (map (toEm w) (readsF (sLinked s) t))) as Hy
      by (rewrite <- M; apply in_map; exact He).
    apply in_map_iff in Hy. destruct Hy as (y & Ey & Hy). symmetry in Ey.
    exists (preF y), (saidF y), (rRest y), (rShared y). split; [apply found_reads; exact Hy|].
    destruct (Sat0 e He) as (G & _). pose proof (eg_lo _ _ _ _ _ _ G) as G1. pose proof (eg_hi _ _ _ _ _ _ G) as G2.
    pose proof (f_equal emPos Ey) as Q1. cbn [norm' toEm emPos] in Q1. rewrite Q1 in G1, G2.
    split; [exact (reads_suf w _ _ _ _ _ _ H (found_reads _ _ _ Hy))|]. split; [lia|]. eapply K; eauto.
  - intros p x r lk' R. destruct (reads_found _ _ _ _ _ _ R) as (y & Hy & <- & <- & <- & <-).
    assert (In (toEm w y) (map (norm' w) l0)) as He by (rewrite M; apply in_map; exact Hy).
    apply in_map_iff in He. destruct He as (e & Ey & He).
    destruct (Forall2_in_l _ _ _ (emAct (pos w t) n e) F (in_map _ _ _ He)) as (s' & Hs' & Es).
    exists s'. split; [exact Hs'|]. eapply K; eauto.
Qed.

Lemma step_ways s t l : SI ct w brk s -> Suf w t -> t <> [] -> sPos s = pos w t -> sStop s = n ->
  stepStates ct w dict brk s = Ok l ->
  (forall s', In s' l -> exists es r lk', Way D w t (sLinked s) es r lk' /\ Suf w r /\ pos w t < pos w r /\ Next s es r lk' s') /\
  (forall es r lk', Way D w t (sLinked s) es r lk' -> exists s', In s' l /\ Next s es r lk' s').
Proof.
  intros HS H Ht P S E.
  assert (L : sPos s < sStop s) by (rewrite P, S; apply pos_lt; assumption).
  assert (R : (forall k r strs, ~ wordAt D t k r strs) -> stepStates ct w None brk s = Ok l ->
    (forall s', In s' l -> exists es r lk', Way D w t (sLinked s) es r lk' /\ Suf w r /\ pos w t < pos w r /\ Next s es r lk' s') /\
    (forall es r lk', Way D w t (sLinked s) es r lk' -> exists s', In s' l /\ Next s es r lk' s')).
  { intros NW E0. destruct (stepN s t l HS H Ht P S E0) as (A & B). split.
    - intros s' Hs'. destruct (A s' Hs') as (p & x & r & lk' & R & Q1 & Q2 & Q3).
      exists (readMoves w t p x r), r, lk'. split; [constructor; assumption|]. split; [exact Q1|]. split; [lia|exact Q3].
    - intros es r lk' W. destruct W as [t lk k r strs W|t lk p x r lk' _ R]; [exfalso; eapply NW; exact W|].
      apply B. exact R. }
  assert (C : dict = None \/ exists d, dict = Some d) by (destruct dict; eauto).
  destruct C as [Ed|(d & Ed)].
  { apply R; [|rewrite <- E, Ed; reflexivity]. intros k r strs (_ & _ & d & v & X & _). congruence. }
  assert (Es := E). rewrite Ed in E. rewrite stepStates_acts, Ed in Es. unfold acts in Es.
  destruct (Nat.leb_spec (sStop s) (sPos s)); [lia|].
  destruct (excActs ct w (sPos s) (sStop s) d) as [al| | |] eqn:Ea; cbn [bind] in Es; try discriminate.
  pose proof (excActs_sat ct w (Some d) brk True (or_introl I) d (sPos s) (sStop s) false eq_refl L ltac:(lia)) as X.
  rewrite Ea in X. cbn [Sat] in X. destruct X as (X1 & X2).
  destruct al as [|a al].
  - specialize (X2 eq_refl). apply R.
    + intros k r strs (Et & Er & d' & v & Q & Hv & Hk & Hl). rewrite Ed in Q. injection Q as <-. apply (X2 k). rewrite P, S.
      apply (applicable_iff d t k H Ed). split; [eauto|]. split; [exact Hk|]. exists r. auto.
    + rewrite <- E. symmetry. apply exc_none; [exact L|lia|exact X2].
  - assert (exists k0, applicable ct w d (sPos s) (sStop s) k0) as (k0 & Ap).
    { destruct (excActs_in ct w _ _ _ _ _ Ea (or_introl eq_refl)) as (m & Hm & Em).
      pose proof (excAct_sat ct w (Some d) brk True (or_introl I) d (sPos s) (sStop s) false m eq_refl L ltac:(lia) Hm) as Y.
      rewrite Em in Y. destruct Y as (Y & _). exists (mPre m). apply (Y a eq_refl). }
    destruct (exc_exact ct w d brk s l k0 L ltac:(lia) Ap E) as (A & B).
    assert (WA : forall k strs, applicable ct w d (sPos s) (sStop s) k -> ParserFacts.listed d k strs ->
      exists r, wordAt D t k r strs /\ k <> []).
    { intros k strs Ak Hl. rewrite P, S in Ak. apply (applicable_iff d t k H Ed) in Ak.
      destruct Ak as ((v & Hv) & Hk & r & Et & Er). exists r. split; [|exact Hk]. split; [exact Et|]. split; [exact Er|].
      exists d, v. auto. }
    split.
    + intros s' Hs'. destruct (A s' Hs') as (k & strs & Ak & Hl & T). destruct (WA k strs Ak Hl) as (r & W & Hk).
      exists (wordMoves w t strs), r, false. split; [econstructor; exact W|]. destruct W as (Et & _).
      pose proof H as H'. rewrite Et in H'. split; [eapply suf_app; exact H'|]. split.
      * rewrite (pos_app k r H'), <- Et. destruct k; [congruence|]. cbn [length]. lia.
      * eapply takes_next; eauto.
    + intros es r lk' W. destruct W as [t lk k r strs W|t lk p x r lk' NW RR].
      * destruct W as (Et & Er & d' & v & Q & Hv & Hk & Hl). rewrite Ed in Q. injection Q as <-.
        assert (Ak : applicable ct w d (sPos s) (sStop s) k).
        { rewrite P, S. apply (applicable_iff d t k H Ed). split; [eauto|]. split; [exact Hk|]. exists r. auto. }
        destruct (B k Ak) as (strs' & s' & Hl' & Hs' & T).
        assert (strs' = strs) as ->.
        { destruct Hl as (x1 & Y1 & Y2), Hl' as (x2 & Y3 & Y4). rewrite Y1 in Y3. injection Y3 as <-. rewrite Y2 in Y4. injection Y4 as <-. reflexivity. }
        exists s'. split; [exact Hs'|]. eapply takes_next; eauto.
      * exfalso. destruct (B k0 Ap) as (strs & s' & Hl & _). destruct (WA k0 strs Ap Hl) as (r0 & W & _). exact (NW _ _ _ W).
Qed.

(** ** Runs *)
Definition At (s : ParseState) (t : list N) : Prop := Suf w t /\ sPos s = pos w t /\ sStop s = n.
Notation Runs := (Run ct w dict brk).
Notation step := (stepStates ct w dict brk).
Lemma At_next s es r lk s' : Suf w r -> Next s es r lk s' -> At s' r.
Proof. intros H (A & B & _). split; [exact H|]. auto. Qed.

Lemma way_nonempty t lk es r lk' : Way D w t lk es r lk' -> t <> [].
Proof.
  intros W ->. inversion W as [t0 lk0 k r0 strs (Et & _ & d & v & _ & _ & Hk & _)|t0 lk0 p x r0 lk0' _ RR].
  - destruct k; [congruence|discriminate].
  - apply reads_found in RR. destruct RR as (y & [] & _).
Qed.
Lemma way_suf t lk es r lk' : Suf w t -> Way D w t lk es r lk' -> Suf w r.
Proof.
  intros H W. destruct W as [t lk k r strs (Et & _)|t lk p x r lk' _ RR]; [subst t; eapply suf_app; eauto|eapply reads_suf; eauto].
Qed.

Section Done.
Hypothesis defined : forall r, Runs r -> sPos r < n -> exists l, step r = Ok l.

Lemma reached_run t lk : Reached D w t lk -> exists s, Runs s /\ At s t /\ sLinked s = lk.
Proof.
  induction 1 as [|t lk es r lk' R IH W].
  - exists (mkState 0 n dagEmpty false). split; [exists (mkState 0 n dagEmpty false); split; [exact start_eq|constructor]|].
    split; [|reflexivity]. split; [exists []; reflexivity|]. split; [unfold pos; cbn; lia|reflexivity].
  - destruct IH as (s & Rs & (A1 & A2 & A3) & A4).
    pose proof (way_nonempty _ _ _ _ _ W) as Ht.
    assert (L : sPos s < n) by (rewrite A2; apply pos_lt; assumption).
    destruct (defined s Rs L) as (l & El). pose proof (SI_run ct w dict brk s Rs) as HS.
    destruct (step_ways s t l HS A1 Ht A2 A3 El) as (F & B). subst lk.
    destruct (B _ _ _ W) as (s' & Hs' & Nx). exists s'. split; [eapply Run_step; eauto|].
    split; [|apply Nx]. eapply At_next; [|exact Nx]. eapply way_suf; eauto.
Qed.
Lemma run_reached s r : RunFrom ct w dict brk s r -> forall t, Runs s -> At s t -> Reached D w t (sLinked s) ->
  exists t', At r t' /\ Reached D w t' (sLinked r).
Proof.
  induction 1 as [s|s l s1 s2 H1 H2 H3 H4 IH]; intros t Rs A R; [eauto|].
  destruct A as (A1 & A2 & A3). pose proof (SI_run ct w dict brk s Rs) as HS.
  assert (Ht : t <> []) by (apply lt_pos; [exact A1|congruence]).
  destruct (step_ways s t l HS A1 Ht A2 A3 H2) as (F & _). destruct (F s1 H3) as (es & r & lk' & W & Sr & _ & Nx).
  apply (IH r); [eapply Run_step; eauto|eapply At_next; eauto|].
  destruct Nx as (_ & _ & -> & _). econstructor; eauto.
Qed.
(** A complete run adds moves of complete ways only. *)
Lemma run_moves s r : RunFrom ct w dict brk s r -> forall t, Runs s -> At s t -> Reached D w t (sLinked s) -> n <= sPos r ->
  Finishes D w t (sLinked s) /\
  forall f x v, PHas (sDag r) f x v -> PHas (sDag s) f x v \/
    exists v0, Move D w f v0 /\ endPos v0 = x /\ syl_eqb v0 v = true.
Proof.
  induction 1 as [s|s l s1 s2 H1 H2 H3 H4 IH]; intros t Rs A R Fin.
  - split; [|auto]. destruct A as (A1 & A2 & A3). assert (t = []) as ->; [|constructor].
    destruct t; [reflexivity|]. pose proof (pos_lt _ A1 ltac:(discriminate)). lia.
  - destruct A as (A1 & A2 & A3). pose proof (SI_run ct w dict brk s Rs) as HS.
    assert (Ht : t <> []) by (apply lt_pos; [exact A1|congruence]).
    destruct (step_ways s t l HS A1 Ht A2 A3 H2) as (F & _). destruct (F s1 H3) as (es & r & lk' & W & Sr & _ & Nx).
    pose proof Nx as (N1 & N2 & N3 & N4).
    destruct (IH r) as (I1 & I2); [eapply Run_step; eauto|eapply At_next; eauto|rewrite N3; econstructor; eauto|exact Fin|].
    rewrite N3 in I1. split; [econstructor; eauto|]. intros f x v Hv. destruct (I2 f x v Hv) as [Q|Q]; [|auto].
    apply N4 in Q. destruct Q as [Q|(v0 & Q1 & Q2 & Q3)]; [auto|]. right. exists v0. split; [|auto].
    exists t, (sLinked s), es, r, lk'. auto.
Qed.
Lemma finish_run t lk : Finishes D w t lk -> forall s, Runs s -> At s t -> sLinked s = lk ->
  exists r, Runs r /\ n <= sPos r /\ forall f x v, PHas (sDag s) f x v -> PHas (sDag r) f x v.
Proof.
  induction 1 as [lk|t lk es r lk' W Fn IH]; intros s Rs A El.
  - exists s. split; [exact Rs|]. split; [|auto]. destruct A as (_ & A & _). rewrite A. unfold pos. cbn [length]. lia.
  - destruct A as (A1 & A2 & A3). pose proof (way_nonempty _ _ _ _ _ W) as Ht.
    assert (L : sPos s < n) by (rewrite A2; apply pos_lt; assumption).
    destruct (defined s Rs L) as (l & E). pose proof (SI_run ct w dict brk s Rs) as HS.
    destruct (step_ways s t l HS A1 Ht A2 A3 E) as (_ & B). subst lk. destruct (B _ _ _ W) as (s' & Hs' & Nx).
    pose proof Nx as (N1 & N2 & N3 & N4).
    destruct (IH s') as (r' & R1 & R2 & R3); [eapply Run_step; eauto|eapply At_next; [eapply way_suf; eauto|exact Nx]|exact N3|].
    exists r'. split; [exact R1|]. split; [exact R2|]. intros f x v Q. apply R3, N4. auto.
Qed.
Lemma edges_moves f x v :
  (exists r, Runs r /\ n <= sPos r /\ PHas (sDag r) f x v) <->
  exists v0, Move D w f v0 /\ endPos v0 = x /\ syl_eqb v0 v = true.
Proof.
  split.
  - intros (r & (b & Eb & RF) & Fin & Q). pose proof start_eq as S0. rewrite S0 in Eb. inj Eb.
    destruct (run_moves _ r RF w) as (_ & M); auto.
    + eexists. split; [exact S0|constructor].
    + split; [exists []; reflexivity|]. split; [unfold pos; cbn; lia|reflexivity].
    + constructor.
    + destruct (M f x v Q) as [(v0 & Z & _)|Z]; [destruct Z|exact Z].
  - intros (v0 & (t & lk & es & r & lk' & R & W & Fn & Hi) & Ex & Ev).
    destruct (reached_run t lk R) as (s & Rs & A & El). pose proof A as (A1 & A2 & A3).
    pose proof (way_nonempty _ _ _ _ _ W) as Ht.
    assert (L : sPos s < n) by (rewrite A2; apply pos_lt; assumption).
    destruct (defined s Rs L) as (l & E). pose proof (SI_run ct w dict brk s Rs) as HS.
    destruct (step_ways s t l HS A1 Ht A2 A3 E) as (_ & B). subst lk. destruct (B _ _ _ W) as (s' & Hs' & Nx).
    pose proof Nx as (N1 & N2 & N3 & N4).
    destruct (finish_run r lk' Fn s') as (r' & R1 & R2 & R3); [eapply Run_step; eauto|eapply At_next; [eapply way_suf; eauto|exact Nx]|exact N3|].
    exists r'. split; [exact R1|]. split; [exact R2|]. apply R3, N4. right. exists v0. auto.
Qed.
End Done.

(** ** The list *)
Lemma move_canon f v : Move D w f v -> canon v.
Proof.
  intros (t & lk & es & r & lk' & R & W & Fn & Hi).
  assert (St : Suf w t).
  { clear - R letters_only. induction R as [|t lk es r lk' R IH W]; [exists []; reflexivity|]. eapply way_suf; eauto. }
  left. destruct W as [t lk k r strs (Et & _ & d & v0 & Ed & Hv & Hk & Hl)|t lk p x r lk' _ RR].
  - assert (A : inAbc k).
    { intros c Hc. destruct St as (u & E). rewrite Forall_forall in letters_only.
      assert (Q : thaiLetter c = true) by (apply letters_only; rewrite E, Et, !in_app_iff; auto).
      apply letter_range in Q. lia. }
    destruct (dictWF d Ed k v0 Hv Hk A) as (strs' & Hl' & Fa).
    assert (strs' = strs) as ->.
    { destruct Hl as (x1 & Y1 & Y2), Hl' as (x2 & Y3 & Y4). rewrite Y1 in Y3. injection Y3 as <-. rewrite Y2 in Y4. injection Y4 as <-. reflexivity. }
    unfold wordMoves in Hi. apply in_flat_map in Hi. destruct Hi as (s & Hs & Hi).
    rewrite Forall_forall in Fa. destruct (Fa s Hs) as (_ & Fs).
    assert (Q : forall s x, In (f, v) (along x s) -> In v s).
    { clear. induction s as [|u s IH]; cbn [along In]; [tauto|]. intros x [H|H]; [left; congruence|right; eauto]. }
    apply Q in Hi. unfold shiftEndPos in Hi. apply in_map_iff in Hi. destruct Hi as (u & <- & Hu).
    rewrite Forall_forall in Fs. apply (Fs u Hu).
  - unfold readMoves in Hi. destruct p as [p|]; cbn [In] in Hi.
    + destruct Hi as [Hi|[Hi|[]]]; injection Hi as <- <-; reflexivity.
    + destruct Hi as [Hi|[]]; injection Hi as <- <-; reflexivity.
Qed.

Lemma listed_walks l : pronounced ct w dict brk l -> forall s, In s l <-> Walks D w 0 s (Z.of_nat n).
Proof.
  intros (fuel & d & E & L) s.
  pose proof (run_defined ct w dict brk brk_ok fuel d E) as Df.
  pose proof (transparent ct w dict brk brk_ok fuel d E) as T.
  pose proof (ParseU16F_inv ct w dict brk dictWF fuel d E) as G.
  assert (EM : forall f x v, InE d f x v <-> Move D w f v /\ endPos v = x).
  { intros f x v. rewrite (InE_PHas _ _ _ _ _ d ct_ok dictWF G), T, (edges_moves Df f x v). split.
    - intros ((v0 & M & Ex & Ev) & Ev' & C). assert (v0 = v) as ->; [|auto].
      apply canon_eq; [eapply move_canon; eauto|exact C|apply syl_eqb_spoken; exact Ev|congruence].
    - intros (M & Ex). split; [exists v; split; [exact M|split; [exact Ex|apply syl_eqb_spoken; reflexivity]]|].
      split; [exact Ex|eapply move_canon; eauto]. }
  rewrite (listed_chain _ _ _ _ d l G L). split.
  - intros (_ & C). revert C. generalize 0%Z as x. induction s as [|v s IH]; intros x C; cbn [Chain Walks] in *; [exact C|].
    destruct C as (A & B). apply EM in A. split; [apply A|auto].
  - intros C. split; [intros ->; cbn [Walks] in C; lia|].
    revert C. generalize 0%Z as x. induction s as [|v s IH]; intros x C; cbn [Chain Walks] in *; [exact C|].
    destruct C as (A & B). split; [apply EM; auto|auto].
Qed.

(** ** A word in which no dictionary word is read *)
Section Quiet.
Hypothesis quiet : forall t k r strs, Suf w t -> ~ wordAt D t k r strs.
Lemma reached_suf D' t lk : (forall t lk es r lk', Suf w t -> Way D' w t lk es r lk' -> Suf w r) -> Reached D' w t lk -> Suf w t.
Proof. intros Q R. induction R as [|t lk es r lk' R IH W]; [exists []; reflexivity|eauto]. Qed.
Lemma nowords_suf t lk es r lk' : Suf w t -> Way noWords w t lk es r lk' -> Suf w r.
Proof. intros H W. destruct W as [t lk k r strs (_ & _ & [])|t lk p x r lk' _ RR]. eapply reads_suf; eauto. Qed.
Lemma way_same t lk es r lk' : Suf w t -> Way D w t lk es r lk' <->
  exists p x, Reads lk t p x r lk' /\ es = readMoves w t p x r.
Proof.
  intros H. split.
  - intros W. destruct W as [t lk k r strs W|t lk p x r lk' _ RR]; [exfalso; eapply quiet; eauto|eauto].
  - intros (p & x & R & ->). constructor; [|exact R]. intros. apply quiet. exact H.
Qed.
Lemma way_none t lk es r lk' : Way noWords w t lk es r lk' <->
  exists p x, Reads lk t p x r lk' /\ es = readMoves w t p x r.
Proof.
  split.
  - intros W. destruct W as [t lk k r strs (_ & _ & [])|t lk p x r lk' _ RR]. eauto.
  - intros (p & x & R & ->). constructor; [|exact R]. intros k r' strs (_ & _ & []).
Qed.
Lemma way_eq t lk es r lk' : Suf w t -> Way D w t lk es r lk' <-> Way noWords w t lk es r lk'.
Proof. intros H. rewrite (way_same t lk es r lk' H), way_none. reflexivity. Qed.
Lemma reached_eq t lk : Reached D w t lk <-> Reached noWords w t lk.
Proof.
  split; intros R.
  - induction R as [|t lk es r lk' R IH W]; [constructor|]. econstructor; [exact IH|]. apply way_eq; [|exact W].
    exact (reached_suf D t lk way_suf R).
  - induction R as [|t lk es r lk' R IH W]; [constructor|]. econstructor; [exact IH|]. apply way_eq; [|exact W].
    exact (reached_suf noWords t lk nowords_suf R).
Qed.
Lemma finishes_eq t lk : Suf w t -> Finishes D w t lk <-> Finishes noWords w t lk.
Proof.
  intros H. split; intros R.
  - induction R as [lk|t lk es r lk' W R IH]; [constructor|]. econstructor; [apply way_eq; eauto|].
    apply IH. eapply way_suf; eauto.
  - induction R as [lk|t lk es r lk' W R IH]; [constructor|]. econstructor; [apply way_eq; eauto|].
    apply IH. eapply nowords_suf; eauto.
Qed.
Lemma move_used f v : Move D w f v <-> exists t p x r, Used w t p x r /\ In (f, v) (readMoves w t p x r).
Proof.
  split.
  - intros (t & lk & es & r & lk' & R & W & Fn & Hi). pose proof (reached_suf D t lk way_suf R) as St.
    pose proof (way_suf _ _ _ _ _ St W) as Sr. apply way_same in W; [|exact St]. destruct W as (p & x & RR & ->).
    exists t, p, x, r. split; [|exact Hi]. exists lk, lk'. split; [apply reached_eq; exact R|]. split; [exact RR|].
    apply finishes_eq; assumption.
  - intros (t & p & x & r & (lk & lk' & R & RR & Fn) & Hi). pose proof (reached_suf noWords t lk nowords_suf R) as St.
    pose proof (reads_suf w _ _ _ _ _ _ St RR) as Sr.
    exists t, lk, (readMoves w t p x r), r, lk'. split; [apply reached_eq; exact R|].
    split; [apply way_same; eauto|]. split; [apply finishes_eq; assumption|exact Hi].
Qed.

Hypothesis defined : forall r, Runs r -> sPos r < n -> exists l, step r = Ok l.
Lemma used_bounds t p x r : Used w t p x r -> Suf w t /\ Suf w r /\ pos w t < pos w r <= pos w t + 20.
Proof.
  intros (lk & lk' & R & RR & _). pose proof (reached_suf noWords t lk nowords_suf R) as St.
  pose proof (reads_suf w _ _ _ _ _ _ St RR) as Sr. split; [exact St|]. split; [exact Sr|].
  apply reached_eq in R. destruct (reached_run defined t lk R) as (s & Rs & (A1 & A2 & A3) & A4).
  assert (W : Way D w t lk (readMoves w t p x r) r lk') by (apply way_same; eauto).
  pose proof (way_nonempty _ _ _ _ _ W) as Ht.
  assert (L : sPos s < n) by (rewrite A2; apply pos_lt; assumption).
  destruct (defined s Rs L) as (l & E). pose proof (SI_run ct w dict brk s Rs) as HS.
  assert (E0 : step s = stepStates ct w None brk s).
  { destruct (step_ways s t l HS A1 Ht A2 A3 E) as (F & _).
    assert (C : dict = None \/ exists d, dict = Some d) by (destruct dict; eauto).
    destruct C as [->|(d & Ed)]; [reflexivity|]. rewrite Ed. apply exc_none; [lia|lia|].
    intros k Ak. rewrite A2, A3 in Ak. apply (applicable_iff d t k St Ed) in Ak. destruct Ak as ((v & Hv) & Hk & r0 & Et & Er).
    assert (A : inAbc k).
    { intros c Hc. destruct St as (u & E'). rewrite Forall_forall in letters_only.
      assert (Q : thaiLetter c = true) by (apply letters_only; rewrite E', Et, !in_app_iff; auto).
      apply letter_range in Q. lia. }
    destruct (dictWF d Ed k v Hv Hk A) as (strs & Hl & _).
    apply (quiet t k r0 strs St). split; [exact Et|]. split; [exact Er|]. exists d, v. auto. }
  rewrite E0 in E. destruct (stepN s t l HS A1 Ht A2 A3 E) as (F & B). subst lk.
  destruct (B p x r lk' RR) as (s' & Hs' & N1 & _). destruct (F s' Hs') as (p' & x' & r' & lk'' & _ & _ & Bd & N1' & _).
  rewrite <- N1', N1 in Bd. exact Bd.
Qed.
Lemma startOf_pos t : startOf w t = Z.of_nat (pos w t). Proof. reflexivity. Qed.
Lemma start_inj t t' : Suf w t -> Suf w t' -> startOf w t = startOf w t' -> t = t'.
Proof. intros A B E. apply suf_inj; [exact A|exact B|]. rewrite !startOf_pos in E. lia. Qed.

Lemma says_walks t s : Says w t s -> Walks D w (startOf w t) s (Z.of_nat n).
Proof.
  induction 1 as [|t x r s U Sy IH|t p x p' x' r s U1 U2 Sy IH]; cbn [Walks].
  - unfold startOf. cbn [length]. rewrite Nat.sub_0_r. reflexivity.
  - split; [|exact IH]. apply move_used. exists t, None, x, r. split; [exact U|]. left. reflexivity.
  - split; [apply move_used; exists t, (Some p), x', r; split; [exact U1|left; reflexivity]|].
    split; [|exact IH]. apply move_used. exists t, (Some p'), x, r. split; [exact U2|right; left; reflexivity].
Qed.
Lemma walks_says k : forall s t, length s <= k -> Suf w t -> Walks D w (startOf w t) s (Z.of_nat n) -> Says w t s.
Proof.
  induction k as [|k IH]; intros s t Lk St Wk.
  - destruct s; [|cbn [length] in Lk; lia]. cbn [Walks] in Wk. assert (t = []) as ->; [|constructor].
    apply (start_inj t []); [exact St|exists w; rewrite app_nil_r; reflexivity|].
    rewrite Wk. unfold startOf. cbn [length]. rewrite Nat.sub_0_r. reflexivity.
  - destruct s as [|v s]; [apply IH; [cbn; lia|exact St|exact Wk]|]. cbn [Walks length] in *. destruct Wk as (M & Wk).
    apply move_used in M. destruct M as (t' & p & x & r & U & Hi). destruct (used_bounds _ _ _ _ U) as (St' & Sr & Bd).
    unfold readMoves in Hi. destruct p as [p|]; cbn [In] in Hi.
    + destruct Hi as [Hi|[Hi|[]]]; injection Hi as Hf Hv.
      2:{ exfalso. unfold within in Hf. rewrite !startOf_pos in Hf. lia. }
      apply start_inj in Hf; [|exact St'|exact St]. subst t' v. cbn [endPos sylAt SylOf] in Wk.
      destruct s as [|v s]; cbn [Walks] in Wk; [unfold within in Wk; rewrite !startOf_pos in Wk; lia|].
      destruct Wk as (M & Wk). apply move_used in M. destruct M as (t' & p' & x' & r' & U' & Hi').
      destruct (used_bounds _ _ _ _ U') as (St2 & Sr' & Bd'). unfold readMoves in Hi'. destruct p' as [p'|]; cbn [In] in Hi'.
      * destruct Hi' as [Hi'|[Hi'|[]]]; injection Hi' as Hf Hv.
        { exfalso. unfold within in Hf. rewrite !startOf_pos in Hf. lia. }
        assert (Q : pos w t' = pos w t /\ pos w r' = pos w r).
        { unfold within in Hf. rewrite !startOf_pos in Hf. lia. }
        destruct Q as (Q1 & Q2). apply suf_inj in Q1; [|exact St2|exact St]. apply suf_inj in Q2; [|exact Sr'|exact Sr]. subst t' r' v.
        eapply Sy_two; [exact U|exact U'|]. apply IH; [cbn [length] in Lk; lia|exact Sr|exact Wk].
      * destruct Hi' as [Hi'|[]]; injection Hi' as Hf Hv. exfalso. unfold within in Hf. rewrite !startOf_pos in Hf. lia.
    + destruct Hi as [Hi|[]]; injection Hi as Hf Hv. apply start_inj in Hf; [|exact St'|exact St]. subst t' v.
      apply Sy_one; [exact U|]. apply IH; [lia|exact Sr|exact Wk].
Qed.
End Quiet.

Lemma listed_says l : (forall t k r strs, Suf w t -> ~ wordAt D t k r strs) ->
  pronounced ct w dict brk l -> forall s, In s l <-> Says w w s.
Proof.
  intros Q P s. pose proof P as (fuel & d & E & L).
  pose proof (run_defined ct w dict brk brk_ok fuel d E) as Df. rewrite (listed_walks l P).
  assert (S0 : startOf w w = 0%Z) by (unfold startOf; rewrite Nat.sub_diag; reflexivity). rewrite <- S0. split.
  - apply (walks_says Q Df (length s)); [lia|exists []; reflexivity].
  - apply (says_walks Q).
Qed.
End Walk.

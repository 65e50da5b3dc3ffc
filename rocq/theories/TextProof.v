(** TextProof.v - the pronunciations of any text are the readings of
    [TextGrammar]. *)
From Coq Require Import String List NArith ZArith Bool Arith Lia Sorted.
From Verif Require Import Spec Base ThUni ThCons Syl OrderProofs Lattice LatticeProofs
  Dag DagProofs PronDag PathProofs GroupProofs ListDagProofs Dict DictProofs Utf Parser Wp
  ParserSpec ParserRules ParserActs ParserLoop ParserFacts ParserInv ParserResult ParserDict ParserListed
  ParserPool ParserShift ParserLocal ParserProduct Prop_Syl Grammar GrammarRun GrammarIff GrammarWord TextGrammar.
Import ListNotations.
Local Open Scope nat_scope.

(** ** Characters *)
Lemma token_eq c : tokenChar ct c = thaiChar c.
Proof.
  unfold tokenChar, thaiChar, thaiLetter, fullStop. cbn [libthai_ct th_wcisthcons th_wcisthvowel th_wcisthtone].
  unfold UTH_KO_KAI, UTH_HO_NOKHUK, UTH_RU, UTH_LU, UTH_SARA_A, UTH_SARA_UU, UTH_SARA_E, UTH_LAKKHANGYAO, UTH_MAI_EK,
    UTH_MAI_CHATTAWA, UTH_MAITAIKHU, UTH_THANTHAKHAT.
  apply eq_true_iff_eq.
  rewrite ?andb_true_iff, ?orb_true_iff, ?andb_true_iff, ?negb_true_iff, ?orb_true_iff, ?andb_true_iff, ?N.leb_le, ?N.eqb_eq, ?N.eqb_neq. lia.
Qed.
Lemma thai_tok w k : tokenAt ct w k <-> thaiAt w k.
Proof. unfold tokenAt, thaiAt. split; intros (c & E & T); exists c; [rewrite <- token_eq|rewrite token_eq]; auto. Qed.
Lemma thai_range c : thaiChar c = true -> c = 46%N \/ (0x0e01 <= c <= 0x0e4c)%N.
Proof.
  unfold thaiChar, fullStop. rewrite orb_true_iff, N.eqb_eq. intros [H|H]; [right; apply letter_range; exact H|auto].
Qed.
Lemma cons_list c : consonant c = true -> In c (map (fun i => 0xe01 + N.of_nat i)%N (seq 0 46)).
Proof.
  unfold consonant. rewrite !andb_true_iff, !N.leb_le. intros H. apply in_map_iff. exists (N.to_nat (c - 0xe01)). split; [lia|]. apply in_seq. lia.
Qed.
Lemma name_eq c e : consonant c = true -> letterName c e = nameOf c (Z.of_nat e).
Proof.
  intros H. unfold letterName, nameOf. assert (A : (if highLetter c then CHATTAWA else SAMAN) =
    match classOf c with HIGH => CHATTAWA | _ => SAMAN end); [|rewrite A; reflexivity].
  pose proof (cons_list c H) as I. vm_compute in I.
  repeat (destruct I as [<-|I]; [vm_compute; reflexivity|]). destruct I.
Qed.
Lemma names_eq g : forall p, Forall (fun c => consonant c = true) g -> spellGroup p g = names (Z.of_nat p) g.
Proof.
  induction g as [|c g IH]; intros p F; [reflexivity|]. inversion F as [|? ? F1 F2]; subst.
  destruct g as [|c2 g].
  - cbn [spellGroup names]. rewrite (name_eq c _ F1). do 2 f_equal. lia.
  - cbn [spellGroup names] in *. rewrite (name_eq c _ F1), (IH (p + 1) F2). do 2 f_equal; [lia|].
    replace (Z.of_nat (p + 1)) with (Z.of_nat p + 1)%Z by lia. reflexivity.
Qed.

(** ** Parts of the text *)
Section Part.
Variable w : list N.
Notation n := (length w).
Lemma between_len p q : p <= q -> q <= n -> length (between w p q) = q - p.
Proof. intros A B. unfold between. rewrite firstn_length, skipn_length. lia. Qed.
Lemma between_split p q : p <= q -> q <= n -> w = firstn p w ++ between w p q ++ skipn q w.
Proof.
  intros A B. unfold between. rewrite <- (firstn_skipn p w) at 1. f_equal.
  rewrite <- (firstn_skipn (q - p) (skipn p w)) at 1. f_equal.
  assert (X : forall j k (l : list N), skipn j (skipn k l) = skipn (k + j) l).
  { clear. intros j k. induction k as [|k IH]; intros l; [reflexivity|]. destruct l; [destruct j; reflexivity|]. cbn [skipn Nat.add]. apply IH. }
  rewrite X. f_equal. lia.
Qed.
Lemma first_len p : p <= n -> length (firstn p w) = p.
Proof. intros H. rewrite firstn_length. lia. Qed.
Lemma between_nth p q i : p + i < q -> q <= n -> nth_error (between w p q) i = nth_error w (p + i).
Proof.
  intros A B. rewrite (between_split p q) at 2 by lia.
  rewrite nth_error_app2 by (rewrite first_len; lia). rewrite first_len by lia. replace (p + i - p) with i by lia.
  rewrite nth_error_app1; [reflexivity|]. rewrite between_len by lia. lia.
Qed.
Lemma between_skip p q : p <= q -> q <= n -> skipn p w = between w p q ++ skipn q w.
Proof.
  intros A B. rewrite (between_split p q A B) at 1. rewrite skipn_app, first_len by lia.
  rewrite skipn_all2 by (rewrite first_len; lia). rewrite Nat.sub_diag. reflexivity.
Qed.
Lemma between_cons p q c : p < q -> q <= n -> nth_error w p = Some c -> exists t, between w p q = c :: t.
Proof.
  intros A B E. pose proof (between_nth p q 0 ltac:(lia) B) as X. rewrite Nat.add_0_r, E in X.
  destruct (between w p q) as [|x t]; [discriminate|]. injection X as ->. eauto.
Qed.
End Part.

Section Every.
Variable w : list N.
Variable dict : option Dict.
Variable brk : list nat.
Notation n := (length w).
Hypothesis sorted : StronglySorted lt brk.
Hypothesis inside : Forall (fun x => x <= n) brk.
Hypothesis dictWF : dictOKo dict.
Notation D := (entry dict).
Notation wordTo := (wordTo w brk).
Notation Pass := (Pass D w brk).
Notation Step := (Step D w brk).
Notation Comes := (Comes D w brk).
Notation Ends := (Ends D w brk).
Notation OnWay := (OnWay D w brk).
Notation tacit := (tacit w).
Notation zn := Z.of_nat.

Lemma wt_iff p q : wordTo p q <-> wordEnd ct w brk p q.
Proof.
  rewrite (wordEnd_sorted ct w brk p q sorted). split; intros [A B C F G]; constructor; auto.
  - intros k H. apply thai_tok, C, H.
  - intros x Hx L. specialize (F x Hx). lia.
  - rewrite thai_tok. exact G.
  - intros k H. apply thai_tok, C, H.
  - intros x Hx (L1 & L2). specialize (F x Hx L1). lia.
  - rewrite <- thai_tok. exact G.
Qed.
Lemma wt_fun p q q' : wordTo p q -> wordTo p q' -> q = q'.
Proof. rewrite !wt_iff. apply wEnd_fun. Qed.
Lemma wt_exists p : thaiAt w p -> exists q, wordTo p q.
Proof.
  intros H. pose proof (NextWordStop_sat ct w brk False (or_intror inside) p (proj2 (thai_tok w p) H)) as S.
  destruct (NextWordStop ct w p brk) as [e| | |]; cbn [Sat] in S; try contradiction. exists e. apply wt_iff. exact S.
Qed.
Lemma ft_fun p q q' : foreignTo w p q -> foreignTo w p q' -> q = q'.
Proof.
  intros [A B C E] [A' B' C' E']. destruct (Nat.lt_total q q') as [L|[L|L]]; [exfalso|exact L|exfalso].
  - destruct E as [E|E]; [lia|]. apply (C' q); [lia|exact E].
  - destruct E' as [E'|E']; [lia|]. apply (C q'); [lia|exact E'].
Qed.

(** ** Listed words *)
Lemma applicable_text d p q k : wordTo p q -> dict = Some d ->
  applicable ct w d p q k <-> (exists v, holds d k v) /\ k <> [] /\ ~ In fullStop k /\ exists r, between w p q = k ++ r /\ endOrSyl r.
Proof.
  intros W Ed. pose proof W as [A B C _ _]. unfold applicable, writtenAt. rewrite (between_skip w p q) by lia. split.
  - intros (H1 & H2 & H3 & (r & E) & L & G). split; [exact H1|]. split; [exact H2|]. split.
    { intros I. apply H3 in I. unfold fullStop in I. lia. }
    assert (Lk : length k <= length (between w p q)) by (rewrite between_len by lia; lia).
    exists (skipn (length k) (between w p q)).
    assert (Ek : between w p q = k ++ skipn (length k) (between w p q)).
    { rewrite <- (firstn_skipn (length k) (between w p q)) at 1. f_equal.
      apply (f_equal (firstn (length k))) in E. rewrite !firstn_app in E.
      replace (length k - length (between w p q)) with 0 in E by lia. rewrite Nat.sub_diag, firstn_all in E.
      cbn [firstn] in E. rewrite !app_nil_r in E. exact E. }
    split; [exact Ek|]. destruct (skipn (length k) (between w p q)) as [|c t] eqn:Es; [exact I|]. cbn [endOrSyl].
    destruct G as [G|(c' & G & Gc)].
    + apply (f_equal (@length N)) in Es. rewrite skipn_length, between_len in Es by lia. cbn [length] in Es. lia.
    + assert (Lq : p + length k < q).
      { apply (f_equal (@length N)) in Es. rewrite skipn_length, between_len in Es by lia. cbn [length] in Es. lia. }
      rewrite <- (between_nth w p q (length k) Lq B), Ek, nth_error_app2, Nat.sub_diag in G by lia. cbn [nth_error] in G.
      injection G as ->. exact Gc.
  - intros (H1 & H2 & H3 & r & E & G). split; [exact H1|]. split; [exact H2|].
    assert (Ll : length k + length r = q - p).
    { apply (f_equal (@length N)) in E. rewrite between_len, app_length in E by lia. lia. }
    split; [|split; [exists (r ++ skipn q w); rewrite E, <- app_assoc; reflexivity|split; [lia|]]].
    + intros c Hc. destruct (In_nth_error _ _ Hc) as (i & Ei).
      assert (Li : i < length k) by (apply nth_error_Some; congruence).
      assert (Ew : nth_error w (p + i) = Some c).
      { rewrite <- (between_nth w p q i) by lia. rewrite E, nth_error_app1 by lia. exact Ei. }
      destruct (C (p + i) ltac:(lia)) as (c' & Ec & T). rewrite Ew in Ec. injection Ec as <-.
      apply thai_range in T. destruct T as [->|T]; [destruct (H3 Hc)|lia].
    + destruct r as [|c r]; [left; cbn [length] in Ll; lia|]. right. exists c. split; [|exact G].
      rewrite <- (between_nth w p q (length k)) by (cbn [length] in Ll; lia). rewrite E, nth_error_app2, Nat.sub_diag by lia. reflexivity.
Qed.

(** ** One step *)
Definition Next (s : ParseState) (es : list (Z * Syl)) (p : nat) (lk : bool) (s' : ParseState) : Prop :=
  sPos s' = p /\ sLinked s' = lk /\
  forall f t v, PHas (sDag s') f t v <->
    PHas (sDag s) f t v \/ exists v0, In (f, v0) es /\ endPos v0 = t /\ syl_eqb v0 v = true.

Lemma takes_text s k strs s' : takesWord s k strs s' ->
  Next s (flat_map (fun s0 => along (zn (sPos s)) (shiftEndPos (zn (sPos s)) s0)) strs) (sPos s + length k) false s'.
Proof.
  intros (A & B & C & E). split; [exact A|]. split; [exact C|]. intros f x v. rewrite E.
  split; (intros [X|X]; [left; exact X|right]).
  - destruct X as (str & v0 & X1 & X2 & X3). apply strEdges_along in X2. exists v0. split; [|tauto].
    apply in_flat_map. exists str. tauto.
  - destruct X as (v0 & X1 & X2 & X3). apply in_flat_map in X1. destruct X1 as (str & X1 & X4).
    exists str, v0. split; [exact X1|]. split; [|exact X3]. apply strEdges_along. auto.
Qed.
Lemma em_moves p u y e : norm' u e = toEm u y -> (forall q, preSyl (emSyl e) = Some q -> literal q = []) ->
  forall f x v, In (f, x, v) (emEdges p (mv p e)) <->
    In (f, v) (moves p (preF y) (saidF y) (p + pos u (rRest y))) /\ endPos v = x.
Proof.
  intros E Q f x v. unfold norm', toEm in E. injection E as E1 E2 E3 E4 E5 E6 E7 E8 E9.
  unfold emEdges, moves, preF. cbv zeta. change (emSyl (mv p e)) with (setPos (emSyl e) (p + pPos (emSyl e))).
  change (emPos (mv p e)) with (p + emPos e). cbn [setPos preSyl]. rewrite <- E2, E1.
  set (z := p + pos u (rRest y)).
  assert (M : mainSyl (setPos (emSyl e) (p + pPos (emSyl e))) (zn z) = sylAt (saidF y) (zn z)).
  { unfold mainSyl, sylAt, saidF, deadF, setPos. cbn [saSound saSecond saVowel saFinal saTone iConsSound iConsClass pCons2 pVowel eConsClass pTone].
    rewrite E3, E4, E5, E6, E7, E8. reflexivity. }
  rewrite M. destruct (preSyl (emSyl e)) as [q|]; cbn [option_map In].
  - fold (marker p z).
    assert (S : setEndPos q (marker p z) = sylAt (saidOf q) (marker p z)).
    { specialize (Q q eq_refl). destruct q; cbn in *. subst. reflexivity. }
    rewrite S. split.
    + intros [X|[X|[]]]; inj X; auto.
    + intros ([X|[X|[]]] & Y); inj X; auto.
  - split; [intros [X|[]]; inj X; auto|intros ([X|[]] & Y); inj X; auto].
Qed.

(** ** Letters by name *)
Lemma dot_notCons : th_wcisthcons ct 46%N = false. Proof. reflexivity. Qed.
Lemma scan_app g : forall j i m c0 z, skipn i w = g ++ z -> Forall (fun c => consonant c = true) g -> m <= 4 ->
  abbrScan ct (length g + j) w i m c0 =
  if 4 <? m + length g then Ok None else abbrScan ct j w (i + length g) (m + length g) (last g c0).
Proof.
  induction g as [|c g IH]; intros j i m c0 z H F M.
  - cbn [length Nat.add last]. rewrite !Nat.add_0_r. destruct (Nat.ltb_spec 4 m); [lia|reflexivity].
  - inversion F as [|? ? F1 F2]; subst. cbn [length Nat.add abbrScan]. cbn [app] in H.
    rewrite (at_here _ _ _ _ H). cbn [bind]. rewrite isCons_eq, F1.
    destruct (Nat.ltb_spec 4 (S m)) as [L|L].
    + destruct (Nat.ltb_spec 4 (m + S (length g))); [reflexivity|lia].
    + replace (S i) with (i + 1) by lia. rewrite (IH j (i + 1) (S m) c z (proj2 (here_nth _ _ _ _ H)) F2 L).
      replace (m + S (length g)) with (S m + length g) by lia. replace (i + S (length g)) with (i + 1 + length g) by lia.
      destruct (4 <? S m + length g); [reflexivity|]. f_equal.
      destruct g as [|b g]; [reflexivity|]. change (last (c :: b :: g) c0) with (last (b :: g) c0).
      clear. revert b. induction g as [|a g IH]; intros b; [reflexivity|]. exact (IH a).
Qed.
Lemma split_cons (t : list N) : exists g z, t = g ++ z /\ Forall (fun c => consonant c = true) g /\
  (z = [] \/ exists c y, z = c :: y /\ consonant c = false).
Proof.
  induction t as [|c t (g & z & -> & F & H)]; [exists [], []; auto|].
  destruct (consonant c) eqn:E.
  - exists (c :: g), z. auto.
  - exists [], (c :: g ++ z). split; [reflexivity|]. split; [constructor|]. right. eauto.
Qed.
Lemma split_same (g g' z z' : list N) : g ++ z = g' ++ z' ->
  Forall (fun c => consonant c = true) g -> Forall (fun c => consonant c = true) g' ->
  (z = [] \/ exists c y, z = c :: y /\ consonant c = false) -> (z' = [] \/ exists c y, z' = c :: y /\ consonant c = false) ->
  g = g' /\ z = z'.
Proof.
  revert g'. induction g as [|a g IH]; intros [|b g'] E F F' H H'; cbn [app] in E.
  - auto.
  - subst z. inversion F'; subst. destruct H as [H|(c & y & H & Hc)]; [discriminate|]. inj H. congruence.
  - subst z'. inversion F; subst. destruct H' as [H'|(c & y & H' & Hc)]; [discriminate|]. inj H'. congruence.
  - inversion F; inversion F'; subst. injection E as -> E. destruct (IH g' E) as (-> & ->); auto.
Qed.
Lemma spelled_form p g z s r : Spelled p (g ++ z) s r -> Forall (fun c => consonant c = true) g ->
  (z = [] \/ exists c y, z = c :: y /\ consonant c = false) ->
  (length g <= 4 /\ exists y, z = 46%N :: y) \/ (z = [] /\ length g = 1).
Proof.
  intros H F Hz. inversion H as [g' r' N L F' E E1 E2|r' E E1 E2|c Hc E E1 E2]; subst s r.
  - destruct (split_same g' g (fullStop :: r') z E F' F) as (-> & <-).
    + right. exists 46%N, r'. split; reflexivity.
    + exact Hz.
    + left. split; [exact L|]. exists r'. reflexivity.
  - destruct (split_same [] g (fullStop :: r') z E (Forall_nil _) F) as (<- & <-).
    + right. exists 46%N, r'. split; reflexivity.
    + exact Hz.
    + left. split; [cbn; lia|]. exists r'. reflexivity.
  - destruct (split_same [c] g [] z E) as (<- & <-); auto.
Qed.

Lemma name_test p q : wordTo p q ->
  (match p with O => Ok true | S i => c <- at16 w i ;; Ok ((c =? 32)%N || (c =? 46)%N) end)%res = Ok true /\ namePlace w p \/
  (match p with O => Ok true | S i => c <- at16 w i ;; Ok ((c =? 32)%N || (c =? 46)%N) end)%res = Ok false /\ ~ namePlace w p.
Proof.
  intros [A B _ _ _]. destruct p as [|i]; [left; split; [reflexivity|left; reflexivity]|].
  unfold at16, namePlace. replace (S i - 1) with i by lia.
  destruct (nth_error w i) as [c|] eqn:E; [|apply nth_error_None in E; lia]. cbn [bind].
  destruct ((c =? 32)%N || (c =? 46)%N) eqn:T; [left|right]; (split; [reflexivity|]).
  - right. exists c. split; [reflexivity|]. apply orb_true_iff in T. rewrite !N.eqb_eq in T. exact T.
  - intros [X|(c' & X & Y)]; [lia|]. injection X as <-. apply orb_false_iff in T. rewrite !N.eqb_neq in T. unfold fullStop in Y. tauto.
Qed.
Lemma abbr_text p q : wordTo p q ->
  (namePlace w p /\ exists s r, Spelled (zn p) (between w p q) s r /\
     abbrAct ct w p q = Ok (Some (mkAct (q - length r) q false false (strEdges (zn p) s)))) \/
  (~ (namePlace w p /\ exists s r, Spelled (zn p) (between w p q) s r) /\ abbrAct ct w p q = Ok None).
Proof.
  intros W. pose proof W as [A B _ _ _]. unfold abbrAct.
  destruct (name_test p q W) as [(-> & NP)|(-> & NP)]; cbn [bind negb]; [|right; split; [tauto|reflexivity]].
  destruct (split_cons (between w p q)) as (g & z & Et & F & Hz).
  pose proof (between_skip w p q ltac:(lia) B) as Hs. rewrite Et, <- app_assoc in Hs.
  assert (Lt : length g + length z = q - p) by (rewrite <- app_length, <- Et; apply between_len; lia).
  rewrite <- Lt, (scan_app g (length z) p 0 0%N _ Hs F ltac:(lia)). cbn [Nat.add].
  destruct (Nat.ltb_spec 4 (length g)) as [L|L]; cbn [bind].
  { right. split; [|reflexivity]. intros (_ & s & r & S). rewrite Et in S. apply spelled_form in S; auto. lia. }
  destruct z as [|c y].
  - cbn [length abbrScan bind]. destruct g as [|c [|c2 g]]; [cbn in Lt; lia| |].
    + left. split; [exact NP|]. inversion F as [|? ? F1 _]; subst. cbn [length last]. change (1 <? 1) with false. cbn [andb].
      exists [nameOf c (zn p + 1)], []. split; [rewrite Et; constructor; exact F1|].
      replace (p + 1 - p) with 1 by lia. cbn [abbrEs]. destruct (Nat.leb_spec (p + 1) p); [lia|].
      cbn [app] in Hs. rewrite (at_here _ _ _ _ Hs). cbn [bind]. rewrite isCons_eq, F1, Nat.ltb_irrefl. cbn [bind].
      destruct (letterName_tables ct ct_ok c F1) as (k & T1 & T2 & T3). rewrite T1, T2. cbn [bind]. rewrite T3, Nat.leb_refl. cbn [bind].
      cbn [length] in *. replace (p + 1) with q by lia. replace (q - 0) with q by lia. do 3 f_equal.
      cbn [strEdges]. replace (zn p + 1)%Z with (zn q) by lia. rewrite <- (name_eq c q F1). reflexivity.
    + right. split.
      * intros (_ & s & r & S). rewrite Et in S. apply spelled_form in S; auto.
        destruct S as [(_ & y & X)|(_ & X)]; [discriminate|cbn in X; lia].
      * change (1 <? length (c :: c2 :: g)) with true. cbn [andb].
        assert (X : consonant (last (c :: c2 :: g) 0%N) = true).
        { rewrite Forall_forall in F. apply F. clear. generalize (c2 :: g) as l. intros l. revert c. induction l as [|b l IH]; intros c; [left; reflexivity|].
          change (last (c :: b :: l) 0%N) with (last (b :: l) 0%N). right. apply IH. }
        destruct (N.eqb_spec (last (c :: c2 :: g) 0%N) 46) as [Q|Q]; [rewrite Q in X; discriminate|]. reflexivity.
  - destruct Hz as [Hz|(c' & y' & Hz & Hc)]; [discriminate|]. injection Hz as <- <-.
    cbn [length abbrScan]. pose proof (here_app _ g p _ Hs) as H2. cbn [app] in H2. rewrite (at_here _ _ _ _ H2). cbn [bind].
    rewrite isCons_eq, Hc. destruct (N.eqb_spec 46 c) as [<-|Nc].
    + destruct (Nat.ltb_spec 4 (length g)); [lia|]. cbn [bind]. change (46 =? 46)%N with true. rewrite andb_false_r.
      left. split; [exact NP|]. destruct g as [|c g].
      * exists [SylLiteral (zn p + 1) [fullStop]], y. split; [rewrite Et; constructor|].
        cbn [length app] in *. replace (S (p + 0) - p) with 1 by lia. cbn [abbrEs]. destruct (Nat.leb_spec (S (p + 0)) p); [lia|].
        rewrite (at_here _ _ _ _ Hs). cbn [bind]. rewrite dot_notCons. replace (S (p + 0)) with (p + 1) by lia.
        rewrite Nat.leb_refl. cbn [bind]. replace (q - length y) with (p + 1) by lia. do 3 f_equal.
        cbn [strEdges]. replace (zn p + 1)%Z with (zn (p + 1)) by lia. reflexivity.
      * exists (names (zn p) (c :: g)), y. split; [rewrite Et; constructor; [discriminate|lia|exact F]|].
        replace (S (p + length (c :: g))) with (p + length (c :: g) + 1) by lia.
        rewrite (es_group ct ct_ok dot_notCons w (c :: g) (p + length (c :: g) + 1 - p) p _ Hs F ltac:(discriminate) ltac:(lia)). cbn [bind].
        rewrite (names_eq (c :: g) p F). cbn [length] in *. replace (q - length y) with (p + S (length g) + 1) by lia. reflexivity.
    + right. split; [|reflexivity]. intros (_ & s & r & S). rewrite Et in S. apply spelled_form in S; eauto.
      destruct S as [(_ & y0 & X)|(X & _)]; [injection X as -> _; congruence|discriminate].
Qed.

(** ** The rules *)
Lemma lead_notc l c lk stop : leadVowel l = true -> consonant c = false -> l <> UTH_SARA_E ->
  ruleEms ct [l; c] 0 stop lk l = Ok [].
Proof.
  intros Hl Hc Hn. unfold ruleEms. rewrite isCons_eq, isLdv_eq, Hl, (lead_notCons l Hl).
  destruct (N.eqb_spec UTH_SARA_E l); [congruence|].
  unfold ParseOtherLV, MatchInitCons, at16. cbn [nth_error Nat.add bind]. rewrite isCons_eq, Hc. reflexivity.
Qed.
Lemma eager_two l c lk : eagerVowel l -> ruleEms ct [l; c] 0 1 lk l = ruleEms ct [l; c] 0 2 lk l.
Proof.
  intros H. destruct (consonant c) eqn:Ec.
  - unfold eagerVowel, oneOf in H. rewrite <- isCons_eq in Ec. vm_compute in H.
    assert (L : leadVowel l = true /\ l <> UTH_SARA_E).
    { destruct H as [<-|[<-|[<-|[<-|[]]]]]; (split; [reflexivity|discriminate]). }
    destruct L as (L & Ln). unfold ruleEms. rewrite isCons_eq, isLdv_eq, L, (lead_notCons l L).
    destruct (N.eqb_spec UTH_SARA_E l); [congruence|].
    unfold ParseOtherLV, MatchInitCons, secondPart, paliPart, at16. cbn [nth_error Nat.add bind]. rewrite Ec. cbn [negb].
    destruct (InitConsSound c) as [s| | |]; cbn [bind]; [|reflexivity..].
    destruct (InitConsClass c) as [k| | |]; cbn [bind]; [|reflexivity..].
    change (2 <? 1) with false. change (2 <? 2) with false. cbn [bind app].
    destruct H as [<-|[<-|[<-|[<-|[]]]]]; vm_compute; reflexivity.
  - assert (L : leadVowel l = true /\ l <> UTH_SARA_E).
    { unfold eagerVowel, oneOf in H. vm_compute in H. destruct H as [<-|[<-|[<-|[<-|[]]]]]; (split; [reflexivity|discriminate]). }
    rewrite !lead_notc by tauto. reflexivity.
Qed.
Lemma seen_cases p q c : nth_error w p = Some c ->
  (seenTo w p q = q + 1 /\ q = p + 1 /\ eagerVowel c) \/ (seenTo w p q = q /\ (q = p + 1 -> leadVowel c = true -> c = UTH_SARA_E)).
Proof.
  intros E. unfold seenTo. rewrite E. destruct (memN c (letters "แโใไ")) eqn:M; cbn [andb].
  - destruct (Nat.eqb_spec q (p + 1)) as [Q|Q]; [left|right].
    + split; [reflexivity|]. split; [exact Q|]. apply memN_In. exact M.
    + split; [reflexivity|]. lia.
  - right. split; [reflexivity|]. intros _ L. unfold leadVowel in L.
    destruct (N.eqb_spec c UTH_SARA_E) as [X|X]; [exact X|exfalso].
    apply memN_notIn in M. apply M. vm_compute. vm_compute in X. rewrite !andb_true_iff, !N.leb_le in L.
    assert (3649 = c \/ 3650 = c \/ 3651 = c \/ 3652 = c)%N by lia. tauto.
Qed.

Lemma rules_text p q lk c : wordTo p q -> nth_error w p = Some c -> seenTo w p q <= n ->
  let u := between w p (seenTo w p q) in
  exists l0, ruleEms ct w p q lk c = Ok (map (mv p) l0) /\ map (norm' u) l0 = map (toEm u) (readsF lk u) /\
    forall e, In e l0 -> 0 < emPos e <= length u /\ forall x, preSyl (emSyl e) = Some x -> literal x = [].
Proof.
  intros W E L u. pose proof W as [A B _ _ _].
  assert (Ls : p < seenTo w p q) by (destruct (seen_cases p q c E) as [(-> & _)|(-> & _)]; lia).
  destruct (between_cons w p _ c Ls L E) as (t & Eu). fold u in Eu.
  assert (Lu : length u = seenTo w p q - p) by (apply between_len; lia).
  assert (X : ruleEms ct u 0 (q - p) lk c = ruleEms ct u 0 (length u) lk c).
  { rewrite Lu. destruct (seen_cases p q c E) as [(Es & Q & G)|(Es & _)]; [|rewrite Es; reflexivity].
    rewrite Es in *. subst q. rewrite Eu in *. cbn [length] in Lu. destruct t as [|d [|? ?]]; cbn [length] in Lu; try lia.
    replace (p + 1 - p) with 1 by lia. replace (p + 1 + 1 - p) with 2 by lia. apply eager_two. exact G. }
  assert (G : gives u (ruleEms ct u (pos u u) (length u) lk c) (readsF lk u)).
  { rewrite Eu. apply readsF_ok; [exists []; reflexivity|]. intros Hl Hn ->.
    rewrite Eu in Lu. cbn [length] in Lu. destruct (seen_cases p q c E) as [(Es & Q & _)|(Es & Q)]; [lia|].
    apply Hn, Q; [lia|exact Hl]. }
  unfold pos in G at 1. rewrite Nat.sub_diag, <- X in G. destruct G as (l0 & El & M).
  assert (Su : w = firstn p w ++ u ++ skipn (seenTo w p q) w) by (apply between_split; lia).
  pose proof (sim_ruleEms ct (firstn p w) u (skipn (seenTo w p q) w) 0 (q - p) lk c l0 El) as S.
  rewrite <- Su, first_len, Nat.add_0_r in S by lia. replace (p + (q - p)) with q in S by lia.
  exists l0. split; [exact S|]. split; [exact M|]. intros e He.
  rewrite X in El.
  pose proof (ruleEms_sat ct u True (or_introl I) (or_introl I) 0 (length u) lk c ltac:(lia) (le_n _)) as Sat0.
  rewrite El in Sat0. cbn [Sat] in Sat0. rewrite Forall_forall in Sat0.
  destruct (Sat0 ltac:(rewrite Eu; reflexivity) e He) as (G & _).
  pose proof (eg_lo _ _ _ _ _ _ G). pose proof (eg_hi _ _ _ _ _ _ G).
  split; [split; [lia|]|intros x Hx; apply (eg_pre _ _ _ _ _ _ G x Hx)].
  assert (Hi : In (norm' u e) (map (toEm u) (readsF lk u))) by (rewrite <- M; apply in_map; exact He).
  apply in_map_iff in Hi. destruct Hi as (y & Ey & _). apply (f_equal emPos) in Ey. cbn [norm' toEm emPos] in Ey.
  rewrite <- Ey. unfold pos. lia.
Qed.
Lemma rules_stuck p q lk c : wordTo p q -> nth_error w p = Some c -> n < seenTo w p q -> ruleEms ct w p q lk c = Throw.
Proof.
  intros [A B _ _ _] E L. destruct (seen_cases p q c E) as [(Es & Q & G)|(Es & _)]; [|lia].
  assert (Hl : leadVowel c = true /\ c <> UTH_SARA_E).
  { unfold eagerVowel, oneOf in G. vm_compute in G. destruct G as [<-|[<-|[<-|[<-|[]]]]]; (split; [reflexivity|discriminate]). }
  destruct Hl as (Hl & Hn). unfold ruleEms. rewrite isCons_eq, isLdv_eq, Hl, (lead_notCons c Hl).
  destruct (N.eqb_spec UTH_SARA_E c); [congruence|].
  unfold ParseOtherLV, MatchInitCons, at16. rewrite E. cbn [bind].
  rewrite (proj2 (nth_error_None w (p + 1))) by lia. reflexivity.
Qed.

(** ** One step within a word *)
Notation step := (stepStates ct w dict brk).
Lemma dot_word p q : wordTo p q -> nth_error w p = Some fullStop -> exists y, between w p q = fullStop :: y.
Proof. intros [A B _ _ _] E. eapply between_cons; eauto. Qed.
Lemma stepN s q l : SI ct w brk s -> sStop s = q -> wordTo (sPos s) q -> ~ tacit (sPos s) ->
  (forall k r strs, ~ listedWord D (between w (sPos s) q) k r strs) ->
  stepStates ct w None brk s = Ok l ->
  (forall s', In s' l -> exists es e lk', Pass (sPos s) (sLinked s) es e lk' /\ sPos s < e <= n /\ Next s es e lk' s') /\
  (forall es e lk', Pass (sPos s) (sLinked s) es e lk' -> exists s', In s' l /\ Next s es e lk' s').
Proof.
  intros HS Hq W NT NL E. set (p := sPos s) in *. pose proof W as [A B C _ _].
  rewrite stepStates_acts in E. unfold acts in E. rewrite Hq in E. clear Hq. fold p in E.
  destruct (Nat.leb_spec q p); [lia|]. cbn [bind] in E.
  assert (NF : forall q', ~ foreignTo w p q').
  { intros q' [F1 _ F2 _]. apply (F2 p); [lia|]. apply C. lia. }
  destruct (abbr_text p q W) as [(NP & s0 & r0 & Sp & Ea)|(NS & Ea)]; rewrite Ea in E; cbn [bind] in E.
  - cbn [mapM applyAct aStretch aPos aStop aEdges aLinked bind] in E. injection E as <-.
    assert (Nx : Next s (along (zn p) s0) (q - length r0) false
      (mkState (q - length r0) q (addAll (sDag s) (strEdges (zn p) s0)) false)).
    { split; [reflexivity|]. split; [reflexivity|]. intros f x v. cbn [sDag]. rewrite addAll_Has.
      split; (intros [X|(v0 & X & Y)]; [left; exact X|right]; exists v0).
      - apply strEdges_along in X. tauto.
      - split; [apply strEdges_along; tauto|tauto]. }
    assert (Lr : length r0 < q - p).
    { rewrite <- (between_len w p q) by lia. inversion Sp; subst; rewrite ?app_length; cbn [length]; lia. }
    assert (Uq : forall s1 r1, Spelled (zn p) (between w p q) s1 r1 -> s1 = s0 /\ r1 = r0).
    { intros s1 r1 S1. destruct (abbr_text p q W) as [(_ & s2 & r2 & Sp2 & Ea2)|(X & _)]; [|exfalso; apply X; eauto].
      clear - S1 Sp. revert S1 Sp. generalize (between w p q) as t. intros t S1 Sp.
      inversion S1 as [g r N L F E E1 E2|r E E1 E2|c Hc E E1 E2]; subst t s1 r1;
      inversion Sp as [g' r' N' L' F' E' E1' E2'|r' E' E1' E2'|c' Hc' E' E1' E2']; subst s0 r0.
      - destruct (split_same g' g (fullStop :: r') (fullStop :: r) E' F' F) as (-> & X); try (right; eexists _, _; split; reflexivity).
        injection X as ->. auto.
      - destruct (split_same [] g (fullStop :: r') (fullStop :: r) E' (Forall_nil _) F) as (<- & X); try (right; eexists _, _; split; reflexivity).
        congruence.
      - destruct (split_same [c'] g [] (fullStop :: r) E' ltac:(auto) F) as (<- & X); try (left; reflexivity); try (right; eexists _, _; split; reflexivity).
        discriminate.
      - destruct (split_same g' [] (fullStop :: r') (fullStop :: r) E' F' (Forall_nil _)) as (-> & X); try (right; eexists _, _; split; reflexivity).
        congruence.
      - auto.
      - exfalso; subst; match goal with H : consonant _ = true |- _ => vm_compute in H; discriminate H end.
      - destruct (split_same g' [c] (fullStop :: r') [] E' F' ltac:(auto)) as (-> & X); try (left; reflexivity); try (right; eexists _, _; split; reflexivity).
        discriminate.
      - exfalso; subst; match goal with H : consonant _ = true |- _ => vm_compute in H; discriminate H end.
      - subst; auto. }
    split.
    + intros s' [<-|[]]. exists (along (zn p) s0), (q - length r0), false. split; [|split; [lia|exact Nx]].
      eapply P_names; eauto.
    + intros es e lk' P. inversion P as [q' F|q' k r strs W' LW|q' s1 r1 W' _ _ S1|q' pre x r lk1 W' _ X _ _]; subst.
      * destruct (NF _ F).
      * rewrite (wt_fun _ _ _ W' W) in LW. destruct (NL _ _ _ LW).
      * rewrite (wt_fun _ _ _ W' W) in *. destruct (Uq _ _ S1) as (-> & ->). eexists. split; [left; reflexivity|exact Nx].
      * rewrite (wt_fun _ _ _ W' W) in *. exfalso. apply X. eauto.
  - destruct (C p ltac:(lia)) as (c & Ec & Tc).
    unfold ruleActs, at16 in E. rewrite Ec in E. cbn [bind] in E.
    assert (Nd : c <> fullStop).
    { intros ->. apply NT. split; [exact Ec|]. intros NP. apply NS. split; [exact NP|].
      destruct (dot_word p q W Ec) as (y & Ey). eexists _, y. rewrite Ey. constructor. }
    destruct (N.eqb_spec 46 c) as [X|_]; [exfalso; apply Nd; symmetry; exact X|]. rewrite andb_false_r in E.
    destruct (le_lt_dec (seenTo w p q) n) as [L|L].
    2: { rewrite (rules_stuck p q _ c W Ec L) in E. discriminate. }
    destruct (rules_text p q (sLinked s) c W Ec L) as (l0 & El & M & Fa). set (u := between w p (seenTo w p q)) in *.
    rewrite El in E. cbn [bind] in E.
    assert (Ls : p < seenTo w p q) by (destruct (seen_cases p q c Ec) as [(-> & _)|(-> & _)]; lia).
    assert (Lu : length u = seenTo w p q - p) by (apply between_len; lia).
    destruct (mapM_applyAct s (map (emAct p q) (map (mv p) l0)) (proj1 HS)) as (l' & El' & F).
    rewrite El' in E. injection E as <-.
    assert (K : forall e y s', In e l0 -> norm' u e = toEm u y ->
      applyAct s (emAct p q (mv p e)) = Ok s' ->
      Next s (moves p (preF y) (saidF y) (p + pos u (rRest y))) (p + pos u (rRest y)) (rShared y) s').
    { intros e y s' He Ey Es. unfold applyAct, emAct in Es. cbn [aStretch aPos aStop aEdges aLinked] in Es. injection Es as <-.
      unfold Next. cbn [sPos sStop sLinked sDag].
      pose proof (f_equal emPos Ey) as Q1. pose proof (f_equal emLinked Ey) as Q2. cbn [norm' toEm emPos emLinked] in Q1, Q2.
      split; [change (emPos (mv p e)) with (p + emPos e); rewrite Q1; reflexivity|]. split; [exact Q2|].
      intros f x v. rewrite addAll_Has. destruct (Fa e He) as (_ & Lit).
      split; (intros [X|(v0 & X & Y)]; [left; exact X|right]; exists v0).
      - apply (em_moves p u y e Ey Lit) in X. tauto.
      - split; [apply (em_moves p u y e Ey Lit); tauto|tauto]. }
    assert (Ep : forall y, Suf u (rRest y) -> p + pos u (rRest y) = seenTo w p q - length (rRest y)).
    { intros y Hy. apply suf_le in Hy. unfold pos. lia. }
    assert (Hs0 : Suf u u) by (exists []; reflexivity).
    split.
    + intros s' Hs'. destruct (Forall2_in_r _ _ _ _ F Hs') as (a & Ha & Es). rewrite map_map in Ha. apply in_map_iff in Ha.
      destruct Ha as (e & <- & He). assert (In (norm' u e) (map (toEm u) (readsF (sLinked s) u))) as Hy
        by (rewrite <- M; apply in_map; exact He).
      apply in_map_iff in Hy. destruct Hy as (y & Ey & Hy). symmetry in Ey. apply found_reads in Hy.
      pose proof (reads_suf u _ _ _ _ _ _ Hs0 Hy) as Sf.
      pose proof (K e y s' He Ey Es) as Nx. rewrite (Ep y Sf) in Nx.
      exists (moves p (preF y) (saidF y) (seenTo w p q - length (rRest y))), (seenTo w p q - length (rRest y)), (rShared y).
      split; [|split; [|exact Nx]].
      * eapply P_read; eauto.
      * rewrite <- (Ep y Sf). pose proof (f_equal emPos Ey) as Q1. cbn [norm' toEm emPos] in Q1. rewrite <- Q1.
        destruct (Fa e He) as (Q & _). lia.
    + intros es e lk' P. inversion P as [q' Fo|q' k r strs W' LW|q' s1 r1 W' _ NP S1|q' pre x r lk1 W' _ _ _ R]; subst.
      * destruct (NF _ Fo).
      * rewrite (wt_fun _ _ _ W' W) in LW. destruct (NL _ _ _ LW).
      * rewrite (wt_fun _ _ _ W' W) in *. exfalso. apply NS. eauto.
      * rewrite (wt_fun _ _ _ W' W) in *. fold u in R. pose proof (reads_suf u _ _ _ _ _ _ Hs0 R) as Sf.
        destruct (reads_found _ _ _ _ _ _ R) as (y & Hy & <- & <- & <- & <-).
        assert (In (toEm u y) (map (norm' u) l0)) as He by (rewrite M; apply in_map; exact Hy).
        apply in_map_iff in He. destruct He as (e & Ey & He).
        destruct (Forall2_in_l _ _ _ (emAct p q (mv p e)) F ltac:(rewrite map_map; apply (in_map (fun e => emAct p q (mv p e))); exact He)) as (s' & Hs' & Es).
        exists s'. split; [exact Hs'|]. rewrite <- (Ep y Sf). eapply K; eauto.
Qed.

Lemma step_pass s l : SI ct w brk s -> sPos s < sStop s -> ~ tacit (sPos s) -> step s = Ok l ->
  (forall s', In s' l -> exists es e lk', Pass (sPos s) (sLinked s) es e lk' /\ sPos s < e <= n /\ Next s es e lk' s') /\
  (forall es e lk', Pass (sPos s) (sLinked s) es e lk' -> exists s', In s' l /\ Next s es e lk' s').
Proof.
  intros HS L NT E. pose proof HS as (_ & _ & _ & W0). specialize (W0 L). pose proof W0 as W. apply wt_iff in W.
  set (q := sStop s) in *. pose proof W as [A B C _ _].
  pose proof (stepN s q l HS eq_refl W NT) as R.
  assert (X0 : dict = None \/ exists d, dict = Some d) by (destruct dict; eauto).
  destruct X0 as [Ed|(d & Ed)].
  { apply R; [|rewrite <- E, Ed; reflexivity]. intros k r strs ((_ & _ & d & v & X & _) & _). congruence. }
  assert (Es := E). rewrite Ed in E. rewrite stepStates_acts, Ed in Es. unfold acts in Es. fold q in Es.
  destruct (Nat.leb_spec q (sPos s)); [lia|].
  destruct (excActs ct w (sPos s) q d) as [al| | |] eqn:Ea; cbn [bind] in Es; try discriminate.
  pose proof (excActs_sat ct w (Some d) brk True (or_introl I) d (sPos s) q false eq_refl L ltac:(lia)) as X.
  rewrite Ea in X. cbn [Sat] in X. destruct X as (X1 & X2).
  destruct al as [|a al].
  - specialize (X2 eq_refl). apply R.
    + intros k r strs ((Et & Er & d' & v & Q & Hv & Hk & Hl) & Hn & Hf). rewrite Ed in Q. injection Q as <-. apply (X2 k).
      apply (applicable_text d (sPos s) q k W Ed). split; [eauto|]. split; [exact Hk|]. split; [exact Hf|]. exists r. auto.
    + rewrite <- E. symmetry. apply exc_none; [exact L|fold q; lia|exact X2].
  - assert (exists k0, applicable ct w d (sPos s) q k0) as (k0 & Ap).
    { destruct (excActs_in ct w _ _ _ _ _ Ea (or_introl eq_refl)) as (m & Hm & Em).
      pose proof (excAct_sat ct w (Some d) brk True (or_introl I) d (sPos s) q false m eq_refl L ltac:(lia) Hm) as Y.
      rewrite Em in Y. destruct Y as (Y & _). exists (mPre m). apply (Y a eq_refl). }
    destruct (exc_exact ct w d brk s l k0 L ltac:(fold q; lia) Ap E) as (F & G). fold q in F, G.
    assert (WA : forall k strs, applicable ct w d (sPos s) q k -> ParserFacts.listed d k strs ->
      exists r, listedWord D (between w (sPos s) q) k r strs).
    { intros k strs Ak Hl. apply (applicable_text d (sPos s) q k W Ed) in Ak.
      destruct Ak as ((v & Hv) & Hk & Hf & r & Et & Er). exists r. split; [|auto]. split; [exact Et|]. split; [exact Er|].
      exists d, v. auto. }
    assert (NF : forall q', ~ foreignTo w (sPos s) q').
    { intros q' [F1 _ F2 _]. apply (F2 (sPos s)); [lia|]. apply C. lia. }
    split.
    + intros s' Hs'. destruct (F s' Hs') as (k & strs & Ak & Hl & T). destruct (WA k strs Ak Hl) as (r & LW).
      eexists _, _, false. split; [eapply P_word; eauto|]. destruct LW as ((Et & _) & Hk & _). split; [|apply takes_text; exact T].
      apply (f_equal (@length N)) in Et. rewrite between_len, app_length in Et by lia. destruct k; [congruence|]. cbn [length] in *. lia.
    + intros es e lk' P. inversion P as [q' Fo|q' k r strs W' LW|q' s1 r1 W' NL _ _|q' pre x r lk1 W' NL _ _ _]; subst es e lk'.
      * destruct (NF _ Fo).
      * rewrite (wt_fun _ _ _ W' W) in LW. destruct LW as ((Et & Er & d' & v & Q & Hv & Hk & Hl) & _ & Hf). rewrite Ed in Q. injection Q as <-.
        assert (Ak : applicable ct w d (sPos s) q k).
        { apply (applicable_text d (sPos s) q k W Ed). split; [eauto|]. split; [exact Hk|]. split; [exact Hf|]. exists r. auto. }
        destruct (G k Ak) as (strs' & s' & Hl' & Hs' & T).
        assert (strs' = strs) as ->.
        { destruct Hl as (x1 & Y1 & Y2), Hl' as (x2 & Y3 & Y4). rewrite Y1 in Y3. injection Y3 as <-. rewrite Y2 in Y4. injection Y4 as <-. reflexivity. }
        exists s'. split; [exact Hs'|]. apply takes_text. exact T.
      * exfalso. rewrite (wt_fun _ _ _ W' W) in NL. destruct (G k0 Ap) as (strs & s' & Hl & _). destruct (WA k0 strs Ap Hl) as (r0 & LW). exact (NL _ _ _ LW).
      * exfalso. rewrite (wt_fun _ _ _ W' W) in NL. destruct (G k0 Ap) as (strs & s' & Hl & _). destruct (WA k0 strs Ap Hl) as (r0 & LW). exact (NL _ _ _ LW).
Qed.

(** ** Between words *)
Lemma thai_dec p : thaiAt w p \/ ~ thaiAt w p.
Proof.
  unfold thaiAt. destruct (nth_error w p) as [c|]; [|right; intros (c & X & _); discriminate].
  destruct (thaiChar c) eqn:T; [left; eauto|right]. intros (c' & X & Y). congruence.
Qed.
Lemma step_gap s : SI ct w brk s -> sStop s <= sPos s -> sPos s < n ->
  (thaiAt w (sPos s) /\ exists q, wordTo (sPos s) q /\ step s = Ok [mkState (sPos s) q (sDag s) (sLinked s)]) \/
  (~ thaiAt w (sPos s) /\ exists q s', foreignTo w (sPos s) q /\ step s = Ok [s'] /\
    Next s [(zn (sPos s), SylLiteral (zn q) (between w (sPos s) q))] q (sLinked s) s').
Proof.
  intros HS Hs Hp. destruct (thai_dec (sPos s)) as [T|T]; [left|right]; (split; [exact T|]).
  - destruct (wt_exists _ T) as (q & W). exists q. split; [exact W|]. apply gap_norm; auto. apply wt_iff. exact W.
  - pose proof (gapAct_sat ct w dict brk False (or_intror inside) (sPos s) (sStop s) (sLinked s) Hp Hs) as G.
    rewrite stepStates_acts. unfold acts. destruct (Nat.leb_spec (sStop s) (sPos s)); [|lia].
    destruct (gapAct ct w brk (sPos s) (sLinked s)) as [a| | |] eqn:E; cbn [bind Sat] in *; try contradiction.
    inversion G as [e st' es H1 H2 H3 H4 H5| | | |]; subst; try (exfalso; lia).
    destruct H5 as [(L & ->)|(Q & _)].
    + exists e. eexists. split; [|split; [reflexivity|]].
      * constructor; [exact L|lia| |].
        -- intros k Hk. rewrite <- thai_tok. apply H3. exact Hk.
        -- destruct H4 as [(-> & _)|(X & _)]; [auto|right; apply thai_tok; exact X].
      * split; [reflexivity|]. split; [reflexivity|]. intros f t v. cbn [sDag addAll fold_left].
        rewrite addAll_Has. cbn [In]. split; (intros [X|(v0 & X & Y)]; [left; exact X|right]; exists v0).
        -- destruct X as [X|[]]. injection X as <- <- <-. split; [left; reflexivity|]. split; [reflexivity|exact Y].
        -- destruct X as [X|[]]. injection X as <- <-. destruct Y as (<- & Y). split; [left; reflexivity|exact Y].
    + exfalso. destruct H4 as [(X & _)|(X & _)]; [lia|]. apply T, thai_tok. rewrite Q. exact X.
Qed.

(** ** A full stop that is not read by itself *)
Lemma extend_in e es f v : In (f, v) (extend e es) <->
  (In (f, v) es /\ endPos v <> zn e) \/ exists v0, In (f, v0) es /\ endPos v0 = zn e /\ v = setEndPos v0 (zn (e + 1)).
Proof.
  unfold extend. rewrite in_map_iff. split.
  - intros ((f0 & v0) & X & Y). cbn [fst snd] in X. destruct (Z.eqb_spec (endPos v0) (zn e)) as [Q|Q]; injection X as <- <-; [right; eauto|left; auto].
  - intros [(X & Y)|(v0 & X & Y & ->)].
    + exists (f, v). cbn [fst snd]. destruct (Z.eqb_spec (endPos v) (zn e)); [contradiction|]. auto.
    + exists (f, v0). cbn [fst snd]. rewrite Y, Z.eqb_refl. auto.
Qed.
Lemma step_dot s : SI ct w brk s -> sPos s < sStop s -> tacit (sPos s) ->
  exists s', step s = Ok [s'] /\ sPos s' = sPos s + 1 /\ sLinked s' = sLinked s /\
    forall f t v, PHas (sDag s') f t v <-> (PHas (sDag s) f t v /\ t <> zn (sPos s)) \/
     (t = zn (sPos s + 1) /\ PHas (sDag s) f (zn (sPos s)) v).
Proof.
  intros HS L (Ec & NP). pose proof HS as (Wd & _ & _ & W). specialize (W L). apply wt_iff in W. pose proof W as [A B _ _ _].
  set (q := sStop s) in *. destruct (dot_word _ _ W Ec) as (y & Ey).
  assert (E0 : step s = stepStates ct w None brk s).
  { assert (X0 : dict = None \/ exists d, dict = Some d) by (destruct dict; eauto).
    destruct X0 as [->|(d & Ed)]; [reflexivity|]. rewrite Ed. apply exc_none; [exact L|fold q; lia|]. intros k Ak. fold q in Ak.
    apply (applicable_text d (sPos s) q k W Ed) in Ak. destruct Ak as (_ & Hk & Hf & r & Et & _). rewrite Ey in Et.
    destruct k as [|c k]; [congruence|]. injection Et as <- _. apply Hf. left. reflexivity. }
  rewrite E0, stepStates_acts. unfold acts. fold q. destruct (Nat.leb_spec q (sPos s)); [lia|]. cbn [bind].
  destruct (abbr_text (sPos s) q W) as [(X & _)|(_ & ->)]; [contradiction|]. cbn [bind].
  unfold ruleActs, at16. rewrite Ec. cbn [bind]. change (negb (isRuleChar ct fullStop) && (46 =? fullStop)%N) with true. cbv iota.
  cbn [bind mapM]. unfold applyAct. cbn [aStretch aPos aStop aLinked].
  destruct (stretch_spec (sDag s) (sPos s) Wd) as (d' & E & _ & _ & H'). rewrite E. cbn [bind].
  eexists. split; [reflexivity|]. cbn [sPos sLinked sDag]. auto.
Qed.
Definition Plus (B : Z -> Z -> Syl -> Prop) (es : list (Z * Syl)) (s : ParseState) : Prop :=
  forall f t v, PHas (sDag s) f t v <-> B f t v \/ exists v0, In (f, v0) es /\ endPos v0 = t /\ syl_eqb v0 v = true.
Lemma dot_plus (B : Z -> Z -> Syl -> Prop) es s s' : Plus B es s -> (forall f v, ~ B f (zn (sPos s)) v) ->
  (forall f t v, PHas (sDag s') f t v <-> (PHas (sDag s) f t v /\ t <> zn (sPos s)) \/
     (t = zn (sPos s + 1) /\ PHas (sDag s) f (zn (sPos s)) v)) -> Plus B (extend (sPos s) es) s'.
Proof.
  intros P NB H f t v. red in P. rewrite H, (P f t v), (P f (zn (sPos s)) v). split.
  - intros [([X|(v0 & X1 & X2 & X3)] & Y)|(-> & [X|(v0 & X1 & X2 & X3)])].
    + auto.
    + right. exists v0. split; [apply extend_in; left; split; [exact X1|congruence]|auto].
    + destruct (NB _ _ X).
    + right. exists (setEndPos v0 (zn (sPos s + 1))). split; [apply extend_in; right; eauto|]. split; [reflexivity|].
      apply syl_eqb_spoken in X3. apply syl_eqb_spoken. rewrite spoken_setEndPos. exact X3.
  - intros [X|(v0 & X1 & X2 & X3)].
    + left. split; [auto|]. intros ->. exact (NB _ _ X).
    + apply extend_in in X1. destruct X1 as [(X1 & Y)|(v1 & X1 & Y & ->)].
      * left. split; [right; eauto|congruence].
      * right. cbn [setEndPos endPos] in X2. split; [congruence|]. right. exists v1. split; [exact X1|]. split; [exact Y|].
        apply syl_eqb_spoken in X3. rewrite spoken_setEndPos in X3. apply syl_eqb_spoken. exact X3.
Qed.

(** ** Runs *)
Notation Runs := (Run ct w dict brk).
(** The states of the runs, with the state before the first one. *)
Definition Rs (s : ParseState) : Prop := s = s0 \/ Runs s.
Lemma s0_SI : SI ct w brk s0.
Proof. split; [apply dwf_empty|]; cbn; split; [lia|]; split; lia. Qed.
Lemma Rs_SI s : Rs s -> SI ct w brk s.
Proof. intros [->|H]; [apply s0_SI|eapply SI_run; eauto]. Qed.
Lemma step_s0 l : step s0 = Ok l -> exists b, l = [b] /\ skipGap ct w brk s0 = Ok b.
Proof.
  rewrite stepStates_acts, skipGap_act. unfold acts. cbn [s0 sPos sStop sLinked Nat.leb].
  unfold gapAct. cbv zeta. destruct (if _ <? n then _ else _) as [q| | |]; cbn [bind mapM]; try discriminate.
  unfold applyAct. cbn [aStretch bind]. intros E. injection E as <-. eexists. split; reflexivity.
Qed.
Lemma Rs_step s l s1 : Rs s -> sPos s < n -> step s = Ok l -> In s1 l -> Runs s1.
Proof.
  intros [->|H] L E I1; [|eapply Run_step; eauto]. destruct (step_s0 l E) as (b & -> & Eb). destruct I1 as [<-|[]].
  exists b. split; [exact Eb|constructor].
Qed.
Lemma Rs_tgt s f t v : Rs s -> PHas (sDag s) f t v -> (nodeRank t <= nodeRank (zn (sPos s)))%Z.
Proof. intros [->|H] P; [destruct P as (v0 & Z & _); destruct Z|eapply run_tgt; eauto using ct_ok]. Qed.
Lemma Rs_new s e f v : Rs s -> sPos s < e -> ~ PHas (sDag s) f (zn e) v.
Proof. intros H L P. apply (Rs_tgt s) in P; [|exact H]. rewrite !rk_zn in P. lia. Qed.

Lemma name_dec p : namePlace w p \/ ~ namePlace w p.
Proof.
  unfold namePlace. destruct (Nat.eq_dec p 0) as [->|N]; [auto|].
  destruct (nth_error w (p - 1)) as [c|]; [|right; intros [X|(c & X & _)]; [lia|discriminate]].
  destruct (N.eq_dec c 32) as [->|N1]; [left; right; eauto|]. destruct (N.eq_dec c fullStop) as [->|N2]; [left; right; eauto|].
  right. intros [X|(c' & X & Y)]; [lia|]. injection X as <-. tauto.
Qed.
Lemma tacit_dec p : tacit p \/ ~ tacit p.
Proof.
  unfold TextGrammar.tacit. destruct (nth_error w p) as [c|]; [|right; intros (X & _); discriminate].
  destruct (N.eq_dec c fullStop) as [->|N]; [|right; intros (X & _); congruence].
  destruct (name_dec p); [right|left]; tauto.
Qed.
Lemma tacit_thai p : tacit p -> thaiAt w p.
Proof. intros (E & _). exists fullStop. auto. Qed.
Lemma tacit_lt p : tacit p -> p < n.
Proof. intros (E & _). apply nth_error_Some. congruence. Qed.
Lemma after_tacit p : tacit p -> ~ tacit (p + 1).
Proof. intros (E & _) (_ & NP). apply NP. right. exists fullStop. replace (p + 1 - 1) with p by lia. auto. Qed.
Lemma start_ntacit : ~ tacit 0.
Proof. intros (_ & NP). apply NP. left. reflexivity. Qed.
Lemma pass_lt p lk es e lk' : Pass p lk es e lk' -> p < n.
Proof. intros P. destruct P as [q [A B _ _]|q ? ? ? [A B _ _ _]|q ? ? [A B _ _ _]|q ? ? ? ? [A B _ _ _]]; lia. Qed.
Lemma spelled_shorter p t s r : Spelled p t s r -> length r < length t.
Proof. intros H. inversion H; subst; rewrite ?app_length; cbn [length]; lia. Qed.
Lemma pass_bound p lk es e lk' : Pass p lk es e lk' -> p < e <= n.
Proof.
  intros P. destruct P as [q [A B _ _]|q k r strs [A B _ _ _] ((E & _) & Hk & _)|q s r [A B _ _ _] _ _ S|q pre x r lk' W _ _ L R].
  - lia.
  - apply (f_equal (@length N)) in E. rewrite between_len, app_length in E by lia. destruct k; [congruence|]. cbn [length] in *. lia.
  - apply spelled_shorter in S. rewrite between_len in S by lia. lia.
  - pose proof W as [A B C _ _]. destruct (C p ltac:(lia)) as (c & Ec & _).
    destruct (rules_text p q lk c W Ec L) as (l0 & _ & M & Fa). set (u := between w p (seenTo w p q)) in *.
    assert (Ls : p < seenTo w p q) by (destruct (seen_cases p q c Ec) as [(-> & _)|(-> & _)]; lia).
    assert (Lu : length u = seenTo w p q - p) by (apply between_len; lia).
    destruct (reads_found _ _ _ _ _ _ R) as (y & Hy & _ & _ & <- & _).
    assert (In (toEm u y) (map (norm' u) l0)) as He by (rewrite M; apply in_map; exact Hy).
    apply in_map_iff in He. destruct He as (e & Ey & He). destruct (Fa e He) as (Q & _).
    apply (f_equal emPos) in Ey. cbn [norm' toEm emPos] in Ey. rewrite Ey in Q. unfold pos in Q. lia.
Qed.

Section Done.
Hypothesis defined : forall r, Rs r -> sPos r < n -> exists l, step r = Ok l.

(** A state within a word. *)
Lemma settle s : Rs s -> sPos s < n -> thaiAt w (sPos s) ->
  exists s1, Rs s1 /\ sPos s1 = sPos s /\ sLinked s1 = sLinked s /\ sDag s1 = sDag s /\ sPos s1 < sStop s1.
Proof.
  intros R L T. destruct (le_lt_dec (sStop s) (sPos s)) as [G|G]; [|exists s; auto].
  destruct (step_gap s (Rs_SI s R) G L) as [(_ & q & W & E)|(X & _)]; [|contradiction].
  eexists. split; [right; eapply Rs_step; [exact R|exact L|exact E|left; reflexivity]|].
  cbn. split; [reflexivity|]. split; [reflexivity|]. split; [reflexivity|]. destruct W; lia.
Qed.
Lemma go s es e lk' : Rs s -> ~ tacit (sPos s) -> Pass (sPos s) (sLinked s) es e lk' ->
  exists s', Rs s' /\ Next s es e lk' s'.
Proof.
  intros R NT P. pose proof (pass_lt _ _ _ _ _ P) as L. destruct (thai_dec (sPos s)) as [T|T].
  - destruct (settle s R L T) as (s1 & R1 & Q1 & Q2 & Q3 & Q4).
    destruct (defined s1 R1 ltac:(lia)) as (l & E). rewrite <- Q1, <- Q2 in *.
    destruct (step_pass s1 l (Rs_SI s1 R1) Q4 NT E) as (_ & B). destruct (B _ _ _ P) as (s' & Hs' & Nx).
    exists s'. split; [right; eapply Rs_step; eauto|]. unfold Next in *. rewrite <- Q3. exact Nx.
  - assert (G : sStop s <= sPos s).
    { destruct (le_lt_dec (sStop s) (sPos s)) as [G|G]; [exact G|exfalso]. pose proof (Rs_SI s R) as (_ & _ & _ & W).
      specialize (W G). apply wt_iff in W. destruct W as [_ _ C _ _]. apply T, C. lia. }
    destruct (step_gap s (Rs_SI s R) G L) as [(X & _)|(_ & q & s' & F & E & Nx)]; [contradiction|].
    exists s'. split; [right; eapply Rs_step; [exact R|exact L|exact E|left; reflexivity]|].
    inversion P as [q' F'|q' k r strs W _|q' s1 r1 W _ _ _|q' pre x r lk1 W _ _ _ _]; subst es e lk'.
    + rewrite (ft_fun _ _ _ F' F). exact Nx.
    + exfalso. destruct W as [A _ C _ _]. apply T, C. lia.
    + exfalso. destruct W as [A _ C _ _]. apply T, C. lia.
    + exfalso. destruct W as [A _ C _ _]. apply T, C. lia.
Qed.
Lemma goStep s es e lk' : Rs s -> ~ tacit (sPos s) -> Step (sPos s) (sLinked s) es e lk' ->
  ~ tacit e /\ exists s', Rs s' /\ Next s es e lk' s'.
Proof.
  intros R NT H. destruct H as [es e lk' P N|es e lk' P N]; [split; [exact N|apply go; assumption]|].
  split; [apply after_tacit; exact N|]. destruct (go s es e lk' R NT P) as (s' & R' & Nx). pose proof Nx as (N1 & N2 & N3).
  destruct (settle s' R') as (s1 & R1 & Q1 & Q2 & Q3 & Q4); [rewrite N1; apply tacit_lt; exact N|rewrite N1; apply tacit_thai; exact N|].
  assert (N0 : tacit (sPos s1)) by (rewrite Q1, N1; exact N).
  destruct (step_dot s1 (Rs_SI s1 R1) Q4 N0) as (s2 & E & P1 & P2 & P3).
  exists s2. split; [right; eapply Rs_step; [exact R1|apply tacit_lt; exact N0|exact E|left; reflexivity]|].
  split; [rewrite P1, Q1, N1; reflexivity|]. split; [congruence|].
  assert (e = sPos s1) as -> by congruence. apply (dot_plus (PHas (sDag s)) es s1 s2); [|intros f v; apply Rs_new; [exact R|]|exact P3].
  - intros f t v. rewrite Q3. apply N3.
  - pose proof (pass_lt _ _ _ _ _ P) as L. destruct (pass_bound _ _ _ _ _ P). lia.
Qed.

Lemma comes_run p lk : Comes p lk -> ~ tacit p /\ exists s, Rs s /\ sPos s = p /\ sLinked s = lk.
Proof.
  induction 1 as [|p lk es e lk' C (NT & s & R & Q1 & Q2) H].
  - split; [exact start_ntacit|]. exists s0. split; [left; reflexivity|]. auto.
  - subst p lk. destruct (goStep s es e lk' R NT H) as (NT' & s' & R' & N1 & N2 & _). split; [exact NT'|]. exists s'. auto.
Qed.
Lemma finish_run p lk : Ends p lk -> forall s, Rs s -> sPos s = p -> sLinked s = lk -> ~ tacit p ->
  exists r, Rs r /\ n <= sPos r /\ forall f x v, PHas (sDag s) f x v -> PHas (sDag r) f x v.
Proof.
  induction 1 as [lk|p lk es e lk' H E IH]; intros s R Q1 Q2 NT.
  - exists s. split; [exact R|]. split; [lia|auto].
  - subst p lk. destruct (goStep s es e lk' R NT H) as (NT' & s' & R' & N1 & N2 & N3).
    destruct (IH s' R' N1 N2 NT') as (r & R1 & R2 & R3). exists r. split; [exact R1|]. split; [exact R2|].
    intros f x v P. apply R3, N3. auto.
Qed.
(** The moves of the complete readings, up to what [syl_eqb] compares. *)
Definition Moved (f x : Z) (v : Syl) : Prop := exists v0, OnWay f v0 /\ endPos v0 = x /\ syl_eqb v0 v = true.
Lemma run_moves s r : RunFrom ct w dict brk s r -> Rs s -> n <= sPos r ->
  (~ tacit (sPos s) -> Comes (sPos s) (sLinked s) ->
     Ends (sPos s) (sLinked s) /\ forall f x v, PHas (sDag r) f x v -> PHas (sDag s) f x v \/ Moved f x v) /\
  (forall B p lk es, tacit (sPos s) -> Comes p lk -> Pass p lk es (sPos s) (sLinked s) -> Plus B es s ->
     (forall f v, ~ B f (zn (sPos s)) v) ->
     Ends (sPos s + 1) (sLinked s) /\ forall f x v, PHas (sDag r) f x v -> B f x v \/ Moved f x v).
Proof.
  induction 1 as [s|s l s1 s2 H1 H2 H3 H4 IH]; intros R Fin.
  - pose proof (Rs_SI s R) as (_ & Lp & _). split.
    + intros _ _. split; [|auto]. replace (sPos s) with n by lia. constructor.
    + intros B p lk es T. apply tacit_lt in T. lia.
  - assert (R1 : Rs s1) by (right; eapply Rs_step; eauto). destruct (IH R1 Fin) as (I1 & I2). clear IH.
    assert (HS := Rs_SI s R).
    (* the step does not move *)
    assert (Quiet : sStop s <= sPos s -> thaiAt w (sPos s) -> exists q, s1 = mkState (sPos s) q (sDag s) (sLinked s)).
    { intros G T. destruct (step_gap s HS G H1) as [(_ & q & W & E)|(X & _)]; [|contradiction].
      rewrite E in H2. injection H2 as <-. destruct H3 as [<-|[]]. eauto. }
    split.
    + intros NT C.
      assert (Main : forall es e lk', Pass (sPos s) (sLinked s) es e lk' -> Next s es e lk' s1 ->
        Ends (sPos s) (sLinked s) /\ forall f x v, PHas (sDag s2) f x v -> PHas (sDag s) f x v \/ Moved f x v).
      { intros es e lk' P (N1 & N2 & N3). subst e lk'. destruct (tacit_dec (sPos s1)) as [T1|T1].
        - destruct (I2 (PHas (sDag s)) (sPos s) (sLinked s) es T1 C P N3) as (J1 & J2).
          { intros f v. apply Rs_new; [exact R|]. destruct (pass_bound _ _ _ _ _ P). lia. }
          split; [|exact J2]. econstructor; [eapply St_stop; eauto|exact J1].
        - assert (St : Step (sPos s) (sLinked s) es (sPos s1) (sLinked s1)) by (apply St_plain; assumption).
          destruct (I1 T1 (Co_step _ _ _ _ _ _ _ _ C St)) as (J1 & J2).
          split; [econstructor; eauto|]. intros f x v Q. destruct (J2 f x v Q) as [Z|Z]; [|auto].
          apply N3 in Z. destruct Z as [Z|(v0 & Z1 & Z2 & Z3)]; [auto|]. right. exists v0. split; [|auto].
          exists (sPos s), (sLinked s), es, (sPos s1), (sLinked s1). auto. }
      destruct (le_lt_dec (sStop s) (sPos s)) as [G|G].
      * destruct (step_gap s HS G H1) as [(T & _)|(_ & q & s' & F & E & Nx)].
        -- destruct (Quiet G T) as (q & ->). cbn [sPos sLinked sDag] in I1. apply I1; assumption.
        -- rewrite E in H2. injection H2 as <-. destruct H3 as [<-|[]]. eapply Main; [|exact Nx]. constructor. exact F.
      * destruct (step_pass s l HS G NT H2) as (A & _). destruct (A s1 H3) as (es & e & lk' & P & _ & Nx). eapply Main; eauto.
    + intros B p lk es T C P Pl NB.
      destruct (le_lt_dec (sStop s) (sPos s)) as [G|G].
      * destruct (Quiet G (tacit_thai _ T)) as (q & ->). cbn [sPos sLinked sDag] in I2. apply (I2 B p lk es); assumption.
      * destruct (step_dot s HS G T) as (s' & E & P1 & P2 & P3). rewrite E in H2. injection H2 as <-. destruct H3 as [<-|[]].
        assert (St : Step p lk (extend (sPos s) es) (sPos s + 1) (sLinked s)) by (apply St_stop; assumption).
        pose proof (dot_plus B es s s' Pl NB P3) as Pl'.
        rewrite P1, P2 in I1. destruct (I1 (after_tacit _ T) (Co_step _ _ _ _ _ _ _ _ C St)) as (J1 & J2).
        split; [exact J1|]. intros f x v Q. destruct (J2 f x v Q) as [Z|Z]; [|auto].
        apply Pl' in Z. destruct Z as [Z|(v0 & Z1 & Z2 & Z3)]; [auto|]. right. exists v0. split; [|auto].
        exists p, lk, (extend (sPos s) es), (sPos s + 1), (sLinked s). auto.
Qed.
Lemma edges_moves f x v : (exists r, Runs r /\ n <= sPos r /\ PHas (sDag r) f x v) <-> Moved f x v.
Proof.
  split.
  - intros (r & (b & Eb & RF) & Fin & Q). destruct (Nat.eq_dec n 0) as [Z|Z].
    + exfalso. assert (b = r).
      { inversion RF as [|? ? ? ? H1]; [reflexivity|]. exfalso. lia. }
      subst b. rewrite skipGap_act in Eb. unfold gapAct in Eb. cbn [s0 sPos sLinked] in Eb.
      destruct (SkipNonThai_spec ct w 0 ltac:(lia)) as (A & _ & _). set (e := SkipNonThai ct w 0) in *.
      destruct (Nat.ltb_spec 0 e); [lia|]. destruct (Nat.ltb_spec 0 n); [lia|]. cbn [bind] in Eb. injection Eb as <-.
      destruct Q as (v0 & Q & _). destruct Q.
    + assert (E0 : step s0 = Ok [b]).
      { destruct (defined s0 (or_introl eq_refl) ltac:(cbn; lia)) as (l & E). destruct (step_s0 l E) as (b' & -> & Eb').
        rewrite Eb in Eb'. injection Eb' as <-. exact E. }
      assert (RF0 : RunFrom ct w dict brk s0 r) by (eapply RF_step; [cbn; lia|exact E0|left; reflexivity|exact RF]).
      destruct (run_moves s0 r RF0 (or_introl eq_refl) Fin) as (M & _).
      destruct (M start_ntacit (Co_start _ _ _)) as (_ & M'). destruct (M' f x v Q) as [(v0 & X & _)|X]; [destruct X|exact X].
  - intros (v0 & (p & lk & es & e & lk' & C & St & En & Hi) & Ex & Ev).
    destruct (comes_run p lk C) as (NT & s & R & Q1 & Q2). subst p lk.
    destruct (goStep s es e lk' R NT St) as (NT' & s' & R' & N1 & N2 & N3).
    destruct (finish_run e lk' En s' R' N1 N2 NT') as (r & R1 & R2 & R3).
    exists r. split; [|split; [exact R2|]].
    + destruct R1 as [->|R1]; [|exact R1]. exfalso. cbn [s0 sPos] in R2.
      assert (sPos s < n) by (destruct St; eapply pass_lt; eauto). lia.
    + apply R3, N3. right. exists v0. auto.
Qed.
End Done.

(** ** The list *)
Lemma pass_canon p lk es e lk' f v : Pass p lk es e lk' -> In (f, v) es -> canon v.
Proof.
  intros P Hi. destruct P as [q F|q k r strs W LW|q s r W _ _ S|q pre x r lk' W _ _ _ _].
  - destruct Hi as [Hi|[]]. injection Hi as <- <-. right. reflexivity.
  - left. destruct LW as ((Et & _ & d & v0 & Ed & Hv & Hk & Hl) & _ & Hf). pose proof W as [A B C _ _].
    assert (In_abc : inAbc k).
    { intros c Hc. destruct (In_nth_error _ _ Hc) as (i & Ei).
      assert (Li : i < length k) by (apply nth_error_Some; congruence).
      assert (Ll : length k <= q - p).
      { apply (f_equal (@length N)) in Et. rewrite between_len, app_length in Et by lia. lia. }
      assert (Ew : nth_error w (p + i) = Some c).
      { rewrite <- (between_nth w p q i) by lia. rewrite Et, nth_error_app1 by lia. exact Ei. }
      destruct (C (p + i) ltac:(lia)) as (c' & Ec & T). rewrite Ew in Ec. injection Ec as <-.
      apply thai_range in T. destruct T as [->|T]; [destruct (Hf Hc)|lia]. }
    destruct (dictWF d Ed k v0 Hv Hk In_abc) as (strs' & Hl' & Fa).
    assert (strs' = strs) as ->.
    { destruct Hl as (x1 & Y1 & Y2), Hl' as (x2 & Y3 & Y4). rewrite Y1 in Y3. injection Y3 as <-. rewrite Y2 in Y4. injection Y4 as <-. reflexivity. }
    apply in_flat_map in Hi. destruct Hi as (s & Hs & Hi).
    rewrite Forall_forall in Fa. destruct (Fa s Hs) as (_ & Fs).
    assert (Q : forall s x, In (f, v) (along x s) -> In v s).
    { clear. induction s as [|u s IH]; cbn [along In]; [tauto|]. intros x [H|H]; [left; congruence|right; eauto]. }
    apply Q in Hi. unfold shiftEndPos in Hi. apply in_map_iff in Hi. destruct Hi as (u & <- & Hu).
    rewrite Forall_forall in Fs. apply (Fs u Hu).
  - assert (Q : forall s x, In (f, v) (along x s) -> In v s).
    { clear. induction s as [|u s IH]; cbn [along In]; [tauto|]. intros x [H|H]; [left; congruence|right; eauto]. }
    apply Q in Hi. clear - S Hi. inversion S as [g r' _ _ _ E E1 E2|r' E E1 E2|c Hc E E1 E2]; subst s.
    + left. clear - Hi. generalize dependent (zn p). induction g as [|c g IH]; intros z Hi; [destruct Hi|].
      destruct g as [|c2 g]; cbn [names In] in *; [destruct Hi as [<-|[]]; reflexivity|].
      destruct Hi as [<-|Hi]; [reflexivity|]. apply (IH (z + 1)%Z). exact Hi.
    + destruct Hi as [<-|[]]. right. reflexivity.
    + destruct Hi as [<-|[]]. left. reflexivity.
  - left. unfold moves in Hi. destruct pre as [y|]; cbn [In] in Hi.
    + destruct Hi as [Hi|[Hi|[]]]; injection Hi as <- <-; reflexivity.
    + destruct Hi as [Hi|[]]; injection Hi as <- <-; reflexivity.
Qed.
Lemma way_canon f v : OnWay f v -> canon v.
Proof.
  intros (p & lk & es & e & lk' & _ & St & _ & Hi). destruct St as [es e lk' P _|es e lk' P _]; [eapply pass_canon; eauto|].
  apply extend_in in Hi. destruct Hi as [(Hi & _)|(v0 & Hi & _ & ->)]; [eapply pass_canon; eauto|].
  apply canon_setEndPos. eapply pass_canon; eauto.
Qed.
Lemma defined_Rs fuel d : ParseU16F ct fuel w dict brk = Ok d -> forall r, Rs r -> sPos r < n -> exists l, step r = Ok l.
Proof.
  intros E r [->|R] L; [|eapply run_defined; eauto].
  destruct (step_gap s0 s0_SI ltac:(cbn; lia) L) as [(_ & q & _ & X)|(_ & q & s' & _ & X & _)]; eauto.
Qed.

(** ** The outcome *)
Lemma step_outcome s : SI ct w brk s -> sPos s < n ->
  (exists l, step s = Ok l) \/
  (step s = Throw /\ sPos s < sStop s /\ ~ tacit (sPos s) /\ n < seenTo w (sPos s) (sStop s) /\
   forall k r strs, ~ listedWord D (between w (sPos s) (sStop s)) k r strs).
Proof.
  intros HS L. destruct (le_lt_dec (sStop s) (sPos s)) as [G|G].
  { left. destruct (step_gap s HS G L) as [(_ & q & _ & X)|(_ & q & s' & _ & X & _)]; eauto. }
  destruct (tacit_dec (sPos s)) as [T|T].
  { left. destruct (step_dot s HS G T) as (s' & X & _). eauto. }
  pose proof HS as (Wd & _ & _ & W). specialize (W G). apply wt_iff in W. pose proof W as [A B C _ _].
  set (q := sStop s) in *.
  assert (R : (forall k r strs, ~ listedWord D (between w (sPos s) q) k r strs) ->
    (exists l, stepStates ct w None brk s = Ok l) \/ (stepStates ct w None brk s = Throw /\ n < seenTo w (sPos s) q)).
  { intros NL. rewrite stepStates_acts. unfold acts. fold q. destruct (Nat.leb_spec q (sPos s)); [lia|]. cbn [bind].
    destruct (abbr_text (sPos s) q W) as [(_ & s1 & r1 & _ & Ea)|(NS & Ea)]; rewrite Ea; cbn [bind].
    { left. destruct (mapM_applyAct s [mkAct (q - length r1) q false false (strEdges (zn (sPos s)) s1)] Wd) as (r & X & _). eauto. }
    destruct (C (sPos s) ltac:(lia)) as (c & Ec & Tc). unfold ruleActs, at16. rewrite Ec. cbn [bind].
    destruct (N.eqb_spec 46 c) as [<-|Nc].
    { exfalso. apply T. split; [exact Ec|]. intros NP. apply NS. split; [exact NP|].
      destruct (dot_word _ q W Ec) as (y & Ey). eexists _, y. rewrite Ey. constructor. }
    rewrite andb_false_r. destruct (le_lt_dec (seenTo w (sPos s) q) n) as [Ls|Ls].
    - left. destruct (rules_text _ q (sLinked s) c W Ec Ls) as (l0 & -> & _). cbn [bind].
      destruct (mapM_applyAct s (map (emAct (sPos s) q) (map (mv (sPos s)) l0)) Wd) as (r & X & _). eauto.
    - right. rewrite (rules_stuck _ q _ c W Ec Ls). auto. }
  assert (R' : (forall k r strs, ~ listedWord D (between w (sPos s) q) k r strs) -> step s = stepStates ct w None brk s ->
    (exists l, step s = Ok l) \/ (step s = Throw /\ sPos s < q /\ ~ tacit (sPos s) /\ n < seenTo w (sPos s) q /\
      forall k r strs, ~ listedWord D (between w (sPos s) q) k r strs)).
  { intros NL ->. destruct (R NL) as [X|(X & Y)]; [auto|right; auto 6]. }
  assert (X0 : dict = None \/ exists d, dict = Some d) by (destruct dict; eauto).
  destruct X0 as [Ed|(d & Ed)].
  { apply R'; [|rewrite Ed; reflexivity]. intros k r strs ((_ & _ & d & v & X & _) & _). congruence. }
  assert (Dw : dictOKo (Some d)) by (rewrite <- Ed; exact dictWF).
  pose proof (excActs_sat ct w (Some d) brk False (or_intror Dw) d (sPos s) q false eq_refl G ltac:(lia)) as X.
  destruct (excActs ct w (sPos s) q d) as [al| | |] eqn:Ea; cbn [Sat] in X; try contradiction.
  destruct X as (X1 & X2). destruct al as [|a al].
  - specialize (X2 eq_refl). apply R'.
    + intros k r strs ((Et & Er & d' & v & Q & Hv & Hk & Hl) & Hn & Hf). rewrite Ed in Q. injection Q as <-. apply (X2 k).
      apply (applicable_text d (sPos s) q k W Ed). split; [eauto|]. split; [exact Hk|]. split; [exact Hf|]. exists r. auto.
    + rewrite Ed. apply exc_none; [exact G|fold q; lia|exact X2].
  - left. rewrite stepStates_acts, Ed. unfold acts. fold q. destruct (Nat.leb_spec q (sPos s)); [lia|]. rewrite Ea. cbn [bind].
    destruct (mapM_applyAct s (a :: al) Wd) as (r & Y & _). eauto.
Qed.
(** Where a run stands, whether or not it can go on. *)
Definition Stands (s : ParseState) : Prop :=
  (~ tacit (sPos s) /\ Comes (sPos s) (sLinked s)) \/
  (tacit (sPos s) /\ exists p lk es, Comes p lk /\ Pass p lk es (sPos s) (sLinked s)).
Lemma stands_step s l s1 : SI ct w brk s -> Stands s -> sPos s < n -> step s = Ok l -> In s1 l -> Stands s1.
Proof.
  intros HS St L E I1. unfold Stands.
  assert (Main : forall es e lk', ~ tacit (sPos s) -> Comes (sPos s) (sLinked s) -> Pass (sPos s) (sLinked s) es e lk' ->
    Next s es e lk' s1 -> Stands s1).
  { intros es e lk' NT C P (N1 & N2 & _). subst e lk'. unfold Stands. destruct (tacit_dec (sPos s1)) as [T|T]; [right|left]; (split; [exact T|]).
    - eauto.
    - eapply Co_step; [exact C|]. apply St_plain; eassumption. }
  destruct (le_lt_dec (sStop s) (sPos s)) as [G|G].
  - destruct (step_gap s HS G L) as [(T & q & _ & X)|(T & q & s' & F & X & Nx)]; rewrite E in X; injection X as ->; destruct I1 as [<-|[]].
    + exact St.
    + destruct St as [(NT & C)|(T' & _)]; [|destruct (T (tacit_thai _ T'))]. apply (Main _ _ _ NT C (P_foreign _ _ _ _ _ _ F) Nx).
  - destruct St as [(NT & C)|(T & p & lk & es & C & P)].
    + destruct (step_pass s l HS G NT E) as (A & _). destruct (A s1 I1) as (es & e & lk' & P & _ & Nx). exact (Main _ _ _ NT C P Nx).
    + destruct (step_dot s HS G T) as (s' & X & P1 & P2 & _). rewrite E in X. injection X as ->. destruct I1 as [<-|[]].
      left. rewrite P1, P2. split; [apply after_tacit; exact T|]. eapply Co_step; [exact C|]. apply St_stop; eassumption.
Qed.
Lemma s0_stands : Stands s0.
Proof. left. split; [exact start_ntacit|constructor]. Qed.
Lemma run_stands r : Runs r -> Stands r.
Proof.
  intros (b & Eb & RF). assert (Sb : Stands b).
  { destruct (Nat.eq_dec n 0) as [Z|Z].
    - pose proof (SI_start ct w dict brk b Eb) as (_ & Lp & _).
      assert (sLinked b = false).
      { rewrite skipGap_act in Eb. unfold gapAct in Eb. destruct (if _ <? n then _ else _); cbn [bind] in Eb; try discriminate.
        injection Eb as <-. reflexivity. }
      left. rewrite H. replace (sPos b) with 0 by lia. split; [exact start_ntacit|constructor].
    - assert (L : sPos s0 < n) by (cbn; lia).
      assert (exists l, step s0 = Ok l) as (l & E).
      { destruct (step_gap s0 s0_SI ltac:(cbn; lia) L) as [(_ & q & _ & X)|(_ & q & s' & _ & X & _)]; eauto. }
      destruct (step_s0 l E) as (b' & -> & Eb'). rewrite Eb in Eb'. injection Eb' as <-.
      eapply stands_step; [exact s0_SI|exact s0_stands|exact L|exact E|left; reflexivity]. }
  pose proof (SI_start ct w dict brk b Eb) as HS. clear Eb.
  induction RF as [s|s l s1 s2 H1 H2 H3 H4 IH]; [exact Sb|]. apply IH; [eapply stands_step; eauto|eapply SI_step; eauto].
Qed.
Lemma stuck_at s : Stands s -> SI ct w brk s -> sPos s < sStop s -> ~ tacit (sPos s) -> n < seenTo w (sPos s) (sStop s) ->
  (forall k r strs, ~ listedWord D (between w (sPos s) (sStop s)) k r strs) -> stuck D w brk.
Proof.
  intros St HS L NT Ls NL. destruct St as [(_ & C)|(T & _)]; [|contradiction].
  pose proof HS as (_ & _ & _ & W). specialize (W L). apply wt_iff in W. pose proof W as [A B F _ _].
  destruct (F (sPos s) ltac:(lia)) as (c & Ec & _). destruct (seen_cases _ (sStop s) c Ec) as [(Es & Q & G)|(Es & _)]; [|lia].
  exists (sPos s), (sLinked s), c. split; [exact C|]. split; [lia|]. split; [exact Ec|]. split; [exact G|].
  intros k r strs LW. apply (NL k r strs). destruct (between_cons w _ _ c A B Ec) as (t & Et). rewrite Et.
  assert (length (between w (sPos s) (sStop s)) = 1) by (rewrite between_len by lia; lia). rewrite Et in H.
  destruct t; [exact LW|cbn in H; lia].
Qed.
Lemma ok_unless_stuck : ~ stuck D w brk -> exists fuel d, ParseU16F ct fuel w dict brk = Ok d.
Proof.
  intros NS. apply (parse_defined ct w dict brk inside). intros r R L.
  destruct (step_outcome r (SI_run ct w dict brk r R) L) as [X|(_ & X1 & X2 & X3 & X4)]; [exact X|].
  exfalso. apply NS. eapply stuck_at; eauto using run_stands. apply (SI_run ct w dict brk r R).
Qed.
Lemma loop_outcome fuel : forall pool acc, Forall (SI ct w brk) pool ->
  parseLoop ct fuel w dict brk pool acc <> UB.
Proof.
  induction fuel as [|fuel IH]; intros pool acc HP; cbn [parseLoop]; [destruct pool; discriminate|].
  destruct pool as [|s pool]; [discriminate|]. inversion HP as [|? ? Hs Hp]; subst.
  destruct (Nat.leb_spec n (sPos s)) as [L|L]; [apply IH; exact Hp|].
  destruct (step_outcome s Hs L) as [(l & E)|(E & _)]; rewrite E; cbn [bind]; [|discriminate]. apply IH.
  apply poolAdds_Forall; auto using SI_merge. rewrite Forall_forall. intros y Hy. eapply SI_step; eauto.
Qed.
Lemma start_ok : exists b, skipGap ct w brk s0 = Ok b.
Proof.
  destruct (Nat.eq_dec n 0) as [Z|Z].
  - rewrite skipGap_act. unfold gapAct. rewrite Z. destruct (_ <? 0) eqn:X; [apply Nat.ltb_lt in X; lia|]. cbn [bind]. eauto.
  - assert (L : sPos s0 < n) by (cbn; lia).
    destruct (step_gap s0 s0_SI ltac:(cbn; lia) L) as [(_ & q & _ & X)|(_ & q & s' & _ & X & _)];
      destruct (step_s0 _ X) as (b & _ & Y); eauto.
Qed.
Lemma no_UB fuel : ParseU16F ct fuel w dict brk <> UB.
Proof.
  unfold ParseU16F. fold s0. destruct start_ok as (b & Eb). rewrite Eb. cbn [bind]. apply loop_outcome. cbn [poolAdd].
  constructor; [|constructor]. eapply SI_start; eauto.
Qed.
Lemma throw_when_stuck : stuck D w brk -> exists fuel0, forall fuel, fuel0 <= fuel -> ParseU16F ct fuel w dict brk = Throw.
Proof.
  intros (p & lk & c & C & Q & Ec & Ev & NL). exists (enough ct w dict brk).
  assert (X : ParseU16F ct (enough ct w dict brk) w dict brk = Throw).
  2:{ intros fuel L. rewrite <- X. apply ParseU16F_stable. exact L. }
  pose proof (ParseU16F_terminates ct w dict brk _ (le_n _)) as T.
  destruct (ParseU16F ct (enough ct w dict brk) w dict brk) as [d| | |] eqn:E; [exfalso|reflexivity|exfalso|congruence].
  - pose proof (defined_Rs _ d E) as Df. destruct (comes_run Df p lk C) as (NT & s & R & Q1 & Q2). subst p lk.
    assert (Tc : thaiAt w (sPos s)).
    { exists c. split; [exact Ec|]. unfold eagerVowel, oneOf in Ev. vm_compute in Ev. destruct Ev as [<-|[<-|[<-|[<-|[]]]]]; reflexivity. }
    destruct (settle s R ltac:(lia) Tc) as (s1 & R1 & P1 & P2 & P3 & P4). rewrite <- P1 in *.
    destruct (Df s1 R1 ltac:(lia)) as (l & El). pose proof (Rs_SI s1 R1) as HS.
    pose proof HS as (_ & _ & _ & W). specialize (W P4). apply wt_iff in W. pose proof W as [A B F _ _].
    assert (Eq : sStop s1 = n) by lia.
    assert (Eb : between w (sPos s1) (sStop s1) = [c]).
    { destruct (between_cons w _ _ c A B Ec) as (t & Et). rewrite Et. assert (length (between w (sPos s1) (sStop s1)) = 1) as H by (rewrite between_len by lia; lia).
      rewrite Et in H. destruct t; [reflexivity|cbn in H; lia]. }
    assert (NL' : forall k r strs, ~ listedWord D (between w (sPos s1) (sStop s1)) k r strs) by (rewrite Eb; exact NL).
    assert (E0 : step s1 = stepStates ct w None brk s1).
    { assert (X0 : dict = None \/ exists d, dict = Some d) by (destruct dict; eauto).
      destruct X0 as [->|(d0 & Ed)]; [reflexivity|]. rewrite Ed. apply exc_none; [exact P4|lia|]. intros k Ak.
      apply (applicable_text d0 (sPos s1) (sStop s1) k W Ed) in Ak. destruct Ak as ((v & Hv) & Hk & Hf & r & Et & Er).
      assert (In_abc : inAbc k).
      { intros x Hx. rewrite Eb in Et. destruct k as [|y [|z k]]; [destruct Hx| |discriminate]. injection Et as <- _. destruct Hx as [<-|[]].
        unfold eagerVowel, oneOf in Ev. vm_compute in Ev. destruct Ev as [<-|[<-|[<-|[<-|[]]]]]; lia. }
      destruct (dictWF d0 Ed k v Hv Hk In_abc) as (strs & Hl & _).
      apply (NL' k r strs). split; [|auto]. split; [exact Et|]. split; [exact Er|]. exists d0, v. auto. }
    assert (Ls : n < seenTo w (sPos s1) (sStop s1)).
    { unfold seenTo. rewrite Ec. unfold eagerVowel, oneOf in Ev. apply memN_In in Ev. rewrite Ev.
      destruct (Nat.eqb_spec (sStop s1) (sPos s1 + 1)); cbn [andb]; lia. }
    rewrite E0, stepStates_acts in El. unfold acts in El. destruct (Nat.leb_spec (sStop s1) (sPos s1)); [lia|]. cbn [bind] in El.
    destruct (abbr_text _ _ W) as [(_ & s2 & r2 & S & _)|(_ & Ea)].
    + rewrite Eb in S. unfold eagerVowel, oneOf in Ev. vm_compute in Ev.
      inversion S as [g r' Ng _ Fg X|r' X|c' Hc X].
      * destruct g as [|a [|? g]]; [congruence|discriminate|discriminate].
      * destruct Ev as [<-|[<-|[<-|[<-|[]]]]]; discriminate.
      * subst c'. destruct Ev as [<-|[<-|[<-|[<-|[]]]]]; discriminate.
    + rewrite Ea in El. cbn [bind] in El. unfold ruleActs, at16 in El. rewrite Ec in El. cbn [bind] in El.
      rewrite (rules_stuck _ _ _ c W Ec Ls) in El. cbn [bind] in El.
      destruct (N.eqb_spec 46 c) as [<-|_]; [|rewrite andb_false_r in El; discriminate].
      unfold eagerVowel, oneOf in Ev. vm_compute in Ev. destruct Ev as [X|[X|[X|[X|[]]]]]; discriminate.
  - exact (no_UB _ E).
Qed.
Lemma stands_merge : mergeOK (fun s => SI ct w brk s /\ Stands s).
Proof.
  intros a b (A & A') (B & _) E1 E2. split; [apply SI_merge; assumption|]. exact A'.
Qed.
Lemma loop_stuck fuel : forall pool acc, Forall (fun s => SI ct w brk s /\ Stands s) pool ->
  parseLoop ct fuel w dict brk pool acc = Throw -> stuck D w brk.
Proof.
  induction fuel as [|fuel IH]; intros pool acc HP; cbn [parseLoop]; [destruct pool; discriminate|].
  destruct pool as [|s pool]; [discriminate|]. inversion HP as [|? ? (Hs & St) Hp]; subst.
  destruct (Nat.leb_spec n (sPos s)) as [L|L]; [apply IH; exact Hp|].
  destruct (step_outcome s Hs L) as [(l & E)|(E & X1 & X2 & X3 & X4)]; rewrite E; cbn [bind]; [|intros _; eapply stuck_at; eauto].
  apply IH. apply poolAdds_Forall; [exact stands_merge|exact Hp|]. rewrite Forall_forall. intros y Hy. split; [eapply SI_step; eauto|eapply stands_step; eauto].
Qed.
Lemma stuck_when_throw fuel : ParseU16F ct fuel w dict brk = Throw -> stuck D w brk.
Proof.
  unfold ParseU16F. fold s0. destruct start_ok as (b & Eb). rewrite Eb. cbn [bind].
  apply loop_stuck. cbn [poolAdd]. constructor; [|constructor]. split; [eapply SI_start; eauto|]. apply run_stands. exists b. split; [exact Eb|constructor].
Qed.
Lemma outcome : (stuck D w brk /\ exists fuel0, forall fuel, fuel0 <= fuel -> ParseU16F ct fuel w dict brk = Throw) \/
  (~ stuck D w brk /\ exists fuel d, ParseU16F ct fuel w dict brk = Ok d).
Proof.
  pose proof (ParseU16F_terminates ct w dict brk _ (le_n _)) as T.
  destruct (ParseU16F ct (enough ct w dict brk) w dict brk) as [d| | |] eqn:E; [| | |congruence].
  - right. split; [|eauto]. intros S. destruct (throw_when_stuck S) as (f & X). 
    specialize (X (Nat.max f (enough ct w dict brk)) ltac:(lia)).
    rewrite (ParseU16F_stable ct w dict brk) in X by lia. congruence.
  - left. pose proof (stuck_when_throw _ E) as S. split; [exact S|]. apply throw_when_stuck. exact S.
  - destruct (no_UB _ E).
Qed.
Lemma listed_readings l : pronounced ct w dict brk l -> forall s, In s l <-> Reading D w brk s.
Proof.
  intros (fuel & d & E & L) s.
  pose proof (defined_Rs fuel d E) as Df.
  pose proof (transparent ct w dict brk inside fuel d E) as T.
  pose proof (ParseU16F_inv ct w dict brk dictWF fuel d E) as G.
  assert (EM : forall f x v, InE d f x v <-> OnWay f v /\ endPos v = x).
  { intros f x v. rewrite (InE_PHas _ _ _ _ _ d ct_ok dictWF G), T, (edges_moves Df f x v). split.
    - intros ((v0 & M & Ex & Ev) & Ev' & C). assert (v0 = v) as ->; [|auto].
      apply canon_eq; [eapply way_canon; eauto|exact C|apply syl_eqb_spoken; exact Ev|congruence].
    - intros (M & Ex). split; [exists v; split; [exact M|split; [exact Ex|apply syl_eqb_spoken; reflexivity]]|].
      split; [exact Ex|eapply way_canon; eauto]. }
  rewrite (listed_chain _ _ _ _ d l G L). unfold Reading.
  assert (X : forall s x, Chain d x s (zn n) <-> Path D w brk x s (zn n)).
  { clear s. induction s as [|v s IH]; intros x; cbn [Chain Path]; [reflexivity|]. rewrite EM, IH. split; intros (A & B); tauto. }
  rewrite X. reflexivity.
Qed.
End Every.

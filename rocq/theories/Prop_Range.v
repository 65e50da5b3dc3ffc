(** Prop_Range.v - property C103: exactly which pronunciations the parser
    lists, literal text included. *)
From Coq Require Import String List NArith ZArith Bool Lia Arith Sorted.
From Verif Require Import Base ThUni ThCons Syl Utf Lattice Dag DagProofs PronDag Dict Parser.
From Verif Require Import Spec OrderProofs DictProofs Prop_Syl ParserSpec ParserFacts ParserInv ParserResult ParserListed ParserDict ParserLiteral ParserPool ParserProduct.
From Verif Require Import Prop_Output Prop_Parser Prop_Product Grammar GrammarWord TextGrammar TextProof Prop_Every Prop_Grammar Prop_Regular Prop_Head Prop_Sayable Prop_Sequence.
From Verif Require GrammarIff.
Import ListNotations.
Local Open Scope string_scope.
Local Open Scope list_scope.
Local Open Scope bool_scope.
Local Open Scope nat_scope.

(** ** Vocabulary *)
(** What a syllable of a listing says: sounds, or text. *)
Inductive Item := Speak (x : Said) | Copy (t : list N).
Definition itemOf (v : Syl) : Item := match literal v with [] => Speak (saidOf v) | t => Copy t end.
Definition blank : N := 0x20%N.
Definition foreignText (t : list N) : Prop := t <> [] /\ Forall (fun c => thaiChar c = false) t.
(** The text copied is a full stop, or text without Thai and full stops; after a
    blank at its end no other such text follows at once. *)
Inductive Result : list Item -> Prop :=
| Rs_nil : Result []
| Rs_one x cs : CanSay x -> ~ riy x -> Result cs -> Result (Speak x :: cs)
| Rs_two p x cs : CanSay x -> riy x -> MayPrecede p x -> Result cs -> Result (Speak p :: Speak x :: cs)
| Rs_stop cs : Result cs -> Result (Copy [fullStop] :: cs)
| Rs_text t cs : foreignText t -> (forall a t' cs', t = a ++ [blank] -> cs = Copy t' :: cs' -> t' = [fullStop]) ->
    Result cs -> Result (Copy t :: cs).

(** ** Readings to the end share no consonant *)
Lemma final_open no t e r b : FinalOrShared no t e r b -> r = [] -> b = false.
Proof. intros [] E; try reflexivity. discriminate E. Qed.
Lemma reads_open lk t p x b : Reads lk t p x [] b -> b = false.
Proof.
  intros H. remember [] as r eqn:Er. destruct H as [t o t1 v e m r b p x I R L S|t o t1 v e m r b p x I R L S|l t o t1 v e m r b p x I R L S|t p x r I|c t v e r b tn C R T].
  - destruct R; try reflexivity; eapply final_open; eassumption.
  - destruct R; try reflexivity; eapply final_open; eassumption.
  - destruct R; try reflexivity; eapply final_open; eassumption.
  - reflexivity.
  - destruct R; try reflexivity; eapply final_open; eassumption.
Qed.

(** ** From a chain of steps to a listing *)
Section Chain.
Variable w : list N.
Variable brk : list nat.
Notation n := (length w).
Notation D := (entry None).
Fixpoint Linked (es : list (Z * Syl)) (f : Z) (s : SylString) (t : Z) : Prop :=
  match s with [] => f = t | v :: s => In (f, v) es /\ Linked es (endPos v) s t end.
Inductive Chain : nat -> SylString -> Prop :=
| Ch_end : Chain n []
| Ch_step p es e s1 s2 : Step D w brk p false es e false -> Linked es (Z.of_nat p) s1 (Z.of_nat e) -> Chain e s2 -> Chain p (s1 ++ s2).
Lemma chain_ends p s : Chain p s -> Ends D w brk p false.
Proof. induction 1 as [|p es e s1 s2 S L C IH]; [apply En_end|eapply En_step; eassumption]. Qed.
Lemma chain_path p s : Chain p s -> Comes D w brk p false -> Path D w brk (Z.of_nat p) s (Z.of_nat n).
Proof.
  induction 1 as [|p es e s1 s2 S L C IH]; intros Co; [reflexivity|].
  pose proof (chain_ends _ _ C) as En. specialize (IH (Co_step _ _ _ _ _ _ _ _ Co S)).
  assert (G : forall s f, Linked es f s (Z.of_nat e) -> Path D w brk f (s ++ s2) (Z.of_nat n)).
  { induction s as [|v s IHs]; intros f; cbn [Linked app Path]; [intros ->; exact IH|]. intros (A & B). split; [|apply IHs, B].
    exists p, false, es, e, false. auto. }
  apply G, L.
Qed.
(** A unit may be extended over a full stop. *)
Lemma linked_app es s1 : forall f s2 t, Linked es f (s1 ++ s2) t -> exists m, Linked es f s1 m /\ Linked es m s2 t.
Proof. induction s1 as [|v s1 IH]; intros f s2 t; cbn [Linked app]; [eauto|]. intros (A & B). destruct (IH _ _ _ B) as (m & X & Y). eauto. Qed.
Lemma linked_extend es e s : forall f m, Linked es f s m -> Forall (fun v => (endPos v < 0)%Z) s -> Linked (extend e es) f s m.
Proof.
  induction s as [|v s IH]; intros f m; cbn [Linked]; [auto|]. intros (A & B) F. inversion F; subst. split; [|apply IH; assumption].
  apply extend_in. left. split; [exact A|lia].
Qed.
Lemma linked_join es s1 : forall f s2 m t, Linked es f s1 m -> Linked es m s2 t -> Linked es f (s1 ++ s2) t.
Proof. induction s1 as [|v s1 IH]; intros f s2 m t; cbn [Linked app]; [intros ->; auto|]. intros (A & B) C. split; [exact A|eapply IH; eassumption]. Qed.
Lemma unit_step p es e s0 v : Pass D w brk p false es e false -> Linked es (Z.of_nat p) (s0 ++ [v]) (Z.of_nat e) -> Forall (fun v => (endPos v < 0)%Z) s0 ->
  tacit w e -> exists es' s', Step D w brk p false es' (e + 1) false /\ Linked es' (Z.of_nat p) s' (Z.of_nat (e + 1)) /\ map itemOf s' = map itemOf (s0 ++ [v]).
Proof.
  intros P L F T. destruct (linked_app _ _ _ _ _ L) as (m & L1 & L2). cbn [Linked] in L2. destruct L2 as (L2 & L3).
  exists (extend e es), (s0 ++ [setEndPos v (Z.of_nat (e + 1))]). split; [apply St_stop; assumption|]. split.
  - eapply linked_join; [apply linked_extend; [exact L1|exact F]|]. cbn [Linked]. split; [|reflexivity]. apply extend_in. right. exists v. auto.
  - rewrite !map_app. reflexivity.
Qed.
End Chain.

(** ** Units *)
Lemma between_mid a u r : between (a ++ u ++ r) (length a) (length a + length u) = u.
Proof.
  unfold between. replace (length a + length u - length a) with (length u) by lia.
  rewrite skipn_app, skipn_all, Nat.sub_diag. cbn [skipn app]. rewrite firstn_app, firstn_all, Nat.sub_diag. apply app_nil_r.
Qed.
Lemma nth_mid a (u r : list N) k : length a <= k < length a + length u -> exists c, nth_error (a ++ u ++ r) k = Some c /\ In c u.
Proof.
  intros H. rewrite nth_error_app2 by lia. rewrite nth_error_app1 by lia. destruct (nth_error u (k - length a)) as [c|] eqn:E.
  - exists c. split; [reflexivity|]. eapply nth_error_In, E.
  - apply nth_error_None in E. lia.
Qed.
Lemma letter_char c : thaiLetter c = true -> thaiChar c = true.
Proof. intros H. unfold thaiChar. rewrite H. reflexivity. Qed.
Lemma letter_stop c : thaiLetter c = true -> c <> fullStop.
Proof. intros H ->. discriminate H. Qed.
Lemma none_listed t k r strs : ~ listedWord (entry None) t k r strs.
Proof. intros ((_ & _ & d & v & X & _) & _). discriminate X. Qed.

(** The text [u] after [a] and before [r] gives the items [cs]. *)
Definition Gives (a u r : list N) (brk : list nat) (cs : list Item) : Prop :=
  exists es s0 v, Pass (entry None) (a ++ u ++ r) brk (length a) false es (length a + length u) false /\
    Linked es (Z.of_nat (length a)) (s0 ++ [v]) (Z.of_nat (length a + length u)) /\ Forall (fun v => (endPos v < 0)%Z) s0 /\ map itemOf (s0 ++ [v]) = cs.
Definition itemsOf (p : option Said) (x : Said) : list Item := match p with Some y => [Speak y; Speak x] | None => [Speak x] end.
Lemma item_said y e : itemOf (sylAt y e) = Speak y.
Proof. unfold itemOf. cbn [literal sylAt SylOf]. rewrite said_at. reflexivity. Qed.
Definition Bounds (p q : nat) (brk : list nat) : Prop := In q brk /\ forall y, In y brk -> y <= p \/ q <= y.
Lemma thai_gives a u r brk pre x b : Text u -> Reads false u pre x [] b -> Bounds (length a) (length a + length u) brk -> Gives a u r brk (itemsOf pre x).
Proof.
  intros (F & Ln & _) R (Bi & Bo). pose proof (reads_open _ _ _ _ _ R) as ->. set (p := length a) in *. set (q := p + length u) in *.
  assert (Eb : between (a ++ u ++ r) p q = u) by apply between_mid. assert (Lw : q <= length (a ++ u ++ r)) by (rewrite !app_length; unfold p, q; lia).
  assert (Se : seenTo (a ++ u ++ r) p q = q).
  { unfold seenTo. destruct (nth_error _ p) as [c|]; [|reflexivity]. replace (q =? p + 1) with false; [rewrite andb_false_r; reflexivity|]. symmetry. apply Nat.eqb_neq. unfold q. lia. }
  rewrite Forall_forall in F.
  assert (P : Pass (entry None) (a ++ u ++ r) brk p false (moves p pre x q) q false).
  { pose proof (P_read (entry None) (a ++ u ++ r) brk p false q pre x [] false) as H. rewrite Se, Eb in H. cbn [length] in H. rewrite Nat.sub_0_r in H. apply H; clear H.
    - constructor; [unfold q; lia|exact Lw| | |right; left; exact Bi].
      + intros k K. destruct (nth_mid a u r k) as (c & E & I); [unfold p, q in *; lia|]. exists c. split; [exact E|]. apply letter_char, F, I.
      + intros y Y. specialize (Bo y Y). lia.
    - intros k r0 strs. apply none_listed.
    - intros (_ & s & r0 & S). inversion S as [g r1 G1 G2 G3 E|r1 E|c C E]; subst.
      + apply (letter_stop fullStop); [|reflexivity]. apply F. apply in_or_app. right. left. reflexivity.
      + apply (letter_stop fullStop); [|reflexivity]. apply F. left. reflexivity.
      + cbn in Ln. lia.
    - exact Lw.
    - exact R. }
  destruct pre as [y|].
  - exists (moves p (Some y) x q), [sylAt y (marker p q)], (sylAt x (Z.of_nat q)). split; [exact P|]. split; [|split].
    + cbn [moves Linked app]. split; [left; reflexivity|]. split; [right; left; reflexivity|reflexivity].
    + constructor; [|constructor]. cbn [endPos sylAt SylOf]. unfold marker, q. lia.
    + cbn [map app itemsOf]. rewrite !item_said. reflexivity.
  - exists (moves p None x q), [], (sylAt x (Z.of_nat q)). split; [exact P|]. split; [|split].
    + cbn [moves Linked app]. split; [left; reflexivity|reflexivity].
    + constructor.
    + cbn [map app itemsOf]. rewrite !item_said. reflexivity.
Qed.
Lemma stop_gives a r brk : namePlace (a ++ [fullStop] ++ r) (length a) -> Bounds (length a) (length a + 1) brk -> Gives a [fullStop] r brk [Copy [fullStop]].
Proof.
  intros Np (Bi & Bo). set (p := length a) in *. assert (Eb : between (a ++ [fullStop] ++ r) p (p + 1) = [fullStop]) by apply (between_mid a [fullStop] r).
  assert (Lw : p + 1 <= length (a ++ [fullStop] ++ r)) by (rewrite !app_length; cbn [length]; unfold p; lia).
  exists [(Z.of_nat p, SylLiteral (Z.of_nat p + 1) [fullStop])], [], (SylLiteral (Z.of_nat p + 1) [fullStop]). split; [|split; [|split]].
  - pose proof (P_names (entry None) (a ++ [fullStop] ++ r) brk p false (p + 1) [SylLiteral (Z.of_nat p + 1) [fullStop]] []) as H. rewrite Eb in H. cbn [length along] in H.
    replace (p + 1 - 0) with (p + 1) in H by lia. apply H; clear H.
    + constructor; [lia|exact Lw| | |right; left; exact Bi].
      * intros k K. destruct (nth_mid a [fullStop] r k) as (c & E & I); [unfold p in *; cbn [length]; lia|]. exists c. split; [exact E|]. destruct I as [<-|[]]. reflexivity.
      * intros y Y. specialize (Bo y Y). lia.
    + intros k r0 strs. apply none_listed.
    + exact Np.
    + apply Spl_stop.
  - cbn [Linked app endPos SylLiteral length]. split; [left; reflexivity|]. fold p. lia.
  - constructor.
  - reflexivity.
Qed.
Lemma foreign_gives a t r brk : foreignText t -> (r = [] \/ exists c r', r = c :: r' /\ thaiChar c = true) -> Gives a t r brk [Copy t].
Proof.
  intros (Nt & F) Nx. set (p := length a). set (q := p + length t). assert (Eb : between (a ++ t ++ r) p q = t) by apply (between_mid a t r).
  assert (Lt : 0 < length t) by (destruct t; [congruence|cbn; lia]).
  exists [(Z.of_nat p, SylLiteral (Z.of_nat q) t)], [], (SylLiteral (Z.of_nat q) t). split; [|split; [|split]].
  - pose proof (P_foreign (entry None) (a ++ t ++ r) brk p false q) as H. rewrite Eb in H. apply H. rewrite Forall_forall in F. constructor.
    + unfold q. lia.
    + rewrite !app_length. unfold p, q. lia.
    + intros k K (c & E & C). destruct (nth_mid a t r k) as (c' & E' & I); [unfold p, q in *; lia|]. rewrite E in E'. injection E' as <-. rewrite (F c I) in C. discriminate C.
    + destruct Nx as [->|(c & r' & -> & C)].
      * left. rewrite app_nil_r, app_length. reflexivity.
      * right. exists c. split; [|exact C]. unfold p, q. rewrite app_assoc, nth_error_app2 by (rewrite app_length; lia). rewrite app_length, Nat.sub_diag. reflexivity.
  - cbn [Linked app endPos SylLiteral]. split; [left; reflexivity|reflexivity].
  - constructor.
  - cbn [map app]. unfold itemOf. cbn [literal SylLiteral]. destruct t; [congruence|reflexivity].
Qed.

(** ** A text for every result *)
Definition starts (r : list N) (cs : list Item) : Prop :=
  match cs with
  | [] => r = []
  | Speak _ :: _ => exists c r', r = c :: r' /\ thaiLetter c = true
  | Copy t :: _ => (t = [fullStop] \/ foreignText t) /\ exists r', r = t ++ r'
  end.
(** Before a full stop of its own the text ends in a blank or a full stop. *)
Definition breathes (a : list N) : Prop := a = [] \/ exists a' c, a = a' ++ [c] /\ (c = blank \/ c = fullStop).
Definition fits (a : list N) (cs : list Item) : Prop := forall cs', cs = Copy [fullStop] :: cs' -> breathes a.
Definition calm (r : list N) : Prop := forall c a, r = a ++ [c] -> leadVowel c = false.
Definition Built (cs : list Item) : Prop := forall a bA, StronglySorted lt bA -> Forall (fun y => y <= length a) bA -> fits a cs ->
  exists r bs s, starts r cs /\ calm r /\ StronglySorted lt (bA ++ bs) /\ Forall (fun y => length a <= y <= length (a ++ r)) bs /\
    Chain (a ++ r) (bA ++ bs) (length a) s /\ map itemOf s = cs.
Lemma sorted_app (l1 l2 : list nat) p : StronglySorted lt l1 -> Forall (fun y => y <= p) l1 -> StronglySorted lt l2 -> Forall (fun y => p < y) l2 -> StronglySorted lt (l1 ++ l2).
Proof.
  intros S1 F1 S2 F2. induction S1 as [|x l S IH F]; [exact S2|]. inversion F1; subst. cbn [app]. constructor; [auto|].
  apply Forall_app. split; [exact F|]. eapply Forall_impl; [|exact F2]. cbn beta. intros y Y. lia.
Qed.
Lemma sorted_split (l1 l2 : list nat) : StronglySorted lt (l1 ++ l2) -> StronglySorted lt l1 /\ StronglySorted lt l2 /\ forall x y, In x l1 -> In y l2 -> x < y.
Proof.
  induction l1 as [|z l1 IH]; cbn [app]; intros S; [split; [constructor|split; [exact S|intros x y []]]|].
  inversion S as [|? ? S' F]; subst. destruct (IH S') as (A & B & C). apply Forall_app in F. destruct F as (F1 & F2). rewrite Forall_forall in F2.
  split; [constructor; assumption|]. split; [exact B|]. intros x y [<-|X] Y; auto.
Qed.
Lemma breathes_place a r : breathes a -> namePlace (a ++ r) (length a).
Proof.
  intros [->|(a' & c & -> & C)]; [left; reflexivity|right]. exists c. split; [|exact C]. rewrite app_length. cbn [length].
  rewrite <- app_assoc, nth_error_app2 by lia. replace (length a' + 1 - 1 - length a') with 0 by lia. reflexivity.
Qed.
Lemma calm_app u r : calm u -> calm r -> calm (u ++ r).
Proof.
  intros A B c a E. destruct r as [|x r]; [rewrite app_nil_r in E; exact (A c a E)|].
  destruct (exists_last (l := x :: r) ltac:(discriminate)) as (r0 & y & Er). rewrite Er, app_assoc in E. apply app_inj_tail in E. destruct E as (_ & <-). exact (B y r0 Er).
Qed.
(** [dot]: the full stop that the unit [u] is extended over. *)
Lemma build u dot cs0 cs : u <> [] -> calm u -> Built cs ->
  (dot = [] /\ (forall cs', cs = Copy [fullStop] :: cs' -> breathes u) \/ dot = [fullStop] /\ exists u' c, u = u' ++ [c] /\ c <> blank /\ c <> fullStop) ->
  (forall r, starts (u ++ r) (cs0 ++ cs)) ->
  (forall a r brk, fits a (cs0 ++ cs) -> Bounds (length a) (length a + length u) brk -> starts r cs -> Gives a u (dot ++ r) brk cs0) ->
  Built (cs0 ++ cs).
Proof.
  intros Nu Cu B Dot St Gv a bA S F Fi. set (e := length a + length u). assert (Lu : 0 < length u) by (destruct u; [congruence|cbn; lia]).
  destruct (B (a ++ u ++ dot) (bA ++ [e])) as (r & bs & s & Sr & Cr & Ss & Fb & Ch & It).
  - apply (sorted_app _ _ (length a)); [exact S|exact F|repeat constructor|repeat constructor]. unfold e. lia.
  - apply Forall_app. split; [eapply Forall_impl; [|exact F]; cbn beta; intros y Y; rewrite !app_length; lia|]. constructor; [|constructor]. rewrite !app_length. unfold e. lia.
  - intros cs' E. destruct Dot as [(-> & H)|(-> & _)].
    + destruct (H cs' E) as [X|(u' & c & -> & C)]; [congruence|]. right. exists (a ++ u'), c. rewrite app_nil_r, app_assoc. auto.
    + right. exists (a ++ u), fullStop. rewrite <- app_assoc. auto.
  - rewrite <- !app_assoc in Ch, Ss, Fb. cbn [app] in Ss, Ch. exists (u ++ dot ++ r), (e :: bs).
    assert (Bd : Bounds (length a) e (bA ++ e :: bs)).
    { destruct (sorted_split _ _ Ss) as (_ & S2 & _). inversion S2 as [|? ? _ F2]; subst. rewrite Forall_forall in F, F2. split; [apply in_elt|].
      intros y Y. apply in_app_or in Y. destruct Y as [Y|[<-|Y]]; [left; apply F, Y|right; lia|right; apply Nat.lt_le_incl, F2, Y]. }
    destruct (Gv a r _ Fi Bd Sr) as (es & s0 & v & P & L & Ng & I0). fold e in P, L.
    assert (Step1 : exists es' s', Step (entry None) (a ++ u ++ dot ++ r) (bA ++ e :: bs) (length a) false es' (length (a ++ u ++ dot)) false /\
      Linked es' (Z.of_nat (length a)) s' (Z.of_nat (length (a ++ u ++ dot))) /\ map itemOf s' = cs0).
    { destruct Dot as [(-> & H)|(-> & u' & c & Eu & C1 & C2)].
      - rewrite app_nil_r, app_length. fold e. cbn [app] in *. exists es, (s0 ++ [v]). split; [|split; [exact L|exact I0]]. apply St_plain; [exact P|].
        intros (T1 & T2). apply T2. clear T2. assert (Hd : exists r', r = fullStop :: r').
        { rewrite app_assoc in T1. rewrite nth_error_app2 in T1 by (rewrite app_length; unfold e; lia). unfold e in T1. rewrite app_length, Nat.sub_diag in T1.
          destruct r as [|y r]; [discriminate T1|]. injection T1 as ->. eauto. }
        destruct Hd as (r' & ->). assert (Hc : exists cs', cs = Copy [fullStop] :: cs').
        { destruct cs as [|[x|t] cs]; cbn [starts] in Sr.
          - discriminate Sr.
          - destruct Sr as (c & r2 & E & C). injection E as <- _. discriminate C.
          - destruct Sr as ([->|(Nt & Ft)] & r2 & E); [eauto|exfalso]. destruct t as [|y t]; [congruence|]. injection E as <- _. inversion Ft as [|? ? X _]. discriminate X. }
        destruct Hc as (cs' & Ec). destruct (H cs' Ec) as [X|(u' & c & Eu & C)]; [congruence|]. right. exists c. split; [|exact C]. unfold e. rewrite Eu, app_length. cbn [length].
        rewrite nth_error_app2 by lia. replace (length a + (length u' + 1) - 1 - length a) with (length u') by lia. rewrite <- app_assoc, nth_error_app2 by lia. rewrite Nat.sub_diag. reflexivity.
      - replace (length (a ++ u ++ [fullStop])) with (e + 1) by (rewrite !app_length; unfold e; cbn [length]; lia). rewrite <- I0.
        apply (unit_step _ _ _ es _ s0 v); [exact P|exact L|exact Ng|]. split.
        + rewrite app_assoc, nth_error_app2 by (rewrite app_length; unfold e; lia). rewrite app_length. unfold e. rewrite Nat.sub_diag. reflexivity.
        + intros [X|(c' & X & Y)]; [unfold e in X; lia|]. unfold e in X. rewrite Eu, app_length in X. cbn [length] in X.
          rewrite nth_error_app2 in X by lia. replace (length a + (length u' + 1) - 1 - length a) with (length u') in X by lia. rewrite <- app_assoc, nth_error_app2, Nat.sub_diag in X by lia.
          injection X as <-. destruct Y as [Y|Y]; [exact (C1 Y)|exact (C2 Y)]. }
    destruct Step1 as (es' & s' & P' & L' & I'). exists (s' ++ s). split; [apply St|]. split; [apply calm_app; [exact Cu|apply calm_app; [|exact Cr]]|].
    { destruct Dot as [(-> & _)|(-> & _)]; intros c a0 E; [destruct a0; discriminate E|]. destruct a0 as [|? a0]; [injection E as <-; reflexivity|destruct a0; discriminate E]. }
    split; [exact Ss|]. split; [|split].
    + constructor; [rewrite !app_length; unfold e; lia|]. eapply Forall_impl; [|exact Fb]. cbn beta. intros y Y. rewrite !app_length in *. lia.
    + replace ((bA ++ [e]) ++ bs) with (bA ++ e :: bs) in Ch by (rewrite <- app_assoc; reflexivity). rewrite <- (app_assoc u dot r) in Ch. eapply Ch_step; [exact P'|exact L'|exact Ch].
    + rewrite map_app, I', It. reflexivity.
Qed.
Lemma read_built u pre x b cs : Text u -> Reads false u pre x [] b -> Built cs -> Built (itemsOf pre x ++ cs).
Proof.
  intros (F & Ln & Ca) R B. assert (Nu : u <> []) by (intros ->; cbn in Ln; lia).
  assert (St : forall r, starts (u ++ r) (itemsOf pre x ++ cs)).
  { intros r. destruct u as [|c u]; [congruence|]. inversion F; subst. destruct pre; cbn [itemsOf app starts]; eauto. }
  assert (Dc : (exists cs', cs = Copy [fullStop] :: cs') \/ ~ exists cs', cs = Copy [fullStop] :: cs').
  { destruct cs as [|[y|t] cs]; [right; intros (? & X); discriminate X|right; intros (? & X); discriminate X|].
    destruct (list_eq_dec N.eq_dec t [fullStop]) as [->|N]; [left; eauto|right; intros (? & X); congruence]. }
  destruct Dc as [_|Dc].
  - apply (build u [fullStop]); [exact Nu|exact Ca|exact B| |exact St|].
    + right. split; [reflexivity|]. destruct (exists_last Nu) as (u' & c & E). exists u', c. split; [exact E|]. rewrite Forall_forall in F. specialize (F c). rewrite E in F.
      specialize (F ltac:(apply in_or_app; right; left; reflexivity)). split; intros ->; discriminate F.
    + intros a r brk _ Bd _. apply (thai_gives a u _ brk pre x b); [exact (conj F (conj Ln Ca))|exact R|exact Bd].
  - apply (build u []); [exact Nu|exact Ca|exact B| |exact St|].
    + left. split; [reflexivity|]. intros cs' E. exfalso. apply Dc. eauto.
    + intros a r brk _ Bd _. apply (thai_gives a u _ brk pre x b); [exact (conj F (conj Ln Ca))|exact R|exact Bd].
Qed.
Lemma foreign_calm t : foreignText t -> calm t.
Proof.
  intros (_ & F) c a ->. rewrite Forall_forall in F. specialize (F c ltac:(apply in_or_app; right; left; reflexivity)).
  destruct (leadVowel c) eqn:E; [|reflexivity]. exfalso. revert E F. unfold leadVowel, thaiChar, thaiLetter. intros E F. apply orb_false_iff in F. destruct F as (F & _). apply andb_true_iff in E. destruct E as (E1 & E2). apply N.leb_le in E1, E2.
  assert (X : In c [0x0e40; 0x0e41; 0x0e42; 0x0e43; 0x0e44]%N) by (cbn [In]; lia). cbn [In] in X. repeat destruct X as [<-|X]; [discriminate F..|exact X].
Qed.
Lemma result_built cs : Result cs -> Built cs.
Proof.
  induction 1 as [|x cs C R _ B|p x cs C R M _ B|cs _ B|t cs Ft Nx _ B].
  - intros a bA S F _. exists [], [], []. split; [reflexivity|]. split; [intros c a0 E; destruct a0; discriminate E|]. rewrite !app_nil_r. split; [exact S|]. split; [constructor|]. split; [apply Ch_end|reflexivity].
  - destruct (can_read x C) as (u & p & b & T & Rd & [->|X]); [|destruct (R X)]. exact (read_built u None x b cs T Rd B).
  - destruct (pair_text p x C R M) as (u & b & T & Rd). exact (read_built u (Some p) x b cs T Rd B).
  - apply (build [fullStop] [] [Copy [fullStop]]); [discriminate| |exact B| | |].
    + intros c a E. destruct a as [|? a]; [injection E as <-; reflexivity|destruct a; discriminate E].
    + left. split; [reflexivity|]. intros cs' E. right. exists [], fullStop. auto.
    + intros r. cbn [app starts]. split; [auto|eauto].
    + intros a r brk Fi Bd _. apply stop_gives; [|exact Bd]. apply breathes_place. exact (Fi cs eq_refl).
  - assert (St : forall r, starts (t ++ r) ([Copy t] ++ cs)) by (intros r; cbn [app starts]; split; [auto|eauto]).
    assert (Last : exists t' c, t = t' ++ [c] /\ c <> fullStop).
    { destruct (exists_last (proj1 Ft)) as (t' & c & E). exists t', c. split; [exact E|]. intros ->. destruct Ft as (_ & F). rewrite Forall_forall in F.
      specialize (F fullStop). rewrite E in F. specialize (F ltac:(apply in_or_app; right; left; reflexivity)). discriminate F. }
    destruct Last as (t' & c & E & Cf). pose proof (proj1 Ft) as Nt. destruct (N.eq_dec c blank) as [->|Cb].
    + apply (build t [] [Copy t]); [exact Nt|apply foreign_calm, Ft|exact B| |exact St|].
      * left. split; [reflexivity|]. intros cs' _. right. exists t', blank. auto.
      * intros a r brk _ _ Sr. apply foreign_gives; [exact Ft|]. cbn [app]. destruct cs as [|[x|t2] cs]; cbn [starts] in Sr; [auto| |].
        -- destruct Sr as (y & r2 & -> & Y). right. exists y, r2. split; [reflexivity|apply letter_char, Y].
        -- destruct Sr as (_ & r2 & ->). rewrite (Nx t' t2 cs E eq_refl). right. exists fullStop, r2. auto.
    + apply (build t [fullStop] [Copy t]); [exact Nt|apply foreign_calm, Ft|exact B| |exact St|].
      * right. split; [reflexivity|]. exists t', c. auto.
      * intros a r brk _ _ _. apply foreign_gives; [exact Ft|]. right. exists fullStop, r. auto.
Qed.

(** ** What stands in a listing *)
Lemma along_mem s : forall x f v, In (f, v) (along x s) -> In v s.
Proof. induction s as [|u s IH]; intros x f v H; [exact (False_ind _ H)|]. cbn [along] in H. destruct H as [H|H]; [injection H as _ <-; left; reflexivity|right; eapply IH, H]. Qed.
Lemma names_sound g : forall p v, In v (names p g) -> literal v = [].
Proof.
  induction g as [|c g IH]; intros p v H; [exact (False_ind _ H)|]. destruct g as [|c2 g]; [destruct H as [<-|H]; [reflexivity|exact (False_ind _ H)]|].
  destruct H as [<-|H]; [reflexivity|eapply IH, H].
Qed.
Lemma pass_literal w brk p lk es e lk' f v : Pass (entry None) w brk p lk es e lk' -> In (f, v) es -> literal v <> [] ->
  literal v = [fullStop] \/ foreignTo w p e /\ f = Z.of_nat p /\ literal v = between w p e.
Proof.
  intros [q F|q k r strs W L|q s r W _ Np Sp|q pre x r lk1 W _ _ _ R] H L0.
  - right. destruct H as [H|H]; [|exact (False_ind _ H)]. injection H as <- <-. auto.
  - destruct (none_listed _ _ _ _ L).
  - apply along_mem in H. left. destruct Sp as [g r G1 G2 G3|r|c C].
    + destruct (L0 (names_sound _ _ _ H)).
    + destruct H as [<-|H]; [reflexivity|exact (False_ind _ H)].
    + destruct H as [<-|H]; [destruct (L0 eq_refl)|exact (False_ind _ H)].
  - exfalso. apply L0. destruct pre; cbn [moves] in H; repeat destruct H as [H|H]; try (exact (False_ind _ H)); injection H as _ <-; reflexivity.
Qed.
Lemma set_literal v e : literal (setEndPos v e) = literal v. Proof. destruct v; reflexivity. Qed.
Lemma pass_end w brk p lk es e lk' f v : Pass (entry None) w brk p lk es e lk' -> In (f, v) es -> foreignTo w p e -> endPos v = Z.of_nat e.
Proof.
  intros [q F|q k r strs W L|q s r W _ Np Sp|q pre x r lk1 W _ _ _ R] H Fo.
  - destruct H as [H|H]; [|exact (False_ind _ H)]. injection H as _ <-. reflexivity.
  - destruct (none_listed _ _ _ _ L).
  - exfalso. apply (ft_none _ _ _ Fo p); [pose proof (ft_lt _ _ _ Fo); lia|]. apply (wt_thai _ _ _ _ W). pose proof (wt_lt _ _ _ _ W). lia.
  - exfalso. apply (ft_none _ _ _ Fo p); [pose proof (ft_lt _ _ _ Fo); lia|]. apply (wt_thai _ _ _ _ W). pose proof (wt_lt _ _ _ _ W). lia.
Qed.
Lemma way_literal w brk f v : OnWay (entry None) w brk f v -> literal v <> [] ->
  literal v = [fullStop] \/ exists p q, foreignTo w p q /\ f = Z.of_nat p /\ literal v = between w p q /\ (endPos v = Z.of_nat q \/ tacit w q).
Proof.
  intros (p & lk & es & e & lk' & _ & S & _ & H) L0. destruct S as [es e lk' Ps T|es e lk' Ps T].
  - destruct (pass_literal _ _ _ _ _ _ _ _ _ Ps H L0) as [X|(F & Ef & X)]; [auto|right]. exists p, e. pose proof (pass_end _ _ _ _ _ _ _ _ _ Ps H F). auto.
  - assert (exists v0, In (f, v0) es /\ literal v = literal v0) as (v0 & H0 & El).
    { apply (proj1 (extend_in _ _ _ _)) in H. destruct H as [(H & _)|(v0 & H & _ & ->)]; eauto using set_literal. }
    rewrite El in *. destruct (pass_literal _ _ _ _ _ _ _ _ _ Ps H0 L0) as [X|(F & Ef & X)]; [auto|right]. exists p, e. auto.
Qed.
Lemma path_way D w brk s1 : forall f v s2 e, Path D w brk f (s1 ++ v :: s2) e -> exists f', OnWay D w brk f' v /\ Path D w brk (endPos v) s2 e.
Proof. induction s1 as [|u s1 IH]; intros f v s2 e; cbn [app Path]; [intros (A & B); eauto|]. intros (_ & B). eapply IH, B. Qed.
Lemma foreign_text w p q : foreignTo w p q -> foreignText (between w p q).
Proof.
  intros F. pose proof (ft_lt _ _ _ F). pose proof (ft_le _ _ _ F). split.
  - intros E. apply (f_equal (@length N)) in E. rewrite between_len in E by lia. cbn in E. lia.
  - apply Forall_forall. intros c C. destruct (thaiChar c) eqn:T; [exfalso|reflexivity]. apply In_nth_error in C. destruct C as (k & C).
    assert (K : k < length (between w p q)) by (apply nth_error_Some; rewrite C; discriminate). rewrite between_len in K by lia.
    rewrite between_nth in C by lia. apply (ft_none _ _ _ F (p + k)); [lia|]. exists c. auto.
Qed.

Definition mayFollow (c d : Item) : Prop := forall a t', c = Copy (a ++ [blank]) -> d = Copy t' -> foreignText (a ++ [blank]) -> t' = [fullStop].
Record Good (cs : list Item) : Prop := {
  gd_say : forall x, In (Speak x) cs -> CanSay x;
  gd_riy : forall a x b, cs = a ++ Speak x :: b -> riy x -> exists a0 p, a = a0 ++ [Speak p] /\ MayPrecede p x;
  gd_text : forall t, In (Copy t) cs -> t = [fullStop] \/ foreignText t;
  gd_next : forall a c d b, cs = a ++ c :: d :: b -> mayFollow c d }.
Lemma good_tail c cs : Good (c :: cs) -> (forall x cs', cs = Speak x :: cs' -> ~ riy x) -> Good cs.
Proof.
  intros [A B C D] H. split.
  - intros x X. apply A. right. exact X.
  - intros a x b -> R. destruct (B (c :: a) x b eq_refl R) as (a0 & p & E & M). destruct a as [|a1 a]; [destruct (H x b eq_refl R)|].
    destruct (last_of _ _ _ _ _ E) as (a2 & E2). eauto.
  - intros t X. apply C. right. exact X.
  - intros a c0 d b ->. apply (D (c :: a) c0 d b eq_refl).
Qed.
Lemma good_result n : forall cs, length cs <= n -> Good cs -> Result cs.
Proof.
  induction n as [|n IH]; intros cs Ln G; [destruct cs; [apply Rs_nil|cbn in Ln; lia]|]. destruct cs as [|c cs]; [apply Rs_nil|]. cbn [length] in Ln.
  assert (Rn : (exists p x cs', c = Speak p /\ cs = Speak x :: cs' /\ riy x /\ MayPrecede p x) \/ forall x cs', cs = Speak x :: cs' -> ~ riy x).
  { destruct cs as [|[x|t] cs]; [right; discriminate| |right; discriminate]. destruct (riy_dec x) as [R|R]; [left|right; intros ? ? E; injection E as <- _; exact R].
    destruct (gd_riy _ G [c] x cs eq_refl R) as (a0 & p & E & M). destruct a0 as [|? a0]; [injection E as ->; eauto 8|destruct a0; discriminate E]. }
  destruct Rn as [(p & x & cs' & -> & -> & R & M)|Nr].
  - apply Rs_two; [apply (gd_say _ G); right; left; reflexivity|exact R|exact M|]. apply IH; [cbn [length] in Ln; lia|].
    destruct G as [A B C D]. split.
    + intros y Y. apply A. right. right. exact Y.
    + intros a y b -> Ry. destruct (B (Speak p :: Speak x :: a) y b eq_refl Ry) as (a0 & q & E & Mq). destruct a as [|a1 a].
      * exfalso. destruct a0 as [|? [|? a0]]; [discriminate E| |destruct a0; discriminate E]. injection E as _ <-. exact (precede_not _ _ Mq R).
      * destruct (last_of _ _ _ _ _ E) as (a2 & E2). destruct (last_of _ _ _ _ _ E2) as (a3 & E3). eauto.
    + intros t X. apply C. right. right. exact X.
    + intros a c0 d b ->. apply (D (Speak p :: Speak x :: a) c0 d b eq_refl).
  - pose proof (IH cs ltac:(lia) (good_tail _ _ G Nr)) as Q. destruct c as [x|t].
    + apply Rs_one; [apply (gd_say _ G); left; reflexivity| |exact Q]. intros R. destruct (gd_riy _ G [] x cs eq_refl R) as (a0 & p & E & _). destruct a0; discriminate E.
    + destruct (gd_text _ G t (or_introl eq_refl)) as [->|F]; [apply Rs_stop, Q|]. apply Rs_text; [exact F| |exact Q].
      intros a t' cs' -> ->. eapply (gd_next _ G [] _ _ cs' eq_refl a t'); [reflexivity|reflexivity|exact F].
Qed.
Lemma item_speak v x : itemOf v = Speak x -> literal v = [] /\ x = saidOf v.
Proof. unfold itemOf. destruct (literal v); [intros E; injection E as <-; auto|discriminate]. Qed.
Lemma item_copy v t : itemOf v = Copy t -> literal v <> [] /\ t = literal v.
Proof. unfold itemOf. destruct (literal v); [discriminate|intros E; injection E as <-; split; [discriminate|reflexivity]]. Qed.
Lemma listed_good w brk l s : StronglySorted lt brk -> Forall (fun x => x <= length w) brk -> pronounced libthai_ct w None brk l -> In s l -> Good (map itemOf s).
Proof.
  intros S I P Is. assert (D : dictOKo None) by (intros d X; discriminate X).
  pose proof (proj1 (C71_lemma w None brk l D S I P s) Is) as (_ & Pt).
  assert (Wy : forall s1 v s2, s = s1 ++ v :: s2 -> exists f, OnWay (entry None) w brk f v /\ Path (entry None) w brk (endPos v) s2 (Z.of_nat (length w))) by (intros s1 v s2 ->; eapply path_way, Pt).
  split.
  - intros x X. apply (proj1 (in_map_iff _ _ _)) in X. destruct X as (v & E & X). apply item_speak in E. destruct E as (L & ->).
    destruct (C101_sound w None brk l s v S I D P Is X L) as [Y|Y]; [destruct (no_dict v Y)|exact Y].
  - intros a x b E R. apply map_eq_app in E. destruct E as (s1 & s' & -> & <- & E). apply map_eq_cons in E. destruct E as (v & s2 & -> & E & _).
    apply item_speak in E. destruct E as (L & ->). destruct (riy_before w brk l s1 v s2 S I P Is L R) as (s0 & u & -> & Lu & M).
    exists (map itemOf s0), (saidOf u). split; [|exact M]. rewrite map_app. cbn [map]. unfold itemOf at 2. rewrite Lu. reflexivity.
  - intros t X. apply (proj1 (in_map_iff _ _ _)) in X. destruct X as (v & E & X). apply item_copy in E. destruct E as (L & ->).
    destruct (in_split v s X) as (s1 & s2 & Es). destruct (Wy s1 v s2 Es) as (f & O & _). destruct (way_literal w brk f v O L) as [Y|(p & q & F & _ & -> & _)]; [auto|].
    right. apply foreign_text, F.
  - intros a c d b E a0 t' -> -> F. apply map_eq_app in E. destruct E as (s1 & s' & Es & <- & E). apply map_eq_cons in E. destruct E as (u & s2 & -> & Eu & E).
    apply map_eq_cons in E. destruct E as (v & s3 & -> & Ev & _). apply item_copy in Eu, Ev. destruct Eu as (Lu & Eu). destruct Ev as (Lv & ->).
    destruct (Wy s1 u _ Es) as (f & O & Pv). cbn [Path] in Pv. destruct Pv as (Ov & _).
    destruct (way_literal w brk _ v Ov Lv) as [Y|(p' & q' & F' & Ep & _ & _)]; [exact Y|exfalso].
    destruct (way_literal w brk f u O Lu) as [Y|(p & q & Fu & _ & El & En)].
    + rewrite <- Eu in Y. destruct a0 as [|? a0]; [discriminate Y|destruct a0; discriminate Y].
    + pose proof (ft_lt _ _ _ Fu). pose proof (ft_le _ _ _ Fu). pose proof (ft_lt _ _ _ F'). pose proof (ft_le _ _ _ F').
      assert (Nb : namePlace w q).
      { right. exists blank. split; [|left; reflexivity]. rewrite El in Eu.
        assert (X : nth_error (between w p q) (length a0) = Some blank) by (rewrite <- Eu, nth_error_app2, Nat.sub_diag by lia; reflexivity).
        assert (Ln : length a0 + 1 = q - p) by (apply (f_equal (@length N)) in Eu; rewrite app_length, between_len in Eu by lia; cbn [length] in Eu; lia).
        rewrite between_nth in X by lia. replace (q - 1) with (p + length a0) by lia. exact X. }
      destruct En as [En|(_ & T)]; [|exact (T Nb)]. assert (q = p') by lia. subst p'. destruct (ft_end _ _ _ Fu) as [Z|Z]; [lia|].
      apply (ft_none _ _ _ F' q); [lia|exact Z].
Qed.
Lemma C103_lemma cs : cs <> [] ->
  ((exists w brk l s, StronglySorted lt brk /\ Forall (fun x => x <= length w) brk /\ pronounced libthai_ct w None brk l /\
      In s l /\ map itemOf s = cs) <-> Result cs).
Proof.
  intros Ne. split.
  - intros (w & brk & l & s & S & I & P & Is & <-). eapply good_result; [apply le_n|]. eapply listed_good; eassumption.
  - intros R. destruct (result_built cs R [] []) as (r & bs & s & _ & Ca & Ss & Fb & Ch & E); [constructor|constructor|intros cs' _; left; reflexivity|].
    cbn [app length] in *. assert (D : dictOKo None) by (intros d X; discriminate X).
    assert (I : Forall (fun x => x <= length r) bs) by (eapply Forall_impl; [|exact Fb]; cbn beta; lia).
    destruct (C71_lemma2 r None bs D Ss I) as [(St & _)|(_ & l & P)]; [exfalso; exact (not_stuck r bs (fun c a => Ca c a) St)|].
    exists r, bs, l, s. split; [exact Ss|]. split; [exact I|]. split; [exact P|]. split; [|exact E].
    apply (proj2 (C71_lemma r None bs l D Ss I P s)). split; [intros ->; apply Ne; symmetry; exact E|]. apply (chain_path r bs 0 s Ch). constructor.
Qed.
(** Without a dictionary: what the pronunciations of any text with any word
    breaks say, text copied included, is exactly what [Result] describes. *)
Theorem C103_range cs : cs <> [] ->
  ((exists w brk l s, StronglySorted lt brk /\ Forall (fun x => x <= length w) brk /\ pronounced libthai_ct w None brk l /\
      In s l /\ map itemOf s = cs) <-> Result cs).
Proof. exact (C103_lemma cs). Qed.
Print Assumptions C103_range.

(** The text "ab ", a full stop, "kaa" and the text "cd" are said of some text;
    the texts "ab" and "cd" too, but not the texts "ab " and "cd", nor the text
    "a.b" in one piece. *)
Definition saidOfSome (cs : list Item) : Prop :=
  exists w brk l s, StronglySorted lt brk /\ Forall (fun x => x <= length w) brk /\ pronounced libthai_ct w None brk l /\
    In s l /\ map itemOf s = cs.
Local Open Scope N_scope.
Example C103_case :
  saidOfSome [Copy [97; 98; 32]; Copy [46]; Speak exKaa; Copy [99; 100]] /\ saidOfSome [Copy [97; 98]; Copy [99; 100]] /\
  ~ saidOfSome [Copy [97; 98; 32]; Copy [99; 100]] /\ ~ saidOfSome [Copy [97; 46; 98]].
Proof.
  assert (K : CanSay exKaa).
  { exists MID, SAMAN. split; [discriminate|]. split; [apply GrammarIff.toned_iff; [discriminate..|reflexivity]|]. left.
    exists [MID]. split; [unfold onsets; cbn [In]; tauto|]. split; [left; reflexivity|]. split; [reflexivity|discriminate]. }
  assert (F : forall t, t <> [] -> forallb (fun c => negb (thaiChar c)) t = true -> foreignText t).
  { intros t Nt H. split; [exact Nt|]. apply Forall_forall. intros c C. apply negb_true_iff. exact (proj1 (forallb_forall _ _) H c C). }
  assert (Yes : forall cs, cs <> [] -> Result cs -> saidOfSome cs) by (intros cs Nc; exact (proj2 (C103_range cs Nc))).
  assert (No : forall cs, cs <> [] -> saidOfSome cs -> Result cs) by (intros cs Nc; exact (proj1 (C103_range cs Nc))).
  split; [|split; [|split]].
  - apply Yes; [discriminate|]. apply Rs_text; [apply F; [discriminate|reflexivity]|intros a t' cs' _ E; injection E as <- _; reflexivity|].
    apply Rs_stop. apply Rs_one; [exact K|intros (X & _); discriminate X|]. apply Rs_text; [apply F; [discriminate|reflexivity]|discriminate|apply Rs_nil].
  - apply Yes; [discriminate|]. apply Rs_text; [apply F; [discriminate|reflexivity]| |apply Rs_text; [apply F; [discriminate|reflexivity]|discriminate|apply Rs_nil]].
    intros a t' cs' E _. destruct a as [|? [|? [|? a]]]; discriminate E.
  - intros H. apply No in H; [|discriminate]. inversion H as [| | | |t cs A B C E]; subst. discriminate (B [97; 98] _ _ eq_refl eq_refl).
  - intros H. apply No in H; [|discriminate]. inversion H as [| | | |t cs A B C E]; subst. destruct A as (_ & A). inversion A as [|? ? _ A2]; subst. inversion A2 as [|? ? X _]; subst. discriminate X.
Qed.

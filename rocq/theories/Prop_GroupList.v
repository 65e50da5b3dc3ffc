(** Prop_GroupList.v - property C86: grouped output of a given list of
    pronunciations. *)
From Coq Require Import List NArith ZArith Bool String Ascii Lia Arith Sorted.
From Verif Require Import Base ThUni ThCons Syl Utf Lattice Dag PronDag SylOut ThaiOut Output Dict GenDict Parser Cli.
From Verif Require Import Spec OrderProofs DictProofs Prop_Syl ParserSpec ParserFacts ParserInv ParserResult ParserListed ParserDict UtfProofs.
From Verif Require Import Prop_Parser Prop_Notation Prop_Graph Prop_Output Prop_Cli Prop_Cli2 Prop_Roman Prop_Codes Prop_Listing
  Prop_Product Grammar GrammarWord Prop_Grammar Prop_Text Prop_Breaks Prop_Program GroupProofs GroupSyl ListDagProofs Prop_CodeOrder Prop_ProgramJson.
Import ListNotations.
Local Open Scope string_scope.
Local Open Scope list_scope.

(** The decoded value: a list of chains of groups of alternatives. *)
Definition groupsJson (text : Syl -> string) (chains : list (list (list SylString))) : Json :=
  JArr (map (fun g => JArr (map (fun a => JArr (map (fun s => JArr (map (fun v => JStr (text v)) s)) a)) g)) chains).
(** No two of the pronunciations meet inside. *)
Definition apart (l : list SylString) : Prop :=
  forall s t p, In s l -> In t l -> In p (interior s) -> In p (interior t) -> s = t.

Lemma jlatt_groups text latt : jlatt text latt = groupsJson text (map (map alts) latt).
Proof.
  unfold jlatt, groupsJson, jchain, jlist, jword. rewrite map_map. f_equal. apply map_ext. intros c. f_equal.
  rewrite map_map. reflexivity.
Qed.
Lemma C86_lemma f text l N : (forall s, In s l -> wellPositioned N s /\ Forall (saysPlain f text) s) ->
  exists chains out, gjsonOutputList f l = Ok out /\ decode out = Some (groupsJson text chains) /\
    Forall (fun g => Forall (fun a => a <> []) g) chains /\ Forall tidyChain chains /\
    (forall s, In s l -> exists g s', In g chains /\ Choice g s' /\ alike s' s) /\
    (apart l -> forall g s', In g chains -> Choice g s' -> exists s, In s l /\ alike s' s).
Proof.
  intros H. assert (H1 : forall s, In s l -> wellPositioned N s) by (intros s Hs; apply H; exact Hs).
  destruct (ofList_acyclic l N H1) as (A & Nr & _).
  destruct (C14_lemma l N H1) as (flat & Ef & Co & Ex).
  destruct (grouped_good (fun v => saysPlain f text v) (pronDAGOfList l) A) as (fd & latt & E1 & E2 & G).
  { intros x y v I. apply pronDAGOfList_InE in I. destruct I as (s & Hs & I). destruct (H s Hs) as (_ & F). rewrite Forall_forall in F.
    apply F. clear - I. revert I. generalize 0%Z. induction s as [|u s IH]; intros z I; [destruct I|].
    cbn in I. destruct I as [I|I]; [injection I as _ _ ->; left; reflexivity|right; eapply IH; exact I]. }
  destruct (C11_grouping_preserves (pronDAGOfList l) A Nr) as (latt' & flat' & Gr & Ef' & Q).
  rewrite Ef in Ef'. injection Ef' as <-. unfold grouped in Gr. rewrite E1 in Gr. cbv beta iota delta [bind] in Gr. rewrite E2 in Gr. injection Gr as <-.
  destruct (C20_lemma2 f text latt) as (out & O & Dc).
  { intros c g s Ic Ig Is. destruct (G c Ic) as (_ & F). rewrite Forall_forall in F. destruct (F g Ig) as ((_ & Ne) & X). unfold fracP in X.
    rewrite Forall_forall in Ne, X. split; [apply Ne; exact Is|apply X; exact Is]. }
  exists (map (map alts) latt), out. split; [|split; [|split; [|split; [|split]]]].
  - unfold gjsonOutputList, gjsonOutputDAG. rewrite E1. cbn [bind]. rewrite E2. cbn [bind]. exact O.
  - rewrite <- jlatt_groups. exact Dc.
  - apply Forall_forall. intros g Ig. apply in_map_iff in Ig. destruct Ig as (c & <- & Ic). apply Forall_forall. intros a Ia.
    apply in_map_iff in Ia. destruct Ia as (fr & <- & If). destruct (G c Ic) as (_ & Fg). rewrite Forall_forall in Fg. apply (Fg fr If).
  - apply Forall_forall. intros g Ig. apply in_map_iff in Ig. destruct Ig as (c & <- & Ic). split.
    + pose proof (C84_groups _ fd latt A E1 E2) as So. rewrite Forall_forall in So. specialize (So c Ic).
      rewrite Forall_forall in *. intros a Ia. apply in_map_iff in Ia. destruct Ia as (fr & <- & If). apply So. exact If.
    + intros g1 a1 b1 g2 Eg. exact (no_neighbours _ fd latt c g1 a1 b1 g2 A E1 E2 Ic Eg).
  - intros s Hs. destruct (proj2 (Q s)) as (c & Ic & s' & Ds & Eq); [exact (Co s Hs)|].
    exists (map alts c), s'. split; [apply in_map; exact Ic|]. split; [apply choice_den; exact Ds|]. apply str_eqb_spoken. exact Eq.
  - intros U g s' Ig Ch. apply in_map_iff in Ig. destruct Ig as (c & <- & Ic). apply choice_den in Ch.
    destruct (proj1 (Q s')) as (s & Is & Eq).
    { exists c. split; [exact Ic|]. exists s'. split; [exact Ch|]. apply str_eqb_spoken. reflexivity. }
    exists s. split; [exact (Ex U s Is)|]. apply str_eqb_spoken in Eq. symmetry. exact Eq.
Qed.
(** The grouped form of a list of pronunciations of the same text: decoded, it
    is chains of groups, in order and not needlessly divided; every given
    pronunciation can be chosen, and only these if no two of them meet inside. *)
Theorem C86_grouped_list f text l N : (forall s, In s l -> wellPositioned N s /\ Forall (saysPlain f text) s) ->
  exists chains out, gjsonOutputList f l = Ok out /\ decode out = Some (groupsJson text chains) /\
    Forall (fun g => Forall (fun a => a <> []) g) chains /\ Forall tidyChain chains /\
    (forall s, In s l -> exists g s', In g chains /\ Choice g s' /\ alike s' s) /\
    (apart l -> forall g s', In g chains -> Choice g s' -> exists s, In s l /\ alike s' s).
Proof. exact (C86_lemma f text l N). Qed.
Print Assumptions C86_grouped_list.
Definition q2 (s : string) : string := (dquote ++ s ++ dquote)%string.
Definition kaa e := SylOf KA SEC_NONE V_AA EC_NONE SAMAN e.
Definition naa e := SylOf NA SEC_NONE V_AA EC_NONE SAMAN e.
(** Two pronunciations that meet inside: the grouped form also offers the two
    mixtures that were not given. *)
Theorem C86_mixing_refuted : let l := [[kaa 2; naa 4]; [naa 2; kaa 4]] in
  (forall s, In s l -> wellPositioned 4 s) /\
  exists chains, gjsonOutputList PhoneticOutput l =
      Ok ("[[[[" ++ q2 "kaa0" ++ "],[" ++ q2 "naa0" ++ "]],[[" ++ q2 "kaa0" ++ "],[" ++ q2 "naa0" ++ "]]]]")%string /\
    decode ("[[[[" ++ q2 "kaa0" ++ "],[" ++ q2 "naa0" ++ "]],[[" ++ q2 "kaa0" ++ "],[" ++ q2 "naa0" ++ "]]]]") =
      Some (groupsJson (textOf PhoneticOutput) chains) /\
    exists g s, In g chains /\ Choice g s /\ forall t, In t l -> ~ alike s t.
Proof.
  cbv zeta. split.
  - intros s [<-|[<-|[]]]; (split; [discriminate|]); split; try reflexivity; simpl; unfold nodeRank; simpl; lia.
  - exists [[[[kaa 2]; [naa 2]]; [[kaa 4]; [naa 4]]]]. split; [vm_compute; reflexivity|]. split; [vm_compute; reflexivity|].
    exists [[[kaa 2]; [naa 2]]; [[kaa 4]; [naa 4]]], ([kaa 2] ++ [kaa 4] ++ []). split; [left; reflexivity|]. split.
    + constructor; [left; reflexivity|]. constructor; [left; reflexivity|constructor].
    + intros t [<-|[<-|[]]] E; vm_compute in E; discriminate E.
Qed.
Print Assumptions C86_mixing_refuted.
(** Three ways through the same letters that meet nowhere inside. *)
Example C86_case : let l := [[kaa 2; naa 4]; [naa (-4); kaa 4]; [kaa 4]] in
  (forall s, In s l -> wellPositioned 4 s /\ Forall (saysPlain PhoneticOutput (textOf PhoneticOutput)) s) /\ apart l /\
  gjsonOutputList PhoneticOutput l =
    Ok ("[[[[" ++ q2 "kaa0" ++ "," ++ q2 "naa0" ++ "],[" ++ q2 "kaa0" ++ "],[" ++ q2 "naa0" ++ "," ++ q2 "kaa0" ++ "]]]]")%string.
Proof.
  cbv zeta. split; [|split].
  - intros s [<-|[<-|[<-|[]]]]; (split; [split; [discriminate|]; split; try reflexivity; simpl; unfold nodeRank; simpl; lia|repeat constructor]).
  - intros s t p [<-|[<-|[<-|[]]]] [<-|[<-|[<-|[]]]]; auto; vm_compute; intuition congruence.
  - vm_compute. reflexivity.
Qed.

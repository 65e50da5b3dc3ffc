(** Prop_RegularOut.v - property C87: what the program prints for texts in
    regular spelling. *)
From Coq Require Import List NArith ZArith Bool String Ascii Lia Arith Sorted.
From Verif Require Import Base ThUni ThCons Syl Utf Lattice Dag PronDag SylOut ThaiOut Output Dict GenDict Parser Cli.
From Verif Require Import Spec OrderProofs DictProofs Prop_Syl ParserSpec ParserFacts ParserInv ParserResult ParserListed ParserDict UtfProofs.
From Verif Require Import Prop_Parser Prop_Notation Prop_Graph Prop_Output Prop_Cli Prop_Cli2 Prop_Roman Prop_Codes Prop_Listing
  Prop_Product Prop_Sweep Prop_Sweep2 Grammar GrammarWord Prop_Grammar Prop_Text Prop_Breaks Prop_Program Prop_ProgramJson TextGrammar Prop_Every Prop_Regular Prop_ProgramEvery.
Import ListNotations.
Local Open Scope string_scope.
Local Open Scope list_scope.

(** [word] is written in words of regular spelling (C85), the breaks inside it
    are their ends, and [s] is the reading piece by piece. *)
Inductive regularly (dict : option Dict) (b : list N -> list nat) (word : string) : SylString -> Prop :=
| Regularly ls : ls <> [] -> Forall (fun l => Regular (entry dict) l /\ 2 <= List.length (texts l)) ls ->
    let w := List.concat (map texts ls) in
    from_bytes word = Ok w -> sameBreaks libthai_ct w (b w) (wordEnds 0 (map texts ls)) -> modest b word ->
    regularly dict b word (inTurn 0 (map texts ls) (map readOut ls)).
(** The reading is on a line, in the list, among the choices. *)
Definition onLine (s : SylString) (c : ascii) (o : string) : Prop :=
  exists before t after, Line s c t /\ o = String.concat "" (map (fun t => (t ++ nl)%string) (before ++ t :: after)).
Definition inList (s : SylString) (c : ascii) (o : string) : Prop :=
  exists js j, decode o = Some (JArr js) /\ In j js /\ WordValue c s j.
Definition inGroups (s : SylString) (c : ascii) (o : string) : Prop :=
  exists chains j g s', decode o = Some j /\ GroupValue c chains j /\ In g chains /\ Choice g s' /\ alike s' s.
(** For every letter the block of output has it. *)
Definition printed (has : SylString -> ascii -> string -> Prop) (cs : list ascii) (word : string) (s : SylString) (text : string) : Prop :=
  exists outs, Forall2 (has s) cs outs /\ text = frame word outs.

(** ** Lemmas *)
Lemma regularly_listed dict b word s : dictOKo dict -> regularly dict b word s ->
  modest b word /\ plain word = true /\ ~ hopeless dict b word /\ forall l, allReadings dict b word l -> In s l.
Proof.
  intros D [ls Ne F w Eb Sb M]. pose proof (M w Eb) as (Size & S & I).
  destruct (C85_sentences dict ls D Ne F) as (ps & P & In1).
  apply (same_pronounced libthai_ct w dict _ (b w) ps libthai_ok (same_sym _ _ _ _ Sb)) in P.
  split; [exact M|]. split; [|split].
  - apply (proj2 (plain_text word w Eb)). unfold w. clear - F. induction F as [|l ls (R & _) F IH]; [constructor|].
    cbn [map List.concat]. apply Forall_app. split; [|exact IH]. eapply Forall_impl; [|apply (regular_thai dict l R)].
    intros c Hc. unfold thaiLetter in Hc. unfold plainUnit. rewrite !andb_true_iff, !orb_true_iff, !andb_true_iff, !N.leb_le in Hc. lia.
  - intros [X|(w' & E' & X)]; [exact (X w Eb)|]. assert (w' = w) by congruence. subst w'.
    destruct (C71_outcome w dict (b w) D S I) as [(_ & f & T)|(NS & _)]; [|exact (NS X)].
    destruct P as (f1 & d & E & L). destruct (C23_lemma libthai_ct w dict (b w)) as (r & f2 & _ & St & Al).
    assert (Er : r = Ok d) by (destruct (Al f1) as [Y|Y]; congruence). subst r.
    specialize (St (Nat.max f f2) ltac:(lia)). rewrite (T (Nat.max f f2) ltac:(lia)) in St. discriminate St.
  - intros l (w' & E' & _ & H). assert (w' = w) by congruence. subst w'. apply H.
    apply (C71_every_text w dict (b w) ps D S I P). exact In1.
Qed.
Lemma regularly_all dict b words ss : dictOKo dict -> Forall2 (regularly dict b) words ss ->
  Forall (modest b) words /\ Forall (fun word => plain word = true) words /\ Forall (fun word => ~ hopeless dict b word) words /\
  Forall2 (fun word s => forall l, allReadings dict b word l -> In s l) words ss.
Proof.
  intros D. induction 1 as [|word s words ss H F (A1 & A2 & A3 & A4)]; [repeat split; constructor|].
  destruct (regularly_listed dict b word s D H) as (B1 & B2 & B3 & B4). repeat split; constructor; assumption.
Qed.
Lemma in_split2 {A B} (R : A -> B -> Prop) l ts x : Forall2 R l ts -> In x l -> exists t1 t t2, ts = t1 ++ t :: t2 /\ R x t.
Proof.
  induction 1 as [|a t l ts H F IH]; [intros []|]. intros [->|I].
  - exists [], t, ts. auto.
  - destruct (IH I) as (t1 & t' & t2 & -> & R'). exists (t :: t1), t', t2. auto.
Qed.
Lemma answers_printed {A : string -> string -> Prop} has dict b cs words ss texts :
  (forall word text s, A word text -> (forall l, allReadings dict b word l -> In s l) -> printed has cs word s text) ->
  Forall2 (fun word s => forall l, allReadings dict b word l -> In s l) words ss -> Forall2 A words texts ->
  Forall2 (fun ws text => printed has cs (fst ws) (snd ws) text) (combine words ss) texts.
Proof.
  intros H F. revert texts. induction F as [|word s words ss B F IH]; intros texts G; inversion G; subst; cbn [combine]; constructor; auto.
Qed.
Lemma line_printed dict b cs word text s : lineAnswer dict b cs word text -> (forall l, allReadings dict b word l -> In s l) ->
  printed onLine cs word s text.
Proof.
  intros (_ & l & outs & R & F & ->) H. specialize (H l R). exists outs. split; [|reflexivity].
  clear R. induction F as [|c o cs outs (ts & Ft & Eo) F IH]; constructor; [|exact IH].
  destruct (in_split2 _ _ _ _ Ft H) as (t1 & t & t2 & -> & Lt). exists t1, t, t2. auto.
Qed.
Lemma list_printed dict b cs word text s : jsonAnswer dict b cs word text -> (forall l, allReadings dict b word l -> In s l) ->
  printed inList cs word s text.
Proof.
  intros (_ & l & outs & R & _ & F & ->) H. specialize (H l R). exists outs. split; [|reflexivity].
  clear R. unfold flatValues in F. induction F as [|c o cs outs (j & Dj & V) F IH]; constructor; [|exact IH]. destruct V as [js Fj].
  destruct (in_split2 _ _ _ _ Fj H) as (t1 & t & t2 & -> & Lt). exists (t1 ++ t :: t2), t. split; [exact Dj|].
  split; [apply in_elt|exact Lt].
Qed.
Lemma group_printed dict b cs word text s : chainAnswer dict b cs word text -> (forall l, allReadings dict b word l -> In s l) ->
  printed inGroups cs word s text.
Proof.
  intros (_ & l & outs & R & (chains & C1 & _ & _ & _ & F) & ->) H. specialize (H l R). exists outs. split; [|reflexivity].
  destruct (C1 s H) as (g & s' & Ig & Ch & Al). clear R C1.
  induction F as [|c o cs outs (j & Dj & Gj) F IH]; constructor; [|exact IH]. exists chains, j, g, s'. auto.
Qed.
Lemma nothing_hopeless {dict b} {words pre : list string} {bad rest} : Forall (fun word => ~ hopeless dict b word) words ->
  words = pre ++ bad :: rest -> ~ hopeless dict b bad.
Proof. intros F ->. rewrite Forall_forall in F. apply F, in_elt. Qed.


(** ** C87 *)
Lemma C87_lemma breaker VERSION default files stdin prog args cs words ss path b dict loaded :
  Forall accepted args -> structureIs args Lines -> wanted args cs ->
  wordsAre stdin args words -> dictIs default args path -> DictOpen (files path) = Ok (dict, loaded) -> dictOK dict ->
  breaksFor breaker args b -> Forall2 (regularly (Some dict) b) words ss ->
  exists fuel0 texts e, warning default args loaded e /\
    Forall2 (fun ws text => printed onLine cs (fst ws) (snd ws) text) (combine words ss) texts /\
    forall fuel, fuel0 <= fuel ->
      main libthai_ct breaker VERSION default files stdin fuel (prog :: args) = mkRun (String.concat "" texts) e (Ok 0%Z).
Proof.
  intros A S Wa W Di O OK B F.
  assert (D : dictOKo (Some dict)) by (intros d' H; injection H as <-; exact OK).
  destruct (regularly_all (Some dict) b words ss D F) as (M & Pl & Nh & Li).
  destruct (C72_program breaker VERSION default files stdin prog args cs words path b dict loaded A S Wa W Di O OK B M)
    as (f & pre & texts & post & e & E & We & An & [(-> & R)|(bad & rest & -> & Ho & _)]).
  - rewrite app_nil_r in E. subst pre. exists f, texts, e. split; [exact We|]. split; [|exact R].
    eapply answers_printed; [|exact Li|exact An]. intros word text s. apply line_printed.
  - destruct (nothing_hopeless Nh E Ho).
Qed.
(** The program prints the regular reading of every text on a line of its own
    in every notation asked for. *)
Theorem C87_lines breaker VERSION default files stdin prog args cs words ss path b dict loaded :
  Forall accepted args -> structureIs args Lines -> wanted args cs ->
  wordsAre stdin args words -> dictIs default args path -> DictOpen (files path) = Ok (dict, loaded) -> dictOK dict ->
  breaksFor breaker args b -> Forall2 (regularly (Some dict) b) words ss ->
  exists fuel0 texts e, warning default args loaded e /\
    Forall2 (fun ws text => printed onLine cs (fst ws) (snd ws) text) (combine words ss) texts /\
    forall fuel, fuel0 <= fuel ->
      main libthai_ct breaker VERSION default files stdin fuel (prog :: args) = mkRun (String.concat "" texts) e (Ok 0%Z).
Proof. exact (C87_lemma breaker VERSION default files stdin prog args cs words ss path b dict loaded). Qed.
Print Assumptions C87_lines.
Lemma C87_lemma2 breaker VERSION default files stdin prog args cs words ss path b dict loaded :
  Forall accepted args -> structureIs args Flat -> wanted args cs ->
  wordsAre stdin args words -> dictIs default args path -> DictOpen (files path) = Ok (dict, loaded) -> dictOK dict ->
  breaksFor breaker args b -> Forall2 (regularly (Some dict) b) words ss ->
  exists fuel0 texts e, warning default args loaded e /\
    Forall2 (fun ws text => printed inList cs (fst ws) (snd ws) text) (combine words ss) texts /\
    forall fuel, fuel0 <= fuel ->
      main libthai_ct breaker VERSION default files stdin fuel (prog :: args) = mkRun (String.concat "" texts) e (Ok 0%Z).
Proof.
  intros A S Wa W Di O OK B F.
  assert (D : dictOKo (Some dict)) by (intros d' H; injection H as <-; exact OK).
  destruct (regularly_all (Some dict) b words ss D F) as (M & Pl & Nh & Li).
  destruct (C72_json breaker VERSION default files stdin prog args cs words path b dict loaded A S Wa W Di O OK B M Pl)
    as (f & pre & texts & post & e & E & We & An & [(-> & R)|[(bad & rest & -> & Ho & _)|(bad & rest & -> & _ & Rd & _)]]).
  - rewrite app_nil_r in E. subst pre. exists f, texts, e. split; [exact We|]. split; [|exact R].
    eapply answers_printed; [|exact Li|exact An]. intros word text s. apply list_printed.
  - destruct (nothing_hopeless Nh E Ho).
  - exfalso. assert (X : exists s : SylString, In s []).
    { subst words. destruct (in_split2 (fun word s => forall l, allReadings (Some dict) b word l -> In s l) _ _ bad Li) as (_ & s & _ & _ & H); [apply in_elt|].
      exists s. apply H. exact Rd. }
    destruct X as (s & []).
Qed.
(** With [-j] it is an element of the JSON list. *)
Theorem C87_json breaker VERSION default files stdin prog args cs words ss path b dict loaded :
  Forall accepted args -> structureIs args Flat -> wanted args cs ->
  wordsAre stdin args words -> dictIs default args path -> DictOpen (files path) = Ok (dict, loaded) -> dictOK dict ->
  breaksFor breaker args b -> Forall2 (regularly (Some dict) b) words ss ->
  exists fuel0 texts e, warning default args loaded e /\
    Forall2 (fun ws text => printed inList cs (fst ws) (snd ws) text) (combine words ss) texts /\
    forall fuel, fuel0 <= fuel ->
      main libthai_ct breaker VERSION default files stdin fuel (prog :: args) = mkRun (String.concat "" texts) e (Ok 0%Z).
Proof. exact (C87_lemma2 breaker VERSION default files stdin prog args cs words ss path b dict loaded). Qed.
Print Assumptions C87_json.
Lemma C87_lemma3 breaker VERSION default files stdin prog args cs words ss path b dict loaded :
  Forall accepted args -> structureIs args Grouped -> wanted args cs ->
  wordsAre stdin args words -> dictIs default args path -> DictOpen (files path) = Ok (dict, loaded) -> dictOK dict ->
  breaksFor breaker args b -> Forall2 (regularly (Some dict) b) words ss ->
  exists fuel0 texts e, warning default args loaded e /\
    Forall2 (fun ws text => printed inGroups cs (fst ws) (snd ws) text) (combine words ss) texts /\
    forall fuel, fuel0 <= fuel ->
      main libthai_ct breaker VERSION default files stdin fuel (prog :: args) = mkRun (String.concat "" texts) e (Ok 0%Z).
Proof.
  intros A S Wa W Di O OK B F.
  assert (D : dictOKo (Some dict)) by (intros d' H; injection H as <-; exact OK).
  destruct (regularly_all (Some dict) b words ss D F) as (M & Pl & Nh & Li).
  destruct (C72_grouped breaker VERSION default files stdin prog args cs words path b dict loaded A S Wa W Di O OK B M Pl)
    as (f & pre & texts & post & e & E & We & An & [(-> & R)|(bad & rest & -> & Ho & _)]).
  - rewrite app_nil_r in E. subst pre. exists f, texts, e. split; [exact We|]. split; [|exact R].
    eapply answers_printed; [|exact Li|exact An]. intros word text s. apply group_printed.
  - destruct (nothing_hopeless Nh E Ho).
Qed.
(** With [-g] it can be chosen from the groups. *)
Theorem C87_grouped breaker VERSION default files stdin prog args cs words ss path b dict loaded :
  Forall accepted args -> structureIs args Grouped -> wanted args cs ->
  wordsAre stdin args words -> dictIs default args path -> DictOpen (files path) = Ok (dict, loaded) -> dictOK dict ->
  breaksFor breaker args b -> Forall2 (regularly (Some dict) b) words ss ->
  exists fuel0 texts e, warning default args loaded e /\
    Forall2 (fun ws text => printed inGroups cs (fst ws) (snd ws) text) (combine words ss) texts /\
    forall fuel, fuel0 <= fuel ->
      main libthai_ct breaker VERSION default files stdin fuel (prog :: args) = mkRun (String.concat "" texts) e (Ok 0%Z).
Proof. exact (C87_lemma3 breaker VERSION default files stdin prog args cs words ss path b dict loaded). Qed.
Print Assumptions C87_grouped.
(** A listed word and a syllable, with the break between them, in the three
    forms. *)
Definition outDict : Dict := mkDict (Some [(letters "กา", 0%Z)]) (Some ("k_A_0@2" ++ String Ascii.zero "")%string).
Definition outWords : list (list (list N * SylString)) :=
  [[(letters "กา", [SylOf KA SEC_NONE V_AA EC_NONE SAMAN 2])]; [(letters "ขา", [SylOf KHA SEC_NONE V_AA EC_NONE CHATTAWA 2])]].
Definition outBreaks (w : list N) : list nat := [2].
Definition outArgs (form : list string) : list string := ("-r" :: form ++ ["-dx"; "กาขา"])%string.
Definition outReading : SylString := [SylOf KA SEC_NONE V_AA EC_NONE SAMAN 2; SylOf KHA SEC_NONE V_AA EC_NONE CHATTAWA 4].
Lemma outWords_regular : Forall (fun l => Regular (entry (Some outDict)) l /\ 2 <= List.length (texts l)) outWords.
Proof.
  assert (K : thaiConsonant 0x0e02%N) by (repeat split; lia || discriminate).
  destruct (letter_listed _ K) as (A1 & A2 & _).
  constructor; [split; [|cbn; lia]|constructor; [split; [|cbn; lia]|constructor]].
  - apply (Rg_word (entry (Some outDict)) (letters "กา") [SylOf KA SEC_NONE V_AA EC_NONE SAMAN 2]
      [[SylOf KA SEC_NONE V_AA EC_NONE SAMAN 2]] []).
    + exists outDict, 0%Z. split; [reflexivity|]. split; [|split; [discriminate|]].
      * eexists. split; [reflexivity|]. exists [], []. split; [reflexivity|]. intros v' [].
      * eexists. split; [reflexivity|]. vm_compute. reflexivity.
    + left. reflexivity.
    + letters_ok.
    + apply endsWell_last. vm_compute. reflexivity.
    + split; [vm_compute; reflexivity|]. vm_compute. intros [H|[H|[]]]; discriminate H.
    + exact I.
    + constructor.
  - apply (Rg_syl (entry (Some outDict)) (letters "ขา") (say KHA SEC_NONE V_AA EC_NONE CHATTAWA) []).
    + apply (RS_open [] (form "" "" "า" V_AA EC_NONE false false) [0x0e02%N] KHA SEC_NONE HIGH [] SAMAN CHATTAWA).
      * right. right. left. reflexivity.
      * apply On_one; [exact K|exact A1|exact A2].
      * left. reflexivity.
      * left. apply TB_high_live.
      * intros (X & _). discriminate X.
      * intros (X & _). discriminate X.
    + intros k r strs (E & _ & d & v & Ed & Hv & _). injection Ed as <-. destruct Hv as (t & Et & t1 & t2 & Hv & _).
      cbn [mTrie outDict] in Et. injection Et as <-.
      assert (Hk : k = letters "กา").
      { destruct t1 as [|x [|y t1]]; [injection Hv as <- _; reflexivity|discriminate|discriminate]. }
      subst k. discriminate E.
    + constructor.
Qed.
Example C87_case : DictOpen (exFiles "x") = Ok (outDict, true) /\ dictOK outDict /\ regularly (Some outDict) outBreaks "กาขา" outReading /\
  (forall st form, In (st, form) [(Lines, []); (Flat, ["-j"]); (Grouped, ["-g"])]%string ->
    Forall accepted (outArgs form) /\ structureIs (outArgs form) st /\ wanted (outArgs form) ["r"]%char /\
    wordsAre "" (outArgs form) ["กาขา"]%string /\ dictIs "/d" (outArgs form) "x" /\ breaksFor outBreaks (outArgs form) outBreaks) /\
  map (fun form => main libthai_ct outBreaks "1" "/d" exFiles "" 500 ("thpronun" :: outArgs form)%string) [[]; ["-j"]; ["-g"]]%string =
    map (fun o => mkRun ("กาขา:" ++ nl ++ o ++ nl)%string "" (Ok 0%Z))
      [("kakha" ++ nl)%string; ("[[" ++ q "ka" ++ "," ++ q "kha" ++ "]]")%string; ("[[[[" ++ q "ka" ++ "," ++ q "kha" ++ "]]]]")%string].
Proof.
  split; [vm_compute; reflexivity|]. split; [eapply dictCheck_sound; [reflexivity|vm_compute; reflexivity]|].
  split; [|split; [|vm_compute; reflexivity]].
  - replace outReading with (inTurn 0 (map texts outWords) (map readOut outWords)) by (vm_compute; reflexivity).
    apply Regularly; [discriminate|exact outWords_regular|vm_compute; reflexivity|apply sameBreaksb_sound; vm_compute; reflexivity|].
    intros w E. vm_compute in E. injection E as <-. split; [vm_compute; reflexivity|]. split; [repeat constructor|].
    constructor; [cbn; lia|constructor].
  - assert (NT : forall a, match a with String x _ => is "-" x | _ => false end = false -> ~ isOption a).
    { intros a H (t & ->). discriminate. }
    intros st form [X|[X|[X|[]]]]; injection X as <- <-; unfold outArgs; cbn [app];
    (split; [repeat (apply Forall_cons; [first [apply acc_letter; cbn; tauto|apply acc_dict; discriminate|apply acc_text, NT; reflexivity]|]); apply Forall_nil|]);
    (split; [cbn; first [split; rewrite <- givenb_ok; first [reflexivity|discriminate]|rewrite <- givenb_ok; reflexivity]|]);
    (split; [exists ["r"]%char; split; [|reflexivity]; apply (named_take "r" ""); [cbn; tauto|];
      repeat (apply named_skip; [intros c [<-|[<-|[<-|[<-|[<-|[]]]]]] H; apply letterb_ok in H; discriminate|]); constructor|]);
    (split; [exists ["กาขา"]%string; split; [|reflexivity];
      repeat (apply texts_skip; [eexists; reflexivity|]); repeat (apply texts_take; [apply NT; reflexivity|]); constructor|]);
    (split; [|right; split; [rewrite <- givenb_ok; discriminate|reflexivity]]); left.
    + exists ["-r"]%string, ["กาขา"]%string. split; [reflexivity|rewrite <- givenb_ok; discriminate].
    + exists ["-r"; "-j"]%string, ["กาขา"]%string. split; [reflexivity|rewrite <- givenb_ok; discriminate].
    + exists ["-r"; "-g"]%string, ["กาขา"]%string. split; [reflexivity|rewrite <- givenb_ok; discriminate].
Qed.

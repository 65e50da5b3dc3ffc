(** Prop_Pipeline.v - property C68: from the source list of the exception
    dictionary to the pronunciations of the words in it. *)
From Coq Require Import List NArith ZArith Bool String Ascii Lia Arith.
From Verif Require Import Base ThUni ThCons Syl Utf Lattice Dag PronDag SylOut Dict GenDict Parser.
From Verif Require Import Spec OrderProofs DictProofs Prop_Syl ParserSpec ParserFacts ParserInv ParserListed UtfProofs.
From Verif Require Import Prop_Parser Prop_Notation Prop_Dict Prop_Roman Prop_Codes Grammar GrammarWord Prop_Grammar.
Import ListNotations.
Local Open Scope string_scope.
Local Open Scope list_scope.

(** ** Vocabulary *)
(** The code of a pronunciation, and the data of a word with several. *)
Definition codeOf (s : SylString) (t : string) : Prop := exists ts, Forall2 RawText s ts /\ t = String.concat "," ts.
Definition dataOf (ss : list SylString) (t : string) : Prop := exists cs, Forall2 codeOf ss cs /\ t = String.concat ";" cs.
(** A word of the alphabet with at least one pronunciation, each made of
    well-formed syllables whose positions go up to the length of the word. *)
Definition goodWord (e : list N * list SylString) : Prop :=
  fst e <> [] /\ inAbc (fst e) /\ snd e <> [] /\
  Forall (fun s => wellPositioned (Z.of_nat (List.length (fst e))) s /\ Forall wellFormed s) (snd e).
(** The source file: a line for every word, none longer than 254 bytes. *)
Definition sourceOf (es : list (list N * list SylString)) (input : string) : Prop :=
  exists lines, FileOf lines input /\
    Forall2 (fun e l => fst l = fst e /\ dataOf (snd e) (snd l) /\ (String.length (lineText (fst l) (snd l)) <= 254)%nat) es lines.
(** The last line for the word [k]. *)
Definition lastEntry (es : list (list N * list SylString)) (k : list N) (ss : list SylString) : Prop :=
  exists l1 l2, es = l1 ++ (k, ss) :: l2 /\ forall x, ~ In (k, x) l2.

(** ** Codes contain no separator *)
Definition plain (c : ascii) : Prop := c <> ","%char /\ c <> ";"%char /\ c <> lf /\ c <> Ascii.zero.
Fixpoint plains (s : string) : Prop := match s with ""%string => True | String c s => plain c /\ plains s end.
Definition plainb (c : ascii) : bool :=
  negb (Ascii.eqb c ",") && negb (Ascii.eqb c ";") && negb (Ascii.eqb c lf) && negb (Ascii.eqb c Ascii.zero).
Lemma plainb_ok c : plainb c = true -> plain c.
Proof.
  unfold plainb, plain. rewrite !andb_true_iff, !negb_true_iff, !Ascii.eqb_neq. tauto.
Qed.
Fixpoint plainsb (s : string) : bool := match s with ""%string => true | String c s => plainb c && plainsb s end.
Lemma plainsb_ok s : plainsb s = true -> plains s.
Proof. induction s as [|c s IH]; cbn; [tauto|]. rewrite andb_true_iff. intros (A & B). split; [apply plainb_ok; exact A|auto]. Qed.
Lemma plains_app a b : plains (a ++ b) <-> plains a /\ plains b.
Proof. induction a as [|c a IH]; cbn [String.append plains]; tauto. Qed.
Lemma plains_lacks s : plains s -> noChar "," s /\ noChar ";" s /\ lacks lf s /\ noNul s.
Proof.
  induction s as [|c s IH]; cbn [plains noChar lacks noNul]; [tauto|]. intros ((A & B & C & D) & H). destruct (IH H) as (I1 & I2 & I3 & I4). auto 10.
Qed.
Lemma table_plain {B} (f : B -> string) (l : list B) : forallb (fun x => plainsb (f x)) l = true -> forall x, In x l -> plains (f x).
Proof. intros H x I. rewrite forallb_forall in H. apply plainsb_ok. auto. Qed.
Lemma digit_plain n c : String.get n decimalDigits = Some c -> plain c.
Proof.
  intros H. apply plainb_ok.
  do 10 (destruct n as [|n]; [injection H as <-; reflexivity|]). cbn in H. destruct n; discriminate.
Qed.
Lemma decimal_plain z t : Decimal z t -> plains t.
Proof.
  induction 1 as [d c R G|n t d c P D IH R G]; [split; [exact (digit_plain _ _ G)|exact I]|].
  apply plains_app. split; [exact IH|]. split; [exact (digit_plain _ _ G)|exact I].
Qed.
Lemma numeral_plain z t : Numeral z t -> plains t.
Proof.
  intros [(_ & D)|(_ & u & D & ->)]; [exact (decimal_plain _ _ D)|]. apply plains_app.
  split; [apply plainsb_ok; reflexivity|exact (decimal_plain _ _ D)].
Qed.
Lemma raw_plain s t : RawText s t -> plains t.
Proof.
  intros [r1 r2 r3 b r4 r5 r6 H1 H2 H3 H4 H5 H6]. rewrite !plains_app. repeat split.
  - destruct H1 as [c r s' _ I _]. exact (table_plain fst codeInitial eq_refl _ I).
  - exact (table_plain fst codeSecond eq_refl _ H2).
  - destruct H3 as [a b l I|a b k I]; [exact (table_plain (fun x => fst (fst x)) codeVowel eq_refl _ I)|exact (table_plain (fun x => snd (fst x)) codeVowel eq_refl _ I)].
  - exact (table_plain fst codeFinal eq_refl _ H4).
  - exact (table_plain fst voiceTone eq_refl _ H5).
  - discriminate.
  - discriminate.
  - discriminate.
  - discriminate.
  - exact (numeral_plain _ _ H6).
Qed.

(** ** Codes are read back *)
Lemma raw_read s t : wellFormed s -> intRange (endPos s) -> RawText s t -> SylOfDesc t (-1) = Ok s.
Proof.
  intros W R H. destruct (C05_raw_round_trip s (-1) W R) as (t' & E & D).
  apply (C67_raw_text s t W R) in H. congruence.
Qed.
Lemma split_concat d ts : ts <> [] -> Forall (noChar d) ts -> splitOn d (String.concat (String d "") ts) = ts.
Proof.
  induction ts as [|t ts IH]; [congruence|]. intros _ F. inversion F as [|? ? N F']; subst.
  destruct ts as [|u ts]; [apply splitOn_none; exact N|].
  change (String.concat (String d "") (t :: u :: ts)) with (t ++ String d (String.concat (String d "") (u :: ts)))%string.
  rewrite splitOn_app by exact N. f_equal. apply IH; [discriminate|exact F'].
Qed.
Lemma code_read s t : s <> [] -> Forall (fun v => wellFormed v /\ intRange (endPos v)) s -> codeOf s t -> SylStringOfDesc t = Ok s.
Proof.
  intros N F (ts & H & ->). unfold SylStringOfDesc. change "," with (String "," ""). rewrite split_concat.
  - clear N. induction H as [|v t s ts R H IH]; [reflexivity|]. inversion F as [|? ? (W & Rg) F']; subst. cbn [mapM].
    rewrite (raw_read v t W Rg R), (IH F'). reflexivity.
  - intros ->. inversion H; subst. congruence.
  - clear N F. induction H as [|v t s ts R H IH]; constructor; [|exact IH]. apply plains_lacks, (raw_plain _ _ R).
Qed.
Lemma concat_clean x sep ts : noChar x sep -> Forall (noChar x) ts -> noChar x (String.concat sep ts).
Proof.
  intros S. induction 1 as [|t ts N F IH]; [exact I|]. destruct ts as [|u ts]; [exact N|].
  change (String.concat sep (t :: u :: ts)) with (t ++ sep ++ String.concat sep (u :: ts))%string. rewrite !noChar_app. auto.
Qed.
Lemma code_clean x s t : x <> ","%char -> (forall v u, RawText v u -> noChar x u) -> codeOf s t -> noChar x t.
Proof.
  intros N C (ts & H & ->). apply concat_clean; [split; [congruence|exact I]|].
  induction H as [|v t s ts R H IH]; constructor; [exact (C _ _ R)|exact IH].
Qed.
Lemma noChar_lacks x s : noChar x s <-> lacks x s.
Proof. induction s as [|c s IH]; cbn [noChar lacks]; tauto. Qed.
Lemma data_clean ss t : dataOf ss t -> lacks lf t /\ noNul t.
Proof.
  intros (cs & H & ->). rewrite noNul_lacks, <- !noChar_lacks.
  split; (apply concat_clean; [split; [discriminate|exact I]|]); induction H as [|s c ss cs R H IH]; constructor; try exact IH;
    (eapply code_clean; [discriminate| |exact R]); intros v u Hu; apply raw_plain, plains_lacks in Hu; destruct Hu as (_ & _ & A & B).
  - apply noChar_lacks. exact A.
  - apply noNul_lacks in B. apply noChar_lacks. exact B.
Qed.
Lemma rank_low from ps : increasing from ps -> forall p, In p ps -> (nodeRank p <= nodeRank (last ps 0))%Z.
Proof.
  revert from. induction ps as [|q ps IH]; intros from Inc p I; [destruct I|]. destruct Inc as (A & B).
  destruct ps as [|r ps]; [destruct I as [<-|[]]; cbn; lia|]. specialize (IH q B).
  change (last (q :: r :: ps) 0%Z) with (last (r :: ps) 0%Z). destruct I as [<-|I]; [|auto].
  specialize (IH r (or_introl eq_refl)). destruct B as (B & _). lia.
Qed.
Lemma last_map {A B} (f : A -> B) l a : l <> [] -> last (map f l) (f a) = f (last l a).
Proof. induction l as [|x [|y l] IH]; [congruence|reflexivity|]. intros _. exact (IH ltac:(discriminate)). Qed.
Lemma positions_small n s : wellPositioned n s -> (0 <= n)%Z -> (101 * n < 2 ^ 31)%Z -> Forall (fun v => intRange (endPos v)) s.
Proof.
  intros (N & Inc & E) P L. apply Forall_forall. intros v Hv.
  pose proof (rank_low 0 _ Inc (endPos v) (in_map endPos s v Hv)) as R.
  assert (X : last (map endPos s) 0%Z = n).
  { destruct s as [|x s]; [congruence|]. unfold str_endPos in E. rewrite <- E.
    rewrite <- (last_map endPos (x :: s) Blank) by discriminate. destruct (map endPos (x :: s)) eqn:M; [discriminate|].
    clear. generalize (endPos Blank). revert z. induction l as [|y l IH]; intros z d; [reflexivity|]. exact (IH y d). }
  rewrite X in R. unfold nodeRank in R. unfold intRange. destruct (Z.ltb_spec (endPos v) 0), (Z.ltb_spec n 0); lia.
Qed.
Lemma data_read k ss t : goodWord (k, ss) -> (List.length k <= 254)%nat -> dataOf ss t -> MakeSylStrings t = Ok ss.
Proof.
  intros (Nk & Ak & Ns & F) L (cs & H & ->). cbn [fst snd] in *. unfold MakeSylStrings. change ";" with (String ";" "").
  rewrite split_concat.
  - clear Ns. induction H as [|s c ss cs R H IH]; [reflexivity|]. inversion F as [|? ? (P & W) F']; subst. cbn [mapM].
    rewrite (code_read s c), (IH F'); [reflexivity|apply P| |exact R].
    pose proof (positions_small _ _ P ltac:(lia) ltac:(lia)) as Ps. rewrite Forall_forall in *. auto.
  - intros ->. inversion H; subst. congruence.
  - clear Ns F. induction H as [|s c ss cs R H IH]; constructor; [|exact IH].
    eapply code_clean; [discriminate| |exact R]. intros v u Hu. apply plains_lacks, (raw_plain _ _ Hu).
Qed.

(** ** The dictionary made from the source *)
Lemma source_lines es lines :
  Forall2 (fun e l => fst l = fst e /\ dataOf (snd e) (snd l) /\ (String.length (lineText (fst l) (snd l)) <= 254)%nat) es lines ->
  Forall goodWord es -> Forall wellLine lines.
Proof.
  induction 1 as [|(k & ss) (k' & t) es lines (E & D & L) H IH]; intros G; [constructor|]. inversion G as [|? ? G1 G2]; subst.
  constructor; [|exact (IH G2)]. cbn [fst snd] in *. subst k'. destruct G1 as (A & B & _ & _). destruct (data_clean _ _ D) as (X & Y).
  split; [exact A|]. split; [exact B|]. split; [exact Y|]. split; [exact X|exact L].
Qed.
Lemma forall2_split {A B} (R : A -> B -> Prop) l1 x l2 m : Forall2 R (l1 ++ x :: l2) m ->
  exists m1 y m2, m = m1 ++ y :: m2 /\ R x y /\ Forall2 R l2 m2.
Proof.
  intros H. apply Forall2_app_inv_l in H. destruct H as (m1 & m2 & _ & H & ->). inversion H; subst. eauto 6.
Qed.
Lemma forall2_split' {A B} (R : A -> B -> Prop) l m1 y m2 : Forall2 R l (m1 ++ y :: m2) ->
  exists l1 x l2, l = l1 ++ x :: l2 /\ R x y /\ Forall2 R l2 m2.
Proof.
  intros H. apply Forall2_app_inv_r in H. destruct H as (l1 & l2 & _ & H & ->). inversion H; subst. eauto 6.
Qed.
Lemma forall2_in {A B} (R : A -> B -> Prop) l m x : Forall2 R l m -> In x l -> exists y, In y m /\ R x y.
Proof. induction 1 as [|a b l m Rab H IH]; [intros []|]. intros [<-|I]; [exists b; cbn; auto|destruct (IH I) as (y & P & Q); exists y; cbn; auto]. Qed.
Lemma forall2_in' {A B} (R : A -> B -> Prop) l m y : Forall2 R l m -> In y m -> exists x, In x l /\ R x y.
Proof. induction 1 as [|a b l m Rab H IH]; [intros []|]. intros [<-|I]; [exists a; cbn; auto|destruct (IH I) as (x & P & Q); exists x; cbn; auto]. Qed.
Lemma last_lines es lines :
  Forall2 (fun e l => fst l = fst e /\ dataOf (snd e) (snd l) /\ (String.length (lineText (fst l) (snd l)) <= 254)%nat) es lines ->
  forall k, (forall ss, lastEntry es k ss -> exists t, lastSays lines k t /\ dataOf ss t) /\
    (forall t, lastSays lines k t -> exists ss, lastEntry es k ss /\ dataOf ss t /\ (String.length (lineText k t) <= 254)%nat).
Proof.
  intros F k. split.
  - intros ss (l1 & l2 & -> & N). apply forall2_split in F. destruct F as (m1 & (k' & t) & m2 & -> & (E & D & _) & F2).
    cbn [fst snd] in *. subst k'. exists t. split; [|exact D]. exists m1, m2. split; [reflexivity|]. intros x I.
    destruct (forall2_in' _ _ _ _ F2 I) as ((k2 & s2) & I2 & E & _). cbn [fst] in E. subst k2. exact (N s2 I2).
  - intros t (m1 & m2 & -> & N). apply forall2_split' in F. destruct F as (l1 & (k' & ss) & l2 & -> & (E & D & L) & F2).
    cbn [fst snd] in *. subst k'. exists ss. split; [|split; [exact D|exact L]]. exists l1, l2. split; [reflexivity|]. intros x I.
    destruct (forall2_in _ _ _ _ F2 I) as ((k2 & s2) & I2 & E & _). cbn [fst] in E. subst k2. exact (N s2 I2).
Qed.
Lemma lastEntry_in es k ss : lastEntry es k ss -> In (k, ss) es.
Proof. intros (l1 & l2 & -> & _). apply in_or_app. right; left; reflexivity. Qed.
Lemma lastEntry_fun es k a b : lastEntry es k a -> lastEntry es k b -> a = b.
Proof.
  intros (a1 & a2 & E1 & H1) (c1 & c2 & E2 & H2). rewrite E1 in E2. clear E1. revert c1 E2.
  induction a1 as [|x a1 IH]; intros [|y c1] E2; cbn [app] in E2; injection E2 as X Y.
  - congruence.
  - exfalso. apply (H1 b). rewrite Y. apply in_or_app. right; left; reflexivity.
  - exfalso. apply (H2 a). rewrite <- Y. apply in_or_app. right; left; reflexivity.
  - exact (IH c1 Y).
Qed.
Lemma data_of_key d k i s : holds d k i -> dictGetData d i = Ok s -> matchGetData d (mkMatch 0 k []) = Ok s.
Proof.
  intros (t & Et & H) E. unfold matchGetData, trieGetData. rewrite Et. cbn [mPre].
  rewrite (proj2 (trieFind_spec t k i) H). destruct (Z.eqb_spec i TRIE_DATA_ERROR) as [->|_]; [|exact E].
  unfold dictGetData in E. destruct (mData d); discriminate E.
Qed.
Lemma C68_lemma es input : es <> [] -> Forall goodWord es -> sourceOf es input -> (Z.of_nat (String.length input) < 1073741824)%Z ->
  exists f d, GenDict input = Ok (Some f) /\ DictOpen (ATrie f) = Ok (d, true) /\ dictOK d /\
    forall k ss, entry (Some d) k ss <-> lastEntry es k ss.
Proof.
  intros Ne G (lines & FO & F) L. pose proof (source_lines _ _ F G) as W.
  assert (Nl : lines <> []) by (intros ->; inversion F; subst; congruence).
  destruct (C38_all_kept lines input FO W Nl L) as (f & d & E1 & E2 & H & T). exists f, d. split; [exact E1|]. split; [exact E2|].
  assert (K : forall k ss, lastEntry es k ss -> goodWord (k, ss)).
  { intros k ss X. apply lastEntry_in in X. rewrite Forall_forall in G. auto. }
  assert (Rd : forall k i, holds d k i -> exists ss, lastEntry es k ss /\ ParserFacts.listed d k ss).
  { intros k i Hi. destruct (T k i Hi) as (s & Es). assert (Ls : lastSays lines k s) by (apply H; eauto).
    destruct (proj2 (last_lines _ _ F k) s Ls) as (ss & Le & D & Len). exists ss. split; [exact Le|]. exists s.
    split; [exact (data_of_key _ _ _ _ Hi Es)|]. apply (data_read k); [exact (K _ _ Le)| |exact D].
    destruct (K _ _ Le) as (_ & A & _). unfold lineText in Len. rewrite slen_app, key_len in Len by exact A. lia. }
  assert (Fn : forall k a b, ParserFacts.listed d k a -> ParserFacts.listed d k b -> a = b).
  { intros k a b (x & X1 & X2) (y & Y1 & Y2). congruence. }
  split.
  - intros k v Hv _ _. destruct (Rd k v Hv) as (ss & Le & Li). exists ss. split; [exact Li|]. apply (K _ _ Le).
  - intros k ss. split.
    + intros (d' & v & X & Hv & _ & Li). injection X as <-. destruct (Rd k v Hv) as (s2 & Le & Li2).
      rewrite (Fn _ _ _ Li Li2). exact Le.
    + intros Le. destruct (proj1 (last_lines _ _ F k) ss Le) as (t & Ls & _). apply H in Ls. destruct Ls as (i & Hi & _).
      destruct (Rd k i Hi) as (s2 & Le2 & Li2). rewrite (lastEntry_fun _ _ _ _ Le Le2).
      exists d, i. split; [reflexivity|]. split; [exact Hi|]. split; [exact (proj1 (K _ _ Le))|exact Li2].
Qed.

(** The source list becomes a dictionary whose words are those of the list,
    each with the pronunciations of its last line. *)
Theorem C68_words_kept es input : es <> [] -> Forall goodWord es -> sourceOf es input -> (Z.of_nat (String.length input) < 1073741824)%Z ->
  exists f d, GenDict input = Ok (Some f) /\ DictOpen (ATrie f) = Ok (d, true) /\ dictOK d /\
    forall k ss, entry (Some d) k ss <-> lastEntry es k ss.
Proof. exact (C68_lemma es input). Qed.
Print Assumptions C68_words_kept.

(** ** Words of the source *)
Lemma way_ext D E w : (forall k s, D k s <-> E k s) -> forall t lk es r lk', Way D w t lk es r lk' -> Way E w t lk es r lk'.
Proof.
  intros X t lk es r lk' [t' lk0 k r' strs (A & B & C)|t' lk0 p x r' lk2 N R].
  - apply (W_word E w t' lk0 k). split; [exact A|]. split; [exact B|apply X; exact C].
  - apply W_read; [|exact R]. intros k r0 strs (A & B & C). apply (N k r0 strs). split; [exact A|]. split; [exact B|apply X; exact C].
Qed.
Lemma reached_ext D E w : (forall k s, D k s <-> E k s) -> forall t lk, Reached D w t lk -> Reached E w t lk.
Proof. intros X. induction 1; [constructor|econstructor; [eassumption|eapply way_ext; eassumption]]. Qed.
Lemma finishes_ext D E w : (forall k s, D k s <-> E k s) -> forall t lk, Finishes D w t lk -> Finishes E w t lk.
Proof. intros X. induction 1; [constructor|econstructor; [eapply way_ext; eassumption|assumption]]. Qed.
Lemma walks_ext D E w : (forall k s, D k s <-> E k s) -> forall s f e, Walks D w f s e -> Walks E w f s e.
Proof.
  intros X. induction s as [|v s IH]; intros f e; [exact (fun H => H)|]. intros ((t & lk & es & r & lk' & A & B & C & I) & H).
  split; [|exact (IH _ _ H)]. exists t, lk, es, r, lk'. split; [exact (reached_ext D E w X _ _ A)|].
  split; [exact (way_ext D E w X _ _ _ _ _ B)|]. split; [exact (finishes_ext D E w X _ _ C)|exact I].
Qed.
Lemma C68_lemma2 es input : es <> [] -> Forall goodWord es -> sourceOf es input -> (Z.of_nat (String.length input) < 1073741824)%Z ->
  exists f d, GenDict input = Ok (Some f) /\ DictOpen (ATrie f) = Ok (d, true) /\
    forall w brk l, Forall (fun c => thaiLetter c = true) w -> (2 <= List.length w)%nat ->
      (forall x, In x brk -> x = 0%nat \/ x = List.length w) -> pronounced libthai_ct w (Some d) brk l ->
      forall s, In s l <-> Walks (lastEntry es) w 0 s (Z.of_nat (List.length w)).
Proof.
  intros Ne G So L. destruct (C68_lemma es input Ne G So L) as (f & d & E1 & E2 & OK & H). exists f, d.
  split; [exact E1|]. split; [exact E2|]. intros w brk l Lw Nw B P s.
  rewrite (C57_word_walks w (Some d) brk l Lw Nw B ltac:(intros d' X; injection X as <-; exact OK) P s).
  split; apply walks_ext; intros k x; [apply H|symmetry; apply H].
Qed.
(** A word of Thai letters is pronounced by the walks through the readings of
    the grammar and the words of the source list. *)
Theorem C68_source_walks es input : es <> [] -> Forall goodWord es -> sourceOf es input -> (Z.of_nat (String.length input) < 1073741824)%Z ->
  exists f d, GenDict input = Ok (Some f) /\ DictOpen (ATrie f) = Ok (d, true) /\
    forall w brk l, Forall (fun c => thaiLetter c = true) w -> (2 <= List.length w)%nat ->
      (forall x, In x brk -> x = 0%nat \/ x = List.length w) -> pronounced libthai_ct w (Some d) brk l ->
      forall s, In s l <-> Walks (lastEntry es) w 0 s (Z.of_nat (List.length w)).
Proof. exact (C68_lemma2 es input). Qed.
Print Assumptions C68_source_walks.
(** Three lines, one of them with two pronunciations of two syllables; the
    last line for a word replaces the one before. *)
Definition ka (p : Z) := SylOf KA SEC_NONE V_AA EC_NONE SAMAN p.
Definition kaEk (p : Z) := SylOf KA SEC_NONE V_AA EC_NONE EK p.
Definition exWords : list (list N * list SylString) :=
  [(letters "กา", [[ka 2]]); (letters "กากา", [[ka 2; ka 4]; [kaEk (-4); ka 4]]); (letters "กา", [[kaEk 2]])].
Definition exSource : string :=
  "กา" ++ String tab ("k_A_0@2" ++ String lf ("กากา" ++ String tab ("k_A_0@2,k_A_0@4;k_A_1@-4,k_A_0@4" ++ String lf
  ("กา" ++ String tab ("k_A_1@2" ++ String lf "")))))%string.
Example C68_case : exWords <> [] /\ Forall goodWord exWords /\ sourceOf exWords exSource /\
  (Z.of_nat (String.length exSource) < 1073741824)%Z /\
  lastEntry exWords (letters "กา") [[kaEk 2]] /\ lastEntry exWords (letters "กากา") [[ka 2; ka 4]; [kaEk (-4); ka 4]] /\
  exists f d l, GenDict exSource = Ok (Some f) /\ DictOpen (ATrie f) = Ok (d, true) /\
    pronounced libthai_ct (letters "มากา") (Some d) [] l /\ l <> [].
Proof.
  assert (R : forall s t, wellFormed s -> intRange (endPos s) -> RawOutput s = Ok t -> RawText s t) by (intros; apply C67_raw_text; auto).
  assert (K : forall p, wellFormed (ka p)) by (intros; wf). assert (K' : forall p, wellFormed (kaEk p)) by (intros; wf).
  split; [discriminate|]. split; [|split; [|split; [vm_compute; reflexivity|split; [|split]]]].
  - repeat (apply Forall_cons; [split; [discriminate|]; split;
      [intros c I; cbn in I; repeat destruct I as [<-|I]; try contradiction; lia|]; split; [discriminate|]|]); [| | |apply Forall_nil];
    cbn [fst snd]; repeat (apply Forall_cons || apply Forall_nil);
    (split; [split; [discriminate|]; split; [vm_compute; auto|reflexivity]|]);
    repeat (apply Forall_cons; [first [apply K|apply K']|]); apply Forall_nil.
  - exists [(letters "กา", "k_A_0@2"); (letters "กากา", "k_A_0@2,k_A_0@4;k_A_1@-4,k_A_0@4"); (letters "กา", "k_A_1@2")]%string.
    split; [apply (F_line (letters "กา") "k_A_0@2"), (F_line (letters "กากา") "k_A_0@2,k_A_0@4;k_A_1@-4,k_A_0@4"), (F_line (letters "กา") "k_A_1@2"), F_nil|].
    assert (One : forall s t, wellFormed s -> intRange (endPos s) -> RawOutput s = Ok t -> codeOf [s] t).
    { intros s t A B C. exists [t]. split; [constructor; [auto|constructor]|reflexivity]. }
    assert (Two : forall s t s' t', wellFormed s -> intRange (endPos s) -> RawOutput s = Ok t ->
      wellFormed s' -> intRange (endPos s') -> RawOutput s' = Ok t' -> codeOf [s; s'] (t ++ "," ++ t')).
    { intros s t s' t' A B C A' B' C'. exists [t; t']. split; [repeat (constructor; auto)|reflexivity]. }
    assert (I2 : intRange 2) by (unfold intRange; lia). assert (I4 : intRange 4) by (unfold intRange; lia).
    assert (I5 : intRange (-4)) by (unfold intRange; lia).
    repeat apply Forall2_cons; [| | |apply Forall2_nil]; (split; [reflexivity|]); (split; [|vm_compute; lia]); cbn [fst snd].
    + exists ["k_A_0@2"]%string. split; [|reflexivity]. constructor; [apply One; auto|constructor].
    + exists ["k_A_0@2,k_A_0@4"; "k_A_1@-4,k_A_0@4"]%string. split; [|reflexivity].
      constructor; [apply (Two _ "k_A_0@2"%string _ "k_A_0@4"%string); auto|].
      constructor; [apply (Two _ "k_A_1@-4"%string _ "k_A_0@4"%string); auto|constructor].
    + exists ["k_A_1@2"]%string. split; [|reflexivity]. constructor; [apply One; auto|constructor].
  - eexists [_; _], []. split; [reflexivity|]. intros x [].
  - eexists [_], [_]. split; [reflexivity|]. intros x [H|[]]. discriminate H.
  - eexists _, _, _. split; [vm_compute; reflexivity|]. split; [vm_compute; reflexivity|].
    split; [apply listing_pronounced; vm_compute; reflexivity|discriminate].
Qed.

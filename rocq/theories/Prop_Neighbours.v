(** Prop_Neighbours.v - property C98: which letters stand next to each other in
    a text that has a pronunciation. *)
From Coq Require Import String List NArith ZArith Bool Lia Arith Sorted.
From Verif Require Import Base ThUni ThCons Syl Utf Lattice Dag DagProofs PronDag Dict Parser.
From Verif Require Import Spec OrderProofs DictProofs Prop_Syl ParserSpec ParserFacts ParserInv ParserResult ParserListed ParserDict ParserPool ParserProduct.
From Verif Require Import Prop_Output Prop_Parser Grammar GrammarWord TextGrammar TextProof Prop_Span Prop_Size Prop_Vowel Prop_Head Prop_Every Prop_Sweep.
Import ListNotations.
Local Open Scope string_scope.
Local Open Scope list_scope.
Local Open Scope nat_scope.

(** ** Vocabulary *)
Definition consS : string := "กขฃคฅฆงจฉชซฌญฎฏฐฑฒณดตถทธนบปผฝพฟภมยรลวศษสหฬอฮ".
(** The consonants that can close a syllable. *)
Definition endS : string := "กขฃคฅฆงจฉชซฌญฎฏฐฑฒณดตถทธนบปผฝพฟภมยรลวศษสฬ".
Definition leadS : string := "เแโใไ".
Definition toneS : string := "่้๊๋".
(** Letters with which a syllable starts. *)
Definition startS : string := (consS ++ "ฤฦ" ++ leadS)%string.
(** Each row: letters, and the letters that may follow them. *)
Definition neighbours : list (string * string) :=
  [((consS ++ "ฤ")%string, (startS ++ "ะัาำิีึืุู็" ++ toneS)%string);
   (consS, "์"); ("ฤ", "ๅ"); ("ฦ", (consS ++ "าๅ")%string);
   (("ะาำิีึุูๅ์" ++ toneS)%string, startS);
   ("า", "ะ"); ("ิุ", "์"); ("ิีึุู", toneS); (toneS, "ะาำ็");
   ("ัื", (endS ++ toneS)%string); ("ื", ("อ" ++ leadS)%string); ("็", (endS ++ "อ")%string);
   (leadS, consS)].
Definition Neighbours (a b : N) : Prop := exists l r, In (l, r) neighbours /\ oneOf l a /\ oneOf r b.
(** The first and the last letter of a stretch of Thai letters. *)
Definition Opens (c : N) : Prop := oneOf startS c.
Definition Stops (c : N) : Prop := oneOf (consS ++ "ฤฦะาำิีึืุูๅ์" ++ toneS)%string c.
(** The Thai letters before and after the place [i] of a text. *)
Definition thaiNth (w : list N) (i : nat) : option N :=
  match nth_error w i with Some c => if thaiLetter c then Some c else None | None => None end.
Definition before (w : list N) (i : nat) : option N := match i with 0 => None | S i => thaiNth w i end.
Definition after (w : list N) (i : nat) : option N := thaiNth w i.
Definition opensO (o : option N) : Prop := match o with Some c => Opens c | None => True end.
Definition stopsO (o : option N) : Prop := match o with Some c => Stops c | None => True end.
(** Both letters go together; at the edge of a stretch only one is there. *)
Definition Joins (a b : option N) : Prop :=
  match a, b with Some a, Some b => Neighbours a b | a, b => stopsO a /\ opensO b end.
(** The letter at [i] lies in a word of the dictionary that stands in the
    text. *)
Definition inWord (w : list N) (dict : option Dict) (i : nat) : Prop :=
  exists d k v s, dict = Some d /\ holds d k v /\ firstn (length k) (skipn s w) = k /\ s <= i < s + length k.

(** ** Tables as tests *)
Definition rows : list (list N * list N) := Eval vm_compute in map (fun p => (letters (fst p), letters (snd p))) neighbours.
Definition okPair (a b : N) : bool := existsb (fun p => memN a (fst p) && memN b (snd p)) rows.
Lemma rows_eq : rows = map (fun p => (letters (fst p), letters (snd p))) neighbours. Proof. vm_compute. reflexivity. Qed.
Lemma okPair_iff a b : okPair a b = true <-> Neighbours a b.
Proof.
  unfold okPair, Neighbours. rewrite existsb_exists, rows_eq. split.
  - intros (x & I & E). apply in_map_iff in I. destruct I as ((l & r) & <- & I). cbn [fst snd] in E. apply andb_true_iff in E. destruct E as (A & B).
    exists l, r. split; [exact I|]. split; apply memN_In; assumption.
  - intros (l & r & I & A & B). exists (letters l, letters r). split; [apply in_map_iff; exists (l, r); auto|].
    cbn [fst snd]. apply andb_true_iff. split; apply memN_In; assumption.
Qed.
Definition consL : list N := Eval vm_compute in letters consS.
Definition endL : list N := Eval vm_compute in letters endS.
Definition leadL : list N := Eval vm_compute in letters leadS.
Definition toneL : list N := Eval vm_compute in letters toneS.
Definition startL : list N := Eval vm_compute in letters startS.
Definition stopL : list N := Eval vm_compute in letters (consS ++ "ฤฦะาำิีึืุูๅ์" ++ toneS)%string.
(** After these any start of a syllable, and the end, may follow. *)
Definition freeL : list N := Eval vm_compute in letters (consS ++ "ฤะาำิีึุูๅ์" ++ toneS)%string.
Definition initL : list N := Eval vm_compute in letters (consS ++ "ฤ")%string.
Definition allL : list N := Eval vm_compute in letters (startS ++ "ะัาำิีึืุูๅ็์" ++ toneS)%string.
Lemma cross A B a b : forallb (fun x => forallb (okPair x) B) A = true -> In a A -> In b B -> Neighbours a b.
Proof.
  intros H Ia Ib. rewrite forallb_forall in H. specialize (H a Ia). rewrite forallb_forall in H. apply okPair_iff. auto.
Qed.
Lemma letter_list (P : N -> bool) L c : forallb (fun x => negb (P x) || memN x L) (map N.of_nat (seq 0xe01 76)) = true ->
  thaiLetter c = true -> P c = true -> In c L.
Proof.
  intros H T Pc. rewrite forallb_forall in H. specialize (H c (letter_in c T)). rewrite Pc in H. apply memN_In. exact H.
Qed.
Lemma cons_thai c : consonant c = true -> thaiLetter c = true.
Proof.
  unfold consonant, thaiLetter. rewrite !andb_true_iff, !negb_true_iff, !N.leb_le. rewrite !orb_true_iff, !andb_true_iff, !N.leb_le, !N.eqb_neq. lia.
Qed.
Lemma lead_thai c : leadVowel c = true -> thaiLetter c = true.
Proof.
  unfold leadVowel, thaiLetter. rewrite !andb_true_iff, !negb_true_iff, !N.leb_le. rewrite !orb_true_iff, !andb_true_iff, !N.leb_le, !N.eqb_neq. lia.
Qed.
Lemma tone_thai c : isMark c = true -> thaiLetter c = true.
Proof.
  unfold isMark, thaiLetter. rewrite !andb_true_iff, !negb_true_iff, !N.leb_le. rewrite !orb_true_iff, !andb_true_iff, !N.leb_le, !N.eqb_neq. lia.
Qed.
Lemma cons_L c : consonant c = true -> In c consL.
Proof. intros H. apply (letter_list consonant); [vm_compute; reflexivity|apply cons_thai|]; exact H. Qed.
Lemma lead_L c : leadVowel c = true -> In c leadL.
Proof. intros H. apply (letter_list leadVowel); [vm_compute; reflexivity|apply lead_thai|]; exact H. Qed.
Lemma tone_L c : isMark c = true -> In c toneL.
Proof. intros H. apply (letter_list isMark); [vm_compute; reflexivity|apply tone_thai|]; exact H. Qed.
Lemma end_L c : canEnd c -> In c endL.
Proof.
  intros (C & E). apply (letter_list (fun c => consonant c && negb (match finalOf c with EC_NONE => true | _ => false end)));
    [vm_compute; reflexivity|apply cons_thai; exact C|]. rewrite C. destruct (finalOf c); try reflexivity. contradiction.
Qed.
Lemma all_L c : thaiLetter c = true -> In c allL.
Proof. intros H. apply (letter_list thaiLetter); [vm_compute; reflexivity| |]; exact H. Qed.
Lemma sub_L A B c : forallb (fun x => memN x B) A = true -> In c A -> In c B.
Proof. intros H I. rewrite forallb_forall in H. apply memN_In. auto. Qed.

(** ** Chains of letters *)
(** After [a], the letters from [t] down to [r] each go with the one before;
    the last is [b]. *)
Inductive Run : N -> list N -> N -> list N -> Prop :=
| Run_nil a r : Run a r a r
| Run_cons a c t b r : Neighbours a c -> Run c t b r -> Run a (c :: t) b r.
(** What may come after [b]. *)
Definition hand (b : N) (r : list N) : Prop :=
  match r with
  | [] => Stops b
  | c :: _ => (Opens c -> Neighbours b c) /\ (thaiLetter c = false -> Stops b)
  end.
Definition Chain (a : N) (t r : list N) : Prop := exists b, Run a t b r /\ hand b r.
Lemma free_hand b r : In b freeL -> hand b r.
Proof.
  intros F. assert (St : Stops b) by (apply (sub_L freeL stopL); [vm_compute; reflexivity|exact F]).
  destruct r as [|c r]; [exact St|]. split; [|auto]. intros O. apply (cross freeL startL); [vm_compute; reflexivity|exact F|exact O].
Qed.
Lemma chain_free a r : In a freeL -> Chain a r r.
Proof. intros F. exists a. split; [constructor|apply free_hand; exact F]. Qed.
Lemma chain_cons a c t r : Neighbours a c -> Chain c t r -> Chain a (c :: t) r.
Proof. intros N0 (b & R & H). exists b. split; [constructor; assumption|exact H]. Qed.
(** Take a mark on the way. *)
Lemma chain_mark a t m t' r : mark t = (m, t') -> (forall k, In k toneL -> Neighbours a k) ->
  Chain a t' r -> (forall k, In k toneL -> Chain k t' r) -> Chain a t r.
Proof.
  intros E Nk A K. unfold mark in E. destruct t as [|c t]; [injection E as _ <-; exact A|].
  destruct (isMark c) eqn:M; injection E as _ <-; [|exact A]. apply tone_L in M. apply chain_cons; auto.
Qed.
Ltac nb A B := apply (cross A B); [vm_compute; reflexivity| |];
  first [assumption|apply cons_L; assumption|apply end_L; assumption|apply lead_L; assumption|vm_compute; tauto].
Ltac fr := apply chain_free; vm_compute; tauto.
Lemma cons_free c : consonant c = true -> In c freeL.
Proof. intros C. apply (sub_L consL freeL); [vm_compute; reflexivity|apply cons_L; exact C]. Qed.
(** Letters after which every consonant may follow. *)
Definition takesCons (a : N) : Prop := forall c, consonant c = true -> Neighbours a c.
Definition takesEnd (a : N) : Prop := forall c, canEnd c -> Neighbours a c.
Lemma free_cons a : In a freeL -> takesCons a.
Proof. intros F c C. apply cons_L in C. apply (cross freeL consL); [vm_compute; reflexivity|exact F|exact C]. Qed.
Lemma free_end a : In a freeL -> takesEnd a.
Proof. intros F c C. apply (free_cons a F). apply end_cons. exact C. Qed.
Lemma thantha_after c : consonant c = true -> Neighbours c UTH_THANTHAKHAT.
Proof. intros C. apply cons_L in C. apply (cross consL [UTH_THANTHAKHAT]); [vm_compute; reflexivity|exact C|left; reflexivity]. Qed.
Lemma thantha_free : In UTH_THANTHAKHAT freeL. Proof. vm_compute. tauto. Qed.
Lemma chain_silent_then a t r : takesCons a -> Chain a (silent t) r -> (In UTH_THANTHAKHAT freeL -> Chain UTH_THANTHAKHAT (silent t) r) -> Chain a t r.
Proof.
  intros A B C. destruct t as [|c [|x t]]; try exact B. cbn [silent] in *. destruct (_ && _) eqn:E; [|exact B].
  apply andb_true_iff in E. destruct E as (Cc & X). apply N.eqb_eq in X. subst x.
  apply chain_cons; [auto|]. apply chain_cons; [apply thantha_after; exact Cc|apply C, thantha_free].
Qed.
Lemma chain_silent a t : In a freeL -> Chain a t (silent t).
Proof. intros F. apply chain_silent_then; [apply free_cons; exact F|apply chain_free; exact F|apply chain_free]. Qed.
Lemma chain_silentIU a t : In a freeL -> Chain a t (silentIU t).
Proof.
  intros F. destruct t as [|c [|x [|y t]]]; try (apply chain_free; exact F). cbn [silentIU]. destruct (_ && _) eqn:E; [|apply chain_free; exact F].
  rewrite !andb_true_iff in E. destruct E as ((C & X) & Y). apply N.eqb_eq in Y. subst y.
  assert (Ix : In x [UTH_SARA_I; UTH_SARA_U]) by (apply orb_true_iff in X; rewrite !N.eqb_eq in X; cbn [In]; intuition).
  apply chain_cons; [apply free_cons; assumption|]. apply chain_cons; [nb consL [UTH_SARA_I; UTH_SARA_U]|].
  apply chain_cons; [apply (cross [UTH_SARA_I; UTH_SARA_U] [UTH_THANTHAKHAT]); [vm_compute; reflexivity|exact Ix|left; reflexivity]|fr].
Qed.
Lemma chain_silent2 a t : In a freeL -> Chain a t (silent2 t).
Proof.
  intros F. destruct t as [|c [|x [|y t]]]; try (apply chain_free; exact F). cbn [silent2]. destruct (_ && _) eqn:E; [|apply chain_free; exact F].
  rewrite !andb_true_iff in E. destruct E as ((C & X) & Y). apply N.eqb_eq in Y. subst y.
  apply chain_cons; [apply free_cons; assumption|]. apply chain_cons; [nb consL consL|]. apply chain_cons; [apply thantha_after; exact X|fr].
Qed.
Lemma chain_silentAny a t : In a freeL -> Chain a t (silentAny t).
Proof. intros F. unfold silentAny. destruct (_ <? _); [apply chain_silent; exact F|]. destruct (_ <? _); [apply chain_silentIU|apply chain_silent2]; exact F. Qed.
Lemma chain_shorter a t : In a freeL -> Chain a t (if length (silent t) <? length t then silent t else silentIU t).
Proof. intros F. destruct (_ <? _); [apply chain_silent|apply chain_silentIU]; exact F. Qed.
Lemma chain_final a no t e r : takesEnd a -> Final no t e r -> Chain a t r.
Proof. intros A [c t' C _]. apply chain_cons; [auto|]. apply chain_silentAny, cons_free, end_cons, C. Qed.
Lemma chain_shared a no t e r b : takesEnd a -> FinalOrShared no t e r b -> Chain a t r.
Proof.
  intros A [t' e' r' F|c r' C _ _ O _|c v r' C _ O V _|c t' C _ _ _].
  - eapply chain_final; eauto.
  - apply chain_cons; [auto|]. apply end_L in C. apply chain_cons; [nb endL [UTH_RO_RUA]|fr].
  - apply chain_cons; [auto|]. apply end_L in C. unfold oneOf in V. vm_compute in V.
    apply chain_cons; [destruct V as [<-|[<-|[]]]; [nb endL [UTH_SARA_I]|nb endL [UTH_SARA_U]]|]. destruct V as [<-|[<-|[]]]; fr.
  - exists a. split; [constructor|]. split; [intros _; auto|]. intros X. rewrite (cons_thai c (end_cons c C)) in X. discriminate X.
Qed.

(** ** Rimes *)
Definition vowelL : list N := Eval vm_compute in letters "ะัาำิีึืุู็".
Lemma init_free a : In a initL -> In a freeL.
Proof. apply sub_L. vm_compute. reflexivity. Qed.
Lemma init_vowel a v : In a initL -> In v vowelL -> Neighbours a v.
Proof. apply cross. vm_compute. reflexivity. Qed.
Lemma init_tone a k : In a initL -> In k toneL -> Neighbours a k.
Proof. apply cross. vm_compute. reflexivity. Qed.
Lemma tone_free k : In k toneL -> In k freeL.
Proof. apply sub_L. vm_compute. reflexivity. Qed.
Lemma tone_vowel k v : In k toneL -> In v [UTH_SARA_A; UTH_SARA_AA; UTH_SARA_AM; UTH_MAITAIKHU] -> Neighbours k v.
Proof. apply cross. vm_compute. reflexivity. Qed.
Lemma above_tone v k : In v [UTH_MAI_HAN_AKAT; UTH_SARA_I; UTH_SARA_II; UTH_SARA_UE; UTH_SARA_UEE; UTH_SARA_U; UTH_SARA_UU] -> In k toneL -> Neighbours v k.
Proof. apply cross. vm_compute. reflexivity. Qed.
Lemma ends_over v : In v [UTH_MAI_HAN_AKAT; UTH_SARA_UEE; UTH_MAITAIKHU; UTH_LU] -> takesEnd v.
Proof.
  intros I c C. apply end_L in C. apply (cross [UTH_MAI_HAN_AKAT; UTH_SARA_UEE; UTH_MAITAIKHU; UTH_LU] endL); [vm_compute; reflexivity|exact I|exact C].
Qed.
Lemma over_o v : In v [UTH_SARA_UEE; UTH_MAITAIKHU] -> Neighbours v UTH_O_ANG.
Proof. intros I. apply (cross [UTH_SARA_UEE; UTH_MAITAIKHU] [UTH_O_ANG]); [vm_compute; reflexivity|exact I|left; reflexivity]. Qed.
Lemma aa_a : Neighbours UTH_SARA_AA UTH_SARA_A.
Proof. apply okPair_iff. vm_compute. reflexivity. Qed.
Lemma free_start a c : In a freeL -> In c startL -> Neighbours a c.
Proof. apply cross. vm_compute. reflexivity. Qed.
Lemma concrete_pair a b : okPair a b = true -> Neighbours a b. Proof. apply okPair_iff. Qed.
Lemma ran_chain a (b : bool) r x r' r'' : In a freeL -> (if b then r else silent r) = x :: r' ->
  (forall y, In y freeL -> Chain y (x :: r') r'') -> Chain a r r''.
Proof.
  intros F E H. destruct b; [subst r; auto|]. apply chain_silent_then; [apply free_cons; exact F| |intros X]; rewrite E; auto.
Qed.
Local Opaque silent silentIU silent2 silentAny letters mark Nat.ltb freeL initL toneL vowelL Neighbours okPair.
Ltac memb := solve [repeat first [left; reflexivity|right]].
Ltac isfree := first [assumption|apply init_free; assumption|apply tone_free; assumption|apply cons_free; assumption|
  apply memN_In; vm_compute; reflexivity].
Ltac pair1 := first [assumption|apply init_vowel; [assumption|apply memN_In; vm_compute; reflexivity]|apply init_tone; assumption|
  apply tone_vowel; [assumption|memb]|apply above_tone; [memb|assumption]|
  apply over_o; memb|apply aa_a|apply free_start; [isfree|first [assumption|apply memN_In; vm_compute; reflexivity]]|
  apply concrete_pair; vm_compute; reflexivity].
Ltac takesE := first [assumption|apply free_end; isfree|apply ends_over; memb].
Ltac chains := repeat match goal with
  | H : mark ?t = (_, _) |- Chain _ ?t _ => apply (chain_mark _ _ _ _ _ H); clear H; [intros ? ?; pair1| |intros ? ?]
  | |- Chain _ ?r ?r => apply chain_free; isfree
  | |- Chain _ ?r (silent ?r) => apply chain_silent; isfree
  | |- Chain _ ?r (if _ then silent ?r else _) => apply chain_shorter; isfree
  | H : Final _ ?t _ ?r |- Chain ?a ?t ?r => apply (fun X => chain_final a _ _ _ _ X H); takesE
  | H : FinalOrShared _ ?t _ ?r _ |- Chain ?a ?t ?r => apply (fun X => chain_shared a _ _ _ _ _ X H); takesE
  | H : Final _ (silent ?t) _ ?r |- Chain _ ?t ?r => apply chain_silent_then; [apply free_cons; isfree| |intros ?]
  | H : FinalOrShared _ (silent ?t) _ ?r _ |- Chain _ ?t ?r => apply chain_silent_then; [apply free_cons; isfree| |intros ?]
  | |- Chain _ (_ :: _) _ => apply chain_cons; [pair1|]
  | H : (if _ then ?r else silent ?r) = _ :: _ |- Chain ?a ?r ?z => apply (fun X => ran_chain a _ _ _ _ z X H); [isfree|clear H; intros ? ?]
  end.
Lemma rime_chain lk o t v e m r b : Rime lk o t v e m r b -> forall a, In a initL -> Chain a t r.
Proof.
  intros H a Ia. destruct H.
  all: try match goal with H : In (_, _) _ |- _ => cbn [In] in H; repeat destruct H as [H|H]; try contradiction; injection H as <- <- end.
  all: try solve [chains].
  (* long UE without a final *)
  - chains.
    exists UTH_SARA_UEE. split; [constructor|]. destruct t' as [|c t']; [apply memN_In; vm_compute; reflexivity|]. cbn [hand]. split.
    + intros _. match goal with H : leadVowel _ = true |- _ => apply lead_L in H; revert H end. intros H. apply (cross [UTH_SARA_UEE] leadL); [vm_compute; reflexivity|left; reflexivity|exact H].
    + intros X. match goal with H : leadVowel _ = true |- _ => apply lead_thai in H end. congruence.
Qed.
Lemma rimeE_chain o t v e m r b : RimeE o t v e m r b -> forall a, In a initL -> Chain a t r.
Proof.
  intros H a Ia. destruct H.
  all: try solve [chains].
  - match goal with H : isMark _ = true |- _ => apply tone_L in H end. chains.
Qed.
Lemma rimeL_chain l t v e m r b : RimeL l t v e m r b -> forall a, In a initL -> Chain a t r.
Proof. intros H a Ia. destruct H; solve [chains]. Qed.
Lemma rimeRu_chain c t v e r b : isRu c -> RimeRu t v e r b -> Chain c t r.
Proof.
  intros C H. assert (Ed : takesEnd c) by (destruct C as [-> | ->]; [takesE|takesE]).
  assert (Hc : takesCons c).
  { destruct C as [-> | ->]; [apply free_cons; isfree|]. intros x X. apply cons_L in X. apply (cross [UTH_LU] consL); [vm_compute; reflexivity|left; reflexivity|exact X]. }
  assert (Sc : Stops c) by (destruct C as [-> | ->]; apply memN_In; vm_compute; reflexivity).
  destruct H as [|x t L|x t X _|x t e r b _ F].
  - exists c. split; [constructor|exact Sc].
  - destruct C as [-> | ->], L as [-> | ->]; chains.
  - exists c. split; [constructor|]. split; [auto|]. rewrite (cons_thai x X). discriminate.
  - chains.
Qed.

(** ** Syllables *)
Definition Starts (t r : list N) : Prop := exists c t0, t = c :: t0 /\ Opens c /\ Chain c t0 r.
Lemma cons_opens c : consonant c = true -> Opens c.
Proof. intros C. apply (sub_L consL startL); [vm_compute; reflexivity|apply cons_L; exact C]. Qed.
Lemma cons_init c : consonant c = true -> In c initL.
Proof. intros C. apply (sub_L consL initL); [vm_compute; reflexivity|apply cons_L; exact C]. Qed.
Lemma cons_cons c d : consonant c = true -> consonant d = true -> Neighbours c d.
Proof. intros C D. apply free_cons; [apply cons_free; exact C|exact D]. Qed.
Lemma cons_ru c : consonant c = true -> Neighbours c UTH_RU.
Proof. intros C. apply free_start; [apply cons_free; exact C|apply memN_In; vm_compute; reflexivity]. Qed.
Lemma init_chain lk t o t1 r : InitialAt lk t o t1 -> (forall a, In a initL -> Chain a t1 r) ->
  exists c t0, t = c :: t0 /\ consonant c = true /\ Chain c t0 r.
Proof.
  assert (One : forall c t, consonant c = true -> (forall a, In a initL -> Chain a t r) -> exists c0 t0, c :: t = c0 :: t0 /\ consonant c0 = true /\ Chain c0 t0 r).
  { intros c t0 C H. exists c, t0. split; [reflexivity|]. split; [exact C|]. apply H, cons_init, C. }
  assert (Two : forall c d t, consonant c = true -> consonant d = true -> (forall a, In a initL -> Chain a t r) -> exists c0 t0, c :: d :: t = c0 :: t0 /\ consonant c0 = true /\ Chain c0 t0 r).
  { intros c d t0 C D H. exists c, (d :: t0). split; [reflexivity|]. split; [exact C|]. apply chain_cons; [apply cons_cons; assumption|apply H, cons_init, D]. }
  assert (Ru : forall c t, consonant c = true -> (forall a, In a initL -> Chain a t r) -> exists c0 t0, c :: UTH_RU :: t = c0 :: t0 /\ consonant c0 = true /\ Chain c0 t0 r).
  { intros c t0 C H. exists c, (UTH_RU :: t0). split; [reflexivity|]. split; [exact C|]. apply chain_cons; [apply cons_ru; exact C|]. apply H, memN_In. vm_compute. reflexivity. }
  intros I H. destruct I; try match goal with H : _ \/ _ /\ _ |- _ => destruct H as [H|(_ & H)] end.
  all: first [apply Ru; [|exact H]|apply Two; [| |exact H]|apply One; [|exact H]].
  all: first [assumption|vm_compute; reflexivity|
    match goal with H : oneOf ?s ?c |- consonant ?c = true => apply (one_cons s); [vm_compute; reflexivity|exact H] end].
Qed.
Lemma reads_chain lk t p x r b : Reads lk t p x r b -> Starts t r.
Proof.
  assert (Bare : forall lk t o t1 r, InitialAt lk t o t1 -> (forall a, In a initL -> Chain a t1 r) -> Starts t r).
  { intros lk0 t0 o t1 r0 I H. destruct (init_chain _ _ _ _ _ I H) as (c & t2 & -> & C & K). exists c, t2. split; [reflexivity|]. split; [apply cons_opens; exact C|exact K]. }
  assert (Led : forall l lk t o t1 r, leadVowel l = true -> InitialAt lk t o t1 -> (forall a, In a initL -> Chain a t1 r) -> Starts (l :: t) r).
  { intros l lk0 t0 o t1 r0 Ll I H. destruct (init_chain _ _ _ _ _ I H) as (c & t2 & -> & C & K). exists l, (c :: t2). split; [reflexivity|].
    apply lead_L in Ll. split; [apply (sub_L leadL startL); [vm_compute; reflexivity|exact Ll]|].
    apply chain_cons; [|exact K]. apply cons_L in C. apply (cross leadL consL); [vm_compute; reflexivity|exact Ll|exact C]. }
  intros [t' o t1 v e m r' b' p' x' I R L S|t' o t1 v e m r' b' p' x' I R L S|l t' o t1 v e m r' b' p' x' I R L S|t' p' x' r' I|c t' v e r' b' tn C R T].
  - eapply Bare; [exact I|]. eapply rime_chain; eauto.
  - eapply Led; [vm_compute; reflexivity|exact I|]. eapply rimeE_chain; eauto.
  - eapply Led; [destruct R; vm_compute; reflexivity|exact I|]. eapply rimeL_chain; eauto.
  - assert (K : forall c t0 r, consonant c = true -> Chain c t0 r -> Starts (c :: t0) r).
    { intros c t0 r0 C H. exists c, t0. split; [reflexivity|]. split; [apply cons_opens; exact C|exact H]. }
    destruct I as [c y u q O _ _ _|y u q _|y u q _|y u q _ _|c y u q C _ _|c y u q C _ _ _ _].
    + assert (C : consonant c = true) by (eapply one_cons; [|exact O]; vm_compute; reflexivity).
      apply K; [exact C|]. apply chain_cons; [apply cons_cons; [exact C|vm_compute; reflexivity]|chains].
    + apply K; [vm_compute; reflexivity|]. chains.
    + apply K; [vm_compute; reflexivity|]. chains.
    + apply K; [vm_compute; reflexivity|]. chains.
    + apply K; [exact C|]. chains.
    + apply K; [exact C|]. apply chain_cons; [apply cons_ru; exact C|chains].
  - exists c, t'. split; [reflexivity|]. split; [|eapply rimeRu_chain; eauto].
    destruct C as [-> | ->]; apply memN_In; vm_compute; reflexivity.
Qed.
Local Transparent Neighbours okPair freeL initL toneL vowelL.

(** ** Texts *)
Lemma nb_thai a b : Neighbours a b -> thaiLetter a = true /\ thaiLetter b = true.
Proof.
  intros H. apply okPair_iff in H. unfold okPair in H. apply existsb_exists in H. destruct H as (x & I & E).
  assert (A : forallb (fun p => forallb thaiLetter (fst p) && forallb thaiLetter (snd p)) rows = true) by (vm_compute; reflexivity).
  rewrite forallb_forall in A. specialize (A x I). apply andb_true_iff in A, E. destruct A as (A & B), E as (Ea & Eb).
  rewrite forallb_forall in A, B. apply memN_In in Ea, Eb. auto.
Qed.
Lemma opens_thai c : Opens c -> thaiLetter c = true.
Proof.
  intros H. assert (A : forallb thaiLetter startL = true) by (vm_compute; reflexivity). rewrite forallb_forall in A. apply A. exact H.
Qed.
Lemma lead_next l x : leadVowel l = true -> Neighbours l x -> consonant x = true.
Proof.
  intros L H. apply lead_L in L. destruct (nb_thai _ _ H) as (_ & T). apply all_L in T.
  assert (A : forallb (fun a => forallb (fun b => negb (okPair a b) || consonant b) allL) leadL = true) by (vm_compute; reflexivity).
  rewrite forallb_forall in A. specialize (A l L). rewrite forallb_forall in A. specialize (A x T). apply okPair_iff in H. rewrite H in A. exact A.
Qed.
Lemma run_nth a t b r : Run a t b r -> exists g, t = g ++ r /\
  (forall i x y, nth_error (a :: g) i = Some x -> nth_error (a :: g) (S i) = Some y -> Neighbours x y) /\
  nth_error (a :: g) (length g) = Some b.
Proof.
  intros H. induction H as [a r|a c t b r N0 R (g & -> & A & B)].
  - exists []. split; [reflexivity|]. split; [|reflexivity]. intros [|i] x y _ Y; [discriminate Y|destruct i; discriminate Y].
  - exists (c :: g). split; [reflexivity|]. split; [|exact B]. intros [|i] x y X Y.
    + injection X as <-. injection Y as <-. exact N0.
    + exact (A i x y X Y).
Qed.
Lemma run_thai a t b r : thaiLetter a = true -> Run a t b r -> thaiLetter b = true.
Proof. intros A R. induction R as [|a c t b r N0 R IH]; [exact A|]. apply IH. apply (nb_thai _ _ N0). Qed.

Section Seams.
Variable w : list N.
Variable dict : option Dict.
Variable brk : list nat.
Notation n := (length w).
Notation D := (entry dict).
Definition Seam (i : nat) : Prop :=
  Joins (before w i) (after w i) \/ In i brk /\ stopsO (before w i) /\ opensO (after w i) \/
  0 < i /\ inWord w dict (i - 1) \/ inWord w dict i.
Definition Begins (p : nat) : Prop := opensO (after w p) \/ inWord w dict p.
Lemma none_after i : ~ thaiAt w i -> after w i = None.
Proof.
  intros H. unfold after, thaiNth. destruct (nth_error w i) as [c|] eqn:E; [|reflexivity]. destruct (thaiLetter c) eqn:T; [|reflexivity].
  exfalso. apply H. exists c. split; [exact E|]. unfold thaiChar. rewrite T. reflexivity.
Qed.
Lemma after_at i c : nth_error w i = Some c -> after w i = if thaiLetter c then Some c else None.
Proof. intros H. unfold after, thaiNth. rewrite H. reflexivity. Qed.
Lemma before_at i : before w (S i) = after w i. Proof. reflexivity. Qed.
Lemma after_end i : n <= i -> after w i = None.
Proof. intros H. unfold after, thaiNth. rewrite (proj2 (nth_error_None w i) H). reflexivity. Qed.
Lemma seam_left i : before w i = None -> Begins i -> Seam i.
Proof.
  intros E [B|B]; [left|right; right; right; exact B]. rewrite E. destruct (after w i); cbn [Joins]; split; auto; exact I.
Qed.
(** After the letter [b] comes what [hand] allows. *)
Lemma seam_hand i b : thaiLetter b = true -> nth_error w i = Some b -> hand b (skipn (S i) w) -> Begins (S i) -> Seam (S i).
Proof.
  intros T Hb H [B|B]; [left|right; right; right; exact B]. rewrite before_at, (after_at i b Hb), T.
  destruct (nth_error w (S i)) as [c|] eqn:E.
  - rewrite (skipn_cons w _ _ E) in H. rewrite (after_at _ _ E) in *. destruct H as (H1 & H2). destruct (thaiLetter c); cbn [Joins].
    + apply H1. exact B.
    + split; [apply H2; reflexivity|exact I].
  - apply nth_error_None in E. rewrite skipn_all2 in H by exact E. rewrite (after_end _ E). split; [exact H|exact I].
Qed.
Lemma pass_seams p lk es e lk' : Pass D w brk p lk es e lk' ->
  Begins p /\ (forall i, p < i < e -> Seam i) /\ (Begins e -> Seam e).
Proof.
  intros P. destruct P as [q F|q k r strs Wt (Wa & Hk & _)|q s r Wt _ _ Sp|q pre x r lk' Wt _ _ Ls R].
  - assert (A : forall i, p <= i < q -> after w i = None) by (intros i Hi; apply none_after, (ft_none w p q F i Hi)).
    pose proof (ft_lt w p q F) as Lt. split; [left; rewrite A by lia; exact I|]. split.
    + intros i Hi. left. destruct i as [|i]; [lia|]. rewrite before_at, !A by lia. split; exact I.
    + intros B. destruct q as [|q]; [lia|]. apply seam_left; [rewrite before_at; apply A; lia|exact B].
  - destruct Wa as (Eb & _ & (d & v & Ed & Hd & _ & _)).
    assert (A : forall i, p <= i < p + length k -> inWord w dict i).
    { intros i Hi. exists d, k, v, p. split; [exact Ed|]. split; [exact Hd|]. split; [|exact Hi].
      pose proof (f_equal (firstn (length k)) Eb) as X. rewrite firstn_app, firstn_all, Nat.sub_diag, app_nil_r in X.
      unfold between in X. rewrite firstn_firstn in X.
      assert (L : length k <= q - p).
      { pose proof (f_equal (@length N) Eb) as Y. unfold between in Y. rewrite firstn_length, app_length in Y. lia. }
      rewrite Nat.min_l in X by exact L. exact X. }
    assert (Lk : 0 < length k) by (destruct k; [contradiction|cbn [length]; lia]).
    split; [right; apply A; lia|]. split; [intros i Hi; right; right; right; apply A; lia|].
    intros _. right. right. left. split; [lia|]. apply A. lia.
  - pose proof (wt_lt _ _ _ _ Wt) as Lt. pose proof (wt_le _ _ _ _ Wt) as Le. pose proof (between_len w p q ltac:(lia) Le) as Lb.
    assert (At : forall t i, between w p q = t -> i < length t -> nth_error w (p + i) = nth_error t i).
    { intros t i E Hi. rewrite <- E in Hi |- *. symmetry. apply nth_between. lia. }
    inversion Sp as [g r' Gn Gl Gc Eg Es|r' Eg Es|c C Eg Es Er]; subst.
    + assert (Lg : length (g ++ fullStop :: r) = length g + 1 + length r) by (rewrite app_length; cbn [length]; lia).
      assert (Eq : q - length r = p + length g + 1) by (rewrite <- Eg, Lg in Lb; lia). rewrite Eq.
      assert (Cn : forall i, i < length g -> exists c, after w (p + i) = Some c /\ consonant c = true).
      { intros i Hi. pose proof (At _ i (eq_sym Eg) ltac:(rewrite Lg; lia)) as X. rewrite nth_error_app1 in X by exact Hi.
        destruct (nth_error g i) as [c|] eqn:E; [|apply nth_error_None in E; lia]. exists c.
        assert (C : consonant c = true) by (apply nth_error_In in E; rewrite Forall_forall in Gc; auto).
        rewrite (after_at _ _ X), (cons_thai c C). auto. }
      assert (Fs : after w (p + length g) = None).
      { pose proof (At _ (length g) (eq_sym Eg) ltac:(rewrite Lg; lia)) as X. rewrite nth_error_app2, Nat.sub_diag in X by lia.
        rewrite (after_at _ _ X). reflexivity. }
      split; [|split].
      * left. destruct (Cn 0) as (c & X & C); [destruct g; [contradiction|cbn [length]; lia]|]. rewrite Nat.add_0_r in X. rewrite X. apply cons_opens. exact C.
      * intros i Hi. left. destruct i as [|i]; [lia|]. rewrite before_at. destruct (Cn (i - p) ltac:(lia)) as (c & X & C).
        replace (p + (i - p)) with i in X by lia. rewrite X. destruct (Nat.eq_dec (S i) (p + length g)) as [->|Ne].
        { rewrite Fs. split; [|exact I]. apply (sub_L consL stopL); [vm_compute; reflexivity|apply cons_L; exact C]. }
        destruct (Cn (S i - p) ltac:(lia)) as (c' & X' & C'). replace (p + (S i - p)) with (S i) in X' by lia. rewrite X'. apply cons_cons; assumption.
      * intros B. replace (p + length g + 1) with (S (p + length g)) in * by lia. apply seam_left; [rewrite before_at; exact Fs|exact B].
    + assert (Eq : q - length r = p + 1) by (rewrite <- Eg in Lb; cbn [length] in Lb; lia). rewrite Eq.
      pose proof (At _ 0 (eq_sym Eg) ltac:(cbn [length]; lia)) as X. rewrite Nat.add_0_r in X. cbn [nth_error] in X.
      assert (Fs : after w p = None) by (rewrite (after_at _ _ X); reflexivity).
      split; [left; rewrite Fs; exact I|]. split; [intros i Hi; lia|]. intros B. replace (p + 1) with (S p) in * by lia.
      apply seam_left; [exact Fs|exact B].
    + cbn [length]. rewrite <- Eg in Lb. cbn [length] in Lb. replace (q - 0) with (S p) by lia.
      pose proof (At _ 0 (eq_sym Eg) ltac:(cbn [length]; lia)) as X. rewrite Nat.add_0_r in X. cbn [nth_error] in X.
      split; [left; rewrite (after_at _ _ X), (cons_thai c C); apply cons_opens; exact C|]. split; [intros i Hi; lia|]. intros B.
      apply (seam_hand p c); [apply cons_thai; exact C|exact X|apply free_hand, cons_free, C|exact B].
  - pose proof (wt_lt _ _ _ _ Wt) as Lt. pose proof (wt_le _ _ _ _ Wt) as Le.
    apply reads_chain in R. destruct R as (c & t0 & Eb & Oc & b & Rn & Hd).
    pose proof (run_thai _ _ _ _ (opens_thai c Oc) Rn) as Tb. destruct (run_nth _ _ _ _ Rn) as (g & -> & Ad & Lst).
    assert (Sq : q <= seenTo w p q) by (unfold seenTo; destruct (nth_error w p); [destruct (_ && _)|]; lia).
    pose proof (between_len w p (seenTo w p q) ltac:(lia) Ls) as Lb.
    pose proof Lb as Lb'. rewrite Eb in Lb. cbn [length] in Lb. rewrite app_length in Lb.
    assert (At : forall i, i < S (length g) -> nth_error w (p + i) = nth_error (c :: g) i).
    { intros i Hi. rewrite <- (nth_between w p (seenTo w p q)) by lia. rewrite Eb.
      change (c :: g ++ r) with ((c :: g) ++ r). apply nth_error_app1. cbn [length]. exact Hi. }
    assert (Ee : seenTo w p q - length r = S (p + length g)) by lia. rewrite Ee.
    split; [|split].
    + left. pose proof (At 0 ltac:(lia)) as X. rewrite Nat.add_0_r in X. rewrite (after_at _ _ X), (opens_thai c Oc). exact Oc.
    + intros i Hi. left. destruct i as [|i]; [lia|]. rewrite before_at.
      pose proof (At (i - p) ltac:(lia)) as X. pose proof (At (S (i - p)) ltac:(lia)) as Y.
      replace (p + (i - p)) with i in X by lia. replace (p + S (i - p)) with (S i) in Y by lia.
      destruct (nth_error (c :: g) (i - p)) as [x1|] eqn:E1; [|apply nth_error_None in E1; cbn [length] in E1; lia].
      destruct (nth_error (c :: g) (S (i - p))) as [x2|] eqn:E2; [|apply nth_error_None in E2; cbn [length] in E2; lia].
      pose proof (Ad _ _ _ E1 E2) as N0. destruct (nb_thai _ _ N0) as (T1 & T2).
      rewrite (after_at _ _ X), (after_at _ _ Y), T1, T2. exact N0.
    + intros B. pose proof (At (length g) ltac:(lia)) as X. rewrite Lst in X. destruct r as [|c' r].
      * destruct (Nat.eq_dec (seenTo w p q) q) as [Es|Ns].
        { cbn [length] in Ee. destruct (wt_end _ _ _ _ Wt) as [Eq|[Ib|Nt]].
          - apply (seam_hand _ b Tb X); [|exact B]. rewrite skipn_all2 by lia. exact Hd.
          - destruct B as [B|B]; [|right; right; right; exact B]. right. left. split; [replace (S (p + length g)) with q by lia; exact Ib|].
            rewrite before_at, (after_at _ _ X), Tb. split; [exact Hd|exact B].
          - left. replace q with (S (p + length g)) in Nt by lia. rewrite before_at, (after_at _ _ X), Tb, (none_after _ Nt). split; [exact Hd|exact I]. }
        assert (Cb : consonant b = true).
        { unfold seenTo in *. pose proof (At 0 ltac:(lia)) as Z. rewrite Nat.add_0_r in Z. cbn [nth_error] in Z. rewrite Z in *.
          destruct (memN c (letters "แโใไ") && (q =? p + 1)) eqn:Em; [|contradiction]. apply andb_true_iff in Em. destruct Em as (Em & Eq).
          apply Nat.eqb_eq in Eq. cbn [length] in Lb. assert (Lg : length g = 1) by lia. rewrite Lg in Lst.
          apply (lead_next c); [|apply (Ad 0 c b eq_refl Lst)]. apply memN_In in Em. clear - Em. vm_compute in Em.
          repeat destruct Em as [<-|Em]; try contradiction; vm_compute; reflexivity. }
        apply (seam_hand _ b Tb X); [apply free_hand, cons_free, Cb|exact B].
      * apply (seam_hand _ b Tb X); [|exact B].
        assert (Y : nth_error w (S (p + length g)) = Some c').
        { pose proof (nth_between w p (seenTo w p q) (S (length g)) ltac:(cbn [length] in Lb; lia)) as Y. rewrite Eb in Y.
          change (c :: g ++ c' :: r) with ((c :: g) ++ c' :: r) in Y. rewrite nth_error_app2 in Y by (cbn [length]; lia).
          cbn [length] in Y. rewrite Nat.sub_diag in Y. cbn [nth_error] in Y. rewrite <- plus_n_Sm in Y. symmetry. exact Y. }
        rewrite (skipn_cons w _ _ Y). exact Hd.
Qed.
Lemma ends_seams p lk : Ends D w brk p lk -> Begins p /\ forall i, p < i <= n -> Seam i.
Proof.
  intros H. induction H as [lk|p lk es e lk' St _ (B & IH)].
  - split; [left; rewrite after_end by lia; exact I|intros i Hi; lia].
  - destruct St as [es e lk' P _|es e lk' P (T & _)]; destruct (pass_seams _ _ _ _ _ P) as (A1 & A2 & A3); split; try exact A1; intros i Hi.
    + destruct (lt_eq_lt_dec i e) as [[L| ->]|L]; [apply A2; lia|auto|apply IH; lia].
    + assert (An : after w e = None) by (rewrite (after_at _ _ T); reflexivity).
      destruct (lt_eq_lt_dec i e) as [[L| ->]|L]; [apply A2; lia|apply A3; left; rewrite An; exact I|].
      destruct (Nat.eq_dec i (e + 1)) as [->|Ne]; [|apply IH; lia]. replace (e + 1) with (S e) in * by lia. apply seam_left; [exact An|exact B].
Qed.
Lemma comes_ends p lk : Comes D w brk p lk -> Ends D w brk p lk -> Ends D w brk 0 false.
Proof. intros H. induction H as [|p lk es e lk' _ IH St]; intros X; [exact X|]. apply IH. eapply En_step; eauto. Qed.
End Seams.

(** ** C98: letters next to each other *)
Lemma C98_lemma w dict brk l i :
  StronglySorted lt brk -> Forall (fun x => x <= length w) brk -> dictOKo dict ->
  pronounced libthai_ct w dict brk l -> l <> [] -> i <= length w ->
  Joins (before w i) (after w i) \/ In i brk /\ stopsO (before w i) /\ opensO (after w i) \/
  0 < i /\ inWord w dict (i - 1) \/ inWord w dict i.
Proof.
  intros S I0 Dk P Nl Hi. destruct l as [|s l]; [contradiction|].
  pose proof (proj1 (C71_lemma w dict brk _ Dk S I0 P s) (or_introl eq_refl)) as (Ns & Pa).
  destruct s as [|v s]; [contradiction|]. destruct Pa as ((p & lk & es & e & lk' & Co & St & En & _) & _).
  pose proof (comes_ends w dict brk p lk Co (En_step _ _ _ _ _ _ _ _ St En)) as E0.
  destruct (ends_seams w dict brk 0 false E0) as (B & H). destruct i as [|i]; [|apply H; lia].
  apply (seam_left w dict brk 0); [reflexivity|exact B].
Qed.
(** In a text that has a pronunciation every two letters next to each other are
    in the table and every stretch of Thai letters begins and ends with such a
    letter as can; except across a word break, where the letters need only
    end and begin a stretch, and at the words of the dictionary. *)
Theorem C98_text w dict brk l i :
  StronglySorted lt brk -> Forall (fun x => x <= length w) brk -> dictOKo dict ->
  pronounced libthai_ct w dict brk l -> l <> [] -> i <= length w ->
  Joins (before w i) (after w i) \/ In i brk /\ stopsO (before w i) /\ opensO (after w i) \/
  0 < i /\ inWord w dict (i - 1) \/ inWord w dict i.
Proof. exact (C98_lemma w dict brk l i). Qed.
Print Assumptions C98_text.

(** ** Every entry of the table occurs *)
Definition read (w : list N) : bool := match listingOf w with Ok (_ :: _) => true | _ => false end.
Lemma read_word w : read w = true -> exists l, pronounced libthai_ct w None [] l /\ l <> [].
Proof.
  unfold read. destruct (listingOf w) as [[|s l]| | |] eqn:E; try discriminate. intros _. exists (s :: l).
  split; [apply listingOf_pronounced; exact E|discriminate].
Qed.
(** Words for the pairs: letters, letters after them, what stands before and
    after both. *)
Definition pairWords : list (string * string * string * string) :=
  [(consS, consS, "", "า"); ("ฤ", consS, "", "า"); ("ฤ", "ฤฦ", "เก", ""); ("ฤ", leadS, "เก", "ก"); (consS, "ฤฦ", "เ", ""); (consS, leadS, "เ", "ก");
   (consS, "ะาำิีึุู", "", ""); (consS, "ัื", "", "น"); (consS, "็", "เ", "น"); (consS, toneS, "", "า"); (consS, "์", "กา", "");
   ("ฤ", "ะำิีึุู", "ก", ""); ("ฤ", "ัื", "ก", "น"); ("ฤ", "็", "เก", "น"); ("ฤ", toneS, "ก", "ก"); ("ฤฦ", "าๅ", "", ""); ("ฦ", consS, "", "า");
   ("ะาำิีึุู", consS, "ก", "า"); ("ะาำิีึุู", "ฤฦ", "ก", ""); ("ะาำิีึุู", leadS, "ก", "ก");
   ("ๅ", consS, "ฤ", "า"); ("ๅ", "ฤฦ", "ฤ", ""); ("ๅ", leadS, "ฤ", "ก");
   ("์", consS, "กาก", "า"); ("์", "ฤฦ", "กาก", ""); ("์", leadS, "กาก", "ก");
   (toneS, consS, "เก", "า"); (toneS, "ฤฦ", "เก", ""); (toneS, leadS, "เก", "ก"); (toneS, "ะาำ", "ก", ""); (toneS, "็", "แก", "น");
   ("า", "ะ", "เก", ""); ("ิุ", "์", "โกก", ""); ("ิีึุู", toneS, "ก", "");
   ("ัื", endS, "ก", ""); ("ัื", toneS, "ก", "น"); ("ื", "อ", "ก", ""); ("ื", leadS, "ก", "ก"); ("็", endS, "เก", ""); ("็", "อ", "ก", "น"); (leadS, consS, "", "")].
Definition pairs : list (list N * list N * list N * list N) :=
  Eval vm_compute in map (fun p => match p with (a, b, x, y) => (letters a, letters b, letters x, letters y) end) pairWords.
Lemma pairs_read : forallb (fun a => forallb (fun b => negb (okPair a b) || existsb (fun p => match p with (l, r, x, y) =>
  if memN a l && memN b r then forallb thaiLetter x && forallb thaiLetter y && read (x ++ a :: b :: y) else false end) pairs) allL) allL = true.
Proof. vm_compute. reflexivity. Qed.
(** Words that begin and end with a letter. *)
Definition firstWords : list (string * string) := [(consS, ""); (leadS, "ก"); ("ฤฦ", "")].
Definition lastWords : list (string * string) := [(consS, ""); ("ฤฦ", ""); ("ะาำิีึืุู", "ก"); ("ๅ", "ฤ"); ("์", "กาก"); (toneS, "เก")].
Definition firsts : list (list N * list N) := Eval vm_compute in map (fun p => (letters (fst p), letters (snd p))) firstWords.
Definition lasts : list (list N * list N) := Eval vm_compute in map (fun p => (letters (fst p), letters (snd p))) lastWords.
Lemma firsts_read : forallb (fun a => existsb (fun p => if memN a (fst p) then forallb thaiLetter (snd p) && read (a :: snd p) else false) firsts) startL = true.
Proof. vm_compute. reflexivity. Qed.
Lemma lasts_read : forallb (fun a => existsb (fun p => if memN a (fst p) then forallb thaiLetter (snd p) && read (snd p ++ [a]) else false) lasts) stopL = true.
Proof. vm_compute. reflexivity. Qed.
(** A word of Thai letters that has a pronunciation. *)
Definition readable (w : list N) : Prop :=
  Forall (fun c => thaiLetter c = true) w /\ exists l, pronounced libthai_ct w None [] l /\ l <> [].
Lemma readable_by w : forallb thaiLetter w = true -> read w = true -> readable w.
Proof. intros A R. split; [apply Forall_forall; intros c I; rewrite forallb_forall in A; auto|apply read_word; exact R]. Qed.
Lemma readable_joins w i : readable w -> i <= length w -> Joins (before w i) (after w i).
Proof.
  intros (_ & l & P & Nl) Hi.
  destruct (C98_lemma w None [] l i) as [H|[([] & _)|[(_ & d & _ & _ & _ & X & _)|(d & _ & _ & _ & X & _)]]]; auto; try discriminate X.
  - constructor.
  - intros d X. discriminate X.
Qed.
Lemma thaiNth_at w i c : nth_error w i = Some c -> thaiLetter c = true -> thaiNth w i = Some c.
Proof. intros E T. unfold thaiNth. rewrite E, T. reflexivity. Qed.
Lemma C98_lemma2 a b : (exists w i, readable w /\ nth_error w i = Some a /\ nth_error w (S i) = Some b) <-> Neighbours a b.
Proof.
  split.
  - intros (w & i & R & A & B). pose proof (proj1 R) as T. rewrite Forall_forall in T.
    pose proof (readable_joins w (S i) R) as J. cbn [before] in J. unfold after in J.
    rewrite (thaiNth_at _ _ _ A (T _ (nth_error_In _ _ A))), (thaiNth_at _ _ _ B (T _ (nth_error_In _ _ B))) in J. apply J.
    assert (S i < length w) by (apply nth_error_Some; congruence). lia.
  - intros H. destruct (nb_thai _ _ H) as (Ta & Tb). pose proof pairs_read as P. rewrite forallb_forall in P. specialize (P a (all_L a Ta)).
    rewrite forallb_forall in P. specialize (P b (all_L b Tb)). apply okPair_iff in H. rewrite H in P. apply existsb_exists in P.
    destruct P as ((((l & r) & x) & y) & _ & P). destruct (_ && _); [|discriminate P]. rewrite !andb_true_iff in P. destruct P as ((Tx & Ty) & R).
    exists (x ++ a :: b :: y), (length x). split; [apply readable_by; [|exact R]|].
    + rewrite forallb_app. cbn [forallb]. rewrite Tx, Ta, Tb, Ty. reflexivity.
    + rewrite !nth_error_app2 by lia. rewrite Nat.sub_diag, Nat.sub_succ_l, Nat.sub_diag by lia. auto.
Qed.
(** Exactly the pairs of the table stand next to each other in the words of Thai
    letters that have a pronunciation without a dictionary and breaks. *)
Theorem C98_pairs a b : (exists w i, readable w /\ nth_error w i = Some a /\ nth_error w (S i) = Some b) <-> Neighbours a b.
Proof. exact (C98_lemma2 a b). Qed.
Print Assumptions C98_pairs.

Lemma C98_lemma3 c : ((exists w, readable (c :: w)) <-> Opens c) /\ ((exists w, readable (w ++ [c])) <-> Stops c).
Proof.
  split; split.
  - intros (w & R). pose proof (readable_joins _ 0 R ltac:(lia)) as J. unfold after in J. destruct R as (T & _). apply Forall_inv in T.
    rewrite (thaiNth_at (c :: w) 0 c eq_refl T) in J. apply J.
  - intros H. pose proof firsts_read as P. rewrite forallb_forall in P. specialize (P c H). apply existsb_exists in P.
    destruct P as ((l & y) & _ & P). cbn [fst snd] in P. destruct (memN c l); [|discriminate P]. apply andb_true_iff in P. destruct P as (Ty & R).
    exists y. apply readable_by; [|exact R]. cbn [forallb]. rewrite (opens_thai c H). exact Ty.
  - intros (w & R). pose proof (readable_joins _ (S (length w)) R) as J. destruct R as (T & _). cbn [before] in J.
    assert (E : nth_error (w ++ [c]) (length w) = Some c) by (rewrite nth_error_app2, Nat.sub_diag by lia; reflexivity).
    rewrite Forall_forall in T. rewrite (thaiNth_at _ _ _ E (T _ (nth_error_In _ _ E))) in J. unfold after, thaiNth in J.
    rewrite (proj2 (nth_error_None (w ++ [c]) (S (length w)))) in J by (rewrite app_length; cbn [length]; lia). apply J.
    rewrite app_length. cbn [length]. lia.
  - intros H. pose proof lasts_read as P. rewrite forallb_forall in P. specialize (P c H). apply existsb_exists in P.
    destruct P as ((l & y) & _ & P). cbn [fst snd] in P. destruct (memN c l); [|discriminate P]. apply andb_true_iff in P. destruct P as (Ty & R).
    exists y. apply readable_by; [|exact R]. rewrite forallb_app, Ty. cbn [forallb].
    assert (A : forallb thaiLetter stopL = true) by (vm_compute; reflexivity). rewrite forallb_forall in A. rewrite (A c H). reflexivity.
Qed.
(** Exactly the letters of the lists begin and end such words. *)
Theorem C98_edges c : ((exists w, readable (c :: w)) <-> Opens c) /\ ((exists w, readable (w ++ [c])) <-> Stops c).
Proof. exact (C98_lemma3 c). Qed.
Print Assumptions C98_edges.

(** A listed word, a blank, a break between letters that do not go together and
    a vowel sign that takes its consonant across a break; without the break
    the word has no pronunciation. *)
Definition seamText : list N := letters "กา กืหาโนทา.".
Example C98_case : StronglySorted lt [5; 8] /\ Forall (fun x => x <= length seamText) [5; 8] /\ dictOKo (Some exDict) /\
  (exists l, pronounced libthai_ct seamText (Some exDict) [5; 8] l /\ l <> []) /\
  inWord seamText (Some exDict) 1 /\ ~ inWord seamText (Some exDict) 4 /\
  ~ Joins (before seamText 5) (after seamText 5) /\ Joins (before seamText 8) (after seamText 8) /\
  Joins (before seamText 2) (after seamText 2) /\ Joins (before seamText 11) (after seamText 11) /\
  pronounced libthai_ct (letters "กืหา") None [] [] /\ readable (letters "กืนหา") /\
  Neighbours 0x0e37 0x0e19 /\ ~ Neighbours 0x0e37 0x0e2b /\ ~ Opens 0x0e30 /\ ~ Stops 0x0e40.
Proof.
  assert (Nn : forall a b, okPair a b = false -> ~ Neighbours a b) by (intros a b E X; apply (proj2 (okPair_iff a b)) in X; congruence).
  split; [repeat constructor|]. split; [repeat constructor; vm_compute; lia|]. split; [exact exDict_ok|].
  split; [eexists; split; [apply listing_pronounced; vm_compute; reflexivity|intros X; discriminate X]|].
  split; [exists exDict, (letters "กา"), 0%Z, 0; split; [reflexivity|]; split; [exists [(letters "กา", 0%Z)]; split; [reflexivity|]; exists [], []; split; [reflexivity|]; intros v' []|]; split; [reflexivity|vm_compute; lia]|].
  split.
  { intros (d & k & v & s & E & (tr & Et & t1 & t2 & Ik & _) & Ef & Hs). injection E as <-. injection Et as <-.
    assert (X : In (k, v) [(letters "กา", 0%Z)]) by (rewrite Ik; apply in_elt). destruct X as [X|[]]. injection X as <- _.
    change (length (letters "กา")) with 2 in *. destruct s as [|[|[|[|[|s]]]]]; try lia; vm_compute in Ef; discriminate Ef. }
  assert (J : forall i a b, before seamText i = Some a -> after seamText i = Some b -> Joins (before seamText i) (after seamText i) = Neighbours a b).
  { intros i a b -> ->. reflexivity. }
  assert (K : forall i a, before seamText i = Some a -> after seamText i = None -> Joins (before seamText i) (after seamText i) = (Stops a /\ True)).
  { intros i a -> ->. reflexivity. }
  rewrite (J 5 0x0e37%N 0x0e2b%N), (J 8 0x0e42%N 0x0e19%N), (K 2 0x0e32%N), (K 11 0x0e32%N) by (vm_compute; reflexivity).
  split; [apply Nn; vm_compute; reflexivity|]. split; [apply okPair_iff; vm_compute; reflexivity|].
  split; [split; [apply memN_In; vm_compute; reflexivity|exact I]|]. split; [split; [apply memN_In; vm_compute; reflexivity|exact I]|].
  split; [apply listing_pronounced; vm_compute; reflexivity|]. split; [apply readable_by; vm_compute; reflexivity|].
  split; [apply okPair_iff; vm_compute; reflexivity|]. split; [apply Nn; vm_compute; reflexivity|].
  split; intros X; apply memN_In in X; vm_compute in X; discriminate X.
Qed.

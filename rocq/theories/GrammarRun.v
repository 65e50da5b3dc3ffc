(** GrammarRun.v - the matching functions of the parser, run at the last word
    of a text, return what functions on the remaining letters say. *)
From Coq Require Import String List NArith ZArith Bool Arith Lia.
From Verif Require Import Spec Base ThUni ThCons Syl OrderProofs Lattice LatticeProofs
  Dag DagProofs PronDag PathProofs GroupProofs ListDagProofs Dict Utf Parser Wp ParserActs Prop_Syl Grammar.
Import ListNotations.
Local Open Scope nat_scope.
Local Notation "a =n b" := (N.eqb a b) (at level 70).
Notation ct := libthai_ct.

Lemma cons_range' c : consonant c = true <-> thaiConsonant c.
Proof.
  unfold consonant, thaiConsonant. rewrite !andb_true_iff, !N.leb_le, !negb_true_iff, !N.eqb_neq. lia.
Qed.
Lemma sound_ok c : consonant c = true -> InitConsSound c = Ok (soundOf c).
Proof.
  intros H. apply cons_range' in H. apply allCons_in in H. revert c H.
  apply Forall_forall. vm_compute. repeat constructor.
Qed.
Lemma class_ok c : consonant c = true -> InitConsClass c = Ok (classOf c).
Proof.
  intros H. apply cons_range' in H. apply allCons_in in H. revert c H.
  apply Forall_forall. vm_compute. repeat constructor.
Qed.
Lemma final_ok c : consonant c = true -> EndConsClass c = Ok (finalOf c).
Proof.
  intros H. apply cons_range' in H. apply allCons_in in H. revert c H.
  apply Forall_forall. vm_compute. repeat constructor.
Qed.
Lemma classOf_valid c : consonant c = true -> classOf c <> IC_INVALID.
Proof.
  intros H. apply cons_range' in H. apply allCons_in in H. revert c H.
  apply Forall_forall. vm_compute. repeat (constructor; [discriminate|]). constructor.
Qed.
Lemma mark_ok c : isMark c = true -> ThCharToTone c = Ok (markOf c).
Proof.
  unfold isMark. rewrite andb_true_iff, !N.leb_le. intros H.
  assert (c = 0x0e48 \/ c = 0x0e49 \/ c = 0x0e4a \/ c = 0x0e4b)%N as [->|[->|[->| ->]]] by lia; reflexivity.
Qed.
Lemma isCons_eq c : th_wcisthcons ct c = consonant c. Proof. reflexivity. Qed.
Lemma isTone_eq c : th_wcisthtone ct c = isMark c. Proof. reflexivity. Qed.
Lemma isLdv_eq c : th_wcisldvowel ct c = leadVowel c. Proof. reflexivity. Qed.
Lemma sylStart_eq c : IsSylStart ct c = startsSyl c. Proof. reflexivity. Qed.

Section Word.
Variable w : list N.
Notation n := (length w).
(** [t] is what remains of the text from position [pos t] on. *)
Definition pos (t : list N) : nat := n - length t.
Definition Suf (t : list N) : Prop := exists u, w = u ++ t.
Lemma suf_le t : Suf t -> length t <= n.
Proof. intros (u & E). rewrite E, app_length. lia. Qed.
Lemma suf_tl c t : Suf (c :: t) -> Suf t.
Proof. intros (u & E). exists (u ++ [c]). rewrite <- app_assoc. exact E. Qed.
Lemma suf_pos t : Suf t -> forall u, w = u ++ t -> pos t = length u.
Proof. intros _ u E. unfold pos. rewrite E, app_length. lia. Qed.
Lemma pos_S c t : Suf (c :: t) -> pos (c :: t) + 1 = pos t.
Proof. intros H. apply suf_le in H. unfold pos. cbn [length] in *. lia. Qed.
Lemma pos_2 c d t : Suf (c :: d :: t) -> pos (c :: d :: t) + 2 = pos t.
Proof. intros H. apply suf_le in H. unfold pos. cbn [length] in *. lia. Qed.
Lemma pos_3 c d x t : Suf (c :: d :: x :: t) -> pos (c :: d :: x :: t) + 3 = pos t.
Proof. intros H. apply suf_le in H. unfold pos. cbn [length] in *. lia. Qed.
Lemma pos_nil : pos [] = n.
Proof. unfold pos. cbn. lia. Qed.
Lemma pos_lt c t : Suf (c :: t) -> pos (c :: t) < n.
Proof. intros H. apply suf_le in H. unfold pos. cbn [length] in *. lia. Qed.
Lemma lt_cons c t : Suf (c :: t) -> (pos (c :: t) <? n) = true.
Proof. intros H. apply Nat.ltb_lt. apply pos_lt. exact H. Qed.
Lemma lt_nil : (pos [] <? n) = false.
Proof. rewrite pos_nil. apply Nat.ltb_irrefl. Qed.
Lemma le_cons c t : Suf (c :: t) -> (n <=? pos (c :: t)) = false.
Proof. intros H. apply Nat.leb_gt. apply pos_lt. exact H. Qed.
Lemma le_nil : (n <=? pos []) = true.
Proof. rewrite pos_nil. apply Nat.leb_refl. Qed.
Lemma at_cons c t : Suf (c :: t) -> at16 w (pos (c :: t)) = Ok c.
Proof.
  intros (u & E). rewrite (suf_pos (c :: t) (ex_intro _ u E) u E). unfold at16. rewrite E.
  rewrite nth_error_app2, Nat.sub_diag by lia. reflexivity.
Qed.
Lemma at_nil : at16 w (pos []) = Throw.
Proof.
  rewrite pos_nil. unfold at16. destruct (nth_error w n) as [c|] eqn:E; [|reflexivity].
  assert (n < n) by (apply nth_error_Some; congruence). lia.
Qed.
Lemma pos_inj t t' : Suf t -> Suf t' -> pos t = pos t' -> t = t'.
Proof.
  intros (u & E) (u' & E') H. rewrite (suf_pos t (ex_intro _ u E) u E), (suf_pos t' (ex_intro _ u' E') u' E') in H.
  rewrite E in E'. clear E. revert u' E' H. induction u as [|a u IH]; intros [|a' u'] E' H; try discriminate.
  - exact E'.
  - cbn [app length] in *. injection E' as _ E'. injection H as H. apply (IH u'); assumption.
Qed.
Lemma pos_eqb t t' : Suf t -> Suf t' -> (pos t =? pos t') = (length t =? length t').
Proof.
  intros H H'. apply suf_le in H, H'. unfold pos.
  destruct (Nat.eqb_spec (length t) (length t')) as [A|A], (Nat.eqb_spec (n - length t) (n - length t')) as [B|B]; lia.
Qed.
Lemma pos_ltb t t' : Suf t -> Suf t' -> (pos t <? pos t') = (length t' <? length t).
Proof.
  intros H H'. apply suf_le in H, H'. unfold pos.
  destruct (Nat.ltb_spec (length t') (length t)) as [A|A], (Nat.ltb_spec (n - length t) (n - length t')) as [B|B]; lia.
Qed.

Lemma suf_mark t : Suf t -> Suf (snd (mark t)).
Proof. destruct t as [|c t]; cbn [mark snd]; auto. destruct (isMark c); cbn [snd]; eauto using suf_tl. Qed.
Lemma suf_silent t : Suf t -> Suf (silent t).
Proof.
  destruct t as [|c [|x t]]; cbn [silent]; auto. destruct (_ && _); eauto using suf_tl.
Qed.
Lemma suf_silentIU t : Suf t -> Suf (silentIU t).
Proof.
  destruct t as [|c [|x [|y t]]]; cbn [silentIU]; auto. destruct (_ && _); eauto using suf_tl.
Qed.
Lemma suf_silent2 t : Suf t -> Suf (silent2 t).
Proof.
  destruct t as [|c [|x [|y t]]]; cbn [silent2]; auto. destruct (_ && _); eauto using suf_tl.
Qed.
Lemma suf_silentAny t : Suf t -> Suf (silentAny t).
Proof.
  unfold silentAny. destruct (_ <? _); [apply suf_silent|]. destruct (_ <? _); [apply suf_silentIU|apply suf_silent2].
Qed.
Hint Resolve suf_tl suf_mark suf_silent suf_silentIU suf_silent2 suf_silentAny : suf.
Hint Extern 4 (Suf _) => (eapply suf_tl; eassumption) : suf.
Hint Extern 5 (Suf _) => (eapply suf_tl; eapply suf_tl; eassumption) : suf.
Hint Extern 6 (Suf _) => (eapply suf_tl; eapply suf_tl; eapply suf_tl; eassumption) : suf.
Ltac suf := auto with suf.

(** Rewriting of positions. *)
Ltac look := repeat first
  [ rewrite pos_S by suf | rewrite pos_2 by suf | rewrite pos_3 by suf
  | rewrite lt_cons by suf | rewrite le_cons by suf | rewrite lt_nil | rewrite le_nil
  | rewrite at_cons by suf | rewrite at_nil ]; cbn [bind].

(** ** Silenced letters *)
Lemma silent_ok t : Suf t -> MatchKaranSimple ct w (pos t) n = Ok (pos (silent t)).
Proof.
  intros H. unfold MatchKaranSimple. destruct t as [|c t]; cbn [silent].
  - rewrite pos_nil. replace (n + 1 <? n) with false; [reflexivity|]. symmetry. apply Nat.ltb_ge. lia.
  - look. destruct t as [|x t]; look; [reflexivity|].
    rewrite (N.eqb_sym UTH_THANTHAKHAT x). destruct (x =n UTH_THANTHAKHAT); cbn [andb].
    + look. rewrite isCons_eq. rewrite andb_true_r. destruct (consonant c); reflexivity.
    + rewrite andb_false_r. reflexivity.
Qed.
Lemma silentIU_ok t : Suf t -> MatchKaranIU ct w (pos t) n = Ok (pos (silentIU t)).
Proof.
  intros H. unfold MatchKaranIU. destruct t as [|c [|x t]]; cbn [silentIU].
  - rewrite pos_nil. replace (n + 2 <? n) with false; [reflexivity|]. symmetry. apply Nat.ltb_ge. lia.
  - replace (pos [c] + 2) with (S n).
    + replace (S n <? n) with false; [reflexivity|]. symmetry. apply Nat.ltb_ge. lia.
    + apply suf_le in H. unfold pos. cbn [length] in *. lia.
  - look. destruct t as [|y t]; look; [reflexivity|].
    rewrite (N.eqb_sym UTH_THANTHAKHAT y), (N.eqb_sym UTH_SARA_I x), (N.eqb_sym UTH_SARA_U x).
    destruct (y =n UTH_THANTHAKHAT); cbn [andb].
    + look. rewrite isCons_eq. rewrite andb_true_r. destruct (consonant c); look; [|reflexivity]. cbn [andb].
      destruct ((x =n UTH_SARA_I) || (x =n UTH_SARA_U)); look; reflexivity.
    + rewrite andb_false_r. reflexivity.
Qed.
Lemma silent_len t : length (silent t) <= length t.
Proof. destruct t as [|c [|x t]]; cbn [silent]; try lia. destruct (_ && _); cbn [length]; lia. Qed.
Lemma silentIU_len t : length (silentIU t) <= length t.
Proof. destruct t as [|c [|x [|y t]]]; cbn [silentIU]; try lia. destruct (_ && _); cbn [length]; lia. Qed.
Lemma silent2_len t : length (silent2 t) <= length t.
Proof. destruct t as [|c [|x [|y t]]]; cbn [silent2]; try lia. destruct (_ && _); cbn [length]; lia. Qed.
Lemma silentAny_len t : length (silentAny t) <= length t.
Proof.
  unfold silentAny. pose proof (silent_len t). pose proof (silentIU_len t). pose proof (silent2_len t).
  destruct (_ <? _); [lia|]. destruct (_ <? _); lia.
Qed.
Lemma silentAny_ok t : Suf t -> MatchKaranComplex ct w (pos t) n = Ok (pos (silentAny t)).
Proof.
  intros H. unfold MatchKaranComplex, silentAny. rewrite silent_ok by suf. cbn [bind].
  rewrite pos_eqb by suf. pose proof (silent_len t) as L.
  destruct (Nat.ltb_spec (length (silent t)) (length t)) as [A|A];
    destruct (Nat.eqb_spec (length (silent t)) (length t)) as [B|B]; try lia; cbn [negb]; [reflexivity|].
  clear A L. destruct t as [|c [|x t]].
  - rewrite pos_nil. replace (n + 2 <? n) with false; [cbn; rewrite pos_nil; reflexivity|]. symmetry. apply Nat.ltb_ge. lia.
  - replace (pos [c] + 2) with (S n).
    + replace (S n <? n) with false; [reflexivity|]. symmetry. apply Nat.ltb_ge. lia.
    + apply suf_le in H. unfold pos. cbn [length] in *. lia.
  - look. destruct t as [|y t]; look; [reflexivity|].
    cbn [silentIU silent2]. rewrite (N.eqb_sym UTH_THANTHAKHAT y), (N.eqb_sym UTH_SARA_I x), (N.eqb_sym UTH_SARA_U x).
    destruct (y =n UTH_THANTHAKHAT); cbn [andb].
    + look. rewrite !isCons_eq. rewrite !andb_true_r. destruct (consonant c); look.
      * rewrite isCons_eq. cbn [andb]. rewrite <- orb_assoc.
        destruct ((x =n UTH_SARA_I) || (x =n UTH_SARA_U)) eqn:E; rewrite ?orb_true_r, ?orb_false_r.
        -- replace (length t <? length (c :: x :: y :: t)) with true; [look; reflexivity|].
           symmetry. apply Nat.ltb_lt. cbn [length]. lia.
        -- rewrite Nat.ltb_irrefl. destruct (consonant x); look; reflexivity.
      * cbn [andb]. rewrite Nat.ltb_irrefl. reflexivity.
    + rewrite !andb_false_r. rewrite Nat.ltb_irrefl. reflexivity.
Qed.

(** ** Partial syllables *)
(** The pre-syllable of a led initial. *)
Definition preOf (l : option N) : option Syl :=
  match l with Some c => Some (preA (soundOf c) (classOf c)) | None => None end.
Definition P (o : Initial) (t : list N) (v : EVowel) (e : EEndConsClass) (m : ETone) : PartialSyl :=
  mkPartial (pos t) (preOf (oLead o)) (oSound o) (oClass o) (oSecond o) v e m false.
(** A rime found: vowel, final, mark, remaining letters, shared. *)
Definition Found := (EVowel * EEndConsClass * ETone * list N * bool)%type.
Definition em (o : Initial) (x : Found) : Emission :=
  let '(v, e, m, r, b) := x in mkEm (pos r) (P o w v e m) b.
(** Emissions without the position of the partial syllable, which is not used. *)
Definition norm (e : Emission) : Emission := mkEm (emPos e) (setPos (emSyl e) (pos w)) (emLinked e).
Definition outs (o : Initial) (m : Res (list Emission)) (L : list Found) : Prop :=
  exists l, m = Ok l /\ map norm l = map (em o) L.
Lemma outs_nil o : outs o (Ok []) [].
Proof. exists []. auto. Qed.
Lemma outs_cons o t r v e m b m' L : outs o m' L ->
  outs o (bind m' (fun l => Ok (mkEm (pos r) (P o t v e m) b :: l))) ((v, e, m, r, b) :: L).
Proof. intros (l & -> & E). eexists. split; [reflexivity|]. cbn [map]. rewrite E. reflexivity. Qed.
Lemma outs_one o t r v e m b : outs o (Ok [mkEm (pos r) (P o t v e m) b]) [(v, e, m, r, b)].
Proof. eexists. split; reflexivity. Qed.
Lemma outs_two o t r v e m b t' r' v' e' m' b' :
  outs o (Ok [mkEm (pos r) (P o t v e m) b; mkEm (pos r') (P o t' v' e' m') b']) [(v, e, m, r, b); (v', e', m', r', b')].
Proof. eexists. split; reflexivity. Qed.
Lemma outs_app o l0 L0 m' L : map norm l0 = map (em o) L0 -> outs o m' L ->
  outs o (bind m' (fun l => Ok (l0 ++ l))) (L0 ++ L).
Proof. intros E0 (l & -> & E). eexists. split; [reflexivity|]. rewrite !map_app, E, E0. reflexivity. Qed.

Lemma P_bump o c t v e m : Suf (c :: t) -> bump (P o (c :: t) v e m) = P o t v e m.
Proof. intros H. unfold bump, P, setPos. cbn [pPos preSyl iConsSound iConsClass pCons2 pVowel eConsClass pTone isComplete]. rewrite pos_S by suf. reflexivity. Qed.
Lemma P_setPos o t t' v e m : setPos (P o t v e m) (pos t') = P o t' v e m.
Proof. reflexivity. Qed.
Lemma P_setVowel o t v v' e m : setVowel (P o t v e m) v' = P o t v' e m.
Proof. reflexivity. Qed.
Lemma P_setEnd o t v e e' m : setEnd (P o t v e m) e' = P o t v e' m.
Proof. reflexivity. Qed.
Lemma P_setTone o t v e m m' : setTone (P o t v e m) m' = P o t v e m'.
Proof. reflexivity. Qed.
Lemma P_pos o t v e m : pPos (P o t v e m) = pos t. Proof. reflexivity. Qed.
Lemma P_vowel o t v e m : pVowel (P o t v e m) = v. Proof. reflexivity. Qed.
Lemma P_tone o t v e m : pTone (P o t v e m) = m. Proof. reflexivity. Qed.
Lemma P_cons2 o t v e m : pCons2 (P o t v e m) = oSecond o. Proof. reflexivity. Qed.
Lemma P_sound o t v e m : iConsSound (P o t v e m) = oSound o. Proof. reflexivity. Qed.
Lemma P_complete o t v e m : isComplete (P o t v e m) = false. Proof. reflexivity. Qed.

Ltac step := repeat first
  [ rewrite P_bump by suf | rewrite P_setPos | rewrite P_setVowel | rewrite P_setEnd | rewrite P_setTone
  | rewrite P_pos | rewrite P_vowel | rewrite P_tone | rewrite P_cons2 | rewrite P_sound | rewrite P_complete
  | rewrite isCons_eq | rewrite isTone_eq | rewrite isLdv_eq | rewrite sylStart_eq
  | progress look ].

Lemma readTone_ok o c t v e : Suf (c :: t) ->
  readTone ct w (P o (c :: t) v e SAMAN) = Ok (P o (snd (mark (c :: t))) v e (fst (mark (c :: t)))).
Proof.
  intros H. cbn [mark]. unfold readTone. step. destruct (isMark c) eqn:E; step; [|reflexivity].
  rewrite mark_ok by exact E. cbn [bind]. step. reflexivity.
Qed.
Definition isNext (ch : N) (t : list N) : bool := match t with c :: _ => c =n ch | [] => false end.
Lemma nextIs_ok o t v e m ch : Suf t -> nextIs w n (P o t v e m) ch = Ok (isNext ch t).
Proof. intros H. unfold nextIs. destruct t as [|c t]; step; reflexivity. Qed.
Definition endOrSylb (t : list N) : bool := match t with [] => true | c :: _ => startsSyl c end.
Lemma endOrSylb_spec t : endOrSylb t = true <-> endOrSyl t.
Proof. destruct t; cbn; tauto. Qed.
Lemma stopOrSyl_ok t : Suf t -> stopOrSylStart ct w (pos t) n = Ok (endOrSylb t).
Proof. intros H. unfold stopOrSylStart. destruct t as [|c t]; step; reflexivity. Qed.
Lemma karanEmit_ok o t v e m : Suf t ->
  karanEmit ct w n (P o t v e m) = Ok (mkEm (pos (silent t)) (P o (silent t) v e m) false, P o (silent t) v e m).
Proof. intros H. unfold karanEmit. step. rewrite silent_ok by suf. reflexivity. Qed.

(** ** Finals *)
Definition canEndb (no : list N) (c : N) : bool :=
  consonant c && negb (ec_eqb EC_NONE (finalOf c)) && negb (memN c no).
Definition finS (no t : list N) : list (EEndConsClass * list N * bool) :=
  match t with
  | c :: t' => if canEndb no c then [(finalOf c, silentAny t', false)] else []
  | [] => []
  end.
Definition linkb (c : N) : bool := memN c afterClusterVowels || consonant c.
Definition finMore (c : N) (t' : list N) : list (EEndConsClass * list N * bool) :=
  match t' with
  | [] => []
  | x :: r =>
      if consonant x then
        (if (x =n UTH_RO_RUA) && memN c eConsWithRo && endOrSylb r then [(finalOf c, r, false)] else []) ++
        match r with y :: _ => if linkb y then [(finalOf c, c :: t', true)] else [] | [] => [] end
      else if (x =n UTH_SARA_I) || (x =n UTH_SARA_U) then
        if memN c eConsWithIU && endOrSylb r then
          (finalOf c, r, false) :: match r with [] => [] | _ => [(finalOf c, c :: t', true)] end
        else [(finalOf c, c :: t', true)]
      else if linkb x then [(finalOf c, c :: t', true)] else []
  end.
Definition finL (no t : list N) : list (EEndConsClass * list N * bool) :=
  match t with
  | c :: t' =>
      if canEndb no c then
        (finalOf c, silentAny t', false) ::
        (if length (silentAny t') <? length t' then [] else finMore c t')
      else []
  | [] => []
  end.
Definition closed (v : EVowel) (m : ETone) (l : list (EEndConsClass * list N * bool)) : list Found :=
  map (fun x => let '(e, r, b) := x in (v, e, m, r, b)) l.

Lemma endConsAt_ok no c t : Suf (c :: t) ->
  endConsAt ct w (pos (c :: t)) no = Ok (if canEndb no c then Some (c, finalOf c) else None).
Proof.
  intros H. unfold endConsAt, canEndb. step. destruct (consonant c) eqn:E; cbn [andb]; [|reflexivity].
  rewrite final_ok by exact E. cbn [bind]. destruct (_ && _); reflexivity.
Qed.
Lemma eatS_ok o c t v e m no : Suf (c :: t) ->
  outs o (EatEndConsSimple ct w n (P o (c :: t) v e m) no) (closed v m (finS no (c :: t))).
Proof.
  intros H. unfold EatEndConsSimple. step. rewrite endConsAt_ok by suf. cbn [bind finS].
  destruct (canEndb no c); cbn [closed map]; [|apply outs_nil]. step. rewrite silentAny_ok by suf.
  cbn [bind]. step. apply outs_one.
Qed.
Lemma linkPart_ok o c t v m : Suf (c :: t) ->
  outs o (linkPart ct w n (P o (c :: t) v (finalOf c) m) c) (closed v m (finMore c t)).
Proof.
  intros H. unfold linkPart. step. cbv zeta. step. destruct t as [|x t]; step; [apply outs_nil|].
  cbn [finMore]. unfold linkIf. step. fold (linkb x).
  rewrite (N.eqb_sym UTH_SARA_I x), (N.eqb_sym UTH_SARA_U x), (N.eqb_sym UTH_RO_RUA x).
  destruct (consonant x) eqn:Ex.
  - assert (K : forall a A, map norm a = map (em o) (closed v m A) ->
      outs o (if pos t =? n then Ok a
         else (n0 <- at16 w (pos t) ;; Ok (a ++ (if memN n0 afterClusterVowels || th_wcisthcons ct n0
                    then [mkEm (pos (c :: x :: t)) (P o (c :: x :: t) v (finalOf c) m) true] else [])))%res)
        (closed v m (A ++ match t with y :: _ => if linkb y then [(finalOf c, c :: x :: t, true)] else [] | [] => [] end))).
    { intros a A E. destruct t as [|y t].
      - rewrite pos_nil, Nat.eqb_refl, app_nil_r. exists a. auto.
      - replace (pos (y :: t) =? n) with false; [|symmetry; apply Nat.eqb_neq; pose proof (pos_lt y t ltac:(suf)); lia].
        step. fold (linkb y). destruct (linkb y).
        + exists (a ++ [mkEm (pos (c :: x :: y :: t)) (P o (c :: x :: y :: t) v (finalOf c) m) true]). split; [reflexivity|].
          rewrite map_app, E. unfold closed. rewrite !map_app. reflexivity.
        + exists (a ++ []). rewrite !app_nil_r. auto. }
    destruct (x =n UTH_RO_RUA); cbn [andb]; [destruct (memN c eConsWithRo); cbn [andb]|]; try (apply (K [] []); reflexivity).
    rewrite stopOrSyl_ok by suf. cbn [bind]. destruct (endOrSylb t); [|apply (K [] []); reflexivity].
    apply (K [_] [_]). reflexivity.
  - destruct ((x =n UTH_SARA_I) || (x =n UTH_SARA_U)) eqn:EI.
    + assert (Lx : linkb x = true).
      { unfold linkb. apply orb_true_iff in EI. destruct EI as [EI|EI]; apply N.eqb_eq in EI; subst x; reflexivity. }
      unfold linkb in Lx. rewrite Ex in Lx. rewrite ?Lx.
      destruct (memN c eConsWithIU); cbn [andb bind]; [|rewrite ?isCons_eq, ?Ex, ?Lx; apply outs_one].
      rewrite stopOrSyl_ok by suf. cbn [bind]. destruct (endOrSylb t); [|rewrite ?isCons_eq, ?Ex, ?Lx; apply outs_one].
      destruct t as [|y t].
      * rewrite pos_nil, Nat.eqb_refl. rewrite <- pos_nil. apply outs_one.
      * replace (pos (y :: t) =? n) with false; [|symmetry; apply Nat.eqb_neq; pose proof (pos_lt y t ltac:(suf)); lia].
        rewrite ?isCons_eq, ?Ex, ?Lx. apply outs_two.
    + rewrite isCons_eq. fold (linkb x). destruct (linkb x); [apply outs_one|apply outs_nil].
Qed.
Lemma eatL_ok o c t v e m no : Suf (c :: t) ->
  outs o (EatEndConsComplex ct w n (P o (c :: t) v e m) no) (closed v m (finL no (c :: t))).
Proof.
  intros H. unfold EatEndConsComplex. step. rewrite endConsAt_ok by suf. cbn [bind finL].
  destruct (canEndb no c); cbn [closed map]; [|apply outs_nil]. cbv zeta. step. rewrite silentAny_ok by suf.
  cbn [bind]. rewrite pos_ltb by suf. destruct (_ <? _); [apply outs_one|].
  apply outs_cons. apply linkPart_ok. exact H.
Qed.
(** With the test that something remains. *)
Lemma roomS_ok o t v e m no : Suf t ->
  outs o (ifRoom n (P o t v e m) (EatEndConsSimple ct w n (P o t v e m) no)) (closed v m (finS no t)).
Proof. intros H. unfold ifRoom. destruct t as [|c t]; step; [apply outs_nil|apply eatS_ok; exact H]. Qed.
Lemma roomL_ok o t v e m no : Suf t ->
  outs o (ifRoom n (P o t v e m) (EatEndConsComplex ct w n (P o t v e m) no)) (closed v m (finL no t)).
Proof. intros H. unfold ifRoom. destruct t as [|c t]; step; [apply outs_nil|apply eatL_ok; exact H]. Qed.

(** ** No vowel sign before the initial *)
Ltac tone c t m t1 :=
  let Hs := fresh "Hs" in
  pose proof (suf_mark (c :: t) ltac:(suf)) as Hs; rewrite readTone_ok by suf; cbn [bind];
  destruct (mark (c :: t)) as [m t1]; cbn [fst snd] in *.

Definition fMHA (t : list N) : list Found :=
  match t with
  | [] => []
  | _ =>
      let '(m, t1) := mark t in
      match t1 with
      | [] => []
      | c :: r =>
          if c =n UTH_WO_WAEN then
            if isNext UTH_SARA_A r then [(V_UA, EC_NONE, m, silent (tl r), false)]
            else [(V_UAA, EC_NONE, m, silent r, false)]
          else closed V_A m (if tone_eqb SAMAN m then finL [] t1 else finS [] t1)
      end
  end.
Lemma fMHA_ok o c t v e : Suf (c :: t) -> outs o (thMaiHanAkat ct w n (P o (c :: t) v e SAMAN)) (fMHA t).
Proof.
  intros H. unfold thMaiHanAkat, fMHA. cbv zeta. step. destruct t as [|x t]; step; [apply outs_nil|].
  tone x t m t1. step. destruct t1 as [|y r]; step; [apply outs_nil|].
  rewrite (N.eqb_sym UTH_WO_WAEN y). destruct (y =n UTH_WO_WAEN).
  - rewrite nextIs_ok by suf. cbn [bind]. destruct r as [|z r]; cbn [isNext].
    + step. rewrite karanEmit_ok by suf. cbn [bind]. apply outs_one.
    + destruct (z =n UTH_SARA_A); step; rewrite karanEmit_ok by suf; cbn [bind tl]; apply outs_one.
  - step. destruct (tone_eqb SAMAN m); [apply eatL_ok|apply eatS_ok]; exact Hs.
Qed.

Definition fUpEnd (v : EVowel) (m : ETone) (t : list N) : list Found :=
  match t with
  | [] => []
  | c :: r =>
      if leadVowel c then []
      else if Z.eqb V_UEE v then
        if UTH_O_ANG =n c then [(v, EC_NONE, m, silent r, false)] else closed v m (finS [] t)
      else
        let no := if Z.eqb V_I v || Z.eqb V_II v then [UTH_YO_YAK] else [] in
        closed v m (if Z.eqb V_UE v || negb (tone_eqb SAMAN m) then finS no t else finL no t)
  end.
Lemma fUpEnd_ok o t v e m : Suf t -> outs o (thUpDownEnd ct w n (P o t v e m)) (fUpEnd v m t).
Proof.
  intros H. unfold thUpDownEnd, fUpEnd. destruct t as [|c t]; step; [apply outs_nil|].
  destruct (leadVowel c); [apply outs_nil|]. destruct (Z.eqb V_UEE v).
  - destruct (UTH_O_ANG =n c); [|apply eatS_ok; exact H].
    step. rewrite karanEmit_ok by suf. cbn [bind]. apply outs_one.
  - cbv zeta. destruct (Z.eqb V_UE v || negb (tone_eqb SAMAN m)); [apply eatS_ok|apply eatL_ok]; exact H.
Qed.
Definition fUpDown (v : EVowel) (t : list N) : list Found :=
  let '(m, t1) := mark t in
  if match t1 with [] => true | c :: _ => leadVowel c || negb (Z.eqb V_UEE v) end then
    if (length (silent t1) =? length t1) && negb (length (silentIU t1) =? length t1)
    then [(v, EC_NONE, m, silentIU t1, false)]
    else (v, EC_NONE, m, silent t1, false) :: fUpEnd v m (silent t1)
  else fUpEnd v m t1.
Lemma fUpDown_ok o c t v0 e v : Suf (c :: t) -> ThCharToAboveBelowVowel c = Ok v ->
  outs o (thUpDown ct w n (P o (c :: t) v0 e SAMAN) c) (fUpDown v t).
Proof.
  intros H Ev. unfold thUpDown, fUpDown. rewrite Ev. cbn [bind]. cbv zeta. step.
  assert (K : forall m t1, Suf t1 -> outs o
    (open <- (if n <=? pPos (P o t1 v e m) then Ok true
              else c0 <- at16 w (pPos (P o t1 v e m)) ;;
                   Ok (th_wcisldvowel ct c0 || negb (Z.eqb V_UEE (pVowel (P o t1 v e m))))) ;;
     if (open : bool)
     then k <- MatchKaranSimple ct w (pPos (setEnd (P o t1 v e m) EC_NONE)) n ;;
          k' <- (if k =? pPos (setEnd (P o t1 v e m) EC_NONE)
                 then MatchKaranIU ct w (pPos (setEnd (P o t1 v e m) EC_NONE)) n
                 else Ok (pPos (setEnd (P o t1 v e m) EC_NONE))) ;;
          if negb (k' =? pPos (setEnd (P o t1 v e m) EC_NONE))
          then Ok [mkEm k' (setEnd (P o t1 v e m) EC_NONE) false]
          else l <- thUpDownEnd ct w n (setPos (setEnd (P o t1 v e m) EC_NONE) k) ;;
               Ok (mkEm k (setPos (setEnd (P o t1 v e m) EC_NONE) k) false :: l)
     else thUpDownEnd ct w n (P o t1 v e m))%res
    (if match t1 with [] => true | c :: _ => leadVowel c || negb (Z.eqb V_UEE v) end then
      if (length (silent t1) =? length t1) && negb (length (silentIU t1) =? length t1)
      then [(v, EC_NONE, m, silentIU t1, false)]
      else (v, EC_NONE, m, silent t1, false) :: fUpEnd v m (silent t1)
     else fUpEnd v m t1)).
  { intros m t1 S1.
    assert (E : (if n <=? pPos (P o t1 v e m) then Ok true
              else c0 <- at16 w (pPos (P o t1 v e m)) ;;
                   Ok (th_wcisldvowel ct c0 || negb (Z.eqb V_UEE (pVowel (P o t1 v e m)))))%res
        = Ok (match t1 with [] => true | c :: _ => leadVowel c || negb (Z.eqb V_UEE v) end)).
    { destruct t1 as [|x t1]; step; reflexivity. }
    rewrite E. cbn [bind]. destruct (match t1 with [] => true | _ => _ end); [|apply fUpEnd_ok; exact S1].
    step. rewrite silent_ok by suf. cbn [bind]. rewrite pos_eqb by suf.
    destruct (length (silent t1) =? length t1); cbn [andb].
    - rewrite silentIU_ok by suf. cbn [bind]. rewrite pos_eqb by suf.
      destruct (length (silentIU t1) =? length t1); cbn [negb]; step; [|apply outs_one].
      apply outs_cons. apply fUpEnd_ok. suf.
    - cbn [bind]. rewrite Nat.eqb_refl. cbn [negb]. step. apply outs_cons. apply fUpEnd_ok. suf. }
  destruct t as [|x t].
  - look. cbn [bind]. exact (K SAMAN [] ltac:(suf)).
  - step. tone x t m t1. apply K. exact Hs.
Qed.

Definition fMaitaikhu (t : list N) : list Found :=
  match t with
  | c :: r => if c =n UTH_O_ANG then closed V_AU SAMAN (finS [] (silent r)) else []
  | [] => []
  end.
Lemma fMaitaikhu_ok o c t v e : Suf (c :: t) -> outs o (thMaitaikhu ct w n (P o (c :: t) v e SAMAN)) (fMaitaikhu t).
Proof.
  intros H. unfold thMaitaikhu, fMaitaikhu. cbv zeta. step. rewrite nextIs_ok by suf. cbn [bind].
  destruct t as [|x t]; cbn [isNext]; [apply outs_nil|]. destruct (x =n UTH_O_ANG); [|apply outs_nil].
  step. destruct t as [|y t]; step; [apply outs_nil|].
  rewrite silent_ok by suf. cbn [bind]. step. apply roomS_ok. suf.
Qed.

Definition fRo (o : Initial) (m : ETone) (t : list N) : list Found :=
  let ra := ics_eqb RA (oSound o) in
  let t1 := if ra then t else silent t in
  (if ra then [] else [(V_AUU, KON, m, silent t, false)]) ++
  (if isNext UTH_RO_RUA t1 then
     (V_A, KON, m, silent (tl t1), false) ::
     (if length (silent (tl t1)) =? length (tl t1) then closed V_A m (finL [] (tl t1)) else [])
   else []).
Lemma fRo_ok o c t v e m : Suf (c :: t) -> outs o (thRoRua ct w n (P o (c :: t) v e m)) (fRo o m t).
Proof.
  intros H. unfold thRoRua, fRo. cbv zeta. step.
  assert (K : forall a A t1 v e, Suf t1 -> map norm a = map (em o) A ->
    outs o (b <- nextIs w n (P o t1 v e m) UTH_RO_RUA ;;
      if (b : bool)
      then k <- MatchKaranSimple ct w (pPos (setEnd (setVowel (bump (P o t1 v e m)) V_A) KON)) n ;;
           l <- (if (k =? pPos (setEnd (setVowel (bump (P o t1 v e m)) V_A) KON))
                    && (pPos (setEnd (setVowel (bump (P o t1 v e m)) V_A) KON) <? n)
                 then EatEndConsComplex ct w n (setEnd (setVowel (bump (P o t1 v e m)) V_A) KON) []
                 else Ok []) ;;
           Ok (a ++ mkEm k (setEnd (setVowel (bump (P o t1 v e m)) V_A) KON) false :: l)
      else Ok a)%res
    (A ++ (if isNext UTH_RO_RUA t1 then
     (V_A, KON, m, silent (tl t1), false) ::
     (if length (silent (tl t1)) =? length (tl t1) then closed V_A m (finL [] (tl t1)) else [])
   else []))).
  { intros a A t1 v' e' S1 E. rewrite nextIs_ok by suf. cbn [bind].
    destruct t1 as [|x t1]; cbn [isNext tl]; [exists a; rewrite app_nil_r; auto|].
    destruct (x =n UTH_RO_RUA); [|exists a; rewrite app_nil_r; auto].
    step. rewrite silent_ok by suf. cbn [bind]. rewrite pos_eqb by suf.
    assert (X : outs o (if (length (silent t1) =? length t1) && (pos t1 <? n)
                 then EatEndConsComplex ct w n (P o t1 V_A KON m) [] else Ok [])
        (if length (silent t1) =? length t1 then closed V_A m (finL [] t1) else [])).
    { destruct (length (silent t1) =? length t1); cbn [andb]; [|apply outs_nil].
      destruct t1 as [|y t1]; step; [apply outs_nil|]. apply eatL_ok. suf. }
    destruct X as (l & -> & El). cbn [bind]. eexists. split; [reflexivity|].
    rewrite !map_app. cbn [map]. rewrite El, E. reflexivity. }
  destruct (ics_eqb RA (oSound o)); cbn [negb].
  - cbn [bind]. apply (K [] [] t); [suf|reflexivity].
  - step. rewrite karanEmit_ok by suf. cbn [bind].
    apply (K [_] [_] (silent t)); [suf|reflexivity].
Qed.

Definition fDefault (lk : bool) (o : Initial) (v : EVowel) (m : ETone) (t : list N) : list Found :=
  match t with
  | [] => []
  | c :: _ =>
      if consonant c then
        if Z.eqb V_INVALID v then
          if negb (ec_eqb EC_NONE (finalOf c)) && negb (Z.eqb SEC_WA (oSecond o)) && negb lk
          then closed V_O m (finS [UTH_YO_YAK; UTH_WO_WAEN] t) else []
        else (v, EC_NONE, m, t, false) :: closed v m (finL [UTH_WO_WAEN] t)
      else []
  end.
Definition fOther (lk : bool) (o : Initial) (v : EVowel) (t : list N) : list Found :=
  let '(m, t1) := mark t in
  match t1 with
  | [] => []
  | c :: r =>
      if c =n UTH_SARA_A then [(V_A, EC_NONE, m, silent r, false)]
      else if c =n UTH_SARA_AA then
        (V_AA, EC_NONE, m, silent r, false) :: closed V_AA m (finL [] (silent r))
      else if c =n UTH_SARA_AM then [(V_A, KOM, m, silent r, false)]
      else if c =n UTH_WO_WAEN then closed V_UAA m (finS [] r)
      else if c =n UTH_O_ANG then
        (V_AUU, EC_NONE, m, silent r, false) :: closed V_AUU m (finS [] (silent r))
      else if c =n UTH_RO_RUA then fRo o m r
      else fDefault lk o v m t1
  end.
Lemma fOther_ok lk o c t v e : Suf (c :: t) ->
  outs o (thOther ct w n lk (P o (c :: t) v e SAMAN)) (fOther lk o v (c :: t)).
Proof.
  intros H. unfold thOther, fOther. tone c t m t1. step. destruct t1 as [|x r]; step; [apply outs_nil|].
  destruct (x =n UTH_SARA_A). { step. rewrite karanEmit_ok by suf. apply outs_one. }
  destruct (x =n UTH_SARA_AA). { step. rewrite karanEmit_ok by suf. cbn [bind]. apply outs_cons. apply roomL_ok. suf. }
  destruct (x =n UTH_SARA_AM). { step. rewrite karanEmit_ok by suf. apply outs_one. }
  destruct (x =n UTH_WO_WAEN). { cbv zeta. step. apply roomS_ok. suf. }
  destruct (x =n UTH_O_ANG). { step. rewrite karanEmit_ok by suf. cbn [bind]. apply outs_cons. apply roomS_ok. suf. }
  destruct (x =n UTH_RO_RUA). { apply fRo_ok. exact Hs. }
  unfold thDefault, fDefault. step. destruct (consonant x) eqn:Ex; [|apply outs_nil].
  destruct (Z.eqb V_INVALID v).
  - rewrite final_ok by exact Ex. cbn [bind]. destruct (_ && _ && _); [|apply outs_nil].
    step. apply eatS_ok. exact Hs.
  - cbv zeta. step. apply outs_cons. apply eatL_ok. exact Hs.
Qed.
Definition upVowel (c : N) : EVowel :=
  if c =n UTH_SARA_I then V_I else if c =n UTH_SARA_II then V_II else if c =n UTH_SARA_UE then V_UE
  else if c =n UTH_SARA_UEE then V_UEE else if c =n UTH_SARA_U then V_U else V_UU.
Definition isUpDown (c : N) : bool := th_wcisupvowel ct c || th_wcisblvowel ct c.
Lemma upVowel_ok c : (UTH_MAI_HAN_AKAT =n c) = false -> isUpDown c = true ->
  ThCharToAboveBelowVowel c = Ok (upVowel c) /\
  (c = UTH_SARA_I \/ c = UTH_SARA_II \/ c = UTH_SARA_UE \/ c = UTH_SARA_UEE \/ c = UTH_SARA_U \/ c = UTH_SARA_UU).
Proof.
  intros E H.
  assert (A : c = UTH_SARA_I \/ c = UTH_SARA_II \/ c = UTH_SARA_UE \/ c = UTH_SARA_UEE \/ c = UTH_SARA_U \/ c = UTH_SARA_UU).
  { apply N.eqb_neq in E. unfold isUpDown in H. cbn [libthai_ct th_wcisupvowel th_wcisblvowel] in H.
    rewrite !orb_true_iff, andb_true_iff, !N.leb_le, !N.eqb_eq in H.
    unfold UTH_MAI_HAN_AKAT, UTH_SARA_I, UTH_SARA_II, UTH_SARA_UE, UTH_SARA_UEE, UTH_SARA_U, UTH_SARA_UU in *. lia. }
  split; [|exact A]. destruct A as [->|[->|[->|[->|[->| ->]]]]]; reflexivity.
Qed.
Definition rimesF (lk : bool) (o : Initial) (v : EVowel) (t : list N) : list Found :=
  match t with
  | [] => []
  | c :: r =>
      if UTH_MAI_HAN_AKAT =n c then fMHA r
      else if isUpDown c then fUpDown (upVowel c) r
      else if UTH_MAITAIKHU =n c then fMaitaikhu r
      else fOther lk o v t
  end.
Lemma rimesF_ok lk o t v e m : Suf t ->
  outs o (thPartial ct w n lk (P o t v e m)) (rimesF lk o v t).
Proof.
  intros H. unfold thPartial, rimesF. destruct t as [|c t]; step; [apply outs_nil|]. cbv zeta. step.
  destruct (UTH_MAI_HAN_AKAT =n c) eqn:E1; [apply fMHA_ok; exact H|].
  fold (isUpDown c). destruct (isUpDown c) eqn:E2.
  - destruct (upVowel_ok c E1 E2) as (A & _). apply fUpDown_ok; assumption.
  - destruct (UTH_MAITAIKHU =n c); [apply fMaitaikhu_ok|apply fOther_ok]; exact H.
Qed.

(** ** After a leading vowel *)
Definition notLed (o : Initial) : bool :=
  match oLead o with None => true | _ => negb (ics_eqb ICS_A (oSound o)) end.
Lemma notLed_ok o t v e m : notPreA (P o t v e m) = notLed o.
Proof. unfold notPreA, notLed, hasPreSyl, P, preOf. cbn. destruct (oLead o); reflexivity. Qed.

Definition fSaraI (t : list N) : list Found :=
  let '(m, t1) := mark t in closed V_OEE m (finS [] (silent t1)).
Lemma fSaraI_ok o c t v e : Suf (c :: t) -> outs o (eSaraI ct w n (P o (c :: t) v e SAMAN)) (fSaraI t).
Proof.
  intros H. unfold eSaraI, fSaraI. cbv zeta. step. destruct t as [|x t]; step; [apply outs_nil|].
  tone x t m t1. step. rewrite silent_ok by suf. cbn [bind]. step. apply roomS_ok. suf.
Qed.
Definition fTriple (need : N) (sh lg : EVowel) (fin : list N -> list (EEndConsClass * list N * bool))
    (t : list N) : list Found :=
  let '(m, t1) := mark t in
  if isNext need t1 then
    if isNext UTH_SARA_A (tl t1) then [(sh, EC_NONE, m, silent (tl (tl t1)), false)]
    else (lg, EC_NONE, m, silent (tl t1), false) :: closed lg m (fin (silent (tl t1)))
  else [].
Lemma fTriple_ok o c t v e need sh lg eat fin : Suf (c :: t) -> Z.eqb lg sh = false ->
  (forall t m, Suf t -> outs o (ifRoom n (P o t lg EC_NONE m) (eat (P o t lg EC_NONE m))) (closed lg m (fin t))) ->
  e = EC_NONE ->
  outs o (eTriple ct w n (P o (c :: t) v e SAMAN) need sh lg eat) (fTriple need sh lg fin t).
Proof.
  intros H Hsl Heat He. unfold eTriple, fTriple. cbv zeta. step. destruct t as [|x t]; step; [apply outs_nil|].
  tone x t m t1. rewrite nextIs_ok by suf. cbn [bind]. destruct t1 as [|y r]; cbn [isNext negb tl]; [apply outs_nil|].
  destruct (y =n need); cbn [negb]; [|apply outs_nil]. step. rewrite nextIs_ok by suf. cbn [bind].
  destruct r as [|z r]; cbn [isNext tl].
  - step. rewrite karanEmit_ok by suf. cbn [bind]. step. rewrite Z.eqb_refl. apply outs_cons. apply Heat. suf.
  - destruct (z =n UTH_SARA_A).
    + step. rewrite karanEmit_ok by suf. cbn [bind]. step. rewrite Hsl. cbn [bind]. apply outs_one.
    + step. rewrite karanEmit_ok by suf. cbn [bind]. step. rewrite Z.eqb_refl. apply outs_cons. apply Heat. suf.
Qed.
Definition fELong (o : Initial) (m : ETone) (t : list N) : list Found :=
  if notLed o then (V_EE, EC_NONE, m, silent t, false) :: closed V_EE m (finL [] (silent t)) else [].
Lemma fELong_ok o t v e m : Suf t -> outs o (eDefault ct w n (P o t v e m)) (fELong o m t).
Proof.
  intros H. unfold eDefault, fELong. rewrite notLed_ok. destruct (notLed o); [|apply outs_nil].
  step. rewrite karanEmit_ok by suf. cbn [bind]. apply outs_cons. apply roomL_ok. suf.
Qed.
Definition fEOther (o : Initial) (t : list N) : list Found :=
  let '(m, t1) := mark t in
  match t1 with
  | [] => [(V_EE, EC_NONE, m, [], false)]
  | c :: r =>
      if c =n UTH_O_ANG then
        (if notLed o then [(V_EE, EC_NONE, m, silent t1, false)] else []) ++
        (if isNext UTH_SARA_A r then [(V_OE, EC_NONE, m, silent (tl r), false)]
         else [(V_OEE, EC_NONE, m, silent r, false)])
      else if c =n UTH_SARA_A then
        if notLed o then [(V_E, EC_NONE, m, silent r, false)] else []
      else if c =n UTH_SARA_AA then
        if isNext UTH_SARA_A r then [(V_AU, EC_NONE, m, silent (tl r), false)]
        else [(V_A, KOEW, m, silent r, false)]
      else if (c =n UTH_YO_YAK) && endOrSylb r then [(V_OEE, KOEY, m, silent r, false)]
      else fELong o m t1
  end.
Lemma fEOther_ok o c t v e : Suf (c :: t) -> outs o (eOther ct w n (P o (c :: t) v e SAMAN) c) (fEOther o (c :: t)).
Proof.
  intros H. unfold eOther, fEOther. rewrite isTone_eq.
  assert (M : isMark c = false -> snd (mark (c :: t)) = c :: t) by (intros E; cbn [mark]; rewrite E; reflexivity).
  tone c t m t1. step. destruct t1 as [|x r].
  - step. destruct (isMark c); cbn [andb]; [apply outs_one|discriminate (M eq_refl)].
  - clear M. step. rewrite andb_false_r. step.
    destruct (x =n UTH_O_ANG).
    { unfold eOAng. rewrite notLed_ok. step. rewrite silent_ok by suf. cbn [bind].
      assert (K : forall a A v e, map norm a = map (em o) A -> outs o
        (sa <- nextIs w n (P o r v e m) UTH_SARA_A ;;
         '(e0, _) <- karanEmit ct w n (setEnd (if sa : bool then setVowel (bump (P o r v e m)) V_OE
                 else setVowel (P o r v e m) V_OEE) EC_NONE) ;; Ok (a ++ [e0]))%res
        (A ++ (if isNext UTH_SARA_A r then [(V_OE, EC_NONE, m, silent (tl r), false)]
         else [(V_OEE, EC_NONE, m, silent r, false)]))).
      { intros a A v' e' E. rewrite nextIs_ok by suf. cbn [bind]. destruct r as [|z r]; cbn [isNext tl].
        - step. rewrite karanEmit_ok by suf. cbn [bind]. eexists. split; [reflexivity|].
          rewrite !map_app, E. reflexivity.
        - destruct (z =n UTH_SARA_A); step; rewrite karanEmit_ok by suf; cbn [bind]; eexists; (split; [reflexivity|]);
            rewrite !map_app, E; reflexivity. }
      destruct (notLed o); cbn [bind]; cbv zeta; rewrite P_bump by suf.
      - apply (K [_] [_]). reflexivity.
      - apply (K [] []). reflexivity. }
    destruct (x =n UTH_SARA_A).
    { unfold eSaraA. rewrite notLed_ok. destruct (notLed o); [|apply outs_nil].
      step. rewrite karanEmit_ok by suf. apply outs_one. }
    destruct (x =n UTH_SARA_AA).
    { unfold eSaraAA. cbv zeta. step. rewrite nextIs_ok by suf. cbn [bind]. destruct r as [|z r]; cbn [isNext tl].
      - step. rewrite karanEmit_ok by suf. apply outs_one.
      - destruct (z =n UTH_SARA_A); step; rewrite karanEmit_ok by suf; apply outs_one. }
    destruct (x =n UTH_YO_YAK); cbn [andb]; [|apply fELong_ok; exact Hs].
    unfold eYoYak. step. rewrite stopOrSyl_ok by suf. cbn [bind]. destruct (endOrSylb r); [|apply fELong_ok; exact Hs].
    step. rewrite karanEmit_ok by suf. apply outs_one.
Qed.
Definition rimesEF (o : Initial) (t : list N) : list Found :=
  match t with
  | [] => if notLed o then [(V_EE, EC_NONE, SAMAN, [], false)] else []
  | c :: r =>
      if c =n UTH_SARA_I then fSaraI r
      else if c =n UTH_SARA_II then fTriple UTH_YO_YAK V_IA V_IAA (finL []) r
      else if c =n UTH_SARA_UEE then fTriple UTH_O_ANG V_UEA V_UEAA (finS []) r
      else if c =n UTH_MAITAIKHU then closed V_E SAMAN (finS [] r)
      else fEOther o t
  end.
Lemma rimesEF_ok o t v m : Suf t -> outs o (ePartial ct w n (P o t v EC_NONE m)) (rimesEF o t).
Proof.
  intros H. unfold ePartial, rimesEF. step. cbv zeta. step. rewrite notLed_ok.
  destruct t as [|c t]; step.
  { destruct (notLed o); [apply outs_one|apply outs_nil]. }
  destruct (c =n UTH_SARA_I); [apply fSaraI_ok; exact H|].
  destruct (c =n UTH_SARA_II).
  { apply fTriple_ok; [exact H|reflexivity| |reflexivity]. intros t' m' S'. apply roomL_ok. exact S'. }
  destruct (c =n UTH_SARA_UEE).
  { apply fTriple_ok; [exact H|reflexivity| |reflexivity]. intros t' m' S'. apply roomS_ok. exact S'. }
  destruct (c =n UTH_MAITAIKHU).
  { unfold eMaitaikhu. cbv zeta. step. pose proof (roomS_ok o t V_E EC_NONE SAMAN [] ltac:(suf)) as R.
    unfold ifRoom in *. cbn [pPos P] in *. exact R. }
  apply fEOther_ok. exact H.
Qed.

Definition silentOpen (t : list N) : list N := if length (silent t) <? length t then silent t else silentIU t.
Definition fAe (m : ETone) (t : list N) : list Found :=
  if isNext UTH_SARA_A t then [(V_AE, EC_NONE, m, silent (tl t), false)]
  else if isNext UTH_MAITAIKHU t then closed V_AE m (finS [] (tl t))
  else (V_AEE, EC_NONE, m, silent t, false) :: closed V_AEE m (finS [] (silent t)).
Lemma fAe_ok o t v m : Suf t -> outs o (lvAe ct w n (P o t v EC_NONE m)) (fAe m t).
Proof.
  intros H. unfold lvAe, fAe. rewrite !nextIs_ok by suf. cbn [bind].
  assert (K : outs o ('(a, p) <- ('(e, p) <- karanEmit ct w n (setEnd (setVowel (P o t v EC_NONE m) V_AEE) EC_NONE) ;; Ok ([e], p)) ;;
      l <- (if Z.eqb V_AEE (pVowel p) || false then ifRoom n p (EatEndConsSimple ct w n p []) else Ok []) ;;
      Ok (a ++ l))%res ((V_AEE, EC_NONE, m, silent t, false) :: closed V_AEE m (finS [] (silent t)))).
  { step. rewrite karanEmit_ok by suf. cbn [bind]. step. cbn [orb app]. rewrite Z.eqb_refl. cbn [orb]. apply outs_cons. apply roomS_ok. suf. }
  destruct t as [|c t]; cbn [isNext tl]; [exact K|].
  destruct (c =n UTH_SARA_A) eqn:E1.
  - apply N.eqb_eq in E1. subst c. change (UTH_SARA_A =n UTH_MAITAIKHU) with false. cbv iota. step.
    rewrite karanEmit_ok by suf. cbn [bind]. step. change (Z.eqb V_AEE V_AE || false) with false. cbv iota. cbn [bind app].
    apply outs_one.
  - destruct (c =n UTH_MAITAIKHU); [|exact K]. cbn [bind]. step. rewrite orb_true_r.
    pose proof (roomS_ok o t V_AE EC_NONE m [] ltac:(suf)) as (l & -> & E). cbn [bind app]. exists l. auto.
Qed.
Definition fO (m : ETone) (t : list N) : list Found :=
  if isNext UTH_SARA_A t then [(V_O, EC_NONE, m, silentOpen (tl t), false)]
  else if (length (silent t) =? length t) && negb (length (silentIU t) =? length t)
  then [(V_OO, EC_NONE, m, silentIU t, false)]
  else (V_OO, EC_NONE, m, silent t, false) :: closed V_OO m (finL [] (silent t)).
Lemma silent_eq t : length (silent t) = length t -> silent t = t.
Proof.
  destruct t as [|c [|x t]]; cbn [silent]; auto. destruct (_ && _); auto. cbn [length]. lia.
Qed.
Lemma silentIU_eq t : length (silentIU t) = length t -> silentIU t = t.
Proof.
  destruct t as [|c [|x [|y t]]]; cbn [silentIU]; auto. destruct (_ && _); auto. cbn [length]. lia.
Qed.
Lemma silentOpen_cases t : silentOpen t =
  if (length (silent t) =? length t) && negb (length (silentIU t) =? length t) then silentIU t else silent t.
Proof.
  unfold silentOpen. pose proof (silent_len t) as A.
  destruct (Nat.eqb_spec (length (silent t)) (length t)) as [B|B]; cbn [andb].
  - rewrite B, Nat.ltb_irrefl. destruct (Nat.eqb_spec (length (silentIU t)) (length t)) as [C|C]; cbn [negb]; [|reflexivity].
    rewrite silentIU_eq, silent_eq by assumption. reflexivity.
  - assert (L : length (silent t) <? length t = true) by (apply Nat.ltb_lt; lia). rewrite L. reflexivity.
Qed.
Lemma fO_ok o t v e m : Suf t -> outs o (lvO ct w n (P o t v e m)) (fO m t).
Proof.
  intros H. unfold lvO, fO. rewrite nextIs_ok by suf. cbn [bind]. cbv zeta.
  assert (K : outs o
    (k <- MatchKaranSimple ct w (pPos (setEnd (setVowel (P o t v e m) V_OO) EC_NONE)) n ;;
     k' <- (if k =? pPos (setEnd (setVowel (P o t v e m) V_OO) EC_NONE)
            then MatchKaranIU ct w (pPos (setEnd (setVowel (P o t v e m) V_OO) EC_NONE)) n
            else Ok (pPos (setEnd (setVowel (P o t v e m) V_OO) EC_NONE))) ;;
     if negb (k' =? pPos (setEnd (setVowel (P o t v e m) V_OO) EC_NONE))
     then Ok [mkEm k' (setEnd (setVowel (P o t v e m) V_OO) EC_NONE) false]
     else l <- (if Z.eqb V_OO (pVowel (setPos (setEnd (setVowel (P o t v e m) V_OO) EC_NONE) k))
           then ifRoom n (setPos (setEnd (setVowel (P o t v e m) V_OO) EC_NONE) k)
                  (EatEndConsComplex ct w n (setPos (setEnd (setVowel (P o t v e m) V_OO) EC_NONE) k) []) else Ok []) ;;
          Ok (mkEm k (setPos (setEnd (setVowel (P o t v e m) V_OO) EC_NONE) k) false :: l))%res
    (if (length (silent t) =? length t) && negb (length (silentIU t) =? length t)
     then [(V_OO, EC_NONE, m, silentIU t, false)]
     else (V_OO, EC_NONE, m, silent t, false) :: closed V_OO m (finL [] (silent t)))).
  { step. rewrite silent_ok by suf. cbn [bind]. rewrite pos_eqb by suf.
    destruct (length (silent t) =? length t); cbn [andb].
    - rewrite silentIU_ok by suf. cbn [bind]. rewrite pos_eqb by suf.
      destruct (length (silentIU t) =? length t); cbn [negb]; [|apply outs_one].
      step. rewrite Z.eqb_refl. apply outs_cons. apply roomL_ok. suf.
    - cbn [bind]. rewrite Nat.eqb_refl. cbn [negb]. step. rewrite Z.eqb_refl. apply outs_cons. apply roomL_ok. suf. }
  destruct t as [|c t]; cbn [isNext tl]; [exact K|].
  destruct (c =n UTH_SARA_A); [|exact K]. clear K. rewrite silentOpen_cases.
  step. rewrite silent_ok by suf. cbn [bind]. rewrite pos_eqb by suf.
  destruct (length (silent t) =? length t); cbn [andb].
  - rewrite silentIU_ok by suf. cbn [bind]. rewrite pos_eqb by suf.
    destruct (length (silentIU t) =? length t); cbn [negb]; step; apply outs_one.
  - cbn [bind]. rewrite Nat.eqb_refl. cbn [negb]. step. apply outs_one.
Qed.
Definition rimesLF (l : N) (t : list N) : list Found :=
  let '(m, t1) := mark t in
  if l =n UTH_SARA_AE then fAe m t1
  else if l =n UTH_SARA_O then fO m t1
  else if l =n UTH_SARA_AI_MAIMALAI then
    (if isNext UTH_YO_YAK t1 && endOrSylb (tl t1) then [(V_A, KOEY, m, tl t1, false)] else []) ++
    [(V_A, KOEY, m, silent t1, false)]
  else if l =n UTH_SARA_AI_MAIMUAN then [(V_A, KOEY, m, silent t1, false)]
  else [].
Lemma rimesLF_ok o l t v m : Suf t -> outs o (lvPartial ct w n l (P o t v EC_NONE m)) (rimesLF l t).
Proof.
  intros H. unfold lvPartial, rimesLF. step. cbv zeta. step.
  assert (E : (if pos t <? n then readTone ct w (P o t v EC_NONE SAMAN) else Ok (P o t v EC_NONE SAMAN))
    = Ok (P o (snd (mark t)) v EC_NONE (fst (mark t)))).
  { destruct t as [|c t]; step; [reflexivity|]. apply readTone_ok. exact H. }
  rewrite E. cbn [bind]. pose proof (suf_mark t H) as Hs. destruct (mark t) as [m1 t1]. cbn [fst snd] in *.
  destruct (l =n UTH_SARA_AE); [apply fAe_ok; exact Hs|].
  destruct (l =n UTH_SARA_O); [apply fO_ok; exact Hs|].
  destruct (l =n UTH_SARA_AI_MAIMALAI).
  { unfold lvMaimalai. cbv zeta. step. rewrite nextIs_ok by suf. cbn [bind].
    assert (Y : (if isNext UTH_YO_YAK t1 then if pos t1 + 1 =? n then Ok true
             else c <- at16 w (pos t1 + 1) ;; Ok (IsSylStart ct c) else Ok false)%res
        = Ok (isNext UTH_YO_YAK t1 && endOrSylb (tl t1))).
    { destruct t1 as [|x r]; cbn [isNext tl]; [reflexivity|]. destruct (x =n UTH_YO_YAK); cbn [andb]; [|reflexivity].
      step. destruct r as [|y r]; [rewrite pos_nil, Nat.eqb_refl; reflexivity|].
      replace (pos (y :: r) =? n) with false; [|symmetry; apply Nat.eqb_neq; pose proof (pos_lt y r ltac:(suf)); lia].
      step. reflexivity. }
    rewrite Y. cbn [bind]. rewrite karanEmit_ok by suf. cbn [bind].
    destruct t1 as [|x r]; cbn [isNext tl andb app]; [apply outs_one|].
    destruct ((x =n UTH_YO_YAK) && endOrSylb r); cbn [app]; [|apply outs_one]. step. apply outs_two. }
  destruct (l =n UTH_SARA_AI_MAIMUAN); [|apply outs_nil].
  unfold lvMaimuan. step. rewrite karanEmit_ok by suf. apply outs_one.
Qed.

(** ** RU and LU *)
Definition ruInit (c : N) : Initial := mkInitial None (ruSound c) LOWS SEC_NONE None.
Definition rimesRuF (t : list N) : list Found :=
  match t with
  | [] => [(V_UE, EC_NONE, SAMAN, [], false)]
  | c :: r =>
      if (c =n UTH_LAKKHANGYAO) || (c =n UTH_SARA_AA) then [(V_UEE, EC_NONE, SAMAN, r, false)]
      else if consonant c then
        if ec_eqb EC_NONE (finalOf c) || negb (endOrSylb r) then [(V_UE, EC_NONE, SAMAN, t, false)]
        else closed (if memN c [UTH_NO_NEN; UTH_THO_THAHAN; UTH_SO_RUSI] then V_I else V_UE) SAMAN (finL [] t)
      else []
  end.
Lemma rimesRuF_ok c t : Suf (c :: t) -> outs (ruInit c) (ParseRuLu ct w (pos (c :: t)) n) (rimesRuF t).
Proof.
  intros H. unfold ParseRuLu. step. cbv zeta.
  rewrite (N.eqb_sym UTH_LU c).
  change (setTone (partial (pos t) None (if c =n UTH_LU then LA else RA) LOWS SEC_NONE V_INVALID) SAMAN)
    with (P (ruInit c) t V_INVALID EC_NONE SAMAN). step.
  destruct t as [|x t]; step; [apply outs_one|]. cbn [rimesRuF].
  rewrite (N.eqb_sym UTH_LAKKHANGYAO x), (N.eqb_sym UTH_SARA_AA x).
  destruct ((x =n UTH_LAKKHANGYAO) || (x =n UTH_SARA_AA)); [apply outs_one|].
  destruct (consonant x) eqn:Ex; [|apply outs_nil]. rewrite final_ok by exact Ex. cbn [bind].
  assert (S : (if ec_eqb EC_NONE (finalOf x) then Ok true
               else if pos t <? n then c2 <- at16 w (pos t) ;; Ok (negb (IsSylStart ct c2)) else Ok false)%res
     = Ok (ec_eqb EC_NONE (finalOf x) || negb (endOrSylb t))).
  { destruct (ec_eqb EC_NONE (finalOf x)); cbn [orb]; [reflexivity|]. destruct t as [|y t]; step; reflexivity. }
  rewrite S. cbn [bind]. destruct (_ || _); [apply outs_one|].
  destruct (memN x _); apply eatL_ok; suf.
Qed.

(** ** Initials *)
(** What [MatchInitCons] finds: an initial, or a whole implied syllable (and
    the one before it). *)
Inductive Pt :=
| Inc (o : Initial) (t : list N)
| Com (pre : option Syl) (s : EInitConsSound) (k : EInitConsClass) (v : EVowel) (t : list N).
Definition vowelOf (o : Initial) : EVowel := match oVowel o with Some v => v | None => V_INVALID end.
Definition toPartial (x : Pt) : PartialSyl :=
  match x with
  | Inc o t => P o t (vowelOf o) EC_NONE T_INVALID
  | Com pre s k v t => completePartial (pos t) pre s k v
  end.
Definition noRob (t : list N) : bool := match t with c :: _ => negb (c =n UTH_RO_RUA) | [] => true end.
Definition noLongb (t : list N) : bool :=
  match t with c :: _ => negb (UTH_LAKKHANGYAO =n c) && negb (UTH_SARA_AA =n c) | [] => true end.
Definition falseRo : list N := [UTH_CHO_CHAN; UTH_SO_SO; UTH_SO_SALA; UTH_SO_SUA].
Definition trueRoF : list N := [UTH_KHO_KHAI; UTH_KHO_KHWAI; UTH_DO_DEK; UTH_THO_THAHAN; UTH_BO_BAIMAI; UTH_PHO_PHAN; UTH_FO_FAN].
Definition trueRo : list N := [UTH_KHO_KHAI; UTH_KHO_KHWAI; UTH_DO_DEK; UTH_THO_THAHAN; UTH_BO_BAIMAI; UTH_PHO_PHAN; UTH_FO_FAN;
  UTH_KO_KAI; UTH_TO_TAO; UTH_PO_PLA].
Definition pAuu (c : N) : option Syl := Some (preAuu (soundOf c) (classOf c)).
Definition pA (c : N) : option Syl := Some (preA (soundOf c) (classOf c)).
Definition roF (lk : bool) (c : N) (t : list N) : list Pt :=
  if memN c falseRo then if lk then [] else if noRob t then [Inc (plainOf c SEC_NONE) t] else []
  else if memN c trueRoF && lk then []
  else if memN c trueRo then if noRob t then [Inc (plainOf c SEC_RA) t] else []
  else [].
Definition auraF (c : N) (t : list N) : list Pt :=
  match t with
  | [] => []
  | x :: t' =>
      if x =n UTH_RO_RUA then []
      else if startsSyl x then if memN c auraCons then [Com (pAuu c) RA LOWS V_A t] else []
      else if (UTH_SARA_I =n x) && (UTH_BO_BAIMAI =n c) then [Com (pAuu c) RA LOWS V_I t']
      else if (UTH_SARA_A =n x) && (UTH_CHO_CHAN =n c) then [Com (pAuu c) RA LOWS V_A t']
      else []
  end.
Definition laCons : list N := [UTH_KO_KAI; UTH_KHO_KHAI; UTH_KHO_KHWAI; UTH_BO_BAIMAI; UTH_PO_PLA; UTH_PHO_PHUNG; UTH_PHO_PHAN; UTH_FO_FAN].
Definition waCons : list N := [UTH_KO_KAI; UTH_KHO_KHAI; UTH_KHO_KHWAI].
Definition clustersF (lk : bool) (c d : N) (t : list N) : list Pt :=
  if d =n UTH_RO_RUA then roF lk c t ++ auraF c t
  else if d =n UTH_LO_LING then if memN c laCons && negb lk then [Inc (plainOf c SEC_LA) t] else []
  else if d =n UTH_WO_WAEN then if memN c waCons && negb lk then [Inc (plainOf c SEC_WA) t] else []
  else [].
Definition roHanb (d : N) (t : list N) : bool := if d =n UTH_RO_RUA then noRob t else true.
Definition ledOf (c d : N) : Initial :=
  mkInitial (Some c) (soundOf d) (if ic_eqb LOWS (classOf d) then classOf c else classOf d) SEC_NONE None.
Definition secondF (lk : bool) (c d : N) (t : list N) : list Pt :=
  clustersF lk c d t ++
  (if (UTH_HO_HIP =n c) && ic_eqb LOWS (classOf d) then
     if roHanb d t then [Inc (mkInitial None (soundOf d) HIGH SEC_NONE None) t] else [] else []) ++
  (if roHanb d t then [Inc (ledOf c d) t] else []) ++
  (if (UTH_BO_BAIMAI =n c) && (UTH_DO_DEK =n d) then
     match t with
     | x :: _ => if (UTH_SARA_I =n x) || (UTH_SARA_II =n x) then [Com None (soundOf c) (classOf c) V_AUU (d :: t)] else []
     | [] => []
     end
   else []).
Definition ruI (c : N) (l : option N) (s : EInitConsSound) (k : EInitConsClass) (s2 : ESecInitCons) (v : EVowel) (t : list N) : Pt :=
  Inc (mkInitial l s k s2 (Some v)) t.
Definition ruF (c : N) (t : list N) : list Pt :=
  if negb (noLongb t) then []
  else if memN c [UTH_KO_KAI; UTH_TO_TAO; UTH_THO_THAHAN; UTH_PO_PLA] then
    [Inc (mkInitial None (soundOf c) (classOf c) SEC_RA (Some V_I)) t]
  else if memN c [UTH_SO_SUA; UTH_SO_SALA] then
    [Inc (mkInitial None (soundOf c) (classOf c) SEC_NONE (Some V_I)) t;
     Inc (mkInitial (Some c) RA (classOf c) SEC_NONE (Some V_I)) t]
  else if memN c [UTH_WO_WAEN] then
    [Inc (mkInitial None (soundOf c) (classOf c) SEC_RA (Some V_UE)) t]
  else if memN c [UTH_NO_NU] then
    [Inc (mkInitial (Some c) RA LOWS SEC_NONE (Some V_UE)) t]
  else if memN c [UTH_KHO_KHWAI; UTH_PHO_PHAN] then
    (if match t with x :: _ => consonant x && negb (ec_eqb EC_NONE (finalOf x)) | [] => false end
     then [Inc (mkInitial None (soundOf c) (classOf c) SEC_RA (Some V_UE)) t]
     else [Com (pA c) RA LOWS V_UE t])
  else
    let ho := UTH_HO_HIP =n c in
    (if ho then [] else [Inc (mkInitial None (soundOf c) (classOf c) SEC_RA (Some V_I)) t])
    ++ [Inc (mkInitial (Some c) RA LOWS SEC_NONE (Some V_I)) t]
    ++ (if ho then [] else [Inc (mkInitial None (soundOf c) (classOf c) SEC_RA (Some V_UE)) t])
    ++ [Inc (mkInitial (Some c) RA LOWS SEC_NONE (Some V_UE)) t; Com (pA c) RA LOWS V_UE t].
Definition initsF (lk : bool) (t : list N) : list Pt :=
  match t with
  | [] => []
  | c :: r =>
      if consonant c then
        match r with
        | [] => []
        | d :: r2 => if consonant d then secondF lk c d r2 else if UTH_RU =n d then ruF c r2 else []
        end ++ [Inc (plainOf c SEC_NONE) r] ++
        match r with
        | x :: _ => if startsSyl x then [Com None (soundOf c) (classOf c) V_A r] else []
        | [] => []
        end
      else []
  end.

Lemma notRoAt_ok t : Suf t -> notRoAt w (pos t) n = Ok (noRob t).
Proof. intros H. unfold notRoAt. destruct t as [|c t]; step; reflexivity. Qed.
Lemma roHan_ok c d t : Suf (c :: d :: t) -> notRoHan w (pos (c :: d :: t)) n d = Ok (roHanb d t).
Proof.
  intros H. unfold notRoHan, roHanb. destruct (d =n UTH_RO_RUA); [|reflexivity]. step. apply notRoAt_ok. suf.
Qed.
Lemma clustersF_ok lk c d t : Suf (c :: d :: t) ->
  clusters ct w (pos (c :: d :: t)) n lk c d (soundOf c) (classOf c) = Ok (map toPartial (clustersF lk c d t)).
Proof.
  intros H. unfold clusters, clustersF. destruct (d =n UTH_RO_RUA).
  - unfold clusterRo. fold falseRo trueRoF trueRo. step. rewrite notRoAt_ok by suf.
    assert (A : auraPart ct w (pos (c :: d :: t)) n c (soundOf c) (classOf c) = Ok (map toPartial (auraF c t))).
    { unfold auraPart, auraF. step. destruct t as [|x t]; step; [reflexivity|].
      destruct (x =n UTH_RO_RUA); [reflexivity|]. destruct (startsSyl x).
      - destruct (memN c auraCons); reflexivity.
      - destruct (_ && _); step; [reflexivity|]. destruct (_ && _); reflexivity. }
    rewrite A. unfold roF. destruct (memN c falseRo).
    + destruct lk; [reflexivity|]. cbn [bind]. rewrite map_app. destruct (noRob t); reflexivity.
    + destruct (memN c trueRoF && lk); [reflexivity|]. destruct (memN c trueRo); [|reflexivity].
      cbn [bind]. rewrite map_app. destruct (noRob t); reflexivity.
  - unfold clusterLo, clusterWo. fold laCons waCons. step.
    destruct (d =n UTH_LO_LING); [destruct (_ && _); reflexivity|].
    destruct (d =n UTH_WO_WAEN); [destruct (_ && _); reflexivity|]. reflexivity.
Qed.
Lemma ruF_ok c d t : Suf (c :: d :: t) ->
  ruPart ct w (pos (c :: d :: t)) n c (soundOf c) (classOf c) = Ok (map toPartial (ruF c t)).
Proof.
  intros H. unfold ruPart, ruF. step.
  assert (G : (if n <=? pos t then Ok true
         else c <- at16 w (pos t) ;; Ok (negb (UTH_LAKKHANGYAO =n c) && negb (UTH_SARA_AA =n c)))%res = Ok (noLongb t)).
  { destruct t as [|x t]; step; reflexivity. }
  rewrite G. cbn [bind]. clear G. destruct (noLongb t); cbn [negb]; [|reflexivity].
  destruct (memN c _); [reflexivity|]. destruct (memN c _); [reflexivity|].
  destruct (memN c [UTH_WO_WAEN]); [reflexivity|]. destruct (memN c [UTH_NO_NU]); [reflexivity|].
  destruct (memN c _).
  - destruct t as [|x t]; step; [reflexivity|]. destruct (consonant x) eqn:Ex; cbn [andb]; [|reflexivity].
    rewrite final_ok by exact Ex. cbn [bind]. destruct (negb _); reflexivity.
  - cbv zeta. destruct (UTH_HO_HIP =n c); reflexivity.
Qed.
Lemma initsF_ok lk c t : Suf (c :: t) ->
  MatchInitCons ct w (pos (c :: t)) n lk = Ok (map toPartial (initsF lk (c :: t))).
Proof.
  intros H. unfold MatchInitCons, initsF. step. destruct (consonant c) eqn:Ec; cbn [negb]; [|reflexivity].
  rewrite sound_ok, class_ok by exact Ec. cbn [bind]. unfold secondPart, paliPart. step.
  destruct t as [|d t]; step; [reflexivity|].
  assert (E2 : (if consonant d then
      s1 <- InitConsSound d ;; k1 <- InitConsClass d ;;
      l1 <- clusters ct w (pos (c :: d :: t)) n lk c d (soundOf c) (classOf c) ;;
      l2 <- hoNam w (pos (c :: d :: t)) n c d s1 k1 ;;
      l3 <- aKung w (pos (c :: d :: t)) n d (soundOf c) (classOf c) s1 k1 ;;
      l4 <- badi w (pos (c :: d :: t)) n c d (soundOf c) (classOf c) ;;
      Ok (l1 ++ l2 ++ l3 ++ l4)
    else if UTH_RU =n d then ruPart ct w (pos (c :: d :: t)) n c (soundOf c) (classOf c) else Ok [])%res
    = Ok (map toPartial (if consonant d then secondF lk c d t else if UTH_RU =n d then ruF c t else []))).
  { destruct (consonant d) eqn:Ed.
    - rewrite sound_ok, class_ok by exact Ed. cbn [bind]. rewrite clustersF_ok by suf. cbn [bind].
      unfold hoNam, aKung, badi. rewrite roHan_ok by suf. step. unfold secondF. rewrite !map_app.
      assert (L2 : (if (UTH_HO_HIP =n c) && ic_eqb LOWS (classOf d) then
          Ok (if roHanb d t then [partial (pos t) None (soundOf d) HIGH SEC_NONE V_INVALID] else []) else Ok [])
        = Ok (map toPartial (if (UTH_HO_HIP =n c) && ic_eqb LOWS (classOf d) then
          if roHanb d t then [Inc (mkInitial None (soundOf d) HIGH SEC_NONE None) t] else [] else []))).
      { destruct (_ && _); [|reflexivity]. destruct (roHanb d t); reflexivity. }
      cbn [bind] in L2 |- *. rewrite L2. cbn [bind].
      assert (L4 : (if (UTH_BO_BAIMAI =n c) && (UTH_DO_DEK =n d) && (pos t <? n) then
          n0 <- at16 w (pos t) ;; Ok (if (UTH_SARA_I =n n0) || (UTH_SARA_II =n n0)
            then [completePartial (pos (d :: t)) None (soundOf c) (classOf c) V_AUU] else []) else Ok [])%res
        = Ok (map toPartial (if (UTH_BO_BAIMAI =n c) && (UTH_DO_DEK =n d) then
     match t with
     | x :: _ => if (UTH_SARA_I =n x) || (UTH_SARA_II =n x) then [Com None (soundOf c) (classOf c) V_AUU (d :: t)] else []
     | [] => []
     end else []))).
      { clear L2. destruct t as [|x t]; step; [rewrite andb_false_r; destruct ((UTH_BO_BAIMAI =n c) && _); reflexivity|].
        rewrite andb_true_r. destruct ((UTH_BO_BAIMAI =n c) && _); [|reflexivity]. step. destruct (_ || _); reflexivity. }
      rewrite L4. cbn [bind]. destruct (roHanb d t); reflexivity.
    - destruct (UTH_RU =n d); [|reflexivity]. apply ruF_ok. exact H. }
  rewrite E2. cbn [bind]. rewrite !map_app. destruct (startsSyl d); reflexivity.
Qed.

(** ** All rules *)
(** A reading found: the syllable before (if any), sound, class, second
    sound, vowel, final, mark, remaining letters, whether the final is shared. *)
Record RdF := mkRdF { rPre : option Syl; rSound : EInitConsSound; rClass : EInitConsClass; rSecond : ESecInitCons;
  rVowel : EVowel; rFinal : EEndConsClass; rMark : ETone; rRest : list N; rShared : bool }.
Definition toRdF (o : Initial) (x : Found) : RdF :=
  let '(v, e, m, r, b) := x in mkRdF (preOf (oLead o)) (oSound o) (oClass o) (oSecond o) v e m r b.
Definition toEm (x : RdF) : Emission :=
  mkEm (pos (rRest x)) (mkPartial (pos w) (rPre x) (rSound x) (rClass x) (rSecond x) (rVowel x) (rFinal x) (rMark x) false)
    (rShared x).
Definition norm' (e : Emission) : Emission :=
  mkEm (emPos e) (mkPartial (pos w) (preSyl (emSyl e)) (iConsSound (emSyl e)) (iConsClass (emSyl e)) (pCons2 (emSyl e))
    (pVowel (emSyl e)) (eConsClass (emSyl e)) (pTone (emSyl e)) false) (emLinked e).
Definition gives (m : Res (list Emission)) (L : list RdF) : Prop :=
  exists l, m = Ok l /\ map norm' l = map toEm L.
Lemma outs_gives o m L : outs o m L -> gives m (map (toRdF o) L).
Proof.
  intros (l & -> & E). exists l. split; [reflexivity|]. rewrite map_map.
  assert (A : map norm' l = map norm' (map norm l)) by (rewrite map_map; reflexivity).
  rewrite A, E, map_map. apply map_ext. intros ((((v & e) & m) & r) & b). reflexivity.
Qed.
Lemma gives_forPartials {A} f (g : A -> PartialSyl) (L : A -> list RdF) l :
  (forall a, In a l -> gives (f (g a)) (L a)) -> gives (forPartials f (map g l)) (flat_map L l).
Proof.
  unfold forPartials. induction l as [|a l IH]; intros H; cbn [map mapM flat_map]; [exists []; auto|].
  destruct (H a (or_introl eq_refl)) as (la & -> & Ea). cbn [bind].
  destruct IH as (l' & E & El); [intros; apply H; right; assumption|].
  destruct (mapM f (map g l)) as [r| | |]; cbn [bind] in *; try discriminate. injection E as E. subst l'.
  eexists. split; [reflexivity|]. cbn [concat]. rewrite !map_app, Ea, El. reflexivity.
Qed.
Definition thF (lk : bool) (x : Pt) : list RdF :=
  match x with
  | Inc o t => map (toRdF o) (rimesF lk o (vowelOf o) t)
  | Com pre s k v t => match t with [] => [] | _ => [mkRdF pre s k SEC_NONE v EC_NONE SAMAN t false] end
  end.
Definition eF (x : Pt) : list RdF := match x with Inc o t => map (toRdF o) (rimesEF o t) | _ => [] end.
Definition lvF (l : N) (x : Pt) : list RdF := match x with Inc o t => map (toRdF o) (rimesLF l t) | _ => [] end.
Definition readsF (lk : bool) (t : list N) : list RdF :=
  match t with
  | [] => []
  | c :: r =>
      if consonant c then flat_map (thF lk) (initsF lk t)
      else if UTH_SARA_E =n c then flat_map eF (initsF lk r)
      else if leadVowel c then flat_map (lvF c) (initsF lk r)
      else if (UTH_RU =n c) || (UTH_LU =n c) then map (toRdF (ruInit c)) (rimesRuF r)
      else []
  end.
Lemma initsF_suf lk t x : Suf t -> In x (initsF lk t) -> Suf (match x with Inc _ r => r | Com _ _ _ _ r => r end).
Proof.
  intros H. destruct t as [|c t]; cbn [initsF In]; [tauto|]. destruct (consonant c); cbn [In]; [|tauto].
  rewrite !in_app_iff. cbn [In]. intros [A|[[A|[]]|A]].
  - destruct t as [|d t]; [destruct A|]. assert (Suf t) by suf. destruct (consonant d).
    + unfold secondF, clustersF, roF, auraF in A.
      repeat (rewrite ?in_app_iff in A; cbn [In] in A; first
        [ contradiction | match type of A with _ \/ _ => destruct A as [A|A] end
        | subst x; suf
        | match type of A with In _ (if ?b then _ else _) => destruct b end
        | match type of A with In _ (match ?l with [] => _ | _ :: _ => _ end) => destruct l end ]).
    + destruct (UTH_RU =n d); [|destruct A]. unfold ruF in A. cbv zeta in A.
      repeat (rewrite ?in_app_iff in A; cbn [In] in A; first
        [ contradiction | match type of A with _ \/ _ => destruct A as [A|A] end
        | subst x; suf
        | match type of A with In _ (if ?b then _ else _) => destruct b end
        | match type of A with In _ (match ?l with [] => _ | _ :: _ => _ end) => destruct l end ]).
  - subst x. suf.
  - destruct t as [|d t]; [destruct A|]. destruct (startsSyl d); [|destruct A]. destruct A as [A|[]]. subst x. suf.
Qed.
Lemma readsF_ok lk c t : Suf (c :: t) -> (leadVowel c = true -> c <> UTH_SARA_E -> t <> []) ->
  gives (ruleEms ct w (pos (c :: t)) n lk c) (readsF lk (c :: t)).
Proof.
  intros H Hl. unfold ruleEms, readsF. rewrite isCons_eq, isLdv_eq. destruct (consonant c).
  - unfold ParseThCons. rewrite initsF_ok by exact H. cbn [bind]. apply gives_forPartials.
    intros x Hx. apply initsF_suf in Hx; [|exact H]. destruct x as [o r|pre s k v r]; cbn [toPartial thF].
    + apply outs_gives. apply rimesF_ok. exact Hx.
    + unfold thPartial. cbn [completePartial pPos isComplete]. destruct r as [|d r]; look; [exists []; auto|].
      eexists. split; reflexivity.
  - destruct (UTH_SARA_E =n c) eqn:EE.
    + unfold ParseSaraE. look. destruct t as [|d t]; look; [exists []; auto|].
      rewrite initsF_ok by suf. cbn [bind]. apply gives_forPartials.
      intros x Hx. apply initsF_suf in Hx; [|suf]. destruct x as [o r|pre s k v r]; cbn [toPartial eF].
      * apply outs_gives. apply rimesEF_ok. exact Hx.
      * exists []; auto.
    + destruct (leadVowel c) eqn:El.
      * unfold ParseOtherLV. look. destruct t as [|d t]; [exfalso|].
        { apply (Hl eq_refl); [|reflexivity]. intros ->. rewrite N.eqb_refl in EE. discriminate. }
        rewrite initsF_ok by suf. cbn [bind]. apply gives_forPartials.
        intros x Hx. apply initsF_suf in Hx; [|suf]. destruct x as [o r|pre s k v r]; cbn [toPartial lvF].
        -- apply outs_gives. apply rimesLF_ok. exact Hx.
        -- exists []; auto.
      * destruct (_ || _); [|exists []; auto]. apply outs_gives. apply rimesRuF_ok. exact H.
Qed.
End Word.

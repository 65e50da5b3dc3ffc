(** Wp.v - reasoning about outcomes: [Sat F m Q] says that [m] terminates,
    that its result satisfies [Q], and that it may fail only if [F]. *)
From Coq Require Import List NArith Bool Arith Lia.
From Verif Require Import Base ThUni ThCons Syl Parser.
Import ListNotations.

Definition Sat {A} (F : Prop) (m : Res A) (Q : A -> Prop) : Prop :=
  match m with
  | Ok a => Q a
  | Throw | UB => F
  | NoFuel => False
  end.

Lemma Sat_bind {A B} F (m : Res A) (k : A -> Res B) Q :
  Sat F m (fun a => Sat F (k a) Q) -> Sat F (bind m k) Q.
Proof. destruct m; simpl; auto. Qed.

Lemma Sat_mono {A} F (m : Res A) (P Q : A -> Prop) :
  Sat F m P -> (forall a, m = Ok a -> P a -> Q a) -> Sat F m Q.
Proof. destruct m; simpl; auto. Qed.

Lemma Sat_conj {A} F (m : Res A) (P Q : A -> Prop) :
  Sat F m P -> Sat F m Q -> Sat F m (fun a => P a /\ Q a).
Proof. destruct m; simpl; auto. Qed.

Lemma Sat_at16 F w i (Q : N -> Prop) :
  i < length w -> (forall c, nth_error w i = Some c -> Q c) ->
  Sat F (at16 w i) Q.
Proof.
  intros Hi H. unfold at16.
  destruct (nth_error w i) eqn:E; simpl; auto.
  apply nth_error_None in E. lia.
Qed.

Lemma Sat_at16' (F : Prop) w i (Q : N -> Prop) :
  (length w <= i -> F) -> (forall c, nth_error w i = Some c -> Q c) ->
  Sat F (at16 w i) Q.
Proof.
  intros Hi H. unfold at16.
  destruct (nth_error w i) eqn:E; simpl; auto.
  apply nth_error_None in E. auto.
Qed.

Lemma Sat_mapM {A B} F (f : A -> Res B) l (Q : B -> Prop) :
  (forall a, In a l -> Sat F (f a) Q) -> Sat F (mapM f l) (Forall Q).
Proof.
  induction l as [|x l IH]; intros H; cbn [mapM].
  - constructor.
  - apply Sat_bind. eapply Sat_mono; [apply H; left; reflexivity|].
    intros b _ Hb. apply Sat_bind.
    eapply Sat_mono; [apply IH; intros a Ha; apply H; right; exact Ha|].
    intros bs _ Hbs. constructor; auto.
Qed.

Lemma Sat_forPartials F f l (Q : Emission -> Prop) :
  (forall p, In p l -> Sat F (f p) (Forall Q)) ->
  Sat F (forPartials f l) (Forall Q).
Proof.
  intros H. unfold forPartials. apply Sat_bind.
  eapply Sat_mono; [apply (Sat_mapM F f l (Forall Q) H)|].
  intros r _ Hr. cbn [Sat]. apply Forall_concat. exact Hr.
Qed.

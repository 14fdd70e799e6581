(** * test/det.cpp: proofs *)

From Coq Require Import ZArith Bool List Arith.
From Verif Require Import Outcome Base Checking Interval Utility Arith Arith2 FloatNum Spec Program ExDet.

Section Shape.
Context {p : platform} {A : Type} (size : nat).
Notation N := (fnum p).
Notation prog := (prog (p := p) A).

(** Unprotected calls inside a scope only: all of them are. *)
Lemma over_scoped {S} inside body l : (forall i (s : S) k, (forall s, scoped (p := p) (A := A) inside (k s)) -> scoped inside (body i s k)) ->
  forall s k, (forall s, scoped inside (k s)) -> scoped inside (over l body s k).
Proof.
  intros H. induction l as [|i l IH]; intros s k K; cbn [over]; [apply K|]. apply H. intros s'. apply IH, K.
Qed.
Lemma det_scoped b inside (mat : matrix (p := p)) (k : matrix -> prog) : b = true \/ inside = true ->
  (forall m, scoped inside (k m)) -> scoped inside (det b size mat k).
Proof.
  intros Hb K. unfold det, det_init.
  apply over_scoped. { intros i s k0 K0. apply over_scoped; auto. intros j s' k1 K1. cbn [scoped]. auto 10. }
  intros m. revert m k K. induction (seq 0 (size - 1)) as [|i l IH]; intros m k K; cbn [det_steps]; [apply K|].
  unfold det_pivot. apply over_scoped.
  { intros a s k0 K0. apply over_scoped; auto. intros c s' k1 K1. cbn [scoped]. auto 10. }
  intros mnv. unfold det_eliminate. apply over_scoped.
  { intros j s k0 K0. cbn [scoped]. split; [exact Hb|]. intros f. apply over_scoped; auto.
    intros q s' k1 K1. cbn [scoped]. auto 10. }
  intros m'. cbn [scoped]. split; [exact Hb|]. intros [|]; [apply K|apply IH, K].
Qed.

(** No call of fmod. *)
Context (P : policy N).
Lemma over_tame {S} body l : (forall i (s : S) k, (forall s, tame_prog (p := p) (A := A) P (k s)) -> tame_prog P (body i s k)) ->
  forall s k, (forall s, tame_prog P (k s)) -> tame_prog P (over l body s k).
Proof.
  intros H. induction l as [|i l IH]; intros s k K; cbn [over]; [apply K|]. apply H. intros s'. apply IH, K.
Qed.
Lemma det_tame b (mat : matrix (p := p)) (k : matrix -> prog) :
  (forall m, tame_prog P (k m)) -> tame_prog P (det b size mat k).
Proof.
  intros K. unfold det, det_init.
  apply over_tame. { intros i s k0 K0. apply over_tame; auto. intros j s' k1 K1. cbn [tame_prog tame]. auto 12. }
  intros m. revert m k K. induction (seq 0 (size - 1)) as [|i l IH]; intros m k K; cbn [det_steps]; [apply K|].
  unfold det_pivot. apply over_tame.
  { intros a s k0 K0. apply over_tame; auto. intros c s' k1 K1. cbn [tame_prog tame]. auto 12. }
  intros mnv. unfold det_eliminate. apply over_tame.
  { intros j s k0 K0. cbn [tame_prog tame]. split; [auto|]. intros f _ _ _. apply over_tame; auto.
    intros q s' k1 K1. cbn [tame_prog tame]. auto 12. }
  intros m'. cbn [tame_prog tame]. split; [auto|]. intros [|] _ _ _; [apply K|apply IH, K].
Qed.

(** The two texts differ in the type their calls go through. *)
Definition alike (m m' : prog) : Prop := forall s, exec_protected P m s = exec P m' s.
Lemma call_alike {B} (c : call B) (k k' : B -> prog) : (forall x, alike (k x) (k' x)) ->
  alike (Call false c k) (Call true c k').
Proof.
  intros H s. cbn [exec exec_protected]. unfold bind. destruct (run_call P c s) as [[x| | | |] s1]; try reflexivity. apply H.
Qed.
Lemma over_alike {S} body body' l :
  (forall i (s : S) k k', (forall s, alike (k s) (k' s)) -> alike (body i s k) (body' i s k')) ->
  forall s k k', (forall s, alike (k s) (k' s)) -> alike (over l body s k) (over l body' s k').
Proof.
  intros H. induction l as [|i l IH]; intros s k k' K; cbn [over]; [apply K|]. apply H. intros s'. apply IH, K.
Qed.
Lemma det_alike (mat : matrix (p := p)) (k k' : matrix -> prog) : (forall m, alike (k m) (k' m)) ->
  alike (det false size mat k) (det true size mat k').
Proof.
  intros K. unfold det, det_init.
  apply over_alike.
  { intros i s k0 k0' K0. apply over_alike; auto. intros j s' k1 k1' K1.
    apply call_alike; intros x. apply call_alike; intros y. apply call_alike; intros q. apply K1. }
  intros m. revert m k k' K. induction (seq 0 (size - 1)) as [|i l IH]; intros m k k' K; cbn [det_steps]; [apply K|].
  unfold det_pivot. apply over_alike.
  { intros a s k0 k0' K0. apply over_alike; auto. intros c s' k1 k1' K1.
    apply call_alike; intros x. apply K1. }
  intros mnv. unfold det_eliminate. apply over_alike.
  { intros j s k0 k0' K0. apply call_alike; intros f. apply over_alike; auto.
    intros q s' k1 k1' K1. apply call_alike; intros x. apply call_alike; intros y. apply K1. }
  intros m'. apply call_alike. intros [|]; [apply K|apply IH, K].
Qed.
End Shape.

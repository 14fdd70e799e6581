(** * The recursion budget of cos does not matter once it suffices *)

From Coq Require Import Reals ZArith Bool.
From Verif Require Import Outcome Base Checking Interval Utility Arith Arith2 Spec Transc.

(** [m'] does what [m] does, unless [m] runs out of fuel. *)
Definition refines {A} (m m' : M A) : Prop := forall s, fst (m s) <> NoFuel -> m' s = m s.
Lemma refines_refl {A} (m : M A) : refines m m.
Proof. intros s _. reflexivity. Qed.
Lemma refines_bind {A B} (m m' : M A) (k k' : A -> M B) :
  refines m m' -> (forall a, refines (k a) (k' a)) -> refines (bind m k) (bind m' k').
Proof.
  intros Rm Rk s. unfold bind. specialize (Rm s). destruct (m s) as [o s1]; cbn [fst] in Rm.
  destruct o as [a|e| | |]; cbn [fst]; intros Hn; try (rewrite Rm by discriminate; reflexivity).
  - rewrite Rm by discriminate. apply Rk. exact Hn.
  - congruence.
Qed.
Lemma refines_k {A B} (m : M A) (k k' : A -> M B) : (forall a, refines (k a) (k' a)) -> refines (bind m k) (bind m k').
Proof. apply refines_bind, refines_refl. Qed.
Lemma refines_rnd {N} (P : policy N) {A} (b b' : M A) : refines b b' -> refines (with_rnd P b) (with_rnd P b').
Proof.
  intros Rb. unfold with_rnd. destruct (p_prot P); try exact Rb.
  apply refines_k; intros m. apply refines_k; intros _. intros s. specialize (Rb s).
  destruct (b s) as [o s1]; cbn [fst] in Rb. destruct o; cbn [fst]; intros Hn; try (rewrite Rb by discriminate; reflexivity).
  congruence.
Qed.
Lemma refines_args {N} o (m : M (T N)) (k k' : M (T N)) : refines k k' -> refines (mk_args o m k) (mk_args o m k').
Proof.
  intros Rk. unfold mk_args, args2. destruct o; (apply refines_bind; [|intros; apply refines_refl]).
  - apply refines_k; intros a. apply refines_bind; [exact Rk|intros; apply refines_refl].
  - apply refines_bind; [exact Rk|intros; apply refines_refl].
Qed.

Lemma cos_more {N} (K : consts N) (R : transc N) fuel : forall P x, refines (t_cos K R fuel P x) (t_cos K R (S fuel) P x).
Proof.
  induction fuel as [|fuel IH]; intros P x; [intros s Hn; cbn in Hn; congruence|].
  cbn [t_cos]. destruct test_input_i; [apply refines_refl|]. apply refines_rnd. cbv zeta.
  apply refines_k; intros pi2. apply refines_k; intros tmp. apply refines_k; intros w.
  destruct n_ge; [apply refines_refl|]. apply refines_k; intros pu. destruct n_ge; [|apply refines_refl].
  apply refines_k; intros pi. apply refines_k; intros d. apply refines_bind; [apply IH|intros; apply refines_refl].
Qed.
Lemma sin_more {N} (K : consts N) (R : transc N) fuel P x : refines (t_sin K R fuel P x) (t_sin K R (S fuel) P x).
Proof.
  unfold t_sin. destruct test_input_i; [apply refines_refl|]. apply refines_rnd. cbv zeta.
  apply refines_k; intros h. apply refines_k; intros d. apply refines_bind; [apply cos_more|intros; apply refines_refl].
Qed.
Lemma refines_returns {A} (f : nat -> M A) n z : (forall k, refines (f k) (f (S k))) ->
  returns (f n) z -> forall m, (n <= m)%nat -> returns (f m) z.
Proof.
  intros Hf Rn m L. induction L as [|m L IH]; auto. intros s. rewrite Hf; [apply IH|]. rewrite IH. discriminate.
Qed.

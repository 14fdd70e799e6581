(** * Expressions with transcendental functions

    The expressions of Ops.v, with calls of exp, log, sin, cos, tan, asin, acos,
    atan, sinh, cosh, tanh, asinh, acosh and atanh (transc.hpp) at any place. *)

From Coq Require Import Reals ZArith Lra Lia Bool.
From Flocq Require Import Core BinarySingleNaN.
From Verif Require Import Outcome Base Checking Interval Utility Arith Arith2 FloatNum Spec ExtR Sem
  FloatSpec FloatPol Inst Ops OpsProof Transc SpecTransc FloatTrans RefLib Properties10.
Local Open Scope R_scope.

Section TExpr.
Context (N : num).
Inductive texpr :=
| x_var (n : nat)
| x_num (v : T N)
| x_1 (o : op1) (e : texpr)
| x_2 (o : op2) (e1 e2 : texpr)
| x_in (o : op2) (e : texpr) (v : T N)
| x_ni (o : op2) (v : T N) (e : texpr)
| x_nn (o : opn) (v w : T N)
| x_intersect (e1 e2 : texpr)
| x_widen (e : texpr) (v : T N)
| x_call (f : tfun) (e : texpr).

(** [eo] resolves the unspecified order in which the operands of each node are
    evaluated. *)
Fixpoint teval (P : policy N) (K : consts N) (RR : transc N) (fuel : nat) (eo : texpr -> bool) (env : nat -> itv N)
  (e : texpr) : M (itv N) :=
  match e with
  | x_var n => ret (env n)
  | x_num v => ctor_num P v
  | x_1 o e1 => let! x := teval P K RR fuel eo env e1 in run1 P o x
  | x_2 o e1 e2 =>
      let! xy := args2 (eo e) (teval P K RR fuel eo env e1) (teval P K RR fuel eo env e2) in run2 P o (fst xy) (snd xy)
  | x_in o e1 v => let! x := teval P K RR fuel eo env e1 in run_in P o x v
  | x_ni o v e1 => let! x := teval P K RR fuel eo env e1 in run_ni P o v x
  | x_nn o v w => run_nn P o v w
  | x_intersect e1 e2 =>
      let! xy := args2 (eo e) (teval P K RR fuel eo env e1) (teval P K RR fuel eo env e2) in intersect P (fst xy) (snd xy)
  | x_widen e1 v => let! x := teval P K RR fuel eo env e1 in widen P x v
  | x_call f e1 => let! x := teval P K RR fuel eo env e1 in call f K RR fuel P x
  end.

(** The values of the expression when variable n is the real [rho n]. *)
Fixpoint tmeans (val : T N -> ext) (e : texpr) (rho : nat -> R) (t : R) : Prop :=
  match e with
  | x_var n => t = rho n
  | x_num v => val v = Fin t
  | x_1 o e1 => exists r, tmeans val e1 rho r /\ rel1 o r t
  | x_2 o e1 e2 => exists r s, tmeans val e1 rho r /\ tmeans val e2 rho s /\ rel2 o r s t
  | x_in o e1 v => exists r s, tmeans val e1 rho r /\ val v = Fin s /\ rel2 o r s t
  | x_ni o v e1 => exists r s, val v = Fin r /\ tmeans val e1 rho s /\ rel2 o r s t
  | x_nn o v w => exists r s, val v = Fin r /\ val w = Fin s /\ rel2 (op_of o) r s t
  | x_intersect e1 e2 => tmeans val e1 rho t /\ tmeans val e2 rho t
  | x_widen e1 v => exists r s, tmeans val e1 rho r /\ val v = Fin s /\ Rabs (t - r) <= s
  | x_call f e1 => exists r, tmeans val e1 rho r /\ graph f r t
  end.
(** As [proper] (Ops.v), with functions out of [ok] only. *)
Fixpoint tproper (val : T N -> ext) (ok : tfun -> Prop) (e : texpr) : Prop :=
  match e with
  | x_var _ => True
  | x_num v => is_fin (val v)
  | x_1 o e1 => match o with U_pow n => (int_min < n <= int_max)%Z | _ => True end /\ tproper val ok e1
  | x_2 _ e1 e2 => tproper val ok e1 /\ tproper val ok e2
  | x_in _ e1 v => tproper val ok e1 /\ is_fin (val v)
  | x_ni _ v e1 => tproper val ok e1 /\ is_fin (val v)
  | x_nn _ v w => is_fin (val v) /\ is_fin (val w)
  | x_intersect e1 e2 => tproper val ok e1 /\ tproper val ok e2
  | x_widen e1 v => tproper val ok e1 /\ exists s, val v = Fin s /\ 0 <= s
  | x_call f e1 => ok f /\ tproper val ok e1
  end.
End TExpr.
Arguments x_var {N} n.
Arguments x_num {N} v.
Arguments x_1 {N} o e.
Arguments x_2 {N} o e1 e2.
Arguments x_in {N} o e v.
Arguments x_ni {N} o v e.
Arguments x_nn {N} o v w.
Arguments x_intersect {N} e1 e2.
Arguments x_widen {N} e v.
Arguments x_call {N} f e.
Arguments teval {N} P K RR fuel eo env e.
Arguments tmeans {N} val e rho t.
Arguments tproper {N} val ok e.

Section Proof.
Context (p : platform) (k : rkind) (debug : bool) (c : ckind) (ord : site -> bool).
Notation N := (fnum p).
Notation P := (fpol p Save k debug c ord).
Notation I := (itv N).
Context (K : consts N) (RR : transc N) (fuel : nat) (ok : tfun -> Prop).
Hypothesis calls : forall f (x : I) r t, ok f -> fmem x r -> graph f r t ->
  exists z, returns (call f K RR fuel P x) z /\ fmem z t.

Lemma teval_contains eo (env : nat -> I) (rho : nat -> R) : (forall n, fmem (env n) (rho n)) ->
  forall (e : texpr N) t, tproper (fval : T N -> ext) ok e -> tmeans (fval : T N -> ext) e rho t ->
  exists z, returns (teval P K RR fuel eo env e) z /\ fmem z t.
Proof.
  intros Henv. induction e as [n|v|o e IH|o e1 IH1 e2 IH2|o e IH v|o v e IH|o v w|e1 IH1 e2 IH2|e IH v|f e IH];
    intros t Wf Ht; cbn [teval]; simpl in Wf, Ht.
  - subst t. exists (env n). split; [intros s; reflexivity|apply Henv].
  - destruct Wf as (r & Er). assert (r = t) by congruence. subst r.
    exact (use _ _ _ _ t (num_correct p k debug c ord v t Er) eq_refl).
  - destruct Wf as (Wo & We), Ht as (r & Hr & Hrel). destruct (IH r We Hr) as (x & Rx & Mx).
    destruct (use _ _ _ _ t (run1_correct p k debug c ord o x Wo (mem_fvalid _ _ _ Mx))) as (z & Rz & Mz); [exists r; auto|].
    exists z. split; [eapply returns_bind; eauto|exact Mz].
  - destruct Wf as (W1 & W2), Ht as (r & s & Hr & Hs & Hrel).
    destruct (IH1 r W1 Hr) as (x & Rx & Mx). destruct (IH2 s W2 Hs) as (y & Ry & My).
    destruct (use _ _ _ _ t (run2_correct p k debug c ord o x y (mem_fvalid _ _ _ Mx) (mem_fvalid _ _ _ My))) as (z & Rz & Mz); [exists r, s; auto|].
    exists z. split; [eapply returns_bind; [apply returns_args2; eauto|exact Rz]|exact Mz].
  - destruct Wf as (We & Wv), Ht as (r & s & Hr & Hs & Hrel). destruct (IH r We Hr) as (x & Rx & Mx).
    destruct (use _ _ _ _ t (run_in_correct p k debug c ord o x v s Hs (mem_fvalid _ _ _ Mx))) as (z & Rz & Mz);
      [exists r, s; split; [exact Mx|split; [reflexivity|exact Hrel]]|].
    exists z. split; [eapply returns_bind; eauto|exact Mz].
  - destruct Wf as (We & Wv), Ht as (r & s & Hr & Hs & Hrel). destruct (IH s We Hs) as (x & Rx & Mx).
    destruct (use _ _ _ _ t (run_ni_correct p k debug c ord o v x r Hr (mem_fvalid _ _ _ Mx))) as (z & Rz & Mz);
      [exists r, s; split; [reflexivity|split; [exact Mx|exact Hrel]]|].
    exists z. split; [eapply returns_bind; eauto|exact Mz].
  - destruct Ht as (r & s & Hr & Hs & Hrel). exact (use _ _ _ _ t (run_nn_correct p k debug c ord o v w r s Hr Hs) Hrel).
  - destruct Wf as (W1 & W2), Ht as (H1 & H2).
    destruct (IH1 t W1 H1) as (x & Rx & Mx). destruct (IH2 t W2 H2) as (y & Ry & My).
    destruct (use _ _ _ _ t (intersect_correct p k debug c ord x y (mem_fvalid _ _ _ Mx) (mem_fvalid _ _ _ My)) (conj Mx My)) as (z & Rz & Mz).
    exists z. split; [eapply returns_bind; [apply returns_args2; eauto|exact Rz]|exact Mz].
  - destruct Wf as (We & s' & Es & Ps), Ht as (r & s & Hr & Hs & Hrel). assert (s' = s) by congruence. subst s'.
    destruct (IH r We Hr) as (x & Rx & Mx).
    destruct (use _ _ _ _ t (widen_correct p k debug c ord x v s (mem_fvalid _ _ _ Mx) Hs Ps)) as (z & Rz & Mz); [exists r; auto|].
    exists z. split; [eapply returns_bind; eauto|exact Mz].
  - destruct Wf as (Wo & We), Ht as (r & Hr & Hrel). destruct (IH r We Hr) as (x & Rx & Mx).
    destruct (calls f x r t Wo Mx Hrel) as (z & Rz & Mz). exists z. split; [eapply returns_bind; eauto|exact Mz].
Qed.
End Proof.

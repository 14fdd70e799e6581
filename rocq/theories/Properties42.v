(** * More on C67: inclusion isotonicity of expressions that have a value, atanh included *)

From Coq Require Import Reals ZArith Lra Lia Bool.
From Flocq Require Import Core BinarySingleNaN.
From Verif Require Import Outcome Base Checking Interval Utility Arith Arith2 FloatNum Spec ExtR Sem
  FloatSpec FloatPol FloatInt CoreArith CoreUtil Inst Witness CoreCtor Ops OpsProof OpsIso Properties1 Properties2
  Transc SpecTransc TransReal CoreTransc CoreTrig TightTransc
  FloatConst FloatTrans RefLib Properties10 ExprT ExTransc Properties21 Properties22 Properties36.
Local Open Scope R_scope.

Section IsoD.
Context (p : platform) (k : rkind) (debug : bool) (c : ckind) (ord : site -> bool).
Notation N := (fnum p).
Notation P := (fpol p Save k debug c ord).
Notation I := (itv N).
Notation ok := (ok_interval (p := p) c).
Context (K : consts N) (RR : transc N) (fuel : nat).
Hypothesis KB : half_best (val := (fval : T N -> ext)) (K := K) /\ pi_best (val := (fval : T N -> ext)) (K := K).
Hypothesis DD : forall f, down_rnd (N := N) (val := fval) (ready := fready k) (R := RR) f.
Hypothesis UU : forall f, up_rnd (N := N) (val := fval) (ready := fready k) (R := RR) f.

Lemma mem_ok (x : I) r : fmem x r -> ok x.
Proof. intros H. left. exact (mem_fvalid p x r H). Qed.
(** From a step on outcomes to a step on results. *)
Lemma fin (m m' : M I) z t : (exists o o', res p c m o /\ res p c m' o' /\ leO p o o') -> returns m z -> fmem z t ->
  exists z', returns m' z' /\ fmem z t /\ sub p z z'.
Proof.
  intros (o & o' & Ro & Ro' & L) R Mt. destruct o as [w|].
  - destruct Ro as [Ro _]. destruct o' as [w'|]; [|destruct L]. destruct Ro' as [Ro' _].
    exists w'. split; [exact Ro'|]. split; [exact Mt|]. rewrite (returns_det _ _ _ R Ro). exact L.
  - destruct Ro as [Ro _]. pose proof (eq_trans (eq_sym (R RNE)) (Ro RNE)). discriminate.
Qed.
Lemma call_step f (x x' : I) r t : ~ reducible f -> fmem x r -> graph f r t -> sub p x x' ->
  exists z z', returns (call f K RR fuel P x) z /\ returns (call f K RR fuel P x') z' /\ fmem z t /\ sub p z z'.
Proof.
  intros F M G S.
  destruct (call_tight p k debug c ord K RR fuel KB DD UU f x F (mem_fvalid p x r M)) as (z & R & T); [exists r, t; auto|].
  destruct (call_tight p k debug c ord K RR fuel KB DD UU f x' F (mem_fvalid p x' r (S r M))) as (z' & R' & T'); [exists r, t; auto|].
  exists z, z'. split; [exact R|]. split; [exact R'|]. split; [apply (tight_encloses p z _ T); exists r; auto|].
  eapply tight_sub; [exact T|exact (tight_encloses p _ _ T')|]. intros q (q' & Mq & Gq). exists q'. auto.
Qed.

Lemma teval_iso_defined eo eo' (env env' : nat -> I) rho : (forall n, fmem (env n) (rho n)) ->
  (forall n, sub p (env n) (env' n)) ->
  forall (e : texpr N) t, tproper (N := N) fval (fun f => ~ reducible f) e -> tmeans (fval : T N -> ext) e rho t ->
  exists z z', returns (teval P K RR fuel eo env e) z /\ returns (teval P K RR fuel eo' env' e) z' /\ fmem z t /\ sub p z z'.
Proof.
  intros Henv Se. induction e as [n|v|o e IH|o e1 IH1 e2 IH2|o e IH v|o v e IH|o v w|e1 IH1 e2 IH2|e IH v|f e IH];
    intros t Wf Ht; cbn [teval]; simpl in Wf, Ht.
  - subst t. exists (env n), (env' n). split; [intros s; reflexivity|]. split; [intros s; reflexivity|]. split; [apply Henv|apply Se].
  - destruct (use _ _ _ _ t (num_correct p k debug c ord v t Ht) eq_refl) as (z & R & Mz).
    exists z, z. split; [exact R|]. split; [exact R|]. split; [exact Mz|]. intros r Hr; exact Hr.
  - destruct Wf as (Wo & We), Ht as (r & Hr & Hrel). destruct (IH r We Hr) as (x & x' & Rx & Rx' & Mx & Sx).
    destruct (use _ _ _ _ t (run1_correct p k debug c ord o x Wo (mem_fvalid _ _ _ Mx))) as (z & Rz & Mz); [exists r; auto|].
    destruct (fin _ _ z t (iso1 p k debug c ord o x x' Wo (mem_ok x r Mx) (mem_ok x' r (Sx r Mx)) Sx) Rz Mz) as (z' & Rz' & _ & Sz).
    exists z, z'. split; [eapply returns_bind; eauto|]. split; [eapply returns_bind; eauto|]. auto.
  - destruct Wf as (W1 & W2), Ht as (r & s & Hr & Hs & Hrel).
    destruct (IH1 r W1 Hr) as (x & x' & Rx & Rx' & Mx & Sx). destruct (IH2 s W2 Hs) as (y & y' & Ry & Ry' & My & Sy).
    destruct (use _ _ _ _ t (run2_correct p k debug c ord o x y (mem_fvalid _ _ _ Mx) (mem_fvalid _ _ _ My))) as (z & Rz & Mz); [exists r, s; auto|].
    destruct (fin _ _ z t (iso2 p k debug c ord o x x' y y' (mem_ok x r Mx) (mem_ok x' r (Sx r Mx)) (mem_ok y s My) (mem_ok y' s (Sy s My)) Sx Sy) Rz Mz) as (z' & Rz' & _ & Sz).
    exists z, z'. split; [eapply returns_bind; [apply returns_args2; eauto|exact Rz]|].
    split; [eapply returns_bind; [apply returns_args2; eauto|exact Rz']|]. auto.
  - destruct Wf as (We & Wv), Ht as (r & s & Hr & Hs & Hrel). destruct (IH r We Hr) as (x & x' & Rx & Rx' & Mx & Sx).
    destruct (use _ _ _ _ t (run_in_correct p k debug c ord o x v s Hs (mem_fvalid _ _ _ Mx))) as (z & Rz & Mz);
      [exists r, s; split; [exact Mx|split; [reflexivity|exact Hrel]]|].
    destruct (fin _ _ z t (iso_in p k debug c ord o v x x' s Hs (mem_ok x r Mx) (mem_ok x' r (Sx r Mx)) Sx) Rz Mz) as (z' & Rz' & _ & Sz).
    exists z, z'. split; [eapply returns_bind; eauto|]. split; [eapply returns_bind; eauto|]. auto.
  - destruct Wf as (We & Wv), Ht as (r & s & Hr & Hs & Hrel). destruct (IH s We Hs) as (x & x' & Rx & Rx' & Mx & Sx).
    destruct (use _ _ _ _ t (run_ni_correct p k debug c ord o v x r Hr (mem_fvalid _ _ _ Mx))) as (z & Rz & Mz);
      [exists r, s; split; [reflexivity|split; [exact Mx|exact Hrel]]|].
    destruct (fin _ _ z t (iso_ni p k debug c ord o v x x' r Hr (mem_ok x s Mx) (mem_ok x' s (Sx s Mx)) Sx) Rz Mz) as (z' & Rz' & _ & Sz).
    exists z, z'. split; [eapply returns_bind; eauto|]. split; [eapply returns_bind; eauto|]. auto.
  - destruct Ht as (r & s & Hr & Hs & Hrel).
    destruct (use _ _ _ _ t (run_nn_correct p k debug c ord o v w r s Hr Hs) Hrel) as (z & R & Mz).
    exists z, z. split; [exact R|]. split; [exact R|]. split; [exact Mz|]. intros q Hq; exact Hq.
  - destruct Wf as (W1 & W2), Ht as (H1 & H2).
    destruct (IH1 t W1 H1) as (x & x' & Rx & Rx' & Mx & Sx). destruct (IH2 t W2 H2) as (y & y' & Ry & Ry' & My & Sy).
    destruct (use _ _ _ _ t (intersect_correct p k debug c ord x y (mem_fvalid _ _ _ Mx) (mem_fvalid _ _ _ My)) (conj Mx My)) as (z & Rz & Mz).
    destruct (fin _ _ z t (iso_intersect p k debug c ord x x' y y' (mem_ok x t Mx) (mem_ok x' t (Sx t Mx)) (mem_ok y t My) (mem_ok y' t (Sy t My)) Sx Sy) Rz Mz) as (z' & Rz' & _ & Sz).
    exists z, z'. split; [eapply returns_bind; [apply returns_args2; eauto|exact Rz]|].
    split; [eapply returns_bind; [apply returns_args2; eauto|exact Rz']|]. auto.
  - destruct Wf as (We & s' & Es & Ps), Ht as (r & s & Hr & Hs & Hrel). assert (s' = s) by congruence. subst s'.
    destruct (IH r We Hr) as (x & x' & Rx & Rx' & Mx & Sx).
    destruct (use _ _ _ _ t (widen_correct p k debug c ord x v s (mem_fvalid _ _ _ Mx) Hs Ps)) as (z & Rz & Mz); [exists r; auto|].
    destruct (fin _ _ z t (iso_widen p k debug c ord x x' v s Hs Ps (mem_ok x r Mx) (mem_ok x' r (Sx r Mx)) Sx) Rz Mz) as (z' & Rz' & _ & Sz).
    exists z, z'. split; [eapply returns_bind; eauto|]. split; [eapply returns_bind; eauto|]. auto.
  - destruct Wf as (Wo & We), Ht as (r & Hr & Hrel). destruct (IH r We Hr) as (x & x' & Rx & Rx' & Mx & Sx).
    destruct (call_step f x x' r t Wo Mx Hrel Sx) as (z & z' & Rz & Rz' & Mz & Sz).
    exists z, z'. split; [eapply returns_bind; eauto|]. split; [eapply returns_bind; eauto|]. auto.
Qed.
End IsoD.

(** If the expression has a value at some point [rho] of the smaller operands,
    both evaluations return and the results are nested; atanh is allowed. *)
Theorem C67_isotone_defined_partial : forall p debug c ord (L : libm (fnum p)) K m0 fuel eo eo' (env env' : nat -> itv (fnum p)) e rho t,
  ((p = float_sse \/ p = float_x87) /\ K = consts_float p m0) \/ ((p = double_sse \/ p = double_x87) /\ K = consts_double p m0) ->
  lib_rounds L ->
  (forall n, fmem (env n) (rho n)) -> (forall n, inside (env n) (env' n)) ->
  tproper (N := fnum p) fval (fun f => f <> Fsin /\ f <> Fcos /\ f <> Ftan) e -> tmeans (fval : T (fnum p) -> ext) e rho t ->
  exists z z', returns (teval (P_ p Std debug c ord) K (transc_std (control_hw (fnum p)) L) fuel eo env e) z /\
    returns (teval (P_ p Std debug c ord) K (transc_std (control_hw (fnum p)) L) fuel eo' env' e) z' /\ fmem z t /\ inside z z'.
Proof.
  intros p debug c ord L K m0 fuel eo eo' env env' e rho t Hp HL Hr S W Ht.
  apply (teval_iso_defined p Std debug c ord K _ fuel (best_constants p K m0 Hp)) with (rho := rho); auto.
  - intros f. apply std_down; auto.
  - intros f. apply std_up; auto.
  - clear - W. induction e; simpl in *; intuition. unfold reducible in *. intuition.
Qed.
Print Assumptions C67_isotone_defined_partial.
Theorem C67_isotone_defined_mpfr_partial : forall p debug c ord (M : mpfr p) m0 fuel eo eo' (env env' : nat -> itv (fnum p)) e rho t,
  p = double_sse \/ p = double_x87 -> mpfr_ok M ->
  (forall n, fmem (env n) (rho n)) -> (forall n, inside (env n) (env' n)) ->
  tproper (N := fnum p) fval (fun f => f <> Fsin /\ f <> Fcos /\ f <> Ftan) e -> tmeans (fval : T (fnum p) -> ext) e rho t ->
  exists z z', returns (teval (P_ p Opp debug c ord) (consts_double p m0) (full_rounding M) fuel eo env e) z /\
    returns (teval (P_ p Opp debug c ord) (consts_double p m0) (full_rounding M) fuel eo' env' e) z' /\ fmem z t /\ inside z z'.
Proof.
  intros p debug c ord M m0 fuel eo eo' env env' e rho t Hp HM Hr S W Ht.
  apply (teval_iso_defined p Opp debug c ord (consts_double p m0) _ fuel (best_constants p _ m0 (or_intror (conj Hp eq_refl)))) with (rho := rho); auto.
  - intros f. apply full_down; auto.
  - intros f. apply full_up; auto.
  - clear - W. induction e; simpl in *; intuition. unfold reducible in *. intuition.
Qed.
Print Assumptions C67_isotone_defined_mpfr_partial.

(** exp(atanh(x)) on [0,1] and on [-1,1]: the value at 0 is 1. *)
Definition atanh_expr : texpr (fnum double_sse) := x_call Fexp (x_call Fatanh (x_var 0)).
Example C67_defined_case : lib_rounds (ref_lib double_sse) /\
  (forall n : nat, fmem (di 0 1) 0) /\ inside (di 0 1) (di (-1) 1) /\
  tproper (N := fnum double_sse) fval (fun f => f <> Fsin /\ f <> Fcos /\ f <> Ftan) atanh_expr /\
  tmeans (fval : T (fnum double_sse) -> ext) atanh_expr (fun _ => 0) 1.
Proof.
  split; [apply ref_lib_rounds|]. split; [intros _; apply di_mem; [lia|lia|lra]|].
  split; [intros r H; apply di_mem in H; [|lia|lia]; apply di_mem; [lia|lia|lra]|].
  split; [cbn; repeat split; discriminate|].
  exists 0. split.
  - exists 0. split; [reflexivity|]. cbn. rewrite Ropp_0, exp_0. lra.
  - cbn. rewrite exp_0. reflexivity.
Qed.

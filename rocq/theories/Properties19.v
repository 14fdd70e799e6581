(** * C64: expressions with transcendental functions *)

From Coq Require Import Reals ZArith Lra Lia Bool.
From Flocq Require Import Core BinarySingleNaN.
From Verif Require Import Outcome Base Checking Interval Utility Arith Arith2 FloatNum Spec ExtR Sem
  FloatSpec FloatPol FloatInt Inst Witness Ops OpsProof Transc SpecTransc FloatTrans RefLib Properties10 ExprT.
Local Open Scope R_scope.

(** With the class rounded_transc_std: all fourteen functions.  [lib_ok]: the C
    library honours the rounding mode; [tproper]: number operands are finite,
    exponents are ints above INT_MIN. *)
Theorem C64_fundamental : forall p debug c ord (L : libm (fnum p)) K fuel eo (env : nat -> itv (fnum p)) (rho : nat -> R) e t,
  lib_ok L -> constants_for p K -> rint_ok p -> (2 <= fuel)%nat ->
  (forall n, fmem (env n) (rho n)) -> tproper (N := fnum p) fval (fun _ => True) e -> tmeans (N := fnum p) fval e rho t ->
  exists z, returns (teval (fpol p Save Std debug c ord) K (transc_std (control_hw (fnum p)) L) fuel eo env e) z /\ fvalid z /\ fmem z t.
Proof.
  intros p debug c ord L K fuel eo env rho e t HL HK HW HF He Wf Mt.
  destruct (teval_contains p Std debug c ord K (transc_std (control_hw (fnum p)) L) fuel (fun _ => True)) with (eo := eo) (env := env) (rho := rho) (e := e) (t := t)
    as (z & Rz & Mz); try assumption.
  - intros f x r t0 _ Mx G. assert (Vx : fvalid x) by exact (mem_fvalid p x r Mx).
    assert (D : somewhere_defined f x) by (exists r, t0; split; assumption).
    assert (Q : (f = Fsin \/ f = Fcos) \/ f = Ftan \/ (f <> Fsin /\ f <> Fcos /\ f <> Ftan)).
    { destruct f; (left; left; reflexivity) || (left; right; reflexivity) || (right; left; reflexivity) || (right; right; repeat split; discriminate). }
    destruct Q as [Q|[->|(Q1 & Q2 & Q3)]].
    + destruct (C47_cos_sin p Std debug c ord L K f x HL HK HW Q Vx) as (z & Rz & _ & Cz).
      exists z. split; [exact (Rz fuel HF)|exact (Cz r t0 Mx G)].
    + destruct (C47_tan p debug c ord L K x HL HK HW Vx) as (z & Rz & Cz & _). exists z. split; [exact Rz|exact (Cz r t0 Mx G)].
    + destruct (C46_values p debug c ord L K fuel f x HL HK Q1 Q2 Q3 Vx D) as (z & Rz & _ & Cz). exists z. split; [exact Rz|exact (Cz r t0 Mx G)].
  - exists z. split; [exact Rz|]. split; [exact (mem_fvalid p z t Mz)|exact Mz].
Qed.
Print Assumptions C64_fundamental.

(** With the class rounded_transc_opp: the functions whose lower bounds it
    computes in the downward mode (C48). *)
Definition right_with_opp (f : tfun) : Prop :=
  match f with Fexp | Flog | Facos | Fcosh | Fasinh | Fatanh | Fsin | Fcos => True | _ => False end.
Theorem C64_fundamental_opp : forall p debug c ord (L : libm (fnum p)) K fuel eo (env : nat -> itv (fnum p)) (rho : nat -> R) e t,
  lib_ok L -> constants_for p K -> rint_ok p -> (2 <= fuel)%nat ->
  (forall n, fmem (env n) (rho n)) -> tproper (N := fnum p) fval right_with_opp e -> tmeans (N := fnum p) fval e rho t ->
  exists z, returns (teval (fpol p Save Opp debug c ord) K (transc_opp (control_hw (fnum p)) L) fuel eo env e) z /\ fvalid z /\ fmem z t.
Proof.
  intros p debug c ord L K fuel eo env rho e t HL HK HW HF He Wf Mt.
  destruct (teval_contains p Opp debug c ord K (transc_opp (control_hw (fnum p)) L) fuel right_with_opp) with (eo := eo) (env := env) (rho := rho) (e := e) (t := t)
    as (z & Rz & Mz); try assumption.
  - intros f x r t0 A Mx G. assert (Vx : fvalid x) by exact (mem_fvalid p x r Mx).
    assert (D : somewhere_defined f x) by (exists r, t0; split; assumption).
    assert (Q : (f = Fsin \/ f = Fcos) \/ (f = Fexp \/ f = Flog \/ f = Facos \/ f = Fcosh \/ f = Fasinh \/ f = Fatanh)).
    { destruct f; simpl in A; try contradiction; auto 9. }
    destruct Q as [Q|Q].
    + destruct (C47_cos_sin p Opp debug c ord L K f x HL HK HW Q Vx) as (z & Rz & _ & Cz).
      exists z. split; [exact (Rz fuel HF)|exact (Cz r t0 Mx G)].
    + destruct (C46_values_opp_partial p debug c ord L K fuel f x HL HK Q Vx D) as (z & Rz & _ & Cz). exists z. split; [exact Rz|exact (Cz r t0 Mx G)].
  - exists z. split; [exact Rz|]. split; [exact (mem_fvalid p z t Mz)|exact Mz].
Qed.
Print Assumptions C64_fundamental_opp.

(** exp(sin(x)) + log(y) * tan(x) at x = 0, y = 2. *)
Definition demo_texpr : texpr (fnum double_sse) :=
  x_2 B_add (x_call Fexp (x_call Fsin (x_var 0))) (x_2 B_mul (x_call Flog (x_var 1)) (x_call Ftan (x_var 0))).
Definition demo_tenv (n : nat) : itv (fnum double_sse) := match n with O => di (-1) 3 | _ => di 1 2 end.
Definition demo_tpoint (n : nat) : R := match n with O => 0 | _ => 2 end.
Example C64_case : lib_ok (ref_lib double_sse) /\ constants_for double_sse (consts_double double_sse RNE) /\ rint_ok double_sse /\
  (forall n, fmem (demo_tenv n) (demo_tpoint n)) /\ tproper (N := fnum double_sse) fval (fun _ => True) demo_texpr /\
  tmeans (N := fnum double_sse) fval demo_texpr demo_tpoint (exp (sin 0) + ln 2 * (sin 0 / cos 0)).
Proof.
  split; [apply ref_lib_ok|]. split; [apply for_double; left; reflexivity|]. split; [left; split; cbn; lia|].
  split; [|split].
  - intros [|n]; unfold fmem, mem, demo_tenv, demo_tpoint, di; cbn [low up]; repeat dval; simpl; lra.
  - cbn [tproper demo_texpr]. repeat split.
  - cbn [tmeans demo_texpr]. exists (exp (sin 0)), (ln 2 * (sin 0 / cos 0)). split; [|split; [|reflexivity]].
    + exists (sin 0). split; [|reflexivity]. exists 0. split; reflexivity.
    + exists (ln 2), (sin 0 / cos 0). split; [|split; [|reflexivity]].
      * exists 2. split; [reflexivity|]. simpl. apply exp_ln. lra.
      * exists 0. split; [reflexivity|]. split; [rewrite cos_0; lra|reflexivity].
Qed.

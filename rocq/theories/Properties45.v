(** * C85: the interval program contains what the same program computes on numbers *)

From Coq Require Import Reals ZArith Lra Lia Bool.
From Flocq Require Import Core BinarySingleNaN.
From Verif Require Import Outcome Base Checking Interval Utility Arith Arith2 FloatNum ExactNum Spec ExtR Sem
  FloatSpec FloatPol CoreArith CoreUtil Inst Witness CoreCtor Ops OpsProof OpsIso SpecUser SpecBox CoreSound ExprSound
  BoxProof Properties1 Properties2 Properties9 Properties33 Properties36.
Local Open Scope R_scope.

(** A bound of the exact result is a bound of the result rounded in any mode. *)
Lemma brnd_number p m (t : flt (p_T p)) : brnd p m (fval t) = fval t.
Proof.
  unfold brnd. rewrite <- (fval_ld p t), <- (fconv_val (p_X p) m (p_X p)).
  rewrite (fconv_exact _ _ m _ (fconv (p_T p) (p_X p) RNE t) eq_refl), fval_ld.
  rewrite <- (fconv_val (p_T p) m (p_T p)). apply fconv_exact. reflexivity.
Qed.
Lemma directed_bounds_rounded p m pr k debug c ord :
  user_policy (brnd p m) (N := fnum p) fval (fpol p pr k debug c ord) (fready k).
Proof.
  pose proof (fpol_user p pr k debug c ord) as U.
  assert (L : forall e (t : T (fnum p)), LB (N := fnum p) exactly fval e t -> LB (N := fnum p) (brnd p m) fval e t).
  { intros e t K. unfold LB, exactly in *. rewrite <- (brnd_number p m t). apply (rnd_mono _ (brnd_rounding p m)), K. }
  assert (B : forall e (t : T (fnum p)), UB (N := fnum p) exactly fval e t -> UB (N := fnum p) (brnd p m) fval e t).
  { intros e t K. unfold UB, exactly in *. rewrite <- (brnd_number p m t). apply (rnd_mono _ (brnd_rounding p m)), K. }
  destruct U. split; auto; intros a; intros.
  - destruct (up_add_down a b H) as (t & K & R); eauto.
  - destruct (up_add_up a b H) as (t & K & R); eauto.
  - destruct (up_sub_down a b H) as (t & K & R); eauto.
  - destruct (up_sub_up a b H) as (t & K & R); eauto.
  - destruct (up_mul_down a b H) as (t & K & R); eauto.
  - destruct (up_mul_up a b H) as (t & K & R); eauto.
  - destruct (up_div_down a b H) as (t & K & R); eauto.
  - destruct (up_div_up a b H) as (t & K & R); eauto.
  - destruct (up_sqrt_down a H) as (t & K & R); eauto.
  - destruct (up_sqrt_up a H) as (t & K & R); eauto.
Qed.

(** For every expression, all intervals and all numbers in them, and every
    rounding mode [m] in which the numbers are computed: if the evaluation on
    numbers meets no infinity and no NaN, the interval contains the number
    obtained (and the evaluation on intervals does not fail). *)
Theorem C85_float_program : forall p k debug c ord (m : rmode) eo (env : nat -> itv (fnum p))
    (rho : nat -> flt (p_T p)) (e : expr (fnum p)) (t : flt (p_T p)),
  proper (N := fnum p) fval e -> (forall n, fmem (env n) (B2R (rho n))) ->
  scalar p m e rho = Some t ->
  exists z, returns (eval (P_ p k debug c ord) eo env e) z /\ fvalid z /\ fmem z (B2R t).
Proof.
  intros p k debug c ord m eo env rho e t Wf He K.
  destruct (scalar_computes p m rho e t Wf K) as (q & Eq & Cq).
  destruct (eval_sound (brnd_rounding p m) (directed_bounds_rounded p m Save k debug c ord) eo env
    (fun n => B2R (rho n)) He e q Wf) as (z & Rz & Mz); auto.
  { intros HP. destruct (scalar_no_pow p m rho e t K HP). }
  apply fval_fin_iff in Eq. destruct Eq as [_ <-].
  exists z. split; [exact Rz|]. split; [exact (mem_fvalid p z _ Mz)|exact Mz].
Qed.
Print Assumptions C85_float_program.

(** So the width of the interval bounds the error of the computation on numbers:
    [v] is the exact value of the expression at the same numbers, [t] the number
    computed in the mode [m]. *)
Theorem C85_error_bound : forall p k debug c ord (m : rmode) eo (env : nat -> itv (fnum p))
    (rho : nat -> flt (p_T p)) (e : expr (fnum p)) (t : flt (p_T p)) (v : R),
  proper (N := fnum p) fval e -> (forall n, fmem (env n) (B2R (rho n))) ->
  scalar p m e rho = Some t -> means (N := fnum p) fval e (fun n => B2R (rho n)) v ->
  exists z w, returns (eval (P_ p k debug c ord) eo env e) z /\ returns (width (P_ p k debug c ord) z) w /\
    xle (Fin (Rabs (B2R t - v))) (fval w).
Proof.
  intros p k debug c ord m eo env rho e t v Wf He K Mv.
  destruct (C85_float_program p k debug c ord m eo env rho e t Wf He K) as (z & R & V & Mt).
  destruct (C23_fundamental p k debug c ord eo env (fun n => B2R (rho n)) e v He Wf Mv) as (z' & R' & V' & Mv').
  assert (z' = z) as -> by (eapply returns_det; eauto).
  destruct (C33_width_least_upper_bound p k debug c ord z V) as (w & Rw & W0 & W1 & _).
  exists z, w. split; [exact R|]. split; [exact Rw|].
  unfold Rabs. destruct (Rcase_abs (B2R t - v)); [|apply W1; auto].
  replace (- (B2R t - v)) with (v - B2R t) by ring. apply W1; auto.
Qed.
Print Assumptions C85_error_bound.

(** The checks of test/test_float.cpp for the functions of one argument, for every
    interval, at every number in it (there: at the bounds and at the median). *)
Theorem C85_unary_test : forall p k debug c ord (m : rmode) o (x : itv (fnum p)) (v t : flt (p_T p)),
  fvalid x -> is_finite v = true -> fmem x (B2R v) -> sc1 p m o v = Some t ->
  exists z, returns (run1 (P_ p k debug c ord) o x) z /\ returns (u_in (P_ p k debug c ord) t z) true.
Proof.
  intros p k debug c ord m o x v t V Fv Mv K.
  destruct (C85_float_program p k debug c ord m (fun _ => true) (fun _ => x) (fun _ => v) (e_1 o (e_var 0)) t) as (z & R & Vz & Mz).
  - destruct o; cbn [sc1] in K; try discriminate K; cbn [proper]; auto.
  - intros _. exact Mv.
  - cbn [scalar]. unfold fin. rewrite Fv. exact K.
  - exists z. split; [exact R|].
    assert (Ft : is_finite t = true).
    { destruct o; cbn [sc1] in K; try discriminate K; apply fin_some in K; tauto. }
    destruct (C32_in p k debug c ord z t (B2R t) (or_introl Vz) (fval_finite t Ft)) as (b & Rb & Bb).
    assert (b = true) as -> by (apply Bb, Mz). exact Rb.
Qed.
Print Assumptions C85_unary_test.

(** (x / 3) * x - 1 / x at 7: the exact value is 340/21, the numbers computed in
    the default mode and towards zero are within the width of the interval. *)
Example C85_case :
  proper (N := fnum double_sse) fval box_expr /\
  (forall n : nat, fmem (p := double_sse) (di 7 7) (B2R (dbl 7 0 : flt (p_T double_sse)))) /\
  option_map B2SF (scalar double_sse RNE box_expr (fun _ => dbl 7 0)) = Some (B2SF (dbl 4557213908648717 (-48))) /\
  option_map B2SF (scalar double_sse RZR box_expr (fun _ => dbl 7 0)) = Some (B2SF (dbl 4557213908648714 (-48))) /\
  means (N := fnum double_sse) fval box_expr (fun _ => B2R (dbl 7 0 : flt (p_T double_sse))) (340 / 21) /\
  run show (eval Pdef (fun _ => true) (fun _ => di 7 7) box_expr) RNE =
    (Ok (show (mk (dbl 4557213908648714 (-48)) (dbl 4557213908648717 (-48)))), RNE) /\
  option_map B2SF (sc1 double_sse RNE U_sqrt (dbl 2 0)) = Some (B2SF (dbl 6369051672525773 (-52))).
Proof.
  assert (E := v_ 7 ltac:(lia)). apply fval_fin_iff in E. destruct E as [_ E].
  split; [unfold box_expr; cbn [proper]; rewrite v_ by lia; repeat split; eexists; reflexivity|].
  split.
  { intros _. rewrite E. unfold fmem, mem, di. cbn [low up]. rewrite !v_ by lia. simpl. lra. }
  split; [vm_compute; reflexivity|]. split; [vm_compute; reflexivity|]. split; [|split; vm_compute; reflexivity].
  rewrite E. exists (7 / 3 * 7), (1 / 7). split; [|split; [|simpl; lra]].
  - exists (7 / 3), 7. split; [|split; [reflexivity|simpl; lra]].
    exists 7, 3. split; [reflexivity|]. split; [apply v_; lia|]. simpl. split; lra.
  - exists 7. split; [reflexivity|]. simpl. split; lra.
Qed.

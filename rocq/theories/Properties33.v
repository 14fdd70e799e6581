(** * C76: the inclusion property under the documented requirements, and box arithmetic *)

From Coq Require Import Reals ZArith Lra Lia Bool.
From Flocq Require Import Core BinarySingleNaN.
From Verif Require Import Outcome Base Checking Interval Utility Arith Arith2 FloatNum ExactNum Spec ExtR Sem
  CoreArith FloatSpec FloatPol Inst Witness Ops SpecUser SpecBox CoreSound ExprSound BoxProof.
Local Open Scope R_scope.

(** For every base type, every rounding policy whose functions return bounds
    (not necessarily the best ones), every checking policy that meets [ckspec],
    every expression and all values of its variables: the result of the interval
    evaluation contains the value of the expression.  For a protected policy
    the call may start in any rounding mode and leaves it unchanged.

    Missing with respect to the documentation: powers, which need more. *)
Theorem C76_inclusion_partial : forall (N : num) (val : T N -> ext) (P : policy N) (ready : rmode -> Prop)
    (eo : expr N -> bool) (env : nat -> itv N) (rho : nat -> R) (e : expr N) (t : R),
  user_policy exactly val P ready ->
  (has_pow e -> keeps_signs val P ready) ->
  (divides e -> n_has_inf N = true) ->
  proper val e -> (forall n, mem val (env n) (rho n)) -> means val e rho t ->
  exists z, runsP P ready (eval P eo env e) z /\ mem val z t.
Proof.
  intros N val P ready eo env rho e t HU HK HD Wf He Ht.
  eapply (eval_sound exactly_rounding HU); eauto. apply computes_means, Ht.
Qed.
Print Assumptions C76_inclusion_partial.

(** The policies of the library meet the requirements. *)
Theorem C76_library_policies : forall p pr k debug c ord,
  user_policy exactly (N := fnum p) fval (fpol p pr k debug c ord) (fready k) /\
  keeps_signs (N := fnum p) fval (fpol p pr k debug c ord) (fready k).
Proof. intros. split; [apply fpol_user|apply fpol_signs]. Qed.
Print Assumptions C76_library_policies.

(** A policy that does not return the best bounds: products are rounded down to
    a bound that is too small by 3. *)
Definition loose_arith : arith (fnum double_sse) :=
  let A := farith double_sse Std in {|
  ar_init := ar_init A;
  add_down := add_down A; add_up := add_up A;
  sub_down := sub_down A; sub_up := sub_up A;
  mul_down := fun x y => let! t := mul_down A x y in sub_down A t (dbl 3 0);
  mul_up := mul_up A;
  div_down := div_down A; div_up := div_up A;
  ar_median := ar_median A;
  sqrt_down := sqrt_down A; sqrt_up := sqrt_up A;
  int_down := int_down A; int_up := int_up A;
  conv_down := conv_down A; conv_up := conv_up A
|}.
Definition loose : policy (fnum double_sse) := {|
  p_prot := Save; p_ctl := control_hw (fnum double_sse); p_ar := loose_arith;
  p_ck := fchecking double_sse true CkStrict; p_ord := fun _ => true
|}.
Lemma loose_user : user_policy exactly (N := fnum double_sse) fval loose (fready Std).
Proof.
  pose proof (fpol_user double_sse Save Std true CkStrict (fun _ => true)) as U.
  destruct U; split; auto; clear - up_mul_down up_sub_down.
  intros a b Hn. destruct (up_mul_down a b Hn) as (t & A & R). unfold LB, exactly in A.
  assert (E3 : fval (f := p_T double_sse) (dbl 3 0) = Fin 3) by (apply (dbl_val 3); lia).
  assert (NN : xsub (fval (f := p_T double_sse) t) (fval (f := p_T double_sse) (dbl 3 0)) <> NaN).
  { rewrite E3. apply xle_nnl in A. destruct (fval (f := p_T double_sse) t) eqn:Et; simpl; try discriminate.
    exfalso. congruence. }
  destruct (up_sub_down t (dbl 3 0) NN) as (u & B & R').
  exists u. split.
  - unfold LB, exactly in *. eapply xle_trans; [exact B|]. eapply xle_trans; [|exact A].
    apply xle_nnl in A. rewrite E3.
    destruct (fval (f := p_T double_sse) t) eqn:Et; simpl; auto; try lra; exfalso; congruence.
  - intros s Hs. destruct (R s Hs) as (s1 & H1 & E1). destruct (R' s1 H1) as (s2 & H2 & E2).
    exists s2. split; auto. unfold loose, loose_arith. cbn [p_ar mul_down]. unfold bind.
    cbn [fpol p_ar] in E1, E2. rewrite E1. exact E2.
Qed.

(** A case of [C76_inclusion_partial]: x * y - x / 3 with this policy. *)
Definition c76_expr : expr (fnum double_sse) :=
  e_2 B_sub (e_2 B_mul (e_var 0) (e_var 1)) (e_in B_div (e_var 0) (dbl 3 0)).
Definition c76_env (n : nat) : itv (fnum double_sse) := match n with O => di 4 7 | _ => di (-1) 5 end.
Definition c76_rho (n : nat) : R := match n with O => 6 | _ => 5 end.
Lemma v_ m : (Z.abs m <= 2 ^ 53)%Z -> fval (f := p_T double_sse) (dbl m 0) = Fin (IZR m).
Proof. apply dbl_val. Qed.
Example C76_inclusion_case :
  user_policy exactly (N := fnum double_sse) fval loose (fready Std) /\
  ~ has_pow c76_expr /\ proper (N := fnum double_sse) fval c76_expr /\ n_has_inf (fnum double_sse) = true /\
  means (N := fnum double_sse) fval c76_expr c76_rho 28 /\
  (forall n, mem (N := fnum double_sse) fval (c76_env n) (c76_rho n)) /\
  (forall s, run show (eval loose (fun _ => true) c76_env c76_expr) s = (Ok (show (mk (dbl (-6943049425529515) (-49)) (dbl 4738162107962710 (-47)))), s)).
Proof.
  split; [apply loose_user|]. split; [simpl; tauto|]. split; [|split; [reflexivity|split; [|split]]].
  - unfold c76_expr. cbn [proper]. rewrite v_ by lia. repeat split; eexists; reflexivity.
  - exists 30, 2. split; [exists 6, 5; simpl; repeat split; lra|]. split; [|simpl; lra].
    exists 6, 3. split; [reflexivity|]. split; [apply v_; lia|]. simpl. split; lra.
  - intros [|n]; unfold mem, c76_env, c76_rho, di; cbn [low up]; rewrite !v_ by lia; simpl; lra.
  - intros s; destruct s; vm_compute; reflexivity.
Qed.

(** The requirements are not enough for pow, although the documentation says so
    (doc/numbers.htm): with this policy pow([0,1], 4) is [3,1], which does not
    contain 0^4. *)
Theorem C76_pow_refuted :
  exists (P : policy (fnum double_sse)) (ready : rmode -> Prop) (x z : itv (fnum double_sse)) (n : Z) (r : R),
  user_policy exactly (N := fnum double_sse) fval P ready /\
  fvalid x /\ fmem x r /\ (0 < n)%Z /\ returns (Arith2.pow P x n) z /\
  ~ fmem z (r ^ Z.to_nat n) /\ ~ fvalid z.
Proof.
  exists loose, (fready Std), (di 0 1), (di 3 1), 4%Z, 0.
  split; [apply loose_user|]. split; [apply di_valid; lia|]. split.
  { unfold fmem, mem, di. cbn [low up]. rewrite !v_ by lia. simpl. lra. }
  split; [lia|]. split.
  { apply run_show_returns. intros s; destruct s; vm_compute; reflexivity. }
  split.
  - unfold fmem, mem, di. cbn [low up]. rewrite !v_ by lia. simpl. lra.
  - unfold fvalid, valid, di. cbn [low up]. rewrite !v_ by lia. simpl. lra.
Qed.
Print Assumptions C76_pow_refuted.

(** Box arithmetic: for every floating-point base type without rounding control
    (rounded_math of rounding.hpp:93-95), every expression, all intervals and all
    numbers in them, in whatever mode the processor is: if the expression
    evaluated on these numbers by the hardware meets no infinity and no NaN, the
    interval contains the number obtained. *)
Theorem C76_box : forall (p : platform) (m : rmode) debug c ord (eo : expr (fnum p) -> bool)
    (env : nat -> itv (fnum p)) (rho : nat -> flt (p_T p)) (e : expr (fnum p)) (t : flt (p_T p)),
  proper (N := fnum p) fval e -> (forall n, fmem (env n) (B2R (rho n))) ->
  scalar p m e rho = Some t ->
  exists z, eval (exact_pol (fnum p) debug c ord) eo env e m = (Ok z, m) /\ fmem z (B2R t).
Proof.
  intros p m debug c ord eo env rho e t Wf He K.
  destruct (scalar_computes p m rho e t Wf K) as (q & Eq & Cq).
  destruct (eval_sound (brnd_rounding p m) (box_user p m debug c ord) eo env (fun n => B2R (rho n)) He e q Wf) as (z & Rz & Mz); auto.
  { intros HP. destruct (scalar_no_pow p m rho e t K HP). }
  exists z. destruct (Rz m eq_refl) as (s' & -> & E). split; [exact E|].
  apply fval_fin_iff in Eq. destruct Eq as [_ ->]. exact Mz.
Qed.
Print Assumptions C76_box.

(** A case: (x / 3) * x - 1 / x on [1,8] at 7 in the default mode; the number
    obtained is a rounding of 340 / 21. *)
Definition box_expr : expr (fnum double_sse) :=
  e_2 B_sub (e_2 B_mul (e_in B_div (e_var 0) (dbl 3 0)) (e_var 0)) (e_1 U_inverse (e_var 0)).
Example C76_box_case :
  proper (N := fnum double_sse) fval box_expr /\
  (forall n : nat, fmem (p := double_sse) (di 1 8) (B2R (dbl 7 0 : flt (p_T double_sse)))) /\
  option_map B2SF (scalar double_sse RNE box_expr (fun _ => dbl 7 0)) = Some (B2SF (dbl 4557213908648717 (-48))) /\
  run show (eval (exact_pol (fnum double_sse) true CkStrict (fun _ => true)) (fun _ => true) (fun _ => di 1 8) box_expr) RNE
    = (Ok (show (mk (dbl (-6004799503160662) (-53)) (dbl 5969615131071829 (-48)))), RNE).
Proof.
  split; [unfold box_expr; cbn [proper]; rewrite v_ by lia; repeat split; eexists; reflexivity|].
  split.
  { intros _. assert (E := v_ 7 ltac:(lia)). apply fval_fin_iff in E. destruct E as [_ ->].
    unfold fmem, mem, di. cbn [low up]. rewrite !v_ by lia. simpl. lra. }
  split; vm_compute; reflexivity.
Qed.

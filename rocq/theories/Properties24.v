(** * C69: no rounding where none is needed *)

From Coq Require Import Reals ZArith Lra Lia Bool.
From Flocq Require Import Core BinarySingleNaN.
From Verif Require Import Outcome Base Checking Interval Utility Arith Arith2 FloatNum Spec ExtR
  FloatSpec FloatPol CoreArith Inst Witness CoreCtor Ops OpsProof ExactFloat CorePowExact ExprExact.
Local Open Scope R_scope.
Notation P_ p k debug c ord := (fpol p Save k debug c ord).

(** When the exact value of every subexpression has representable bounds, the
    library returns the exact interval. *)
Theorem C69_exact : forall p k debug c ord eo (env : nat -> itv (fnum p)) e,
  exact_nodes env e ->
  exists z, returns (eval (P_ p k debug c ord) eo env e) z /\ forall t, fmem z t <-> exact_set env e t.
Proof.
  intros p k debug c ord eo env e W. destruct (eval_exact p k debug c ord eo env e W) as (z & R & _ & E). exists z. split; [exact R|exact E].
Qed.
Print Assumptions C69_exact.

(** Expressions over integers that cannot leave the range -2^prec ... 2^prec are
    computed exactly, with integer bounds. *)
Theorem C69_integers : forall p k debug c ord eo (env : nat -> itv (fnum p)) e m,
  within env e m ->
  exists (z : itv (fnum p)) a b, returns (eval (P_ p k debug c ord) eo env e) z /\
    fval (f := p_T p) (low z) = Fin (IZR a) /\ fval (f := p_T p) (up z) = Fin (IZR b) /\ (- m <= a <= b)%Z /\ (b <= m)%Z /\
    forall t, exact_set env e t <-> IZR a <= t <= IZR b.
Proof.
  intros p k debug c ord eo env e m W. destruct (eval_exact p k debug c ord eo env e (within_nodes p env e m W)) as (z & R & V & E).
  destruct (within_set p env e m W) as (a & b & L & A & B & Es). pose proof (IZR_le _ _ L).
  exists z, a, b. split; [exact R|].
  assert (D : denotes (N := fnum p) fval z (fun t => IZR a <= t <= IZR b)) by (intros t; rewrite <- (Es t); apply E).
  split; [apply (low_min z _ (IZR a) D); [lra|intros s Hs; lra]|]. split; [apply (up_max z _ (IZR b) D); [lra|intros s Hs; lra]|].
  split; [lia|]. split; [lia|]. exact Es.
Qed.
Print Assumptions C69_integers.

(** pow alone: exact whenever the bounds of the result are representable, although
    it multiplies step by step. *)
Theorem C69_pow_exact : forall p k debug c ord (x : itv (fnum p)) n (w : itv (fnum p)),
  fvalid x -> (0 < n)%Z -> fdenotes w (image1 (fun r => r ^ Z.to_nat n) (fmem x)) ->
  exists z, returns (Arith2.pow (P_ p k debug c ord) x n) z /\ fdenotes z (image1 (fun r => r ^ Z.to_nat n) (fmem x)).
Proof.
  intros p k debug c ord x n w V Hn D.
  destruct (pow_exact (fpolspec p Save k debug c ord) (repr_pow (p_T p)) x n w Hn V D) as (z & R & El & Eu).
  exists z. split; [exact R|]. intros t. rewrite <- (D t). unfold fmem, mem. rewrite El, Eu. tauto.
Qed.
Print Assumptions C69_pow_exact.

(** (x - 3)^3 * max(y, x) + |x| y with x in [-100,1000] and y in [-7,5]. *)
Definition poly : expr (fnum double_sse) :=
  e_2 B_add (e_2 B_mul (e_1 (U_pow 3) (e_in B_sub (e_var 0) (dbl 3 0))) (e_2 B_max (e_var 1) (e_var 0)))
            (e_2 B_mul (e_1 U_abs (e_var 0)) (e_var 1)).
Definition poly_env (n : nat) : itv (fnum double_sse) := match n with O => di (-100) 1000 | _ => di (-7) 5 end.
Example C69_case : within poly_env poly (1003 ^ 3 * 1000 + 7000) /\ exact_nodes poly_env poly /\
  run show (eval Pdef (fun _ => true) poly_env poly) RNE = (Ok (show (mk (dbl (-6937195811) 0) (dbl 991026978000 0))), RNE).
Proof.
  assert (W : within poly_env poly (1003 ^ 3 * 1000 + 7000)).
  { assert (I0 : within poly_env (e_var 0) 1000).
    { split; [vm_compute; discriminate|]. exists (-100)%Z, 1000%Z. repeat split; try lia; apply dbl_val; lia. }
    assert (I1 : within poly_env (e_var 1) 7).
    { split; [vm_compute; discriminate|]. exists (-7)%Z, 5%Z. repeat split; try lia; apply dbl_val; lia. }
    split; [vm_compute; discriminate|]. exists (1003 ^ 3 * 1000)%Z, 7000%Z. split; [|split; [|cbn [mag2]; lia]].
    - split; [vm_compute; discriminate|]. exists (1003 ^ 3)%Z, 1000%Z. split; [|split; [|cbn [mag2]; lia]].
      + split; [vm_compute; discriminate|]. exists 1003%Z. split; [|split; lia]. split; [vm_compute; discriminate|].
        exists 1000%Z, 3%Z. split; [exact I0|]. split; [|cbn [mag2]; lia].
        split; [vm_compute; discriminate|]. exists 3%Z. split; [apply dbl_val; lia|lia].
      + split; [vm_compute; discriminate|]. exists 7%Z, 1000%Z. split; [exact I1|]. split; [exact I0|cbn [mag2]; lia].
    - split; [vm_compute; discriminate|]. exists 1000%Z, 7%Z. split; [|split; [exact I1|cbn [mag2]; lia]].
      split; [vm_compute; discriminate|exact I0]. }
  split; [exact W|]. split; [exact (within_nodes _ _ _ _ W)|]. vm_compute. reflexivity.
Qed.

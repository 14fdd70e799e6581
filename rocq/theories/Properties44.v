(** * C84: the four variants of an interval type agree (test/det.cpp for every dimension) *)

From Coq Require Import Reals ZArith Bool List Arith.
From Flocq Require Import Core BinarySingleNaN.
From Verif Require Import Outcome Base Checking Interval Utility Arith Arith2 FloatNum Spec ExtR Sem
  FloatSpec FloatPol Agree Program ProgramProof Inst Witness ExDet DetProof Properties3.

(** The elimination program through interval<T>, through the same type with
    save_state<rounded_arith_std<T> >, and through the unprotected versions of both
    inside one rounding object: the four runs return the same matrix (or raise the
    same exception), and restore the mode. *)
Theorem C84_variants : forall p debug c ord1 ord2 ord3 ord4 size (mat : matrix (p := p)) mode,
  exists o,
    exec (P_ p Opp debug c ord1) (det_protected size mat) mode = (o, mode) /\
    exec (P_ p Std debug c ord2) (det_protected size mat) mode = (o, mode) /\
    exec (P_ p Opp debug c ord3) (det_scope size mat) mode = (o, mode) /\
    exec (P_ p Std debug c ord4) (det_scope size mat) mode = (o, mode).
Proof.
  intros p debug c ord1 ord2 ord3 ord4 size mat mode.
  assert (S1 : scoped false (det_protected size mat)) by (apply det_scoped; [left; reflexivity|intros m; exact I]).
  assert (S2 : scoped false (det_scope size mat)).
  { split; [|intros x; exact I]. apply det_scoped; [right; reflexivity|intros m; exact I]. }
  assert (T2 : forall P, tame_prog P (det_scope size mat)).
  { intros P. split; [|intros x s s' _; exact I]. apply det_tame. intros m. exact I. }
  assert (E : forall P s, exec_protected P (det_scope size mat) s = exec P (det_protected size mat) s).
  { intros P s. unfold det_scope, det_protected. cbn [exec_protected].
    pose proof (det_alike size P mat Ret Ret (fun m s => eq_refl) s) as K. unfold bind. rewrite K.
    destruct (exec P (det true size mat Ret) s) as [[x| | | |] s1]; reflexivity. }
  destruct (prog_det p debug c (det_protected size mat) false S1) as (o & G & H).
  exists o. split; [|split; [|split]].
  - apply H.
  - apply H.
  - rewrite (C22_unprotected_equals_protected_partial p Opp debug c ord3 _ _ mode S2 (T2 _)), E. apply H.
  - rewrite (C22_unprotected_equals_protected_partial p Std debug c ord4 _ _ mode S2 (T2 _)), E. apply H.
Qed.
Print Assumptions C84_variants.

(** So the test succeeds for every dimension in which the elimination returns a
    matrix of numbers. *)
Theorem C84_det_test : forall p debug c ord1 ord2 size (mat r : matrix (p := p)) mode,
  exec (P_ p Opp debug c ord1) (det_protected size mat) mode = (Ok r, mode) ->
  (forall i j, (i < size)%nat -> (j < size)%nat -> fval (low (r i j)) <> NaN /\ fval (up (r i j)) <> NaN) ->
  det_test size (P_ p Opp debug c ord1) (P_ p Std debug c ord2) mat mode = (Ok true, mode).
Proof.
  intros p debug c ord1 ord2 size mat r mode E H.
  destruct (C84_variants p debug c ord1 ord2 ord1 ord2 size mat mode) as (o & E1 & E2 & E3 & E4).
  assert (o = Ok r) as -> by congruence.
  unfold det_test, bind. rewrite E1, E2, E3, E4. unfold ret. f_equal. f_equal.
  assert (Q : forall i j, (i < size)%nat -> (j < size)%nat -> equal (P_ p Opp debug c ord1) (r i j) (r i j) = true).
  { intros i j Hi Hj. destruct (H i j Hi Hj) as [H1 H2]. unfold equal.
    destruct (u_empty (P_ p Opp debug c ord1) (r i j)); [reflexivity|]. cbn [negb andb].
    apply andb_true_iff. split; apply (ns_eq _ _ (fnumspec p)); auto. }
  apply forallb_forall. intros i Hi. apply forallb_forall. intros j Hj.
  apply in_seq in Hi. apply in_seq in Hj. rewrite !Q; auto; apply Nat.lt_le_trans with size; intuition.
Qed.
Print Assumptions C84_det_test.

(** The test itself: dimension 8 in double, from the default-constructed matrix. *)
Example C84_case :
  run (fun b : bool => b) (det_test 8 Pdef (P_ double_sse Std true CkStrict (fun _ => false)) (fun _ _ => di 0 0)) RNE =
    (Ok true, RNE) /\
  run (fun r => show (r 1 1)%nat) (exec Pdef (det_protected 3 (fun _ _ => di 0 0))) RUP = (Ok (show (mk (dbl 6004799503160660 (-56)) (dbl 6004799503160662 (-56)))), RUP).
Proof. split; vm_compute; reflexivity. Qed.

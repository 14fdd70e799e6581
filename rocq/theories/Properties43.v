(** * C83: overflow and underflow lose no enclosure (test/overflow.cpp for every argument) *)

From Coq Require Import Reals ZArith Lra Lia Bool.
From Flocq Require Import Core BinarySingleNaN.
From Verif Require Import Outcome Base Checking Interval Utility Arith Arith2 FloatNum Spec ExtR Sem
  FloatSpec FloatPol Inst Witness Transc ExOverflow OverflowProof Properties36.
Local Open Scope R_scope.

(** y = x; n times y *= f; n times y *= g, with any two finite numbers f and g of
    the same sign, both times out of the range of the format (all the way up and
    back, or all the way down and back): x is in y.  [r], [a] and [b] are the
    values of x, f and g. *)
Theorem C83_round_trip : forall p k debug c ord (x f g : T (fnum p)) r a b n,
  fval x = Fin r -> fval f = Fin a -> fval g = Fin b -> 0 < a * b ->
  (2 <= Rabs a /\ Rabs b <= / 2 \/ Rabs a <= / 2 /\ 2 <= Rabs b) ->
  (2 * emax (p_T p) + prec (p_T p) <= Z.of_nat n)%Z ->
  exists y1 y2, returns (ov_times (P_ p k debug c ord) f n (mk x x)) y1 /\
    returns (ov_times (P_ p k debug c ord) g n y1) y2 /\
    fvalid y1 /\ fvalid y2 /\ fmem y1 (r * a ^ n) /\ fmem y2 r.
Proof.
  intros p k debug c ord x f g r a b n Ex Ef Eg Hab Hf Hn.
  pose proof Ex as Ex'. apply fval_fin_iff in Ex'. destruct Ex' as [Fx Bx].
  destruct (finite_gap (p_T p) x Fx) as [G1 G2]. rewrite Bx in G1, G2.
  assert (Hb : b <> 0) by (intros ->; lra).
  assert (A : adjacent (p_T p) (r * a ^ n) (r / b ^ n)).
  { unfold Rdiv. rewrite <- pow_inv. destruct G2 as [->|G2]; [left; ring|].
    assert (Hr : r <> 0).
    { intros ->. rewrite Rabs_R0 in G2. pose proof (bpow_gt_0 radix2 (3 - emax (p_T p) - prec (p_T p))). lra. }
    assert (BI : Rabs (/ b) = / Rabs b) by (apply Rabs_inv).
    assert (PB : 0 < Rabs b) by (apply Rabs_pos_lt; exact Hb).
    apply adjacent_abs; [apply same_sign; auto|].
    destruct Hf as [[H1 H2]|[H1 H2]]; [left|right]; split; first [apply grows|apply shrinks]; auto; rewrite BI.
    - rewrite <- (Rinv_inv 2). apply Rinv_le; lra.
    - apply Rinv_le; lra. }
  destruct (mk_valid p x r Ex) as [V0 M0].
  destruct (times_mem p k debug c ord f a Ef n (mk x x) V0) as (y1 & R1 & V1 & M1).
  destruct (times_mem p k debug c ord g b Eg n y1 V1) as (y2 & R2 & V2 & M2).
  exists y1, y2. split; [exact R1|split; [exact R2|split; [exact V1|split; [exact V2|split; [apply M1, M0|]]]]].
  replace r with (r / b ^ n * b ^ n) by (field; apply pow_nonzero, Hb).
  apply M2. eapply adjacent_mem; [exact A|]. apply M1, M0.
Qed.
Print Assumptions C83_round_trip.

(** The program of the test, with g = 1 / f computed under the mode in force:
    in(x, y) is true for every finite x, every factor of magnitude at least 2 or at
    most 1/2 (that is not within a factor of 4 of the end of the range, so that
    1 / f exists), and enough iterations. *)
Theorem C83_overflow_test : forall p k debug c ord (x f : T (fnum p)) r a n,
  fval x = Fin r -> fval f = Fin a ->
  (2 <= Rabs a <= bpow radix2 (emax (p_T p) - 2) \/ bpow radix2 (2 - emax (p_T p)) <= Rabs a <= / 2) ->
  (2 * emax (p_T p) + prec (p_T p) <= Z.of_nat n)%Z ->
  returns (ov_test_one (P_ p k debug c ord) n x f) true.
Proof. intros. eapply test_one_true; eauto. Qed.
Print Assumptions C83_overflow_test.

(** The 10000 iterations of the test are enough for double and float, in every
    evaluation format. *)
Theorem C83_ten_thousand : forall p k debug c ord (x f : T (fnum p)) r a,
  p_T p = binary64 \/ p_T p = binary32 -> fval x = Fin r -> fval f = Fin a ->
  2 <= Rabs a <= 1000000 \/ / 1000000 <= Rabs a <= / 2 ->
  returns (ov_test_one (P_ p k debug c ord) (Z.to_nat 10000) x f) true.
Proof.
  intros p k debug c ord x f r a Hp Ex Ef Ha. eapply test_one_true; eauto; rewrite ?Z2Nat.id by lia.
  - assert (L : 1000000 <= bpow radix2 (emax (p_T p) - 2)).
    { apply Rle_trans with (bpow radix2 20); [change (bpow radix2 20) with 1048576; lra|].
      apply bpow_le. destruct Hp as [-> | ->]; simpl; lia. }
    assert (E : bpow radix2 (2 - emax (p_T p)) = / bpow radix2 (emax (p_T p) - 2)).
    { rewrite <- bpow_opp. f_equal. lia. }
    destruct Ha as [Ha|Ha]; [left; lra|right]. rewrite E. split; [|lra].
    apply Rle_trans with (/ 1000000); [apply Rinv_le; lra|lra].
  - destruct Hp as [-> | ->]; simpl; lia.
Qed.
Print Assumptions C83_ten_thousand.

(** With few iterations it may be false: one multiplication by 4 - 2^-51 and one by
    its quotient, rounded toward -inf to 1/4, leave an interval without 1. *)
Theorem C83_few_refuted : exists (x f : T (fnum double_sse)) r a mode,
  fval (f := binary64) x = Fin r /\ fval (f := binary64) f = Fin a /\ 2 <= Rabs a <= 4 /\
  ov_test_one Pdef 1 x f mode = (Ok false, mode).
Proof.
  exists (dbl 1 0), (dbl (2 ^ 53 - 1) (-51)), 1, (IZR (2 ^ 53 - 1) * bpow radix2 (-51)), RDN.
  split; [apply dbl_val; lia|]. split; [|split].
  - apply fval_fin_iff. split; [vm_compute; reflexivity|]. cbn. unfold F2R. reflexivity.
  - rewrite Rabs_pos_eq; cbn; lra.
  - vm_compute. reflexivity.
Qed.
Print Assumptions C83_few_refuted.

(** The four calls of the test, and one with factors of either sign. *)
Example C83_case :
  fval (f := binary64) (dbl 1 0) = Fin 1 /\ fval (f := binary64) (dbl (-1) 0) = Fin (-1) /\
  fval (f := binary64) (dbl 25 0) = Fin 25 /\ fval (f := binary64) (dbl (-25) 0) = Fin (-25) /\
  2 <= Rabs 25 <= 1000000 /\ 2 <= Rabs (-25) <= 1000000 /\
  (exists a, fval (f := binary64) (dbl 5764607523034235 (-57)) = Fin a /\ / 1000000 <= Rabs a <= / 2) /\
  run show (ov_times Pdef (dbl 25 0) 300 (mk (dbl 1 0) (dbl 1 0))) RZR =
    (Ok (show (mk (dbl (2 ^ 53 - 1) 971) pinf)), RZR).
Proof.
  repeat (split; [apply dbl_val; lia|]).
  split; [rewrite Rabs_pos_eq; lra|]. split; [rewrite Rabs_left; lra|]. split.
  - exists (IZR 5764607523034235 * bpow radix2 (-57)). split.
    + apply fval_fin_iff. split; [vm_compute; reflexivity|]. cbn. unfold F2R. cbn. lra.
    + rewrite Rabs_pos_eq; cbn; lra.
  - vm_compute. reflexivity.
Qed.

(** * C86: fmod on intervals of ints, with the rounding policy of test/fmod.cpp *)

From Coq Require Import Reals ZArith Lra Lia Bool.
From Verif Require Import Outcome Base Checking Interval Utility Arith Arith2 FloatNum Spec ExtR Sem
  ExactNum SpecExact ExactProof SpecInt IntProof IntProgProof ExFmod FmodProof.
Local Open Scope Z_scope.

(** ** Specification

    [n] is one integer quotient: the floor of the quotient of the lower bound of x
    and a bound of y.  On numbers the function computes a - n * v, in ints. *)
Definition fm_no_overflows (x y : itv int_num) (n : Z) : Prop :=
  forall a v, i_mem x a -> i_mem y v -> fits (n * v) /\ fits (a - n * v).

(** When no a - n * v overflows the call returns exactly the set of the real a - n * v,
    its lower bound is the remainder m, and otherwise its behaviour is undefined. *)
Definition fm_gives (call : M (itv int_num)) (x y : itv int_num) (n m : Z) : Prop :=
  forall mode,
    (fm_no_overflows x y n ->
      exists z, call mode = (Ok z, mode) /\ int_itv z /\ low z = m /\
        forall r, iset z r <-> exists a v, iset x a /\ iset y v /\ r = (a - IZR n * v)%R) /\
    (~ fm_no_overflows x y n -> call mode = (UB, mode)).

(** A number as an interval. *)
Definition ipt (v : Z) : itv int_num := mk (N := int_num) v v.

Lemma fm_summary (call : M (itv int_num)) (x y : itv int_num) b : int_itv x -> int_itv y -> 0 < low y ->
  b = (if low x <? 0 then low y else up y) ->
  (forall s, call s = (fm_res x y (low x / b), s)) -> fm_gives call x y (low x / b) (low x mod b).
Proof.
  intros X Y L B E mode. rewrite E. unfold fm_res. unfold int_itv in X, Y.
  pose proof (four_iff x y (low x / b) ltac:(lia) ltac:(lia)) as F. fold (fm_no_overflows x y (low x / b)) in F.
  split.
  - intros H. rewrite (proj2 F H). eexists. split; [reflexivity|]. apply proj2 in F. specialize (F H).
    unfold four in F. rewrite !andb_true_iff, !fits_iff in F. unfold fits in F.
    pose proof (pl_pu (low x / b) y).
    split; [unfold int_itv; cbn [low up]; lia|]. split.
    + subst b. apply (fm_low x y). lia.
    + intros r. apply fm_set; lia.
  - intros H. destruct (four x y (low x / b)) eqn:K; [|reflexivity]. exfalso. apply H, F. reflexivity.
Qed.

(** fmod of two intervals of ints, the second one positive. *)
Theorem C86_fmod : forall debug c ord x y, int_itv x -> int_itv y -> 0 < low y ->
  let b := if low x <? 0 then low y else up y in
  fm_gives (fmod (fm_pol debug c ord) x y) x y (low x / b) (low x mod b) /\
  0 <= low x mod b < b.
Proof.
  intros debug c ord x y X Y L b. unfold int_itv in X, Y.
  split; [|apply Z.mod_pos_bound; unfold b; destruct (low x <? 0); lia].
  apply fm_summary; auto. intros s. apply fm_fmod; auto.
Qed.
(** fmod by a positive number. *)
Theorem C86_fmod_number : forall debug c ord x v, int_itv x -> fits v -> 0 < v ->
  fm_gives (fmod_in (fm_pol debug c ord) x v) x (ipt v) (low x / v) (low x mod v) /\
  0 <= low x mod v < v.
Proof.
  intros debug c ord x v X V L. split; [|apply Z.mod_pos_bound; lia].
  apply fm_summary; auto.
  - unfold int_itv, ipt. cbn [low up]. unfold fits in V. lia.
  - unfold ipt. cbn [low up]. destruct (low x <? 0); reflexivity.
  - intros s. apply fm_fmod_in; auto.
Qed.
(** fmod of a number by a positive interval. *)
Theorem C86_number_fmod : forall debug c ord u y, fits u -> int_itv y -> 0 < low y ->
  let b := if u <? 0 then low y else up y in
  fm_gives (fmod_ni (fm_pol debug c ord) u y) (ipt u) y (u / b) (u mod b) /\ 0 <= u mod b < b.
Proof.
  intros debug c ord u y X Y L b. unfold int_itv in Y.
  split; [|apply Z.mod_pos_bound; unfold b; destruct (u <? 0); lia].
  apply (fm_summary _ (ipt u) y b); auto.
  - unfold int_itv, ipt. cbn [low up]. unfold fits in X. lia.
  - intros s. apply fm_fmod_ni; auto.
Qed.
(** A dividend without negative members never overflows. *)
Theorem C86_no_overflow : forall x y, int_itv x -> int_itv y -> 0 < low y -> 0 <= low x ->
  fm_no_overflows x y (low x / up y).
Proof. intros x y X Y L H. exact (fm_no_overflow x y X Y L H). Qed.

(** A negative one can, although every remainder fits: the product is below INT_MIN. *)
Theorem C86_negative_overflow_refuted : exists x v, int_itv x /\ fits v /\ 0 < v /\
  (forall a, i_mem x a -> fits (a - low x / v * v)) /\
  forall debug c ord mode, fmod_in (fm_pol debug c ord) x v mode = (UB, mode).
Proof.
  exists (ipt (-2147483648)), 3. split; [unfold int_itv; simpl; lia|]. split; [unfold fits; lia|]. split; [lia|].
  split.
  - intros a A. unfold i_mem in A. simpl in A. assert (a = -2147483648) by lia. subst a. unfold fits. simpl. lia.
  - intros debug c ord mode.
    apply (C86_fmod_number debug c ord (ipt (-2147483648)) 3); [unfold int_itv; simpl; lia|unfold fits; lia|lia|].
    intros H. destruct (H (-2147483648) 3) as [K _]; [unfold i_mem; simpl; lia ..|]. unfold fits in K. simpl in K. lia.
Qed.
(** The quotient of the test is not rounded down for a negative divisor, and the
    remainder can then be larger than the divisor: fmod(-7, -2) is -3. *)
Theorem C86_negative_divisor_refuted :
  ~ (forall debug c ord x v mode z, int_itv x -> fits v -> v <> 0 ->
       fmod_in (fm_pol debug c ord) x v mode = (Ok z, mode) -> Z.abs (low z) < Z.abs v).
Proof.
  intros H. pose proof (H false CkBase (fun _ => true) (ipt (-7)) (-2) RNE (ipt (-3))
    ltac:(unfold int_itv; simpl; lia) ltac:(unfold fits; lia) ltac:(lia)) as K.
  assert (E : fmod_in (fm_pol false CkBase (fun _ => true)) (ipt (-7)) (-2 : T int_num) RNE = (Ok (ipt (-3)), RNE)) by reflexivity.
  specialize (K E). simpl in K. lia.
Qed.

(** The nine calls of the test, and hypotheses that are met. *)
Definition ii (a b : Z) : itv int_num := mk (N := int_num) a b.
Example C86_case :
  let P := fm_pol true CkStrict (fun _ => true) in
  let eq m z := m RNE = (Ok z, RNE) in
  eq (fmod_in P (ii 6 9) (7 : T int_num)) (ii 6 9) /\
  eq (fmod_ni P (6 : T int_num) (ii 7 8)) (ii 6 6) /\
  eq (fmod P (ii 6 9) (ii 7 8)) (ii 6 9) /\
  eq (fmod_in P (ii 13 17) (7 : T int_num)) (ii 6 10) /\
  eq (fmod_ni P (13 : T int_num) (ii 7 8)) (ii 5 6) /\
  eq (fmod P (ii 13 17) (ii 7 8)) (ii 5 10) /\
  eq (fmod_in P (ii (-17) (-13)) (7 : T int_num)) (ii 4 8) /\
  eq (fmod_ni P (-17 : T int_num) (ii 7 8)) (ii 4 7) /\
  eq (fmod P (ii (-17) (-13)) (ii 7 8)) (ii 4 11).
Proof. repeat split; reflexivity. Qed.
Example C86_hypotheses : let x := ii (-17) (-13) in let y := ii 7 8 in
  int_itv x /\ int_itv y /\ 0 < low y /\ fm_no_overflows x y (low x / low y) /\ low x / low y = -3.
Proof.
  cbv zeta. split; [unfold int_itv; simpl; lia|]. split; [unfold int_itv; simpl; lia|]. split; [simpl; lia|].
  split; [|reflexivity]. intros a v A V. unfold i_mem in *. simpl in A, V.
  change (low (ii (-17) (-13)) / low (ii 7 8)) with (-3). unfold fits. lia.
Qed.

Print Assumptions C86_fmod.
Print Assumptions C86_fmod_number.
Print Assumptions C86_number_fmod.
Print Assumptions C86_no_overflow.
Print Assumptions C86_negative_overflow_refuted.
Print Assumptions C86_negative_divisor_refuted.

(** * test/overflow.cpp: proofs *)

From Coq Require Import Reals ZArith Lra Lia Bool.
From Flocq Require Import Core BinarySingleNaN.
From Verif Require Import Outcome Base Checking Interval Utility Arith Arith2 FloatNum Spec ExtR Sem
  FloatSpec FloatPol SpecUser CoreSound Transc Mirror Agree Mutate Ops OpsProof ExactFloat SpecBox BoxProof Inst Witness CoreCtor ExOverflow Properties2 Properties7.
Local Open Scope R_scope.

Section Gap.
Context (f : fmt).
Notation top := (bpow radix2 (emax f)).
Notation eta := (bpow radix2 (3 - emax f - prec f)).
(** Two reals with no number of the format strictly between them or equal to one
    of them, unless they are equal. *)
Definition adjacent (r s : R) : Prop :=
  r = s \/ (top <= r /\ top <= s) \/ (r <= - top /\ s <= - top) \/
  (0 < r < eta /\ 0 < s < eta) \/ (- eta < r < 0 /\ - eta < s < 0).

Lemma finite_gap (v : flt f) : is_finite v = true -> Rabs (B2R v) < top /\ (B2R v = 0 \/ eta <= Rabs (B2R v)).
Proof.
  intros F. split; [apply abs_B2R_lt_emax|].
  destruct v as [s|s| |s m e B]; try discriminate F; [left; reflexivity|right].
  pose proof (abs_B2R_ge_emin _ _ (B754_finite s m e B) eq_refl) as K.
  unfold SpecFloat.emin in K. exact K.
Qed.
Lemma below_adjacent (v : flt f) r s : adjacent r s -> xle (fval v) (Fin r) -> xle (fval v) (Fin s).
Proof.
  intros A. destruct (fval_cases v) as [[-> _]|[[-> _]|[[-> _]|[-> F]]]]; try (cbn; tauto).
  destruct (finite_gap v F) as [H1 H2]. cbn [xle]. intros L. destruct A as [->|A]; [exact L|].
  apply Rabs_lt_inv in H1. pose proof (bpow_gt_0 radix2 (3 - emax f - prec f)).
  destruct H2 as [E|H2]; [lra|]. unfold Rabs in H2. destruct (Rcase_abs (B2R v)); lra.
Qed.
Lemma above_adjacent (v : flt f) r s : adjacent r s -> xle (Fin r) (fval v) -> xle (Fin s) (fval v).
Proof.
  intros A. destruct (fval_cases v) as [[-> _]|[[-> _]|[[-> _]|[-> F]]]]; try (cbn; tauto).
  destruct (finite_gap v F) as [H1 H2]. cbn [xle]. intros L. destruct A as [->|A]; [exact L|].
  apply Rabs_lt_inv in H1. pose proof (bpow_gt_0 radix2 (3 - emax f - prec f)).
  destruct H2 as [E|H2]; [lra|]. unfold Rabs in H2. destruct (Rcase_abs (B2R v)); lra.
Qed.

(** Powers of two that are numbers of the format. *)
Lemma repr_bpow e : (3 - emax f - prec f <= e < emax f)%Z -> exists t : flt f, fval t = Fin (bpow radix2 e).
Proof.
  intros He. apply repr_iff. pose proof (fmt_prec_gt_0 f). split.
  - exists 1%Z, e. split; [|split].
    + change (2 ^ 0 < 2 ^ prec f)%Z. apply Z.pow_lt_mono_r; lia.
    + unfold SpecFloat.emin. lia.
    + unfold F2R. simpl. lra.
  - rewrite Rabs_pos_eq by apply bpow_ge_0. apply bpow_lt. lia.
Qed.
Lemma repr_opp r : (exists t : flt f, fval t = Fin r) -> exists t : flt f, fval t = Fin (- r).
Proof. intros (t & E). exists (fopp t). rewrite fval_opp, E. reflexivity. Qed.
Lemma xrnd_repr m r : (exists t : flt f, fval t = Fin r) -> xrnd f m (Fin r) = Fin r.
Proof. intros (t & E). rewrite <- E. rewrite <- fconv_val. apply fconv_exact. reflexivity. Qed.

Lemma adjacent_abs r s : 0 < r * s ->
  (top <= Rabs r /\ top <= Rabs s) \/ (Rabs r < eta /\ Rabs s < eta) -> adjacent r s.
Proof.
  intros Q H. unfold adjacent.
  assert (S : (0 < r /\ 0 < s) \/ (r < 0 /\ s < 0)).
  { destruct (Rtotal_order r 0) as [L|[->|L]]; [right|exfalso; lra|left]; split; nra. }
  destruct S as [[A B]|[A B]]; [rewrite !Rabs_pos_eq in H by lra|rewrite !Rabs_left in H by lra]; lra.
Qed.
End Gap.

(** n multiplications by a factor of at least 2 take any number out of the format. *)
Section Out.
Context (f : fmt) (n : nat) (Hn : (2 * emax f + prec f <= Z.of_nat n)%Z).
Notation top := (bpow radix2 (emax f)).
Notation eta := (bpow radix2 (3 - emax f - prec f)).
Lemma pow_two : 2 ^ n = bpow radix2 (Z.of_nat n).
Proof. rewrite bpow_powerRZ. rewrite <- pow_powerRZ. reflexivity. Qed.
Lemma grows r q : eta <= Rabs r -> 2 <= Rabs q -> top <= Rabs (r * q ^ n).
Proof.
  intros Hr Hq. rewrite Rabs_mult, <- RPow_abs.
  apply Rle_trans with (eta * 2 ^ n).
  - rewrite pow_two, <- bpow_plus. apply bpow_le. lia.
  - apply Rmult_le_compat; auto; [apply bpow_ge_0|apply pow_le; lra|apply pow_incr; lra].
Qed.
Lemma shrinks r q : Rabs r < top -> Rabs q <= / 2 -> Rabs (r * q ^ n) < eta.
Proof.
  intros Hr Hq. rewrite Rabs_mult, <- RPow_abs.
  apply Rle_lt_trans with (top * (/ 2) ^ n).
  - apply Rmult_le_compat; try apply Rabs_pos; [apply pow_le, Rabs_pos|lra|].
    apply pow_incr. split; [apply Rabs_pos|exact Hq].
  - rewrite pow_inv. rewrite pow_two, <- bpow_opp, <- bpow_plus. apply bpow_lt. lia.
Qed.
End Out.


Lemma same_sign r a b n : 0 < a * b -> r <> 0 -> 0 < r * a ^ n * (r * (/ b) ^ n).
Proof.
  intros Hab Hr. replace (r * a ^ n * (r * (/ b) ^ n)) with (r * r * (a * / b) ^ n) by (rewrite Rpow_mult_distr; ring).
  apply Rmult_lt_0_compat; [nra|]. apply pow_lt.
  assert (b <> 0) by (intros ->; lra).
  replace (a * / b) with (a * b * (/ b * / b)) by (field; auto). apply Rmult_lt_0_compat; [exact Hab|].
  assert (/ b <> 0) by (apply Rinv_neq_0_compat; auto). nra.
Qed.
Lemma mk_valid p (x : T (fnum p)) r : fval x = Fin r -> fvalid (mk x x) /\ fmem (mk x x) r.
Proof.
  intros E. destruct (C29_number p Opp true CkBase (fun _ => true) x r E) as (_ & V & D).
  split; [exact V|apply D; reflexivity].
Qed.

Section Loop.
Context (p : platform) (k : rkind) (debug : bool) (c : ckind) (ord : site -> bool).
Notation N := (fnum p).
Notation I := (itv N).
Notation P := (fpol p Save k debug c ord).

Lemma step_mem (v : T N) s (y : I) : fval v = Fin s -> fvalid y ->
  exists z, returns (local (m_mul_n P (NVal v)) y) z /\ fvalid z /\ forall r, fmem y r -> fmem z (r * s).
Proof.
  intros E V. destruct (nonempty_mem p y V) as (r0 & H0).
  destruct (run_in_correct p k debug c ord B_mul y v s E V) as [A _].
  destruct A as (z & R & Vz & En).
  { exists (r0 * s), r0, s. split; [exact H0|split; [reflexivity|reflexivity]]. }
  exists z. split; [|split; [exact Vz|]].
  - intros m. unfold local. rewrite (m_mul_n_updated p k debug c ord ord). unfold updated. cbn [Interval.rd].
    pose proof (R m) as Q. cbn [run_in] in Q. rewrite Q. reflexivity.
  - intros r Hr. apply En. exists r, s. split; [exact Hr|split; reflexivity].
Qed.
Lemma times_mem (v : T N) s : fval v = Fin s -> forall n (y : I), fvalid y ->
  exists z, returns (ov_times P v n y) z /\ fvalid z /\ forall r, fmem y r -> fmem z (r * s ^ n).
Proof.
  intros E. induction n as [|n IH]; intros y V.
  - exists y. split; [intros m; reflexivity|split; [exact V|]]. intros r Hr. simpl. rewrite Rmult_1_r. exact Hr.
  - destruct (step_mem v s y E V) as (z1 & R1 & V1 & M1). destruct (IH z1 V1) as (z & R & Vz & Mz).
    exists z. split; [|split; [exact Vz|]].
    + intros m. cbn [ov_times]. unfold bind. rewrite R1. apply R.
    + intros r Hr. replace (r * s ^ S n) with (r * s * s ^ n) by (simpl; ring). apply Mz, M1, Hr.
Qed.
Lemma adjacent_mem (y : I) r s : adjacent (p_T p) r s -> fmem y r -> fmem y s.
Proof. intros A [L U]. split; [eapply below_adjacent|eapply above_adjacent]; eauto. Qed.

(** The two loops, for any two finite factors. *)
Lemma round_trip (x f g : T N) r a b n : fval x = Fin r -> fval f = Fin a -> fval g = Fin b -> b <> 0 ->
  adjacent (p_T p) (r * a ^ n) (r / b ^ n) ->
  returns (let! y := ctor_num P x in let! y := ov_times P f n y in let! y := ov_times P g n y in u_in P x y) true.
Proof.
  intros Ex Ef Eg Hb A.
  destruct (C29_number p k debug c ord x r Ex) as (R0 & V0 & D0).
  destruct (times_mem f a Ef n (mk x x) V0) as (y1 & R1 & V1 & M1).
  destruct (times_mem g b Eg n y1 V1) as (y2 & R2 & V2 & M2).
  assert (Hr : fmem y2 r).
  { assert (Q : fmem y1 (r / b ^ n)).
    { eapply adjacent_mem; [exact A|]. apply M1, D0. reflexivity. }
    pose proof (M2 _ Q) as K. replace (r / b ^ n * b ^ n) with r in K; [exact K|]. field. apply pow_nonzero, Hb. }
  destruct (C32_in p k debug c ord y2 x r (or_introl V2) Ex) as (t & Rt & Bt).
  intros m. unfold bind. rewrite R0, R1, R2, Rt. f_equal. f_equal. apply Bt, Hr.
Qed.

(** The quotient 1 / f stored in a number lies between the same powers of two. *)
Lemma stored_between m q u v : (exists t : flt (p_T p), fval t = Fin u) -> (exists t : flt (p_T p), fval t = Fin v) ->
  u <= q <= v -> exists b, brnd p m (Fin q) = Fin b /\ u <= b <= v.
Proof.
  assert (FX : forall w, (exists t : flt (p_T p), fval t = Fin w) -> brnd p m (Fin w) = Fin w).
  { intros w Hw. unfold brnd. rewrite (xrnd_repr (p_X p)).
    - apply xrnd_repr, Hw.
    - destruct Hw as (t & E). exists (fconv (p_T p) (p_X p) RNE t). rewrite fval_ld. exact E. }
  intros Hu Hv [L1 L2].
  pose proof (rnd_mono _ (brnd_rounding p m) (Fin u) (Fin q) L1) as K1.
  pose proof (rnd_mono _ (brnd_rounding p m) (Fin q) (Fin v) L2) as K2.
  rewrite (FX u Hu) in K1. rewrite (FX v Hv) in K2.
  destruct (brnd p m (Fin q)) as [| |b|]; cbn [xle] in K1, K2; try tauto. exists b. split; [reflexivity|lra].
Qed.
Lemma fval_one : fval (one (N := N) : flt (p_T p)) = Fin 1.
Proof. apply (ns_1 _ _ (fnumspec p)). Qed.
Lemma quotient_val m (f : T N) a u v : fval f = Fin a -> a <> 0 ->
  (exists t : flt (p_T p), fval t = Fin u) -> (exists t : flt (p_T p), fval t = Fin v) ->
  u <= / a <= v -> exists b, fval (sc_div p m (one (N := N)) f) = Fin b /\ u <= b <= v.
Proof.
  intros E Ha Hu Hv L. destruct (stored_between m (/ a) u v Hu Hv L) as (b & Eb & Lb).
  exists b. split; [|exact Lb]. rewrite <- Eb.
  assert (Q : xdiv (fval (one (N := N) : flt (p_T p))) (fval (f : flt (p_T p))) = Fin (/ a)).
  { rewrite fval_one, E. cbn [xdiv]. destruct Req_EM_T; [contradiction|]. f_equal. field. exact Ha. }
  rewrite <- Q. apply sc_div_val. rewrite Q. discriminate.
Qed.
Lemma quotient_run m (f : T N) : (let! q := ex_div N one f in e_store q) m = (Ok (sc_div p m (one (N := N)) f : T N), m).
Proof. reflexivity. Qed.

Notation E := (emax (p_T p)).
Lemma quotient_bounds m (f : T N) a : fval f = Fin a ->
  (2 <= Rabs a <= bpow radix2 (E - 2) -> exists b, fval (sc_div p m (one (N := N)) f) = Fin b /\ 0 < a * b /\ 2 <= Rabs (/ b)) /\
  (bpow radix2 (2 - E) <= Rabs a <= / 2 -> exists b, fval (sc_div p m (one (N := N)) f) = Fin b /\ 0 < a * b /\ Rabs (/ b) <= / 2).
Proof.
  intros Ea. pose proof (fmt_prec_gt_0 (p_T p)) as P0. pose proof (fmt_prec_lt_emax (p_T p)) as PE.
  assert (H2 : bpow radix2 (2 - E) = / bpow radix2 (E - 2)) by (rewrite <- bpow_opp; f_equal; lia).
  pose proof (bpow_gt_0 radix2 (E - 2)) as BP.
  split; intros [L1 L2].
  - assert (3 <= E)%Z.
    { apply Znot_gt_le. intros K. assert (bpow radix2 (E - 2) <= bpow radix2 0) by (apply bpow_le; lia). simpl in *. lra. }
    assert (Ru : exists t : flt (p_T p), fval t = Fin (bpow radix2 (2 - E))) by (apply repr_bpow; lia).
    assert (Rv : exists t : flt (p_T p), fval t = Fin (/ 2)) by (apply (repr_bpow (p_T p) (-1)); lia).
    rewrite H2 in Ru.
    assert (Q : / bpow radix2 (E - 2) <= / Rabs a <= / 2) by (split; apply Rinv_le; lra).
    assert (Hu : 0 < / bpow radix2 (E - 2)) by (apply Rinv_0_lt_compat, BP).
    destruct (Rle_or_lt 0 a) as [S|S]; [rewrite Rabs_pos_eq in L1, L2, Q by lra|rewrite Rabs_left in L1, L2, Q by lra].
    + destruct (quotient_val m f a _ _ Ea ltac:(lra) Ru Rv Q) as (b & Eb & Lb). exists b. split; [exact Eb|].
      split; [nra|]. rewrite Rabs_pos_eq by (left; apply Rinv_0_lt_compat; lra).
      rewrite <- (Rinv_inv 2). apply Rinv_le; lra.
    + destruct (quotient_val m f a _ _ Ea ltac:(lra) (repr_opp _ _ Rv) (repr_opp _ _ Ru)) as (b & Eb & Lb).
      { rewrite Rinv_opp in Q. lra. }
      exists b. split; [exact Eb|]. split; [nra|]. rewrite <- Rabs_Ropp, <- Rinv_opp.
      rewrite Rabs_pos_eq by (left; apply Rinv_0_lt_compat; lra).
      rewrite <- (Rinv_inv 2). apply Rinv_le; lra.
  - assert (Ru : exists t : flt (p_T p), fval t = Fin 2) by (apply (repr_bpow (p_T p) 1); lia).
    assert (Rv : exists t : flt (p_T p), fval t = Fin (bpow radix2 (E - 2))) by (apply repr_bpow; lia).
    rewrite H2 in L1. assert (Hu : 0 < / bpow radix2 (E - 2)) by (apply Rinv_0_lt_compat, BP).
    assert (Q : 2 <= / Rabs a <= bpow radix2 (E - 2)).
    { split; [rewrite <- (Rinv_inv 2)|rewrite <- (Rinv_inv (bpow radix2 (E - 2)))]; apply Rinv_le; lra. }
    destruct (Rle_or_lt 0 a) as [S|S]; [rewrite Rabs_pos_eq in L1, L2, Q by lra|rewrite Rabs_left in L1, L2, Q by lra].
    + destruct (quotient_val m f a _ _ Ea ltac:(lra) Ru Rv Q) as (b & Eb & Lb). exists b. split; [exact Eb|].
      split; [nra|]. rewrite Rabs_pos_eq by (left; apply Rinv_0_lt_compat; lra). apply Rinv_le; lra.
    + destruct (quotient_val m f a _ _ Ea ltac:(lra) (repr_opp _ _ Rv) (repr_opp _ _ Ru)) as (b & Eb & Lb).
      { rewrite Rinv_opp in Q. lra. }
      exists b. split; [exact Eb|]. split; [nra|]. rewrite <- Rabs_Ropp, <- Rinv_opp.
      rewrite Rabs_pos_eq by (left; apply Rinv_0_lt_compat; lra). apply Rinv_le; lra.
Qed.

Lemma test_one_true (x f : T N) r a n : fval x = Fin r -> fval f = Fin a ->
  (2 <= Rabs a <= bpow radix2 (E - 2) \/ bpow radix2 (2 - E) <= Rabs a <= / 2) ->
  (2 * E + prec (p_T p) <= Z.of_nat n)%Z ->
  returns (ov_test_one P n x f) true.
Proof.
  intros Ex Ef Ha Hn m.
  pose proof Ex as Ex'. apply fval_fin_iff in Ex'. destruct Ex' as [Fx Bx].
  destruct (finite_gap (p_T p) x Fx) as [G1 G2]. rewrite Bx in G1, G2.
  destruct (quotient_bounds m f a Ef) as [QA QB].
  assert (K : exists b, fval (sc_div p m (one (N := N)) f) = Fin b /\ 0 < a * b /\
    adjacent (p_T p) (r * a ^ n) (r / b ^ n)).
  { destruct Ha as [Ha|Ha]; [destruct (QA Ha) as (b & Eb & Sb & Lb)|destruct (QB Ha) as (b & Eb & Sb & Lb)];
      exists b; (split; [exact Eb|]; split; [exact Sb|]);
      unfold Rdiv; rewrite <- pow_inv;
      (destruct G2 as [->|G2]; [left; ring|]);
      (assert (r <> 0) by (intros ->; rewrite Rabs_R0 in G2; pose proof (bpow_gt_0 radix2 (3 - E - prec (p_T p))); lra));
      (apply adjacent_abs; [apply same_sign; auto|]).
    - left. split; apply grows; auto; tauto.
    - right. split; apply shrinks; auto; tauto. }
  destruct K as (b & Eb & Sb & A).
  pose proof (round_trip x f (sc_div p m (one (N := N)) f) r a b n Ex Ef Eb ltac:(intros ->; lra) A m) as R.
  unfold ov_test_one. unfold bind in R |- *.
  destruct (C29_number p k debug c ord x r Ex) as (R0 & _). rewrite R0 in R |- *.
  pose proof (quotient_run m f) as Q. unfold bind in Q. destruct (ex_div N one f m) as [[q| | | |] m1]; try discriminate Q.
  rewrite Q. exact R.
Qed.
End Loop.

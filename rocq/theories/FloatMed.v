(** * The midpoint computation (x + y) / 2 rounded to nearest *)

From Coq Require Import Reals ZArith Lra Lia Bool.
From Flocq Require Import Core BinarySingleNaN Plus_error.
From Verif Require Import Outcome Base Checking Interval Utility Arith Arith2 FloatNum Spec ExtR Sem
  FloatSpec FloatPol.
Local Open Scope R_scope.

#[local] Instance valid_exp_fm (f : fmt) : Valid_exp (fexpf f).
Proof. apply FLT_exp_valid. apply fmt_prec_gt_0. Qed.

Lemma rnd_le f m a b : a <= b -> rnd f m a <= rnd f m b.
Proof. intros H. apply round_le; [apply valid_exp_fm|apply valid_rnd_round_mode|exact H]. Qed.
Lemma rnd_gen f m a : generic_format radix2 (fexpf f) a -> rnd f m a = a.
Proof. intros G. apply round_generic; [apply valid_rnd_round_mode|exact G]. Qed.

(** Doubling stays in the (exponent-unbounded) format. *)
Lemma gen_double f a : generic_format radix2 (fexpf f) a -> generic_format radix2 (fexpf f) (2 * a).
Proof.
  intros G. pose proof (fmt_P0 f) as P0.
  destruct (Req_dec a 0) as [->|Na]; [rewrite Rmult_0_r; apply generic_format_0|].
  apply (FLT_format_generic radix2 (SpecFloat.emin (prec f) (emax f)) (prec f)) in G. destruct G as [[mm ee] H1 H2 H3]. simpl in *.
  apply generic_format_FLT. exists (Float radix2 mm (ee + 1)); simpl; auto; try lia.
  rewrite H1. unfold F2R. simpl. rewrite bpow_plus. change (bpow radix2 1) with 2. ring.
Qed.

(** Halving a rounded sum. *)
Lemma round_half f a b : generic_format radix2 (fexpf f) a -> generic_format radix2 (fexpf f) b ->
  rnd f mode_NE (rnd f mode_NE (a + b) / 2) = rnd f mode_NE ((a + b) / 2).
Proof.
  intros Ga Gb. pose proof (fmt_prec_gt_0 f) as P0. set (s := a + b).
  destruct (Rle_or_lt (Rabs s) (bpow radix2 (prec f + SpecFloat.emin (prec f) (emax f)))) as [K|K].
  - assert (G : generic_format radix2 (fexpf f) s).
    { apply (FLT_format_plus_small radix2 (SpecFloat.emin (prec f) (emax f)) (prec f)); auto. }
    rewrite (rnd_gen f mode_NE s G). reflexivity.
  - assert (Ns : s <> 0).
    { intros E. rewrite E, Rabs_R0 in K. pose proof (bpow_gt_0 radix2 (prec f + SpecFloat.emin (prec f) (emax f))). lra. }
    assert (Mg : (prec f + SpecFloat.emin (prec f) (emax f) < mag radix2 s)%Z) by (apply mag_gt_bpow; lra).
    assert (E : rnd f mode_NE (s / 2) = rnd f mode_NE s / 2).
    { unfold round, scaled_mantissa, cexp.
      assert (M2 : mag radix2 (s / 2) = (mag radix2 s - 1)%Z :> Z).
      { replace (s / 2) with (s * bpow radix2 (-1)) by (change (bpow radix2 (-1)) with (/ 2); field). rewrite mag_mult_bpow by auto. lia. }
      rewrite M2. unfold SpecFloat.fexp.
      replace (Z.max (mag radix2 s - 1 - prec f) (SpecFloat.emin (prec f) (emax f))) with
        (Z.max (mag radix2 s - prec f) (SpecFloat.emin (prec f) (emax f)) - 1)%Z by lia.
      set (c := Z.max (mag radix2 s - prec f) (SpecFloat.emin (prec f) (emax f))).
      replace (s / 2 * bpow radix2 (- (c - 1))) with (s * bpow radix2 (- c)).
      - unfold F2R. simpl Fnum. simpl Fexp. replace (c - 1)%Z with (c + (-1))%Z by lia. rewrite bpow_plus. change (bpow radix2 (-1)) with (/ 2). field.
      - replace (- (c - 1))%Z with (- c + 1)%Z by lia. rewrite bpow_plus. change (bpow radix2 1) with 2. field. }
    rewrite <- E. apply rnd_gen. apply generic_format_round; [apply valid_exp_fm|apply valid_rnd_round_mode].
Qed.

Section Mid.
Context (p : platform).
Notation TT := (flt (p_T p)).
Notation ld := (fconv (p_T p) (p_X p) RNE).
Notation st m := (fconv (p_X p) (p_T p) m).

Definition midpt (a b : TT) : TT := st RNE (fdiv RNE (fadd RNE (ld a) (ld b)) (ld (f_of_Z (p_T p) RNE 2))).

Lemma ld_fin (a : TT) : is_finite a = true -> is_finite (ld a) = true /\ B2R (ld a) = B2R a.
Proof.
  intros F. pose proof (fval_ld p a) as E. rewrite (fval_finite a F) in E.
  apply fval_fin_iff in E. exact E.
Qed.
Lemma two_val : is_finite (ld (f_of_Z (p_T p) RNE 2)) = true /\ B2R (ld (f_of_Z (p_T p) RNE 2)) = 2.
Proof.
  assert (E : fval (f_of_Z (p_T p) RNE 2) = Fin 2).
  { apply f_of_Z_exact. pose proof (pow_prec_ge (p_T p)). lia. }
  rewrite <- (fval_ld p) in E. apply fval_fin_iff in E. exact E.
Qed.
Lemma format_TX r : generic_format radix2 (fexpf (p_T p)) r -> generic_format radix2 (fexpf (p_X p)) r.
Proof. apply format_sub, p_TX. Qed.
Lemma between_lt f a b r : a <= r <= b -> Rabs a < bpow radix2 (emax f) -> Rabs b < bpow radix2 (emax f) ->
  Rabs r < bpow radix2 (emax f).
Proof. intros H A B. apply Rabs_lt_inv in A, B. apply Rabs_lt. lra. Qed.

Lemma midpt_inside (a b : TT) : is_finite a = true -> is_finite b = true -> B2R a <= B2R b ->
  Rabs (rnd (p_X p) mode_NE (B2R a + B2R b)) < bpow radix2 (emax (p_X p)) ->
  is_finite (midpt a b) = true /\ B2R a <= B2R (midpt a b) <= B2R b /\
  B2R (midpt a b) = rnd (p_T p) mode_NE (rnd (p_X p) mode_NE (rnd (p_X p) mode_NE (B2R a + B2R b) / 2)).
Proof.
  intros Fa Fb Hab NO.
  destruct (ld_fin a Fa) as [Fla Ela]. destruct (ld_fin b Fb) as [Flb Elb].
  destruct two_val as [F2 E2].
  pose proof (generic_format_B2R _ _ a) as Ga. pose proof (generic_format_B2R _ _ b) as Gb.
  pose proof (format_TX _ Ga) as GXa. pose proof (format_TX _ Gb) as GXb.
  pose proof (fadd_rounds mode_NE (ld a) (ld b) Fla Flb) as S. rewrite Ela, Elb in S.
  unfold rounds in S. rewrite Rlt_bool_true in S by exact NO. destruct S as [Fs Es].
  assert (S1 : 2 * B2R a <= rnd (p_X p) mode_NE (B2R a + B2R b)).
  { rewrite <- (rnd_gen (p_X p) mode_NE (2 * B2R a)) by (apply gen_double; auto). apply rnd_le. lra. }
  assert (S2 : rnd (p_X p) mode_NE (B2R a + B2R b) <= 2 * B2R b).
  { rewrite <- (rnd_gen (p_X p) mode_NE (2 * B2R b)) by (apply gen_double; auto). apply rnd_le. lra. }
  set (s := rnd (p_X p) mode_NE (B2R a + B2R b)) in *.
  pose proof (fdiv_rounds mode_NE _ _ Fs F2) as Q. rewrite E2, Es in Q. specialize (Q ltac:(lra)).
  assert (Q1 : B2R a <= rnd (p_X p) mode_NE (s / 2) <= B2R b).
  { split.
    - rewrite <- (rnd_gen (p_X p) mode_NE (B2R a)) by auto. apply rnd_le. lra.
    - rewrite <- (rnd_gen (p_X p) mode_NE (B2R b)) by auto. apply rnd_le. lra. }
  unfold rounds in Q. rewrite Rlt_bool_true in Q.
  2:{ apply (between_lt _ (B2R a) (B2R b)); auto.
      - rewrite <- Ela. apply finite_lt_emax.
      - rewrite <- Elb. apply finite_lt_emax. }
  destruct Q as [Fq Eq].
  pose proof (fconv_rounds (p_X p) (p_T p) RNE _ Fq) as W. rewrite Eq in W.
  assert (W1 : B2R a <= rnd (p_T p) mode_NE (rnd (p_X p) mode_NE (s / 2)) <= B2R b).
  { split.
    - rewrite <- (rnd_gen (p_T p) mode_NE (B2R a)) by auto. apply rnd_le. lra.
    - rewrite <- (rnd_gen (p_T p) mode_NE (B2R b)) by auto. apply rnd_le. lra. }
  unfold rounds in W. change (md RNE) with mode_NE in W. rewrite Rlt_bool_true in W.
  2:{ apply (between_lt _ (B2R a) (B2R b)); auto; apply finite_lt_emax. }
  destruct W as [Fw Ew]. unfold midpt, fdiv, fadd. change (md RNE) with mode_NE.
  split; [exact Fw|]. rewrite Ew. split; [exact W1|reflexivity].
Qed.

(** Same evaluation format: the midpoint rounded once. *)
Lemma midpt_nearest (a b : TT) : p_X p = p_T p -> is_finite a = true -> is_finite b = true -> B2R a <= B2R b ->
  Rabs (rnd (p_X p) mode_NE (B2R a + B2R b)) < bpow radix2 (emax (p_X p)) ->
  B2R (midpt a b) = rnd (p_T p) mode_NE ((B2R a + B2R b) / 2).
Proof.
  intros EX Fa Fb Hab NO. destruct (midpt_inside a b Fa Fb Hab NO) as (_ & _ & E). rewrite E.
  rewrite EX. rewrite round_half; try apply generic_format_B2R.
  apply rnd_gen. apply generic_format_round; [apply valid_exp_fm|apply valid_rnd_round_mode].
Qed.

(** When the rounded sum cannot overflow: the exact sum is smaller than the
    overflow threshold (largest number plus half a unit). *)
Lemma no_overflow f r : Rabs r < bpow radix2 (emax f) - bpow radix2 (emax f - prec f - 1) ->
  Rabs (rnd f mode_NE r) < bpow radix2 (emax f).
Proof.
  intros H. pose proof (fmt_prec_gt_0 f) as P0. pose proof (fmt_prec_lt_emax f) as PE.
  set (mx := bpow radix2 (emax f) - bpow radix2 (emax f - prec f)).
  assert (Gm : generic_format radix2 (fexpf f) mx).
  { apply generic_format_FLT. exists (Float radix2 (2 ^ prec f - 1) (emax f - prec f)).
    - unfold F2R, mx. simpl. rewrite minus_IZR. change 2%Z with (radix_val radix2).
      rewrite IZR_Zpower by lia. rewrite Rmult_minus_distr_r, <- bpow_plus. f_equal; [f_equal; lia|lra].
    - simpl. rewrite Z.abs_eq; [lia|]. pose proof (Z.pow_gt_1 2 (prec f)). lia.
    - simpl. unfold SpecFloat.emin. lia. }
  pose proof (bpow_gt_0 radix2 (emax f - prec f)) as B0.
  assert (HB : bpow radix2 (emax f - prec f) = 2 * bpow radix2 (emax f - prec f - 1)).
  { replace (emax f - prec f)%Z with (1 + (emax f - prec f - 1))%Z at 1 by lia. rewrite bpow_plus. change (bpow radix2 1) with 2. reflexivity. }
  assert (N : Rnd_N_pt (generic_format radix2 (fexpf f)) r (rnd f mode_NE r)).
  { apply (round_N_pt radix2 (fexpf f)). }
  destruct N as [_ N].
  set (t := rnd f mode_NE r) in *. set (h := bpow radix2 (emax f - prec f - 1)) in *.
  apply Rabs_lt_inv in H. apply Rabs_lt.
  destruct (Rlt_or_le t (bpow radix2 (emax f))) as [T1|T1].
  - split; [|exact T1]. destruct (Rlt_or_le (- bpow radix2 (emax f)) t) as [T2|T2]; [exact T2|exfalso].
    destruct (Rle_or_lt (- mx) r) as [M|M].
    + assert (- mx <= t); [|unfold mx in *; lra]. unfold t.
      rewrite <- (rnd_gen f mode_NE (- mx)); [apply rnd_le; exact M|]. apply generic_format_opp; exact Gm.
    + specialize (N (- mx) (generic_format_opp _ _ _ Gm)).
      rewrite (Rabs_left1 (t - r)), (Rabs_pos_eq (- mx - r)) in N; unfold mx in *; lra.
  - exfalso. destruct (Rle_or_lt r mx) as [M|M].
    + assert (t <= mx); [|unfold mx in *; lra]. unfold t.
      rewrite <- (rnd_gen f mode_NE mx Gm). apply rnd_le; exact M.
    + specialize (N mx Gm).
      rewrite (Rabs_pos_eq (t - r)), (Rabs_left1 (mx - r)) in N; unfold mx in *; lra.
Qed.
End Mid.

Section MedianCall.
Context (p : platform) (pr : protection) (k : rkind) (debug : bool) (c : ckind) (ord : site -> bool).
Notation N := (fnum p).
Notation P := (fpol p pr k debug c ord).
Notation spec := (fpolspec p pr k debug c ord).

Lemma test_i_ordered (x : itv N) : xle (fval (low x)) (fval (up x)) -> test_input_i P x = false.
Proof. intros H. apply (cs_empty _ _ (ps_ck _ _ _ spec)). exact H. Qed.

Lemma median_runs (x : itv N) : xle (fval (low x)) (fval (up x)) ->
  runsP P (fready k) (median P x) (midpt p (low x) (up x)).
Proof.
  intros H. unfold median. rewrite test_i_ordered by exact H.
  apply (with_rnd_runs _ _ spec). intros s Hs. destruct k.
  - exists RNE. split; [exact Logic.I|reflexivity].
  - exists RUP. split; [reflexivity|reflexivity].
Qed.

Lemma bisect_runs (x : itv N) : xle (fval (low x)) (fval (up x)) ->
  let m : T N := midpt p (low x) (up x) in
  runsP P (fready k) (bisect P x) (mk (low x) m, mk m (up x)).
Proof.
  intros H m. unfold bisect. rewrite test_i_ordered by exact H.
  eapply runsP_bind; [apply median_runs; exact H|]. apply runsP_ret.
Qed.
End MedianCall.

(** Values of the midpoint when a bound is infinite. *)
Lemma midpt_inf p (a b : flt (p_T p)) : xle (fval a) (fval b) ->
  fval a <> PInf -> fval b <> NInf -> ~ (fval a = NInf /\ fval b = PInf) ->
  (exists r, fval (midpt p a b) = Fin r /\ xle (fval a) (Fin r) /\ xle (Fin r) (fval b)) \/
  fval (midpt p a b) = NInf \/ fval (midpt p a b) = PInf.
Proof.
  intros Hab Ha Hb Hn.
  assert (E2 : exists m e B, fconv (p_T p) (p_X p) RNE (f_of_Z (p_T p) RNE 2) = B754_finite false m e B).
  { destruct (two_val p) as [F E]. apply finite_pos; [exact F|]. rewrite E. lra. }
  destruct E2 as (m2 & e2 & B2 & E2).
  pose proof (fval_ld p a) as La. pose proof (fval_ld p b) as Lb.
  destruct (fval_cases a) as [(K & _)|[(K & Ka)|[(K & _)|(_ & Fa)]]].
  - rewrite K in Hab. destruct Hab.
  - (* lower = -inf *)
    destruct (fval_cases b) as [(K' & _)|[(K' & _)|[(K' & _)|(_ & Fb)]]]; try congruence.
    + rewrite K, K' in Hab. destruct Hab.
    + exfalso. apply Hn. auto.
    + right. left. unfold midpt. subst a. rewrite E2. change (fconv (p_T p) (p_X p) RNE (B754_infinity true)) with (B754_infinity true : flt (p_X p)).
      destruct (fval_cases (fconv (p_T p) (p_X p) RNE b)) as [(M & M')|[(M & M')|[(M & M')|(_ & M)]]].
      * rewrite M, (fval_finite b Fb) in Lb. discriminate.
      * rewrite M, (fval_finite b Fb) in Lb. discriminate.
      * rewrite M, (fval_finite b Fb) in Lb. discriminate.
      * destruct (fconv (p_T p) (p_X p) RNE b) as [?|?| |? ? ? ?]; try discriminate; reflexivity.
  - congruence.
  - destruct (fval_cases b) as [(K' & _)|[(K' & _)|[(K' & Kb)|(_ & Fb)]]]; try congruence.
    + rewrite K', (fval_finite a Fa) in Hab. destruct Hab.
    + right. right. unfold midpt. subst b. rewrite E2. change (fconv (p_T p) (p_X p) RNE (B754_infinity false)) with (B754_infinity false : flt (p_X p)).
      destruct (ld_fin p a Fa) as [M _].
      destruct (fconv (p_T p) (p_X p) RNE a) as [?|?| |? ? ? ?]; try discriminate; reflexivity.
    + rewrite (fval_finite a Fa), (fval_finite b Fb) in *. simpl in Hab.
      destruct (Rlt_or_le (Rabs (rnd (p_X p) mode_NE (B2R a + B2R b))) (bpow radix2 (emax (p_X p)))) as [NO|OV].
      * left. destruct (midpt_inside p a b Fa Fb Hab NO) as (F & I1 & _). exists (B2R (midpt p a b)).
        split; [apply fval_finite; exact F|]. simpl. tauto.
      * right. destruct (ld_fin p a Fa) as [Fla Ela]. destruct (ld_fin p b Fb) as [Flb Elb].
        pose proof (fadd_rounds mode_NE _ _ Fla Flb) as S. rewrite Ela, Elb in S.
        unfold rounds in S. rewrite Rlt_bool_false in S by exact OV. destruct S as (sg & S1 & S2).
        unfold midpt, fadd, fdiv. change (md RNE) with mode_NE. rewrite E2.
        assert (S3 : exists s, Bplus mode_NE (fconv (p_T p) (p_X p) RNE a) (fconv (p_T p) (p_X p) RNE b) = B754_infinity s).
        { exists sg. apply overflow_inf. rewrite S2. destruct sg; reflexivity. }
        destruct S3 as (s & ->). destruct s; [left|right]; reflexivity.
Qed.

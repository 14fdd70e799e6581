(** * Numbers that a format can represent *)

From Coq Require Import Reals ZArith Lra Lia Psatz Bool.
From Flocq Require Import Core BinarySingleNaN.
From Verif Require Import Outcome Base FloatNum Spec ExtR FloatSpec FloatPol FloatMed.
Local Open Scope R_scope.

(** ** Powers

    If a number and its n-th power have p significant bits, so have the powers in
    between. *)
Lemma odd_part m : m <> 0%Z -> exists m0 j, (0 <= j)%Z /\ m = (m0 * 2 ^ j)%Z /\ Z.odd m0 = true.
Proof.
  remember (Z.abs_nat m) as n eqn:En. revert m En. induction n as [n IH] using (well_founded_induction lt_wf). intros m -> Hm.
  destruct (Z.odd m) eqn:O; [exists m, 0%Z; split; [lia|split; [simpl; lia|exact O]]|].
  pose proof (Zdiv2_odd_eqn m) as E. rewrite O in E.
  destruct (IH (Z.abs_nat (Z.div2 m)) ltac:(lia) (Z.div2 m) eq_refl ltac:(lia)) as (m0 & j & Hj & Em & Om).
  exists m0, (j + 1)%Z. split; [lia|]. split; [|exact Om]. rewrite Z.pow_add_r, E, Em by lia. change (2 ^ 1)%Z with 2%Z. ring.
Qed.
Lemma odd_pow m n : Z.odd m = true -> Z.odd (m ^ Z.of_nat n) = true.
Proof.
  intros O. induction n as [|n IH]; [reflexivity|]. rewrite Nat2Z.inj_succ, Z.pow_succ_r by lia. rewrite Z.odd_mul, O, IH. reflexivity.
Qed.
Lemma IZR_bpow j : (0 <= j)%Z -> IZR (2 ^ j) = bpow radix2 j.
Proof. intros. change 2%Z with (radix_val radix2). apply IZR_Zpower. auto. Qed.
Lemma pow_dyadic m e n : (IZR m * bpow radix2 e) ^ n = IZR (m ^ Z.of_nat n) * bpow radix2 (Z.of_nat n * e).
Proof.
  induction n as [|n IH]; [simpl; lra|]. rewrite <- tech_pow_Rmult, IH. rewrite Nat2Z.inj_succ, Z.pow_succ_r by lia.
  replace (Z.succ (Z.of_nat n) * e)%Z with (e + Z.of_nat n * e)%Z by ring. rewrite bpow_plus, mult_IZR. ring.
Qed.

(** The reals with a p-bit mantissa and an exponent that is not too small. *)
Definition bits (prc emn : Z) (r : R) : Prop := exists m e, (Z.abs m < 2 ^ prc)%Z /\ (emn <= e)%Z /\ r = IZR m * bpow radix2 e.
Lemma bits_pow prc emn r n k : (0 < prc)%Z -> (emn <= 0)%Z -> bits prc emn r -> bits prc emn (r ^ n) -> (1 <= k <= n)%nat -> bits prc emn (r ^ k).
Proof.
  intros Hp Hemn (m & e & Hm & He & ->) (m' & e' & Hm' & He' & En) Hk.
  destruct (Z.eq_dec m 0) as [->|Nm].
  { exists 0%Z, 0%Z. split; [simpl; apply Z.pow_pos_nonneg; lia|]. split; [lia|]. rewrite !Rmult_0_l. apply pow_ne_zero. lia. }
  destruct (odd_part m Nm) as (m0 & j & Hj & -> & O).
  assert (E0 : IZR (m0 * 2 ^ j) * bpow radix2 e = IZR m0 * bpow radix2 (j + e)).
  { rewrite mult_IZR, IZR_bpow, bpow_plus by lia. ring. }
  rewrite E0 in *. rewrite pow_dyadic in En. set (e0 := (j + e)%Z) in *. assert (He0 : (emn <= e0)%Z) by (unfold e0; lia).
  assert (M0 : m0 <> 0%Z) by (intros ->; discriminate O).
  assert (A : (e' <= Z.of_nat n * e0)%Z /\ (Z.abs (m0 ^ Z.of_nat n) <= Z.abs m')%Z).
  { destruct (Z_lt_le_dec (Z.of_nat n * e0) e') as [L|L].
    - exfalso. assert (Q : (m0 ^ Z.of_nat n = m' * 2 ^ (e' - Z.of_nat n * e0))%Z).
      { apply eq_IZR. rewrite mult_IZR, IZR_bpow by lia.
        apply Rmult_eq_reg_r with (bpow radix2 (Z.of_nat n * e0)); [|apply Rgt_not_eq, bpow_gt_0].
        rewrite En, Rmult_assoc, <- bpow_plus. f_equal. f_equal. lia. }
      pose proof (odd_pow m0 n O) as On. rewrite Q in On. rewrite Z.odd_mul in On. apply andb_prop in On. destruct On as [_ On].
      replace (e' - Z.of_nat n * e0)%Z with (Z.succ (e' - Z.of_nat n * e0 - 1)) in On by lia. rewrite Z.pow_succ_r in On by lia.
      rewrite Z.odd_mul in On. discriminate On.
    - split; [exact L|]. assert (Q : (m' = m0 ^ Z.of_nat n * 2 ^ (Z.of_nat n * e0 - e'))%Z).
      { apply eq_IZR. rewrite mult_IZR, IZR_bpow by lia.
        apply Rmult_eq_reg_r with (bpow radix2 e'); [|apply Rgt_not_eq, bpow_gt_0].
        rewrite <- En, Rmult_assoc, <- bpow_plus. f_equal. f_equal. lia. }
      rewrite Q, Z.abs_mul. assert (0 < 2 ^ (Z.of_nat n * e0 - e'))%Z by (apply Z.pow_pos_nonneg; lia).
      rewrite (Z.abs_eq (2 ^ _)) by lia. nia. }
  destruct A as [A1 A2].
  exists (m0 ^ Z.of_nat k)%Z, (Z.of_nat k * e0)%Z. split; [|split].
  - apply Z.le_lt_trans with (2 := Hm'). apply Z.le_trans with (2 := A2). rewrite !Z.abs_pow.
    apply Z.pow_le_mono_r; lia.
  - destruct (Z_lt_le_dec e0 0); nia.
  - apply pow_dyadic.
Qed.

Section Format.
Context (f : fmt).
Notation emn := (SpecFloat.emin (prec f) (emax f)).
Lemma repr_iff r : (exists t : flt f, fval t = Fin r) <-> bits (prec f) emn r /\ Rabs r < bpow radix2 (emax f).
Proof.
  split.
  - intros (t & E). apply fval_fin_iff in E. destruct E as [F <-]. split; [|apply abs_B2R_lt_emax].
    pose proof (generic_format_B2R _ _ t) as G. apply (FLT_format_generic radix2 emn (prec f)) in G.
    destruct G as [[m e] H1 H2 H3]. exists m, e. split; [exact H2|]. split; [exact H3|]. rewrite H1. reflexivity.
  - intros [(m & e & Hm & He & ->) B].
    pose proof (normalize_rounds (f := f) mode_NE m e false) as K. unfold rounds in K.
    assert (G : generic_format radix2 (fexpf f) (F2R (Float radix2 m e))).
    { apply generic_format_FLT. exists (Float radix2 m e); auto. }
    rewrite (rnd_gen _ _ _ G) in K. rewrite Rlt_bool_true in K by exact B.
    eexists. apply fval_fin_iff. exact K.
Qed.
Lemma repr_pow r n k : (exists t : flt f, fval t = Fin r) -> (exists t : flt f, fval t = Fin (r ^ n)) -> (1 <= k <= n)%nat ->
  exists t : flt f, fval t = Fin (r ^ k).
Proof.
  intros A B Hk. apply repr_iff in A. apply repr_iff in B. apply repr_iff. destruct A as [A1 A2], B as [B1 B2].
  pose proof (fmt_prec_gt_0 f) as P0. pose proof (fmt_PE f) as PE. unfold Prec_lt_emax in PE.
  split; [apply (bits_pow _ _ r n k); auto; unfold SpecFloat.emin; lia|].
  rewrite <- RPow_abs in *. destruct (Rle_or_lt (Rabs r) 1) as [L|L].
  - apply Rle_lt_trans with 1; [|apply (bpow_lt radix2 0); lia].
    rewrite <- (pow1 k). apply pow_incr. split; [apply Rabs_pos|exact L].
  - apply Rle_lt_trans with (2 := B2). apply Rle_pow; [lra|lia].
Qed.
Lemma repr_Z z : (Z.abs z <= 2 ^ prec f)%Z -> exists t : flt f, fval t = Fin (IZR z).
Proof. intros Hz. exists (f_of_Z f RNE z). apply f_of_Z_exact. exact Hz. Qed.
End Format.

(** * The polynomial of examples/newton-raphson.cpp *)

From Coq Require Import Reals ZArith Lra Lia Psatz.
From Flocq Require Import Core.
Local Open Scope R_scope.

Definition quintic (r : R) : R := r * (r - 1) * (r - 2) * (r - 3) * (r - 4).
Definition quintic' (r : R) : R := (((5 * r - 40) * r + 105) * r - 100) * r + 24.

Lemma quintic_derive r : derivable_pt_lim quintic r (quintic' r).
Proof.
  assert (D : forall c, derivable_pt_lim (fun x => x - c) r 1).
  { intros c. replace 1 with (1 - 0) by ring.
    apply derivable_pt_lim_minus; [apply derivable_pt_lim_id|apply derivable_pt_lim_const]. }
  unfold quintic. pose proof (derivable_pt_lim_id r) as D0.
  pose proof (derivable_pt_lim_mult _ _ _ _ _ D0 (D 1)) as E1.
  pose proof (derivable_pt_lim_mult _ _ _ _ _ E1 (D 2)) as E2.
  pose proof (derivable_pt_lim_mult _ _ _ _ _ E2 (D 3)) as E3.
  pose proof (derivable_pt_lim_mult _ _ _ _ _ E3 (D 4)) as E4.
  match type of E4 with derivable_pt_lim _ _ ?v => replace (quintic' r) with v end.
  - exact E4.
  - unfold mult_fct, id, quintic'. ring.
Qed.

(** Mean value theorem, both orders. *)
Lemma quintic_mvt c r : c <> r -> exists t, Rmin c r <= t <= Rmax c r /\ quintic c - quintic r = quintic' t * (c - r).
Proof.
  intros N. destruct (Rtotal_order c r) as [L|[E|L]]; [|congruence|].
  - destruct (MVT_cor2 quintic quintic' c r L) as (t & E & K); [intros; apply quintic_derive|].
    exists t. rewrite Rmin_left, Rmax_right by lra. split; lra.
  - destruct (MVT_cor2 quintic quintic' r c L) as (t & E & K); [intros; apply quintic_derive|].
    exists t. rewrite Rmin_right, Rmax_left by lra. split; lra.
Qed.

Lemma quintic_roots r : quintic r = 0 <-> r = 0 \/ r = 1 \/ r = 2 \/ r = 3 \/ r = 4.
Proof.
  unfold quintic. split.
  - intros E. repeat (apply Rmult_integral in E; destruct E as [E|E]); lra.
  - intros [->|[->|[->|[->| ->]]]]; ring.
Qed.

(** The derivative has no zero among binary numbers. *)
Definition quinticZ (m b : Z) : Z := (5 * m^4 - 40 * m^3 * b + 105 * m^2 * b^2 - 100 * m * b^3 + 24 * b^4)%Z.
Lemma odd_nz (c x : Z) : (c <> 0 -> c * (2 * x + 1) <> 0)%Z.
Proof. intros C E. apply Z.mul_eq_0 in E. lia. Qed.
Lemma quinticZ_nz (k : nat) : forall m, quinticZ m (2 ^ Z.of_nat k) <> 0%Z.
Proof.
  assert (EO : forall m : Z, (exists q, m = 2 * q)%Z \/ (exists q, m = 2 * q + 1)%Z).
  { intros m. destruct (Z.Even_or_Odd m) as [[q ->]|[q ->]]; eauto. }
  induction k as [|k IH]; intros m.
  - change (2 ^ Z.of_nat 0)%Z with 1%Z. unfold quinticZ.
    destruct (EO m) as [[q ->]|[q ->]].
    + destruct (EO q) as [[s ->]|[s ->]]; intros E.
      * apply (odd_nz 8 (80 * s^4 - 160 * s^3 + 105 * s^2 - 25 * s + 1)); [discriminate|].
        rewrite <- E. ring.
      * apply (odd_nz 4 (10 * (2*s+1)^4 - 40 * (2*s+1)^3 + 105 * (2*s^2 + 2*s) + 52 - 25 * (2*s+1) + 3)); [discriminate|].
        rewrite <- E. ring.
    + intros E.
      apply (odd_nz 2 (5 * (4*q^4 + 8*q^3 + 6*q^2 + 2*q) - 10 * (2*q+1)^3 + 105 * (q^2 + q) - 25 * (2*q+1) + 33)); [discriminate|].
      rewrite <- E. ring.
  - rewrite Nat2Z.inj_succ, Z.pow_succ_r by lia. set (b := (2 ^ Z.of_nat k)%Z) in *.
    destruct (EO m) as [[q ->]|[q ->]]; intros E.
    + apply (IH q). assert (16 * quinticZ q b = 0)%Z by (rewrite <- E; unfold quinticZ; ring). lia.
    + unfold quinticZ in E.
      apply (odd_nz 1 (5 * (8*q^4 + 16*q^3 + 12*q^2 + 4*q) + 2 - 40 * (2*q+1)^3 * b + 210 * (2*q+1)^2 * b^2 - 400 * (2*q+1) * b^3 + 192 * b^4)); [discriminate|].
      rewrite <- E. ring.
Qed.
Lemma quintic'_nz (m e : Z) : quintic' (IZR m * bpow radix2 e) <> 0.
Proof.
  destruct (Z.le_gt_cases 0 e) as [He|He].
  - assert (E : IZR m * bpow radix2 e = IZR (m * 2 ^ e)).
    { rewrite mult_IZR. f_equal. change 2%Z with (radix_val radix2). rewrite IZR_Zpower by lia. reflexivity. }
    rewrite E. set (n := (m * 2 ^ e)%Z). intros K.
    apply (quinticZ_nz 0 n). change (2 ^ Z.of_nat 0)%Z with 1%Z. apply eq_IZR. rewrite <- K.
    unfold quinticZ, quintic'.
    replace (5 * n ^ 4 - 40 * n ^ 3 * 1 + 105 * n ^ 2 * 1 ^ 2 - 100 * n * 1 ^ 3 + 24 * 1 ^ 4)%Z
      with ((((5 * n - 40) * n + 105) * n - 100) * n + 24)%Z by ring.
    repeat (rewrite ?plus_IZR, ?minus_IZR, ?mult_IZR). reflexivity.
  - intros K. apply (quinticZ_nz (Z.to_nat (- e)) m). rewrite Z2Nat.id by lia.
    set (b := (2 ^ (- e))%Z). apply eq_IZR.
    assert (B : bpow radix2 e * IZR b = 1).
    { unfold b. change 2%Z with (radix_val radix2). rewrite IZR_Zpower by lia. rewrite <- bpow_plus.
      replace (e + - e)%Z with 0%Z by lia. reflexivity. }
    set (h := bpow radix2 e) in *.
    transitivity (quintic' (IZR m * h) * IZR b ^ 4); [|rewrite K; ring].
    unfold quinticZ, quintic'.
    replace (5 * m ^ 4 - 40 * m ^ 3 * b + 105 * m ^ 2 * b ^ 2 - 100 * m * b ^ 3 + 24 * b ^ 4)%Z
      with (5 * (m * m * m * m) - 40 * (m * m * m) * b + 105 * (m * m) * (b * b) - 100 * m * (b * b * b) + 24 * (b * b * b * b))%Z by ring.
    repeat (rewrite ?plus_IZR, ?minus_IZR, ?mult_IZR).
    generalize dependent (IZR b). intros B BE. set (M := IZR m) in *.
    transitivity (5 * M^4 * (h * B)^4 - 40 * M^3 * (h*B)^3 * B + 105 * M^2 * (h * B)^2 * B^2 - 100 * M * (h*B) * B^3 + 24 * B^4).
    + rewrite BE. ring.
    + ring.
Qed.

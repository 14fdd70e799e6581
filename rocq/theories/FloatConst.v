(** * The constants are evaluated without rounding and enclose pi *)

From Coq Require Import Reals ZArith Lra Lia Bool QArith Qreals.
From Flocq Require Import Core BinarySingleNaN.
From Verif Require Import Outcome Base Checking Interval Utility Arith Arith2 FloatNum Spec ExtR Sem FloatSpec FloatPol
  Transc TransReal CoreTrig.
Local Open Scope R_scope.

(** The number m 2^e. *)
Definition dyad (m : positive) (e : Z) : R := IZR (Zpos m) * bpow radix2 e.
Lemma sf_val f (t : flt f) m e : B2SF t = SpecFloat.S754_finite false m e -> fval t = Fin (dyad m e).
Proof.
  destruct t as [s|s| |s m' e' B]; simpl; try discriminate. intros [= -> -> ->].
  unfold dyad, F2R. simpl. reflexivity.
Qed.

(** A computation whose result does not depend on the mode. *)
Lemma modeless {p} (g : rmode -> flt (p_T p)) v (c : M (T (fnum p))) :
  (forall s, c s = (Ok (g s : T (fnum p)), s)) -> (forall s, B2SF (g s) = v) -> pureM c (g RNE : T (fnum p)).
Proof.
  intros E F s. rewrite E. do 2 f_equal. apply B2SF_inj. rewrite !F. reflexivity.
Qed.
Lemma const_ok {p} (g : rmode -> flt (p_T p)) m e (c : M (T (fnum p))) :
  (forall s, c s = (Ok (g s : T (fnum p)), s)) -> (forall s, B2SF (g s) = SpecFloat.S754_finite false m e) ->
  exists t : T (fnum p), fval t = Fin (dyad m e) /\ pureM c t.
Proof.
  intros E F. exists (g RNE : T (fnum p)). split; [apply (sf_val _ _ m e), F|]. eapply modeless; eauto.
Qed.

(** The bounds: pi for float is m/2^22, for double m/2^51. *)
Definition mfl := 13176794%positive.
Definition mfu := 13176795%positive.
Definition mdl := 7074237752028440%positive.
Definition mdu := 7074237752028441%positive.

Lemma pi_f_sf p m0 : p = float_sse \/ p = float_x87 ->
  B2SF (pi_f p m0 13176794) = SpecFloat.S754_finite false mfl (-22) /\
  B2SF (pi_f p m0 13176795) = SpecFloat.S754_finite false mfu (-22).
Proof. intros [-> | ->]; destruct m0; split; vm_compute; reflexivity. Qed.
Lemma pi_d_sf p m0 : p = double_sse \/ p = double_x87 ->
  B2SF (pi_d p m0 273688) = SpecFloat.S754_finite false mdl (-51) /\
  B2SF (pi_d p m0 273689) = SpecFloat.S754_finite false mdu (-51).
Proof. intros [-> | ->]; destruct m0; split; vm_compute; reflexivity. Qed.

Lemma dyad_half m e : dyad m (e - 1) = dyad m e / 2.
Proof. unfold dyad, Z.sub. rewrite bpow_plus. change (bpow radix2 (Z.opp 1)) with (/ 2). lra. Qed.
Lemma dyad_twice m e : dyad m (e + 1) = dyad m e * 2.
Proof. unfold dyad. rewrite bpow_plus. change (bpow radix2 1) with 2. lra. Qed.
Lemma dyad_q m e q : Qeq (Zpos m # (Z.to_pos (2 ^ (- e)))) q -> (e < 0)%Z -> dyad m e = Q2R q.
Proof.
  intros E L. apply Qeq_eqR in E. rewrite <- E. unfold Q2R, dyad. cbn [Qnum Qden].
  rewrite Z2Pos.id by (apply Z.pow_pos_nonneg; lia).
  change 2%Z with (radix_val radix2). rewrite IZR_Zpower by lia. rewrite <- bpow_opp. rewrite Z.opp_involutive. reflexivity.
Qed.
Lemma float_pi : dyad mfl (-22) < PI < dyad mfu (-22).
Proof.
  rewrite (dyad_q mfl (-22) pi_fl), (dyad_q mfu (-22) pi_fu) by (try lia; vm_compute; reflexivity).
  apply pi_float_bounds.
Qed.
Lemma double_pi : dyad mdl (-51) < PI < dyad mdu (-51).
Proof.
  rewrite (dyad_q mdl (-51) pi_dl), (dyad_q mdu (-51) pi_du) by (try lia; vm_compute; reflexivity).
  apply pi_double_bounds.
Qed.
Lemma dyad_gap m e : dyad (Pos.succ m) e - dyad m e = bpow radix2 e.
Proof. unfold dyad. rewrite Pos2Z.inj_succ, succ_IZR. ring. Qed.


(** Each of the six results is the same in every mode. *)
Lemma const_ret {p} (t : flt (p_T p)) m e : B2SF t = SpecFloat.S754_finite false m e ->
  exists t' : T (fnum p), fval t' = Fin (dyad m e) /\ pureM (ret (t : T (fnum p))) t'.
Proof. intros E. exists t. split; [exact (sf_val _ t m e E)|]. apply pureM_ret. Qed.
Lemma const_half {p} (t : flt (p_T p)) m e :
  (forall s, B2SF (fconv (p_X p) (p_T p) s (fdiv s (fconv (p_T p) (p_X p) RNE t) (fconv (p_T p) (p_X p) RNE (f_of_Z (p_T p) RNE 2)))) =
     SpecFloat.S754_finite false m e) ->
  exists t' : T (fnum p), fval t' = Fin (dyad m e) /\
    pureM (let! q := e_div (n_load (fnum p) t) (n_load (fnum p) (n_cst (fnum p) 2)) in e_store q) t'.
Proof. intros E. refine (const_ok _ m e _ _ E). intros s. reflexivity. Qed.
Lemma const_twice {p} (t : flt (p_T p)) m e :
  (forall s, B2SF (fconv (p_X p) (p_T p) s (fmul s (fconv (p_T p) (p_X p) RNE t) (fconv (p_T p) (p_X p) RNE (f_of_Z (p_T p) RNE 2)))) =
     SpecFloat.S754_finite false m e) ->
  exists t' : T (fnum p), fval t' = Fin (dyad m e) /\
    pureM (let! q := e_mul (n_load (fnum p) t) (n_load (fnum p) (n_cst (fnum p) 2)) in e_store q) t'.
Proof. intros E. refine (const_ok _ m e _ _ E). intros s. reflexivity. Qed.
Lemma const_conv {p} (g : rmode -> flt (p_T p)) m e : (forall s, B2SF (g s) = SpecFloat.S754_finite false m e) ->
  exists t' : T (fnum p), fval t' = Fin (dyad m e) /\ pureM (under_mode (fun s => Ok (g s : T (fnum p)))) t'.
Proof. intros E. refine (const_ok g m e _ _ E). intros s. reflexivity. Qed.
Ltac modes := intros s; destruct s; vm_compute; reflexivity.

Lemma pi_bounds_k pl pu hl hu tl tu : pl < PI < pu -> hl = pl / 2 -> hu = pu / 2 -> tl = pl * 2 -> tu = pu * 2 -> 3 <= pl ->
  (pl <= PI <= pu) /\ (hl <= PI / 2 <= hu) /\ (tl <= 2 * PI <= tu) /\ (3 <= pl /\ 1 <= hl /\ 6 <= tl /\ tu <= 2 * pu).
Proof. intros. repeat split; lra. Qed.
Lemma three_le_float : 3 <= dyad mfl (-22).
Proof.
  rewrite (dyad_q mfl (-22) pi_fl) by (try lia; vm_compute; reflexivity).
  assert (Q : (3 <= pi_fl)%Q) by (vm_compute; discriminate). apply Qle_Rle in Q. replace (Q2R 3) with 3 in Q by (unfold Q2R; simpl; lra). exact Q.
Qed.
Lemma three_le_double : 3 <= dyad mdl (-51).
Proof.
  rewrite (dyad_q mdl (-51) pi_dl) by (try lia; vm_compute; reflexivity).
  assert (Q : (3 <= pi_dl)%Q) by (vm_compute; discriminate). apply Qle_Rle in Q. replace (Q2R 3) with 3 in Q by (unfold Q2R; simpl; lra). exact Q.
Qed.

Definition kfloat p m0 := kspec (N := fnum p) fval (consts_float p m0)
  (dyad mfl (-22)) (dyad mfu (-22)) (dyad mfl (-23)) (dyad mfu (-23)) (dyad mfl (-21)) (dyad mfu (-21)).
Lemma float_k p m0 : p = float_sse \/ p = float_x87 -> kfloat p m0.
Proof.
  intros Hp.
  destruct (pi_bounds_k _ _ _ _ _ _ float_pi (dyad_half mfl (-22)) (dyad_half mfu (-22)) (dyad_twice mfl (-22)) (dyad_twice mfu (-22)) three_le_float)
    as (A & B & C & D).
  destruct (pi_f_sf p m0 Hp) as [F1 F2]. destruct (pi_f_sf p RNE Hp) as [G1 G2].
  assert (R1 : pi_f p m0 13176794 = pi_f p RNE 13176794) by (apply B2SF_inj; congruence).
  assert (R2 : pi_f p m0 13176795 = pi_f p RNE 13176795) by (apply B2SF_inj; congruence).
  unfold kfloat, consts_float. rewrite R1, R2. clear R1 R2 F1 F2 G1 G2.
  destruct Hp as [-> | ->];
  (split; cbn [consts_from k_pi_l k_pi_u k_half_l k_half_u k_twice_l k_twice_u];
   [apply const_ret; vm_compute; reflexivity|apply const_ret; vm_compute; reflexivity|apply const_half; modes|apply const_half; modes|apply const_twice; modes|apply const_twice; modes|exact A|exact B|exact C|exact D]).
Qed.

Definition kdouble p m0 := kspec (N := fnum p) fval (consts_double p m0)
  (dyad mdl (-51)) (dyad mdu (-51)) (dyad mdl (-52)) (dyad mdu (-52)) (dyad mdl (-50)) (dyad mdu (-50)).
Lemma double_k p m0 : p = double_sse \/ p = double_x87 -> kdouble p m0.
Proof.
  intros Hp.
  destruct (pi_bounds_k _ _ _ _ _ _ double_pi (dyad_half mdl (-51)) (dyad_half mdu (-51)) (dyad_twice mdl (-51)) (dyad_twice mdu (-51)) three_le_double)
    as (A & B & C & D).
  destruct (pi_d_sf p m0 Hp) as [F1 F2]. destruct (pi_d_sf p RNE Hp) as [G1 G2].
  assert (R1 : pi_d p m0 273688 = pi_d p RNE 273688) by (apply B2SF_inj; congruence).
  assert (R2 : pi_d p m0 273689 = pi_d p RNE 273689) by (apply B2SF_inj; congruence).
  unfold kdouble, consts_double. rewrite R1, R2. clear R1 R2 F1 F2 G1 G2.
  destruct Hp as [-> | ->];
  (split; cbn [consts_from k_pi_l k_pi_u k_half_l k_half_u k_twice_l k_twice_u];
   [apply const_ret; vm_compute; reflexivity|apply const_ret; vm_compute; reflexivity|apply const_half; modes|apply const_half; modes|apply const_twice; modes|apply const_twice; modes|exact A|exact B|exact C|exact D]).
Qed.

(** long double: the bounds of double; the platform of double goes with it. *)
Definition ld_pair p pd : Prop := (p = long_double_c99 /\ pd = double_sse) \/ (p = long_double_x87 /\ pd = double_x87).
Definition mll := (mdl * 2048)%positive.
Definition mlu := (mdu * 2048)%positive.
Lemma dyad_shift e : dyad mll (e - 11) = dyad mdl e /\ dyad mlu (e - 11) = dyad mdu e.
Proof.
  unfold dyad, mll, mlu, Z.sub. rewrite bpow_plus, !Pos2Z.inj_mul, !mult_IZR. change (bpow radix2 (Z.opp 11)) with (/ 2048).
  split; lra.
Qed.
Definition klong p pd m0 := kspec (N := fnum p) fval (consts_long_double p pd m0)
  (dyad mdl (-51)) (dyad mdu (-51)) (dyad mdl (-52)) (dyad mdu (-52)) (dyad mdl (-50)) (dyad mdu (-50)).
Lemma long_k p pd m0 : ld_pair p pd -> klong p pd m0.
Proof.
  intros Hp.
  destruct (pi_bounds_k _ _ _ _ _ _ double_pi (dyad_half mdl (-51)) (dyad_half mdu (-51)) (dyad_twice mdl (-51)) (dyad_twice mdu (-51)) three_le_double)
    as (A & B & C & D).
  assert (Hp' : pd = double_sse \/ pd = double_x87) by (destruct Hp as [[_ ->]|[_ ->]]; auto).
  destruct (pi_d_sf pd m0 Hp') as [F1 F2]. destruct (pi_d_sf pd RNE Hp') as [G1 G2].
  assert (R1 : pi_d pd m0 273688 = pi_d pd RNE 273688) by (apply B2SF_inj; congruence).
  assert (R2 : pi_d pd m0 273689 = pi_d pd RNE 273689) by (apply B2SF_inj; congruence).
  change (-51 - 1)%Z with (-52)%Z in *. change (-51 + 1)%Z with (-50)%Z in *.
  unfold klong, consts_long_double. rewrite R1, R2. clear R1 R2 F1 F2 G1 G2 Hp'.
  rewrite <- (proj1 (dyad_shift (-51))), <- (proj2 (dyad_shift (-51))), <- (proj1 (dyad_shift (-52))), <- (proj2 (dyad_shift (-52))),
    <- (proj1 (dyad_shift (-50))), <- (proj2 (dyad_shift (-50))) in *.
  destruct Hp as [[-> ->]|[-> ->]];
  (split; cbn [k_pi_l k_pi_u k_half_l k_half_u k_twice_l k_twice_u];
   [apply const_conv; modes|apply const_conv; modes|apply const_conv; modes|apply const_conv; modes|apply const_conv; modes|apply const_conv; modes|exact A|exact B|exact C|exact D]).
Qed.

(** Any other type: 3 and 4, 1 and 2, 6 and 7. *)
Lemma generic_k p : (3 <= prec (p_T p))%Z ->
  kspec (N := fnum p) fval (consts_generic (fnum p)) 3 4 1 2 6 7.
Proof.
  intros P3. pose proof pi_3_4 as [A B].
  assert (Z3 : (8 <= 2 ^ prec (p_T p))%Z) by (change 8%Z with (2 ^ 3)%Z; apply Z.pow_le_mono_r; lia).
  assert (K : forall z, (0 < Z.abs z <= 7)%Z -> exists t : T (fnum p), fval t = Fin (IZR z) /\ pureM (under_mode (fun m => n_of_int (fnum p) m z)) t).
  { intros z Hz. exists (f_of_Z (p_T p) RNE z : T (fnum p)). split; [apply (f_of_Z_exact (p_T p)); lia|].
    intros s. unfold under_mode. cbn. do 2 f_equal. apply fval_inj_nz; rewrite !f_of_Z_exact by lia; auto.
    intros [= E]. apply eq_IZR_R0 in E. lia. }
  split; cbn [consts_generic k_pi_l k_pi_u k_half_l k_half_u k_twice_l k_twice_u]; try (apply K; lia); lra.
Qed.

(** Consecutive numbers of a format: nothing lies strictly between m 2^e and
    (m+1) 2^e if m has prec digits. *)
Lemma adjacent f m e (t : flt f) r : (2 ^ (prec f - 1) <= Zpos m)%Z -> (SpecFloat.emin (prec f) (emax f) <= e)%Z ->
  fval t = Fin r -> dyad m e < r -> dyad (Pos.succ m) e <= r.
Proof.
  intros Hm He Et L. apply fval_fin_iff in Et. destruct Et as [Ft <-].
  pose proof (fmt_prec_gt_0 f) as P0.
  assert (G : generic_format radix2 (fexpf f) (B2R t)) by apply generic_format_B2R.
  assert (M : bpow radix2 (prec f - 1 + e) <= B2R t).
  { left. refine (Rle_lt_trans _ _ _ _ L). unfold dyad. rewrite bpow_plus. apply Rmult_le_compat_r; [apply bpow_ge_0|].
    rewrite <- IZR_Zpower by lia. apply IZR_le. exact Hm. }
  assert (Pt : 0 < B2R t) by (refine (Rlt_le_trans _ _ _ _ M); apply bpow_gt_0).
  assert (C : (e <= cexp radix2 (fexpf f) (B2R t))%Z).
  { unfold cexp. assert ((prec f + e <= mag radix2 (B2R t))%Z).
    { replace (prec f + e)%Z with (prec f - 1 + e + 1)%Z by ring. apply mag_ge_bpow.
      rewrite Rabs_pos_eq by lra. replace (prec f - 1 + e + 1 - 1)%Z with (prec f - 1 + e)%Z by ring. exact M. }
    unfold SpecFloat.fexp. lia. }
  rewrite G in L |- *. set (M0 := Ztrunc _) in *. set (E0 := cexp _ _ _) in *.
  unfold F2R in *. cbn [Fnum Flocq.Core.Defs.Fexp] in *.
  assert (E : IZR M0 * bpow radix2 E0 = IZR (M0 * 2 ^ (E0 - e)) * bpow radix2 e).
  { rewrite mult_IZR. change 2%Z with (radix_val radix2) at 1. rewrite IZR_Zpower by lia. rewrite Rmult_assoc, <- bpow_plus. do 2 f_equal. ring. }
  rewrite E in *. unfold dyad in *. pose proof (bpow_gt_0 radix2 e).
  apply Rmult_lt_reg_r in L; auto. apply lt_IZR in L.
  apply Rmult_le_compat_r; [lra|]. apply IZR_le. lia.
Qed.

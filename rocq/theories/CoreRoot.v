(** * The Newton iteration of nth_root: enclosure and termination *)

From Coq Require Import Reals ZArith Lra Lia Bool Psatz.
From Flocq Require Import Core BinarySingleNaN.
From Verif Require Import Outcome Base Checking Interval Utility Arith Arith2 FloatNum Spec ExtR Sem
  CoreArith CoreDiv CoreMore CoreFun CorePow CoreUtil FloatSpec FloatPol FloatMed.
Local Open Scope R_scope.

(** ** Real roots *)
Lemma real_root x n : 1 <= x -> (0 < n)%nat -> exists r, 1 <= r /\ r ^ n = x.
Proof.
  intros Hx Hn. exists (Rpower x (/ INR n)).
  assert (Pn : 0 < INR n) by (apply lt_0_INR; auto).
  split.
  - rewrite <- (Rpower_O x) at 1 by lra. destruct (Req_dec x 1) as [->|Nx].
    + unfold Rpower. rewrite ln_1, !Rmult_0_r. lra.
    + apply Rle_Rpower; [lra|]. apply Rlt_le, Rinv_0_lt_compat; auto.
  - rewrite <- Rpower_pow by apply exp_pos. rewrite Rpower_mult, Rinv_l by lra. apply Rpower_1. lra.
Qed.

Lemma newton_mvt n a r : 0 < a -> 0 < r -> exists xi, (Rmin a r <= xi <= Rmax a r) /\
  a ^ n - r ^ n = INR n * xi ^ Nat.pred n * (a - r).
Proof.
  intros Ha Hr. destruct (total_order_T a r) as [[L|E]|L].
  - destruct (MVT_cor2 (fun y => y ^ n) (fun y => INR n * y ^ Nat.pred n) a r L) as (c & E & B).
    { intros c _. apply derivable_pt_lim_pow. }
    exists c. rewrite Rmin_left, Rmax_right by lra. split; [lra|]. lra.
  - subst. exists r. rewrite Rmin_left, Rmax_left by lra. split; [lra|]. lra.
  - destruct (MVT_cor2 (fun y => y ^ n) (fun y => INR n * y ^ Nat.pred n) r a L) as (c & E & B).
    { intros c _. apply derivable_pt_lim_pow. }
    exists c. rewrite Rmin_right, Rmax_left by lra. split; [lra|]. lra.
Qed.

Lemma pow_ge_1 r n : 1 <= r -> 1 <= r ^ n.
Proof. intros H. apply pow_R1_Rle. auto. Qed.

Lemma pow_le_inv a b n : (0 < n)%nat -> 0 <= a -> 0 <= b -> a ^ n <= b ^ n -> a <= b.
Proof.
  intros Hn Ha Hb H. destruct (Rle_or_lt a b) as [L|L]; auto. exfalso.
  assert (b ^ n < a ^ n); [|lra].
  destruct n; [lia|]. clear H Hn. induction n; [simpl; lra|].
  change (b * b ^ S n < a * a ^ S n). assert (0 <= b ^ S n) by (apply pow_le; auto).
  apply Rle_lt_trans with (b * a ^ S n); [apply Rmult_le_compat_l; lra|]. apply Rmult_lt_compat_r; lra.
Qed.

Lemma nat_above r : exists m, r <= INR m.
Proof.
  exists (Z.to_nat (Zceil r)). rewrite INR_IZR_INZ.
  eapply Rle_trans; [apply Zceil_ub|]. apply IZR_le. lia.
Qed.

(** ** Floats not below one are multiples of 2^(1-prec) *)
Lemma float_int f (t : flt f) : 1 <= B2R t -> exists z, B2R t * bpow radix2 (prec f - 1) = IZR z.
Proof.
  intros H. pose proof (generic_format_B2R _ _ t) as G.
  pose proof (fmt_prec_gt_0 f) as P0. unfold generic_format, scaled_mantissa in G.
  set (c := cexp radix2 (SpecFloat.fexp (prec f) (emax f)) (B2R t)) in *.
  assert (C : (1 - prec f <= c)%Z).
  { unfold c, cexp, SpecFloat.fexp. assert (1 <= mag radix2 (B2R t))%Z; [|lia].
    apply mag_ge_bpow. change (bpow radix2 (1 - 1)) with 1. rewrite Rabs_pos_eq; lra. }
  exists (Ztrunc (B2R t * bpow radix2 (- c)) * 2 ^ (c + prec f - 1))%Z.
  rewrite G at 1. unfold F2R. simpl Fnum. simpl Fexp. rewrite mult_IZR, Rmult_assoc, <- bpow_plus.
  f_equal. change 2%Z with (radix_val radix2). rewrite IZR_Zpower by lia. f_equal; lia.
Qed.

Lemma max_float p : exists t : flt (p_T p), fval t = Fin (max_val (f := p_T p)).
Proof.
  set (f := p_T p).
  pose proof (fmt_prec_gt_0 f) as P0. pose proof (fmt_prec_lt_emax f) as PE.
  exists (binary_normalize (prec f) (emax f) (fmt_P0 f) (fmt_PE f) mode_NE (2 ^ prec f - 1) (emax f - prec f) false).
  pose proof (normalize_rounds (f := f) mode_NE (2 ^ prec f - 1) (emax f - prec f) false) as K.
  assert (E : F2R (Float radix2 (2 ^ prec f - 1) (emax f - prec f)) = max_val (f := f)).
  { unfold F2R, max_val. simpl. rewrite minus_IZR. change 2%Z with (radix_val radix2).
    rewrite IZR_Zpower by lia. rewrite Rmult_minus_distr_r, <- bpow_plus. f_equal; [f_equal; lia|lra]. }
  assert (G : generic_format radix2 (fexpf f) (max_val (f := f))).
  { apply generic_format_FLT. exists (Float radix2 (2 ^ prec f - 1) (emax f - prec f)).
    - symmetry; exact E.
    - simpl. rewrite Z.abs_eq; [lia|]. pose proof (Z.pow_gt_1 2 (prec f)). lia.
    - simpl. unfold SpecFloat.emin. lia. }
  rewrite E in K. unfold rounds in K. rewrite (rnd_gen f mode_NE _ G) in K.
  assert (B : 0 < bpow radix2 (emax f - prec f) < bpow radix2 (emax f)).
  { split; [apply bpow_gt_0|apply bpow_lt; lia]. }
  rewrite Rlt_bool_true in K.
  2:{ unfold max_val. rewrite Rabs_pos_eq; lra. }
  apply fval_fin_iff. exact K.
Qed.

Section Root.
Context (p : platform) (pr : protection) (k : rkind) (debug : bool) (c : ckind) (ord : site -> bool).
Notation N := (fnum p).
Notation Q := (fpol p pr k debug c ord).
Notation spec := (fpolspec p pr k debug c ord).
Notation ready := (fready k).
Notation fv := (@fval (p_T p)).

(** The format has room to add the two ends of the search interval. *)
Definition wide : Prop := (2 * prec (p_T p) + 2 <= emax (p_T p))%Z.

Section Loop.
Context (W : wide) (x tk : T N) (n : Z) (xv : R).
Context (Hn : (2 <= n)%Z) (Ex : fv x = Fin xv) (Hx : 1 <= xv) (Etk : fv tk = Fin (IZR n)).

(** The search interval: [l, u] with 1 <= l and u <= x, around the root. *)
Definition root_inv (y : itv N) : Prop := exists l u r,
  fv (low y) = Fin l /\ fv (up y) = Fin u /\ 1 <= l /\ u <= xv /\ l <= r <= u /\ r ^ Z.to_nat n = xv.

Lemma thr_mono : bpow radix2 (emax (p_T p)) - bpow radix2 (emax (p_T p) - prec (p_T p) - 1) <=
  bpow radix2 (emax (p_X p)) - bpow radix2 (emax (p_X p) - prec (p_X p) - 1).
Proof.
  destruct (p_TX p) as [A B]. pose proof (fmt_prec_gt_0 (p_T p)) as P0.
  set (e := emax (p_T p)) in *. set (e' := emax (p_X p)) in *.
  set (q := prec (p_T p)) in *. set (q' := prec (p_X p)) in *.
  assert (M1 : forall a b, bpow radix2 a - bpow radix2 (a - b - 1) = bpow radix2 a * (1 - bpow radix2 (- b - 1))).
  { intros a b. rewrite Rmult_minus_distr_l, <- bpow_plus, Rmult_1_r. do 2 f_equal. lia. }
  rewrite !M1. pose proof (bpow_le radix2 _ _ B) as B1.
  assert (B2 : bpow radix2 (- q' - 1) <= bpow radix2 (- q - 1)) by (apply bpow_le; lia).
  assert (B3 : bpow radix2 (- q - 1) <= 1).
  { change 1 with (bpow radix2 0). apply bpow_le. lia. }
  pose proof (bpow_gt_0 radix2 e). nra.
Qed.

Lemma inv_median y : root_inv y -> exists (y0 : T N) v l u, fv (low y) = Fin l /\ fv (up y) = Fin u /\
  fv y0 = Fin v /\ l <= v <= u /\ runsI ready (median Q y) y0 /\
  v = rnd (p_T p) mode_NE (rnd (p_X p) mode_NE (rnd (p_X p) mode_NE (l + u) / 2)).
Proof.
  intros (l & u & r & El & Eu & L1 & U1 & Hr & Er).
  exists (midpt p (low y) (up y)).
  assert (Hlu : l <= u) by lra.
  pose proof (proj1 (fval_fin_iff _ _) El) as [Fl Vl].
  pose proof (proj1 (fval_fin_iff _ _) Eu) as [Fu Vu].
  pose proof (proj1 (fval_fin_iff _ _) Ex) as [Fx Vx].
  destruct (midpt_inside p (low y) (up y) Fl Fu) as (Fm & I1 & Em).
  { rewrite Vl, Vu. lra. }
  { rewrite Vl, Vu. apply no_overflow. eapply Rlt_le_trans; [|apply thr_mono].
    rewrite Rabs_pos_eq by lra.
    pose proof (finite_le_max (x : flt (p_T p))) as M. rewrite Vx, Rabs_pos_eq in M by lra.
    unfold max_val in M.
    unfold wide in W. pose proof (fmt_prec_gt_0 (p_T p)) as P0.
    set (e := emax (p_T p)) in *. set (q := prec (p_T p)) in *.
    assert (RS : r * r <= xv).
    { rewrite <- Er. replace (r * r) with (r ^ 2) by ring. apply Rle_pow; [lra|]. lia. }
    assert (RB : r < bpow radix2 (e - q - 1)).
    { destruct (Rlt_or_le r (bpow radix2 (e - q - 1))) as [|K]; auto. exfalso.
      pose proof (bpow_gt_0 radix2 (e - q - 1)) as G.
      assert (bpow radix2 e <= bpow radix2 (e - q - 1) * bpow radix2 (e - q - 1)).
      { rewrite <- bpow_plus. apply bpow_le. lia. }
      pose proof (bpow_gt_0 radix2 (e - q)). nra. }
    assert (E2 : bpow radix2 (e - q) = 2 * bpow radix2 (e - q - 1)).
    { replace (e - q)%Z with (1 + (e - q - 1))%Z at 1 by lia. rewrite bpow_plus.
      change (bpow radix2 1) with 2. reflexivity. }
    lra. }
  exists (B2R (midpt p (low y) (up y))), l, u.
  split; [exact El|]. split; [exact Eu|]. split; [apply fval_finite; exact Fm|].
  split; [rewrite Vl, Vu in I1; exact I1|].
  split; [apply (runsP_runsI Q); apply median_runs; rewrite El, Eu; simpl; lra|].
  rewrite Vl, Vu in Em. exact Em.
Qed.

Lemma valid_fin (y : itv N) l u : fv (low y) = Fin l -> fv (up y) = Fin u -> l <= u -> fvalid y.
Proof.
  intros El Eu H. unfold fvalid, valid. rewrite El, Eu. split; [exact H|]. split; discriminate.
Qed.

Lemma root_step_ok y : root_inv y -> exists yy, runsI ready (root_step Q tk x n y) yy /\ root_inv yy /\
  (forall t, fmem yy t -> fmem y t).
Proof.
  intros Iy. destruct (inv_median y Iy) as (y0 & v & l & u & El & Eu & Ev & Hv & Rm & _).
  destruct Iy as (l' & u' & r & El' & Eu' & L1 & U1 & Hr & Er).
  rewrite El in El'. rewrite Eu in Eu'. injection El' as <-. injection Eu' as <-.
  assert (Vy : fvalid y) by (eapply valid_fin; eauto; lra).
  assert (Vp : fvalid (mk (y0 : T N) y0)) by (eapply valid_fin; simpl; eauto; lra).
  destruct (newton_mvt (Z.to_nat n) v r) as (xi & Hxi & Exi); try lra.
  assert (Hxi' : l <= xi <= u).
  { destruct Hxi as [A B]. split.
    - eapply Rle_trans; [|exact A]. apply Rmin_glb; lra.
    - eapply Rle_trans; [exact B|]. apply Rmax_lub; lra. }
  (* numerator *)
  destruct (pow_positive_ok spec (mk (y0 : T N) y0) n ltac:(lia) Vp) as (p1 & R1 & E1 & _).
  assert (M1 : fmem p1 (v ^ Z.to_nat n)).
  { apply E1. exists v. split; [|reflexivity]. unfold mem. cbn [low up]. rewrite Ev. simpl. lra. }
  destruct (op_sub_in_ok spec p1 x xv Ex (mem_valid _ _ _ M1)) as (d1 & R2 & [E2 _]).
  assert (M2 : fmem d1 (v ^ Z.to_nat n - xv)) by (apply E2; exists (v ^ Z.to_nat n); split; auto).
  (* denominator *)
  destruct (pow_positive_ok spec y (n - 1) ltac:(lia) Vy) as (p2 & R3 & E3 & _).
  assert (M3 : fmem p2 (xi ^ Z.to_nat (n - 1))).
  { apply E3. exists xi. split; [|reflexivity]. unfold mem. rewrite El, Eu. simpl. lra. }
  destruct (op_mul_ni_ok spec tk (IZR n) p2 Etk (mem_valid _ _ _ M3)) as (d2 & R4 & [E4 _]).
  assert (M4 : fmem d2 (IZR n * xi ^ Z.to_nat (n - 1))) by (apply E4; exists (xi ^ Z.to_nat (n - 1)); split; auto).
  assert (D0 : 0 < IZR n * xi ^ Z.to_nat (n - 1)).
  { apply Rmult_lt_0_compat; [apply IZR_lt; lia|]. apply pow_lt. lra. }
  (* quotient *)
  destruct (op_div_ok spec d1 d2 (mem_valid _ _ _ M2) (mem_valid _ _ _ M4)) as (q & R5 & E5 & _).
  { intros [A B]. destruct M4 as [_ M4]. rewrite B in M4. simpl in M4. lra. }
  { reflexivity. }
  assert (M5 : fmem q (v - r)).
  { apply E5. exists (v ^ Z.to_nat n - xv), (IZR n * xi ^ Z.to_nat (n - 1)).
    split; [exact M2|]. split; [exact M4|]. split; [lra|].
    rewrite <- Er, Exi. replace (Z.to_nat (n - 1)) with (Nat.pred (Z.to_nat n)) in * by lia.
    rewrite INR_IZR_INZ, Z2Nat.id by lia. field. split; [apply Rgt_not_eq, pow_lt; lra|].
    apply Rgt_not_eq, IZR_lt; lia. }
  destruct (op_sub_ni_ok spec y0 v q Ev (mem_valid _ _ _ M5)) as (z & R6 & [E6 _]).
  assert (M6 : fmem z r).
  { apply E6. exists (v - r). split; [exact M5|lra]. }
  assert (M7 : fmem y r) by (unfold fmem, mem; rewrite El, Eu; simpl; lra).
  destruct (intersect_ok spec y z Vy (mem_valid _ _ _ M6)) as (yy & R7 & D7); [eauto|].
  exists yy. split; [|split].
  - unfold root_step. eapply runsI_bind; [exact Rm|].
    eapply runsI_bind.
    { apply runsI_args2.
      - eapply runsI_bind; [apply (runsP_runsI Q), R1|apply (runsP_runsI Q), R2].
      - eapply runsI_bind; [apply (runsP_runsI Q), R3|apply (runsP_runsI Q), R4]. }
    cbn [fst snd]. eapply runsI_bind; [apply (runsP_runsI Q), R5|].
    eapply runsI_bind; [apply (runsP_runsI Q), R6|]. apply (runsP_runsI Q), R7.
  - assert (Myy : fmem yy r) by (apply D7; auto).
    pose proof (mem_valid _ _ _ Myy) as Vyy.
    assert (S : forall t, fmem yy t -> l <= t <= u).
    { intros t Ht. apply D7 in Ht. destruct Ht as [[A B] _]. rewrite El in A. rewrite Eu in B. simpl in *. lra. }
    pose proof (valid_slim_low _ _ Vyy) as SL. pose proof (valid_slim_up _ _ Vyy) as SU.
    destruct (fval (low yy)) as [| |l2|] eqn:EL.
    { destruct SL. }
    { destruct (SL (l - 1)) as (q1 & Q1 & Q2). apply S in Q1. lra. }
    2:{ destruct (SL (u + 1)) as (q1 & Q1 & Q2). apply S in Q1. lra. }
    destruct (fval (up yy)) as [| |u2|] eqn:EU.
    { destruct SU. }
    { destruct (SU (l - 1)) as (q1 & Q1 & Q2). apply S in Q1. lra. }
    2:{ destruct (SU (u + 1)) as (q1 & Q1 & Q2). apply S in Q1. lra. }
    simpl in SL, SU. apply S in SL, SU. exists l2, u2, r.
    destruct Myy as [A B]. rewrite EL in A. rewrite EU in B. simpl in A, B.
    repeat split; auto; lra.
  - intros t Ht. apply D7 in Ht. apply Ht.
Qed.

(** Length of the search interval in units of 2^(1-prec). *)
Definition root_meas (y : itv N) (m : nat) : Prop :=
  exists l u, fv (low y) = Fin l /\ fv (up y) = Fin u /\ (u - l) * bpow radix2 (prec (p_T p) - 1) <= INR m.

Lemma root_step_decreases y yy m : root_inv y -> root_inv yy -> (forall t, fmem yy t -> fmem y t) ->
  equal Q y yy = false -> root_meas y m -> exists m', root_meas yy m' /\ (m' < m)%nat.
Proof.
  intros (l & u & r & El & Eu & L1 & U1 & Hr & Er) (l2 & u2 & r2 & El2 & Eu2 & L2 & U2 & Hr2 & Er2) S NE
    (l3 & u3 & El3 & Eu3 & M).
  rewrite El in El3. rewrite Eu in Eu3. injection El3 as <-. injection Eu3 as <-.
  assert (Sl : l <= l2 /\ u2 <= u).
  { assert (A : fmem y l2) by (apply S; unfold fmem, mem; rewrite El2, Eu2; simpl; lra).
    assert (B : fmem y u2) by (apply S; unfold fmem, mem; rewrite El2, Eu2; simpl; lra).
    destruct A as [A _]. destruct B as [_ B]. rewrite El in A. rewrite Eu in B. simpl in *. lra. }
  assert (Vy : fvalid y) by (eapply valid_fin; eauto; lra).
  assert (Vyy : fvalid yy) by (eapply valid_fin; eauto; lra).
  assert (D : l < l2 \/ u2 < u).
  { destruct (Rlt_or_le l l2) as [|A]; auto. destruct (Rlt_or_le u2 u) as [|B]; auto. exfalso.
    assert (equal Q y yy = true); [|congruence].
    apply (proj2 (equal_ok spec y yy Vy Vyy)). intros t. unfold mem. rewrite El, Eu, El2, Eu2. simpl. lra. }
  assert (I1 : forall t v, fv t = Fin v -> 1 <= v -> exists z, v * bpow radix2 (prec (p_T p) - 1) = IZR z).
  { intros t v E G. apply fval_fin_iff in E. destruct E as [_ <-]. apply float_int. exact G. }
  destruct (I1 _ _ El L1) as (zl & Zl). destruct (I1 _ _ Eu ltac:(lra)) as (zu & Zu).
  destruct (I1 _ _ El2 L2) as (zl2 & Zl2). destruct (I1 _ _ Eu2 ltac:(lra)) as (zu2 & Zu2).
  set (b := bpow radix2 (prec (p_T p) - 1)) in *. assert (B0 : 0 < b) by apply bpow_gt_0.
  exists (Z.to_nat (zu2 - zl2)).
  assert (G1 : (zl <= zl2)%Z) by (apply le_IZR; rewrite <- Zl, <- Zl2; nra).
  assert (G2 : (zu2 <= zu)%Z) by (apply le_IZR; rewrite <- Zu, <- Zu2; nra).
  assert (G3 : (zl2 <= zu2)%Z) by (apply le_IZR; rewrite <- Zl2, <- Zu2; nra).
  assert (G4 : (zl < zl2 \/ zu2 < zu)%Z).
  { destruct D as [D|D]; [left|right]; apply lt_IZR; [rewrite <- Zl, <- Zl2|rewrite <- Zu, <- Zu2]; nra. }
  assert (G5 : (zu - zl <= Z.of_nat m)%Z).
  { apply le_IZR. rewrite <- INR_IZR_INZ, minus_IZR, <- Zl, <- Zu. lra. }
  split; [|lia].
  exists l2, u2. repeat split; auto. fold b.
  rewrite INR_IZR_INZ, Z2Nat.id, minus_IZR, <- Zl2, <- Zu2 by lia. lra.
Qed.

(** The step leaves the interval as it is. *)
Definition root_fixed (y : itv N) : Prop := exists yy, runsI ready (root_step Q tk x n y) yy /\ fsame y yy.
Lemma root_loop_ok m : forall y, root_inv y -> root_meas y m ->
  exists z, root_inv z /\ root_fixed z /\ forall fuel, (m < fuel)%nat -> runsI ready (root_loop fuel Q tk x n y) z.
Proof.
  induction m as [m IH] using lt_wf_ind. intros y Iy My.
  destruct (root_step_ok y Iy) as (yy & Ry & Iyy & Sy).
  destruct (equal Q y yy) eqn:EQ.
  - exists y. split; auto. split.
    { exists yy. split; [exact Ry|]. pose proof Iy as (l & u & r & El & Eu & _ & _ & Hr & _). pose proof Iyy as (l2 & u2 & r2 & El2 & Eu2 & _ & _ & Hr2 & _).
      pose proof (proj1 (equal_ok spec y yy (valid_fin _ _ _ El Eu ltac:(lra)) (valid_fin _ _ _ El2 Eu2 ltac:(lra))) EQ) as K.
      unfold mem in K. rewrite El, Eu, El2, Eu2 in K. simpl in K. unfold fsame, same. rewrite El, Eu, El2, Eu2.
      pose proof (K l). pose proof (K u). pose proof (K l2). pose proof (K u2). split; f_equal; lra. }
    intros [|fuel] Hf; [lia|]. simpl.
    eapply runsI_bind; [exact Ry|]. rewrite EQ. apply runsI_ret.
  - destruct (root_step_decreases y yy m Iy Iyy Sy EQ My) as (m' & My' & Hm').
    destruct (IH m' Hm' yy Iyy My') as (z & Iz & Fz & Hz). exists z. split; auto. split; auto.
    intros [|fuel] Hf; [lia|]. simpl. eapply runsI_bind; [exact Ry|]. rewrite EQ. apply Hz. lia.
Qed.
End Loop.

(** ** root_aux *)
Lemma root_aux_fix (x : T N) n xv : wide -> (2 <= n <= 2 ^ prec (p_T p))%Z -> fv x = Fin xv -> 1 <= xv ->
  exists (z : itv N) l u r f0, fv (low z) = Fin l /\ fv (up z) = Fin u /\ 1 <= l /\ u <= xv /\
   l <= r <= u /\ r ^ Z.to_nat n = xv /\ root_fixed x (f_of_Z (p_T p) RNE n) n z /\
   forall fuel, (f0 < fuel)%nat -> runsI ready (root_aux fuel Q x n) z.
Proof.
  intros W Hn Ex Hx.
  assert (Etk : forall m, fv (f_of_Z (p_T p) m n) = Fin (IZR n)) by (intros m; apply f_of_Z_exact; lia).
  assert (NZ : forall m, f_of_Z (p_T p) m n = f_of_Z (p_T p) RNE n).
  { intros m. apply fval_inj_nz; rewrite !Etk; [reflexivity|].
    intros K. injection K as K. apply eq_IZR in K. lia. }
  destruct (real_root xv (Z.to_nat n) Hx ltac:(lia)) as (r & R1 & Er).
  assert (Rx : r <= xv).
  { rewrite <- Er. rewrite <- (pow_1 r) at 1. apply Rle_pow; [lra|lia]. }
  assert (E1 : fv (one : T N) = Fin 1) by (apply (ns_1 _ _ (fnumspec p))).
  assert (I0 : root_inv n xv (mk (one : T N) x)).
  { exists 1, xv, r. cbn [low up]. repeat split; auto; lra. }
  assert (exists m, root_meas (mk (one : T N) x) m) as (m & M0).
  { destruct (nat_above ((xv - 1) * bpow radix2 (prec (p_T p) - 1))) as (m & Hm).
    exists m, 1, xv. cbn [low up]. repeat split; auto; lra. }
  destruct (root_loop_ok W x (f_of_Z (p_T p) RNE n) n xv ltac:(lia) Ex Hx (Etk RNE) m _ I0 M0) as (z & Iz & Fz & Hz).
  destruct Iz as (l & u & r' & I1 & I2 & I3 & I4 & I5 & I6).
  exists z, l, u, r', m. do 4 (split; [assumption|]). split; [lra|]. split; [assumption|]. split; [exact Fz|].
  intros fuel Hf. unfold root_aux. eapply runsI_bind; [|apply Hz; exact Hf].
  intros s Hs. exists s. split; [exact Hs|]. unfold under_mode. cbn. rewrite NZ. reflexivity.
Qed.
Lemma root_aux_ok (x : T N) n xv : wide -> (2 <= n <= 2 ^ prec (p_T p))%Z -> fv x = Fin xv -> 1 <= xv ->
  exists (z : itv N) l u r f0, fv (low z) = Fin l /\ fv (up z) = Fin u /\ 1 <= l /\ u <= xv /\
   l <= r <= u /\ r ^ Z.to_nat n = xv /\
   forall fuel, (f0 < fuel)%nat -> runsI ready (root_aux fuel Q x n) z.
Proof.
  intros W Hn Ex Hx. destruct (root_aux_fix x n xv W Hn Ex Hx) as (z & l & u & r & f0 & A1 & A2 & A3 & A4 & A5 & A6 & _ & A7).
  exists z, l, u, r, f0. auto 10.
Qed.

Notation nroot t n v := (0 <= t /\ t ^ Z.to_nat n = v).

Lemma gt_one_iff (x : T N) xv : fv x = Fin xv -> n_gt x one = true <-> 1 < xv.
Proof.
  intros E. unfold n_gt, one. rewrite (ns_lt _ _ (fnumspec p)), (ns_1 _ _ (fnumspec p)), E. reflexivity.
Qed.
Lemma eq_one_iff (x : T N) xv : fv x = Fin xv -> n_eq N x one = true <-> xv = 1.
Proof.
  intros E. unfold one. rewrite (ns_eq _ _ (fnumspec p)), (ns_1 _ _ (fnumspec p)), E. split.
  - intros [K _]. congruence.
  - intros ->. split; [reflexivity|discriminate].
Qed.

Lemma body_runs {A} (body : M A) a : runsI ready body a -> runsI ready (with_rnd Q body) a.
Proof. intros H. apply (runsP_runsI Q). apply (with_rnd_runs _ _ spec). exact H. Qed.

Lemma root_unique t s n : (2 <= n)%Z -> 0 <= t -> 0 <= s -> t ^ Z.to_nat n = s ^ Z.to_nat n -> t = s.
Proof. intros Hn Ht Hs E. apply Rle_antisym; apply (pow_le_inv _ _ (Z.to_nat n)); auto; try lia; lra. Qed.

Lemma pow_inv_R r n : 0 < r -> (/ r) ^ n = / r ^ n.
Proof. intros H. apply pow_inv. Qed.

(** The upper end: not below the root. *)
Lemma root_aux_up_ok (x : T N) n xv : wide -> (2 <= n <= 2 ^ prec (p_T p))%Z -> fv x = Fin xv -> 0 < xv ->
  exists (t : T N) v f0, fv t = Fin v /\ (forall r, nroot r n xv -> r <= v) /\
   forall fuel, (f0 < fuel)%nat -> runsI ready (root_aux_up fuel Q x n) t.
Proof.
  intros W Hn Ex Hx. assert (E1 : fv (one : T N) = Fin 1) by (apply (ns_1 _ _ (fnumspec p))).
  destruct (Rlt_dec 1 xv) as [G|G].
  - destruct (root_aux_ok x n xv W Hn Ex ltac:(lra)) as (z & l & u & r & f0 & El & Eu & L1 & U1 & Hr & Er & Rz).
    exists (up z), u, f0. split; [exact Eu|]. split.
    + intros q [Q0 Eq]. rewrite (root_unique q r n) by (lia || lra). lra.
    + intros fuel Hf. unfold root_aux_up. apply body_runs. rewrite (proj2 (gt_one_iff x xv Ex) G).
      eapply runsI_bind; [apply Rz; exact Hf|]. apply runsI_ret.
  - assert (G1 : n_gt x one = false).
    { destruct (n_gt x one) eqn:K; auto. apply (gt_one_iff x xv Ex) in K. lra. }
    destruct (Req_dec xv 1) as [->|Nx].
    + exists one, 1, 0%nat. split; [exact E1|]. split.
      * intros q [Q0 Eq]. rewrite (root_unique q 1 n) by (lia || lra || (rewrite pow1; lra)). lra.
      * intros fuel Hf. unfold root_aux_up. apply body_runs. rewrite G1, (proj2 (eq_one_iff x 1 Ex) eq_refl).
        apply runsI_ret.
    + assert (G2 : n_eq N x one = false).
      { destruct (n_eq N x one) eqn:K; auto. apply (eq_one_iff x xv Ex) in K. lra. }
      destruct (as_div_down _ _ _ (ps_ar _ _ _ spec) one x) as (d & [D1 D2] & Rd).
      { rewrite E1, Ex. simpl. destruct (Req_EM_T xv 0); [lra|discriminate]. }
      rewrite E1, Ex in D1, D2. simpl in D1, D2. destruct (Req_EM_T xv 0) as [|N0]; [lra|].
      assert (I1 : 1 <= 1 / xv).
      { unfold Rdiv. rewrite Rmult_1_l. rewrite <- Rinv_1 at 1. apply Rinv_le_contravar; lra. }
      assert (O : xle (Fin 1) (fv d)). { rewrite <- E1. apply D2. rewrite E1. simpl. exact I1. }
      destruct (fv d) as [| |dv|] eqn:Ed; simpl in D1, O; try tauto.
      destruct (root_aux_ok d n dv W Hn Ed O) as (z & l & u & r & f0 & El & Eu & L1 & U1 & Hr & Er & Rz).
      destruct (as_div_up _ _ _ (ps_ar _ _ _ spec) one (low z)) as (t & [T1 T2] & Rt).
      { rewrite E1, El. simpl. destruct (Req_EM_T l 0); [lra|discriminate]. }
      rewrite E1, El in T1, T2. simpl in T1, T2. destruct (Req_EM_T l 0) as [|N1]; [lra|].
      assert (T3 : xle (fv t) (Fin 1)).
      { rewrite <- E1. apply T2. rewrite E1. simpl. unfold Rdiv. rewrite Rmult_1_l, <- Rinv_1. apply Rinv_le_contravar; lra. }
      destruct (fv t) as [| |tv|] eqn:Et; simpl in T1, T3; try tauto.
      exists t, tv, f0. split; [exact Et|]. split.
      * intros q [Q0 Eq]. apply Rle_trans with (1 / l); [|exact T1].
        assert (Qp : 0 < q). { destruct Q0 as [|<-]; auto. rewrite pow_ne_zero in Eq by lia. lra. }
        assert (LQ : l <= / q).
        { apply (pow_le_inv _ _ (Z.to_nat n)); try lia; try lra.
          - apply Rlt_le, Rinv_0_lt_compat; auto.
          - rewrite pow_inv_R, Eq by auto. apply Rle_trans with (r ^ Z.to_nat n); [apply pow_incr; lra|].
            rewrite Er. unfold Rdiv in D1. lra. }
        unfold Rdiv. rewrite Rmult_1_l. rewrite <- (Rinv_inv q). apply Rinv_le_contravar; lra.
      * intros fuel Hf. unfold root_aux_up. apply body_runs. rewrite G1, G2.
        eapply runsI_bind; [exact Rd|]. eapply runsI_bind; [apply Rz; exact Hf|]. exact Rt.
Qed.

(** The lower end: not above the root; the reciprocal must not overflow. *)
Lemma root_aux_dn_ok (x : T N) n xv : wide -> (2 <= n <= 2 ^ prec (p_T p))%Z -> fv x = Fin xv -> 0 < xv ->
  1 <= xv * max_val (f := p_T p) ->
  exists (t : T N) v f0, fv t = Fin v /\ 0 <= v /\ (forall r, nroot r n xv -> v <= r) /\
   forall fuel, (f0 < fuel)%nat -> runsI ready (root_aux_dn fuel Q x n) t.
Proof.
  intros W Hn Ex Hx HM. assert (E1 : fv (one : T N) = Fin 1) by (apply (ns_1 _ _ (fnumspec p))).
  destruct (Rlt_dec 1 xv) as [G|G].
  - destruct (root_aux_ok x n xv W Hn Ex ltac:(lra)) as (z & l & u & r & f0 & El & Eu & L1 & U1 & Hr & Er & Rz).
    exists (low z), l, f0. split; [exact El|]. split; [lra|]. split.
    + intros q [Q0 Eq]. rewrite (root_unique q r n) by (lia || lra). lra.
    + intros fuel Hf. unfold root_aux_dn. apply body_runs. rewrite (proj2 (gt_one_iff x xv Ex) G).
      eapply runsI_bind; [apply Rz; exact Hf|]. apply runsI_ret.
  - assert (G1 : n_gt x one = false).
    { destruct (n_gt x one) eqn:K; auto. apply (gt_one_iff x xv Ex) in K. lra. }
    destruct (Req_dec xv 1) as [->|Nx].
    + exists one, 1, 0%nat. split; [exact E1|]. split; [lra|]. split.
      * intros q [Q0 Eq]. rewrite (root_unique q 1 n) by (lia || lra || (rewrite pow1; lra)). lra.
      * intros fuel Hf. unfold root_aux_dn. apply body_runs. rewrite G1, (proj2 (eq_one_iff x 1 Ex) eq_refl).
        apply runsI_ret.
    + assert (G2 : n_eq N x one = false).
      { destruct (n_eq N x one) eqn:K; auto. apply (eq_one_iff x xv Ex) in K. lra. }
      destruct (as_div_up _ _ _ (ps_ar _ _ _ spec) one x) as (d & [D1 D2] & Rd).
      { rewrite E1, Ex. simpl. destruct (Req_EM_T xv 0); [lra|discriminate]. }
      rewrite E1, Ex in D1, D2. simpl in D1, D2. destruct (Req_EM_T xv 0) as [|N0]; [lra|].
      assert (I1 : 1 <= 1 / xv).
      { unfold Rdiv. rewrite Rmult_1_l. rewrite <- Rinv_1 at 1. apply Rinv_le_contravar; lra. }
      assert (I2 : 1 / xv <= max_val (f := p_T p)).
      { apply (Rmult_le_reg_r xv); [exact Hx|]. unfold Rdiv. rewrite Rmult_1_l, Rinv_l by lra. lra. }
      destruct (max_float p) as (mx & Emx).
      assert (D3 : xle (fv d) (Fin (max_val (f := p_T p)))).
      { rewrite <- Emx. apply D2. rewrite Emx. simpl. exact I2. }
      destruct (fv d) as [| |dv|] eqn:Ed; simpl in D1, D3; try tauto.
      destruct (root_aux_ok d n dv W Hn Ed ltac:(lra)) as (z & l & u & r & f0 & El & Eu & L1 & U1 & Hr & Er & Rz).
      destruct (as_div_down _ _ _ (ps_ar _ _ _ spec) one (up z)) as (t & [T1 T2] & Rt).
      { rewrite E1, Eu. simpl. destruct (Req_EM_T u 0); [lra|discriminate]. }
      rewrite E1, Eu in T1, T2. simpl in T1, T2. destruct (Req_EM_T u 0) as [|N1]; [lra|].
      assert (T3 : xle (Fin 0) (fv t)).
      { pose proof (ns_0 _ _ (fnumspec p)) as E0. rewrite <- E0. apply T2. rewrite E0. simpl. unfold Rdiv. rewrite Rmult_1_l. apply Rlt_le, Rinv_0_lt_compat; lra. }
      destruct (fv t) as [| |tv|] eqn:Et; simpl in T1, T3; try tauto.
      exists t, tv, f0. split; [exact Et|]. split; [exact T3|]. split.
      * intros q [Q0 Eq]. apply Rle_trans with (1 / u); [exact T1|].
        assert (Qp : 0 < q). { destruct Q0 as [|<-]; auto. rewrite pow_ne_zero in Eq by lia. lra. }
        assert (Qi : 0 < / q) by (apply Rinv_0_lt_compat; auto).
        assert (LQ : / q <= u).
        { apply (pow_le_inv _ _ (Z.to_nat n)); try lia; try lra.
          rewrite pow_inv_R, Eq by auto. apply Rle_trans with (r ^ Z.to_nat n); [|apply pow_incr; lra].
          rewrite Er. unfold Rdiv in D1. lra. }
        unfold Rdiv. rewrite Rmult_1_l. rewrite <- (Rinv_inv q). apply Rinv_le_contravar; lra.
      * intros fuel Hf. unfold root_aux_dn. apply body_runs. rewrite G1, G2.
        eapply runsI_bind; [exact Rd|]. eapply runsI_bind; [apply Rz; exact Hf|]. exact Rt.
Qed.
End Root.

Section NthRoot.
Context (p : platform) (k : rkind) (debug : bool) (c : ckind) (ord : site -> bool).
Notation N := (fnum p).
Notation P := (fpol p Save k debug c ord).
Notation Q := (fpol p SaveUnprotected k debug c ord).
Notation spec := (fpolspec p Save k debug c ord).
Notation ready := (fready k).
Notation fv := (@fval (p_T p)).

Lemma neg_fin (a : T N) v : fv a = Fin v -> exists t : T N, fv t = Fin (- v) /\ pureM (neg a) t.
Proof. intros E. destruct (ns_neg _ _ (fnumspec p) a) as (t & E' & R). exists t. rewrite E in E'. auto. Qed.

Lemma is_pos_fin (a : T N) v : fv a = Fin v -> is_pos a = true <-> 0 < v.
Proof. intros E. unfold is_pos, n_gt, zero. rewrite (ns_lt _ _ (fnumspec p)), (ns_0 _ _ (fnumspec p)), E. reflexivity. Qed.
Lemma is_zero_fin (a : T N) v : fv a = Fin v -> is_zero a = true <-> v = 0.
Proof.
  intros E. unfold is_zero, zero. rewrite (ns_eq _ _ (fnumspec p)), (ns_0 _ _ (fnumspec p)), E. split.
  - intros [K _]. congruence.
  - intros ->. split; [reflexivity|discriminate].
Qed.
Lemma bool_false (b : bool) (A : Prop) : (b = true <-> A) -> ~ A -> b = false.
Proof. destruct b; intuition. Qed.

Lemma pow_neg_odd t n : (0 < n)%Z -> Z.even n = false -> (- t) ^ Z.to_nat n = - t ^ Z.to_nat n.
Proof. intros Hn He. apply pow_odd_opp; auto. rewrite <- Z.negb_even, He. reflexivity. Qed.
Lemma pow_pos_base t n : (0 < n)%Z -> Z.even n = false -> 0 < t ^ Z.to_nat n -> 0 < t.
Proof.
  intros Hn He H. destruct (Rlt_or_le 0 t) as [|L]; auto. exfalso.
  assert (0 <= (- t) ^ Z.to_nat n) by (apply pow_le; lra). rewrite pow_neg_odd in H0 by auto. lra.
Qed.

Ltac nb := try change (negb true) with false; try change (negb false) with true; cbv iota.

Lemma nth_root_ok dbg (x : itv N) n l u : wide p -> (1 <= n <= 2 ^ prec (p_T p))%Z ->
  fv (low x) = Fin l -> fv (up x) = Fin u -> l <= u ->
  (~ l <= 0 <= u -> forall r, fmem x r -> 1 <= Rabs r * max_val (f := p_T p)) ->
  (Z.even n = true -> 0 <= u) ->
  exists z f0, encloses (N := N) fval z (real_roots n (fmem x)) /\
    forall fuel, (f0 < fuel)%nat -> runsI ready (nth_root P dbg fuel x n) z.
Proof.
  intros W Hn El Eu Hlu HM HE.
  assert (TI : test_input_i P x = false) by (apply test_i_ordered; rewrite El, Eu; exact Hlu).
  assert (AS : pureM (assert_ dbg (0 <? n)%Z) tt).
  { intros s. unfold assert_. rewrite (proj2 (Z.ltb_lt 0 n)) by lia. destruct dbg; reflexivity. }
  assert (Mem : forall r, fmem x r <-> l <= r <= u).
  { intros r. unfold fmem, mem. rewrite El, Eu. reflexivity. }
  destruct (Z.eq_dec n 1) as [->|N1].
  { exists x, 0%nat. split.
    - intros t [Ht _]. change (Z.to_nat 1) with 1%nat in Ht. rewrite pow_1 in Ht. exact Ht.
    - intros fuel _. unfold nth_root. rewrite TI. eapply runsI_bind; [apply pure_runsI, AS|].
      apply runsI_ret. }
  assert (Hn2 : (2 <= n <= 2 ^ prec (p_T p))%Z) by lia.
  assert (E0 : fv (zero : T N) = Fin 0) by (apply (ns_0 _ _ (fnumspec p))).
  assert (Odd : Z.odd n = negb (Z.even n)) by (rewrite Z.negb_even; reflexivity).
  assert (NZ : Z.to_nat n <> 0%nat) by lia.
  assert (St : forall z f0, (forall fuel, (f0 < fuel)%nat -> runsI ready
      (if negb (is_pos (up x)) then
        if is_zero (up x) then
          if negb (Z.odd n) || is_zero (low x) then ret (mk zero zero)
          else
            let! nl := neg (low x) in
            let! t := root_aux_up fuel Q nl n in
            let! l := neg t in ret (mk l zero)
        else if negb (Z.odd n) then i_empty P
        else
          mk_args (p_ord P (H_arith2, 287%Z))
            (let! nl := neg (low x) in let! t := root_aux_up fuel Q nl n in neg t)
            (let! nu := neg (up x) in let! t := root_aux_dn fuel Q nu n in neg t)
      else
        let! u := root_aux_up fuel Q (up x) n in
        if negb (is_pos (low x)) then
          if negb (Z.odd n) || is_zero (low x) then ret (mk zero u)
          else
            let! nl := neg (low x) in
            let! t := root_aux_up fuel Q nl n in
            let! l := neg t in ret (mk l u)
        else
          let! l := root_aux_dn fuel Q (low x) n in ret (mk l u)) z) ->
      forall fuel, (f0 < fuel)%nat -> runsI ready (nth_root P dbg fuel x n) z).
  { intros z f0 K fuel Hf. unfold nth_root. rewrite TI. eapply runsI_bind; [apply pure_runsI, AS|].
    rewrite (proj2 (Z.eqb_neq n 1) N1). apply K. exact Hf. }
  destruct (Rlt_or_le 0 u) as [U|U].
  - (* upper bound positive *)
    destruct (root_aux_up_ok p SaveUnprotected k debug c ord (up x) n u W Hn2 Eu U) as (tu & vu & fu & Etu & Htu & Ru).
    assert (Uok : forall t, 0 <= t -> t ^ Z.to_nat n <= u -> t <= vu).
    { intros t T0 Tn. destruct (Rle_or_lt t vu) as [|L]; auto. exfalso.
      (* there is a root of u, above t *)
      assert (exists q, 0 <= q /\ q ^ Z.to_nat n = u) as (q & Q0 & Eq).
      { exists (Rpower u (/ INR (Z.to_nat n))). split; [apply Rlt_le, exp_pos|].
        rewrite <- Rpower_pow by apply exp_pos. rewrite Rpower_mult, Rinv_l by (apply not_0_INR; lia). apply Rpower_1; auto. }
      pose proof (Htu q (conj Q0 Eq)). rewrite <- Eq in Tn. apply pow_le_inv in Tn; auto; lra || lia. }
    destruct (Rlt_or_le 0 l) as [L|L].
    + destruct (root_aux_dn_ok p SaveUnprotected k debug c ord (low x) n l W Hn2 El L) as (tl & vl & fl & Etl & V0 & Htl & Rl).
      { pose proof (HM ltac:(lra) l ltac:(apply Mem; lra)) as K. rewrite Rabs_pos_eq in K by lra. exact K. }
      exists (mk tl tu), (Nat.max fl fu). split.
      * intros t [Ht He]. apply Mem in Ht. unfold mem. cbn [low up]. rewrite Etl, Etu. simpl.
        assert (T0 : 0 <= t).
        { destruct (Z.even n) eqn:EV; [auto|]. apply Rlt_le, (pow_pos_base t n); auto; try lia. lra. }
        split; [|apply Uok; lra].
        assert (exists q, 0 <= q /\ q ^ Z.to_nat n = l) as (q & Q0 & Eq).
        { exists (Rpower l (/ INR (Z.to_nat n))). split; [apply Rlt_le, exp_pos|].
          rewrite <- Rpower_pow by apply exp_pos. rewrite Rpower_mult, Rinv_l by (apply not_0_INR; lia). apply Rpower_1; auto. }
        pose proof (Htl q (conj Q0 Eq)). apply Rle_trans with q; auto. apply (pow_le_inv _ _ (Z.to_nat n)); try lia; lra.
      * apply St. intros fuel Hf. rewrite (proj2 (is_pos_fin _ _ Eu) U). nb.
        eapply runsI_bind; [apply Ru; lia|]. cbv beta. rewrite (proj2 (is_pos_fin _ _ El) L). nb.
        eapply runsI_bind; [apply Rl; lia|]. apply runsI_ret.
    + assert (Pl : is_pos (low x) = false) by (eapply bool_false; [apply (is_pos_fin _ _ El)|lra]).
      destruct (negb (Z.odd n) || is_zero (low x)) eqn:C1.
      * exists (mk zero tu), fu. split.
        -- intros t [Ht He]. apply Mem in Ht. unfold mem. cbn [low up]. rewrite E0, Etu. simpl.
           assert (T0 : 0 <= t).
           { rewrite Odd, negb_involutive in C1. destruct (Z.even n) eqn:EV; [auto|]. simpl in C1.
             apply (is_zero_fin _ _ El) in C1. subst l.
             destruct (Rle_or_lt 0 t) as [|T]; auto. exfalso.
             assert (0 < (- t) ^ Z.to_nat n) by (apply pow_lt; lra). rewrite pow_neg_odd in H by (auto; lia). lra. }
           split; [exact T0|]. apply Uok; lra.
        -- apply St. intros fuel Hf. rewrite (proj2 (is_pos_fin _ _ Eu) U). nb.
           eapply runsI_bind; [apply Ru; lia|]. cbv beta. rewrite Pl. nb. try rewrite C1. apply runsI_ret.
      * apply orb_false_iff in C1. destruct C1 as [C1 C2]. rewrite Odd, negb_involutive in C1.
        assert (L' : l < 0).
        { destruct (Req_dec l 0) as [->|]; [|lra]. rewrite (proj2 (is_zero_fin _ _ El) eq_refl) in C2. discriminate. }
        destruct (neg_fin _ _ El) as (nl & Enl & Rnl).
        destruct (root_aux_up_ok p SaveUnprotected k debug c ord nl n (- l) W Hn2 Enl ltac:(lra)) as (tl & vl & fl & Etl & Htl & Rl).
        destruct (neg_fin _ _ Etl) as (ntl & Entl & Rntl).
        exists (mk ntl tu), (Nat.max fl fu). split.
        -- intros t [Ht He]. apply Mem in Ht. unfold mem. cbn [low up]. rewrite Entl, Etu. simpl.
           assert (LB : forall s, 0 <= s -> s ^ Z.to_nat n <= - l -> s <= vl).
           { intros s S0 Sn.
             assert (exists q, 0 <= q /\ q ^ Z.to_nat n = - l) as (q & Q0 & Eq).
             { exists (Rpower (- l) (/ INR (Z.to_nat n))). split; [apply Rlt_le, exp_pos|].
               rewrite <- Rpower_pow by apply exp_pos. rewrite Rpower_mult, Rinv_l by (apply not_0_INR; lia). apply Rpower_1; lra. }
             pose proof (Htl q (conj Q0 Eq)). rewrite <- Eq in Sn. apply pow_le_inv in Sn; auto; lra || lia. }
           assert (0 <= vl). { apply LB; [lra|]. rewrite pow_i by lia. lra. }
           assert (0 <= vu). { apply Uok; [lra|]. rewrite pow_i by lia. lra. }
           destruct (Rle_or_lt 0 t) as [T|T].
           ++ split; [lra|]. apply Uok; lra.
           ++ split; [|lra]. assert (- t <= vl); [|lra]. apply LB; [lra|]. rewrite pow_neg_odd by (auto; lia). lra.
        -- apply St. intros fuel Hf. rewrite (proj2 (is_pos_fin _ _ Eu) U). nb.
           eapply runsI_bind; [apply Ru; lia|]. cbv beta. rewrite Pl. nb.
           nb.
           eapply runsI_bind; [apply pure_runsI, Rnl|]. eapply runsI_bind; [apply Rl; lia|].
           eapply runsI_bind; [apply pure_runsI, Rntl|]. apply runsI_ret.
  - assert (Pu : is_pos (up x) = false) by (eapply bool_false; [apply (is_pos_fin _ _ Eu)|lra]).
    (* every member is <= 0 *)
    destruct (Req_dec u 0) as [->|U0].
    + destruct (negb (Z.odd n) || is_zero (low x)) eqn:C1.
      * exists (mk zero zero), 0%nat. split.
        -- intros t [Ht He]. apply Mem in Ht. unfold mem. cbn [low up]. rewrite E0. simpl.
           assert (t = 0); [|lra].
           rewrite Odd, negb_involutive in C1.
           destruct (Req_dec t 0) as [|T]; auto. exfalso.
           destruct (Z.even n) eqn:EV.
           ++ specialize (He eq_refl). assert (0 < t ^ Z.to_nat n) by (apply pow_lt; lra). lra.
           ++ simpl in C1. apply (is_zero_fin _ _ El) in C1. subst l.
              assert (t ^ Z.to_nat n <> 0) by (apply pow_nonzero; auto). lra.
        -- apply St. intros fuel Hf. rewrite Pu. nb.
           rewrite (proj2 (is_zero_fin _ _ Eu) eq_refl). apply runsI_ret.
      * pose proof C1 as C1'. apply orb_false_iff in C1. destruct C1 as [C1 C2]. rewrite Odd, negb_involutive in C1.
        assert (L' : l < 0).
        { destruct (Req_dec l 0) as [->|]; [|lra]. rewrite (proj2 (is_zero_fin _ _ El) eq_refl) in C2. discriminate. }
        destruct (neg_fin _ _ El) as (nl & Enl & Rnl).
        destruct (root_aux_up_ok p SaveUnprotected k debug c ord nl n (- l) W Hn2 Enl ltac:(lra)) as (tl & vl & fl & Etl & Htl & Rl).
        destruct (neg_fin _ _ Etl) as (ntl & Entl & Rntl).
        exists (mk ntl zero), fl. split.
        -- intros t [Ht He]. apply Mem in Ht. unfold mem. cbn [low up]. rewrite Entl, E0. simpl.
           assert (T : t <= 0).
           { destruct (Rle_or_lt t 0) as [|T]; auto. assert (0 < t ^ Z.to_nat n) by (apply pow_lt; lra). lra. }
           split; [|exact T]. assert (- t <= vl); [|lra].
           assert (exists q, 0 <= q /\ q ^ Z.to_nat n = - l) as (q & Q0 & Eq).
           { exists (Rpower (- l) (/ INR (Z.to_nat n))). split; [apply Rlt_le, exp_pos|].
             rewrite <- Rpower_pow by apply exp_pos. rewrite Rpower_mult, Rinv_l by (apply not_0_INR; lia). apply Rpower_1; lra. }
           pose proof (Htl q (conj Q0 Eq)). apply Rle_trans with q; auto.
           apply (pow_le_inv _ _ (Z.to_nat n)); try lia; try lra. rewrite pow_neg_odd by (auto; lia). lra.
        -- apply St. intros fuel Hf. rewrite Pu. nb.
           rewrite (proj2 (is_zero_fin _ _ Eu) eq_refl).
           eapply runsI_bind; [apply pure_runsI, Rnl|]. eapply runsI_bind; [apply Rl; lia|].
           eapply runsI_bind; [apply pure_runsI, Rntl|]. apply runsI_ret.
    + (* negative *)
      destruct (Z.even n) eqn:EV; [specialize (HE eq_refl); lra|].
      destruct (neg_fin _ _ El) as (nl & Enl & Rnl). destruct (neg_fin _ _ Eu) as (nu & Enu & Rnu).
      destruct (root_aux_up_ok p SaveUnprotected k debug c ord nl n (- l) W Hn2 Enl ltac:(lra)) as (tl & vl & fl & Etl & Htl & Rl).
      destruct (root_aux_dn_ok p SaveUnprotected k debug c ord nu n (- u) W Hn2 Enu ltac:(lra)) as (tu & vu & fu & Etu & V0 & Htu & Ru).
      { pose proof (HM ltac:(lra) u ltac:(apply Mem; lra)) as K. rewrite Rabs_left1 in K by lra. exact K. }
      destruct (neg_fin _ _ Etl) as (ntl & Entl & Rntl). destruct (neg_fin _ _ Etu) as (ntu & Entu & Rntu).
      exists (mk ntl ntu), (Nat.max fl fu). split.
      * intros t [Ht _]. apply Mem in Ht. unfold mem. cbn [low up]. rewrite Entl, Entu. simpl.
        assert (T : t < 0).
        { destruct (Rlt_or_le t 0) as [|T]; auto. assert (0 <= t ^ Z.to_nat n) by (apply pow_le; lra). lra. }
        assert (forall v, v < 0 -> exists q, 0 <= q /\ q ^ Z.to_nat n = - v) as RR.
        { intros v V. exists (Rpower (- v) (/ INR (Z.to_nat n))). split; [apply Rlt_le, exp_pos|].
          rewrite <- Rpower_pow by apply exp_pos. rewrite Rpower_mult, Rinv_l by (apply not_0_INR; lia). apply Rpower_1; lra. }
        destruct (RR l ltac:(lra)) as (ql & Ql0 & Eql). destruct (RR u ltac:(lra)) as (qu & Qu0 & Equ).
        pose proof (Htl ql (conj Ql0 Eql)). pose proof (Htu qu (conj Qu0 Equ)).
        assert (- t <= ql).
        { apply (pow_le_inv _ _ (Z.to_nat n)); try lia; try lra. rewrite pow_neg_odd by (auto; lia). lra. }
        assert (qu <= - t).
        { apply (pow_le_inv _ _ (Z.to_nat n)); try lia; try lra. rewrite pow_neg_odd by (auto; lia). lra. }
        lra.
      * apply St. intros fuel Hf. rewrite Pu. nb.
        rewrite (bool_false _ _ (is_zero_fin _ _ Eu) U0). rewrite Odd. nb.
        apply runsI_mk_args.
        -- eapply runsI_bind; [apply pure_runsI, Rnl|]. eapply runsI_bind; [apply Rl; lia|]. apply pure_runsI, Rntl.
        -- eapply runsI_bind; [apply pure_runsI, Rnu|]. eapply runsI_bind; [apply Ru; lia|]. apply pure_runsI, Rntu.
Qed.
End NthRoot.

(** * Accuracy of cos and sin

    With functions rounded to the nearest number on either side, the results of
    cos and sin stay close to the values they enclose: close up to the error
    made by reducing the argument modulo 2 pi. *)

From Coq Require Import Reals ZArith Lra Lia Psatz Bool.
From Flocq Require Import Core.Raux.
From Verif Require Import Outcome Base Checking Interval Utility Arith Arith2 FloatNum Spec ExtR Sem
  CoreArith CoreDiv CoreMore CoreUtil CoreFmod Transc SpecTransc TransReal CoreTransc CoreTrig TightTransc CoreTrigTight CoreIso.
Local Open Scope R_scope.

(** ** Real analysis *)
Lemma cos_ivt a b t : cos a <= t <= cos b -> exists s, Rmin a b <= s <= Rmax a b /\ cos s = t.
Proof.
  intros [A B].
  assert (Q : forall f x y, continuity f -> f x * f y <= 0 -> exists s, Rmin x y <= s <= Rmax x y /\ f s = 0).
  { intros f x y C S. destruct (Rle_or_lt x y) as [L|L].
    - rewrite Rmin_left, Rmax_right by lra. destruct (IVT_cor f x y C L S) as (s & Bs & Es). exists s. lra.
    - rewrite Rmin_right, Rmax_left by lra. rewrite Rmult_comm in S. destruct (IVT_cor f y x C ltac:(lra) S) as (s & Bs & Es). exists s. lra. }
  destruct (Q (fun r => cos r - t) a b) as (s & Bs & Es).
  - apply continuity_minus; [apply continuity_cos|]. apply continuity_const. intros x y. reflexivity.
  - assert (0 <= (t - cos a) * (cos b - t)) by (apply Rmult_le_pos; lra). lra.
  - exists s. split; [exact Bs|lra].
Qed.
Lemma cos_lipschitz a b : Rabs (cos a - cos b) <= Rabs (a - b).
Proof.
  destruct (Req_dec a b) as [->|Ne]; [rewrite !Rminus_eq_0; lra|].
  assert (W : forall x y, x < y -> Rabs (cos x - cos y) <= Rabs (x - y)).
  { intros x y L. destruct (MVT_cor2 cos (fun r => - sin r) x y L) as (c & E & _).
    { intros c _. apply derivable_pt_lim_cos. }
    rewrite Rabs_minus_sym, E, Rabs_mult, (Rabs_minus_sym x y).
    rewrite <- (Rmult_1_l (Rabs (y - x))) at 2. apply Rmult_le_compat_r; [apply Rabs_pos|].
    rewrite Rabs_Ropp. apply Rabs_le. apply SIN_bound. }
  destruct (Rlt_or_le a b); [auto|]. rewrite Rabs_minus_sym, (Rabs_minus_sym a). apply W. lra.
Qed.
(** An interval as long as the period contains a maximum and a minimum. *)
Lemma full_period lo hi : 2 * PI <= hi - lo ->
  (exists a, lo <= a <= hi /\ cos a = -1) /\ (exists b, lo <= b <= hi /\ cos b = 1).
Proof.
  intros W. pose proof PI_RGT_0 as P0.
  assert (Q : forall c, exists n, lo <= c + IZR n * (2 * PI) <= hi).
  { intros c. exists (Zceil ((lo - c) / (2 * PI))).
    pose proof (Zceil_ub ((lo - c) / (2 * PI))) as U. pose proof (Zceil_lb ((lo - c) / (2 * PI))) as L.
    assert (E : lo - c = (lo - c) / (2 * PI) * (2 * PI)) by (field; lra).
    set (q := (lo - c) / (2 * PI)) in *. set (m := IZR (Zceil q)) in *.
    assert (q * (2 * PI) <= m * (2 * PI)) by (apply Rmult_le_compat_r; lra).
    assert (m * (2 * PI) <= (q + 1) * (2 * PI)) by (apply Rmult_le_compat_r; lra). lra. }
  assert (S : forall c n, cos (c + IZR n * (2 * PI)) = cos c).
  { intros c n. rewrite <- (cos_shift (c + IZR n * (2 * PI)) n). f_equal. ring. }
  split.
  - destruct (Q PI) as (n & B). exists (PI + IZR n * (2 * PI)). split; [exact B|]. rewrite S. apply cos_PI.
  - destruct (Q 0) as (n & B). exists (0 + IZR n * (2 * PI)). split; [exact B|]. rewrite S. apply cos_0.
Qed.

Section Acc.
Context {N : num} {val : T N -> ext} {P : policy N} {ready : rmode -> Prop}
        (H : polspec val P ready).
Notation V := (valid val).
Notation NS := (ps_num _ _ _ H).
Notation AS := (ps_ar _ _ _ H).
Notation Pu := (unprotect P).
Notation HU := (polspec_unprotect val P ready H).
Context {K : consts N} {pl pu hl hu tl tu Kb Bf : R} {R : transc N} {d Lg : Rdefinitions.R}
        (HK : kspec val K pl pu hl hu tl tu).
Notation mone := (n_cst N (-1)).
Hypothesis HM : val mone = Fin (-1).
Hypothesis HB : Bf <= - Kb.
Hypothesis HI : forall a l yb, val a = Fin l -> 1 <= yb -> Bf <= l / yb ->
  int_hyp (val := val) (P := P) (ready := ready) l yb
    (fun n => (- Kb <= l / yb < Kb -> n = Zfloor (l / yb)) /\ good_quot (Kb := Kb) l yb n).
(** [d] is the precision of the constants, and no less than that of the type. *)
Hypothesis Hd : 0 < d <= / 1024.
Hypothesis HKd : / (64 * d) <= Kb.
Hypothesis HLd : / d <= Lg.
Hypothesis Hpp : pu - pl <= 2 * d.
Hypothesis Hhh : hu - hl <= d.
Hypothesis Htt : tu - tl <= 4 * d.
Hypothesis HR : forall v, Rabs v <= Lg ->
  (exists t q, val t = Fin q /\ v - d * (Rabs v + 1) <= q <= v) /\
  (exists t q, val t = Fin q /\ v <= q <= v + d * (Rabs v + 1)).
Notation downr f := (down_rnd (val := val) (ready := ready) (R := R) f).
Notation upr f := (up_rnd (val := val) (ready := ready) (R := R) f).

Lemma Lg_big : 1024 <= Lg.
Proof. refine (Rle_trans _ _ _ _ HLd). rewrite <- (Rinv_inv 1024). apply Rinv_le; lra. Qed.

(** ** Tightest intervals and bounds are close *)
Lemma tight_acc z S a b : tightest val z S -> (forall s, S s -> a <= s <= b) -> Rabs a <= Lg -> Rabs b <= Lg ->
  xle (Fin (a - d * (Rabs a + 1))) (val (low z)) /\ xle (val (up z)) (Fin (b + d * (Rabs b + 1))).
Proof.
  intros [_ Ti] HS La Lb. destruct (proj1 (HR a La)) as (t & q & Et & Bt). destruct (proj2 (HR b Lb)) as (u & v & Eu & Bu).
  destruct (Ti (mk t u)) as [A B].
  { intros s Hs. apply HS in Hs. unfold mem. cbn [low up]. rewrite Et, Eu. cbn [xle]. lra. }
  cbn [low up] in A, B. rewrite Et in A. rewrite Eu in B. split.
  - refine (xle_trans _ _ _ _ A). cbn [xle]. lra.
  - refine (xle_trans _ _ _ B _). cbn [xle]. lra.
Qed.
Lemma rd_acc v t : Rabs v <= Lg -> RD val (Fin v) t -> exists q, val t = Fin q /\ v - d * (Rabs v + 1) <= q <= v.
Proof.
  intros Lv [A B]. destruct (proj1 (HR v Lv)) as (t' & q' & E' & B'). specialize (B t'). rewrite E' in B. specialize (B (proj2 B')).
  destruct (val t); cbn [xle] in A, B; try tauto. eexists. split; [reflexivity|lra].
Qed.
Lemma ru_acc v t : Rabs v <= Lg -> RU val (Fin v) t -> exists q, val t = Fin q /\ v <= q <= v + d * (Rabs v + 1).
Proof.
  intros Lv [A B]. destruct (proj2 (HR v Lv)) as (t' & q' & E' & B'). specialize (B t'). rewrite E' in B. specialize (B (proj1 B')).
  destruct (val t); cbn [xle] in A, B; try tauto. eexists. split; [reflexivity|lra].
Qed.

(** ** The reduction *)
Lemma fmod_parts x y l a b yb : V x -> V y ->
  val (low x) = Fin l -> val (low y) = Fin a -> val (up y) = Fin b -> 0 < a ->
  yb = (if Rlt_dec l 0 then a else b) -> forall Q, int_hyp (val := val) (P := P) (ready := ready) l yb Q ->
  exists z w n, Q n /\ runsI ready (fmod Pu x y) z /\ V z /\
    tightest val w (image1 (fun s => IZR n * s) (mem val y)) /\ tightest val z (image2 Rminus (mem val x) (mem val w)).
Proof.
  intros Hx Hy El Ea Eb Pa Eyb Q Hi.
  assert (Hab : a <= b) by (destruct Hy as (J & _); rewrite Ea, Eb in J; exact J).
  assert (Pyb : 0 < yb) by (rewrite Eyb; destruct Rlt_dec; lra).
  pose proof (yb_pick H y (low x) l a b El Ea Eb) as Eb'. rewrite <- Eyb in Eb'.
  destruct (as_div_down _ _ _ AS (low x) (if is_neg (low x) then low y else up y)) as (q & Dq & Rq).
  { rewrite El, Eb'. simpl. destruct Req_EM_T; [lra|discriminate]. }
  rewrite El, Eb' in Dq. simpl in Dq. destruct Req_EM_T as [J|_] in Dq; [lra|].
  destruct (Hi q Dq) as (tn & n & En & Rn & Ln & Pn & Qn).
  destruct (op_mul_ni_ok (polspec_unprotect val Pu ready HU) tn (IZR n) y En Hy) as (w & Rw & Tw).
  assert (Vw : V w).
  { eapply tightest_valid; [|exact Tw]. destruct (valid_mem _ _ Hy) as (s & Hs). exists (IZR n * s), s. auto. }
  destruct (op_sub_ok (polspec_unprotect val Pu ready HU) x w Hx Vw) as (z & Rz & Tz).
  apply runsP_unprotect in Rw. apply runsP_unprotect in Rz.
  assert (Vz : V z).
  { destruct (valid_mem _ _ Hx) as (r0 & Hr0). destruct (valid_mem _ _ Vw) as (s0 & Hs0).
    eapply tightest_valid; [|exact Tz]. exists (r0 - s0), r0, s0. auto. }
  exists z, w, n. split; [exact Qn|]. split; [|auto].
  unfold fmod. rewrite (test_valid2 HU x y Hx Hy).
  assert (W : forall A (m : M A) r, runsI ready m r -> runsI ready (with_rnd Pu m) r).
  { intros A m r Hm. unfold with_rnd. cbn. destruct (p_prot P); exact Hm. }
  apply W. eapply runsI_bind; [exact Rq|]. cbv beta. eapply runsI_bind; [exact Rn|]. cbv beta.
  eapply runsI_bind; [exact Rw|]. cbv beta. eapply runsI_bind; [exact Rz|]. cbv beta. apply pure_runsI, (ctor_back_valid HU); auto.
Qed.

Lemma small_l l : 64 * d * (1 + Rabs l) <= 1 -> Rabs l + 1 <= / (64 * d).
Proof.
  intros S. apply Rmult_le_reg_l with (64 * d); [lra|]. rewrite Rinv_r by lra. lra.
Qed.
Lemma fmod_near x y l u a b c : V x -> val (low x) = Fin l -> val (up x) = Fin u ->
  val (low y) = Fin a -> val (up y) = Fin b -> 3 <= a -> a <= c <= b -> b <= 7 -> b - a <= 4 * d ->
  64 * d * (1 + Rabs l) <= 1 -> u - l <= 8 ->
  exists z n lz uz, runsI ready (fmod Pu x y) z /\ V z /\ val (low z) = Fin lz /\ val (up z) = Fin uz /\
    0 <= lz < b /\ lz <= uz <= 17 /\
    l - IZR n * c - d * (4 * Rabs l + 32) <= lz /\ uz <= u - IZR n * c + d * (4 * Rabs l + 32).
Proof.
  intros Hx El Eu Ea Eb A3 Hc B7 Hw Sm Ul.
  assert (LU : l <= u) by (destruct Hx as (J & _); rewrite El, Eu in J; exact J).
  assert (Vy : V y) by (apply (finite_valid y a b); auto; lra).
  pose proof (small_l l Sm) as SL. pose proof (Rabs_pos l) as Al. pose proof Lg_big as LB.
  set (yb := if Rlt_dec l 0 then a else b).
  assert (Y : a <= yb <= b) by (unfold yb; destruct Rlt_dec; lra).
  assert (IY : 0 < / yb <= / 3) by (split; [apply Rinv_0_lt_compat; lra|apply Rinv_le; lra]).
  assert (Ql : Rabs (l / yb) <= Rabs l / 3).
  { unfold Rdiv. rewrite Rabs_mult, (Rabs_pos_eq (/ yb)) by lra. apply Rmult_le_compat_l; lra. }
  pose proof (Rabs_le_inv _ _ Ql) as Ql'.
  assert (Kl : - Kb <= l / yb < Kb) by lra.
  destruct (fmod_parts x y l a b yb Hx Vy El Ea Eb ltac:(lra) eq_refl _ (HI (low x) l yb El ltac:(lra) ltac:(lra)))
    as (z & w & n & (Fn & _) & Rz & Vz & Tw & Tz).
  specialize (Fn Kl).
  pose proof (Zfloor_lb (l / yb)) as F1. pose proof (Zfloor_ub (l / yb)) as F2. rewrite <- Fn in F1, F2.
  set (m := IZR n) in *.
  assert (An : Rabs m <= Rabs l / 3 + 1) by (apply Rabs_le; lra).
  assert (Lq : l = l / yb * yb) by (field; lra).
  assert (N1 : m * yb <= l) by (apply Rle_trans with (l / yb * yb); [apply Rmult_le_compat_r; lra|lra]).
  assert (N2 : l < m * yb + yb).
  { assert (l / yb * yb < (m + 1) * yb) by (apply Rmult_lt_compat_r; lra). lra. }
  set (k := Rabs m) in *. assert (K0 : 0 <= k) by apply Rabs_pos.
  assert (DK : d * k <= / 64).
  { assert (d * k <= d * (Rabs l + 1)) by (apply Rmult_le_compat_l; lra). lra. }
  assert (Msub : forall s s', a <= s <= b -> a <= s' <= b -> Rabs (m * s - m * s') <= 4 * (d * k)).
  { intros s s' B1 B2. rewrite <- Rmult_minus_distr_l, Rabs_mult. fold k.
    apply Rle_trans with (k * (4 * d)); [|lra]. apply Rmult_le_compat_l; [exact K0|]. apply Rabs_le. lra. }
  assert (MC : Rabs (m * c) <= 7 * k).
  { rewrite Rabs_mult. fold k. rewrite (Rabs_pos_eq c) by lra. rewrite (Rmult_comm 7). apply Rmult_le_compat_l; lra. }
  assert (KL : 7 * k + 1 <= Lg).
  { refine (Rle_trans _ _ _ _ HLd). apply Rmult_le_reg_l with d; [lra|]. rewrite Rinv_r by lra. lra. }
  (* the multiple of the period *)
  assert (RA : Rabs (m * c - 4 * (d * k)) <= 7 * k + 1) by (apply Rabs_le; apply Rabs_le_inv in MC; pose proof (Rmult_le_pos d k); lra).
  assert (RB : Rabs (m * c + 4 * (d * k)) <= 7 * k + 1) by (apply Rabs_le; apply Rabs_le_inv in MC; pose proof (Rmult_le_pos d k); lra).
  assert (DKp : 0 <= d * k) by (apply Rmult_le_pos; lra).
  destruct (tight_acc w _ (m * c - 4 * (d * k)) (m * c + 4 * (d * k)) Tw) as [W1 W2]; [|lra|lra|].
  { intros s (r & [M1 M2] & ->). rewrite Ea in M1. rewrite Eb in M2. cbn [xle] in M1, M2.
    pose proof (Rabs_le_inv _ _ (Msub r c ltac:(lra) Hc)). lra. }
  assert (W1' : xle (Fin (m * c - (11 * (d * k) + 2 * d))) (val (low w))).
  { refine (xle_trans _ _ _ _ W1). cbn [xle].
    assert (d * (Rabs (m * c - 4 * (d * k)) + 1) <= d * (7 * k + 2)) by (apply Rmult_le_compat_l; lra). lra. }
  assert (W2' : xle (val (up w)) (Fin (m * c + (11 * (d * k) + 2 * d)))).
  { refine (xle_trans _ _ _ W2 _). cbn [xle].
    assert (d * (Rabs (m * c + 4 * (d * k)) + 1) <= d * (7 * k + 2)) by (apply Rmult_le_compat_l; lra). lra. }
  clear W1 W2. set (o := 11 * (d * k) + 2 * d) in *.
  assert (Oo : 0 <= o <= / 4) by (unfold o; lra).
  assert (LC : Rabs (l - m * c) <= 7 + / 16).
  { pose proof (Rabs_le_inv _ _ (Msub yb c Y Hc)). apply Rabs_le. lra. }
  apply Rabs_le_inv in LC.
  assert (DL : d * (Rabs l / 3 + 1) <= / 64) by (assert (d * (Rabs l / 3 + 1) <= d * (Rabs l + 1)) by (apply Rmult_le_compat_l; lra); lra).
  assert (OD : o <= d * (4 * Rabs l + 32) - 18 * d).
  { unfold o. assert (d * k <= d * (Rabs l / 3 + 1)) by (apply Rmult_le_compat_l; lra). pose proof (Rmult_le_pos d (Rabs l)). lra. }
  assert (AA : Rabs (l - m * c - o) <= 8) by (apply Rabs_le; lra).
  assert (AB : Rabs (u - m * c + o) <= 16) by (apply Rabs_le; lra).
  destruct (tight_acc z _ (l - m * c - o) (u - m * c + o) Tz) as [Z1 Z2]; [|lra|lra|].
  { intros s (r & r' & [M1 M2] & [M3 M4] & ->). rewrite El in M1. rewrite Eu in M2. cbn [xle] in M1, M2.
    pose proof (xle_trans _ _ _ W1' M3) as Q1. pose proof (xle_trans _ _ _ M4 W2') as Q2. cbn [xle] in Q1, Q2. lra. }
  destruct (Vz) as (V1 & V2 & V3).
  assert (Ez : exists lz uz, val (low z) = Fin lz /\ val (up z) = Fin uz /\ lz <= uz).
  { destruct (val (low z)), (val (up z)); cbn [xle] in *; try tauto; eauto 8. }
  destruct Ez as (lz & uz & Elz & Euz & Lz). rewrite Elz in Z1. rewrite Euz in Z2. cbn [xle] in Z1, Z2.
  assert (D1 : d * (Rabs (l - m * c - o) + 1) <= d * 9) by (apply Rmult_le_compat_l; lra).
  assert (D2 : d * (Rabs (u - m * c + o) + 1) <= d * 17) by (apply Rmult_le_compat_l; lra).
  assert (MYB : mem val y yb) by (unfold mem; rewrite Ea, Eb; cbn [xle]; lra).
  assert (Mw : forall s, a <= s <= b -> mem val w (m * s)).
  { intros s B. apply (proj1 Tw). exists s. split; [|reflexivity]. unfold mem. rewrite Ea, Eb. cbn [xle]. lra. }
  assert (MX : mem val x l) by (unfold mem; rewrite El, Eu; cbn [xle]; lra).
  assert (Up : lz <= l - m * yb).
  { assert (M : mem val z (l - m * yb)) by (apply (proj1 Tz); exists l, (m * yb); auto). destruct M as [M _]. rewrite Elz in M. exact M. }
  (* the lower bound is not negative: so is every member of x - w *)
  assert (Pz : 0 <= lz).
  { assert (M : m * yb <= l) by exact N1.
    assert (Uw : xle (val (up w)) (Fin l)).
    { rewrite <- El. apply (proj2 Tw (mk (low w) (low x))). intros t Ht. split; cbn [low up]; [apply (proj1 Tw); auto|].
      destruct Ht as (s & [S1 S2] & ->). rewrite Ea in S1. rewrite Eb in S2. rewrite El. cbn [xle] in *.
      apply Rle_trans with (m * yb); [|exact N1]. unfold yb in *. destruct (Rlt_dec l 0) as [G|G].
      - assert (m <= 0). { destruct (Rle_or_lt m 0); auto. assert (0 < m * a) by (apply Rmult_lt_0_compat; lra). lra. }
        apply Ropp_le_cancel. rewrite !Ropp_mult_distr_l. apply Rmult_le_compat_l; lra.
      - apply Rmult_le_compat_l; [|lra]. apply IZR_le. subst n. apply Zfloor_lub. apply Rmult_le_pos; lra. }
    assert (L0 : xle (Fin 0) (val (low z))).
    { rewrite <- (val_zero H). apply (proj2 Tz (mk zero (up z))). intros t Ht. split; cbn [low up]; [|apply (proj1 Tz); auto].
      rewrite (val_zero H). destruct Ht as (r & s & [Hr _] & [_ Hs] & ->). rewrite El in Hr. cbn [xle] in Hr |- *.
      pose proof (xle_trans _ _ _ Hs Uw) as Q. cbn [xle] in Q. lra. }
    rewrite Elz in L0. exact L0. }
  exists z, n, lz, uz. fold m. do 4 (split; [solve [auto]|]). split; [|split; [|split]]; lra.
Qed.

(** ** After the reduction

    The bounds of [r] are within 2 d of values of cos at points of [lo,hi]. *)
Definition rep (lo hi : Rdefinitions.R) (r : itv N) : Prop :=
  exists a b, lo <= a <= hi /\ lo <= b <= hi /\
    xle (Fin (cos a - 2 * d)) (val (low r)) /\ xle (val (up r)) (Fin (cos b + 2 * d)).
Lemma rep_full lo hi : 2 * PI <= hi - lo -> rep lo hi (mk mone one).
Proof.
  intros W. destruct (full_period lo hi W) as [(a & Ba & Ea) (b & Bb & Eb)]. exists a, b.
  split; [exact Ba|]. split; [exact Bb|]. cbn [low up]. rewrite HM, (val_one H), Ea, Eb. cbn [xle]. lra.
Qed.
Lemma cos_acc_abs r : Rabs (cos r) <= 1.
Proof. apply Rabs_le, COS_bound. Qed.
Lemma rd_cos a v : downr Fcos -> val a = Fin v ->
  exists t, runsI ready (tr_down R Fcos a) t /\ xle (Fin (cos v - 2 * d)) (val t).
Proof.
  intros D E. destruct (D a _ (cos_defined _ _ E)) as (t & Dt & Rt). exists t. split; [exact Rt|].
  pose proof (cos_acc_abs v) as C. pose proof Lg_big.
  destruct (rd_acc (cos v) t ltac:(lra) Dt) as (q & Eq & Bq). rewrite Eq. cbn [xle].
  assert (d * (Rabs (cos v) + 1) <= d * 2) by (apply Rmult_le_compat_l; lra). lra.
Qed.
Lemma ru_cos a v : upr Fcos -> val a = Fin v ->
  exists t, runsI ready (tr_up R Fcos a) t /\ xle (val t) (Fin (cos v + 2 * d)).
Proof.
  intros D E. destruct (D a _ (cos_defined _ _ E)) as (t & Dt & Rt). exists t. split; [exact Rt|].
  pose proof (cos_acc_abs v) as C. pose proof Lg_big.
  destruct (ru_acc (cos v) t ltac:(lra) Dt) as (q & Eq & Bq). rewrite Eq. cbn [xle].
  assert (d * (Rabs (cos v) + 1) <= d * 2) by (apply Rmult_le_compat_l; lra). lra.
Qed.
Lemma kb : 3 <= pl /\ pl <= PI <= pu /\ pu <= 4 /\ hl <= PI / 2 <= hu /\ 6 <= tl /\ tl <= 2 * PI <= tu /\ tu <= 7 /\ tu <= 2 * pu.
Proof.
  destruct (ks_b _ _ _ _ _ _ _ _ HK) as (B1 & B2 & B3 & B4). pose proof (ks_pi _ _ _ _ _ _ _ _ HK). pose proof (ks_half _ _ _ _ _ _ _ _ HK).
  pose proof (ks_twice _ _ _ _ _ _ _ _ HK). pose proof PI_4. pose proof pi_3_4. repeat split; try lra.
Qed.

Lemma direct_acc z lz uz (o : bool * bool) plv (pi2 : itv N) : downr Fcos -> upr Fcos ->
  val (low z) = Fin lz -> val (up z) = Fin uz -> 0 <= lz -> lz <= uz -> lz < pu ->
  val (low pi2) = Fin tl -> val plv = Fin pl ->
  exists r, runsI ready
    (if n_le N (up z) plv then
       mk_args (fst o) (tr_down R Fcos (up z)) (tr_up R Fcos (low z))
     else if n_le N (up z) (low pi2) then
       mk_args (snd o) (ret mone) (let! d := sub_down (p_ar P) (low pi2) (up z) in tr_up R Fcos (std_min d (low z)))
     else ret (mk mone one)) r /\ rep (lz - 16 * d) (uz + 16 * d) r.
Proof.
  intros D U El Eu L0 LU LP Et Ep. destruct kb as (k1 & k2 & k3 & k4 & k5 & k6 & k7 & k8). pose proof pi_3_4 as P34.
  destruct (le_case H (up z) plv) as [[E A]|[E A]]; [rewrite Eu; discriminate|rewrite Ep; discriminate| |]; rewrite E; rewrite Eu, Ep in A.
  - destruct (rd_cos (up z) uz D Eu) as (a & Ra & Ba). destruct (ru_cos (low z) lz U El) as (b & Rb & Bb).
    exists (mk a b). split; [runs|]. exists uz, lz. cbn [low up]. repeat split; try lra; auto.
  - cbn [xlt] in A. destruct (le_case H (up z) (low pi2)) as [[E' A']|[E' A']]; [rewrite Eu; discriminate|rewrite Et; discriminate| |];
      rewrite E'; rewrite Eu, Et in A'.
    + cbn [xle] in A'.
      destruct (as_sub_down _ _ _ AS (low pi2) (up z)) as (dd & Dd & Rd); [rewrite Et, Eu; discriminate|].
      rewrite Et, Eu in Dd. change (xsub (Fin tl) (Fin uz)) with (Fin (tl - uz)) in Dd.
      pose proof Lg_big as LB.
      assert (AT : Rabs (tl - uz) <= 7) by (apply Rabs_le; lra).
      destruct (rd_acc (tl - uz) dd ltac:(lra) Dd) as (dv & Ed & Bd).
      assert (DD : d * (Rabs (tl - uz) + 1) <= d * 8) by (apply Rmult_le_compat_l; lra).
      assert (Em : exists m b, val (std_min dd (low z)) = Fin m /\ lz - 16 * d <= b <= uz + 16 * d /\ cos m = cos b).
      { unfold std_min. destruct (n_lt N (low z) dd).
        - exists lz, lz. repeat split; auto; lra.
        - exists dv, (2 * PI - dv). split; [exact Ed|]. split; [lra|]. symmetry. apply cos_fold. }
      destruct Em as (m & b & Em & Bb & Cb). destruct (ru_cos _ m U Em) as (t & Rt & Bt).
      exists (mk mone t). split.
      { apply runsI_mk_args; [runs|]. eapply runsI_bind; [exact Rd|]. exact Rt. }
      exists PI, b. cbn [low up]. rewrite HM, cos_PI. rewrite Cb in Bt. cbn [xle]. repeat split; try lra; auto.
    + cbn [xlt] in A'. exists (mk mone one). split; [runs|]. exists PI, (2 * PI). cbn [low up].
      rewrite HM, (val_one H), cos_PI, cos_2PI. cbn [xle]. repeat split; lra.
Qed.

(** One unfolding of cos. *)
Lemma body_acc fuel q x z y lz uz : 0 <= q -> downr Fcos -> upr Fcos -> V x -> pureM (i_pi_twice P K) y -> val (low y) = Fin tl -> val (up y) = Fin tu ->
  runsI ready (fmod Pu x y) z -> V z -> val (low z) = Fin lz -> val (up z) = Fin uz -> 0 <= lz < tu -> lz <= uz <= 17 ->
  (forall g lg ug, V g -> val (low g) = Fin lg -> val (up g) = Fin ug -> 0 <= lg < tu - pu -> lg <= ug <= 17 -> pu <= lz ->
     exists r, runsI ready (t_cos K R fuel Pu g) r /\ V r /\ rep (lg - q * d) (ug + q * d) r) ->
  exists r, runsP P ready (t_cos K R (S fuel) P x) r /\ rep (lz - (q + 30) * d) (uz + (q + 30) * d) r.
Proof.
  intros Q0 D U Hx Ry Ey1 Ey2 Rz Vz Elz Euz Bz Uz Rec.
  destruct kb as (k1 & k2 & k3 & k4 & k5 & k6 & k7 & k8). pose proof pi_3_4 as P34. pose proof Lg_big as LB.
  assert (QD : 0 <= q * d) by (apply Rmult_le_pos; lra).
  assert (Mon : forall lo hi r, lz - (q + 30) * d <= lo -> hi <= uz + (q + 30) * d -> rep lo hi r -> rep (lz - (q + 30) * d) (uz + (q + 30) * d) r).
  { intros lo hi r B1 B2 (a & b & Q1 & Q2 & Q3). exists a, b. split; [lra|]. split; [lra|exact Q3]. }
  cbn [t_cos]. rewrite (test_valid H) by auto.
  destruct (width_ok HU z Vz) as (w & Rw & Uw & Lw). apply runsP_unprotect in Rw.
  assert (Ww : xle (val w) (Fin (uz - lz + d * 18))).
  { destruct (proj2 (HR (uz - lz) ltac:(rewrite Rabs_pos_eq; lra))) as (t & v & Et & Bt).
    refine (xle_trans _ (val t) _ _ _).
    - apply Lw. intros s (r & r' & [M1 M2] & [M3 M4] & ->). rewrite Elz in M1, M3. rewrite Euz in M2, M4. rewrite Et. cbn [xle] in *. lra.
    - rewrite Et. cbn [xle]. rewrite Rabs_pos_eq in Bt by lra. assert (d * (uz - lz + 1) <= d * 18) by (apply Rmult_le_compat_l; lra). lra. }
  assert (MZ : mem val z lz) by (unfold mem; rewrite Elz, Euz; cbn [xle]; lra).
  assert (Nw : val w <> NaN).
  { intros E. assert (Q : xle (Fin (lz - lz)) (val w)) by (apply Uw; exists lz, lz; auto). rewrite E in Q. destruct Q. }
  enough (Q : exists r, runsI ready (
      if n_ge w (low y) then ret (mk mone one) else
      let! pu := k_pi_u K in
      if n_ge (low z) pu then
        let! pi := i_pi P K in
        let! d := op_sub Pu z pi in
        let! r := t_cos K R fuel Pu d in
        let! r := op_neg Pu r in
        ctor_back P r
      else
        let l := low z in
        let u := up z in
        let! pl := k_pi_l K in
        if n_le N u pl then
          mk_args (p_ord P (H_transc, 73%Z)) (tr_down R Fcos u) (tr_up R Fcos l)
        else if n_le N u (low y) then
          mk_args (p_ord P (H_transc, 75%Z)) (ret mone)
            (let! d := sub_down (p_ar P) (low y) u in
             tr_up R Fcos (std_min d l))
        else ret (mk mone one)) r /\ rep (lz - (q + 30) * d) (uz + (q + 30) * d) r).
  { destruct Q as (r & Rr & Hr). exists r. split; [|exact Hr]. apply (with_rnd_runs P ready H). cbv zeta.
    eapply runsI_bind; [apply pure_runsI; exact Ry|]. cbv beta. eapply runsI_bind; [exact Rz|]. cbv beta.
    eapply runsI_bind; [exact Rw|]. cbv beta. exact Rr. }
  destruct (le_case H (low y) w) as [[E A]|[E A]]; [rewrite Ey1; discriminate|auto| |]; unfold n_ge at 1; rewrite E.
  { exists (mk mone one). split; [runs|]. apply rep_full. rewrite Ey1 in A. pose proof (xle_trans _ _ _ A Ww) as Q. cbn [xle] in Q. lra. }
  clear A. destruct (ks_pu _ _ _ _ _ _ _ _ HK) as (vpu & Evpu & Rvpu). destruct (ks_pl _ _ _ _ _ _ _ _ HK) as (vpl & Evpl & Rvpl).
  destruct (le_case H vpu (low z)) as [[E' A']|[E' A']]; [rewrite Evpu; discriminate|rewrite Elz; discriminate| |]; rewrite Evpu, Elz in A'.
  - cbn [xle] in A'. destruct (pi_run (P := P) HK) as (yp & Ryp & Eyp1 & Eyp2).
    assert (Vyp : V yp) by (apply (finite_valid yp pl pu); auto; lra).
    destruct (op_sub_ok HU z yp Vz Vyp) as (g & Rg & Tg). apply runsP_unprotect in Rg.
    assert (MP : mem val yp pu) by (unfold mem; rewrite Eyp1, Eyp2; cbn [xle]; lra).
    assert (Mg : mem val g (lz - pu)) by (apply (proj1 Tg); exists lz, pu; auto).
    assert (Vg : V g) by (eapply tightest_valid; [|exact Tg]; exists (lz - pu), lz, pu; auto).
    destruct (tight_acc g _ (lz - pu) (uz - pl) Tg) as [G1 G2].
    { intros s (r & r' & [M1 M2] & [M3 M4] & ->). rewrite Elz in M1. rewrite Euz in M2. rewrite Eyp1 in M3. rewrite Eyp2 in M4. cbn [xle] in *. lra. }
    { rewrite Rabs_pos_eq; lra. } { rewrite Rabs_pos_eq; lra. }
    rewrite Rabs_pos_eq in G1 by lra. rewrite Rabs_pos_eq in G2 by lra.
    assert (L0 : xle (Fin 0) (val (low g))).
    { rewrite <- (val_zero H). apply (proj2 Tg (mk zero (up g))). intros t Ht. split; cbn [low up].
      - rewrite (val_zero H). destruct Ht as (r & s & [Hr _] & [_ Hs] & ->). rewrite Elz in Hr. rewrite Eyp2 in Hs. cbn [xle] in *. lra.
      - apply (proj1 Tg); auto. }
    assert (Eg : exists lg ug, val (low g) = Fin lg /\ val (up g) = Fin ug /\ lg <= ug).
    { destruct Vg as (Q1 & Q2 & Q3). destruct (val (low g)), (val (up g)); cbn [xle] in *; try tauto; eauto 8. }
    destruct Eg as (lg & ug & Elg & Eug & Lg'). destruct Mg as [Mg _]. rewrite Elg in G1, L0, Mg. rewrite Eug in G2. cbn [xle] in G1, G2, L0, Mg.
    assert (D1 : d * (lz - pu + 1) <= d * 5) by (apply Rmult_le_compat_l; lra).
    assert (D2 : d * (uz - pl + 1) <= d * 15) by (apply Rmult_le_compat_l; lra).
    destruct (Rec g lg ug Vg Elg Eug) as (r & Rr & Vr & (a & b & Ba & Bb & Ca & Cb)); [lra|lra|exact A'|].
    destruct (op_neg_ok HU r Vr) as (g' & Rg' & Dg & Vg' & El' & Eu'). apply runsP_unprotect in Rg'.
    exists g'. split.
    { eapply runsI_bind; [apply pure_runsI; exact Rvpu|]. cbv beta. unfold n_ge. rewrite E'.
      eapply runsI_bind; [apply pure_runsI; exact Ryp|]. cbv beta. eapply runsI_bind; [exact Rg|]. cbv beta.
      eapply runsI_bind; [exact Rr|]. cbv beta. eapply runsI_bind; [exact Rg'|]. cbv beta.
      apply pure_runsI, (ctor_back_valid H); auto. }
    exists (b + PI), (a + PI). split; [lra|]. split; [lra|]. rewrite El', Eu', !neg_cos.
    split; [destruct (val (up r))|destruct (val (low r))]; cbn [xopp xle] in *; try tauto; lra.
  - cbn [xlt] in A'.
    destruct (direct_acc z lz uz (p_ord P (H_transc, 73%Z), p_ord P (H_transc, 75%Z)) vpl y D U Elz Euz ltac:(lra) ltac:(lra) A' Ey1 Evpl) as (r & Rr & Hr).
    exists r. split; [|apply (Mon (lz - 16 * d) (uz + 16 * d)); [lra|lra|exact Hr]].
    eapply runsI_bind; [apply pure_runsI; exact Rvpu|]. cbv beta. unfold n_ge. rewrite E'. cbv zeta.
    eapply runsI_bind; [apply pure_runsI; exact Rvpl|]. cbv beta. exact Rr.
Qed.
End Acc.

Section Full.
Context {N : num} {val : T N -> ext} {P : policy N} {ready : rmode -> Prop}
        (H : polspec val P ready).
Notation V := (valid val).
Notation Pu := (unprotect P).
Notation HU := (polspec_unprotect val P ready H).
Context {K : consts N} {pl pu hl hu tl tu Kb Bf : R} {R : transc N} {d Lg : Rdefinitions.R}
        (HK : kspec val K pl pu hl hu tl tu).
Notation mone := (n_cst N (-1)).
Hypothesis HM : val mone = Fin (-1).
Hypothesis HKb : tl <= Kb * (tu - tl).
Hypothesis HB : Bf <= - Kb.
Hypothesis HI : forall a l yb, val a = Fin l -> 1 <= yb -> Bf <= l / yb ->
  int_hyp (val := val) (P := P) (ready := ready) l yb
    (fun n => (- Kb <= l / yb < Kb -> n = Zfloor (l / yb)) /\ good_quot (Kb := Kb) l yb n).
Hypothesis Hd : 0 < d <= / 1024.
Hypothesis HKd : / (64 * d) <= Kb.
Hypothesis HLd : / d <= Lg.
Hypothesis Hpp : pu - pl <= 2 * d.
Hypothesis Hhh : hu - hl <= d.
Hypothesis Htt : tu - tl <= 4 * d.
Hypothesis HR : forall v, Rabs v <= Lg ->
  (exists t q, val t = Fin q /\ v - d * (Rabs v + 1) <= q <= v) /\
  (exists t q, val t = Fin q /\ v <= q <= v + d * (Rabs v + 1)).
Notation downr f := (down_rnd (val := val) (ready := ready) (R := R) f).
Notation upr f := (up_rnd (val := val) (ready := ready) (R := R) f).
Notation rp := (rep (val := val) (d := d)).

Lemma HI2 : forall a l yb, val a = Fin l -> 1 <= yb -> Bf <= l / yb ->
  int_hyp (val := val) (P := P) (ready := ready) l yb (good_quot (Kb := Kb) l yb).
Proof.
  intros a l yb E Y B t D. destruct (HI a l yb E Y B t D) as (tn & n & A1 & A2 & A3 & A4 & _ & A5). exists tn, n. auto.
Qed.
Lemma Kb_pos : 0 < Kb.
Proof. refine (Rlt_le_trans _ _ _ _ HKd). apply Rinv_0_lt_compat. lra. Qed.
Lemma cos_acc k x l u : downr Fcos -> upr Fcos -> V x -> val (low x) = Fin l -> val (up x) = Fin u ->
  64 * d * (1 + Rabs l) <= 1 -> u - l <= 8 ->
  exists r, runsP P ready (t_cos K R (S (S k)) P x) r /\ rp (l - d * (4 * Rabs l + 92)) (u + d * (4 * Rabs l + 92)) r.
Proof.
  intros D U Hx El Eu Sm Ul. pose proof Kb_pos as KP. destruct (kb HK Hd Hpp Htt) as (k1 & k2 & k3 & k4 & k5 & k6 & k7 & k8).
  assert (DO : doc_down val ready R Fcos) by (intros a e _ G; destruct (D a e G) as (t & [L _] & Rt); eauto).
  assert (UO : doc_up val ready R Fcos) by (intros a e _ G; destruct (U a e G) as (t & [L _] & Rt); eauto).
  destruct (pi2_run (P := P) HK) as (y & Ry & Ey1 & Ey2).
  destruct (fmod_near H HB HI Hd HKd HLd HR x y l u tl tu (2 * PI) Hx El Eu Ey1 Ey2) as (z & n & lz & uz & Rz & Vz & Elz & Euz & B1 & B2 & B3 & B4); try lra.
  destruct (body_acc H HK HM Hd HLd Hpp Hhh Htt HR (S k) 30 x z y lz uz ltac:(lra) D U Hx Ry Ey1 Ey2 Rz Vz Elz Euz B1 B2) as (r & Rr & (a & b & Ba & Bb & Ca)).
  - intros g lg ug Vg Elg Eug Bg Bu _.
    destruct (pi2_run (P := Pu) HK) as (y' & Ry' & Ey1' & Ey2').
    destruct (reduced (Kb := Kb) (Bf := Bf) HU ltac:(lra) HI2 g y' tl tu lg Vg Elg Ey1' Ey2') as (z' & Rz' & Vz' & Elz' & Euz'); [lra|lra|lra|].
    rewrite Eug in Euz'.
    destruct (body_acc HU HK HM Hd HLd Hpp Hhh Htt HR k 0 g z' y' lg ug ltac:(lra) D U Vg Ry' Ey1' Ey2' Rz' Vz' Elz' Euz') as (r & Rr & Hr); [lra|lra| |].
    { intros. exfalso. lra. }
    replace (0 + 30) with 30 in Hr by ring. apply runsP_unprotect in Rr. exists r. split; [exact Rr|]. split; [|exact Hr].
    destruct (cos_step HU HK HM HKb HI2 k g lg DO UO Vg Elg) as (r' & Rr' & Vr' & _).
    + apply Rle_trans with 0; [lra|]. apply Rmult_le_pos; [lra|]. left. apply Rinv_0_lt_compat. destruct (Rlt_dec lg 0); lra.
    + intros d' ld' _ _ _ _ Far. exfalso. lra.
    + apply runsP_unprotect in Rr'. rewrite (runsI_det H _ _ _ Rr Rr'). exact Vr'.
  - exists r. split; [exact Rr|].
    assert (S : forall c, cos (c + IZR n * (2 * PI)) = cos c).
    { intros c. rewrite <- (cos_shift (c + IZR n * (2 * PI)) n). f_equal. ring. }
    exists (a + IZR n * (2 * PI)), (b + IZR n * (2 * PI)). rewrite !S. split; [lra|]. split; [lra|exact Ca].
Qed.
Lemma rep_point lo hi r t : rp lo hi r -> mem val r t -> exists s, lo <= s <= hi /\ Rabs (t - cos s) <= 2 * d.
Proof.
  intros (a & b & Ba & Bb & Ca & Cb) [M1 M2]. pose proof (xle_trans _ _ _ Ca M1) as A. pose proof (xle_trans _ _ _ M2 Cb) as B. cbn [xle] in A, B.
  destruct (Rle_or_lt t (cos a)) as [Q1|Q1]; [exists a; split; [exact Ba|apply Rabs_le; lra]|].
  destruct (Rle_or_lt (cos b) t) as [Q2|Q2]; [exists b; split; [exact Bb|apply Rabs_le; lra]|].
  destruct (cos_ivt a b t) as (s & Bs & Es); [lra|]. exists s. split.
  - pose proof (Rmin_glb a b lo). pose proof (Rmax_lub a b hi). lra.
  - rewrite Es, Rminus_eq_0, Rabs_R0. lra.
Qed.

(** ** The forward error *)
Lemma near_point l u s E : l <= u -> 0 <= E -> l - E <= s <= u + E -> exists q, l <= q <= u /\ Rabs (s - q) <= E.
Proof.
  intros LU E0 B. destruct (Rle_or_lt s l) as [Q|Q]; [exists l; split; [lra|apply Rabs_le; lra]|].
  destruct (Rle_or_lt u s) as [Q'|Q']; [exists u; split; [lra|apply Rabs_le; lra]|].
  exists s. split; [lra|]. rewrite Rminus_eq_0, Rabs_R0. exact E0.
Qed.
Lemma forward l u c s t E a b : l <= u -> u - l <= 7 -> 0 <= a <= 8 -> 0 <= b <= 128 -> E = d * (a * Rabs l + b) ->
  l - c - E <= s <= u - c + E ->
  Rabs (t - cos s) <= 2 * d -> exists q, l <= q <= u /\ Rabs (t - cos (q - c)) <= 256 * d * (1 + Rabs q).
Proof.
  intros LU UL Ha Hb -> Bs Ct. pose proof (Rabs_pos l) as Al. pose proof (Rmult_le_pos a (Rabs l) (proj1 Ha) Al).
  destruct (near_point l u (s + c) (d * (a * Rabs l + b)) LU) as (q & Bq & Cq); [apply Rmult_le_pos; lra|lra|].
  exists q. split; [exact Bq|].
  assert (Lq : Rabs l <= Rabs q + 7).
  { replace l with (q + (l - q)) by ring. refine (Rle_trans _ _ _ (Rabs_triang _ _) _). apply Rplus_le_compat_l. apply Rabs_le. lra. }
  pose proof (cos_lipschitz s (q - c)) as Lip. replace (s - (q - c)) with (s + c - q) in Lip by ring. pose proof (Rabs_pos q) as Aq.
  replace (t - cos (q - c)) with ((t - cos s) + (cos s - cos (q - c))) by ring. refine (Rle_trans _ _ _ (Rabs_triang _ _) _).
  assert (d * (a * Rabs l + b) <= d * (8 * (Rabs q + 7) + 128)).
  { apply Rmult_le_compat_l; [lra|]. apply Rplus_le_compat; [apply Rmult_le_compat; lra|lra]. }
  assert (0 <= d * Rabs q) by (apply Rmult_le_pos; lra). lra.
Qed.
Lemma cos_forward k x l u r : downr Fcos -> upr Fcos -> V x -> val (low x) = Fin l -> val (up x) = Fin u ->
  128 * d * (1 + Rabs l) <= 1 -> u - l <= 7 -> runsP P ready (t_cos K R (S (S k)) P x) r ->
  forall t, mem val r t -> exists q, mem val x q /\ Rabs (t - cos q) <= 256 * d * (1 + Rabs q).
Proof.
  intros D U Hx El Eu Sm Ul Rr t M. assert (LU : l <= u) by (destruct Hx as (Q & _); rewrite El, Eu in Q; exact Q).
  pose proof (Rabs_pos l) as Al. assert (0 <= d * Rabs l) by (apply Rmult_le_pos; lra).
  destruct (cos_acc k x l u D U Hx El Eu) as (r' & Rr' & Hr); [lra|lra|]. rewrite <- (runsP_det H _ _ _ Rr Rr') in Hr.
  destruct (rep_point _ _ _ t Hr M) as (s & Bs & Cs).
  destruct (forward l u 0 s t (d * (4 * Rabs l + 92)) 4 92) as (q & Bq & Cq); try lra; auto.
  rewrite Rminus_0_r in Cq. exists q. split; [unfold mem; rewrite El, Eu; exact Bq|exact Cq].
Qed.
Lemma sin_half r : cos (r - PI / 2) = sin r.
Proof. rewrite cos_minus, cos_PI2, sin_PI2. ring. Qed.
End Full.

Section Sin.
Context {N : num} {val : T N -> ext} {P : policy N} {ready : rmode -> Prop}
        (H : polspec val P ready).
Notation V := (valid val).
Notation Pu := (unprotect P).
Notation HU := (polspec_unprotect val P ready H).
Context {K : consts N} {pl pu hl hu tl tu Kb Bf : R} {R : transc N} {d Lg : Rdefinitions.R}
        (HK : kspec val K pl pu hl hu tl tu).
Notation mone := (n_cst N (-1)).
Hypothesis HM : val mone = Fin (-1).
Hypothesis HKb : tl <= Kb * (tu - tl).
Hypothesis HB : Bf <= - Kb.
Hypothesis HI : forall a l yb, val a = Fin l -> 1 <= yb -> Bf <= l / yb ->
  int_hyp (val := val) (P := P) (ready := ready) l yb
    (fun n => (- Kb <= l / yb < Kb -> n = Zfloor (l / yb)) /\ good_quot (Kb := Kb) l yb n).
Hypothesis Hd : 0 < d <= / 1024.
Hypothesis HKd : / (64 * d) <= Kb.
Hypothesis HLd : / d <= Lg.
Hypothesis Hpp : pu - pl <= 2 * d.
Hypothesis Hhh : hu - hl <= d.
Hypothesis Htt : tu - tl <= 4 * d.
Hypothesis HR : forall v, Rabs v <= Lg ->
  (exists t q, val t = Fin q /\ v - d * (Rabs v + 1) <= q <= v) /\
  (exists t q, val t = Fin q /\ v <= q <= v + d * (Rabs v + 1)).
Notation downr f := (down_rnd (val := val) (ready := ready) (R := R) f).
Notation upr f := (up_rnd (val := val) (ready := ready) (R := R) f).

Lemma sin_forward k x l u r : downr Fcos -> upr Fcos -> V x -> val (low x) = Fin l -> val (up x) = Fin u ->
  128 * d * (1 + Rabs l) <= 1 -> u - l <= 7 -> runsP P ready (t_sin K R (S (S k)) P x) r ->
  forall t, mem val r t -> exists q, mem val x q /\ Rabs (t - sin q) <= 256 * d * (1 + Rabs q).
Proof.
  intros D U Hx El Eu Sm Ul Rr t M. assert (LU : l <= u) by (destruct Hx as (Q & _); rewrite El, Eu in Q; exact Q).
  pose proof (Rabs_pos l) as Al. assert (DL : 0 <= d * Rabs l) by (apply Rmult_le_pos; lra).
  destruct (kb HK Hd Hpp Htt) as (k1 & k2 & k3 & k4 & k5 & k6 & k7 & k8). pose proof (Lg_big Hd HLd) as LB. pose proof PI_4 as P4.
  destruct (half_run (P := P) HK) as (y & Ry & Ey1 & Ey2).
  assert (Vy : V y) by (apply (finite_valid y hl hu); auto; lra).
  assert (MY : mem val y (PI / 2)) by (unfold mem; rewrite Ey1, Ey2; split; cbn [xle]; lra).
  destruct (op_sub_ok HU x y Hx Vy) as (g & Rg & Tg). apply runsP_unprotect in Rg.
  assert (Vg : V g) by (eapply tightest_valid; [|exact Tg]; destruct (valid_mem _ _ Hx) as (r0 & Hr0); exists (r0 - PI / 2), r0, (PI / 2); auto).
  assert (L3 : Rabs l + 12 <= Lg).
  { refine (Rle_trans _ _ _ _ HLd). apply Rmult_le_reg_l with d; [lra|]. rewrite Rinv_r by lra. lra. }
  assert (A1 : Rabs (l - hu) <= Rabs l + 3).
  { refine (Rle_trans _ _ _ (Rabs_triang _ _) _). apply Rplus_le_compat_l. rewrite Rabs_Ropp, Rabs_pos_eq; lra. }
  assert (A2 : Rabs (u - hl) <= Rabs l + 8).
  { replace (u - hl) with (l + (u - l - hl)) by ring. refine (Rle_trans _ _ _ (Rabs_triang _ _) _). apply Rplus_le_compat_l. apply Rabs_le. lra. }
  destruct (tight_acc HR g _ (l - hu) (u - hl) Tg) as [G1 G2]; [|lra|lra|].
  { intros s (r0 & r' & [M1 M2] & [M3 M4] & ->). rewrite El in M1. rewrite Eu in M2. rewrite Ey1 in M3. rewrite Ey2 in M4. cbn [xle] in *. lra. }
  assert (Eg : exists lg ug, val (low g) = Fin lg /\ val (up g) = Fin ug /\ lg <= ug).
  { destruct Vg as (Q1 & Q2 & Q3). destruct (val (low g)), (val (up g)); cbn [xle] in *; try tauto; eauto 8. }
  destruct Eg as (lg & ug & Elg & Eug & Lgu). rewrite Elg in G1. rewrite Eug in G2. cbn [xle] in G1, G2.
  assert (D1 : d * (Rabs (l - hu) + 1) <= d * (Rabs l + 4)) by (apply Rmult_le_compat_l; lra).
  assert (D2 : d * (Rabs (u - hl) + 1) <= d * (Rabs l + 9)) by (apply Rmult_le_compat_l; lra).
  assert (Mg : mem val g (l - PI / 2)).
  { apply (proj1 Tg). exists l, (PI / 2). split; [unfold mem; rewrite El, Eu; cbn [xle]; lra|auto]. }
  destruct Mg as [Mg _]. rewrite Elg in Mg. cbn [xle] in Mg.
  assert (Alg : Rabs lg <= Rabs l + 3).
  { replace lg with (l + (lg - l)) by ring. refine (Rle_trans _ _ _ (Rabs_triang _ _) _). apply Rplus_le_compat_l. apply Rabs_le. lra. }
  assert (DLg : d * Rabs lg <= d * (Rabs l + 3)) by (apply Rmult_le_compat_l; lra).
  destruct (cos_acc HU HK HM HKb HB HI Hd HKd HLd Hpp Hhh Htt HR k g lg ug D U Vg Elg Eug) as (r' & Rr' & Hr); [lra|lra|].
  assert (DO : doc_down val ready R Fcos) by (intros a e _ G; destruct (D a e G) as (w & [L _] & Rt); eauto).
  assert (UO : doc_up val ready R Fcos) by (intros a e _ G; destruct (U a e G) as (w & [L _] & Rt); eauto).
  pose proof (Kb_pos Hd HKd) as KP.
  assert (IY : forall yb, 3 <= yb -> Bf <= lg / yb).
  { intros yb Y. apply Rle_trans with (- Kb); [exact HB|]. pose proof (small_l Hd lg ltac:(lra)) as SL.
    assert (IY : 0 < / yb <= 1) by (split; [apply Rinv_0_lt_compat; lra|rewrite <- Rinv_1; apply Rinv_le; lra]).
    assert (Q : Rabs (lg / yb) <= Rabs lg).
    { unfold Rdiv. rewrite Rabs_mult, (Rabs_pos_eq (/ yb)) by lra. rewrite <- (Rmult_1_r (Rabs lg)) at 2. apply Rmult_le_compat_l; [apply Rabs_pos|lra]. }
    apply Rabs_le_inv in Q. lra. }
  assert (HB0 : Bf <= 0) by lra.
  destruct (cos_finite HU HK HM HKb HB0 (HI2 HI) k g lg DO UO Vg Elg) as (r2 & Rr2 & Vr2 & _); [apply IY; destruct Rlt_dec; lra|].
  rewrite <- (runsP_det HU _ _ _ Rr' Rr2) in Vr2.
  apply runsP_unprotect in Rr'.
  assert (R2 : runsP P ready (t_sin K R (S (S k)) P x) r').
  { unfold t_sin. rewrite (test_valid H) by auto. apply (with_rnd_runs P ready H). cbv zeta.
    eapply runsI_bind; [apply pure_runsI; exact Ry|]. cbv beta. eapply runsI_bind; [exact Rg|]. cbv beta.
    eapply runsI_bind; [exact Rr'|]. cbv beta. apply pure_runsI, (ctor_back_valid H); auto. }
  rewrite <- (runsP_det H _ _ _ Rr R2) in Hr.
  destruct (rep_point Hd _ _ _ t Hr M) as (s & Bs & Cs).
  destruct (forward Hd l u (PI / 2) s t (d * (5 * Rabs l + 120)) 5 120) as (q & Bq & Cq); try lra; auto.
  rewrite sin_half in Cq. exists q. split; [unfold mem; rewrite El, Eu; exact Bq|exact Cq].
Qed.
End Sin.

(** ** tan *)
Section Tan.
Context {N : num} {val : T N -> ext} {P : policy N} {ready : rmode -> Prop}
        (H : polspec val P ready).
Notation V := (valid val).
Notation Pu := (unprotect P).
Notation HU := (polspec_unprotect val P ready H).
Context {K : consts N} {pl pu hl hu tl tu Kb Bf : R} {R : transc N} {d Lg : Rdefinitions.R}
        (HK : kspec val K pl pu hl hu tl tu).
Notation mone := (n_cst N (-1)).
Hypothesis HM : val mone = Fin (-1).
Hypothesis HKb : tl <= Kb * (tu - tl).
Hypothesis HB : Bf <= - Kb.
Hypothesis HI : forall a l yb, val a = Fin l -> 1 <= yb -> Bf <= l / yb ->
  int_hyp (val := val) (P := P) (ready := ready) l yb
    (fun n => (- Kb <= l / yb < Kb -> n = Zfloor (l / yb)) /\ good_quot (Kb := Kb) l yb n).
Hypothesis Hd : 0 < d <= / 1024.
Hypothesis HKd : / (64 * d) <= Kb.
Hypothesis HLd : 2 / d <= Lg.
Hypothesis Hpp : pu - pl <= 2 * d.
Hypothesis Hhh : hu - hl <= d.
Hypothesis Htt : tu - tl <= 4 * d.
Hypothesis HR : forall v, Rabs v <= Lg ->
  (exists t q, val t = Fin q /\ v - d * (Rabs v + 1) <= q <= v) /\
  (exists t q, val t = Fin q /\ v <= q <= v + d * (Rabs v + 1)).
Notation downr f := (down_rnd (val := val) (ready := ready) (R := R) f).
Notation upr f := (up_rnd (val := val) (ready := ready) (R := R) f).


Lemma HLd1 : / d <= Lg.
Proof. refine (Rle_trans _ _ _ _ HLd). assert (0 < / d) by (apply Rinv_0_lt_compat; lra). unfold Rdiv. lra. Qed.
Lemma sin_half_le y : 0 <= y <= 1 -> y / 2 <= sin y.
Proof.
  intros [Y0 Y1]. destruct Y0 as [Y0|<-]; [|rewrite sin_0; lra].
  destruct (MVT_cor2 sin cos 0 y Y0) as (c & E & Bc); [intros; apply derivable_pt_lim_sin|]. rewrite sin_0, !Rminus_0_r in E. rewrite E.
  assert (/ 2 <= cos c).
  { replace (/ 2) with (1 / 2) by lra. rewrite <- cos_PI3. pose proof pi_3_4. apply cos_low_half; lra. }
  assert (/ 2 * y <= cos c * y) by (apply Rmult_le_compat_r; lra). lra.
Qed.
Lemma tan_bound s : - (PI / 2) + d <= s <= PI / 2 - d -> Rabs (sin s / cos s) <= 2 / d.
Proof.
  intros B. pose proof pi_3_4 as P34.
  assert (C : d / 2 <= cos s).
  { assert (Q : forall y, d <= y <= PI / 2 -> d / 2 <= sin y).
    { intros y By. destruct (Rle_or_lt y 1) as [L|L]; [pose proof (sin_half_le y ltac:(lra)); lra|].
      assert (sin 1 < sin y) by (apply sin_increasing_1; lra). pose proof (sin_half_le 1 ltac:(lra)). lra. }
    destruct (Rle_or_lt 0 s) as [L|L].
    - rewrite <- (sin_shift s). apply Q. lra.
    - rewrite <- (cos_neg s), <- (sin_shift (- s)). apply Q. lra. }
  unfold Rdiv at 1. rewrite Rabs_mult. assert (0 < / cos s) by (apply Rinv_0_lt_compat; lra). rewrite (Rabs_pos_eq (/ cos s)) by lra.
  assert (Rabs (sin s) <= 1) by (apply Rabs_le, SIN_bound).
  apply Rle_trans with (1 * / cos s); [apply Rmult_le_compat_r; lra|].
  replace (2 / d) with (/ (d / 2)) by (field; lra). rewrite Rmult_1_l. apply Rinv_le; lra.
Qed.
Lemma tan_ivt a b t : - (PI / 2) < a -> a <= b -> b < PI / 2 -> sin a / cos a <= t <= sin b / cos b ->
  exists s, a <= s <= b /\ sin s / cos s = t.
Proof.
  intros A AB B [T1 T2].
  (* sin s - t cos s changes sign *)
  assert (Ca : 0 < cos a) by (apply cos_gt_0; lra). assert (Cb : 0 < cos b) by (apply cos_gt_0; lra).
  assert (Sa : sin a - t * cos a <= 0).
  { assert (sin a / cos a * cos a <= t * cos a) by (apply Rmult_le_compat_r; lra).
    replace (sin a / cos a * cos a) with (sin a) in * by (field; lra). lra. }
  assert (Sb : 0 <= sin b - t * cos b).
  { assert (t * cos b <= sin b / cos b * cos b) by (apply Rmult_le_compat_r; lra).
    replace (sin b / cos b * cos b) with (sin b) in * by (field; lra). lra. }
  destruct (IVT_cor (fun s => sin s - t * cos s) a b) as (s & Bs & Es).
  - apply continuity_minus; [apply continuity_sin|]. apply continuity_mult; [apply continuity_const; intros x y; reflexivity|apply continuity_cos].
  - exact AB.
  - assert (0 <= (t * cos a - sin a) * (sin b - t * cos b)) by (apply Rmult_le_pos; lra). lra.
  - exists s. split; [exact Bs|]. assert (0 < cos s) by (apply cos_gt_0; lra). simpl in Es.
    replace (sin s) with (t * cos s) by lra. field. lra.
Qed.

Lemma tan_backward x l u : downr Ftan -> upr Ftan -> V x -> val (low x) = Fin l -> val (up x) = Fin u ->
  128 * d * (1 + Rabs l) <= 1 -> u - l <= 7 ->
  (forall q j, l <= q <= u -> 256 * d * (1 + Rabs q) < Rabs (q - (PI / 2 + IZR j * PI))) ->
  exists r, runsP P ready (t_tan K R P x) r /\
  forall t, mem val r t -> exists q s, mem val x q /\ Rabs (s - q) <= 256 * d * (1 + Rabs q) /\ cos s <> 0 /\
    Rabs (t - sin s / cos s) <= d * (Rabs (sin s / cos s) + 1).
Proof.
  intros D U Hx El Eu Sm Ul Far. assert (LU : l <= u) by (destruct Hx as (Q & _); rewrite El, Eu in Q; exact Q).
  pose proof (Rabs_pos l) as Al. assert (DL : 0 <= d * Rabs l) by (apply Rmult_le_pos; lra).
  pose proof HLd1 as HL1. pose proof (Lg_big Hd HL1) as LB.
  destruct (kb HK Hd Hpp Htt) as (k1 & k2 & k3 & k4 & k5 & k6 & k7 & k8). pose proof pi_3_4 as P34.
  (* points near the argument *)
  assert (Pt : forall s, l - d * (4 * Rabs l + 80) <= s <= u + d * (4 * Rabs l + 80) ->
    exists q, l <= q <= u /\ Rabs (s - q) <= 256 * d * (1 + Rabs q)).
  { intros s B. destruct (near_point l u s (d * (4 * Rabs l + 80)) LU) as (q & Bq & Cq); [lra|exact B|]. exists q. split; [exact Bq|].
    refine (Rle_trans _ _ _ Cq _).
    assert (Lq : Rabs l <= Rabs q + 7).
    { replace l with (q + (l - q)) by ring. refine (Rle_trans _ _ _ (Rabs_triang _ _) _). apply Rplus_le_compat_l. apply Rabs_le. lra. }
    pose proof (Rabs_pos q). assert (d * Rabs l <= d * (Rabs q + 7)) by (apply Rmult_le_compat_l; lra).
    assert (0 <= d * Rabs q) by (apply Rmult_le_pos; lra). lra. }
  destruct (pi_run (P := P) HK) as (y & Ry & Ey1 & Ey2).
  assert (Vy : V y) by (apply (finite_valid y pl pu); auto; lra).
  destruct (ks_hl _ _ _ _ _ _ _ _ HK) as (hv & Ehv & Rhv).
  destruct (ns_neg _ _ (ps_num _ _ _ H) hv) as (nh & Enh & Rnh). rewrite Ehv in Enh. cbn [xopp] in Enh.
  destruct (fmod_near H HB HI Hd HKd HL1 HR x y l u pl pu PI Hx El Eu Ey1 Ey2) as (z & n & lz & uz & Rz & Vz & Elz & Euz & B1 & B2 & B3 & B4); try lra.
  assert (Q : exists z' n' lz' uz', runsI ready (if n_ge (low z) hv then local (m_sub Pu (IVal y)) z else ret z) z' /\
     val (low z') = Fin lz' /\ val (up z') = Fin uz' /\ lz' <= uz' /\ - (PI / 2) - 10 * d <= lz' <= PI / 2 /\
     l - IZR n' * PI - d * (4 * Rabs l + 60) <= lz' /\ uz' <= u - IZR n' * PI + d * (4 * Rabs l + 60)).
  { destruct (le_case H hv (low z)) as [[E A]|[E A]]; [rewrite Ehv; discriminate|rewrite Elz; discriminate| |]; unfold n_ge; rewrite E; rewrite Ehv, Elz in A.
    - cbn [xle] in A. destruct (local_sub H z y Vz Vy) as (g & Rg & Tg).
      destruct (tight_acc HR g _ (lz - pu) (uz - pl) Tg) as [G1 G2].
      { intros s (r0 & r' & [M1 M2] & [M3 M4] & ->). rewrite Elz in M1. rewrite Euz in M2. rewrite Ey1 in M3. rewrite Ey2 in M4. cbn [xle] in *. lra. }
      { assert (Rabs (lz - pu) <= 5) by (apply Rabs_le; lra). lra. } { assert (Rabs (uz - pl) <= 17) by (apply Rabs_le; lra). lra. }
      assert (A1 : Rabs (lz - pu) <= 5) by (apply Rabs_le; lra). assert (A2 : Rabs (uz - pl) <= 17) by (apply Rabs_le; lra).
      assert (D1 : d * (Rabs (lz - pu) + 1) <= d * 6) by (apply Rmult_le_compat_l; lra).
      assert (D2 : d * (Rabs (uz - pl) + 1) <= d * 18) by (apply Rmult_le_compat_l; lra).
      assert (Mg : mem val g (lz - pu)).
      { apply (proj1 Tg). exists lz, pu. unfold mem. rewrite Elz, Euz, Ey1, Ey2. cbn [xle]. repeat split; lra. }
      destruct Mg as [M1 M2].
      assert (Eg : exists lg ug, val (low g) = Fin lg /\ val (up g) = Fin ug /\ lg <= ug).
      { pose proof (xle_trans _ _ _ M1 M2) as Q. destruct (val (low g)), (val (up g)); cbn [xle] in *; try tauto; eauto 8. }
      destruct Eg as (lg & ug & Elg & Eug & Lgu). rewrite Elg in G1, M1. rewrite Eug in G2. cbn [xle] in G1, G2, M1.
      exists g, (n + 1)%Z, lg, ug. rewrite plus_IZR. do 4 (split; [solve [auto]|]). repeat split; lra.
    - cbn [xlt] in A. exists z, n, lz, uz. split; [runs|]. repeat split; auto; lra. }
  destruct Q as (z' & m & a & b & Rz' & Ea & Eb & AB & BA & B5 & B6).
  assert (NP : forall j, ~ (a - 20 * d <= PI / 2 + IZR j * PI <= b + 20 * d)).
  { intros j Bj. destruct (Pt (PI / 2 + IZR (j + m) * PI)) as (q & Bq & Cq).
    { rewrite plus_IZR. lra. }
    specialize (Far q (j + m)%Z Bq). rewrite Rabs_minus_sym in Cq. lra. }
  pose proof (NP 0%Z) as N0. pose proof (NP (-1)%Z) as N1.
  assert (La : - (PI / 2) + 2 * d < a). { apply Rnot_le_lt. intros Q. apply N1. lra. }
  assert (Lb : b < PI / 2 - 2 * d). { apply Rnot_le_lt. intros Q. apply N0. lra. }
  destruct (D (low z') _ (tan_defined _ a Ea ltac:(lra))) as (ra & Da & Ra).
  destruct (U (up z') _ (tan_defined _ b Eb ltac:(lra))) as (rb & Db & Rb).
  pose proof (tan_bound a ltac:(lra)) as TA. pose proof (tan_bound b ltac:(lra)) as TB.
  destruct (rd_acc Hd HR (sin a / cos a) ra ltac:(lra) Da) as (qa & Eqa & Bqa).
  destruct (ru_acc Hd HR (sin b / cos b) rb ltac:(lra) Db) as (qb & Eqb & Bqb).
  exists (mk ra rb). split.
  - unfold t_tan. rewrite (test_valid H) by auto. apply (with_rnd_runs P ready H).
    eapply runsI_bind; [apply pure_runsI; exact Ry|]. cbv beta. eapply runsI_bind; [exact Rz|]. cbv beta.
    eapply runsI_bind; [apply pure_runsI; exact Rhv|]. cbv beta.
    eapply runsI_bind; [exact Rz'|]. cbv beta. eapply runsI_bind; [apply pure_runsI; exact Rnh|]. cbv beta.
    destruct (n_le N (low z') nh) eqn:E2.
    { exfalso. apply (ns_le _ _ (ps_num _ _ _ H)) in E2. rewrite Ea, Enh in E2. cbn [xle] in E2. lra. }
    destruct (n_ge (up z') hv) eqn:E3.
    { exfalso. apply (ge_iff H) in E3. rewrite Eb, Ehv in E3. cbn [xle] in E3. lra. }
    cbn [orb]. apply runsI_mk_args; assumption.
  - intros t [M1 M2]. cbn [low up] in M1, M2. rewrite Eqa in M1. rewrite Eqb in M2. cbn [xle] in M1, M2.
    assert (S : exists s, a <= s <= b /\ Rabs (t - sin s / cos s) <= d * (Rabs (sin s / cos s) + 1)).
    { destruct (Rle_or_lt t (sin a / cos a)) as [Q1|Q1]; [exists a; split; [lra|apply Rabs_le; lra]|].
      destruct (Rle_or_lt (sin b / cos b) t) as [Q2|Q2]; [exists b; split; [lra|apply Rabs_le; lra]|].
      destruct (tan_ivt a b t) as (s & Bs & Es); try lra. exists s. split; [exact Bs|]. rewrite Es, Rminus_eq_0, Rabs_R0.
      pose proof (Rabs_pos t). apply Rmult_le_pos; lra. }
    destruct S as (s & Bs & Cs). destruct (Pt (s + IZR m * PI)) as (q & Bq & Cq); [lra|].
    assert (C0 : cos s <> 0) by (apply Rgt_not_eq, cos_gt_0; lra).
    exists q, (s + IZR m * PI). split; [unfold mem; rewrite El, Eu; exact Bq|]. split; [exact Cq|].
    destruct (tan_shift (s + IZR m * PI) m) as [C1 C2].
    { replace (s + IZR m * PI - IZR m * PI) with s by ring. exact C0. }
    replace (s + IZR m * PI - IZR m * PI) with s in C2 by ring. rewrite <- C2. auto.
Qed.
End Tan.

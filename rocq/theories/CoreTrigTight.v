(** * cos and tan on arguments that need no reduction

    On an argument inside [0,pi] (cos) or [0,pi/2) (tan) the reduction modulo the
    period changes nothing, and correctly rounded functions give the tightest
    interval. *)

From Coq Require Import Reals ZArith Lra Lia Psatz Bool.
From Flocq Require Import Core.
From Verif Require Import Outcome Base Checking Interval Utility Arith Arith2 FloatNum Spec ExtR Sem
  CoreArith CoreDiv CoreMore CoreUtil CoreFmod Transc SpecTransc TransReal CoreTransc CoreTrig TightTransc.
Local Open Scope R_scope.

Section Tight.
Context {N : num} {val : T N -> ext} {P : policy N} {ready : rmode -> Prop}
        (H : polspec val P ready).
Notation V := (valid val).
Notation NS := (ps_num _ _ _ H).
Notation Pu := (unprotect P).
Notation HU := (polspec_unprotect val P ready H).
Context {K : consts N} {pl pu hl hu tl tu Kb Bf : R} {R : transc N}
        (HK : kspec val K pl pu hl hu tl tu).
Hypothesis Hpp : pl < pu.
Hypothesis HB : Bf <= 0.
Hypothesis HI : forall a l yb, val a = Fin l -> 1 <= yb -> Bf <= l / yb ->
  int_hyp (val := val) (P := P) (ready := ready) l yb (good_quot (Kb := Kb) l yb).
Notation downr f := (down_rnd (val := val) (ready := ready) (R := R) f).
Notation upr f := (up_rnd (val := val) (ready := ready) (R := R) f).

(** The reduction gives the argument back. *)
Lemma reduced x y a b l : V x -> val (low x) = Fin l -> val (low y) = Fin a -> val (up y) = Fin b ->
  1 <= a -> a <= b -> 0 <= l < b ->
  exists z, runsI ready (fmod Pu x y) z /\ V z /\ val (low z) = Fin l /\ val (up z) = val (up x).
Proof.
  intros Hx El Ea Eb A1 Hab [L0 L1].
  assert (Y : (if Rlt_dec l 0 then a else b) = b) by (destruct Rlt_dec; [lra|reflexivity]).
  assert (Q0 : 0 <= l / b) by (apply Rmult_le_pos; [auto|left; apply Rinv_0_lt_compat; lra]).
  assert (Q1 : l / b < 1) by (apply Rmult_lt_reg_r with b; [lra|]; unfold Rdiv; rewrite Rmult_assoc, Rinv_l by lra; lra).
  destruct (reduce H HI x y a b l Hx El Ea Eb A1 Hab) as (z & n & lz & Rz & Vz & _ & _ & _ & _ & _ & Ln & Pn & Id); [rewrite Y; lra|].
  rewrite Y in Ln. specialize (Pn L0).
  assert (n < 1)%Z by (apply lt_IZR; lra). assert (0 <= n)%Z by (apply le_IZR; lra).
  destruct Id as [I1 I2]; [lia|]. exists z. rewrite I1. auto.
Qed.

Lemma cos_values x l u : val (low x) = Fin l -> val (up x) = Fin u -> 0 <= l -> l <= u -> u <= PI ->
  is_lb (Fin (cos u)) (values_on Fcos (mem val x)) /\ wlim (values_on Fcos (mem val x)) (Fin (cos u)) /\
  is_ub (Fin (cos l)) (values_on Fcos (mem val x)) /\ wlim (values_on Fcos (mem val x)) (Fin (cos l)).
Proof.
  intros El Eu L0 LU UP.
  assert (M : forall r, mem val x r <-> l <= r <= u) by (intros r; unfold mem; rewrite El, Eu; cbn [xle]; tauto).
  assert (A : forall r, l <= r <= u -> values_on Fcos (mem val x) (cos r)) by (intros r B; exists r; split; [apply M, B|reflexivity]).
  split; [|split; [|split]].
  - intros t (r & Mr & G). cbn [graph] in G. subst t. apply M in Mr. cbn [xle]. apply cos_low_half; lra.
  - apply (slim_wlim (values_on Fcos (mem val x)) (Fin (cos u))), A. lra.
  - intros t (r & Mr & G). cbn [graph] in G. subst t. apply M in Mr. cbn [xle]. apply cos_low_half; lra.
  - apply (slim_wlim (values_on Fcos (mem val x)) (Fin (cos l))), A. lra.
Qed.

Lemma cos_tight k x l u : downr Fcos -> upr Fcos -> V x -> val (low x) = Fin l -> val (up x) = Fin u -> 0 <= l -> u <= pl ->
  exists r, runsP P ready (t_cos K R (S k) P x) r /\ tightest val r (values_on Fcos (mem val x)).
Proof.
  intros D U Hx El Eu L0 UP.
  assert (LU : l <= u) by (destruct Hx as (Q & _); rewrite El, Eu in Q; exact Q).
  destruct (ks_b _ _ _ _ _ _ _ _ HK) as (B1 & B2 & B3 & B4). destruct (ks_twice _ _ _ _ _ _ _ _ HK) as [Kt1 Kt2].
  destruct (ks_pi _ _ _ _ _ _ _ _ HK) as [Kp1 Kp2]. pose proof PI_4 as P4.
  destruct (pi2_run (P := P) HK) as (y & Ry & Ey1 & Ey2).
  destruct (reduced x y tl tu l Hx El Ey1 Ey2) as (z & Rz & Vz & Elz & Euz); [lra|lra|lra|]. rewrite Eu in Euz.
  destruct (width_ok HU z Vz) as (w & Rw & Uw & Lw). apply runsP_unprotect in Rw.
  destruct (ks_pu _ _ _ _ _ _ _ _ HK) as (vpu & Evpu & Rvpu). destruct (ks_pl _ _ _ _ _ _ _ _ HK) as (vpl & Evpl & Rvpl).
  assert (Ww : xle (val w) (Fin pl)).
  { rewrite <- Evpl. apply Lw. intros t (r & s & [M1 M2] & [M3 M4] & ->). rewrite Elz in M1, M3. rewrite Euz in M2, M4. cbn [xle] in *. rewrite Evpl. cbn [xle]. lra. }
  destruct (D (up z) (Fin (cos u))) as (a & Da & Ra); [rewrite Euz; exists (cos u); split; reflexivity|].
  destruct (U (low z) (Fin (cos l))) as (b & Ub & Rb); [rewrite Elz; exists (cos l); split; reflexivity|].
  exists (mk a b). split.
  - cbn [t_cos]. rewrite (test_valid H) by auto. apply (with_rnd_runs P ready H). cbv zeta.
    eapply runsI_bind; [apply pure_runsI; exact Ry|]. cbv beta. eapply runsI_bind; [exact Rz|]. cbv beta.
    eapply runsI_bind; [exact Rw|]. cbv beta.
    destruct (n_ge w (low y)) eqn:E1.
    { exfalso. apply (ge_iff H) in E1. rewrite Ey1 in E1. pose proof (xle_trans _ _ _ E1 Ww) as Q. cbn [xle] in Q. lra. }
    eapply runsI_bind; [apply pure_runsI; exact Rvpu|]. cbv beta.
    destruct (n_ge (low z) vpu) eqn:E2.
    { exfalso. apply (ge_iff H) in E2. rewrite Elz, Evpu in E2. cbn [xle] in E2. lra. }
    eapply runsI_bind; [apply pure_runsI; exact Rvpl|]. cbv beta.
    rewrite (proj2 (ns_le _ _ NS (up z) vpl)) by (rewrite Euz, Evpl; exact UP).
    apply runsI_mk_args; assumption.
  - destruct (cos_values x l u El Eu L0 LU) as (C1 & C2 & C3 & C4); [lra|].
    apply (tightest_intro val _ _ (Fin (cos u)) (Fin (cos l))); auto.
Qed.

Lemma tan_values x l u : val (low x) = Fin l -> val (up x) = Fin u -> - (PI / 2) < l -> l <= u -> u < PI / 2 ->
  is_lb (Fin (sin l / cos l)) (values_on Ftan (mem val x)) /\ wlim (values_on Ftan (mem val x)) (Fin (sin l / cos l)) /\
  is_ub (Fin (sin u / cos u)) (values_on Ftan (mem val x)) /\ wlim (values_on Ftan (mem val x)) (Fin (sin u / cos u)).
Proof.
  intros El Eu L0 LU UP.
  assert (M : forall r, mem val x r <-> l <= r <= u) by (intros r; unfold mem; rewrite El, Eu; cbn [xle]; tauto).
  assert (A : forall r, l <= r <= u -> values_on Ftan (mem val x) (sin r / cos r)).
  { intros r B; exists r; split; [apply M, B|]. split; [|reflexivity]. apply Rgt_not_eq, cos_gt_0; lra. }
  split; [|split; [|split]].
  - intros t (r & Mr & G). destruct G as [_ ->]. apply M in Mr. cbn [xle]. apply tan_graph_le; lra.
  - apply (slim_wlim (values_on Ftan (mem val x)) (Fin (sin l / cos l))), A. lra.
  - intros t (r & Mr & G). destruct G as [_ ->]. apply M in Mr. cbn [xle]. apply tan_graph_le; lra.
  - apply (slim_wlim (values_on Ftan (mem val x)) (Fin (sin u / cos u))), A. lra.
Qed.
Lemma tan_tight x l u : downr Ftan -> upr Ftan -> V x -> val (low x) = Fin l -> val (up x) = Fin u -> 0 <= l -> u < hl ->
  exists r, runsP P ready (t_tan K R P x) r /\ tightest val r (values_on Ftan (mem val x)).
Proof.
  intros D U Hx El Eu L0 UP.
  assert (LU : l <= u) by (destruct Hx as (Q & _); rewrite El, Eu in Q; exact Q).
  destruct (ks_b _ _ _ _ _ _ _ _ HK) as (B1 & B2 & B3 & B4). destruct (ks_pi _ _ _ _ _ _ _ _ HK) as [Kp1 Kp2].
  destruct (ks_half _ _ _ _ _ _ _ _ HK) as [Kh1 Kh2]. pose proof PI_4 as P4.
  destruct (pi_run (P := P) HK) as (y & Ry & Ey1 & Ey2).
  destruct (reduced x y pl pu l Hx El Ey1 Ey2) as (z & Rz & Vz & Elz & Euz); [lra|lra|lra|]. rewrite Eu in Euz.
  destruct (ks_hl _ _ _ _ _ _ _ _ HK) as (hv & Ehv & Rhv).
  destruct (ns_neg _ _ NS hv) as (nh & Enh & Rnh). rewrite Ehv in Enh. cbn [xopp] in Enh.
  destruct (D (low z) _ (tan_defined _ l Elz ltac:(lra))) as (a & Da & Ra).
  destruct (U (up z) _ (tan_defined _ u Euz ltac:(lra))) as (b & Ub & Rb).
  exists (mk a b). split.
  - unfold t_tan. rewrite (test_valid H) by auto. apply (with_rnd_runs P ready H).
    eapply runsI_bind; [apply pure_runsI; exact Ry|]. cbv beta. eapply runsI_bind; [exact Rz|]. cbv beta.
    eapply runsI_bind; [apply pure_runsI; exact Rhv|]. cbv beta.
    destruct (n_ge (low z) hv) eqn:E1.
    { exfalso. apply (ge_iff H) in E1. rewrite Elz, Ehv in E1. cbn [xle] in E1. lra. }
    eapply runsI_bind; [apply runsI_ret|]. cbv beta. eapply runsI_bind; [apply pure_runsI; exact Rnh|]. cbv beta.
    destruct (n_le N (low z) nh) eqn:E2.
    { exfalso. apply (ns_le _ _ NS) in E2. rewrite Elz, Enh in E2. cbn [xle] in E2. lra. }
    destruct (n_ge (up z) hv) eqn:E3.
    { exfalso. apply (ge_iff H) in E3. rewrite Euz, Ehv in E3. cbn [xle] in E3. lra. }
    cbn [orb]. apply runsI_mk_args; assumption.
  - destruct (tan_values x l u El Eu) as (C1 & C2 & C3 & C4); [lra|lra|lra|].
    apply (tightest_intro val _ _ (Fin (sin l / cos l)) (Fin (sin u / cos u))); auto.
Qed.
End Tight.

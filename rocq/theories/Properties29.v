(** * C74: how accurate sin, cos and tan are *)

From Coq Require Import Reals ZArith Lra Lia Bool Classical.
From Flocq Require Import Core BinarySingleNaN.
From Verif Require Import Outcome Base Checking Interval Utility Arith Arith2 FloatNum Spec ExtR Sem
  FloatSpec FloatPol FloatInt CoreArith CoreMore CoreUtil CoreFmod TransFuel Inst Witness CoreCtor
  Transc SpecTransc TransReal CoreTransc CoreTrig CoreTrigTight TightTransc
  FloatConst FloatTrans RefLib Properties10 ExprT ExTransc Properties21 Properties22 Properties23 ExprWidth TrigAcc.
Local Open Scope R_scope.

(** The precision of the constant pi that each type uses: its two bounds are
    2^(e+1) apart. *)
Inductive pi_precision : forall p, consts (fnum p) -> Z -> Prop :=
| prec_float p m0 : p = float_sse \/ p = float_x87 -> pi_precision p (consts_float p m0) (-23)
| prec_double p m0 : p = double_sse \/ p = double_x87 -> pi_precision p (consts_double p m0) (-52)
| prec_long_double p pd m0 : ld_pair p pd -> pi_precision p (consts_long_double p pd m0) (-52).

Lemma largest_ge f : bpow radix2 (emax f - 1) <= largest f.
Proof.
  unfold largest. pose proof (fmt_prec_gt_0 f) as Q. unfold Prec_gt_0 in Q.
  assert (bpow radix2 (emax f - prec f) <= bpow radix2 (emax f - 1)) by (apply bpow_le; lia).
  replace (bpow radix2 (emax f)) with (2 * bpow radix2 (emax f - 1)); [lra|].
  change 2 with (bpow radix2 1). rewrite <- bpow_plus. f_equal. lia.
Qed.
Lemma precision_facts p K e : pi_precision p K e -> constants_for p K /\ rint_ok p /\
  eps (p_T p) <= bpow radix2 e /\ 2 / bpow radix2 e <= largest (p_T p) /\ (e = -23 \/ e = -52)%Z /\
  / (64 * bpow radix2 e) <= IZR (2 ^ q_prec p) /\ - largest (p_R p) <= - IZR (2 ^ q_prec p) /\
  exists pl pu hl hu tl tu, kspec (N := fnum p) fval K pl pu hl hu tl tu /\ tl <= IZR (2 ^ q_prec p) * (tu - tl) /\
    pu - pl <= 2 * bpow radix2 e /\ hu - hl <= bpow radix2 e /\ tu - tl <= 4 * bpow radix2 e.
Proof.
  intros C.
  assert (KF : constants_for p K) by (destruct C; [apply for_float|apply for_double|eapply for_long_double]; eauto).
  assert (W : rint_ok p) by (destruct C as [p m0 [-> | ->]|p m0 [-> | ->]|p pd m0 [[-> _]|[-> _]]]; try (left; split; cbn; lia); right; split; cbn; lia).
  assert (E64 : forall e', 64 * bpow radix2 e' = bpow radix2 (6 + e')) by (intros e'; rewrite bpow_plus; reflexivity).
  assert (E2 : forall e', 2 / bpow radix2 e' = bpow radix2 (1 - e')).
  { intros e'. unfold Rdiv. rewrite <- bpow_opp. change 2 with (bpow radix2 1). rewrite <- bpow_plus. f_equal. }
  assert (Ee : (e = -23 \/ e = -52)%Z) by (destruct C; auto).
  assert (G : eps (p_T p) <= bpow radix2 e /\ 2 / bpow radix2 e <= largest (p_T p) /\ / (64 * bpow radix2 e) <= IZR (2 ^ q_prec p) /\ - largest (p_R p) <= - IZR (2 ^ q_prec p)).
  { assert (Q : (1 - prec (p_T p) <= e)%Z /\ (1 - e <= emax (p_T p) - 1)%Z /\ (0 <= q_prec p)%Z /\ (- (6 + e) <= q_prec p)%Z /\ (q_prec p <= emax (p_R p) - 1)%Z).
    { destruct C as [p m0 [-> | ->]|p m0 [-> | ->]|p pd m0 [[-> _]|[-> _]]]; (split; [|split; [|split; [|split]]]); vm_compute; discriminate. }
    destruct Q as (Q1 & Q2 & Q3 & Q4 & Q5). rewrite E2, E64, <- bpow_opp.
    assert (E3 : IZR (2 ^ q_prec p) = bpow radix2 (q_prec p)) by (rewrite <- IZR_Zpower by exact Q3; reflexivity). rewrite E3.
    split; [apply bpow_le; lia|]. split; [refine (Rle_trans _ _ _ _ (largest_ge _)); apply bpow_le; lia|]. split; [apply bpow_le; lia|].
    apply Ropp_le_contravar. refine (Rle_trans _ _ _ _ (largest_ge _)). apply bpow_le. lia. }
  destruct G as (G1 & G2 & G3 & G4). do 7 (split; [assumption|]).
  assert (D2 : 2 * bpow radix2 e = bpow radix2 (e + 1)) by (rewrite bpow_plus; change (bpow radix2 1) with 2; ring).
  assert (D4 : 4 * bpow radix2 e = bpow radix2 (e + 2)) by (rewrite bpow_plus; change (bpow radix2 2) with 4; ring).
  rewrite D2, D4.
  destruct (constants_kspec p K KF) as (pl & pu & hl & hu & tl & tu & S & B).
  destruct C as [p m0 Hp|p m0 Hp|p pd m0 Hp].
  - assert (Q : kspec (N := fnum p) fval (consts_float p m0) (dyad mfl (-22)) (dyad mfu (-22)) (dyad mfl (-23)) (dyad mfu (-23)) (dyad mfl (-21)) (dyad mfu (-21))) by exact (float_k p m0 Hp).
    do 6 eexists. split; [exact Q|]. change mfu with (Pos.succ mfl). rewrite !dyad_gap. split; [|repeat split; apply bpow_le; lia].
    replace (IZR (2 ^ q_prec p)) with (bpow radix2 24) by (destruct Hp as [-> | ->]; reflexivity).
    rewrite <- bpow_plus. change (bpow radix2 (24 + -21)) with 8.
    pose proof float_pi as [A _]. pose proof pi_3_4. rewrite (dyad_twice mfl (-22) : dyad mfl (-21) = _). lra.
  - assert (Q : kspec (N := fnum p) fval (consts_double p m0) (dyad mdl (-51)) (dyad mdu (-51)) (dyad mdl (-52)) (dyad mdu (-52)) (dyad mdl (-50)) (dyad mdu (-50))) by exact (double_k p m0 Hp).
    do 6 eexists. split; [exact Q|]. change mdu with (Pos.succ mdl). rewrite !dyad_gap. split; [|repeat split; apply bpow_le; lia].
    replace (IZR (2 ^ q_prec p)) with (bpow radix2 53) by (destruct Hp as [-> | ->]; reflexivity).
    rewrite <- bpow_plus. change (bpow radix2 (53 + -50)) with 8.
    pose proof double_pi as [A _]. pose proof pi_3_4. rewrite (dyad_twice mdl (-51) : dyad mdl (-50) = _). lra.
  - assert (Q : kspec (N := fnum p) fval (consts_long_double p pd m0) (dyad mdl (-51)) (dyad mdu (-51)) (dyad mdl (-52)) (dyad mdu (-52)) (dyad mdl (-50)) (dyad mdu (-50))) by exact (long_k p pd m0 Hp).
    do 6 eexists. split; [exact Q|]. change mdu with (Pos.succ mdl). rewrite !dyad_gap. split; [|repeat split; apply bpow_le; lia].
    apply Rle_trans with (bpow radix2 53 * bpow radix2 (-50)).
    + rewrite <- bpow_plus. change (bpow radix2 (53 + -50)) with 8.
      pose proof double_pi as [A _]. pose proof pi_3_4. rewrite (dyad_twice mdl (-51) : dyad mdl (-50) = _). lra.
    + apply Rmult_le_compat_r; [apply bpow_ge_0|]. change (bpow radix2 53) with (IZR (2 ^ 53)). apply IZR_le.
      destruct Hp as [[-> _]|[-> _]]; vm_compute; discriminate.
Qed.

(** Members of a valid interval: all real numbers between two extended bounds. *)
Lemma convex p (x : itv (fnum p)) a b r : fmem x a -> fmem x b -> a <= r <= b -> fmem x r.
Proof.
  intros [A1 _] [_ B2] [L1 L2]. split.
  - refine (xle_trans _ _ _ A1 _). exact L1.
  - refine (xle_trans _ _ _ _ B2). exact L2.
Qed.
(** Two members as far apart as wanted, or two finite bounds. *)
Lemma wide_or_bounds p (x : itv (fnum p)) w : fvalid x -> 0 < w ->
  (exists a, fmem x a /\ fmem x (a + w)) \/
  exists l u, fval (f := p_T p) (low x) = Fin l /\ fval (f := p_T p) (up x) = Fin u /\ l <= u < l + w /\ (forall r, fmem x r <-> l <= r <= u).
Proof.
  intros Hx W. destruct (valid_mem _ _ Hx) as (r & M1 & M2). destruct Hx as (V1 & V2 & V3).
  change (xle (fval (f := p_T p) (low x)) (Fin r)) in M1. change (xle (Fin r) (fval (f := p_T p) (up x))) in M2.
  assert (Mem : forall q, fmem x q <-> xle (fval (f := p_T p) (low x)) (Fin q) /\ xle (Fin q) (fval (f := p_T p) (up x))) by (intros q; reflexivity).
  destruct (fval (f := p_T p) (low x)) as [| |l|]; cbn [xle] in M1; try tauto.
  { left. exists (r - w). split; apply Mem; (split; [exact Logic.I|]); refine (xle_trans _ _ _ _ M2); cbn [xle]; lra. }
  destruct (fval (f := p_T p) (up x)) as [| |u|]; cbn [xle] in M2; try tauto.
  2:{ left. exists r. split; apply Mem; (split; [cbn [xle]; lra|exact Logic.I]). }
  destruct (Rlt_or_le u (l + w)) as [L|L].
  - right. exists l, u. do 2 (split; [reflexivity|]). split; [lra|]. intros q. rewrite Mem. cbn [xle]. tauto.
  - left. exists l. split; apply Mem; cbn [xle]; lra.
Qed.

Section Main.
Context (p : platform) (k : rkind) (debug : bool) (c : ckind) (ord : site -> bool).
Notation N := (fnum p).
Notation P := (fpol p Save k debug c ord).
Notation I := (itv N).
Context (RR : transc N).
Notation drnd f := (down_rnd (N := N) (val := fval) (ready := fready k) (R := RR) f).
Notation urnd f := (up_rnd (N := N) (val := fval) (ready := fready k) (R := RR) f).
Context (K : consts N) (e : Z) (C : pi_precision p K e).
Notation d := (bpow radix2 e).

Lemma d_small : 0 < d <= / 1024.
Proof.
  destruct (precision_facts p K e C) as (_ & _ & _ & _ & Ee & _). split; [apply bpow_gt_0|].
  change (/ 1024) with (bpow radix2 (-10)). apply bpow_le. lia.
Qed.
Lemma rounds_close v : Rabs v <= largest (p_T p) ->
  (exists (t : T N) q, fval (f := p_T p) t = Fin q /\ v - d * (Rabs v + 1) <= q <= v) /\
  (exists (t : T N) q, fval (f := p_T p) t = Fin q /\ v <= q <= v + d * (Rabs v + 1)).
Proof.
  intros L. destruct (precision_facts p K e C) as (_ & _ & E & _). pose proof (tiny_le_eps (p_T p)) as Ti. pose proof (Rabs_pos v) as Av.
  assert (Q : eps (p_T p) * Rabs v <= d * Rabs v) by (apply Rmult_le_compat_r; lra). split.
  - destruct (round_close (p_T p) Dn v L) as (t & q & Et & Ct & Dt). exists t, q. split; [exact Et|]. apply Rabs_le_inv in Ct. lra.
  - destruct (round_close (p_T p) Up v L) as (t & q & Et & Ct & Dt). exists t, q. split; [exact Et|]. apply Rabs_le_inv in Ct. lra.
Qed.
Lemma quots : rint_ok p -> forall (a : T N) l yb, fval (f := p_T p) a = Fin l -> 1 <= yb -> - largest (p_R p) <= l / yb ->
  int_hyp (N := N) (val := fval) (P := P) (ready := fready k) l yb
    (fun n => (- IZR (2 ^ q_prec p) <= l / yb < IZR (2 ^ q_prec p) -> n = Zfloor (l / yb)) /\ good_quot (Kb := IZR (2 ^ q_prec p)) l yb n).
Proof. intros W a l yb Ea Y Nr. exact (quot_both p Save k debug c ord a l yb W Ea Y Nr). Qed.

Lemma sin_cos_main f (x : I) : f = Fsin \/ f = Fcos -> drnd Fcos -> urnd Fcos -> fvalid x ->
  exists z : I, (forall fuel, (2 <= fuel)%nat -> returns (call f K RR fuel P x) z) /\ contains_values f x z /\
    forall t, fmem z t -> exists r v, fmem x r /\ graph f r v /\ Rabs (t - v) <= bpow radix2 (e + 8) * (1 + Rabs r).
Proof.
  intros F D U Hx. destruct (precision_facts p K e C) as (KF & W & E & L2 & Ee & K6 & RB & pl & pu & hl & hu & tl & tu & S & HKb & W1 & W2 & W3).
  destruct (range_main p k debug c ord RR K f x KF W F D U Hx) as (z & Rz & Vz & Hz & Uz).
  exists z. split; [exact Rz|]. split; [exact Hz|]. intros t Mt. pose proof (Uz t Mt) as Bt.
  assert (E8 : bpow radix2 (e + 8) = 256 * d) by (rewrite bpow_plus; change (bpow radix2 8) with 256; ring).
  assert (Gr : forall r, exists v, graph f r v /\ -1 <= v <= 1).
  { intros r. destruct F as [-> | ->]; cbn [graph]; eexists; (split; [reflexivity|]); [apply SIN_bound|apply COS_bound]. }
  destruct (classic (exists r, fmem x r /\ 2 <= 256 * d * (1 + Rabs r))) as [(r & Mr & Br)|Sm].
  { destruct (Gr r) as (v & Gv & Bv). exists r, v. split; [exact Mr|]. split; [exact Gv|]. rewrite E8. refine (Rle_trans _ _ _ _ Br). apply Rabs_le. lra. }
  assert (Sm' : forall r, fmem x r -> 256 * d * (1 + Rabs r) < 2) by (intros r Mr; apply Rnot_le_lt; intros B; apply Sm; eauto). clear Sm.
  destruct (wide_or_bounds p x (2 * PI) Hx) as [(a & Ma & Mb)|(l & u & El & Eu & LU & Mem)]; [pose proof PI_RGT_0; lra| |].
  - (* the argument covers a period *)
    assert (Q : exists r, fmem x r /\ graph f r t).
    { assert (P3 : exists lo, a <= lo /\ lo + PI <= a + 2 * PI /\ exists s, lo <= s <= a + 2 * PI /\ graph f s t).
      { assert (Ct : forall lo, exists s, lo <= s <= lo + 2 * PI /\ cos s = t).
        { intros lo. destruct (full_period lo (lo + 2 * PI)) as [(s1 & B1 & E1) (s2 & B2 & E2)]; [lra|].
          destruct (cos_ivt s1 s2 t) as (s & Bs & Es); [lra|]. exists s. split; [|exact Es].
          pose proof (Rmin_glb s1 s2 lo). pose proof (Rmax_lub s1 s2 (lo + 2 * PI)). lra. }
        exists a. pose proof PI_RGT_0. split; [lra|]. split; [lra|]. destruct F as [-> | ->]; cbn [graph].
        - destruct (Ct (a - PI / 2)) as (s & Bs & Es). exists (s + PI / 2). split; [lra|].
          rewrite <- Es, <- sin_half. f_equal. ring.
        - destruct (Ct a) as (s & Bs & Es). exists s. split; [lra|]. auto. }
      destruct P3 as (lo & L1 & _ & s & Bs & Gs). exists s. split; [|exact Gs]. apply (convex p x a (a + 2 * PI)); auto. lra. }
    destruct Q as (r & Mr & Gr'). exists r, t. split; [exact Mr|]. split; [exact Gr'|]. rewrite Rminus_eq_0, Rabs_R0.
    pose proof (Rabs_pos r). apply Rmult_le_pos; [apply bpow_ge_0|lra].
  - assert (Ml : fmem x l) by (apply Mem; lra). specialize (Sm' l Ml).
    pose proof pi_3_4 as P34. pose proof PI_4 as P4.
    assert (L1 : / d <= largest (p_T p)).
    { refine (Rle_trans _ _ _ _ L2). assert (0 < / d) by (apply Rinv_0_lt_compat, bpow_gt_0). unfold Rdiv. lra. }
    pose proof (fpolspec p Save k debug c ord) as spec.
    specialize (Rz 2%nat ltac:(lia)). rewrite E8.
    assert (U7 : u - l <= 7) by lra.
    destruct F as [-> | ->]; cbn [call] in Rz.
    + destruct (sin_forward spec S (mone_val p) HKb RB (quots W) d_small K6 L1 W1 W2 W3 rounds_close 0 x l u z D U Hx El Eu ltac:(lra) U7 Rz t Mt) as (q & Mq & Cq).
      exists q, (sin q). split; [exact Mq|]. split; [reflexivity|exact Cq].
    + destruct (cos_forward spec S (mone_val p) HKb RB (quots W) d_small K6 L1 W1 W2 W3 rounds_close 0 x l u z D U Hx El Eu ltac:(lra) U7 Rz t Mt) as (q & Mq & Cq).
      exists q, (cos q). split; [exact Mq|]. split; [reflexivity|exact Cq].
Qed.

(** Every real number is within pi/2 of a pole of tan. *)
Lemma near_pole r : exists j : Z, Rabs (r - (PI / 2 + IZR j * PI)) <= PI / 2.
Proof.
  exists (Zfloor (r / PI)). pose proof (Zfloor_lb (r / PI)) as A. pose proof (Zfloor_ub (r / PI)) as B. pose proof PI_RGT_0 as P0.
  set (m := IZR (Zfloor (r / PI))) in *. assert (E : r = r / PI * PI) by (field; lra).
  assert (m * PI <= r / PI * PI) by (apply Rmult_le_compat_r; lra).
  assert (r / PI * PI <= (m + 1) * PI) by (apply Rmult_le_compat_r; lra). apply Rabs_le. lra.
Qed.
Lemma tan_main (x : I) : drnd Ftan -> urnd Ftan -> fvalid x ->
  (forall r j, fmem x r -> bpow radix2 (e + 8) * (1 + Rabs r) < Rabs (r - (PI / 2 + IZR j * PI))) ->
  exists z : I, (forall fuel, returns (call Ftan K RR fuel P x) z) /\ contains_values Ftan x z /\
    forall t, fmem z t -> exists r s v, fmem x r /\ Rabs (s - r) <= bpow radix2 (e + 8) * (1 + Rabs r) /\
      graph Ftan s v /\ Rabs (t - v) <= bpow radix2 e * (1 + Rabs v).
Proof.
  intros D U Hx Far. destruct (precision_facts p K e C) as (KF & W & E & L2 & Ee & K6 & RB & pl & pu & hl & hu & tl & tu & S & HKb & W1 & W2 & W3).
  assert (E8 : bpow radix2 (e + 8) = 256 * d) by (rewrite bpow_plus; change (bpow radix2 8) with 256; ring). rewrite E8 in Far |- *.
  pose proof pi_3_4 as P34. pose proof d_small as Ds.
  destruct (wide_or_bounds p x PI Hx) as [(a & Ma & Mb)|(l & u & El & Eu & LU & Mem)]; [lra| |].
  { exfalso. destruct (near_pole (a + PI / 2)) as (j & Bj). apply Rabs_le_inv in Bj.
    set (q := PI / 2 + IZR j * PI) in *. assert (Mq : fmem x q) by (apply (convex p x a (a + PI)); auto; lra).
    specialize (Far q j Mq). fold q in Far. rewrite Rminus_eq_0, Rabs_R0 in Far. pose proof (Rabs_pos q).
    assert (0 <= 256 * d * (1 + Rabs q)) by (apply Rmult_le_pos; lra). lra. }
  assert (Ml : fmem x l) by (apply Mem; lra).
  assert (Sm : 128 * d * (1 + Rabs l) <= 1).
  { destruct (near_pole l) as (j & Bj). specialize (Far l j Ml). lra. }
  pose proof (fpolspec p Save k debug c ord) as spec.
  destruct (tan_backward spec S RB (quots W) d_small K6 L2 W1 W2 W3 rounds_close x l u D U Hx El Eu Sm ltac:(lra)) as (z & Rz & Hz).
  { intros q j Bq. apply Far. apply Mem. exact Bq. }
  destruct (rnd_ok p k RR Ftan D U) as [D' U'].
  destruct (trig_main p k debug c ord RR W K Ftan x KF) as (z' & Rz' & Cz' & _); [tauto|exact D'|exact U'|exact Hx|].
  specialize (Rz' 2%nat ltac:(lia)). cbn [call] in Rz'.
  assert (Ez : z' = z).
  { destruct k; specialize (Rz' RUP); specialize (Rz RUP); cbn in Rz, Rz'; congruence. }
  subst z'. exists z. split; [intros fuel; exact Rz|]. split; [exact Cz'|].
  intros t Mt. destruct (Hz t Mt) as (q & s & Mq & Bq & Cs & Bs). exists q, s, (sin s / cos s).
  split; [exact Mq|]. split; [exact Bq|]. split; [split; [exact Cs|reflexivity]|]. rewrite (Rplus_comm 1). exact Bs.
Qed.
End Main.

(** ** The statements

    Every point of sin(x) and of cos(x) is within 2^(e+8) (1 + |r|) of the value
    at some member r of x, whatever the bounds of x, if the library functions
    round to the next number below and above.  For double: 2^-44 (1 + |r|). *)
Theorem C74_sin_cos_accurate : forall p debug c ord (L : libm (fnum p)) K e f (x : itv (fnum p)),
  lib_rounds L -> pi_precision p K e -> f = Fsin \/ f = Fcos -> fvalid x ->
  exists z : itv (fnum p),
    (forall fuel, (2 <= fuel)%nat -> returns (call f K (transc_std (control_hw (fnum p)) L) fuel (P_ p Std debug c ord) x) z) /\
    contains_values f x z /\
    forall t, fmem z t -> exists r v, fmem x r /\ graph f r v /\ Rabs (t - v) <= bpow radix2 (e + 8) * (1 + Rabs r).
Proof.
  intros p debug c ord L K e f x HL C F Hx. apply sin_cos_main; auto; [apply std_down|apply std_up]; auto.
Qed.
Print Assumptions C74_sin_cos_accurate.
Theorem C74_sin_cos_accurate_mpfr : forall p debug c ord (M : mpfr p) m0 f (x : itv (fnum p)),
  p = double_sse \/ p = double_x87 -> mpfr_ok M -> f = Fsin \/ f = Fcos -> fvalid x ->
  exists z : itv (fnum p),
    (forall fuel, (2 <= fuel)%nat -> returns (call f (consts_double p m0) (full_rounding M) fuel (P_ p Opp debug c ord) x) z) /\
    contains_values f x z /\
    forall t, fmem z t -> exists r v, fmem x r /\ graph f r v /\ Rabs (t - v) <= bpow radix2 (-44) * (1 + Rabs r).
Proof.
  intros p debug c ord M m0 f x Hp HM F Hx.
  apply (sin_cos_main p Opp debug c ord (full_rounding M) (consts_double p m0) (-52)); auto.
  - apply prec_double. exact Hp.
  - apply full_down; auto.
  - apply full_up; auto.
Qed.
Print Assumptions C74_sin_cos_accurate_mpfr.

(** tan, for arguments that stay away from its poles: each point of the result
    is, up to a rounding error, the value of tan at a point s close to a member r. *)
Theorem C74_tan_accurate : forall p debug c ord (L : libm (fnum p)) K e (x : itv (fnum p)),
  lib_rounds L -> pi_precision p K e -> fvalid x ->
  (forall r j, fmem x r -> bpow radix2 (e + 8) * (1 + Rabs r) < Rabs (r - (PI / 2 + IZR j * PI))) ->
  exists z : itv (fnum p),
    (forall fuel, returns (call Ftan K (transc_std (control_hw (fnum p)) L) fuel (P_ p Std debug c ord) x) z) /\
    contains_values Ftan x z /\
    forall t, fmem z t -> exists r s v, fmem x r /\ Rabs (s - r) <= bpow radix2 (e + 8) * (1 + Rabs r) /\
      graph Ftan s v /\ Rabs (t - v) <= bpow radix2 e * (1 + Rabs v).
Proof.
  intros p debug c ord L K e x HL C Hx Far. apply tan_main; auto; [apply std_down|apply std_up]; auto.
Qed.
Print Assumptions C74_tan_accurate.

Example C74_case : lib_rounds (ref_lib double_sse) /\ pi_precision double_sse (consts_double double_sse RNE) (-52) /\
  fvalid (di 4 1000000) /\ (exists W : mpfr_ok ref_mpfr, fvalid (di (-7) 2)) /\
  fvalid (di 4 4) /\ forall r j, fmem (p := double_sse) (di 4 4) r -> bpow radix2 (-52 + 8) * (1 + Rabs r) < Rabs (r - (PI / 2 + IZR j * PI)).
Proof.
  split; [apply ref_lib_rounds|]. split; [apply prec_double; auto|]. split; [apply di_valid; lia|].
  split; [exists ref_mpfr_ok; apply di_valid; lia|]. split; [apply di_valid; lia|].
  intros r j [M1 M2]. change (xle (fval (f := binary64) (dbl 4 0)) (Fin r)) in M1. change (xle (Fin r) (fval (f := binary64) (dbl 4 0))) in M2.
  rewrite dbl_val in M1, M2 by lia. cbn [xle] in M1, M2. assert (r = 4) by lra. subst r. clear M1 M2.
  rewrite (Rabs_pos_eq 4) by lra. apply Rlt_trans with (/ 2).
  - apply Rlt_trans with (bpow radix2 (-20) * 8); [|simpl; lra].
    apply Rle_lt_trans with (bpow radix2 (-20) * (1 + 4)); [apply Rmult_le_compat_r; [lra|apply bpow_le; lia]|]. pose proof (bpow_gt_0 radix2 (-20)). lra.
  - pose proof pi_3_4 as P34. destruct (Z_le_gt_dec j 0) as [J|J].
    + assert (IZR j * PI <= 0). { apply IZR_le in J. assert (IZR j * PI <= 0 * PI) by (apply Rmult_le_compat_r; lra). lra. }
      rewrite Rabs_pos_eq; lra.
    + assert (PI <= IZR j * PI). { assert (1 <= IZR j) by (apply (IZR_le 1); lia). assert (1 * PI <= IZR j * PI) by (apply Rmult_le_compat_r; lra). lra. }
      rewrite Rabs_left; lra.
Qed.

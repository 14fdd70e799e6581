(** * C72: the searches for zeros print nothing but near-zeros, with transcendental functions *)

From Coq Require Import Reals ZArith Lra Lia Psatz Bool List Classical FunctionalExtensionality.
From Flocq Require Import Core BinarySingleNaN.
From Verif Require Import Outcome Base Checking Interval Utility Arith Arith2 FloatNum Spec ExtR Sem
  FloatSpec FloatPol FloatInt CoreArith Inst Witness ExNewton NewtonProof ExFindroot Properties17 Ops OpsProof Transc SpecTransc TransReal
  FloatTrans RefLib Properties10 ExprT Properties19 ExprWidth Properties21 Properties25 TrigAcc Properties27 Properties29 RunErr Properties30.
From Verif Require OpsIso.
Import ListNotations.
Local Open Scope R_scope.
Notation P_ p k debug c ord := (fpol p Save k debug c ord).

Lemma rounds_ok p (L : libm (fnum p)) : lib_rounds L -> lib_ok L.
Proof. intros H f x v G. destruct (H f x v G) as [[A _] [B _]]. split; assumption. Qed.
Lemma cert_proper p rho d e : forall t E, cert p rho d e t E -> tproper (N := fnum p) fval (fun _ => True) e.
Proof.
  induction e as [n|v|o e IH|o e1 IH1 e2 IH2|o e IH v|o v e IH|o v w|e1 IH1 e2 IH2|e IH v|f e IH]; intros t E C; cbn [cert tproper] in *.
  - exact Logic.I.
  - exists t. exact (proj1 C).
  - destruct C as (t1 & E1 & C1 & D & Q & _ & Ho). split; [|exact (IH t1 E1 C1)]. destruct o; try exact Logic.I.
    destruct Ho as ((A & B) & _). split; [unfold int_min; lia|exact B].
  - destruct C as (t1 & E1 & t2 & E2 & C1 & C2 & _). split; [exact (IH1 _ _ C1)|exact (IH2 _ _ C2)].
  - destruct C as (t1 & E1 & t2 & C1 & Ev & _). split; [exact (IH _ _ C1)|exists t2; exact Ev].
  - destruct C as (t1 & t2 & E2 & Ev & C2 & _). split; [exact (IH _ _ C2)|exists t1; exact Ev].
  - destruct C as (_ & t1 & t2 & E1 & E2 & _). split; [exists t1; exact E1|exists t2; exact E2].
  - destruct C as (E1 & E2 & C1 & C2 & _). split; [exact (IH1 _ _ C1)|exact (IH2 _ _ C2)].
  - destruct C as (E1 & s & C1 & Ev & Ps & _). split; [exact (IH _ _ C1)|exists s; auto].
  - destruct C as (t1 & E1 & C1 & _). split; [exact Logic.I|exact (IH _ _ C1)].
Qed.

Lemma bounds_mem {p} (x : itv (fnum p)) l u r : has_bounds x l u -> (fmem x r <-> l <= r <= u).
Proof.
  intros (E1 & E2 & _). unfold fmem, mem. change (fval (low x)) with (fval (low x : flt (p_T p))). change (fval (up x)) with (fval (up x : flt (p_T p))).
  rewrite E1, E2. cbn [xle]. tauto.
Qed.

Section Double.
Context (p : platform) (debug : bool) (c : ckind) (ord : site -> bool) (L : libm (fnum p)) (m0 : rmode) (fl : nat).
Hypothesis Hp : p = double_sse \/ p = double_x87.
Hypothesis HL : lib_rounds L.
Hypothesis HF : (2 <= fl)%nat.
Notation K := (consts_double p m0).
Notation P := (P_ p Std debug c ord).
Notation RR := (transc_std (control_hw (fnum p)) L).
Notation I := (itv (fnum p)).

Lemma dbl_facts : is_double p /\ constants_for p K /\ rint_ok p /\ float_or_double p K.
Proof.
  split; [destruct Hp as [-> | ->]; split; reflexivity|]. split; [apply for_double; exact Hp|].
  split; [destruct Hp as [-> | ->]; left; split; cbn; lia|]. exists m0. right. auto.
Qed.
(** Over any box of points with certificates the evaluation returns an interval with all values. *)
Lemma teval_box eo e (env : nat -> I) rho d t E : (forall n, fmem (env n) (rho n)) -> cert p rho d e t E ->
  exists z, returns (teval P K RR fl eo env e) z /\ fvalid z /\
    forall rho t, (forall n, fmem (env n) (rho n)) -> tmeans (N := fnum p) fval e rho t -> fmem z t.
Proof.
  intros Hr Ct. destruct dbl_facts as (_ & HK & HW & _).
  pose proof (cert_proper p rho d e t E Ct) as Pr.
  destruct (C64_fundamental p debug c ord L K fl eo env rho e t (rounds_ok p L HL) HK HW HF Hr Pr (cert_means p rho d e t E Ct)) as (z & Rz & Vz & _).
  exists z. split; [exact Rz|]. split; [exact Vz|]. intros rho' t' Hr' Mt'.
  destruct (C64_fundamental p debug c ord L K fl eo env rho' e t' (rounds_ok p L HL) HK HW HF Hr' Pr Mt') as (z' & Rz' & _ & M).
  rewrite (OpsIso.returns_det _ _ _ Rz Rz'). exact M.
Qed.

Lemma search1 eo e (range : I) l u (F Err : R -> R) :
  has_bounds range l u -> Rabs l <= 2 ^ 32 -> Rabs u <= 2 ^ 32 ->
  (forall r, l <= r <= u -> cert p (at1 r) (at1 (/ 1000000)) e (F r) (Err r)) ->
  exists fuel0 printed,
    (forall fuel, (fuel0 <= fuel)%nat -> returns (find_zeros P fuel (fun x => teval P K RR fl eo (at1 x) e) range) printed) /\
    (forall r, l <= r <= u -> F r = 0 -> some_contains printed r) /\
    forall x r, In x printed -> fmem x r -> l <= r <= u /\ Rabs (F r) <= Err r.
Proof.
  intros HB Bl Bu HC. destruct dbl_facts as (D & _ & _ & HK).
  assert (HF1 : computes_on range (fun x => teval P K RR fl eo (at1 x) e) (fun r t => tmeans (N := fnum p) fval e (at1 r) t)).
  { intros x V W. destruct (nonempty_mem p x V) as (r & Mr). pose proof (HC r (proj1 (bounds_mem range l u r HB) (W r Mr))) as C.
    destruct (teval_box eo e (at1 x) (at1 r) _ _ _ (fun _ => Mr) C) as (z & Rz & _ & Cz). exists z. split; [exact Rz|].
    intros q t Mq. apply Cz. intros n. exact Mq. }
  destruct (C61_find_zeros_partial p Std debug c ord _ _ range l u D HF1 HB Bl Bu) as (f0 & pr & K1 & K2 & K3).
  exists f0, pr. split; [exact K1|]. split.
  { intros r Br F0. apply K3; [apply (bounds_mem range l u r HB); exact Br|]. rewrite <- F0. exact (cert_means _ _ _ _ _ _ (HC r Br)). }
  intros x r Ix Mr. rewrite Forall_forall in K2. destruct (K2 x Ix) as (W & (a & b & Hx & Lx) & v & Rv & _ & Zv).
  split; [exact (proj1 (bounds_mem range l u r HB) (W r Mr))|].
  pose proof (HC r (proj1 (bounds_mem range l u r HB) (W r Mr))) as C.
  destruct (C75_error_analysis p debug c ord L K fl eo (at1 x) (at1 r) (at1 (/ 1000000)) e (F r) (Err r) HK HL HF) as (_ & z & Rz & Vz & _ & Bz).
  { intros n. split; [exact Mr|]. intros q Mq. unfold at1. apply (bounds_width x a b); [exact Hx|lra|exact Mq|exact Mr]. }
  { exact C. }
  pose proof (OpsIso.returns_det _ _ _ Rz Rv) as Q. cbv beta in Q. subst v.
  specialize (Bz 0 (Zv Vz)). rewrite Rminus_0_l, Rabs_Ropp in Bz. exact Bz.
Qed.
Lemma search2 eo e (rx ry : I) l u l' u' (F Err : R -> R -> R) :
  has_bounds rx l u -> has_bounds ry l' u' -> -40 <= l -> u <= 40 -> -40 <= l' -> u' <= 40 ->
  (forall r s, l <= r <= u -> l' <= s <= u' -> cert p (at2 r s) (at1 (5764607523034235 / 2 ^ 60)) e (F r s) (Err r s)) ->
  exists fuel0 printed,
    (forall fuel, (fuel0 <= fuel)%nat -> returns (find_zeros2 P fuel (fun x y => teval P K RR fl eo (at2 x y) e) rx ry) printed) /\
    (forall r s, l <= r <= u -> l' <= s <= u' -> F r s = 0 -> Exists (fun b => fmem (first b) r /\ fmem (second b) s) printed) /\
    forall b r s, In b printed -> fmem (first b) r -> fmem (second b) s -> (l <= r <= u /\ l' <= s <= u') /\ Rabs (F r s) <= Err r s.
Proof.
  intros HB HB' A1 A2 A3 A4 HC. destruct dbl_facts as (D & _ & _ & HK).
  assert (HF1 : computes2_on rx ry (fun x y => teval P K RR fl eo (at2 x y) e) (fun r s t => tmeans (N := fnum p) fval e (at2 r s) t)).
  { intros x y V V' W W'. destruct (nonempty_mem p x V) as (r & Mr). destruct (nonempty_mem p y V') as (s & Ms).
    pose proof (HC r s (proj1 (bounds_mem rx l u r HB) (W r Mr)) (proj1 (bounds_mem ry l' u' s HB') (W' s Ms))) as C.
    destruct (teval_box eo e (at2 x y) (at2 r s) _ _ _ ltac:(intros [|n]; assumption) C) as (z & Rz & _ & Cz). exists z. split; [exact Rz|].
    intros q q' t Mq Mq'. apply Cz. intros [|n]; assumption. }
  destruct (C61_find_zeros2_partial p Std debug c ord _ _ rx ry l u l' u' D HF1 HB HB' A1 A2 A3 A4) as (f0 & pr & K1 & K2 & K3).
  exists f0, pr. split; [exact K1|]. split.
  { intros r s Br Bs F0. apply K3; [apply (bounds_mem rx l u r HB); exact Br|apply (bounds_mem ry l' u' s HB'); exact Bs|].
    rewrite <- F0. exact (cert_means _ _ _ _ _ _ (HC r s Br Bs)). }
  intros b r s Ib Mr Ms. rewrite Forall_forall in K2.
  destruct (K2 b Ib) as (W & W' & (a1 & b1 & _ & H1 & L1 & _) & (a2 & b2 & _ & H2 & L2 & _) & v & Rv & _ & Zv).
  split; [split; [exact (proj1 (bounds_mem rx l u r HB) (W r Mr))|exact (proj1 (bounds_mem ry l' u' s HB') (W' s Ms))]|].
  pose proof (HC r s (proj1 (bounds_mem rx l u r HB) (W r Mr)) (proj1 (bounds_mem ry l' u' s HB') (W' s Ms))) as C.
  destruct (C75_error_analysis p debug c ord L K fl eo (at2 (first b) (second b)) (at2 r s) (at1 (5764607523034235 / 2 ^ 60)) e (F r s) (Err r s) HK HL HF) as (_ & z & Rz & Vz & _ & Bz).
  { intros [|n]; (split; [assumption|]); intros q Mq; unfold at1.
    - apply (bounds_width (first b) a1 b1); [exact H1|apply Rlt_le, L1|exact Mq|exact Mr].
    - apply (bounds_width (second b) a2 b2); [exact H2|apply Rlt_le, L2|exact Mq|exact Ms]. }
  { exact C. }
  pose proof (OpsIso.returns_det _ _ _ Rz Rv) as Q. cbv beta in Q. subst v.
  specialize (Bz 0 (Zv Vz)). rewrite Rminus_0_l, Rabs_Ropp in Bz. exact Bz.
Qed.
End Double.

(** ** The statements

    Zeros of an expression with transcendental functions, with an error analysis
    at every point r of the range, for errors of 1e-6 in the variable (see C75):
    every zero is printed, and the values at the printed points are not larger
    than the certified error. *)
Theorem C72_search_transcendental : forall p debug c ord (L : libm (fnum p)) m0 fl eo e (range : itv (fnum p)) l u (F Err : R -> R),
  p = double_sse \/ p = double_x87 -> lib_rounds L -> (2 <= fl)%nat ->
  has_bounds range l u -> Rabs l <= 2 ^ 32 -> Rabs u <= 2 ^ 32 ->
  (forall r, l <= r <= u -> cert p (at1 r) (at1 (/ 1000000)) e (F r) (Err r)) ->
  let f x := teval (P_ p Std debug c ord) (consts_double p m0) (transc_std (control_hw (fnum p)) L) fl eo (at1 x) e in
  exists fuel0 printed,
    (forall fuel, (fuel0 <= fuel)%nat -> returns (find_zeros (P_ p Std debug c ord) fuel f range) printed) /\
    (forall r, l <= r <= u -> F r = 0 -> some_contains printed r) /\
    forall x r, In x printed -> fmem x r -> l <= r <= u /\ Rabs (F r) <= Err r.
Proof. intros p debug c ord L m0 fl eo e range l u F Err Hp HL HF HB Bl Bu HC f. exact (search1 p debug c ord L m0 fl Hp HL HF eo e range l u F Err HB Bl Bu HC). Qed.
Print Assumptions C72_search_transcendental.
Theorem C72_search2_transcendental : forall p debug c ord (L : libm (fnum p)) m0 fl eo e (rx ry : itv (fnum p)) l u l' u' (F Err : R -> R -> R),
  p = double_sse \/ p = double_x87 -> lib_rounds L -> (2 <= fl)%nat ->
  has_bounds rx l u -> has_bounds ry l' u' -> -40 <= l -> u <= 40 -> -40 <= l' -> u' <= 40 ->
  (forall r s, l <= r <= u -> l' <= s <= u' -> cert p (at2 r s) (at1 (5764607523034235 / 2 ^ 60)) e (F r s) (Err r s)) ->
  let f x y := teval (P_ p Std debug c ord) (consts_double p m0) (transc_std (control_hw (fnum p)) L) fl eo (at2 x y) e in
  exists fuel0 printed,
    (forall fuel, (fuel0 <= fuel)%nat -> returns (find_zeros2 (P_ p Std debug c ord) fuel f rx ry) printed) /\
    (forall r s, l <= r <= u -> l' <= s <= u' -> F r s = 0 -> Exists (fun b => fmem (first b) r /\ fmem (second b) s) printed) /\
    forall b r s, In b printed -> fmem (first b) r -> fmem (second b) s -> (l <= r <= u /\ l' <= s <= u') /\ Rabs (F r s) <= Err r s.
Proof. intros p debug c ord L m0 fl eo e rx ry l u l' u' F Err Hp HL HF HB HB' A1 A2 A3 A4 HC f. exact (search2 p debug c ord L m0 fl Hp HL HF eo e rx ry l u l' u' F Err HB HB' A1 A2 A3 A4 HC). Qed.
Print Assumptions C72_search2_transcendental.

(** ** The first function of the demonstration *)

Definition sine_expr p : texpr (fnum p) :=
  x_2 B_div (x_call Fsin (x_var 0)) (x_in B_add (x_2 B_mul (x_var 0) (x_var 0)) (literal 1 0 : T (fnum p))).
Definition sine_error (r : R) : R := (102 / 100000000 + 25 / 1000000 * Rabs (sin r / (r * r + 1))) / (99 / 100 * (r * r + 1)) + / 1000000000000.
Lemma rounded_big p t D E : p = double_sse \/ p = double_x87 -> 0 <= D <= 1 -> Rabs t <= 1000 -> D + / 1000000000000 <= E -> rounded (p_T p) t D E.
Proof.
  intros Hp HD Ht HE. assert (p_T p = binary64) as -> by (destruct Hp as [-> | ->]; reflexivity).
  pose proof (tiny_le_eps binary64) as T. pose proof double_eps as U. pose proof (Rabs_pos t) as A. split.
  - apply Rle_trans with (bpow radix2 (emax binary64 - 1)); [|apply largest_ge].
    apply Rle_trans with (bpow radix2 10); [simpl; lra|apply bpow_le; vm_compute; discriminate].
  - assert (eps binary64 * (Rabs t + D) <= eps binary64 * 1001) by (apply Rmult_le_compat_l; [pose proof (eps_pos binary64)|]; lra). lra.
Qed.
Lemma sine_cert p r : p = double_sse \/ p = double_x87 -> -11 <= r <= 10 ->
  cert p (at1 r) (at1 (/ 1000000)) (sine_expr p) (sin r / (r * r + 1)) (sine_error r).
Proof.
  intros Hp Br. assert (Ar : Rabs r <= 11) by (apply Rabs_le; lra).
  assert (Q1 : 0 <= r * r <= 121). { pose proof (Rabs_pos r). rewrite <- (Rabs_mult r r) || idtac. split; [nra|nra]. }
  set (b := r * r + 1). assert (Hb : 1 <= b <= 122) by (unfold b; lra).
  set (t := sin r / b). pose proof (SIN_bound r) as Sb.
  assert (Ht : Rabs t <= 1).
  { unfold t, Rdiv. rewrite Rabs_mult. assert (0 < / b <= 1) by (split; [apply Rinv_0_lt_compat; lra|rewrite <- Rinv_1; apply Rinv_le; lra]).
    rewrite (Rabs_pos_eq (/ b)) by lra. assert (Rabs (sin r) <= 1) by (apply Rabs_le; lra). pose proof (Rabs_pos (sin r)). nra. }
  assert (E64 : p_T p = binary64) by (destruct Hp as [-> | ->]; reflexivity).
  exists (sin r), (101 / 100000000), b, (24 / 1000000). split; [|split].
  - exists r, (/ 1000000). split; [split; [reflexivity|unfold at1; lra]|]. split; [reflexivity|].
    unfold reduction. rewrite E64, double_eps. lra.
  - exists (r * r), (23 / 1000000), 1. split; [|split].
    + exists r, (/ 1000000), r, (/ 1000000). split; [split; [reflexivity|unfold at1; lra]|]. split; [split; [reflexivity|unfold at1; lra]|].
      split; [discriminate|]. split; [discriminate|]. exists (22999 / 1000000000). split; [reflexivity|]. split.
      * intros x y w Hx Hy ->. replace (x * y - r * r) with ((x - r) * (y - r) + r * (y - r) + r * (x - r)) by ring.
        eapply Rle_trans; [apply Rabs_triang|]. eapply Rle_trans; [apply Rplus_le_compat_r; apply Rabs_triang|]. rewrite !Rabs_mult.
        pose proof (Rabs_pos (x - r)). pose proof (Rabs_pos (y - r)). pose proof (Rabs_pos r).
        assert (Rabs (x - r) * Rabs (y - r) <= / 1000000 * / 1000000) by (apply Rmult_le_compat; lra).
        assert (Rabs r * Rabs (y - r) <= 11 * / 1000000) by (apply Rmult_le_compat; lra).
        assert (Rabs r * Rabs (x - r) <= 11 * / 1000000) by (apply Rmult_le_compat; lra). lra.
      * apply rounded_big; [exact Hp|lra|rewrite Rabs_pos_eq; lra|lra].
    + apply (literal_int p); [rewrite E64; reflexivity|rewrite E64; reflexivity|lia].
    + split; [discriminate|]. split; [discriminate|]. exists (23 / 1000000). split; [reflexivity|]. split.
      * intros x y w Hx Hy ->. assert (y = 1) by (apply Rabs_le_inv in Hy; lra). subst y.
        replace (x + 1 - b) with (x - r * r) by (unfold b; ring). exact Hx.
      * apply rounded_big; [exact Hp|lra|rewrite Rabs_pos_eq; lra|lra].
  - split; [discriminate|]. split; [intros _; rewrite Rabs_pos_eq; lra|].
    exists ((101 / 100000000 + 24 / 1000000 * Rabs t) / (99 / 100 * b)). split; [split; [lra|reflexivity]|].
    assert (Hd : 0 < 99 / 100 * b) by lra. pose proof (Rabs_pos t) as At. split.
    + intros x y w Hx Hy [Ny ->]. apply Rabs_le_inv in Hy. assert (99 / 100 * b <= y) by lra.
      replace (x / y - t) with (((x - sin r) - t * (y - b)) / y) by (unfold t; field; lra).
      unfold Rdiv at 1. rewrite Rabs_mult. rewrite (Rabs_pos_eq (/ y)) by (apply Rlt_le, Rinv_0_lt_compat; lra).
      unfold Rdiv at 3. apply Rmult_le_compat; [apply Rabs_pos|apply Rlt_le, Rinv_0_lt_compat; lra| |apply Rinv_le; lra].
      unfold Rminus at 1. eapply Rle_trans; [apply Rabs_triang|]. rewrite Rabs_Ropp, Rabs_mult.
      assert (Rabs t * Rabs (y - b) <= Rabs t * (24 / 1000000)) by (apply Rmult_le_compat_l; [lra|apply Rabs_le; lra]). lra.
    + assert (D1 : 0 <= (101 / 100000000 + 24 / 1000000 * Rabs t) / (99 / 100 * b) <= 1).
      { split; [apply Rmult_le_pos; [lra|apply Rlt_le, Rinv_0_lt_compat; lra]|].
        apply Rmult_le_reg_r with (99 / 100 * b); [lra|]. unfold Rdiv at 1. rewrite Rmult_assoc, Rinv_l by lra. lra. }
      apply rounded_big; [exact Hp|exact D1|lra|]. unfold sine_error. fold b. fold t.
      apply Rplus_le_compat_r. apply Rmult_le_compat_r; [apply Rlt_le, Rinv_0_lt_compat; lra|]. lra.
Qed.

Lemma func1d_expr p debug c ord (L : libm (fnum p)) m0 fl :
  (fun x => teval (P_ p Std debug c ord) (consts_double p m0) (transc_std (control_hw (fnum p)) L) fl (fun _ => ord (H_user, 66%Z)) (at1 x) (sine_expr p))
  = func1d (P_ p Std debug c ord) (consts_double p m0) (transc_std (control_hw (fnum p)) L) fl.
Proof.
  apply functional_extensionality. intros x. apply functional_extensionality. intros s. unfold sine_expr, func1d, at1. cbn [teval call run2 run_in p_ord fpol].
  unfold bind, args2, ret. destruct (ord (H_user, 66%Z)); reflexivity.
Qed.
(** |sin r| is small only near the multiples of pi. *)
Lemma sin_near_multiple r e : Rabs (sin r) <= e -> e <= / 2 -> exists j : Z, Rabs (r - IZR j * PI) <= 2 * e.
Proof.
  intros H He. destruct (near_pole (r + PI / 2)) as (j & Hj). exists j.
  set (y := r - IZR j * PI). assert (By : Rabs y <= PI / 2) by (replace y with (r + PI / 2 - (PI / 2 + IZR j * PI)) by (unfold y; ring); exact Hj).
  assert (Sj : sin (IZR j * PI) = 0) by (apply sin_eq_0_1; exists j; reflexivity).
  assert (Cj : Rabs (cos (IZR j * PI)) = 1).
  { pose proof (sin2_cos2 (IZR j * PI)) as Q. rewrite Sj in Q. unfold Rsqr in Q.
    assert (Rabs (cos (IZR j * PI)) * Rabs (cos (IZR j * PI)) = 1) by (rewrite <- Rabs_mult, Rabs_pos_eq; nra).
    pose proof (Rabs_pos (cos (IZR j * PI))). nra. }
  assert (Sy : Rabs (sin y) = Rabs (sin r)).
  { unfold y. rewrite sin_minus, Sj, Rmult_0_r, Rminus_0_r, Rabs_mult, Cj. apply Rmult_1_r. }
  rewrite <- Sy in H. clear Sy. pose proof pi_3_4 as P34.
  assert (Q : forall z, 0 <= z <= PI / 2 -> sin z <= e -> z <= 2 * e).
  { intros z Bz Hz. destruct (Rle_or_lt z 1) as [L1|L1]; [pose proof (sin_half_le z ltac:(lra)); lra|].
    assert (sin 1 < sin z) by (apply sin_increasing_1; lra). pose proof (sin_half_le 1 ltac:(lra)). lra. }
  apply Rabs_le_inv in By. apply Rabs_le_inv in H. destruct (Rle_or_lt 0 y) as [L|L].
  - rewrite Rabs_pos_eq by exact L. apply Q; lra.
  - rewrite Rabs_left by exact L. apply Q; [lra|]. rewrite sin_neg. lra.
Qed.

(** Every multiple of pi in the range of the demonstration is printed, and every
    printed point is within 3e-6 of a multiple of pi. *)
Theorem C72_sine_zeros : forall p debug c ord (L : libm (fnum p)) m0 fl (range : itv (fnum p)),
  p = double_sse \/ p = double_x87 -> lib_rounds L -> (2 <= fl)%nat -> has_bounds range (-11) 10 ->
  let f := func1d (P_ p Std debug c ord) (consts_double p m0) (transc_std (control_hw (fnum p)) L) fl in
  exists fuel0 printed,
    (forall fuel, (fuel0 <= fuel)%nat -> returns (find_zeros (P_ p Std debug c ord) fuel f range) printed) /\
    (forall j : Z, -11 <= IZR j * PI <= 10 -> some_contains printed (IZR j * PI)) /\
    forall x r, In x printed -> fmem x r -> exists j : Z, Rabs (r - IZR j * PI) <= 3 / 1000000.
Proof.
  intros p debug c ord L m0 fl range Hp HL HF HB f.
  assert (AB : forall r, -11 <= r <= 10 -> Rabs r <= 2 ^ 32) by (intros r B; apply Rabs_le; lra).
  destruct (C72_search_transcendental p debug c ord L m0 fl (fun _ => ord (H_user, 66%Z)) (sine_expr p) range (-11) 10
    (fun r => sin r / (r * r + 1)) sine_error Hp HL HF HB) as (f0 & pr & K1 & K2 & K3); [apply AB; lra|apply AB; lra|intros r Br; exact (sine_cert p r Hp Br)|].
  rewrite (func1d_expr p debug c ord L m0 fl) in K1.
  exists f0, pr. split; [exact K1|]. split.
  { intros j Bj. apply K2; [exact Bj|]. assert (sin (IZR j * PI) = 0) as -> by (apply sin_eq_0_1; exists j; reflexivity). unfold Rdiv. apply Rmult_0_l. }
  intros x r Ix Mr. destruct (K3 x r Ix Mr) as [Br Hr]. clear K1 K2 K3.
  destruct (sin_near_multiple r (104 / 100000000)) as (j & Hj); [|lra|exists j; lra].
  unfold sine_error in Hr. assert (Q1 : 0 <= r * r <= 121) by nra. set (b := r * r + 1) in *. assert (Hb : 1 <= b <= 122) by (unfold b; lra).
  set (m := Rabs (sin r / b)) in *.
  assert (Em : Rabs (sin r) = m * b).
  { unfold m, Rdiv. rewrite Rabs_mult, (Rabs_pos_eq (/ b)) by (apply Rlt_le, Rinv_0_lt_compat; lra). field. lra. }
  assert (M0 : 0 <= m) by apply Rabs_pos.
  assert (Hm : m * (99 / 100 * b) <= 102 / 100000000 + 25 / 1000000 * m + / 1000000000000 * (99 / 100 * b)).
  { apply (Rmult_le_compat_r (99 / 100 * b)) in Hr; [|lra]. rewrite Rmult_plus_distr_r in Hr.
    assert (Q : (102 / 100000000 + 25 / 1000000 * m) / (99 / 100 * b) * (99 / 100 * b) = 102 / 100000000 + 25 / 1000000 * m) by (field; lra).
    rewrite Q in Hr. exact Hr. }
  rewrite Em. assert (m <= m * b) by (rewrite <- (Rmult_1_r m) at 1; apply Rmult_le_compat_l; lra). lra.
Qed.
Print Assumptions C72_sine_zeros.

Example C72_transcendental_case : lib_rounds (ref_lib double_sse) /\ has_bounds (p := double_sse) (di (-11) 10) (-11) 10 /\
  (forall r, -11 <= r <= 10 -> cert double_sse (at1 r) (at1 (/ 1000000)) (sine_expr double_sse) (sin r / (r * r + 1)) (sine_error r)) /\
  (-11 <= IZR 2 * PI <= 10) /\ (-11 <= IZR (-2) * PI <= 10).
Proof.
  split; [apply ref_lib_rounds|]. split; [split; [exact (dbl_val (-11) ltac:(lia))|split; [exact (dbl_val 10 ltac:(lia))|lra]]|].
  split; [intros r Br; apply sine_cert; auto|]. pose proof PI_RGT_0. pose proof PI_4.
  split; lra.
Qed.

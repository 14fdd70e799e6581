(** * C72: the searches for zeros print nothing but near-zeros *)

From Coq Require Import Reals ZArith Lra Lia Bool List.
From Flocq Require Import Core BinarySingleNaN.
From Verif Require Import Outcome Base Checking Interval Utility Arith Arith2 FloatNum Spec ExtR
  FloatSpec FloatPol CoreArith Inst Witness ExFindroot Properties17 Ops OpsProof ExprWidth Properties25.
From Verif Require OpsIso.
Import ListNotations.
Local Open Scope R_scope.
Notation P_ p k debug c ord := (fpol p Save k debug c ord).

(** An expression of one variable, as a function of intervals and of numbers. *)
Definition at1 {A} (x : A) (n : nat) : A := x.
Definition at2 {A} (x y : A) (n : nat) : A := match n with O => x | _ => y end.

Lemma bounds_valid {p} (x : itv (fnum p)) l u : has_bounds x l u -> fvalid x.
Proof.
  intros (E1 & E2 & L). split; [change (xle (fval (low x : flt (p_T p))) (fval (up x : flt (p_T p)))); rewrite E1, E2; exact L|].
  split; [change (fval (low x : flt (p_T p)) <> PInf); rewrite E1; discriminate|change (fval (up x : flt (p_T p)) <> NInf); rewrite E2; discriminate].
Qed.
Lemma bounds_width {p} (x : itv (fnum p)) l u d : has_bounds x l u -> u - l <= d -> forall r s, fmem x r -> fmem x s -> Rabs (r - s) <= d.
Proof.
  intros (E1 & E2 & L) W r s [A1 A2] [B1 B2].
  change (xle (fval (low x : flt (p_T p))) (Fin r)) in A1. change (xle (Fin r) (fval (up x : flt (p_T p)))) in A2.
  change (xle (fval (low x : flt (p_T p))) (Fin s)) in B1. change (xle (Fin s) (fval (up x : flt (p_T p)))) in B2.
  rewrite E1 in A1, B1. rewrite E2 in A2, B2. cbn [xle] in *. apply Rabs_le. lra.
Qed.
Lemma within_width {p} (x : itv (fnum p)) y d : within x y -> (forall r s, fmem y r -> fmem y s -> Rabs (r - s) <= d) ->
  forall r s, fmem x r -> fmem x s -> Rabs (r - s) <= d.
Proof. intros I W r s Mr Ms. apply W; apply I; assumption. Qed.

(** Zeros of an expression [e] that is steady over the range (see C70): every zero
    is printed, and at every printed point the value of [e] is at most L times
    1e-6, plus K rounding units. *)
Theorem C72_search : forall p k debug c ord eo e (range : itv (fnum p)) l u B L K,
  is_double p -> has_bounds range l u -> Rabs l <= 2 ^ 32 -> Rabs u <= 2 ^ 32 ->
  steady (P_ p k debug c ord) eo (at1 range) e B L K ->
  exists fuel0 printed,
    (forall fuel, (fuel0 <= fuel)%nat ->
       returns (find_zeros (P_ p k debug c ord) fuel (fun x => eval (P_ p k debug c ord) eo (at1 x) e) range) printed) /\
    (forall r, fmem range r -> means (N := fnum p) fval e (at1 r) 0 -> some_contains printed r) /\
    forall x r t, In x printed -> fmem x r -> means (N := fnum p) fval e (at1 r) t -> Rabs t <= L / 1000000 + K * eps (p_T p).
Proof.
  intros p k debug c ord eo e range l u B L K D HB Bl Bu St.
  pose proof (bounds_valid _ _ _ HB) as VR.
  assert (C : forall x d, fvalid x -> within x range -> 0 <= d -> (forall r s, fmem x r -> fmem x s -> Rabs (r - s) <= d) ->
    exists z, returns (eval (P_ p k debug c ord) eo (at1 x) e) z /\ fvalid z /\
    (forall r s, fmem z r -> fmem z s -> Rabs (r - s) <= L * d + K * eps (p_T p)) /\
    (forall r t, fmem x r -> means (N := fnum p) fval e (at1 r) t -> fmem z t)).
  { intros x d V W Hd Hw.
    destruct (C70_convergence p k debug c ord eo (at1 range) e B L K (fun _ => VR) St (at1 x) d Hd (fun _ => conj V W) (fun _ => Hw)) as (z & R & Vz & Wz & Cz).
    exists z. split; [exact R|]. split; [exact Vz|]. split; [exact Wz|]. intros r t Mr Ht. apply (Cz (at1 r)); [intros n; exact Mr|exact Ht]. }
  assert (HF : computes_on range (fun x => eval (P_ p k debug c ord) eo (at1 x) e) (fun r t => means (N := fnum p) fval e (at1 r) t)).
  { intros x V W. destruct (C x (u - l) V W) as (z & R & _ & _ & Cz).
    - destruct HB as (_ & _ & LU). lra.
    - apply (within_width x range _ W). apply (bounds_width range l u); [exact HB|lra].
    - exists z. split; [exact R|exact Cz]. }
  destruct (C61_find_zeros_partial p k debug c ord _ _ range l u D HF HB Bl Bu) as (f0 & pr & K1 & K2 & K3).
  exists f0, pr. split; [exact K1|]. split; [exact K3|]. intros x r t Ix Mr Ht.
  rewrite Forall_forall in K2. destruct (K2 x Ix) as (W & (a & b & Hx & Lx) & v & Rv & _ & Zv).
  destruct (C x (/ 1000000) (bounds_valid _ _ _ Hx) W ltac:(lra)) as (z & R & Vz & Wz & Cz).
  { apply (bounds_width x a b); [exact Hx|lra]. }
  pose proof (OpsIso.returns_det _ _ _ R Rv) as Q. cbv beta in Q. subst v.
  pose proof (Wz t 0 (Cz r t Mr Ht) (Zv Vz)) as F. rewrite Rminus_0_r in F. unfold Rdiv. exact F.
Qed.
Print Assumptions C72_search.

(** The same for two variables; the limit on the sides is the double 5e-3. *)
Theorem C72_search2 : forall p k debug c ord eo e (rx ry : itv (fnum p)) l u l' u' B L K,
  is_double p -> has_bounds rx l u -> has_bounds ry l' u' -> -40 <= l -> u <= 40 -> -40 <= l' -> u' <= 40 ->
  steady (P_ p k debug c ord) eo (at2 rx ry) e B L K ->
  exists fuel0 printed,
    (forall fuel, (fuel0 <= fuel)%nat ->
       returns (find_zeros2 (P_ p k debug c ord) fuel (fun x y => eval (P_ p k debug c ord) eo (at2 x y) e) rx ry) printed) /\
    (forall r s, fmem rx r -> fmem ry s -> means (N := fnum p) fval e (at2 r s) 0 ->
       Exists (fun b => fmem (first b) r /\ fmem (second b) s) printed) /\
    forall b r s t, In b printed -> fmem (first b) r -> fmem (second b) s -> means (N := fnum p) fval e (at2 r s) t ->
      Rabs t <= L * (5764607523034235 / 2 ^ 60) + K * eps (p_T p).
Proof.
  intros p k debug c ord eo e rx ry l u l' u' B L K D HB HB' A1 A2 A3 A4 St.
  pose proof (bounds_valid _ _ _ HB) as VR. pose proof (bounds_valid _ _ _ HB') as VR'.
  assert (C : forall x y d, fvalid x -> fvalid y -> within x rx -> within y ry -> 0 <= d ->
    (forall r s, fmem x r -> fmem x s -> Rabs (r - s) <= d) -> (forall r s, fmem y r -> fmem y s -> Rabs (r - s) <= d) ->
    exists z, returns (eval (P_ p k debug c ord) eo (at2 x y) e) z /\ fvalid z /\
    (forall r s, fmem z r -> fmem z s -> Rabs (r - s) <= L * d + K * eps (p_T p)) /\
    (forall r s t, fmem x r -> fmem y s -> means (N := fnum p) fval e (at2 r s) t -> fmem z t)).
  { intros x y d V V' W W' Hd Hw Hw'.
    destruct (C70_convergence p k debug c ord eo (at2 rx ry) e B L K) with (env := at2 x y) (d := d) as (z & R & Vz & Wz & Cz); auto.
    - intros [|n]; assumption.
    - intros [|n]; split; assumption.
    - intros [|n]; assumption.
    - exists z. split; [exact R|]. split; [exact Vz|]. split; [exact Wz|]. intros r s t Mr Ms Ht. apply (Cz (at2 r s)); [intros [|n]; assumption|exact Ht]. }
  assert (HF : computes2_on rx ry (fun x y => eval (P_ p k debug c ord) eo (at2 x y) e) (fun r s t => means (N := fnum p) fval e (at2 r s) t)).
  { intros x y V V' W W'. destruct (C x y 80 V V' W W' ltac:(lra)) as (z & R & _ & _ & Cz).
    - apply (within_width x rx _ W). apply (bounds_width rx l u); [exact HB|lra].
    - apply (within_width y ry _ W'). apply (bounds_width ry l' u'); [exact HB'|lra].
    - exists z. split; [exact R|exact Cz]. }
  destruct (C61_find_zeros2_partial p k debug c ord _ _ rx ry l u l' u' D HF HB HB' A1 A2 A3 A4) as (f0 & pr & K1 & K2 & K3).
  exists f0, pr. split; [exact K1|]. split; [exact K3|]. intros b r s t Ib Mr Ms Ht.
  rewrite Forall_forall in K2. destruct (K2 b Ib) as (W & W' & (a1 & b1 & _ & H1 & L1 & _) & (a2 & b2 & _ & H2 & L2 & _) & v & Rv & _ & Zv).
  destruct (C (first b) (second b) (5764607523034235 / 2 ^ 60) (bounds_valid _ _ _ H1) (bounds_valid _ _ _ H2) W W') as (z & R & Vz & Wz & Cz).
  { apply Rlt_le, Rdiv_lt_0_compat; [lra|apply pow_lt; lra]. }
  { apply (bounds_width _ a1 b1); [exact H1|apply Rlt_le, L1]. }
  { apply (bounds_width _ a2 b2); [exact H2|apply Rlt_le, L2]. }
  pose proof (OpsIso.returns_det _ _ _ R Rv) as Q. cbv beta in Q. subst v.
  pose proof (Wz t 0 (Cz r s t Mr Ms Ht) (Zv Vz)) as F. rewrite Rminus_0_r in F. exact F.
Qed.
Print Assumptions C72_search2.

(** x^3 - 2 over [1,2] is steady (factor 12, 81 units): everything printed has a cube within 1.3e-5 of 2. *)
Definition cubic : expr (fnum double_sse) := e_in B_sub (e_1 (U_pow 3) (e_var 0)) (dbl 2 0).
Example C72_case : is_double double_sse /\ has_bounds (di 1 2) 1 2 /\ steady Pdef (fun _ => true) (at1 (di 1 2)) cubic 6 12 81 /\
  (forall r, means (N := fnum double_sse) fval cubic (at1 r) (r ^ 3 - 2)) /\
  12 / 1000000 + 81 * eps binary64 <= 13 / 1000000.
Proof.
  assert (E2 : fval (f := binary64) (dbl 2 0) = Fin 2) by (apply dbl_val; lia).
  split; [split; reflexivity|]. split; [split; [exact (dbl_val 1 ltac:(lia))|split; [exact E2|lra]]|].
  assert (OB : forall e a b (Q : R -> Prop), (forall s, run show (eval Pdef (fun _ => true) (at1 (di 1 2)) e) s = (Ok (show (di a b)), s)) ->
    (Z.abs a <= 1000)%Z -> (Z.abs b <= 1000)%Z -> (forall t, IZR a <= t <= IZR b -> Q t) -> over Pdef (fun _ => true) (at1 (di 1 2)) e Q).
  { intros e a b Q R Ha Hb HQ. exists (di a b). split; [apply run_show_returns; exact R|]. intros t Ht. apply HQ. apply di_mem; auto. }
  split; [|split].
  - split; [apply (OB _ (-1)%Z 6%Z); try lia; [intros []; vm_compute; reflexivity|]; intros t Ht; apply Rabs_le; lra|].
    exists 8, 12, 65, 2. split; [|split].
    + split; [apply (OB _ 1%Z 8%Z); try lia; [intros []; vm_compute; reflexivity|]; intros t Ht; apply Rabs_le; lra|].
      exists 2, 1, 0. split.
      { split; [|lra]. apply (OB _ 1%Z 2%Z); try lia; [intros []; vm_compute; reflexivity|]. intros t Ht. apply Rabs_le. lra. }
      split; [unfold Arith2.int_max; lia|]. split; [lra|]. change (Z.to_nat 3) with 3%nat. change (3 - 1)%nat with 2%nat.
      split; [exact cube_fits|]. unfold pow_err. change (3 - 1)%nat with 2%nat.
      change (p_T double_sse) with binary64. rewrite double_eps. simpl. lra.
    + exists 2. split; [exact E2|rewrite Rabs_right; lra].
    + cbn [grow2]. lra.
  - intros r. cbn [means cubic]. exists (r ^ 3), 2. split; [exists r; split; [reflexivity|reflexivity]|]. split; [exact E2|reflexivity].
  - rewrite double_eps. lra.
Qed.

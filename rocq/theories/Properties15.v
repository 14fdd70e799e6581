(** * C58: the Newton iterations of examples/newton-raphson.cpp

    The program isolates the roots of x (x-1) (x-2) (x-3) (x-4) in an interval.
    It promises, like every interval Newton method, that no root is lost and that
    each interval it prints is narrower than 1e-10; and that it ends. *)

From Coq Require Import Reals ZArith Lra Lia Bool List.
From Flocq Require Import Core BinarySingleNaN.
From Verif Require Import Outcome Base Checking Interval Utility FloatNum Spec ExtR Sem FloatSpec FloatPol Witness
  ExNewton NewtonReal NewtonProof.
Import ListNotations.
Local Open Scope R_scope.

(** A root of the polynomial that lies in [xs]. *)
Definition root (r : R) : Prop := r * (r - 1) * (r - 2) * (r - 3) * (r - 4) = 0.
(** What a list of results says about the roots in [xs]: each result is an
    interval inside [xs], less than 1e-10 wide, and each root of the polynomial
    in [xs] is in one of them. *)
Definition isolates {p} (xs : itv (fnum p)) (res : list (itv (fnum p))) : Prop :=
  (forall z, In z res -> fvalid z /\ (forall r, fmem z r -> fmem xs r) /\
     exists l u, fval (low z) = Fin l /\ fval (up z) = Fin u /\ u - l < / 10 ^ 10) /\
  (forall r, fmem xs r -> root r -> exists z, In z res /\ fmem z r).
(** Bounds of magnitude at most 2^1022 (about 4.5e307). *)
Definition bounded {p} (xs : itv (fnum p)) : Prop :=
  exists l u, fval (low xs) = Fin l /\ fval (up xs) = Fin u /\ l <= u /\
    Rabs l <= 2 ^ 1022 /\ Rabs u <= 2 ^ 1022.

Lemma pow_bpow (n : nat) : 2 ^ n = bpow radix2 (Z.of_nat n).
Proof. rewrite <- IZR_Zpower by lia. rewrite <- pow_IZR. reflexivity. Qed.
Lemma mw_pred (t : flt binary64) w : fval t = Fin w -> w < mw -> w < / 10 ^ 10.
Proof.
  intros E L. apply fval_fin_iff in E. destruct E as [_ E].
  assert (M34 : bpow radix2 (-34) < / 10 ^ 10).
  { change (bpow radix2 (-34)) with (/ IZR (2 ^ 34)). apply Rinv_lt_contravar; [|]; simpl Z.pow; lra. }
  destruct (Rlt_or_le w (bpow radix2 (-34))) as [S|S]; [lra|].
  pose proof (generic_format_B2R _ _ t) as G. rewrite E in G.
  apply (FLT_format_generic radix2 (SpecFloat.emin (prec binary64) (emax binary64)) (prec binary64)) in G.
  destruct G as [[m e] H1 H2 _]. cbn [Fnum Fexp] in *. unfold F2R in H1. cbn [Fnum Fexp] in H1.
  assert (He : (-86 <= e)%Z).
  { destruct (Z_le_gt_dec (-86) e) as [K|K]; [exact K|]. exfalso.
    assert (H : IZR m < bpow radix2 53).
    { rewrite <- (IZR_Zpower radix2 53) by lia. apply IZR_lt. cbn [prec binary64] in H2. lia. }
    pose proof (bpow_gt_0 radix2 e) as B.
    assert (H0 : IZR m * bpow radix2 e < bpow radix2 53 * bpow radix2 e) by (apply Rmult_lt_compat_r; assumption).
    rewrite <- bpow_plus in H0. assert (bpow radix2 (53 + e) <= bpow radix2 (-34)) by (apply bpow_le; lia). lra. }
  assert (Ew : w = IZR (m * 2 ^ (e + 86)) * bpow radix2 (-86)).
  { rewrite mult_IZR. change 2%Z with (radix_val radix2). rewrite IZR_Zpower by lia. rewrite Rmult_assoc, <- bpow_plus, H1.
    do 2 f_equal. lia. }
  unfold mw in L. rewrite Ew in *. pose proof (bpow_gt_0 radix2 (-86)) as B.
  apply Rmult_lt_reg_r in L; [|exact B]. apply lt_IZR in L.
  assert (K : IZR (m * 2 ^ (e + 86)) <= IZR 7737125245533626) by (apply IZR_le; lia).
  apply Rle_lt_trans with (IZR 7737125245533626 * bpow radix2 (-86)); [apply Rmult_le_compat_r; lra|].
  change (bpow radix2 (-86)) with (/ IZR (2 ^ 86)). change (2 ^ 86)%Z with 77371252455336267181195264%Z. lra.
Qed.

Lemma found_isolates p (P : p_T p = binary64) xs res : Forall (found p xs) res ->
  (forall r, root_in p xs r -> Exists (fun z => mem (N := fnum p) (@fval (p_T p)) z r) res) -> isolates xs res.
Proof.
  intros F C. split.
  - intros z Hz. rewrite Forall_forall in F. destruct (F z Hz) as (V & S & W). split; [exact V|]. split; [exact S|].
    assert (EP : prec (p_T p) = 53%Z) by (rewrite P; reflexivity). assert (EE : emax (p_T p) = 1024%Z) by (rewrite P; reflexivity).
    destruct (wd_narrow p z V W) as (l & u & El & Eu & _). exists l, u. split; [exact El|]. split; [exact Eu|].
    destruct (wd_ru p z V) as [A _]. rewrite El, Eu in A. unfold xsub in A. cbn [xopp xadd] in A.
    destruct (fval (wd p z)) as [| |w|] eqn:Ew; cbn [xle xlt] in A, W; try tauto.
    apply Rle_lt_trans with w; [lra|]. clear - P Ew W. revert z Ew.
    cbn [T fnum]. intros z. generalize (wd p z). cbn [T fnum]. rewrite P. intros t Ew. eapply mw_pred; eauto.
  - intros r Hr Rr. specialize (C r (conj Hr Rr)). apply Exists_exists in C. exact C.
Qed.

Section Wrap.
Context (p : platform) (k : rkind) (debug : bool) (c : ckind) (ord : site -> bool).
Context (PT : p_T p = binary64).
Notation P := (fpol p Save k debug c ord).
Lemma bounded_box (xs : itv (fnum p)) : bounded xs -> exists l u, box p xs l u.
Proof.
  intros (l & u & A & B & C & D & E). exists l, u. rewrite pow_bpow in D, E. repeat split; assumption.
Qed.
Lemma wrap (f : nat -> M (list (itv (fnum p)))) xs f0 res :
  (forall fuel, (f0 <= fuel)%nat -> runsI (fready k) (f fuel) res) -> Forall (found p xs) res ->
  (forall r, root_in p xs r -> Exists (fun z => mem (N := fnum p) (@fval (p_T p)) z r) res) ->
  exists fuel0 res, (forall fuel, (fuel0 <= fuel)%nat -> returns (with_rnd P (f fuel)) res) /\ isolates xs res.
Proof.
  intros R F C. exists f0, res. split; [|apply found_isolates; auto].
  intros fuel Hf. exact (with_rnd_runs P (fready k) (fpolspec p Save k debug c ord) _ _ (R fuel Hf)).
Qed.
End Wrap.

(** First method, with every checking policy (the program uses the default one).
    The call is made inside a rounding object, as in lines 131-132, with the
    unprotected type. *)
Theorem C58_newton_no_empty : forall p k debug c ord (xs : itv (fnum p)),
  p_T p = binary64 -> bounded xs ->
  let P := fpol p Save k debug c ord in
  exists fuel0 res,
    (forall fuel, (fuel0 <= fuel)%nat -> returns (with_rnd P (newton1 (unprotect P) fuel xs)) res) /\
    isolates xs res.
Proof.
  intros p k debug c ord xs PT B P. destruct (bounded_box p xs B) as (l & u & Bx).
  assert (EP : prec (p_T p) = 53%Z) by (rewrite PT; reflexivity). assert (EE : emax (p_T p) = 1024%Z) by (rewrite PT; reflexivity).
  assert (NS : SaveUnprotected <> Save) by discriminate.
  destruct (loop_from p k (newton1_step (fpol p SaveUnprotected k debug c ord)) xs l u Bx) as (f0 & res & R & F & C).
  { intros x l' u' Bx'. eapply step1_ok; eauto. }
  exact (wrap p k debug c ord PT (fun fuel => newton1 (unprotect P) fuel xs) xs f0 res R F C).
Qed.
Print Assumptions C58_newton_no_empty.

(** Second method, with every checking policy that has empty intervals (the
    program uses checking_no_nan). *)
Theorem C58_newton_empty : forall p k debug c ord (xs : itv (fnum p)),
  p_T p = binary64 -> bounded xs -> allows_empty c = true ->
  let P := fpol p Save k debug c ord in
  exists fuel0 res,
    (forall fuel, (fuel0 <= fuel)%nat -> returns (with_rnd P (newton2 (unprotect P) fuel xs)) res) /\
    isolates xs res.
Proof.
  intros p k debug c ord xs PT B AE P. destruct (bounded_box p xs B) as (l & u & Bx).
  assert (EP : prec (p_T p) = 53%Z) by (rewrite PT; reflexivity). assert (EE : emax (p_T p) = 1024%Z) by (rewrite PT; reflexivity).
  assert (NS : SaveUnprotected <> Save) by discriminate.
  destruct (loop_from p k (newton2_step (fpol p SaveUnprotected k debug c ord)) xs l u Bx) as (f0 & res & R & F & C).
  { intros x l' u' Bx'. eapply step2_ok; eauto. }
  exact (wrap p k debug c ord PT (fun fuel => newton2 (unprotect P) fuel xs) xs f0 res R F C).
Qed.
Print Assumptions C58_newton_empty.

(** The interval of the program, [-1, 5.1], meets the hypotheses, and both
    methods return five intervals. *)
Definition prog : itv (fnum double_sse) := mk (dbl (-1) 0) (dbl 5742089524897382 (-50)).
Definition Pnonan : policy (fnum double_sse) := fpol double_sse Save Opp true CkNoNan (fun _ => true).
Definition count (o : outcome (list (itv (fnum double_sse))) * rmode) : option nat * rmode :=
  match o with (Ok l, s) => (Some (length l), s) | (_, s) => (None, s) end.
Example C58_case : p_T double_sse = binary64 /\ bounded prog /\
  count (with_rnd Pdef (newton1 (unprotect Pdef) 200 prog) RNE) = (Some 5%nat, RNE) /\
  count (with_rnd Pnonan (newton2 (unprotect Pnonan) 200 prog) RDN) = (Some 5%nat, RDN).
Proof.
  split; [reflexivity|]. split.
  - assert (El : fval (dbl (-1) 0 : flt binary64) = Fin (-1)) by (apply dbl_val; lia).
    assert (E : fval (dbl 5742089524897382 (-50) : flt binary64) = Fin (IZR 5742089524897382 * bpow radix2 (-50))).
    { apply (literal_val double_sse eq_refl eq_refl); lia. }
    exists (-1), (IZR 5742089524897382 * bpow radix2 (-50)). split; [exact El|]. split; [exact E|].
    assert (V : 5 < IZR 5742089524897382 * bpow radix2 (-50) < 6).
    { change (bpow radix2 (-50)) with (/ IZR (2 ^ 50)). change (2 ^ 50)%Z with 1125899906842624%Z. lra. }
    assert (B : 8 <= 2 ^ 1022) by (rewrite pow_bpow; change 8 with (bpow radix2 3); apply bpow_le; lia).
    split; [lra|]. split; apply Rabs_le; lra.
  - split; vm_compute; reflexivity.
Qed.

(** The bound on the magnitude cannot be dropped: on [0, +inf], which contains
    every root, both methods end at once and return nothing. *)
Definition half_line : itv (fnum double_sse) := mk (dbl 0 0) pinf.
Theorem C58_unbounded_refuted :
  fvalid half_line /\ (forall n, In n [0; 1; 2; 3; 4] -> fmem half_line n /\ root n) /\
  (forall s, with_rnd Pdef (newton1 (unprotect Pdef) 10 half_line) s = (Ok [], s)) /\
  (forall s, with_rnd Pnonan (newton2 (unprotect Pnonan) 10 half_line) s = (Ok [], s)).
Proof.
  split; [apply validb_ok; reflexivity|]. split; [|split].
  - intros n Hn. split.
    + assert (E0 : fval (dbl 0 0 : flt binary64) = Fin 0) by (apply dbl_val; lia).
      split; [cbn [low half_line]|exact Logic.I]. change (xle (fval (dbl 0 0 : flt binary64)) (Fin n)). rewrite E0. cbn [xle].
      cbn [In] in Hn. lra.
    + unfold root. cbn [In] in Hn. destruct Hn as [<-|[<-|[<-|[<-|[<-|[]]]]]]; ring.
  - assert (K : forall s, count (with_rnd Pdef (newton1 (unprotect Pdef) 10 half_line) s) = (Some O, s)) by (intros []; vm_compute; reflexivity).
    intros s. specialize (K s). destruct (with_rnd Pdef (newton1 (unprotect Pdef) 10 half_line) s) as [[[|z l]| | | |] s']; cbn [count length] in K; congruence.
  - assert (K : forall s, count (with_rnd Pnonan (newton2 (unprotect Pnonan) 10 half_line) s) = (Some O, s)) by (intros []; vm_compute; reflexivity).
    intros s. specialize (K s). destruct (with_rnd Pnonan (newton2 (unprotect Pnonan) 10 half_line) s) as [[[|z l]| | | |] s']; cbn [count length] in K; congruence.
Qed.
Print Assumptions C58_unbounded_refuted.

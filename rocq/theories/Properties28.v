(** * C73: how accurate nth_root is *)

From Coq Require Import Reals ZArith Lra Lia Bool.
From Flocq Require Import Core BinarySingleNaN.
From Verif Require Import Outcome Base Checking Interval Utility Arith Arith2 FloatNum Spec ExtR Sem CoreArith
  FloatSpec FloatPol CoreRoot CoreIso Inst Witness ExprWidth RootAcc RootAcc2.
Local Open Scope R_scope.
Notation P_ p k debug c ord := (fpol p Save k debug c ord).

(** A bound is zero, or neither it nor its reciprocal is too large for the
    format: n * max(|b|, 1/|b|) <= 2^(prec-10).  For double: n * |b| <= 2^43. *)
Definition moderate_bound (f : fmt) (n : Z) (b : R) : Prop :=
  b = 0 \/ (IZR n * Rabs b <= bpow radix2 (prec f - 10) /\ IZR n <= Rabs b * bpow radix2 (prec f - 10)).

Lemma moderate_in p n b : moderate_bound (p_T p) n b -> b = 0 \/ moderate p n (Rabs b).
Proof.
  intros [->|[A B]]; [left; reflexivity|right]. unfold moderate, eps.
  assert (E : bpow radix2 (prec (p_T p) - 10) * (512 * bpow radix2 (1 - prec (p_T p))) = 1).
  { change 512 with (bpow radix2 9). rewrite <- !bpow_plus. replace (prec (p_T p) - 10 + (9 + (1 - prec (p_T p))))%Z with 0%Z by lia. reflexivity. }
  pose proof (bpow_gt_0 radix2 (1 - prec (p_T p))) as G. set (g := bpow radix2 (1 - prec (p_T p))) in *.
  set (h := bpow radix2 (prec (p_T p) - 10)) in *. split.
  - assert (K : IZR n * Rabs b * (512 * g) <= h * (512 * g)) by (apply Rmult_le_compat_r; lra). lra.
  - assert (K : IZR n * (512 * g) <= Rabs b * h * (512 * g)) by (apply Rmult_le_compat_r; lra).
    replace (Rabs b * h * (512 * g)) with (Rabs b * (h * (512 * g))) in K by ring. rewrite E in K. lra.
Qed.

(** For bounds of moderate size the result encloses the roots, and each of its
    points is within 128 units in the last place (2^(8-prec), relative) of a root
    of a member: the iteration does not stop early. *)
Theorem C73_nth_root_accurate_partial : forall p k debug c ord dbg (x : itv (fnum p)) n l u,
  (2 * prec (p_T p) + 2 <= emax (p_T p))%Z -> (1 <= n <= 2 ^ prec (p_T p))%Z ->
  fvalid x -> fval (low x) = Fin l -> fval (up x) = Fin u ->
  moderate_bound (p_T p) n l -> moderate_bound (p_T p) n u ->
  (exists t, real_roots n (fmem x) t) ->
  exists z fuel0, fvalid z /\ fencloses z (real_roots n (fmem x)) /\
    (forall t, fmem z t -> exists s, real_roots n (fmem x) s /\ Rabs (t - s) <= bpow radix2 (8 - prec (p_T p)) * Rabs s) /\
    forall fuel mode, (fuel0 <= fuel)%nat -> k = Std \/ mode = RUP ->
      exists mode', nth_root (P_ p k debug c ord) dbg fuel x n mode = (Ok z, mode').
Proof.
  intros p k debug c ord dbg x n l u W Hn V El Eu Ml Mu (t0 & Ht0).
  apply moderate_in in Ml. apply moderate_in in Mu.
  assert (Hlu : l <= u) by (destruct V as [V _]; rewrite El, Eu in V; exact V).
  assert (Mem : forall r, fmem x r <-> l <= r <= u).
  { intros r. unfold fmem, mem. rewrite El, Eu. reflexivity. }
  assert (HE : Z.even n = true -> 0 <= u).
  { intros Ev. destruct Ht0 as [A B]. apply Mem in A. specialize (B Ev).
    assert (0 <= t0 ^ Z.to_nat n) by (apply pow_le; exact B). lra. }
  destruct (nth_root_acc p k debug c ord dbg x n l u W ltac:(lia) El Eu Hlu Ml Mu HE) as (z' & f1 & A & Rz').
  destruct (nth_root_ok p k debug c ord dbg x n l u W Hn El Eu Hlu) as (z & f0 & E & Rz); [|exact HE|].
  { intros K r Mr. apply Mem in Mr.
    assert (B : exists b, b <> 0 /\ moderate p n (Rabs b) /\ Rabs b <= Rabs r).
    { destruct (Rlt_or_le 0 l) as [L|L].
      - exists l. split; [lra|]. split; [destruct Ml as [->|]; [lra|assumption]|]. rewrite !Rabs_right; lra.
      - exists u. split; [lra|]. split; [destruct Mu as [->|]; [lra|assumption]|]. rewrite !Rabs_left; lra. }
    destruct B as (b & Nb & [M1 M2] & Lb). pose proof (big_largest p) as BL. pose proof (eps_pos (p_T p)) as E0.
    change (max_val (f := p_T p)) with (largest (p_T p)).
    assert (N1 : 1 <= IZR n) by (apply (IZR_le 1); lia).
    assert (Eb : eps (p_T p) <= Rabs b). { assert (1 * eps (p_T p) <= IZR n * eps (p_T p)) by (apply Rmult_le_compat_r; lra). lra. }
    apply Rle_trans with (eps (p_T p) * / eps (p_T p)); [rewrite Rinv_r; lra|].
    apply Rmult_le_compat; try lra. left. apply Rinv_0_lt_compat. exact E0. }
  assert (z' = z) by (apply (runsI_det (fpolspec p Save k debug c ord) (nth_root (P_ p k debug c ord) dbg (S (Nat.max f0 f1)) x n)); [apply Rz'|apply Rz]; lia).
  subst z'. exists z, (S f0). split; [apply (mem_valid _ _ t0), E, Ht0|]. split; [exact E|]. split.
  - intros t Ht. destruct (A t Ht) as (s & Hs & D). exists s. split; [exact Hs|].
    replace (8 - prec (p_T p))%Z with (7 + (1 - prec (p_T p)))%Z by lia. rewrite bpow_plus. change (bpow radix2 7) with 128. exact D.
  - intros fuel mode Hf Hk. destruct (Rz fuel ltac:(lia) mode) as (s' & _ & K); [|exists s'; exact K].
    destruct Hk as [->| ->]; [exact Logic.I|]. apply ready_up. reflexivity.
Qed.
Print Assumptions C73_nth_root_accurate_partial.

(** A non-trivial case: degree 3 of [-10,27] for double. *)
Example C73_case : (2 * 53 + 2 <= 1024)%Z /\ fvalid (di (-10) 27) /\
  fval (low (di (-10) 27) : flt binary64) = Fin (-10) /\ fval (up (di (-10) 27) : flt binary64) = Fin 27 /\
  moderate_bound binary64 3 (-10) /\ moderate_bound binary64 3 27 /\ real_roots 3 (fmem (di (-10) 27)) 3 /\
  run show (nth_root Pdef true 100 (di (-10) 27) 3) RUP =
    (Ok (show (mk (dbl (-4851355633610832) (-51)) (dbl 3 0))), RUP).
Proof.
  assert (E1 : fval (low (di (-10) 27) : flt binary64) = Fin (-10)) by (apply (dbl_val (-10)); lia).
  assert (E2 : fval (up (di (-10) 27) : flt binary64) = Fin 27) by (apply (dbl_val 27); lia).
  assert (B : 1024 <= bpow radix2 (prec binary64 - 10)) by (change 1024 with (bpow radix2 10); apply bpow_le; simpl; lia).
  split; [lia|]. split; [apply di_valid; lia|]. split; [exact E1|]. split; [exact E2|].
  split; [right; rewrite Rabs_left by lra; lra|]. split; [right; rewrite Rabs_right by lra; lra|]. split.
  - split; [|intros K; discriminate K]. change (Z.to_nat 3) with 3%nat. unfold fmem, mem.
    change (@fval (p_T double_sse)) with (@fval binary64). rewrite E1, E2. simpl. lra.
  - vm_compute. reflexivity.
Qed.

(** The documentation gives no such condition, and without it the claim fails:
    interval<double> with all defaults, in the mode it needs, degree 3,
    x = 5571554746792077 * 2^248 (about 2.5e90, root about 1.4e30).  The result
    is [1, 2.7e30]: 1 is not within half of any root. *)
Definition far_x : itv (fnum double_sse) := mk (dbl 5571554746792077 248) (dbl 5571554746792077 248).
Theorem C73_nth_root_inaccurate_refuted :
  ~ (forall fuel x n z mode', fvalid x -> (forall r, fmem x r -> 1 <= r <= bpow radix2 301) -> (1 <= n <= 3)%Z ->
       nth_root Pdef true fuel x n RUP = (Ok z, mode') ->
       forall t, fmem z t -> exists s, real_roots n (fmem x) s /\ Rabs (t - s) <= Rabs s / 2).
Proof.
  intros H. specialize (H 400%nat far_x 3%Z).
  assert (V : fvalid far_x) by (apply validb_ok; vm_compute; reflexivity).
  assert (E : run show (nth_root Pdef true 400 far_x 3) RUP =
     (Ok (SpecFloat.S754_finite false 4503599627370496 (-52), SpecFloat.S754_finite false 4834653093742013 49), RUP))
    by (vm_compute; reflexivity).
  assert (EX : B2SF (low far_x) = SpecFloat.S754_finite false 5571554746792077 248) by (vm_compute; reflexivity).
  assert (FX : fval (low far_x : flt binary64) = Fin (5571554746792077 * bpow radix2 248)).
  { destruct (low far_x : flt binary64) as [?|?| |sg m e B]; try discriminate EX.
    simpl in EX. injection EX as -> -> ->. reflexivity. }
  assert (Mem : forall r, fmem far_x r -> r = 5571554746792077 * bpow radix2 248).
  { intros r [A B]. change (up far_x) with (low far_x) in B. change (@fval (p_T double_sse)) with (@fval binary64) in A, B.
    change (xle (fval (low far_x : flt binary64)) (Fin r)) in A. change (xle (Fin r) (fval (low far_x : flt binary64))) in B.
    rewrite FX in A, B. unfold xle in A, B. apply Rle_antisym; assumption. }
  assert (B9 : 9 <= bpow radix2 248) by (apply Rle_trans with (bpow radix2 4); [change (bpow radix2 4) with 16; lra|apply bpow_le; lia]).
  unfold run in E. destruct (nth_root Pdef true 400 far_x 3 RUP) as [o s'] eqn:Q. destruct o as [z|e| | |]; try discriminate E.
  injection E as E1 E2 _. specialize (H z s' V).
  assert (M : exists s, real_roots 3 (fmem far_x) s /\ Rabs (1 - s) <= Rabs s / 2).
  { apply H; [|lia|reflexivity|].
    - intros r Mr. apply Mem in Mr. subst r. split; [lra|]. replace 301%Z with (53 + 248)%Z by lia. rewrite bpow_plus.
      apply Rmult_le_compat_r; [lra|]. change (bpow radix2 53) with (IZR 9007199254740992). lra.
    - assert (FL : fval (low z : flt binary64) = Fin (4503599627370496 * bpow radix2 (-52))).
      { destruct (low z : flt binary64) as [?|?| |sg m e B]; try discriminate E1. simpl in E1. injection E1 as -> -> ->. reflexivity. }
      assert (FU : fval (up z : flt binary64) = Fin (4834653093742013 * bpow radix2 49)).
      { destruct (up z : flt binary64) as [?|?| |sg m e B]; try discriminate E2. simpl in E2. injection E2 as -> -> ->. reflexivity. }
      split; [change (xle (fval (low z : flt binary64)) (Fin 1)); rewrite FL|change (xle (Fin 1) (fval (up z : flt binary64))); rewrite FU]; unfold xle.
      + replace 4503599627370496 with (bpow radix2 52) by reflexivity. rewrite <- bpow_plus. simpl. lra.
      + assert (1 <= bpow radix2 49) by (apply (bpow_le radix2 0); lia). lra. }
  destruct M as (s & [Hs _] & D). apply Mem in Hs. change (Z.to_nat 3) with 3%nat in Hs. simpl in Hs. rewrite Rmult_1_r in Hs.
  assert (S3 : 8 < s * (s * s)) by lra.
  assert (S2 : 2 < s).
  { destruct (Rlt_or_le 2 s) as [|L]; auto. exfalso. destruct (Rle_or_lt 0 s) as [P|P].
    - assert (s * s <= 2 * 2) by (apply Rmult_le_compat; lra). assert (s * (s * s) <= 2 * (2 * 2)) by (apply Rmult_le_compat; try lra; apply Rmult_le_pos; lra). lra.
    - assert (0 <= s * s) by (replace (s * s) with ((- s) * (- s)) by ring; apply Rmult_le_pos; lra).
      assert (0 <= (- s) * (s * s)) by (apply Rmult_le_pos; lra). lra. }
  rewrite (Rabs_right s) in D by lra. rewrite Rabs_left in D by lra. lra.
Qed.
Print Assumptions C73_nth_root_inaccurate_refuted.

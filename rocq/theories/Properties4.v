(** * Properties C16, C17, C19, C34, C35: roots and midpoints *)

From Coq Require Import Reals ZArith Lra Lia Bool.
From Flocq Require Import Core BinarySingleNaN.
From Verif Require Import Outcome Base Checking Interval Utility Arith Arith2 FloatNum Spec ExtR Sem CoreArith
  CorePow FloatSpec FloatPol FloatMed CoreRoot RootTerm Inst Witness Agree Program ProgramProof.
Local Open Scope R_scope.

Notation P_ p k debug c ord := (fpol p Save k debug c ord).

(** ** C34: median *)

(** Finite bounds whose sum does not overflow in the evaluation format: the
    result is inside, and when expressions are evaluated in the base type it is
    the midpoint rounded once to nearest-even, so no representable number is
    nearer to the midpoint. *)
Theorem C34_median_partial : forall p k debug c ord (x : itv (fnum p)) l u,
  fval (low x) = Fin l -> fval (up x) = Fin u -> l <= u ->
  Rabs (l + u) < bpow radix2 (emax (p_X p)) - bpow radix2 (emax (p_X p) - prec (p_X p) - 1) ->
  exists m r, returns (median (P_ p k debug c ord) x) m /\ fval m = Fin r /\ l <= r <= u /\
    (p_X p = p_T p ->
       r = round radix2 (FLT_exp (3 - emax (p_T p) - prec (p_T p)) (prec (p_T p))) ZnearestE ((l + u) / 2) /\
       forall (t : T (fnum p)) s, fval t = Fin s -> Rabs (r - (l + u) / 2) <= Rabs (s - (l + u) / 2)).
Proof.
  intros p k debug c ord x l u El Eu Hlu NO.
  exists (midpt p (low x) (up x)), (B2R (midpt p (low x) (up x))).
  pose proof (proj1 (fval_fin_iff _ _) El) as [Fl Vl]. pose proof (proj1 (fval_fin_iff _ _) Eu) as [Fu Vu].
  assert (NO' : Rabs (rnd (p_X p) mode_NE (B2R (low x : flt (p_T p)) + B2R (up x : flt (p_T p)))) < bpow radix2 (emax (p_X p))).
  { rewrite Vl, Vu. apply no_overflow. exact NO. }
  destruct (midpt_inside p (low x) (up x) Fl Fu ltac:(rewrite Vl, Vu; exact Hlu) NO') as (F & I1 & _).
  rewrite Vl, Vu in I1. split; [|split; [apply fval_finite; exact F|split; [exact I1|]]].
  - apply (median_runs p Save). rewrite El, Eu. exact Hlu.
  - intros EX. pose proof (midpt_nearest p (low x) (up x) EX Fl Fu ltac:(rewrite Vl, Vu; exact Hlu) NO') as E.
    rewrite Vl, Vu in E. split; [exact E|].
    intros t s Et. rewrite E. apply fval_fin_iff in Et. destruct Et as [_ <-].
    apply (round_N_pt radix2 (fexpf (p_T p)) (fun x => negb (Z.even x)) ((l + u) / 2)).
    apply generic_format_B2R.
Qed.
Print Assumptions C34_median_partial.
(** On platforms that evaluate in a format with a larger exponent range the sum
    of two finite numbers never overflows. *)
Theorem C34_median_inside_wide : forall p k debug c ord (x : itv (fnum p)) l u,
  (emax (p_T p) < emax (p_X p))%Z ->
  fval (low x) = Fin l -> fval (up x) = Fin u -> l <= u ->
  exists m r, returns (median (P_ p k debug c ord) x) m /\ fval m = Fin r /\ l <= r <= u.
Proof.
  intros p k debug c ord x l u HX El Eu Hlu.
  assert (NO : Rabs (l + u) < bpow radix2 (emax (p_X p)) - bpow radix2 (emax (p_X p) - prec (p_X p) - 1)).
  { pose proof (proj1 (fval_fin_iff _ _) El) as [Fl Vl]. pose proof (proj1 (fval_fin_iff _ _) Eu) as [Fu Vu].
    pose proof (finite_le_max (low x : flt (p_T p))) as Ml. pose proof (finite_le_max (up x : flt (p_T p))) as Mu.
    rewrite Vl in Ml. rewrite Vu in Mu. unfold max_val in *. destruct (p_TX p) as [Hp He].
    pose proof (fmt_prec_gt_0 (p_T p)) as P0.
    set (e := emax (p_T p)) in *. set (q := prec (p_T p)) in *. set (e' := emax (p_X p)) in *. set (q' := prec (p_X p)) in *.
    apply Rle_lt_trans with (Rabs l + Rabs u); [apply Rabs_triang|].
    assert (A : bpow radix2 (e + 1) = 2 * bpow radix2 e).
    { rewrite bpow_plus. change (bpow radix2 1) with 2. ring. }
    assert (B : bpow radix2 (e + 1) <= bpow radix2 e') by (apply bpow_le; lia).
    assert (M1 : forall a b, bpow radix2 a - bpow radix2 (a - b - 1) = bpow radix2 a * (1 - bpow radix2 (- b - 1))).
    { intros a b. rewrite Rmult_minus_distr_l, <- bpow_plus, Rmult_1_r. do 2 f_equal. lia. }
    assert (M2 : bpow radix2 e - bpow radix2 (e - q) = bpow radix2 e * (1 - bpow radix2 (- q))).
    { rewrite Rmult_minus_distr_l, <- bpow_plus, Rmult_1_r. do 2 f_equal. }
    rewrite M1. rewrite M2 in Ml, Mu.
    assert (C1 : bpow radix2 (- q' - 1) < bpow radix2 (- q)) by (apply bpow_lt; lia).
    assert (C2 : bpow radix2 (- q) <= 1) by (change 1 with (bpow radix2 0); apply bpow_le; lia).
    pose proof (bpow_gt_0 radix2 e). nra. }
  destruct (C34_median_partial p k debug c ord x l u El Eu Hlu NO) as (m & r & A & B & C & _). eauto.
Qed.
Print Assumptions C34_median_inside_wide.
Example C34_case : exists l u, fval (low (di 1 4)) = Fin l /\ fval (up (di 1 4)) = Fin u /\ l <= u /\
  Rabs (l + u) < bpow radix2 1024 - bpow radix2 (1024 - 53 - 1) /\
  run B2SF (median Pdef (di 1 4)) RUP = (Ok (B2SF (dbl 5 (-1))), RUP) /\ (emax (p_T double_x87) < emax (p_X double_x87))%Z.
Proof.
  exists 1, 4. split; [apply (dbl_val 1); lia|]. split; [apply (dbl_val 4); lia|]. split; [lra|].
  split; [|split; [vm_compute; reflexivity|reflexivity]].
  rewrite Rabs_pos_eq by lra. assert (A : bpow radix2 1024 = bpow radix2 970 * bpow radix2 54) by (rewrite <- bpow_plus; reflexivity).
  rewrite A. change (1024 - 53 - 1)%Z with 970%Z. assert (1 <= bpow radix2 970) by (change 1 with (bpow radix2 0); apply bpow_le; lia).
  assert (8 <= bpow radix2 54) by (change 8 with (bpow radix2 3); apply bpow_le; lia). nra.
Qed.
(** median([2^1023, 2^1023]) is +inf, which is not in the interval. *)
Theorem C34_median_refuted :
  ~ (forall x m mode mode', fvalid x -> median Pdef x mode = (Ok m, mode') ->
       xle (fval (low x)) (fval m) /\ xle (fval m) (fval (up x))).
Proof.
  intros H. set (x := mk (dbl 1 1023) (dbl 1 1023)).
  assert (V : fvalid x) by (apply validb_ok; vm_compute; reflexivity).
  assert (E : run B2SF (median Pdef x) RNE = (Ok (SpecFloat.S754_infinity false), RNE)) by (vm_compute; reflexivity).
  unfold run in E. destruct (median Pdef x RNE) as [o s'] eqn:Q. destruct o as [m|e| | |]; try discriminate E.
  simpl in E. injection E as E _. specialize (H x m RNE s' V Q).
  destruct m as [?|[|]| |? ? ? ?]; try discriminate E. destruct H as [_ H].
  assert (K : exists r, fval (up x : flt binary64) = Fin r).
  { unfold x. cbn [up]. exists (B2R (dbl 1 1023 : flt binary64)). apply (fval_finite (f := binary64)). vm_compute. reflexivity. }
  destruct K as (r & K). change (xle PInf (fval (up x : flt binary64))) in H. rewrite K in H. exact H.
Qed.
Print Assumptions C34_median_refuted.

(** ** C35: bisect *)

(** Nothing is lost: for every valid interval but the whole line, every member
    of x is in one of the two parts. *)
Theorem C35_bisect_covers_partial : forall p k debug c ord (x : itv (fnum p)),
  fvalid x -> ~ (fval (low x) = NInf /\ fval (up x) = PInf) ->
  exists a b, returns (bisect (P_ p k debug c ord) x) (a, b) /\
    low a = low x /\ up b = up x /\ up a = low b /\
    forall r, fmem x r -> fmem a r \/ fmem b r.
Proof.
  intros p k debug c ord x (V1 & V2 & V3) NW.
  pose proof (bisect_runs p Save k debug c ord x V1) as R1. cbv zeta in R1.
  eexists _, _. split; [exact R1|]. cbn [low up]. do 3 (split; [reflexivity|]).
  intros r. unfold fmem, mem. cbn [low up].
  destruct (midpt_inf p (low x) (up x) V1 V2 V3 NW) as [(m & Em & A & B)|[Em|Em]]; rewrite Em; intros [C D].
  - destruct (Rle_or_lt r m) as [K|K]; [left|right]; (split; [|auto]); auto; simpl; lra.
  - right. split; [exact Logic.I|exact D].
  - left. split; [exact C|exact Logic.I].
Qed.
Print Assumptions C35_bisect_covers_partial.
(** Finite bounds whose sum does not overflow: two valid intervals with union x
    and exactly one common point. *)
Theorem C35_bisect_partial : forall p k debug c ord (x : itv (fnum p)) l u,
  fval (low x) = Fin l -> fval (up x) = Fin u -> l <= u ->
  Rabs (l + u) < bpow radix2 (emax (p_X p)) - bpow radix2 (emax (p_X p) - prec (p_X p) - 1) ->
  exists a b m, returns (bisect (P_ p k debug c ord) x) (a, b) /\ fvalid a /\ fvalid b /\
    (forall r, fmem x r <-> fmem a r \/ fmem b r) /\
    (forall r, fmem a r /\ fmem b r <-> r = m).
Proof.
  intros p k debug c ord x l u El Eu Hlu NO.
  assert (V1 : xle (fval (low x)) (fval (up x))) by (rewrite El, Eu; exact Hlu).
  pose proof (bisect_runs p Save k debug c ord x V1) as R1. cbv zeta in R1.
  destruct (C34_median_partial p k debug c ord x l u El Eu Hlu NO) as (t & m & Rm & Em & Hm & _).
  assert (Et : t = midpt p (low x) (up x)).
  { pose proof (median_runs p Save k debug c ord x V1 RNE) as K. specialize (Rm RNE). rewrite K in Rm. congruence. }
  eexists _, _, m. split; [exact R1|]. rewrite <- Et.
  unfold fvalid, valid, fmem, mem. cbn [low up]. rewrite El, Eu, Em. simpl.
  split; [split; [lra|split; discriminate]|]. split; [split; [lra|split; discriminate]|].
  split; intros r; [|split; [lra|intros ->; lra]].
  split; [|lra]. intros [C D]. destruct (Rle_or_lt r m) as [K|K]; [left|right]; lra.
Qed.
Print Assumptions C35_bisect_partial.
Example C35_case : exists l u, fval (low (di 1 4)) = Fin l /\ fval (up (di 1 4)) = Fin u /\ l <= u /\
  Rabs (l + u) < bpow radix2 1024 - bpow radix2 (1024 - 53 - 1) /\
  run (fun ab => (show (fst ab), show (snd ab))) (bisect Pdef (di 1 4)) RUP =
    (Ok (show (mk (dbl 1 0) (dbl 5 (-1))), show (mk (dbl 5 (-1)) (dbl 4 0))), RUP).
Proof.
  destruct C34_case as (l & u & A & B & C & D & _). exists l, u.
  do 4 (split; [assumption|]). vm_compute; reflexivity.
Qed.
(** Under the default policy bisect([-inf,+inf]) gives [-inf,NaN] and [NaN,+inf]:
    no member of x is in either. *)
Theorem C35_bisect_refuted :
  ~ (forall x a b mode mode', fvalid x -> bisect Pdef x mode = (Ok (a, b), mode') ->
       forall r, fmem x r -> fmem a r \/ fmem b r).
Proof.
  intros H. set (x := mk ninf pinf).
  assert (V : fvalid x) by (apply validb_ok; vm_compute; reflexivity).
  assert (E : run (fun ab => (snd (show (fst ab)), fst (show (snd ab)))) (bisect Pdef x) RNE =
     (Ok (SpecFloat.S754_nan, SpecFloat.S754_nan), RNE)) by (vm_compute; reflexivity).
  unfold run in E. destruct (bisect Pdef x RNE) as [o s'] eqn:Q. destruct o as [[a b]|e| | |]; try discriminate E.
  simpl in E. injection E as E1 E2 _. specialize (H x a b RNE s' V Q 0 (conj Logic.I Logic.I)).
  destruct H as [[_ H]|[H _]].
  - destruct (up a) as [?|?| |? ? ? ?]; try discriminate E1. exact H.
  - destruct (low b) as [?|?| |? ? ? ?]; try discriminate E2. exact H.
Qed.
Print Assumptions C35_bisect_refuted.

(** ** C16: nth_root *)

(** Finite bounds; 0 in x or reciprocals of the members in range; a degree
    representable in the base type; rounded_arith_std, or rounded_arith_opp with
    the mode it assumes already installed.  Every real n-th root of a member is
    in the result.  The budget does not matter (C17_budget_irrelevant). *)
Theorem C16_nth_root_encloses_partial : forall p k debug c ord dbg (x : itv (fnum p)) n,
  (2 * prec (p_T p) + 2 <= emax (p_T p))%Z -> (1 <= n <= 2 ^ prec (p_T p))%Z ->
  fvalid x -> is_fin (fval (low x)) -> is_fin (fval (up x)) ->
  (~ fmem x 0 -> forall r, fmem x r -> 1 <= Rabs r * largest (p_T p)) ->
  (exists t, real_roots n (fmem x) t) ->
  exists z fuel0, fvalid z /\ fencloses z (real_roots n (fmem x)) /\
    forall fuel mode, (fuel0 <= fuel)%nat -> k = Std \/ mode = RUP ->
      exists mode', nth_root (P_ p k debug c ord) dbg fuel x n mode = (Ok z, mode').
Proof.
  intros p k debug c ord dbg x n W Hn V (l & El) (u & Eu) HM (t0 & Ht0).
  assert (Hlu : l <= u) by (destruct V as [V _]; rewrite El, Eu in V; exact V).
  assert (Mem : forall r, fmem x r <-> l <= r <= u).
  { intros r. unfold fmem, mem. rewrite El, Eu. reflexivity. }
  destruct (nth_root_ok p k debug c ord dbg x n l u W Hn El Eu Hlu) as (z & f0 & E & Rz).
  - intros K. apply HM. rewrite Mem. exact K.
  - intros Ev. destruct Ht0 as [A B]. apply Mem in A. specialize (B Ev).
    assert (0 <= t0 ^ Z.to_nat n) by (apply pow_le; exact B). lra.
  - exists z, (S f0). split; [apply (mem_valid _ _ t0), E, Ht0|]. split; [exact E|].
    intros fuel mode Hf Hk. destruct (Rz fuel ltac:(lia) mode) as (s' & _ & K); [|exists s'; exact K].
    destruct Hk as [->| ->]; [exact Logic.I|]. apply ready_up. reflexivity.
Qed.
Print Assumptions C16_nth_root_encloses_partial.
(** Even degree and no nonnegative member: empty (or the policy's exception). *)
Theorem C16_nth_root_negative_empty : forall p k debug c ord dbg fuel (x : itv (fnum p)) n,
  fvalid x -> (forall r, fmem x r -> r < 0) -> (0 < n)%Z -> Z.even n = true ->
  gives_empty c (nth_root (P_ p k debug c ord) dbg fuel x n).
Proof.
  intros p k debug c ord dbg fuel x n V Hneg Hn Ev.
  assert (U : exists u, fval (up x) = Fin u /\ u < 0).
  { pose proof (valid_slim_up _ _ V) as S. destruct (fval (up x)) as [| |u|] eqn:Eu.
    - destruct S.
    - destruct V as (_ & _ & V). rewrite Eu in V. congruence.
    - exists u. split; [reflexivity|]. apply Hneg. exact S.
    - destruct (S 0) as (r & Hr & Hr'). apply Hneg in Hr. lra. }
  destruct U as (u & Eu & Hu).
  assert (Ei : nth_root (P_ p k debug c ord) dbg fuel x n = (assert_ dbg (0 <? n)%Z ;;; i_empty (P_ p k debug c ord))).
  { unfold nth_root. rewrite (test_i_ordered p Save) by apply V.
    assert ((n =? 1)%Z = false) as ->. { apply Z.eqb_neq. intros ->. discriminate Ev. }
    assert (is_pos (up x) = false) as ->. { eapply bool_false; [apply (is_pos_fin p _ _ Eu)|lra]. }
    assert (is_zero (up x) = false) as ->. { eapply bool_false; [apply (is_zero_fin p _ _ Eu)|lra]. }
    rewrite <- Z.negb_even, Ev. reflexivity. }
  rewrite Ei. apply (empty_gives p k debug c ord). intros o Ho s. unfold bind, assert_.
  rewrite (proj2 (Z.ltb_lt 0 n) Hn). destruct dbg; cbn; eapply i_empty_run; exact Ho.
Qed.
Print Assumptions C16_nth_root_negative_empty.
(** The round trip nth_root(pow(x,n),n). *)
Theorem C16_nth_root_of_pow_partial : forall p k debug c ord dbg (x w : itv (fnum p)) n,
  (2 * prec (p_T p) + 2 <= emax (p_T p))%Z -> (1 <= n <= 2 ^ prec (p_T p))%Z -> fvalid x ->
  returns (Arith2.pow (P_ p k debug c ord) x n) w ->
  is_fin (fval (low w)) -> is_fin (fval (up w)) ->
  (~ fmem w 0 -> forall r, fmem w r -> 1 <= Rabs r * largest (p_T p)) ->
  exists z fuel0, fvalid z /\
    (forall r, fmem x r -> if Z.even n then fmem z (Rabs r) else fmem z r) /\
    forall fuel mode, (fuel0 <= fuel)%nat -> k = Std \/ mode = RUP ->
      exists mode', nth_root (P_ p k debug c ord) dbg fuel w n mode = (Ok z, mode').
Proof.
  intros p k debug c ord dbg x w n W Hn V Rw Fl Fu HM.
  destruct (pow_positive_ok (fpolspec p Save k debug c ord) x n ltac:(lia) V) as (w' & Rw' & Ew & _).
  assert (E0 : w' = w). { specialize (Rw RNE). pose proof (Rw' RNE) as K. pose proof (eq_trans (eq_sym K) Rw) as J. injection J. auto. }
  subst w'.
  assert (RR : forall r, fmem x r -> real_roots n (fmem w) (if Z.even n then Rabs r else r)).
  { intros r Hr. assert (K : fmem w (r ^ Z.to_nat n)) by (apply Ew; exists r; auto).
    destruct (Z.even n) eqn:Ev; split; [|intros _; apply Rabs_pos|exact K|intros J; rewrite Ev in J; discriminate J].
    unfold Rabs. destruct (Rcase_abs r); [|exact K]. rewrite pow_even_opp; auto; [|lia].
    rewrite <- Z.negb_even, Ev. reflexivity. }
  destruct (valid_mem _ _ V) as (r0 & Hr0).
  assert (Vw : fvalid w) by (apply (mem_valid _ _ (r0 ^ Z.to_nat n)), Ew; exists r0; auto).
  destruct (C16_nth_root_encloses_partial p k debug c ord dbg w n W Hn Vw Fl Fu HM) as (z & f0 & Vz & Ez & Rz).
  { eexists. apply (RR r0 Hr0). }
  exists z, f0. split; [exact Vz|]. split; [|exact Rz].
  intros r Hr. specialize (RR r Hr). destruct (Z.even n); apply Ez; exact RR.
Qed.
Print Assumptions C16_nth_root_of_pow_partial.
(** The hypotheses hold for [2,3] and degree 3; the result printed. *)
Example C16_case : (2 * 53 + 2 <= 1024)%Z /\ fvalid (di 2 3) /\ is_fin (fval (low (di 2 3))) /\
  is_fin (fval (up (di 2 3))) /\ (forall r, fmem (di 2 3) r -> 1 <= Rabs r * largest binary64) /\
  run show (nth_root Pdef true 100 (di 2 3) 3) RUP =
    (Ok (show (mk (dbl 5674179970822794 (-52)) (dbl 6495314627411703 (-52)))), RUP) /\
  run show (nth_root Pdef true 100 (di (-8) 27) 3) RUP = (Ok (show (di (-2) 3)), RUP) /\
  run show (nth_root Pdef true 100 (di (-8) (-1)) 2) RUP = (Throw EmptyCreated, RUP).
Proof.
  split; [lia|]. split; [apply di_valid; lia|]. split; [exists 2; apply (dbl_val 2); lia|].
  split; [exists 3; apply (dbl_val 3); lia|]. split; [|repeat split; vm_compute; reflexivity].
  intros r [A B]. cbn [di low up] in A, B. dval_in A. dval_in B. simpl in A, B. rewrite Rabs_pos_eq by lra.
  assert (1 <= largest binary64); [|nra]. unfold largest. cbn [prec emax binary64].
  assert (A1 : bpow radix2 1024 = bpow radix2 971 * bpow radix2 53) by (rewrite <- bpow_plus; reflexivity).
  rewrite A1. change (1024 - 53)%Z with 971%Z. assert (1 <= bpow radix2 971) by (change 1 with (bpow radix2 0); apply bpow_le; lia).
  assert (8 <= bpow radix2 53) by (change 8 with (bpow radix2 3); apply bpow_le; lia). nra.
Qed.

(** x = 7378697629483821 * 2^-62 (about 0.0016) under interval<double> with
    all defaults, called in the default rounding mode: the upper bound of
    nth_root(x,2) is 5764607523034235 * 2^-57, whose square is below x. *)
Definition bad_x : itv (fnum double_sse) := mk (dbl 7378697629483821 (-62)) (dbl 7378697629483821 (-62)).
Theorem C16_nth_root_refuted :
  ~ (forall fuel x n z mode mode', fvalid x -> (1 <= n)%Z ->
       nth_root Pdef true fuel x n mode = (Ok z, mode') -> fencloses z (real_roots n (fmem x))).
Proof.
  intros H. specialize (H 100%nat bad_x 2%Z).
  assert (V : fvalid bad_x) by (apply validb_ok; vm_compute; reflexivity).
  assert (E : run show (nth_root Pdef true 100 bad_x 2) RNE =
     (Ok (SpecFloat.S754_finite false 5764607523034234 (-57), SpecFloat.S754_finite false 5764607523034235 (-57)), RUP))
    by (vm_compute; reflexivity).
  assert (EX : B2SF (low bad_x) = SpecFloat.S754_finite false 7378697629483821 (-62)) by (vm_compute; reflexivity).
  unfold run in E. destruct (nth_root Pdef true 100 bad_x 2 RNE) as [o s'] eqn:Q. destruct o as [z|e| | |]; try discriminate E.
  simpl in E. injection E as E1 E2 _. specialize (H z RNE s' V ltac:(lia) Q).
  assert (FX : fval (low bad_x : flt binary64) = Fin (7378697629483821 * bpow radix2 (-62))).
  { destruct (low bad_x : flt binary64) as [?|?| |sg m e B]; try discriminate EX.
    simpl in EX. injection EX as -> -> ->. reflexivity. }
  assert (FU : fval (up z : flt binary64) = Fin (5764607523034235 * bpow radix2 (-57))).
  { destruct (up z : flt binary64) as [?|?| |sg m e B]; try discriminate E2.
    simpl in E2. injection E2 as -> -> ->. reflexivity. }
  set (v := 7378697629483821 * bpow radix2 (-62)) in *.
  assert (V0 : 0 < v). { unfold v. pose proof (bpow_gt_0 radix2 (-62)). lra. }
  assert (M : fmem z (sqrt v)).
  { apply H. split.
    - change (Z.to_nat 2) with 2%nat. rewrite pow2_sqrt by lra. unfold fmem, mem.
      change (up bad_x) with (low bad_x). change (@fval (p_T double_sse)) with (@fval binary64). rewrite FX. simpl. lra.
    - intros _. apply sqrt_pos. }
  destruct M as [_ M]. change (xle (Fin (sqrt v)) (fval (up z : flt binary64))) in M. rewrite FU in M. simpl in M.
  change (sqrt v <= 5764607523034235 * bpow radix2 (-57)) in M.
  assert (S : v <= (5764607523034235 * bpow radix2 (-57)) * (5764607523034235 * bpow radix2 (-57))).
  { rewrite <- (sqrt_sqrt v) by lra. apply Rmult_le_compat; auto using sqrt_pos. }
  unfold v in S.
  assert (B1 : bpow radix2 (-57) * bpow radix2 (-57) = bpow radix2 (-114)) by (rewrite <- bpow_plus; reflexivity).
  assert (B2 : bpow radix2 (-62) = bpow radix2 52 * bpow radix2 (-114)) by (rewrite <- bpow_plus; reflexivity).
  replace (5764607523034235 * bpow radix2 (-57) * (5764607523034235 * bpow radix2 (-57)))
    with (5764607523034235 * 5764607523034235 * (bpow radix2 (-57) * bpow radix2 (-57))) in S by ring.
  rewrite B1, B2 in S. pose proof (bpow_gt_0 radix2 (-114)) as G.
  assert (C : 7378697629483821 * bpow radix2 52 <= 5764607523034235 * 5764607523034235).
  { apply (Rmult_le_reg_r (bpow radix2 (-114))); [exact G|]. lra. }
  change (bpow radix2 52) with (IZR 4503599627370496) in C. rewrite <- !mult_IZR in C. apply le_IZR in C. vm_compute in C. congruence.
Qed.
Print Assumptions C16_nth_root_refuted.
(** Even in the mode the default policy needs: nth_root([2,+inf],2) under
    checking_base has NaN for upper bound, so it contains no number. *)
Theorem C16_nth_root_infinite_refuted :
  ~ (forall fuel x n z mode', fvalid x -> (1 <= n)%Z ->
       nth_root Pbase true fuel x n RUP = (Ok z, mode') -> fencloses z (real_roots n (fmem x))).
Proof.
  intros H. specialize (H 100%nat (mk (dbl 2 0) pinf) 2%Z).
  assert (V : fvalid (mk (dbl 2 0) pinf)) by (apply validb_ok; vm_compute; reflexivity).
  assert (E : run (fun z => snd (show z)) (nth_root Pbase true 100 (mk (dbl 2 0) pinf) 2) RUP = (Ok SpecFloat.S754_nan, RUP))
    by (vm_compute; reflexivity).
  unfold run in E. destruct (nth_root Pbase true 100 (mk (dbl 2 0) pinf) 2 RUP) as [o s'] eqn:Q. destruct o as [z|e| | |]; try discriminate E.
  simpl in E. injection E as E _. specialize (H z s' V ltac:(lia) eq_refl).
  assert (M : fmem z 2).
  { apply H. split; [|intros _; lra]. split; cbn [low up]; [|exact Logic.I].
    dval. simpl. lra. }
  destruct M as [_ M]. destruct (up z) as [?|?| |? ? ? ?]; try discriminate E. exact M.
Qed.
Print Assumptions C16_nth_root_infinite_refuted.

(** ** C17: the iteration stops

    One budget suffices for all intervals of a format, valid or not, all
    degrees, policies, evaluation orders and rounding modes: the call returns,
    throws or fails an assertion. *)
Theorem C17_nth_root_terminates : forall p, exists fuel0,
  forall k debug c ord dbg (x : itv (fnum p)) n fuel mode, (1 <= n)%Z -> (fuel0 <= fuel)%nat ->
  fst (nth_root (P_ p k debug c ord) dbg fuel x n mode) <> NoFuel /\
  fst (nth_root (P_ p k debug c ord) dbg fuel x n mode) <> UB.
Proof.
  intros p. exists (root_fuel p). intros k debug c ord dbg x n fuel mode Hn Hf.
  pose proof (nth_root_ends p Save k debug c ord dbg x n fuel Hn Hf mode) as K.
  destruct (fst (nth_root _ dbg fuel x n mode)); simpl in K; try destruct K; split; discriminate.
Qed.
Print Assumptions C17_nth_root_terminates.
(** A larger budget gives the same outcome. *)
Theorem C17_budget_irrelevant : forall p k debug c ord dbg (x : itv (fnum p)) n fuel fuel' mode,
  (fuel <= fuel')%nat -> fst (nth_root (P_ p k debug c ord) dbg fuel x n mode) <> NoFuel ->
  nth_root (P_ p k debug c ord) dbg fuel' x n mode = nth_root (P_ p k debug c ord) dbg fuel x n mode.
Proof.
  intros p k debug c ord dbg x n fuel fuel' mode Hf H.
  destruct (below_nth_root (P_ p k debug c ord) dbg x n fuel fuel' Hf mode) as [E|E]; [contradiction|auto].
Qed.
Print Assumptions C17_budget_irrelevant.
(** The loop started on [1, x]: the interval it returns is a fixed point of the
    step, lies in [1, x] and contains the root. *)
Theorem C17_loop_fixed_point : forall p pr k debug c ord (x : T (fnum p)) n xv,
  (2 * prec (p_T p) + 2 <= emax (p_T p))%Z -> (2 <= n <= 2 ^ prec (p_T p))%Z -> fval x = Fin xv -> 1 < xv ->
  exists (z : itv (fnum p)) l u r fuel0, fval (low z) = Fin l /\ fval (up z) = Fin u /\ 1 <= l /\ u <= xv /\
    l <= r <= u /\ r ^ Z.to_nat n = xv /\
    (exists (tk : T (fnum p)) z', fval tk = Fin (IZR n) /\ fsame z z' /\
       forall mode, k = Std \/ mode = RUP -> exists mode', root_step (fpol p pr k debug c ord) tk x n z mode = (Ok z', mode')) /\
    forall fuel mode, (fuel0 <= fuel)%nat -> k = Std \/ mode = RUP ->
      exists mode', root_aux fuel (fpol p pr k debug c ord) x n mode = (Ok z, mode').
Proof.
  intros p pr k debug c ord x n xv W Hn Ex Hx.
  destruct (root_aux_fix p pr k debug c ord x n xv W Hn Ex ltac:(lra)) as (z & l & u & r & f0 & H1 & H2 & H3 & H4 & H5 & H6 & (z' & Rs & Sz) & Rz).
  exists z, l, u, r, (S f0). do 6 (split; [assumption|]). split.
  { exists (f_of_Z (p_T p) RNE n), z'. split; [apply f_of_Z_exact; lia|]. split; [exact Sz|].
    intros mode Hk. destruct (Rs mode) as (s' & _ & K); [|exists s'; exact K].
    destruct Hk as [->| ->]; [exact Logic.I|]. apply ready_up. reflexivity. }
  intros fuel mode Hf Hk. destruct (Rz fuel ltac:(lia) mode) as (s' & _ & K); [|exists s'; exact K].
  destruct Hk as [->| ->]; [exact Logic.I|]. apply ready_up. reflexivity.
Qed.
Print Assumptions C17_loop_fixed_point.
Example C17_case : run show (root_aux 7 Pdef (dbl 2 0) 2) RUP =
    (Ok (show (mk (dbl 6369051672525772 (-52)) (dbl 6369051672525773 (-52)))), RUP) /\
  run show (root_aux 3 Pdef (dbl 2 0) 2) RUP = (NoFuel, RUP).
Proof. split; vm_compute; reflexivity. Qed.

(** ** C19: results do not depend on the caller's rounding mode

    Every call but nth_root; every program over them is C21_mode_independent. *)
Theorem C19_mode_independent_partial : forall p k debug c ord A (cl : call (p := p) A) mode mode',
  fst (run_call (P_ p k debug c ord) cl mode) = fst (run_call (P_ p k debug c ord) cl mode').
Proof.
  intros p k debug c ord A cl mode mode'. destruct (ag_call_at p debug c Save cl) as (o & G & H).
  rewrite (H k ord mode), (H k ord mode'). reflexivity.
Qed.
Print Assumptions C19_mode_independent_partial.
(** nth_root under rounded_arith_std is independent of the mode too. *)
Theorem C19_nth_root_std_partial : forall p debug c ord dbg (x : itv (fnum p)) n,
  (2 * prec (p_T p) + 2 <= emax (p_T p))%Z -> (1 <= n <= 2 ^ prec (p_T p))%Z ->
  fvalid x -> is_fin (fval (low x)) -> is_fin (fval (up x)) ->
  (~ fmem x 0 -> forall r, fmem x r -> 1 <= Rabs r * largest (p_T p)) ->
  (exists t, real_roots n (fmem x) t) ->
  exists z fuel0, forall fuel mode, (fuel0 <= fuel)%nat ->
    fst (nth_root (P_ p Std debug c ord) dbg fuel x n mode) = Ok z.
Proof.
  intros p debug c ord dbg x n W Hn V Fl Fu HM Ht.
  destruct (C16_nth_root_encloses_partial p Std debug c ord dbg x n W Hn V Fl Fu HM Ht) as (z & f0 & _ & _ & Rz).
  exists z, f0. intros fuel mode Hf. destruct (Rz fuel mode Hf (or_introl eq_refl)) as (m' & ->). reflexivity.
Qed.
Print Assumptions C19_nth_root_std_partial.
(** nth_root(bad_x, 2) under the default policy depends on it. *)
Theorem C19_mode_independent_refuted :
  ~ (forall fuel x n mode mode', fvalid x -> (1 <= n)%Z ->
       fst (nth_root Pdef true fuel x n mode) = fst (nth_root Pdef true fuel x n mode')).
Proof.
  intros H. specialize (H 100%nat bad_x 2%Z RNE RUP ltac:(apply validb_ok; vm_compute; reflexivity) ltac:(lia)).
  apply (f_equal (omap show)) in H.
  assert (E1 : omap show (fst (nth_root Pdef true 100 bad_x 2 RNE)) =
     Ok (SpecFloat.S754_finite false 5764607523034234 (-57), SpecFloat.S754_finite false 5764607523034235 (-57)))
    by (vm_compute; reflexivity).
  assert (E2 : omap show (fst (nth_root Pdef true 100 bad_x 2 RUP)) =
     Ok (SpecFloat.S754_finite false 5764607523034234 (-57), SpecFloat.S754_finite false 5764607523034236 (-57)))
    by (vm_compute; reflexivity).
  rewrite E1, E2 in H. discriminate H.
Qed.
Print Assumptions C19_mode_independent_refuted.
Example C19_case : fst (run show (run_call Pdef (CDiv _ (di 1 2) (di 3 7))) RDN) =
  fst (run show (run_call Pdef (CDiv _ (di 1 2) (di 3 7))) RNE) /\ fvalid bad_x.
Proof. split; [vm_compute; reflexivity|]. apply validb_ok; vm_compute; reflexivity. Qed.

(** * Properties C01-C07, C09-C15: arithmetic

    Every theorem is about the library's default configuration family
    [fpol p Save k debug c ord]: any floating-point platform [p], either
    directed-rounding class [k], assertions on or off, any checking policy [c],
    any evaluation order [ord].  [returns m z] quantifies over the rounding
    mode in force at the call. *)

From Coq Require Import Reals ZArith Lra Lia Bool.
From Flocq Require Import Core BinarySingleNaN.
From Verif Require Import Outcome Base Checking Interval Utility Arith Arith2 FloatNum Spec ExtR Sem
  FloatSpec FloatPol CoreArith CoreDiv CoreMore CoreFun CorePow CoreUtil Inst Witness.
Local Open Scope R_scope.

(** ** C01 *)
Theorem C01_add_tightest : forall p k debug c ord (x y : itv (fnum p)),
  fvalid x -> fvalid y ->
  exists z, returns (op_add (fpol p Save k debug c ord) x y) z /\ fvalid z /\
            ftightest z (image2 Rplus (fmem x) (fmem y)).
Proof.
  intros p k debug c ord x y Hx Hy.
  exact (tight_returns _ _ _ _ _ _ _ (nonempty_image2 _ _ _ (nonempty_mem _ x Hx) (nonempty_mem _ y Hy))
    (op_add_ok (fpolspec p Save k debug c ord) x y Hx Hy)).
Qed.
Print Assumptions C01_add_tightest.
Example C01_case : fvalid (di 1 2) /\ fvalid (mk (dbl 1 (-60)) pinf) /\
  run show (op_add Pdef (di 1 2) (mk (dbl 1 (-60)) pinf)) RZR = (Ok (show (mk (dbl 1 0) pinf)), RZR).
Proof. split; [apply di_valid; lia|]. split; [apply validb_ok; reflexivity|vm_compute; reflexivity]. Qed.

(** ** C02 *)
Theorem C02_sub_tightest : forall p k debug c ord (x y : itv (fnum p)),
  fvalid x -> fvalid y ->
  exists z, returns (op_sub (fpol p Save k debug c ord) x y) z /\ fvalid z /\
            ftightest z (image2 Rminus (fmem x) (fmem y)).
Proof.
  intros p k debug c ord x y Hx Hy.
  exact (tight_returns _ _ _ _ _ _ _ (nonempty_image2 _ _ _ (nonempty_mem _ x Hx) (nonempty_mem _ y Hy))
    (op_sub_ok (fpolspec p Save k debug c ord) x y Hx Hy)).
Qed.
Print Assumptions C02_sub_tightest.
Example C02_case : fvalid (di 1 4) /\ fvalid (di 2 3) /\
  run show (op_sub Pdef (di 1 4) (di 2 3)) RNE = (Ok (show (di (-2) 2)), RNE).
Proof. split; [apply di_valid; lia|]. split; [apply di_valid; lia|vm_compute; reflexivity]. Qed.

(** ** C03 *)
Theorem C03_neg_exact : forall p k debug c ord (x : itv (fnum p)),
  fvalid x ->
  exists z, returns (op_neg (fpol p Save k debug c ord) x) z /\ fvalid z /\
            fdenotes z (image1 Ropp (fmem x)).
Proof.
  intros p k debug c ord x Hx.
  destruct (op_neg_ok (fpolspec p Save k debug c ord) x Hx) as (z & R1 & D & _).
  exact (denotes_returns p k debug c ord _ _ (nonempty_image1 _ _ (nonempty_mem _ x Hx)) (ex_intro _ z (conj R1 D))).
Qed.
Print Assumptions C03_neg_exact.
Example C03_case : fvalid (mk ninf (dbl 3 0)) /\
  run show (op_neg Pdef (mk ninf (dbl 3 0))) RDN = (Ok (show (mk (dbl (-3) 0) pinf)), RDN).
Proof. split; [apply validb_ok; reflexivity|vm_compute; reflexivity]. Qed.

(** ** C04 *)
Theorem C04_mul_tightest : forall p k debug c ord (x y : itv (fnum p)),
  fvalid x -> fvalid y ->
  exists z, returns (op_mul (fpol p Save k debug c ord) x y) z /\ fvalid z /\
            ftightest z (image2 Rmult (fmem x) (fmem y)).
Proof.
  intros p k debug c ord x y Hx Hy.
  exact (tight_returns _ _ _ _ _ _ _ (nonempty_image2 _ _ _ (nonempty_mem _ x Hx) (nonempty_mem _ y Hy))
    (op_mul_ok (fpolspec p Save k debug c ord) x y Hx Hy)).
Qed.
Print Assumptions C04_mul_tightest.
Example C04_case : fvalid (di (-1) 2) /\ fvalid (di (-3) 4) /\ fvalid (mk (dbl 0 0) pinf) /\
  run show (op_mul Pdef (di (-1) 2) (di (-3) 4)) RNE = (Ok (show (di (-6) 8)), RNE) /\
  run show (op_mul Pdef (di 0 0) (mk (dbl 0 0) pinf)) RNE = (Ok (show (di 0 0)), RNE).
Proof.
  split; [apply di_valid; lia|]. split; [apply di_valid; lia|]. split; [apply validb_ok; reflexivity|].
  split; vm_compute; reflexivity.
Qed.

(** ** C05 *)
(** The one family of operands on which operator/ is sound but not tightest. *)
Definition division_loses {p} (x y : itv (fnum p)) : Prop :=
  xlt (fval (low x)) (Fin 0) /\ fval (up x) = Fin 0 /\
  (fval (low y) = Fin 0 \/ fval (up y) = Fin 0).

Theorem C05_div_encloses_partial : forall p k debug c ord (x y : itv (fnum p)),
  fvalid x -> fvalid y -> ~ fdenotes y (point 0) ->
  exists z, returns (op_div (fpol p Save k debug c ord) x y) z /\ fvalid z /\
            fencloses z (quotients (fmem x) (fmem y)) /\
            (~ division_loses x y -> ftightest z (quotients (fmem x) (fmem y))).
Proof.
  intros p k debug c ord x y Hx Hy Hz.
  destruct (op_div_ok (fpolspec p Save k debug c ord) x y Hx Hy (not_zero_set p y Hy Hz) (fun _ => eq_refl))
    as (z & R1 & E & T).
  exists z. split; [exact R1|]. split; [|split; [exact E|exact T]].
  eapply encloses_valid; [|exact E]. apply nonempty_quots; auto. apply nonempty_mem; auto.
Qed.
Print Assumptions C05_div_encloses_partial.
Theorem C05_div_by_zero_empty : forall p k debug c ord (x y : itv (fnum p)),
  fvalid x -> fvalid y -> fdenotes y (point 0) ->
  gives_empty c (op_div (fpol p Save k debug c ord) x y).
Proof.
  intros p k debug c ord x y Hx Hy Hz. apply (zero_set p y Hy) in Hz. destruct Hz as [A B].
  exact (empty_gives p k debug c ord _ (fun o Ho => op_div_zero (fpolspec p Save k debug c ord) x y o Hx Hy A B Ho)).
Qed.
Print Assumptions C05_div_by_zero_empty.
(** The full statement is false: [-1,0] / [0,3] is the whole line although all
    quotients are nonpositive. *)
Theorem C05_div_tightest_refuted : exists (x y z : itv (fnum double_sse)),
  fvalid x /\ fvalid y /\ ~ fdenotes y (point 0) /\
  returns (op_div Pdef x y) z /\ ~ ftightest z (quotients (fmem x) (fmem y)).
Proof.
  destruct (C05_div_encloses_partial double_sse Opp true CkStrict (fun _ => true) (di (-1) 0) (di 0 3))
    as (z & R1 & _); try (apply di_valid; lia).
  { intros D. apply zero_set in D; [|apply di_valid; lia]. destruct D as [_ D].
    cbn [up di] in D. dval_in D. injection D. lra. }
  exists (di (-1) 0), (di 0 3), z.
  split; [apply di_valid; lia|]. split; [apply di_valid; lia|].
  split.
  { intros D. apply zero_set in D; [|apply di_valid; lia]. destruct D as [_ D].
    cbn [up di] in D. dval_in D. injection D. lra. }
  split; [exact R1|]. intros [_ T].
  destruct (T (mk ninf (dbl 0 0))) as [_ U].
  - intros t (r & s & [_ Hr] & [Hs _] & Ns & ->). cbn [low up di] in *.
    dval_in Hr. dval_in Hs. simpl in Hr, Hs. unfold mem. cbn [low up di].
    dval. split; [exact I|]. simpl.
    assert (0 < / s) by (apply Rinv_0_lt_compat; lra). unfold Rdiv. nra.
  - assert (E : run show (op_div Pdef (di (-1) 0) (di 0 3)) RNE = (Ok (show (mk ninf pinf)), RNE))
      by (vm_compute; reflexivity).
    unfold run, Pdef in E. rewrite (R1 RNE) in E. simpl omap in E. injection E as _ EU.
    assert (up z = pinf) as EP by (apply B2SF_inj; exact EU).
    rewrite EP in U. cbn [up] in U. dval_in U. exact U.
Qed.
Print Assumptions C05_div_tightest_refuted.
Example C05_case : fvalid (di 1 2) /\ fvalid (di (-3) 0) /\ ~ division_loses (di 1 2) (di (-3) 0) /\
  run show (op_div Pdef (di 6 12) (di (-3) 0)) RNE = (Ok (show (mk ninf (dbl (-2) 0))), RNE) /\
  run show (op_div Pdef (di 6 12) (di 0 0)) RNE = (Throw EmptyCreated, RNE) /\
  run show (op_div Pbase (di 6 12) (di 0 0)) RNE = (Ok (show (mk dnan dnan)), RNE).
Proof.
  split; [apply di_valid; lia|]. split; [apply di_valid; lia|]. split.
  { intros (K & _). cbn [low di] in K. dval_in K. simpl in K. lra. }
  split; [vm_compute; reflexivity|]. split; vm_compute; reflexivity.
Qed.

(** ** C06 *)
Theorem C06_two_part_division : forall p k debug c ord (x y : itv (fnum p)),
  fvalid x -> fvalid y -> ~ fdenotes y (point 0) ->
  let P := fpol p Save k debug c ord in
  let Q := quotients (fmem x) (fmem y) in
  exists z1 b, returns (division_part1 P x y) (z1, b) /\
    if b then exists z2, returns (division_part2 P x y b) z2 /\
        ftightest z1 (fun t => Q t /\ t <= 0) /\
        ftightest z2 (fun t => Q t /\ 0 <= t)
    else fencloses z1 Q /\ (~ division_loses x y -> ftightest z1 Q) /\
         gives_empty c (division_part2 P x y b).
Proof.
  intros p k debug c ord x y Hx Hy Hz P Q.
  destruct (division_part1_ok (fpolspec p Save k debug c ord) x y Hx Hy (not_zero_set p y Hy Hz) (fun _ => eq_refl))
    as ([z1 b] & R1 & T).
  exists z1, b. split; [exact R1|]. destruct b.
  - destruct T as (z2 & R2 & T1 & T2). exists z2. split; [exact R2|]. split; [exact T1|exact T2].
  - destruct T as (E & T). split; [exact E|]. split; [exact T|].
    exact (empty_gives p k debug c ord _ (fun o Ho => division_part2_false x y o Ho)).
Qed.
Print Assumptions C06_two_part_division.
(** When there is a second part the two parts lie on either side of zero. *)
Theorem C06_parts_sides : forall p k debug c ord (x y : itv (fnum p)) z1 z2,
  fvalid x -> fvalid y -> ~ fdenotes y (point 0) ->
  let P := fpol p Save k debug c ord in
  returns (division_part1 P x y) (z1, true) -> returns (division_part2 P x y true) z2 ->
  (forall t, fmem z1 t -> t <= 0) /\ (forall t, fmem z2 t -> 0 <= t) /\
  (forall t, quotients (fmem x) (fmem y) t -> fmem z1 t \/ fmem z2 t).
Proof.
  intros p k debug c ord x y z1 z2 Hx Hy Hz P E1 E2.
  destruct (C06_two_part_division p k debug c ord x y Hx Hy Hz) as (z1' & b & R1 & T).
  assert (EE : (z1', b) = (z1, true)).
  { pose proof (R1 RNE) as A. rewrite E1 in A. congruence. }
  injection EE as -> ->. destruct T as (z2' & R2 & T1 & T2).
  assert (z2' = z2) as -> by (pose proof (R2 RNE) as A; rewrite E2 in A; congruence).
  pose proof (f_of_Z_exact (p_T p) RNE 0) as Z0. 
  assert (B0 : (Z.abs 0 <= 2 ^ prec (p_T p))%Z) by (pose proof (pow_prec_ge (p_T p)); lia). specialize (Z0 B0).
  split; [|split].
  - intros t [_ Ht]. destruct T1 as [_ T1].
    destruct (T1 (mk (B754_infinity true : T (fnum p)) (f_of_Z (p_T p) RNE 0))) as [_ U].
    { intros r [_ Hr]. split; cbn [low up]; rewrite ?Z0; simpl; auto. }
    cbn [up] in U. rewrite Z0 in U. pose proof (xle_trans _ _ _ Ht U) as K. exact K.
  - intros t [Ht _]. destruct T2 as [_ T2].
    destruct (T2 (mk (f_of_Z (p_T p) RNE 0 : T (fnum p)) (B754_infinity false))) as [L _].
    { intros r [_ Hr]. split; cbn [low up]; rewrite ?Z0; simpl; auto. }
    cbn [low] in L. rewrite Z0 in L. pose proof (xle_trans _ _ _ L Ht) as K. exact K.
  - intros t Ht. destruct (Rle_or_lt t 0); [left; apply T1|right; apply T2]; split; auto; lra.
Qed.
Print Assumptions C06_parts_sides.
Example C06_case : fvalid (di 6 12) /\ fvalid (di (-2) 3) /\
  run (fun zb => (show (fst zb), snd zb)) (division_part1 Pdef (di 6 12) (di (-2) 3)) RNE
    = (Ok (show (mk ninf (dbl (-3) 0)), true), RNE) /\
  run show (division_part2 Pdef (di 6 12) (di (-2) 3) true) RNE = (Ok (show (mk (dbl 2 0) pinf)), RNE).
Proof. split; [apply di_valid; lia|]. split; [apply di_valid; lia|]. split; vm_compute; reflexivity. Qed.

(** ** C09 *)
Theorem C09_square_tightest : forall p k debug c ord (x : itv (fnum p)),
  fvalid x ->
  exists z, returns (square (fpol p Save k debug c ord) x) z /\ fvalid z /\
            ftightest z (image1 (fun r => r * r) (fmem x)).
Proof.
  intros p k debug c ord x Hx.
  exact (tight_returns _ _ _ _ _ _ _ (nonempty_image1 _ _ (nonempty_mem _ x Hx))
    (square_ok (fpolspec p Save k debug c ord) x Hx)).
Qed.
Print Assumptions C09_square_tightest.
Theorem C09_square_refines_product : forall p k debug c ord (x : itv (fnum p)),
  fvalid x ->
  exists z w, returns (square (fpol p Save k debug c ord) x) z /\
              returns (op_mul (fpol p Save k debug c ord) x x) w /\
              forall r, fmem z r -> fmem w r.
Proof.
  intros p k debug c ord x Hx.
  destruct (C09_square_tightest p k debug c ord x Hx) as (z & R1 & _ & T1).
  destruct (C04_mul_tightest p k debug c ord x x Hx Hx) as (w & R2 & _ & T2).
  exists z, w. split; [exact R1|]. split; [exact R2|].
  eapply tight_mono; [exact T1|exact (proj1 T2)|]. intros t (r & Hr & ->). exists r, r. auto.
Qed.
Print Assumptions C09_square_refines_product.
Example C09_case : fvalid (di (-3) 2) /\
  run show (square Pdef (di (-3) 2)) RUP = (Ok (show (di 0 9)), RUP) /\
  run show (op_mul Pdef (di (-3) 2) (di (-3) 2)) RUP = (Ok (show (di (-6) 9)), RUP).
Proof. split; [apply di_valid; lia|]. split; vm_compute; reflexivity. Qed.

(** ** C10 *)
Theorem C10_pow_positive_encloses : forall p k debug c ord (x : itv (fnum p)) n,
  fvalid x -> (0 < n)%Z ->
  exists z, returns (Arith2.pow (fpol p Save k debug c ord) x n) z /\ fvalid z /\
            fencloses z (image1 (fun r => r ^ Z.to_nat n) (fmem x)) /\
            (Z.even n = true -> forall t, fmem z t -> 0 <= t).
Proof.
  intros p k debug c ord x n Hx Hn.
  destruct (pow_positive_ok (fpolspec p Save k debug c ord) x n Hn Hx) as (z & R1 & E & O).
  exists z. split; [exact R1|]. split; [|split; [exact E|]].
  - eapply encloses_valid; [|exact E]. apply nonempty_image1, nonempty_mem; auto.
  - intros Ev t [Ht _]. rewrite Z.negb_odd in * || idtac. 
    assert (Od : Z.odd n = false) by (rewrite <- Z.negb_even, Ev; reflexivity).
    pose proof (xle_trans _ _ _ (O Od) Ht) as K. exact K.
Qed.
Print Assumptions C10_pow_positive_encloses.
Theorem C10_pow_negative_encloses : forall p k debug c ord (x : itv (fnum p)) n,
  fvalid x -> ~ fdenotes x (point 0) -> (int_min < n < 0)%Z ->
  exists z, returns (Arith2.pow (fpol p Save k debug c ord) x n) z /\ fvalid z /\
            fencloses z (fun t => exists r, fmem x r /\ r <> 0 /\ t = / r ^ Z.to_nat (- n)) /\
            (Z.even n = true -> forall t, fmem z t -> 0 <= t).
Proof.
  intros p k debug c ord x n Hx Hz Hn.
  destruct (pow_negative_ok (fpolspec p Save k debug c ord) x n Hn Hx (not_zero_set p x Hx Hz) eq_refl)
    as (z & R1 & E & O).
  exists z. split; [exact R1|]. split; [|split; [exact E|]].
  - eapply encloses_valid; [|exact E]. destruct (nonzero_member p x Hx Hz) as (r & Hr & Nr).
    exists (/ r ^ Z.to_nat (- n)), r. auto.
  - intros Ev t [Ht _].
    assert (Od : Z.odd n = false) by (rewrite <- Z.negb_even, Ev; reflexivity).
    pose proof (xle_trans _ _ _ (O Od) Ht) as K. exact K.
Qed.
Print Assumptions C10_pow_negative_encloses.
Theorem C10_pow_negative_zero_empty : forall p k debug c ord (x : itv (fnum p)) n,
  fvalid x -> fdenotes x (point 0) -> (int_min < n < 0)%Z ->
  gives_empty c (Arith2.pow (fpol p Save k debug c ord) x n).
Proof.
  intros p k debug c ord x n Hx Hz Hn. apply (zero_set p x Hx) in Hz. destruct Hz as [A B].
  exact (empty_gives p k debug c ord _
    (fun o Ho => pow_negative_zero (fpolspec p Save k debug c ord) x n o Hn Hx A B Ho eq_refl)).
Qed.
Print Assumptions C10_pow_negative_zero_empty.
Example C10_case : fvalid (di (-3) 2) /\ ~ fdenotes (di 2 4) (point 0) /\
  run show (Arith2.pow Pdef (di (-3) 2) 4) RNE = (Ok (show (di 0 81)), RNE) /\
  run show (Arith2.pow Pdef (di (-3) 2) 3) RNE = (Ok (show (di (-27) 8)), RNE) /\
  run show (Arith2.pow Pdef (di 2 4) (-1)) RNE = (Ok (show (mk (dbl 1 (-2)) (dbl 1 (-1)))), RNE).
Proof.
  split; [apply di_valid; lia|]. split.
  { intros D. apply zero_set in D; [|apply di_valid; lia]. destruct D as [D _].
    cbn [low di] in D. dval_in D. injection D. lra. }
  split; [vm_compute; reflexivity|]. split; vm_compute; reflexivity.
Qed.

(** ** C11 *)
Theorem C11_pow_zero_is_one_partial : forall p k debug c ord (x : itv (fnum p)),
  fvalid x -> ~ fdenotes x (point 0) ->
  exists z, returns (Arith2.pow (fpol p Save k debug c ord) x 0) z /\ fdenotes z (point 1).
Proof.
  intros p k debug c ord x Hx Hz.
  destruct (pow_zero_ok (fpolspec p Save k debug c ord) x Hx (not_zero_set p x Hx Hz)) as (z & R1 & A & B).
  exists z. split; [exact R1|]. intros r. unfold fmem, mem. rewrite A, B. simpl. unfold point. lra.
Qed.
Print Assumptions C11_pow_zero_is_one_partial.
(** The documented claim "for every non-empty x, even if x contains 0" is false:
    for [0,0] the result is empty or an exception, under every policy. *)
Theorem C11_pow_zero_is_one_refuted : forall p k debug c ord (x : itv (fnum p)),
  fvalid x -> fdenotes x (point 0) ->
  gives_empty c (Arith2.pow (fpol p Save k debug c ord) x 0).
Proof.
  intros p k debug c ord x Hx Hz. apply (zero_set p x Hx) in Hz. destruct Hz as [A B].
  exact (empty_gives p k debug c ord _
    (fun o Ho => pow_zero_zero (fpolspec p Save k debug c ord) x o Hx A B Ho)).
Qed.
Print Assumptions C11_pow_zero_is_one_refuted.
Example C11_case : fvalid (di (-1) 2) /\ fvalid (di 0 0) /\
  run show (Arith2.pow Pdef (di (-1) 2) 0) RNE = (Ok (show (di 1 1)), RNE) /\
  run show (Arith2.pow Pdef (di 0 0) 0) RNE = (Throw EmptyCreated, RNE).
Proof. split; [apply di_valid; lia|]. split; [apply di_valid; lia|]. split; vm_compute; reflexivity. Qed.

(** ** C12 *)
Theorem C12_pow_total_partial : forall p k debug c ord (x : itv (fnum p)) n mode,
  fvalid x -> (int_min < n <= int_max)%Z ->
  (exists z, Arith2.pow (fpol p Save k debug c ord) x n mode = (Ok z, mode)) \/
  Arith2.pow (fpol p Save k debug c ord) x n mode = (Throw EmptyCreated, mode).
Proof.
  intros p k debug c ord x n mode Hx Hn.
  assert (GE : forall m, gives_empty c m -> (exists z : itv (fnum p), m mode = (Ok z, mode)) \/ m mode = (Throw EmptyCreated, mode)).
  { intros m. unfold gives_empty. destruct (allows_empty c).
    - intros (z & Rz & _). left. exists z. apply Rz.
    - intros T. right. apply T. }
  assert (D : fdenotes x (point 0) \/ ~ fdenotes x (point 0)).
  { destruct (fval_cases (low x)) as [[E _]|[[E _]|[[E _]|[E _]]]];
    destruct (fval_cases (up x)) as [[E' _]|[[E' _]|[[E' _]|[E' _]]]];
    rewrite (zero_set p x Hx), E, E'; try (right; intros [A B]; discriminate).
    destruct (Req_dec (B2R (low x : flt (p_T p))) 0) as [->|A]; [|right; intros [K _]; congruence].
    destruct (Req_dec (B2R (up x : flt (p_T p))) 0) as [->|B]; [|right; intros [_ K]; congruence].
    left; auto. }
  destruct (Z.eq_dec n 0) as [->|N0]; [|destruct (Z_lt_le_dec n 0)].
  - destruct D as [D|D].
    + apply GE. apply C11_pow_zero_is_one_refuted; auto.
    + left. destruct (C11_pow_zero_is_one_partial p k debug c ord x Hx D) as (z & Rz & _). exists z. apply Rz.
  - destruct D as [D|D].
    + apply GE. apply C10_pow_negative_zero_empty; auto. lia.
    + left. destruct (C10_pow_negative_encloses p k debug c ord x n Hx D) as (z & Rz & _); [lia|]. exists z. apply Rz.
  - left. destruct (C10_pow_positive_encloses p k debug c ord x n Hx) as (z & Rz & _); [lia|]. exists z. apply Rz.
Qed.
Print Assumptions C12_pow_total_partial.
Theorem C12_pow_total_refuted : forall p k debug c ord (x : itv (fnum p)) mode,
  fvalid x -> Arith2.pow (fpol p Save k debug c ord) x int_min mode = (UB, mode).
Proof.
  intros p k debug c ord x mode Hx. unfold Arith2.pow.
  rewrite (test_valid (fpolspec p Save k debug c ord) x Hx). reflexivity.
Qed.
Print Assumptions C12_pow_total_refuted.
Example C12_case : fvalid (di 2 3) /\ (int_min < int_max <= int_max)%Z /\
  fst (run show (Arith2.pow Pdef (di 2 3) int_min) RNE) = UB.
Proof. split; [apply di_valid; lia|]. split; [unfold int_min, int_max; lia|]. vm_compute; reflexivity. Qed.

(** ** C13 *)
Theorem C13_sqrt_tightest : forall p k debug c ord (x : itv (fnum p)),
  fvalid x -> (exists r, fmem x r /\ 0 <= r) ->
  exists z, returns (i_sqrt (fpol p Save k debug c ord) x) z /\ fvalid z /\
            ftightest z (fun t => exists r, fmem x r /\ 0 <= r /\ t = sqrt r).
Proof.
  intros p k debug c ord x Hx (r & Hr & Pr).
  assert (U : xle (Fin 0) (fval (up x))) by (eapply xle_trans; [|exact (proj2 Hr)]; exact Pr).
  assert (NE : nonempty (fun t => exists r, fmem x r /\ 0 <= r /\ t = sqrt r)) by (exists (sqrt r), r; auto).
  exact (tight_returns _ _ _ _ _ _ _ NE (sqrt_ok (fpolspec p Save k debug c ord) (fsqrtspec p k) x Hx U)).
Qed.
Print Assumptions C13_sqrt_tightest.
Theorem C13_sqrt_negative_empty : forall p k debug c ord (x : itv (fnum p)),
  fvalid x -> (forall r, fmem x r -> r < 0) ->
  gives_empty c (i_sqrt (fpol p Save k debug c ord) x).
Proof.
  intros p k debug c ord x Hx Neg.
  assert (U : xlt (fval (up x)) (Fin 0)).
  { destruct Hx as (A & B & C). destruct (fval (up x)) as [| |u|] eqn:EU; simpl; try tauto.
    - destruct (fval (low x)); simpl in A; tauto.
    - apply Neg. split; [|rewrite EU; simpl; lra]. destruct (fval (low x)); simpl in *; auto.
    - destruct (fval (low x)) as [| |l|] eqn:EL; simpl in *; try tauto.
      + assert (0 < 0); [|lra]. apply Neg. split; rewrite ?EL, ?EU; simpl; auto.
      + assert (Rmax l 0 < 0); [|pose proof (Rmax_r l 0); lra].
        apply Neg. split; rewrite ?EL, ?EU; simpl; auto. apply Rmax_l. }
  exact (empty_gives p k debug c ord _ (fun o Ho => sqrt_neg (fpolspec p Save k debug c ord) x o Hx U Ho)).
Qed.
Print Assumptions C13_sqrt_negative_empty.
Example C13_case : fvalid (di (-1) 9) /\ (exists r, fmem (di (-1) 9) r /\ 0 <= r) /\
  run show (i_sqrt Pdef (di (-1) 9)) RUP = (Ok (show (di 0 3)), RUP) /\
  run show (i_sqrt Pdef (di (-2) (-1))) RUP = (Throw EmptyCreated, RUP).
Proof.
  split; [apply di_valid; lia|]. split.
  { exists 0. split; [|lra]. split; cbn [low up di]; dval; simpl; lra. }
  split; vm_compute; reflexivity.
Qed.

(** ** C14 *)
Theorem C14_inverse_tightest : forall p k debug c ord (x : itv (fnum p)),
  fvalid x -> ~ fdenotes x (point 0) ->
  exists z, returns (multiplicative_inverse (fpol p Save k debug c ord) x) z /\ fvalid z /\
            ftightest z (fun t => exists r, fmem x r /\ r <> 0 /\ t = 1 / r).
Proof.
  intros p k debug c ord x Hx Hz.
  destruct (nonzero_member p x Hx Hz) as (r & Hr & Nr).
  apply tight_returns with k debug c ord; [exists (1 / r), r; auto|].
  destruct (inverse_ok (fpolspec p Save k debug c ord) x Hx (not_zero_set p x Hx Hz) (fun _ => eq_refl))
    as (z & R1 & T).
  exists z. split; [exact R1|]. eapply tightest_ext; [|exact T]. intros t. split.
  - intros (a & s & -> & Hs & Ns & ->). exists s. auto.
  - intros (s & Hs & Ns & ->). exists 1, s. split; [reflexivity|]. auto.
Qed.
Print Assumptions C14_inverse_tightest.
Theorem C14_inverse_zero_empty : forall p k debug c ord (x : itv (fnum p)),
  fvalid x -> fdenotes x (point 0) ->
  gives_empty c (multiplicative_inverse (fpol p Save k debug c ord) x).
Proof.
  intros p k debug c ord x Hx Hz. apply (zero_set p x Hx) in Hz. destruct Hz as [A B].
  exact (empty_gives p k debug c ord _
    (fun o Ho => inverse_zero (fpolspec p Save k debug c ord) x o Hx A B Ho)).
Qed.
Print Assumptions C14_inverse_zero_empty.
Example C14_case : fvalid (di (-4) 0) /\ ~ fdenotes (di (-4) 0) (point 0) /\
  run show (multiplicative_inverse Pdef (di (-4) 0)) RNE = (Ok (show (mk ninf (dbl (-1) (-2)))), RNE).
Proof.
  split; [apply di_valid; lia|]. split; [|vm_compute; reflexivity].
  intros D. apply zero_set in D; [|apply di_valid; lia]. destruct D as [D _].
  cbn [low di] in D. dval_in D. injection D. lra.
Qed.

(** ** C15 *)
Theorem C15_abs_exact : forall p k debug c ord (x : itv (fnum p)),
  fvalid x ->
  exists z, returns (u_abs (fpol p Save k debug c ord) x) z /\ fvalid z /\
            fdenotes z (image1 Rabs (fmem x)).
Proof.
  intros p k debug c ord x Hx.
  exact (denotes_returns _ _ _ _ _ _ _ (nonempty_image1 _ _ (nonempty_mem _ x Hx))
    (abs_ok (fpolspec p Save k debug c ord) x Hx)).
Qed.
Print Assumptions C15_abs_exact.
Theorem C15_max_exact : forall p k debug c ord (x y : itv (fnum p)),
  fvalid x -> fvalid y ->
  exists z, returns (u_max (fpol p Save k debug c ord) x y) z /\ fvalid z /\
            fdenotes z (image2 Rmax (fmem x) (fmem y)).
Proof.
  intros p k debug c ord x y Hx Hy.
  exact (denotes_returns _ _ _ _ _ _ _ (nonempty_image2 _ _ _ (nonempty_mem _ x Hx) (nonempty_mem _ y Hy))
    (u_max_ok (fpolspec p Save k debug c ord) x y Hx Hy)).
Qed.
Print Assumptions C15_max_exact.
Theorem C15_min_exact : forall p k debug c ord (x y : itv (fnum p)),
  fvalid x -> fvalid y ->
  exists z, returns (u_min (fpol p Save k debug c ord) x y) z /\ fvalid z /\
            fdenotes z (image2 Rmin (fmem x) (fmem y)).
Proof.
  intros p k debug c ord x y Hx Hy.
  exact (denotes_returns _ _ _ _ _ _ _ (nonempty_image2 _ _ _ (nonempty_mem _ x Hx) (nonempty_mem _ y Hy))
    (u_min_ok (fpolspec p Save k debug c ord) x y Hx Hy)).
Qed.
Print Assumptions C15_min_exact.
Theorem C15_norm_least_upper_bound : forall p k debug c ord (x : itv (fnum p)),
  fvalid x ->
  exists t : T (fnum p), returns (norm (fpol p Save k debug c ord) x) t /\
    (forall r, fmem x r -> xle (Fin (Rabs r)) (fval t)) /\
    (forall e, (forall r, fmem x r -> xle (Fin (Rabs r)) e) -> xle (fval t) e).
Proof.
  intros p k debug c ord x Hx.
  destruct (norm_ok (fpolspec p Save k debug c ord) x Hx) as (t & R1 & U & L).
  exists t. split; [exact R1|]. split.
  - intros r Hr. apply U. exists r. auto.
  - intros e He. apply L. intros s (r & Hr & ->). apply He, Hr.
Qed.
Print Assumptions C15_norm_least_upper_bound.
Example C15_case : fvalid (di (-3) 2) /\ fvalid (di (-1) 5) /\
  run show (u_abs Pdef (di (-3) 2)) RNE = (Ok (show (di 0 3)), RNE) /\
  run show (u_max Pdef (di (-3) 2) (di (-1) 5)) RNE = (Ok (show (di (-1) 5)), RNE) /\
  run show (u_min Pdef (di (-3) 2) (di (-1) 5)) RNE = (Ok (show (di (-3) 2)), RNE) /\
  run B2SF (norm Pdef (di (-3) 2)) RNE = (Ok (B2SF (dbl 3 0)), RNE).
Proof.
  split; [apply di_valid; lia|]. split; [apply di_valid; lia|].
  split; [vm_compute; reflexivity|]. split; [vm_compute; reflexivity|]. split; vm_compute; reflexivity.
Qed.

(** * Properties C07, C32, C33, C36, C49, C52: mixed operands, sets, width *)

From Coq Require Import Reals ZArith Lra Lia Bool.
From Flocq Require Import Core BinarySingleNaN.
From Verif Require Import Outcome Base Checking Interval Utility Arith Arith2 FloatNum Spec ExtR Sem
  FloatSpec FloatPol CoreArith CoreDiv CoreMore CoreFun CorePow CoreUtil Inst Witness.
Local Open Scope R_scope.

Notation P_ p k debug c ord := (fpol p Save k debug c ord).

(** ** C07: a number operand acts as the interval [v,v] *)
Theorem C07_add : forall p k debug c ord (v : T (fnum p)) (y : itv (fnum p)) r,
  fval v = Fin r -> fvalid y ->
  exists z z1 z2, returns (op_add (P_ p k debug c ord) (mk v v) y) z /\
    returns (op_add_ni (P_ p k debug c ord) v y) z1 /\ fsame z1 z /\
    returns (op_add_in (P_ p k debug c ord) y v) z2 /\ fsame z2 z.
Proof.
  intros p k debug c ord v y r E Hy. pose proof (fpolspec p Save k debug c ord) as H.
  destruct (op_add_ok H (mk v v) y (valid_point v r E) Hy) as (z & R0 & T0).
  destruct (op_add_ni_ok H v r y E Hy) as (z1 & R1 & T1).
  destruct (op_add_in_ok H y v r E Hy) as (z2 & R2 & T2).
  exists z, z1, z2. split; [exact R0|]. split; [exact R1|]. split; [|split; [exact R2|]].
  - eapply tightest_unique; [exact T1|]. eapply tightest_ext; [|exact T0].
    apply (image2_point_l Rplus v r _ E).
  - eapply tightest_unique; [exact T2|]. eapply tightest_ext; [|exact T0].
    intros t. rewrite (image2_point_l Rplus v r _ E).
    split; intros (s & Hs & ->); exists s; split; auto; lra.
Qed.
Print Assumptions C07_add.
Theorem C07_sub : forall p k debug c ord (v : T (fnum p)) (y : itv (fnum p)) r,
  fval v = Fin r -> fvalid y ->
  exists z z' w w', returns (op_sub (P_ p k debug c ord) (mk v v) y) z /\
    returns (op_sub_ni (P_ p k debug c ord) v y) z' /\ fsame z' z /\
    returns (op_sub (P_ p k debug c ord) y (mk v v)) w /\
    returns (op_sub_in (P_ p k debug c ord) y v) w' /\ fsame w' w.
Proof.
  intros p k debug c ord v y r E Hy. pose proof (fpolspec p Save k debug c ord) as H.
  destruct (op_sub_ok H (mk v v) y (valid_point v r E) Hy) as (z & R0 & T0).
  destruct (op_sub_ni_ok H v r y E Hy) as (z1 & R1 & T1).
  destruct (op_sub_ok H y (mk v v) Hy (valid_point v r E)) as (w & R2 & T2).
  destruct (op_sub_in_ok H y v r E Hy) as (w1 & R3 & T3).
  exists z, z1, w, w1. split; [exact R0|]. split; [exact R1|]. split; [|split; [exact R2|split; [exact R3|]]].
  - eapply tightest_unique; [exact T1|]. eapply tightest_ext; [|exact T0].
    apply (image2_point_l Rminus v r _ E).
  - eapply tightest_unique; [exact T3|]. eapply tightest_ext; [|exact T2].
    apply (image2_point_r Rminus v r _ E).
Qed.
Print Assumptions C07_sub.
Theorem C07_mul : forall p k debug c ord (v : T (fnum p)) (y : itv (fnum p)) r,
  fval v = Fin r -> fvalid y ->
  exists z z1 z2, returns (op_mul (P_ p k debug c ord) (mk v v) y) z /\
    returns (op_mul_ni (P_ p k debug c ord) v y) z1 /\ fsame z1 z /\
    returns (op_mul_in (P_ p k debug c ord) y v) z2 /\ fsame z2 z.
Proof.
  intros p k debug c ord v y r E Hy. pose proof (fpolspec p Save k debug c ord) as H.
  destruct (op_mul_ok H (mk v v) y (valid_point v r E) Hy) as (z & R0 & T0).
  destruct (op_mul_ni_ok H v r y E Hy) as (z1 & R1 & T1).
  destruct (op_mul_in_ok H y v r E Hy) as (z2 & R2 & T2).
  exists z, z1, z2. split; [exact R0|]. split; [exact R1|]. split; [|split; [exact R2|]].
  - eapply tightest_unique; [exact T1|]. eapply tightest_ext; [|exact T0].
    apply (image2_point_l Rmult v r _ E).
  - eapply tightest_unique; [exact T2|]. eapply tightest_ext; [|exact T0].
    intros t. rewrite (image2_point_l Rmult v r _ E).
    split; intros (s & Hs & ->); exists s; split; auto; lra.
Qed.
Print Assumptions C07_mul.
Theorem C07_div : forall p k debug c ord (v : T (fnum p)) (y : itv (fnum p)) r,
  fval v = Fin r -> fvalid y ->
  (* number / interval *)
  (~ fdenotes y (point 0) ->
   exists z z', returns (op_div (P_ p k debug c ord) (mk v v) y) z /\
     returns (op_div_ni (P_ p k debug c ord) v y) z' /\ fsame z' z) /\
  (fdenotes y (point 0) ->
     gives_empty c (op_div (P_ p k debug c ord) (mk v v) y) /\
     gives_empty c (op_div_ni (P_ p k debug c ord) v y)) /\
  (* interval / number *)
  (r <> 0 ->
   exists z z', returns (op_div (P_ p k debug c ord) y (mk v v)) z /\
     returns (op_div_in (P_ p k debug c ord) y v) z' /\ fsame z' z) /\
  (r = 0 ->
     gives_empty c (op_div (P_ p k debug c ord) y (mk v v)) /\
     gives_empty c (op_div_in (P_ p k debug c ord) y v)).
Proof.
  intros p k debug c ord v y r E Hy. pose proof (fpolspec p Save k debug c ord) as H.
  pose proof (valid_point v r E) as Hv.
  split; [|split; [|split]].
  - intros Nz. pose proof (not_zero_set p y Hy Nz) as G.
    destruct (op_div_ok H (mk v v) y Hv Hy G (fun _ => eq_refl)) as (z & R0 & _ & T0).
    destruct (op_div_ni_ok H v r y E Hy G (fun _ => eq_refl)) as (z1 & R1 & T1).
    exists z, z1. split; [exact R0|]. split; [exact R1|].
    eapply tightest_unique; [exact T1|]. eapply tightest_ext; [|apply T0].
    + intros t. split; intros (a & s & Ha & B); exists a, s; (split; [|exact B]); apply (mem_point v r E); auto.
    + cbn [low up]. intros (K & K2 & _). rewrite K2 in K. simpl in K. lra.
  - intros Z. apply (zero_set p y Hy) in Z. destruct Z as [Z1 Z2]. split; apply (empty_gives p k debug c ord).
    + intros o Ho. exact (op_div_zero H (mk v v) y o Hv Hy Z1 Z2 Ho).
    + intros o Ho. exact (op_div_ni_zero H v r y o E Hy Z1 Z2 Ho).
  - intros Nr.
    assert (G : ~ (fval (low (mk v v)) = Fin 0 /\ fval (up (mk v v)) = Fin 0)).
    { cbn [low up]. rewrite E. intros [K _]. congruence. }
    destruct (op_div_ok H y (mk v v) Hy Hv G (fun _ => eq_refl)) as (z & R0 & _ & T0).
    destruct (op_div_in_ok H y v r E Nr Hy) as (z1 & R1 & T1).
    exists z, z1. split; [exact R0|]. split; [exact R1|].
    eapply tightest_unique; [exact T1|]. eapply tightest_ext; [|apply T0].
    + intros t. split.
      * intros (a & s & Ha & Hs & _ & ->). apply (mem_point v r E) in Hs. subst. exists a. auto.
      * intros (a & Ha & ->). exists a, r. split; auto. split; [apply (mem_point v r E)|]; auto.
    + cbn [low up] in *. rewrite E in *. intros (_ & _ & K). destruct K; congruence.
  - intros ->. split; apply (empty_gives p k debug c ord).
    + intros o Ho. exact (op_div_zero H y (mk v v) o Hy Hv E E Ho).
    + intros o Ho. exact (op_div_in_zero H y v o E Hy Ho).
Qed.
Print Assumptions C07_div.
Theorem C07_max_min_hull : forall p k debug c ord (v : T (fnum p)) (y : itv (fnum p)) r,
  fval v = Fin r -> fvalid y ->
  let P := P_ p k debug c ord in
  (exists z z1 z2, returns (u_max P (mk v v) y) z /\
     returns (u_max_ni P v y) z1 /\ fsame z1 z /\ returns (u_max_in P y v) z2 /\ fsame z2 z) /\
  (exists z z1 z2, returns (u_min P (mk v v) y) z /\
     returns (u_min_ni P v y) z1 /\ fsame z1 z /\ returns (u_min_in P y v) z2 /\ fsame z2 z) /\
  (exists z z1 z2, returns (hull P (mk v v) y) z /\
     returns (hull_ni P v y) z1 /\ fsame z1 z /\ returns (hull_in P y v) z2 /\ fsame z2 z).
Proof.
  intros p k debug c ord v y r E Hy P. pose proof (fpolspec p Save k debug c ord) as H.
  pose proof (valid_point v r E) as Hv.
  assert (DS : forall z z' S S', fvalid y -> nonempty S -> denotes (N := fnum p) fval z' S' -> denotes (N := fnum p) fval z S ->
     (forall t, S' t <-> S t) -> fsame z' z).
  { intros z z' S S' _ NE D' D EQ. destruct NE as (t & Ht).
    assert (V1 : fvalid z) by (apply (mem_valid _ _ t), D; auto).
    assert (V2 : fvalid z') by (apply (mem_valid _ _ t), D', EQ; auto).
    apply (same_sets z' z V2 V1). intros s. rewrite (D s), (D' s). apply EQ. }
  split; [|split].
  - destruct (u_max_ok H (mk v v) y Hv Hy) as (z & R0 & D0).
    destruct (u_max_ni_ok H y v r E Hy) as (z1 & R1 & D1).
    destruct (u_max_in_ok H y v r E Hy) as (z2 & R2 & D2).
    exists z, z1, z2. split; [exact R0|]. split; [exact R1|]. split; [|split; [exact R2|]].
    + eapply DS; eauto. { apply nonempty_image2; apply nonempty_mem; auto. }
      intros t. symmetry. apply (image2_point_l Rmax v r _ E).
    + eapply DS; eauto. { apply nonempty_image2; apply nonempty_mem; auto. }
      intros t. rewrite (image2_point_l Rmax v r _ E).
      split; intros (s & Hs & ->); exists s; split; auto; apply Rmax_comm.
  - destruct (u_min_ok H (mk v v) y Hv Hy) as (z & R0 & D0).
    destruct (u_min_ni_ok H y v r E Hy) as (z1 & R1 & D1).
    destruct (u_min_in_ok H y v r E Hy) as (z2 & R2 & D2).
    exists z, z1, z2. split; [exact R0|]. split; [exact R1|]. split; [|split; [exact R2|]].
    + eapply DS; eauto. { apply nonempty_image2; apply nonempty_mem; auto. }
      intros t. symmetry. apply (image2_point_l Rmin v r _ E).
    + eapply DS; eauto. { apply nonempty_image2; apply nonempty_mem; auto. }
      intros t. rewrite (image2_point_l Rmin v r _ E).
      split; intros (s & Hs & ->); exists s; split; auto; apply Rmin_comm.
  - destruct (hull_ok H (mk v v) y Hv Hy) as (z & R0 & D0).
    destruct (hull_ni_ok H y v r Hy E) as (z1 & R1 & D1).
    destruct (hull_in_ok H y v r Hy E) as (z2 & R2 & D2).
    exists z, z1, z2. split; [exact R0|]. split; [exact R1|]. split; [|split; [exact R2|]].
    + eapply tightest_unique; [exact D1|]. eapply tightest_ext; [|exact D0].
      intros t. simpl. rewrite (mem_point v r E). tauto.
    + eapply tightest_unique; [exact D2|]. eapply tightest_ext; [|exact D0].
      intros t. simpl. rewrite (mem_point v r E). tauto.
Qed.
Print Assumptions C07_max_min_hull.
Example C07_case : fval (f := binary64) (dbl (-6) 0) = Fin (-6) /\ fvalid (di 2 3) /\
  run show (op_div_ni Pdef (dbl (-6) 0) (di 2 3)) RNE = (Ok (show (di (-3) (-2))), RNE) /\
  run show (op_div Pdef (di (-6) (-6)) (di 2 3)) RNE = (Ok (show (di (-3) (-2))), RNE) /\
  run show (op_div_in Pdef (di 2 3) (dbl 0 0)) RNE = (Throw EmptyCreated, RNE).
Proof.
  split; [apply dbl_val; lia|]. split; [apply di_valid; lia|].
  split; [vm_compute; reflexivity|]. split; vm_compute; reflexivity.
Qed.

(** ** C32: predicates *)
Section C32.
Context (p : platform) (k : rkind) (debug : bool) (c : ckind) (ord : site -> bool).
Notation P := (P_ p k debug c ord).

Theorem C32_empty : forall x : itv (fnum p), ok_interval c x ->
  u_empty P x = true <-> fno_member x.
Proof.
  intros x Hx. unfold u_empty. destruct (ok_cases p k debug c ord x Hx) as [[V ->]|[E ->]].
  - split; [discriminate|]. intros K. destruct (nonempty_mem p x V) as (r & Hr). destruct (K r Hr).
  - split; auto. intros _. apply fempty_none; auto.
Qed.
Theorem C32_in : forall (x : itv (fnum p)) (v : T (fnum p)) r, ok_interval c x -> fval v = Fin r ->
  exists b, returns (u_in P v x) b /\ (b = true <-> fmem x r).
Proof.
  intros x v r Hx E. pose proof (fpolspec p Save k debug c ord) as H.
  destruct (ok_cases p k debug c ord x Hx) as [[V _]|[M0 E0]].
  - destruct (u_in_ok H v x) as (b & R1 & B1); auto; [congruence|].
    exists b. split; [exact R1|]. rewrite B1, E. reflexivity.
  - exists false. split.
    + intros s. unfold u_in, test_input_ni, bind.
      rewrite (cs_nan _ _ (ps_ck _ _ _ H) v) by congruence. cbv beta iota. rewrite E0. reflexivity.
    + split; [discriminate|]. intros K. destruct (fempty_none p x M0 r K).
Qed.
Theorem C32_zero_in : forall x : itv (fnum p), ok_interval c x ->
  zero_in P x = true <-> fmem x 0.
Proof.
  intros x Hx. pose proof (fpolspec p Save k debug c ord) as H.
  destruct (ok_cases p k debug c ord x Hx) as [[V _]|[M0 E0]].
  - apply (zero_in_iff H); auto.
  - unfold zero_in. rewrite E0. split; [discriminate|]. intros K. destruct (fempty_none p x M0 0 K).
Qed.
Theorem C32_subset : forall x y : itv (fnum p), ok_interval c x -> ok_interval c y ->
  subset P x y = true <-> (forall r, fmem x r -> fmem y r).
Proof.
  intros x y Hx Hy. pose proof (fpolspec p Save k debug c ord) as H.
  destruct (ok_cases p k debug c ord x Hx) as [[Vx Ex]|[Mx Ex]].
  - destruct (ok_cases p k debug c ord y Hy) as [[Vy Ey]|[My Ey]].
    + apply (subset_ok H); auto.
    + unfold subset, u_empty. rewrite Ex, Ey. split; [discriminate|]. intros K.
      destruct (nonempty_mem p x Vx) as (r & Hr). destruct (fempty_none p y My r (K r Hr)).
  - unfold subset, u_empty. rewrite Ex. split; auto. intros _ r Hr. destruct (fempty_none p x Mx r Hr).
Qed.
Theorem C32_proper_subset : forall x y : itv (fnum p), ok_interval c x -> ok_interval c y ->
  proper_subset P x y = true <->
  (forall r, fmem x r -> fmem y r) /\ (exists r, fmem y r /\ ~ fmem x r).
Proof.
  intros x y Hx Hy. pose proof (fpolspec p Save k debug c ord) as H.
  destruct (ok_cases p k debug c ord y Hy) as [[Vy Ey]|[My Ey]].
  - destruct (ok_cases p k debug c ord x Hx) as [[Vx Ex]|[Mx Ex]].
    + apply (proper_subset_ok H); auto.
    + unfold proper_subset, u_empty. rewrite Ex, Ey. split; auto. intros _. split.
      * intros r Hr. destruct (fempty_none p x Mx r Hr).
      * destruct (nonempty_mem p y Vy) as (r & Hr). exists r. split; auto. apply (fempty_none p x Mx r).
  - unfold proper_subset, u_empty. rewrite Ey. split; [discriminate|]. intros (_ & r & Hr & _).
    destruct (fempty_none p y My r Hr).
Qed.
Theorem C32_overlap : forall x y : itv (fnum p), ok_interval c x -> ok_interval c y ->
  overlap P x y = true <-> (exists r, fmem x r /\ fmem y r).
Proof.
  intros x y Hx Hy. pose proof (fpolspec p Save k debug c ord) as H.
  destruct (ok_cases p k debug c ord x Hx) as [[Vx Ex]|[Mx Ex]].
  - destruct (ok_cases p k debug c ord y Hy) as [[Vy Ey]|[My Ey]].
    + apply (overlap_ok H); auto.
    + unfold overlap, test_input_ii. rewrite Ex, Ey. split; [discriminate|]. intros (r & _ & K).
      destruct (fempty_none p y My r K).
  - unfold overlap, test_input_ii. rewrite Ex. split; [discriminate|]. intros (r & K & _).
    destruct (fempty_none p x Mx r K).
Qed.
Theorem C32_singleton : forall x : itv (fnum p), ok_interval c x ->
  singleton P x = true <-> (exists r, fdenotes x (point r)).
Proof.
  intros x Hx. pose proof (fpolspec p Save k debug c ord) as H.
  destruct (ok_cases p k debug c ord x Hx) as [[Vx Ex]|[Mx Ex]].
  - apply (singleton_ok H); auto.
  - unfold singleton, u_empty. rewrite Ex. split; [discriminate|]. intros (r & K).
    destruct (fempty_none p x Mx r (proj2 (K r) eq_refl)).
Qed.
Theorem C32_equal : forall x y : itv (fnum p), ok_interval c x -> ok_interval c y ->
  equal P x y = true <-> (forall r, fmem x r <-> fmem y r).
Proof.
  intros x y Hx Hy. pose proof (fpolspec p Save k debug c ord) as H.
  destruct (ok_cases p k debug c ord x Hx) as [[Vx Ex]|[Mx Ex]];
  destruct (ok_cases p k debug c ord y Hy) as [[Vy Ey]|[My Ey]].
  - apply (equal_ok H); auto.
  - unfold equal, u_empty. rewrite Ex, Ey. split; [discriminate|]. intros K.
    destruct (nonempty_mem p x Vx) as (r & Hr). destruct (fempty_none p y My r). apply K; auto.
  - unfold equal, u_empty. rewrite Ex, Ey. split; [discriminate|]. intros K.
    destruct (nonempty_mem p y Vy) as (r & Hr). destruct (fempty_none p x Mx r). apply K; auto.
  - unfold equal, u_empty. rewrite Ex, Ey. split; auto. intros _ r.
    pose proof (fempty_none p x Mx r). pose proof (fempty_none p y My r). unfold fmem. tauto.
Qed.
Theorem C32_intersect : forall x y : itv (fnum p), ok_interval c x -> ok_interval c y ->
  ((exists r, fmem x r /\ fmem y r) ->
     exists z, returns (intersect P x y) z /\ fvalid z /\ fdenotes z (fun r => fmem x r /\ fmem y r)) /\
  (~ (exists r, fmem x r /\ fmem y r) -> gives_empty c (intersect P x y)).
Proof.
  intros x y Hx Hy. pose proof (fpolspec p Save k debug c ord) as H.
  assert (EM : test_input_ii P x y = true -> fno_member x \/ fno_member y ->
    ((exists r, fmem x r /\ fmem y r) ->
     exists z, returns (intersect P x y) z /\ fvalid z /\ fdenotes z (fun r => fmem x r /\ fmem y r)) /\
    (~ (exists r, fmem x r /\ fmem y r) -> gives_empty c (intersect P x y))).
  { intros T K. split.
    - intros (r & A & B). destruct K as [K|K]; destruct (K r); auto.
    - intros _. unfold intersect. rewrite T. apply i_empty_gives. }
  destruct (ok_cases p k debug c ord x Hx) as [[Vx Ex]|[Mx Ex]];
  destruct (ok_cases p k debug c ord y Hy) as [[Vy Ey]|[My Ey]].
  - split.
    + intros (r & A & B).
      exact (denotes_returns p k debug c ord _ _ (ex_intro _ r (conj A B)) (intersect_ok H x y Vx Vy (ex_intro _ r (conj A B)))).
    + intros D. apply (empty_gives p k debug c ord). intros o Ho. exact (intersect_disjoint H x y o Vx Vy D Ho).
  - apply EM; [unfold test_input_ii; rewrite Ey; apply orb_true_r|]. right. apply fempty_none; auto.
  - apply EM; [unfold test_input_ii; rewrite Ex; reflexivity|]. left. apply fempty_none; auto.
  - apply EM; [unfold test_input_ii; rewrite Ex; reflexivity|]. left. apply fempty_none; auto.
Qed.
Theorem C32_hull : forall x y : itv (fnum p), ok_interval c x -> ok_interval c y ->
  ((exists r, fmem x r \/ fmem y r) ->
     exists z, returns (hull P x y) z /\ fvalid z /\ ftightest z (fun r => fmem x r \/ fmem y r)) /\
  (~ (exists r, fmem x r \/ fmem y r) -> gives_empty c (hull P x y)).
Proof.
  intros x y Hx Hy. pose proof (fpolspec p Save k debug c ord) as H.
  assert (ONE : forall (w : itv (fnum p)) (S : R -> Prop), fvalid w -> (forall r, fmem w r <-> S r) ->
     ftightest w S).
  { intros w S Vw ES. eapply tightest_ext; [exact ES|]. split; [intros r Hr; exact Hr|].
    intros w' Hw'. apply (subset_bounds w w' Vw). exact Hw'. }
  destruct (ok_cases p k debug c ord x Hx) as [[Vx Ex]|[Mx Ex]];
  destruct (ok_cases p k debug c ord y Hy) as [[Vy Ey]|[My Ey]].
  - split.
    + intros Ex0. exact (tight_returns p k debug c ord _ _ Ex0 (hull_ok H x y Vx Vy)).
    + intros K. exfalso. apply K. destruct (nonempty_mem p x Vx) as (r & Hr). exists r; auto.
  - split.
    + intros _. exists x. split; [|split; auto].
      * intros s. unfold hull. rewrite Ex, Ey. reflexivity.
      * apply ONE; auto. intros r. pose proof (fempty_none p y My r). unfold fmem. tauto.
    + intros K. exfalso. apply K. destruct (nonempty_mem p x Vx) as (r & Hr). exists r; auto.
  - split.
    + intros _. exists y. split; [|split; auto].
      * intros s. unfold hull. rewrite Ex, Ey. reflexivity.
      * apply ONE; auto. intros r. pose proof (fempty_none p x Mx r). unfold fmem. tauto.
    + intros K. exfalso. apply K. destruct (nonempty_mem p y Vy) as (r & Hr). exists r; auto.
  - split.
    + intros (r & [K|K]); [destruct (fempty_none p x Mx r K)|destruct (fempty_none p y My r K)].
    + intros _. unfold hull. rewrite Ex, Ey. apply i_empty_gives.
Qed.
End C32.
Theorem C32_hull_numbers : forall p k debug c ord (a b : T (fnum p)) ra rb,
  fval a = Fin ra -> fval b = Fin rb ->
  exists z, returns (hull_nn (P_ p k debug c ord) a b) z /\
            fdenotes z (fun r => Rmin ra rb <= r <= Rmax ra rb).
Proof.
  intros p k debug c ord a b ra rb Ea Eb.
  exact (hull_nn_ok (fpolspec p Save k debug c ord) a b ra rb Ea Eb).
Qed.
Print Assumptions C32_empty.
Print Assumptions C32_in.
Print Assumptions C32_zero_in.
Print Assumptions C32_subset.
Print Assumptions C32_proper_subset.
Print Assumptions C32_overlap.
Print Assumptions C32_singleton.
Print Assumptions C32_equal.
Print Assumptions C32_intersect.
Print Assumptions C32_hull.
Print Assumptions C32_hull_numbers.
Example C32_case :
  ok_interval CkBase (di 1 3) /\ ok_interval CkBase (mk dnan dnan) /\
  subset Pbase (di 1 3) (di 0 3) = true /\ subset Pbase (mk dnan dnan) (di 0 3) = true /\
  proper_subset Pbase (di 1 3) (di 1 3) = false /\ overlap Pbase (di 1 3) (di 3 4) = true /\
  run show (intersect Pbase (di 1 3) (di 4 5)) RNE = (Ok (show (mk dnan dnan)), RNE) /\
  run show (intersect Pdef (di 1 3) (di 4 5)) RNE = (Throw EmptyCreated, RNE) /\
  run show (hull Pbase (di 1 3) (mk dnan dnan)) RNE = (Ok (show (di 1 3)), RNE) /\
  run show (hull Pbase (di 1 3) (di 5 7)) RNE = (Ok (show (di 1 7)), RNE).
Proof.
  split; [left; apply di_valid; lia|].
  split; [right; split; [reflexivity|]; unfold fempty; simpl; tauto|].
  repeat (split; [vm_compute; reflexivity|]). vm_compute; reflexivity.
Qed.

(** ** C33 *)
Theorem C33_width_least_upper_bound : forall p k debug c ord (x : itv (fnum p)),
  fvalid x ->
  exists w : T (fnum p), returns (width (P_ p k debug c ord) x) w /\
    xle (Fin 0) (fval w) /\
    (forall r s, fmem x r -> fmem x s -> xle (Fin (r - s)) (fval w)) /\
    (forall w' : T (fnum p), (forall r s, fmem x r -> fmem x s -> xle (Fin (r - s)) (fval w')) ->
       xle (fval w) (fval w')).
Proof.
  intros p k debug c ord x Hx.
  destruct (width_ok (fpolspec p Save k debug c ord) x Hx) as (w & R1 & U & L).
  assert (UB : forall r s, fmem x r -> fmem x s -> xle (Fin (r - s)) (fval w)).
  { intros r s Hr Hs. apply U. exists r, s. auto. }
  exists w. split; [exact R1|]. split; [|split; [exact UB|]].
  - destruct (nonempty_mem p x Hx) as (r & Hr). pose proof (UB r r Hr Hr) as K.
    replace (r - r) with 0 in K by lra. exact K.
  - intros w' Hw'. apply L. intros t (r & s & Hr & Hs & ->). apply Hw'; auto.
Qed.
Print Assumptions C33_width_least_upper_bound.
Theorem C33_width_empty : forall p k debug c ord (x : itv (fnum p)),
  allows_empty c = true -> fempty x ->
  exists w : T (fnum p), returns (width (P_ p k debug c ord) x) w /\ fval w = Fin 0.
Proof.
  intros p k debug c ord x A E. exists zero. split.
  - intros s. unfold width. rewrite (proj2 (is_empty_iff p k debug c ord x A) E). reflexivity.
  - exact (ns_0 _ _ (ps_num _ _ _ (fpolspec p Save k debug c ord))).
Qed.
Print Assumptions C33_width_empty.
Example C33_case : fvalid (di (-3) 4) /\
  run B2SF (width Pdef (di (-3) 4)) RNE = (Ok (B2SF (dbl 7 0)), RNE) /\
  (* 1 - (-2^-60) is not representable: the next number above is returned *)
  run B2SF (width Pdef (mk (dbl (-1) (-60)) (dbl 1 0))) RNE = (Ok (B2SF (dbl 4503599627370497 (-52))), RNE).
Proof. split; [apply di_valid; lia|]. split; vm_compute; reflexivity. Qed.

(** ** C36 *)
Theorem C36_widen_tightest : forall p k debug c ord (x : itv (fnum p)) (v : T (fnum p)) r,
  fvalid x -> fval v = Fin r -> 0 <= r ->
  exists z, returns (widen (P_ p k debug c ord) x v) z /\ fvalid z /\
            ftightest z (fun t => exists s, fmem x s /\ Rabs (t - s) <= r).
Proof.
  intros p k debug c ord x v r Hx E Hr.
  apply tight_returns with k debug c ord.
  - destruct (nonempty_mem p x Hx) as (s & Hs). exists s, s. split; auto. rewrite Rminus_diag_eq, Rabs_R0; auto.
  - exact (widen_ok (fpolspec p Save k debug c ord) x v r Hx E Hr).
Qed.
Print Assumptions C36_widen_tightest.
Example C36_case : fvalid (di 1 2) /\ fval (f := binary64) (dbl 3 0) = Fin 3 /\
  run show (widen Pdef (di 1 2) (dbl 3 0)) RNE = (Ok (show (di (-2) 5)), RNE).
Proof. split; [apply di_valid; lia|]. split; [apply dbl_val; lia|vm_compute; reflexivity]. Qed.

(** ** C49: directed rounding through a wider evaluation format *)
(** The greatest / least member of format [f] below / above a real. *)
Definition rounded_down {f} (r : R) (t : flt f) : Prop :=
  xle (fval t) (Fin r) /\ forall t' : flt f, xle (fval t') (Fin r) -> xle (fval t') (fval t).
Definition rounded_up {f} (r : R) (t : flt f) : Prop :=
  xle (Fin r) (fval t) /\ forall t' : flt f, xle (Fin r) (fval t') -> xle (fval t) (fval t').
(** A directed operation of the rounding policy computing [g]; it is called
    from any state in which the policy is initialised and keeps it so. *)
Definition directed2 {p} (k : rkind) (g : R -> R -> R) (dn up : T (fnum p) -> T (fnum p) -> M (T (fnum p)))
    (ok : R -> R -> Prop) : Prop :=
  forall (a b : T (fnum p)) ra rb, fval a = Fin ra -> fval b = Fin rb -> ok ra rb ->
  forall mode, (k = Opp -> mode = RUP) ->
  (exists t mode', dn a b mode = (Ok t, mode') /\ (k = Opp -> mode' = RUP) /\ rounded_down (g ra rb) t) /\
  (exists t mode', up a b mode = (Ok t, mode') /\ (k = Opp -> mode' = RUP) /\ rounded_up (g ra rb) t).

Theorem C49_wide_evaluation_directed : forall p k,
  let A := farith p k in
  directed2 k Rplus (add_down A) (add_up A) (fun _ _ => True) /\
  directed2 k Rminus (sub_down A) (sub_up A) (fun _ _ => True) /\
  directed2 k Rmult (mul_down A) (mul_up A) (fun _ _ => True) /\
  directed2 k Rdiv (div_down A) (div_up A) (fun _ b => b <> 0) /\
  directed2 k (fun a _ => sqrt a) (fun a _ => sqrt_down A a) (fun a _ => sqrt_up A a) (fun a _ => 0 <= a).
Proof.
  intros p k A. pose proof (farspec p k) as S. pose proof (fsqrtspec p k) as Q.
  assert (RDY : forall s, fready k s <-> (k = Opp -> s = RUP)).
  { intros s. destruct k; simpl; split; auto; try (intros; discriminate). }
  assert (GO : forall (m : M (T (fnum p))) t, runsI (fready k) m t -> forall mode, (k = Opp -> mode = RUP) ->
     exists mode', m mode = (Ok t, mode') /\ (k = Opp -> mode' = RUP)).
  { intros m t Hm mode Hmode. destruct (Hm mode (proj2 (RDY mode) Hmode)) as (s' & Hs' & E).
    exists s'. split; auto. apply RDY; auto. }
  assert (BIN : forall xg g dn up (ok : R -> R -> Prop), op2_ok (N := fnum p) fval (fready k) (RD (N := fnum p) fval) xg dn ->
     op2_ok (N := fnum p) fval (fready k) (RU (N := fnum p) fval) xg up ->
     (forall ra rb, ok ra rb -> xg (Fin ra) (Fin rb) = Fin (g ra rb)) -> directed2 k g dn up ok).
  { intros xg g dn up ok D U EQ a b ra rb Ea Eb Hok mode Hmode. specialize (D a b). specialize (U a b).
    rewrite Ea, Eb, (EQ ra rb Hok) in *. split.
    - destruct D as (t & Rt & Et); [discriminate|]. destruct (GO _ _ Et mode Hmode) as (m' & E1 & E2).
      exists t, m'. split; auto.
    - destruct U as (t & Rt & Et); [discriminate|]. destruct (GO _ _ Et mode Hmode) as (m' & E1 & E2).
      exists t, m'. split; auto. }
  split; [apply (BIN xadd _ _ _ _ (as_add_down _ _ _ S) (as_add_up _ _ _ S)); reflexivity|].
  split; [apply (BIN xsub _ _ _ _ (as_sub_down _ _ _ S) (as_sub_up _ _ _ S)); reflexivity|].
  split; [apply (BIN xmul _ _ _ _ (as_mul_down _ _ _ S) (as_mul_up _ _ _ S)); reflexivity|].
  split; [apply (BIN xdiv _ _ _ _ (as_div_down _ _ _ S) (as_div_up _ _ _ S))|].
  { intros ra rb Hb. simpl. destruct (Req_EM_T rb 0); tauto. }
  intros a b ra rb Ea Eb Hok mode Hmode.
  pose proof (as_sqrt_down _ _ _ Q a) as D. pose proof (as_sqrt_up _ _ _ Q a) as U. rewrite Ea in *.
  simpl xsqrt in D, U. destruct (Rle_dec 0 ra); [|tauto]. split.
  - destruct D as (t & Rt & Et); [discriminate|]. destruct (GO _ _ Et mode Hmode) as (m' & E1 & E2).
    exists t, m'. split; auto.
  - destruct U as (t & Rt & Et); [discriminate|]. destruct (GO _ _ Et mode Hmode) as (m' & E1 & E2).
    exists t, m'. split; auto.
Qed.
Print Assumptions C49_wide_evaluation_directed.
(** The x87 platform evaluates double expressions in 80 bits: 1 + 2^-60 rounded
    up through the register is the double after 1. *)
Example C49_case :
  (let one' := binary_normalize 53 1024 (fmt_P0 binary64) (fmt_PE binary64) mode_NE 1 0 false in
   let tiny := binary_normalize 53 1024 (fmt_P0 binary64) (fmt_PE binary64) mode_NE 1 (-60) false in
   run B2SF (add_up (farith double_x87 Std) one' tiny) RNE) =
  (Ok (B2SF (dbl 4503599627370497 (-52))), RUP) /\
  p_X double_x87 <> p_T double_x87.
Proof. split; [vm_compute; reflexivity|discriminate]. Qed.

(** ** C52 *)
Theorem C52_number_functions_tightest : forall p k debug c ord (a b : T (fnum p)) ra rb,
  fval a = Fin ra -> fval b = Fin rb ->
  let P := P_ p k debug c ord in
  (exists z, returns (n_add P a b) z /\ fvalid z /\ ftightest z (point (ra + rb))) /\
  (exists z, returns (n_sub P a b) z /\ fvalid z /\ ftightest z (point (ra - rb))) /\
  (exists z, returns (n_mul P a b) z /\ fvalid z /\ ftightest z (point (ra * rb))) /\
  (rb <> 0 -> exists z, returns (n_div P a b) z /\ fvalid z /\ ftightest z (point (ra / rb))) /\
  (rb = 0 -> gives_empty c (n_div P a b)).
Proof.
  intros p k debug c ord a b ra rb Ea Eb P. pose proof (fpolspec p Save k debug c ord) as H.
  assert (NE : forall t, nonempty (point t)) by (intros t; exists t; reflexivity).
  split; [exact (tight_returns p k debug c ord _ _ (NE _) (n_add_ok H a b ra rb Ea Eb))|].
  split; [exact (tight_returns p k debug c ord _ _ (NE _) (n_sub_ok H a b ra rb Ea Eb))|].
  split; [exact (tight_returns p k debug c ord _ _ (NE _) (n_mul_ok H a b ra rb Ea Eb))|].
  split; [intros Hb; exact (tight_returns p k debug c ord _ _ (NE _) (n_div_ok H a b ra rb Ea Eb Hb))|].
  intros Hb. apply (empty_gives p k debug c ord). intros o Ho. exact (n_div_zero H a b ra rb Ea Eb o Hb Ho).
Qed.
Print Assumptions C52_number_functions_tightest.
Example C52_case : fval (f := binary64) (dbl 1 0) = Fin 1 /\ fval (f := binary64) (dbl 4 0) = Fin 4 /\
  run show (n_div Pdef (dbl 1 0) (dbl 4 0)) RUP = (Ok (show (mk (dbl 1 (-2)) (dbl 1 (-2)))), RUP) /\
  run show (n_div Pdef (dbl 1 0) (dbl 3 0)) RUP =
    (Ok (show (mk (dbl 6004799503160661 (-54)) (dbl 6004799503160662 (-54)))), RUP).
Proof. split; [apply dbl_val; lia|]. split; [apply dbl_val; lia|]. split; vm_compute; reflexivity. Qed.

(** * Real analysis for the transcendental functions *)

From Coq Require Import Reals ZArith Lra Lia QArith Qreals Machin.
From Verif Require Import Outcome Base FloatNum Spec ExtR Transc SpecTransc.
Local Open Scope R_scope.

(** ** Monotonicity *)
Lemma exp_le a b : a <= b -> exp a <= exp b.
Proof. intros [H|H]; [left; apply exp_increasing; auto|subst; right; auto]. Qed.
Lemma sinh_le a b : a <= b -> sinh a <= sinh b.
Proof. intros [H|H]; [left; apply sinh_lt; auto|subst; right; auto]. Qed.
Lemma cosh_pos a : 0 < cosh a.
Proof. unfold cosh. pose proof (exp_pos a). pose proof (exp_pos (- a)). lra. Qed.
Lemma cosh_sub a b : cosh b - cosh a = 2 * sinh ((b + a) / 2) * sinh ((b - a) / 2).
Proof.
  unfold cosh, sinh.
  set (x := (b + a) / 2). set (y := (b - a) / 2).
  replace b with (x + y) by (unfold x, y; field). replace a with (x - y) by (unfold x, y; field).
  replace (- (x + y)) with (- x + - y) by ring. replace (- (x - y)) with (- x + y) by ring.
  unfold Rminus. rewrite !exp_plus. field.
Qed.
Lemma cosh_opp a : cosh (- a) = cosh a.
Proof. unfold cosh. rewrite Ropp_involutive. lra. Qed.
Lemma cosh_le a b : 0 <= a -> a <= b -> cosh a <= cosh b.
Proof.
  intros H1 H2. assert (0 <= cosh b - cosh a); [|lra]. rewrite cosh_sub.
  rewrite <- (Rmult_0_r 0). 
  assert (0 <= sinh ((b + a) / 2)) by (rewrite <- sinh_0; apply sinh_le; lra).
  assert (0 <= sinh ((b - a) / 2)) by (rewrite <- sinh_0; apply sinh_le; lra).
  rewrite Rmult_0_r. apply Rmult_le_pos; auto. lra.
Qed.
Lemma cosh_lt a b : 0 <= a -> a < b -> cosh a < cosh b.
Proof.
  intros H1 H2. assert (0 < cosh b - cosh a); [|lra]. rewrite cosh_sub.
  assert (0 < sinh ((b + a) / 2)) by (rewrite <- sinh_0; apply sinh_lt; lra).
  assert (0 < sinh ((b - a) / 2)) by (rewrite <- sinh_0; apply sinh_lt; lra).
  apply Rmult_lt_0_compat; auto. lra.
Qed.
Lemma cosh_abs a : cosh a = cosh (Rabs a).
Proof. unfold Rabs. destruct (Rcase_abs a); auto. rewrite cosh_opp. auto. Qed.
Lemma tanh_alt a : tanh a = 1 - 2 / (exp (2 * a) + 1).
Proof.
  unfold tanh, sinh, cosh. replace (2 * a) with (a + a) by ring. rewrite exp_plus.
  pose proof (exp_pos a) as Pa. rewrite exp_Ropp.
  assert (0 < exp a * exp a) by (apply Rmult_lt_0_compat; auto). field. split; lra.
Qed.
Lemma tanh_lt a b : a < b -> tanh a < tanh b.
Proof.
  intros H. rewrite !tanh_alt. assert (E : exp (2 * a) < exp (2 * b)) by (apply exp_increasing; lra).
  pose proof (exp_pos (2 * a)). assert (/ (exp (2 * b) + 1) < / (exp (2 * a) + 1)).
  { apply Rinv_lt_contravar; [apply Rmult_lt_0_compat; lra|lra]. }
  unfold Rdiv. lra.
Qed.
Lemma tanh_le a b : a <= b -> tanh a <= tanh b.
Proof. intros [H|H]; [left; apply tanh_lt; auto|subst; right; auto]. Qed.
Lemma tanh_bound a : -1 < tanh a < 1.
Proof.
  rewrite tanh_alt. pose proof (exp_pos (2 * a)). assert (0 < / (exp (2 * a) + 1) < 1); [|unfold Rdiv; lra].
  split; [apply Rinv_0_lt_compat; lra|]. apply Rmult_lt_reg_r with (exp (2 * a) + 1); [lra|]. rewrite Rinv_l by lra. lra.
Qed.
Lemma tanh_graph a : (exp a - exp (- a)) / (exp a + exp (- a)) = tanh a.
Proof. unfold tanh, sinh, cosh. pose proof (exp_pos a). pose proof (exp_pos (- a)). field. lra. Qed.

(** ** Inverses exist *)
Lemma acosh_ex r : 1 <= r -> exists t, 0 <= t /\ (exp t + exp (- t)) / 2 = r.
Proof.
  intros H. set (q := sqrt (r * r - 1)).
  assert (Hq : q * q = r * r - 1) by (apply sqrt_sqrt; nra).
  assert (Pq : 0 <= q) by apply sqrt_pos.
  exists (ln (r + q)). split.
  - destruct (Req_dec (r + q) 1) as [->|N]; [rewrite ln_1; lra|]. left. rewrite <- ln_1. apply ln_increasing; lra.
  - rewrite exp_Ropp, exp_ln by lra. replace (/ (r + q)) with (r - q); [lra|].
    apply Rmult_eq_reg_r with (r + q); [|lra]. rewrite Rinv_l by lra. nra.
Qed.
Lemma atanh_ex r : -1 < r < 1 -> exists t, (exp t - exp (- t)) / (exp t + exp (- t)) = r.
Proof.
  intros H. exists (ln ((1 + r) / (1 - r)) / 2). rewrite tanh_graph, tanh_alt.
  replace (2 * (ln ((1 + r) / (1 - r)) / 2)) with (ln ((1 + r) / (1 - r))) by field.
  rewrite exp_ln.
  - field. split; lra.
  - apply Rmult_lt_0_compat; [lra|apply Rinv_0_lt_compat; lra].
Qed.
Lemma asinh_ex r : exists t, (exp t - exp (- t)) / 2 = r.
Proof. exists (arcsinh r). apply sinh_arcsinh. Qed.
Lemma atan_ex r : exists t, - (PI / 2) < t < PI / 2 /\ sin t / cos t = r.
Proof. exists (atan r). split; [pose proof (atan_bound r); lra|]. apply (tan_atan r). Qed.
Lemma asin_ex r : -1 <= r <= 1 -> exists t, - (PI / 2) <= t <= PI / 2 /\ sin t = r.
Proof. intros H. exists (asin r). split; [apply asin_bound|apply sin_asin; auto]. Qed.
Lemma acos_ex r : -1 <= r <= 1 -> exists t, 0 <= t <= PI /\ cos t = r.
Proof. intros H. exists (acos r). split; [apply acos_bound|apply cos_acos; auto]. Qed.

(** ** The graphs are increasing *)
Definition increasing (f : tfun) : Prop :=
  match f with Fexp | Flog | Fasin | Fatan | Fsinh | Ftanh | Fasinh | Facosh | Fatanh => True | _ => False end.

Lemma by_contra_le a b (g : R -> R) : (b < a -> g b < g a) -> g a <= g b -> a <= b.
Proof. intros H1 H2. destruct (Rle_or_lt a b) as [K|K]; auto. specialize (H1 K). lra. Qed.

Lemma graph_mono f r t r' t' : increasing f -> graph f r t -> graph f r' t' -> r <= r' -> t <= t'.
Proof.
  intros F G G' L. destruct f; try destruct F; cbn [graph] in *.
  - subst. apply exp_le; auto.
  - apply (by_contra_le _ _ exp); [apply exp_increasing|lra].
  - destruct G as [B G], G' as [B' G']. apply (by_contra_le _ _ sin); [|lra]. intros K. apply sin_increasing_1; lra.
  - destruct G as [B G], G' as [B' G']. apply (by_contra_le _ _ tan); [|unfold tan; lra]. intros K. apply tan_increasing; lra.
  - subst. apply (sinh_le r r'); auto.
  - rewrite tanh_graph in *. subst. apply tanh_le; auto.
  - apply (by_contra_le _ _ sinh); [apply sinh_lt|unfold sinh; lra].
  - destruct G as [B G], G' as [B' G']. apply (by_contra_le _ _ cosh); [|unfold cosh; lra]. intros K. apply cosh_lt; lra.
  - rewrite tanh_graph in *. apply (by_contra_le _ _ tanh); [apply tanh_lt|lra].
Qed.
Lemma xgraph_mono_l f e v r t : increasing f -> xgraph f e v -> graph f r t -> xle e (Fin r) -> xle v (Fin t).
Proof.
  intros F G H L. destruct e; cbn [xgraph] in G; try tauto; try (destruct f; tauto).
  - destruct f; try tauto; subst v; cbn [graph xle] in *; auto.
    + subst. pose proof (exp_pos r). lra.
    + lra.
    + rewrite tanh_graph in H. subst. pose proof (tanh_bound r). lra.
  - destruct G as (t0 & -> & G). exact (graph_mono f r0 t0 r t F G H L).
Qed.
Lemma xgraph_mono_r f e v r t : increasing f -> xgraph f e v -> graph f r t -> xle (Fin r) e -> xle (Fin t) v.
Proof.
  intros F G H L. destruct e; cbn [xgraph] in G; try tauto; try (destruct f; tauto).
  - destruct G as (t0 & -> & G). exact (graph_mono f r t r0 t0 F H G L).
  - destruct f; try tauto; subst v; cbn [graph xle] in *; auto; try lra.
    rewrite tanh_graph in H. subst. pose proof (tanh_bound r). lra.
Qed.

(** ** Periodicity *)
Lemma cos_shift r (n : Z) : cos (r - IZR n * (2 * PI)) = cos r.
Proof.
  rewrite cos_minus.
  assert (K : cos (IZR n * (2 * PI)) = 1 /\ sin (IZR n * (2 * PI)) = 0).
  { destruct (Z_lt_le_dec n 0) as [H|H].
    - replace (IZR n * (2 * PI)) with (- (0 + 2 * INR (Z.to_nat (- n)) * PI)).
      + rewrite cos_neg, sin_neg, cos_period, sin_period, cos_0, sin_0. lra.
      + rewrite INR_IZR_INZ, Z2Nat.id by lia. rewrite opp_IZR. ring.
    - replace (IZR n * (2 * PI)) with (0 + 2 * INR (Z.to_nat n) * PI).
      + rewrite cos_period, sin_period, cos_0, sin_0. lra.
      + rewrite INR_IZR_INZ, Z2Nat.id by lia. ring. }
  destruct K as [-> ->]. ring.
Qed.
Lemma sin_shift_PI (n : Z) : sin (IZR n * PI) = 0.
Proof. apply sin_eq_0_1. exists n. auto. Qed.
Lemma tan_shift r (n : Z) : cos (r - IZR n * PI) <> 0 ->
  cos r <> 0 /\ sin (r - IZR n * PI) / cos (r - IZR n * PI) = sin r / cos r.
Proof.
  rewrite cos_minus, sin_minus, sin_shift_PI. rewrite !Rmult_0_r, Rplus_0_r, Rminus_0_r. intros H.
  assert (cos r <> 0) by (intros K; apply H; rewrite K; ring).
  assert (cos (IZR n * PI) <> 0) by (intros K; apply H; rewrite K; ring).
  split; auto. field. auto.
Qed.
Lemma cos_shift_PI_nz r (n : Z) : cos r <> 0 -> cos (r - IZR n * PI) <> 0.
Proof.
  intros H. rewrite cos_minus, sin_shift_PI, Rmult_0_r, Rplus_0_r.
  apply Rmult_integral_contrapositive_currified; auto. intros K.
  pose proof (sin2_cos2 (IZR n * PI)) as S. rewrite sin_shift_PI, K in S. unfold Rsqr in S. lra.
Qed.

(** ** Bounds of pi *)
Definition rat_seq (k : positive) (n : nat) : Q := 1 # (k ^ Pos.of_nat (2 * n + 1) * Pos.of_nat (2 * n + 1)).
Definition q_term (n : nat) : Q :=
  let t := (2 * rat_seq 3 n + rat_seq 7 n)%Q in if Nat.even n then t else (- t)%Q.
Fixpoint q_sum (n : nat) : Q := match n with O => q_term O | S m => (q_sum m + q_term (S m))%Q end.

Lemma Q2R_seq k n : Q2R (rat_seq k n) = Ratan_seq (/ IZR (Zpos k)) n.
Proof.
  unfold rat_seq, Ratan_seq, Q2R. cbn [Qnum Qden].
  set (m := (2 * n + 1)%nat). assert (Hm : m <> O) by (unfold m; lia).
  assert (E1 : IZR (Z.pos k ^ Z.pos (Pos.of_nat m)) = IZR (Z.pos k) ^ m).
  { rewrite pow_IZR. f_equal. f_equal. rewrite <- positive_nat_Z, Nat2Pos.id; auto. }
  assert (E2 : IZR (Z.pos (Pos.of_nat m)) = INR m).
  { rewrite INR_IZR_INZ. f_equal. rewrite <- (Nat2Pos.id m Hm) at 2. rewrite positive_nat_Z. auto. }
  rewrite Pos2Z.inj_mul, mult_IZR, Pos2Z.inj_pow, E1, E2. rewrite pow_inv.
  assert (IZR (Z.pos k) ^ m <> 0) by (apply pow_nonzero, IZR_neq; lia).
  assert (INR m <> 0) by (apply not_0_INR; auto). rewrite Rinv_mult by auto. unfold Rdiv. ring.
Qed.
Lemma Q2R_term n : Q2R (q_term n) = tg_alt PI_2_3_7_tg n.
Proof.
  unfold q_term, tg_alt, PI_2_3_7_tg. 
  assert (E : Q2R (2 * rat_seq 3 n + rat_seq 7 n) = 2 * Ratan_seq (/ 3) n + Ratan_seq (/ 7) n).
  { rewrite Q2R_plus, Q2R_mult, !Q2R_seq. f_equal. f_equal. unfold Q2R. simpl. lra. }
  destruct (Nat.even n) eqn:Ev.
  - rewrite E. apply Nat.even_spec in Ev. destruct Ev as (m & ->). rewrite pow_1_even. ring.
  - rewrite Q2R_opp, E. assert (O : Nat.odd n = true) by (rewrite <- Nat.negb_even, Ev; auto).
    apply Nat.odd_spec in O. destruct O as (m & ->). replace (2 * m + 1)%nat with (S (2 * m)) by lia. rewrite pow_1_odd. ring.
Qed.
Lemma Q2R_sum n : Q2R (q_sum n) = sum_f_R0 (tg_alt PI_2_3_7_tg) n.
Proof. induction n as [|n IH]; cbn [q_sum sum_f_R0]; [apply Q2R_term|]. rewrite Q2R_plus, IH, Q2R_term. auto. Qed.

(** The bounds of constants.hpp. *)
Definition pi_dl : Q := (3373259426 * 2 ^ 21 + 273688) # (2 ^ 51).
Definition pi_du : Q := (3373259426 * 2 ^ 21 + 273689) # (2 ^ 51).
Definition pi_fl : Q := 13176794 # (2 ^ 22).
Definition pi_fu : Q := 13176795 # (2 ^ 22).

Lemma pi_double_bounds : Q2R pi_dl < PI < Q2R pi_du.
Proof.
  destruct (PI_2_3_7_ineq 10) as [L U]. rewrite <- !Q2R_sum in *.
  assert (A : (pi_dl < 4 * q_sum (S (2 * 10)))%Q) by (vm_compute; reflexivity).
  assert (B : (4 * q_sum (2 * 10) < pi_du)%Q) by (vm_compute; reflexivity).
  apply Qlt_Rlt in A, B. rewrite Q2R_mult in A, B. replace (Q2R 4) with 4 in * by (unfold Q2R; simpl; lra). lra.
Qed.
Lemma pi_float_bounds : Q2R pi_fl < PI < Q2R pi_fu.
Proof.
  pose proof pi_double_bounds as [L U].
  assert (A : (pi_fl < pi_dl)%Q) by (vm_compute; reflexivity). assert (B : (pi_du < pi_fu)%Q) by (vm_compute; reflexivity).
  apply Qlt_Rlt in A, B. lra.
Qed.
Lemma pi_3_4 : 3 < PI < 22 / 7.
Proof.
  pose proof pi_double_bounds as [L U].
  assert (A : (3 < pi_dl)%Q) by (vm_compute; reflexivity). assert (B : (pi_du < 22 # 7)%Q) by (vm_compute; reflexivity).
  apply Qlt_Rlt in A, B. replace (Q2R 3) with 3 in A by (unfold Q2R; simpl; lra).
  replace (Q2R (22 # 7)) with (22 / 7) in B by (unfold Q2R; simpl; lra). lra.
Qed.

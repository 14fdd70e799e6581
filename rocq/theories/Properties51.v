(** * C91: examples/rational.cpp *)

From Coq Require Import ZArith QArith Bool Lia Field Lqa.
From Verif Require Import Outcome Base Checking Interval Utility Arith Transc FloatNum Spec ExactNum ExRational.
Local Open Scope Q_scope.

Section Steps.
Context (debug : bool) (c : ckind) (ord : site -> bool).
Notation N := (exact_num Q_type).
Notation P := (exact_pol N debug c ord).
Definition ordered (x : itv N) : Prop := (low x : Q) <= (up x : Q).

Lemma ordered_le (x : itv N) : ordered x -> n_le N (low x) (up x) = true.
Proof. intros V. apply Qle_bool_iff. exact V. Qed.
Lemma test_i (x : itv N) : ordered x -> test_input_i P x = false.
Proof. intros V. apply ordered_le in V. unfold test_input_i. destruct c; cbn in *; try reflexivity; rewrite V; reflexivity. Qed.
Lemma nan_no (v : T N) s : ck_is_nan (p_ck P) v s = (Ok false, s).
Proof. destruct c; reflexivity. Qed.
Lemma args_ok o (m1 m2 : M (T N)) a b s : m1 s = (Ok a, s) -> m2 s = (Ok b, s) -> mk_args o m1 m2 s = (Ok (mk a b), s).
Proof. intros A B. unfold mk_args, args2, bind, ret. destruct o; rewrite ?A, ?B; rewrite ?A, ?B; reflexivity. Qed.

Lemma step_ctor (l u : Q) s : l <= u -> ctor_num2 P (l : T N) (u : T N) s = (Ok (mk (N := N) l u), s).
Proof.
  intros V. unfold ctor_num2, bind. rewrite nan_no, nan_no. apply Qle_bool_iff in V.
  cbn [orb n_le exact_num Q_type ef_le]. rewrite V. reflexivity.
Qed.
Lemma step_add (x y : itv N) s : ordered x -> ordered y ->
  local (m_add P (IVal y)) x s = (Ok (mk (N := N) (Qred (low x + low y)) (Qred (up x + up y))), s).
Proof.
  intros V W. unfold local, m_add, obind at 1, ocomp at 1, ret, test_input_ii. cbn [rdi]. rewrite !test_i by assumption. cbn [orb].
  unfold obind, ocomp, with_rnd, args2. cbn [p_prot exact_pol p_ord]. destruct (ord _); reflexivity.
Qed.
Lemma step_sub (x : itv N) (v : Q) s : ordered x ->
  local (m_sub_n P (NVal (v : T N))) x s = (Ok (mk (N := N) (Qred (low x - v)) (Qred (up x - v))), s).
Proof.
  intros V. unfold local, m_sub_n, obind at 1, ocomp at 1, test_input_in. cbn [rd]. rewrite test_i, nan_no by assumption.
  unfold obind, ocomp, with_rnd, args2. cbn [p_prot exact_pol p_ord]. destruct (ord _); reflexivity.
Qed.
Lemma neg_pos (v : Q) : 0 < v -> is_neg (N := N) v = false /\ is_zero (N := N) v = false.
Proof.
  intros V. unfold is_neg, is_zero. cbn [n_lt n_eq exact_num Q_type ef_lt ef_eq]. unfold zero. cbn [n_cst exact_num Q_type ef_int].
  split; [apply negb_false_iff, Qle_bool_iff, Qlt_le_weak; exact V|].
  apply not_true_iff_false. rewrite Qeq_bool_iff. intros E. rewrite E in V. exact (Qlt_irrefl _ V).
Qed.
Lemma neg_neg (v : Q) : v < 0 -> is_neg (N := N) v = true /\ is_zero (N := N) v = false.
Proof.
  intros V. unfold is_neg, is_zero. cbn [n_lt n_eq exact_num Q_type ef_lt ef_eq]. unfold zero. cbn [n_cst exact_num Q_type ef_int].
  split; [apply negb_true_iff, not_true_iff_false; rewrite Qle_bool_iff; apply Qlt_not_le; exact V|].
  apply not_true_iff_false. rewrite Qeq_bool_iff. intros E. rewrite E in V. exact (Qlt_irrefl _ V).
Qed.
Lemma step_mul (x : itv N) (v : Q) s : ordered x -> ~ v == 0 ->
  local (m_mul_n P (NVal (v : T N))) x s =
  (Ok (if Qle_bool 0 v then mk (N := N) (Qred (v * low x)) (Qred (v * up x)) else mk (N := N) (Qred (v * up x)) (Qred (v * low x))), s).
Proof.
  intros V NZ. unfold local, m_mul_n, m_via, obind at 1, ocomp at 1. cbn [rd].
  assert (E : op_mul_ni P (v : T N) x s =
    (Ok (if Qle_bool 0 v then mk (N := N) (Qred (v * low x)) (Qred (v * up x)) else mk (N := N) (Qred (v * up x)) (Qred (v * low x))), s)).
  { unfold op_mul_ni, test_input_ni, bind. rewrite nan_no. unfold ret. rewrite test_i by assumption.
    unfold with_rnd. cbn [p_prot exact_pol]. destruct (Qle_bool 0 v) eqn:B.
    - apply Qle_bool_iff in B. destruct (neg_pos v) as (-> & ->); [|apply args_ok; reflexivity].
      destruct (Qle_lt_or_eq _ _ B) as [L|L]; [exact L|]. exfalso. apply NZ. symmetry. exact L.
    - destruct (neg_neg v) as (-> & _); [|apply args_ok; reflexivity].
      apply Qnot_le_lt. intros L. apply Qle_bool_iff in L. congruence. }
  rewrite E. destruct (Qle_bool 0 v); reflexivity.
Qed.
Lemma step_div (x : itv N) (v : Q) s : ordered x -> ~ v == 0 ->
  local (m_div_n P (NVal (v : T N))) x s =
  (Ok (if Qle_bool 0 v then mk (N := N) (Qred (low x / v)) (Qred (up x / v)) else mk (N := N) (Qred (up x / v)) (Qred (low x / v))), s).
Proof.
  intros V NZ. unfold local, m_div_n, m_via, obind at 1, ocomp at 1. cbn [rd].
  assert (Z : Qeq_bool v (inject_Z 0) = false) by (apply not_true_iff_false; rewrite Qeq_bool_iff; exact NZ).
  assert (E : op_div_in P x (v : T N) s =
    (Ok (if Qle_bool 0 v then mk (N := N) (Qred (low x / v)) (Qred (up x / v)) else mk (N := N) (Qred (up x / v)) (Qred (low x / v))), s)).
  { unfold op_div_in, test_input_in, bind. rewrite test_i by assumption. rewrite nan_no.
    assert (D : forall a s, div_down (p_ar P) (a : T N) (v : T N) s = (Ok (Qred (a / v) : T N), s) /\ div_up (p_ar P) (a : T N) (v : T N) s = (Ok (Qred (a / v) : T N), s)).
    { intros a s'. cbn [exact_pol p_ar arith_exact div_down div_up]. unfold ex_div, e_div, bind, under_mode. cbn [x_div exact_num n_load Q_type ef_eq ef_int].
      rewrite Z. split; reflexivity. }
    destruct (Qle_bool 0 v) eqn:B.
    - apply Qle_bool_iff in B. destruct (neg_pos v) as (-> & ->).
      { destruct (Qle_lt_or_eq _ _ B) as [L|L]; [exact L|]. exfalso. apply NZ. symmetry. exact L. }
      unfold with_rnd. cbn [orb p_prot exact_pol]. apply args_ok; apply D.
    - destruct (neg_neg v) as (-> & ->).
      { apply Qnot_le_lt. intros L. apply Qle_bool_iff in L. congruence. }
      unfold with_rnd. cbn [orb p_prot exact_pol]. apply args_ok; apply D. }
  rewrite E. destruct (Qle_bool 0 v); reflexivity.
Qed.
End Steps.

Lemma mul_le_pos (a b q : Q) : 0 < q -> (a * q <= b * q <-> a <= b).
Proof. intros L. apply Qmult_le_r. exact L. Qed.
Lemma mul_le_neg (a b q : Q) : q < 0 -> (a * q <= b * q <-> b <= a).
Proof.
  intros L. assert (M : 0 < - q) by lra. pose proof (Qmult_le_r b a (- q) M) as K.
  assert (E1 : b * - q == - (b * q)) by ring. assert (E2 : a * - q == - (a * q)) by ring. rewrite E1, E2 in K. rewrite <- K. split; lra.
Qed.
Lemma sign_case (q : Q) : ~ q == 0 -> (Qle_bool 0 q = true /\ 0 < q) \/ (Qle_bool 0 q = false /\ q < 0).
Proof.
  intros NZ. destruct (Qle_bool 0 q) eqn:B.
  - left. split; [reflexivity|]. apply Qle_bool_iff in B. destruct (Qle_lt_or_eq _ _ B) as [L|L]; [exact L|]. exfalso. apply NZ. symmetry. exact L.
  - right. split; [reflexivity|]. apply Qnot_le_lt. intros L. apply Qle_bool_iff in L. congruence.
Qed.

(** The program prints z = { b * q | c <= b <= d } and
    a = { (x + b - p) / q | p <= x <= q, c <= b <= d }: these sets, for any numbers with p <= q,
    c <= d and q not 0, under every checking policy. *)
Theorem C91_rational : forall debug ck ord (p q c d : Q), p <= q -> c <= d -> ~ q == 0 ->
  exists z a, returns (rational_main (exact_pol (exact_num Q_type) debug ck ord) p q c d) (z, a) /\
  (forall t : Q, (low z : Q) <= t <= (up z : Q) <-> exists b, c <= b <= d /\ t == b * q) /\
  (forall t : Q, (low a : Q) <= t <= (up a : Q) <-> exists x b, p <= x <= q /\ c <= b <= d /\ t == (x + b - p) / q).
Proof.
  intros debug ck ord p q c d PQ CD NZ.
  pose (P := exact_pol (exact_num Q_type) debug ck ord). fold P.
  set (z0 := mk (N := exact_num Q_type) c d). set (a0 := mk (N := exact_num Q_type) p q).
  set (a1 := mk (N := exact_num Q_type) (Qred (p + c)) (Qred (q + d))).
  set (a2 := mk (N := exact_num Q_type) (Qred (low a1 - p)) (Qred (up a1 - p))).
  assert (V1 : ordered a1) by (unfold ordered, a1; cbn [low up]; rewrite !Qred_correct; apply Qplus_le_compat; assumption).
  assert (V2 : ordered a2).
  { unfold ordered, a2. cbn [low up]. rewrite !Qred_correct. apply Qplus_le_compat; [exact V1|apply Qle_refl]. }
  assert (L2 : (low a2 : Q) == c) by (unfold a2, a1; cbn [low up]; rewrite !Qred_correct; ring).
  assert (U2 : (up a2 : Q) == q + d - p) by (unfold a2, a1; cbn [low up]; rewrite !Qred_correct; ring).
  eexists. eexists. split; [|split].
  - intros s. unfold rational_main, bind.
    rewrite (step_ctor debug ck ord c d s CD : ctor_num2 P c d s = _). fold z0.
    rewrite (step_ctor debug ck ord p q s PQ : ctor_num2 P p q s = _). fold a0.
    rewrite (step_add debug ck ord a0 z0 s PQ CD : local (m_add P (IVal z0)) a0 s = _). cbn [a0 z0 low up]. fold a1.
    rewrite (step_mul debug ck ord z0 q s CD NZ : local (m_mul_n P (NVal (q : T (exact_num Q_type)))) z0 s = _).
    rewrite (step_sub debug ck ord a1 p s V1 : local (m_sub_n P (NVal (p : T (exact_num Q_type)))) a1 s = _). fold a2.
    rewrite (step_div debug ck ord a2 q s V2 NZ : local (m_div_n P (NVal (q : T (exact_num Q_type)))) a2 s = _). reflexivity.
  - intros t. assert (E : t == t / q * q) by (field; exact NZ).
    assert (K : (low (if Qle_bool 0 q then mk (N := exact_num Q_type) (Qred (q * low z0)) (Qred (q * up z0)) else mk (N := exact_num Q_type) (Qred (q * up z0)) (Qred (q * low z0))) : Q) <= t
      <= (up (if Qle_bool 0 q then mk (N := exact_num Q_type) (Qred (q * low z0)) (Qred (q * up z0)) else mk (N := exact_num Q_type) (Qred (q * up z0)) (Qred (q * low z0))) : Q)
      <-> c <= t / q <= d).
    { destruct (sign_case q NZ) as [(-> & L)|(-> & L)]; unfold z0; cbn [low up]; rewrite !Qred_correct, (Qmult_comm q c), (Qmult_comm q d), E at 1.
      - rewrite (mul_le_pos c (t / q) q L). rewrite E at 2. rewrite (mul_le_pos (t / q) d q L). reflexivity.
      - rewrite (mul_le_neg d (t / q) q L). rewrite E at 2. rewrite (mul_le_neg (t / q) c q L). tauto. }
    rewrite K. split.
    + intros B. exists (t / q). split; [exact B|exact E].
    + intros (b & B & T). assert (F : t / q == b) by (rewrite T; field; exact NZ). rewrite F. exact B.
  - intros t.
    assert (K : (low (if Qle_bool 0 q then mk (N := exact_num Q_type) (Qred (low a2 / q)) (Qred (up a2 / q)) else mk (N := exact_num Q_type) (Qred (up a2 / q)) (Qred (low a2 / q))) : Q) <= t
      <= (up (if Qle_bool 0 q then mk (N := exact_num Q_type) (Qred (low a2 / q)) (Qred (up a2 / q)) else mk (N := exact_num Q_type) (Qred (up a2 / q)) (Qred (low a2 / q))) : Q)
      <-> c <= t * q <= q + d - p).
    { assert (E : forall w : Q, w == w / q * q) by (intros w; field; exact NZ).
      rewrite <- L2, <- U2. clearbody a2. destruct (sign_case q NZ) as [(-> & L)|(-> & L)]; cbn [low up]; rewrite !Qred_correct.
      - rewrite <- (mul_le_pos (low a2 / q) t q L), <- (mul_le_pos t (up a2 / q) q L), <- !E. reflexivity.
      - rewrite <- (mul_le_neg t (up a2 / q) q L), <- (mul_le_neg (low a2 / q) t q L), <- !E. tauto. }
    rewrite K. split.
    + intros (A & B). destruct (Qlt_le_dec q (p + t * q - c)) as [G|G].
      * exists q, (t * q + p - q). split; [lra|]. split; [lra|]. field. exact NZ.
      * exists (p + t * q - c), c. split; [lra|]. split; [lra|]. field. exact NZ.
    + intros (x & b & X & B & T). assert (F : t * q == x + b - p) by (rewrite T; field; exact NZ). rewrite F. lra.
Qed.

(** The program itself: z = [3, 15/4] and a = [16/3, 61/9]. *)
Example C91_case : (2 # 3) <= (3 # 4) /\ 4 <= 5 /\ ~ (3 # 4) == 0 /\
  rational_main (exact_pol (exact_num Q_type) true CkBase (fun _ => true)) (2 # 3) (3 # 4) 4 5 RNE =
  (Ok (mk (N := exact_num Q_type) (3 # 1) (15 # 4), mk (N := exact_num Q_type) (16 # 3) (61 # 9)), RNE).
Proof. split; [discriminate|]. split; [discriminate|]. split; [discriminate|]. reflexivity. Qed.

Print Assumptions C91_rational.

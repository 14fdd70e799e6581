(** * Property C80: the order laws of doc/numbers.htm suffice for a base type without rounding *)

From Coq Require Import ZArith QArith Qreduction Qabs Bool Lia Lqa Ring_theory Setoid.
From Verif Require Import Outcome Base Checking Interval Utility Arith Arith2 FloatNum Spec ExactNum Ops SpecUser
  SpecOrdered OrderedProof.

(** ** C80

    For every base type that is a commutative ring with the order laws of
    doc/numbers.htm, whether or not its elements are real numbers, with
    rounded_arith_exact and any checking policy: the functions return the least
    interval of the base type that contains the results on members. *)
Theorem C80_ring : forall F, ordered_ring F ->
  forall debug c ord (x y : itv (exact_num F)) n, o_valid x -> o_valid y ->
  let P := exact_pol (exact_num F) debug c ord in
  let gives2 m f := exists z, returns m z /\ o_image2 f x y z in
  let gives1 m f := exists z, returns m z /\ o_image1 f x z in
  gives2 (op_add P x y) (ef_add F) /\ gives2 (op_sub P x y) (ef_sub F) /\ gives2 (op_mul P x y) (ef_mul F) /\
  gives2 (u_max P x y) o_max /\ gives2 (u_min P x y) o_min /\
  gives1 (op_neg P x) (ef_opp F) /\ gives1 (u_abs P x) o_abs /\ gives1 (square P x) (fun a => ef_mul F a a) /\
  ((0 < n)%Z -> gives1 (pow P x n) (fun a => o_pow a (Z.to_nat n))).
Proof.
  intros F H debug c ord x y n V W P gives2 gives1.
  split; [apply r_add; auto|]. split; [apply r_sub; auto|]. split; [apply r_mul; auto|].
  split; [apply r_max; auto|]. split; [apply r_min; auto|]. split; [apply r_neg; auto|].
  split; [apply r_abs; auto|]. split; [apply r_square; auto|]. intros Hn.
  destruct (r_pow_pos F H debug c ord x n V Hn) as (z & R & Z). exists z. split; auto.
  intros s. unfold pow. unfold P. rewrite test_v by auto.
  replace (n =? 0)%Z with false by (symmetry; apply Z.eqb_neq; lia).
  replace (n <? 0)%Z with false by (symmetry; apply Z.ltb_ge; lia). apply R.
Qed.
Print Assumptions C80_ring.

Lemma off_zero_iff F : ordered_ring F -> forall y : itv (exact_num F), ~ o_mem y (ef_int F 0) -> off_zero F y.
Proof.
  intros [TO _] y N. unfold off_zero. rewrite !(to_lt F TO).
  destruct (ef_le F (low y) (ef_int F 0)) eqn:E; [|left; unfold o_le; congruence].
  right. intros L. apply N. split; [exact E|exact L].
Qed.
(** Divisions and negative powers, for a divisor without zero. *)
Theorem C80_field : forall F, ordered_field F ->
  forall debug c ord (x y : itv (exact_num F)) n, o_valid x -> o_valid y -> ~ o_mem y (ef_int F 0) ->
  let P := exact_pol (exact_num F) debug c ord in
  (exists z, returns (op_div P x y) z /\ o_image2 (ef_div F) x y z) /\
  (exists z, returns (multiplicative_inverse P y) z /\ o_image1 (fun b => ef_div F (ef_int F 1) b) y z) /\
  ((int_min < n < 0)%Z -> exists z, returns (pow P y n) z /\
     o_image1 (fun b => ef_div F (ef_int F 1) (o_pow b (Z.to_nat (- n)))) y z).
Proof.
  intros F (H & I1 & I2) debug c ord x y n V W N P. apply (off_zero_iff F H) in N.
  split; [apply r_div; auto|]. split; [apply r_inverse; auto|]. intros Hn. apply r_pow_neg; auto.
Qed.
Print Assumptions C80_field.

(** Inclusion for expressions of any size, with interval and number operands.
    Without assertions a division by an interval that contains zero has no
    infinity to return (C50_div_zero_release). *)
Theorem C80_inclusion : forall F, ordered_ring F ->
  forall debug c ord eo (env : nat -> itv (exact_num F)) e,
  (uses_quotients e -> ordered_field F) -> (divides e -> debug = true) ->
  forall rho v z s s', (forall n, o_mem (env n) (rho n)) -> o_value e rho v ->
  eval (exact_pol (exact_num F) debug c ord) eo env e s = (Ok z, s') -> o_mem z v.
Proof.
  intros F H debug c ord eo env e HQ HD rho v z s s' HE Hv R.
  apply (inclusion F H debug c ord eo env rho HE e) with s s'; auto.
  intros K. destruct (HQ K) as (_ & I1 & I2). split; assumption.
Qed.
Print Assumptions C80_inclusion.

(** ** Types that meet the hypotheses *)

(** Dual numbers a + b*eps with eps*eps = 0, ordered lexicographically: eps is
    positive and smaller than every positive integer fraction. *)
Definition dual_le (x y : Z * Z) : bool := (fst x <? fst y)%Z || ((fst x =? fst y)%Z && (snd x <=? snd y)%Z).
Definition dual_type : exact_type := {|
  ef_T := Z * Z;
  ef_lt := fun x y => negb (dual_le y x);
  ef_le := dual_le;
  ef_eq := fun x y => (fst x =? fst y)%Z && (snd x =? snd y)%Z;
  ef_int := fun z => (z, 0%Z);
  ef_add := fun x y => (fst x + fst y, snd x + snd y)%Z;
  ef_sub := fun x y => (fst x - fst y, snd x - snd y)%Z;
  ef_mul := fun x y => (fst x * fst y, fst x * snd y + snd x * fst y)%Z;
  ef_div := fun x y => (0, 0)%Z;
  ef_opp := fun x => (- fst x, - snd x)%Z
|}.
Lemma dual_le_iff x y : dual_le x y = true <-> (fst x < fst y \/ fst x = fst y /\ snd x <= snd y)%Z.
Proof. unfold dual_le. rewrite orb_true_iff, andb_true_iff, Z.ltb_lt, Z.eqb_eq, Z.leb_le. tauto. Qed.
Lemma dual_eq_iff x y : ef_eq dual_type x y = true <-> x = y.
Proof.
  destruct x as [a b], y as [a' b']. cbn. rewrite andb_true_iff, !Z.eqb_eq. split; [intros [-> ->]; auto|].
  intros E. inversion E. auto.
Qed.
Lemma dual_ring : ordered_ring dual_type.
Proof.
  split; [|split].
  - constructor; unfold o_le, o_lt, o_eq; cbn [ef_le ef_lt dual_type].
    + intros a b. rewrite !dual_le_iff. lia.
    + intros a b c. rewrite !dual_le_iff. lia.
    + intros a b. destruct (dual_le b a); cbn; split; try discriminate; auto; intros K; try reflexivity; try (exfalso; auto; fail).
    + intros a b. rewrite dual_eq_iff. cbn [ef_le dual_type]. rewrite !dual_le_iff. destruct a as [a b0], b as [a' b']. cbn.
      split; [intros E; inversion E; lia|]. intros [A B]. f_equal; lia.
  - constructor; unfold o_le; cbn [ef_le ef_opp ef_add ef_mul ef_int dual_type]; intros *; rewrite !dual_le_iff; cbn [fst snd];
      intros; try lia. nia.
  - constructor.
    + constructor; intros; unfold o_eq; apply dual_eq_iff; try destruct x as [x1 x2]; try destruct y as [y1 y2];
        try destruct z as [z1 z2]; cbn [ef_add ef_mul ef_sub ef_opp ef_int dual_type fst snd]; f_equal; ring.
    + constructor; repeat intro; unfold o_eq in *; repeat match goal with K : ef_eq _ _ _ = true |- _ => apply dual_eq_iff in K; subst end;
        apply dual_eq_iff; reflexivity.
Qed.
(** [1, 2 + eps] and [-eps, eps]: no multiple of eps reaches 1. *)
Example C80_ring_case : ordered_ring dual_type /\
  o_valid (mk (N := exact_num dual_type) (1, 0) (2, 1))%Z /\ o_valid (mk (N := exact_num dual_type) (0, -1) (0, 1))%Z /\
  (forall n, o_lt (F := dual_type) (ef_mul dual_type (ef_int dual_type n) (0, 1)) (ef_int dual_type 1))%Z.
Proof.
  split; [apply dual_ring|]. split; [reflexivity|]. split; [reflexivity|]. intros n. unfold o_lt. cbn [ef_lt dual_type].
  apply negb_true_iff, not_true_is_false. rewrite dual_le_iff. cbn. lia.
Qed.

Lemma Q_le a b : o_le (F := Q_type) a b <-> (a <= b)%Q.
Proof. apply Qle_bool_iff. Qed.
Lemma Q_lt a b : o_lt (F := Q_type) a b <-> (a < b)%Q.
Proof.
  unfold o_lt. cbn. rewrite negb_true_iff. split.
  - intros E. apply Qnot_le_lt. intros L. apply Qle_bool_iff in L. congruence.
  - intros L. apply not_true_is_false. intros E. apply Qle_bool_iff in E. lra.
Qed.
Lemma Q_eq a b : o_eq (F := Q_type) a b <-> (a == b)%Q.
Proof. apply Qeq_bool_iff. Qed.
Lemma Q_total : total_order Q_type.
Proof.
  constructor; intros *; rewrite ?Q_le, ?Q_lt, ?Q_eq; intros; try lra.
Qed.
Lemma Q_inverse : inverse_law Q_type.
Proof.
  intros x y. rewrite !Q_lt, !Q_le. cbn [ef_div ef_int Q_type].
  change (inject_Z 1) with 1%Q. change (inject_Z 0) with 0%Q. intros A B. rewrite !Qred_correct. split.
  - apply Qlt_shift_div_l; lra.
  - apply Qle_shift_div_l; [lra|]. setoid_replace (1 / y * x)%Q with (x / y)%Q by (field; lra).
    apply Qle_shift_div_r; lra.
Qed.
Lemma Q_field : ordered_field Q_type.
Proof.
  split; [split; [|split]|split].
  - apply Q_total.
  - constructor; intros *; rewrite !Q_le; cbn [ef_opp ef_add ef_mul ef_int Q_type];
      change (inject_Z 0) with 0%Q; rewrite ?Qred_correct; intros; try lra.
    apply Qmult_le_compat_r; auto.
  - constructor; constructor; repeat intro; unfold o_eq in *; repeat match goal with K : ef_eq _ _ _ = true |- _ => apply Q_eq in K end;
      apply Q_eq; cbn [ef_opp ef_add ef_mul ef_sub ef_int Q_type]; rewrite ?Qred_correct; try ring;
      repeat match goal with K : (_ == _)%Q |- _ => rewrite K end; reflexivity.
  - apply Q_inverse.
  - intros a b. rewrite !Q_eq. cbn [ef_mul ef_div ef_int Q_type]. intros K. rewrite !Qred_correct. field. exact K.
Qed.
(** (x + 1/y) * x over the rationals, x = [-1,2], y = [1,3], at x = 1, y = 2. *)
Example C80_field_case : ordered_field Q_type /\
  let i a b := mk (N := exact_num Q_type) (inject_Z a) (inject_Z b) in
  let e := e_2 (N := exact_num Q_type) B_mul (e_2 B_add (e_var 0) (e_1 U_inverse (e_var 1))) (e_var 0) in
  let env n := match n with O => i (-1) 2 | _ => i 1 3 end%Z in
  let rho n := match n with O => 1%Q | _ => 2%Q end in
  uses_quotients e /\ divides e /\ (forall n, o_mem (env n) (rho n)) /\ o_value e rho (3 # 2)%Q /\
  exists z, eval (exact_pol (exact_num Q_type) true CkBase (fun _ => true)) (fun _ => true) env e RNE = (Ok z, RNE) /\
    low z = (-3 # 1)%Q /\ up z = (6 # 1)%Q.
Proof.
  split; [apply Q_field|]. cbv zeta. split; [cbn; tauto|]. split; [cbn; tauto|]. split; [|split].
  - intros [|n]; split; reflexivity.
  - cbn [o_value]. exists (3 # 2)%Q, 1%Q. split; [|split; [reflexivity|reflexivity]].
    exists 1%Q, (1 # 2)%Q. split; [reflexivity|]. split; [|reflexivity].
    exists 2%Q. split; [reflexivity|]. split; [discriminate|reflexivity].
  - eexists. split; [vm_compute; reflexivity|]. split; reflexivity.
Qed.

(** ** The laws alone are not enough

    A type with the total order and all five laws, whose operators are not those
    of a ring: x + y computes x - y, or x * y computes x * |y|. *)
Definition odd_type (add mul : Q -> Q -> Q) : exact_type := {|
  ef_T := Q; ef_lt := ef_lt Q_type; ef_le := ef_le Q_type; ef_eq := ef_eq Q_type; ef_int := inject_Z;
  ef_add := add; ef_sub := ef_sub Q_type; ef_mul := mul; ef_div := ef_div Q_type; ef_opp := ef_opp Q_type
|}.
Lemma odd_laws add mul : (forall x y z, x <= y -> add x z <= add y z)%Q ->
  (forall x y z, x <= y -> 0 <= z -> mul x z <= mul y z)%Q ->
  total_order (odd_type add mul) /\ order_laws (odd_type add mul) /\ inverse_law (odd_type add mul).
Proof.
  intros A M. split; [|split].
  - destruct Q_total as [T1 T2 T3 T4]. constructor; [exact T1|exact T2|exact T3|exact T4].
  - destruct Q_field as ((_ & [L1 L2 _ _] & _) & _). constructor.
    + exact L1.
    + exact L2.
    + intros x y z L. apply Q_le. apply A. apply Q_le, L.
    + intros x y z L K. apply Q_le. apply M; apply Q_le; [exact L|exact K].
  - exact Q_inverse.
Qed.
Theorem C80_identities_needed :
  let fails F op f := exists x y z : itv (exact_num F), exists a b,
    o_valid x /\ o_valid y /\ returns (op (exact_pol (exact_num F) true CkBase (fun _ => true)) x y) z /\
    o_mem x a /\ o_mem y b /\ ~ o_mem z (f a b) in
  (exists F, total_order F /\ order_laws F /\ inverse_law F /\ fails F op_add (ef_add F)) /\
  (exists F, total_order F /\ order_laws F /\ inverse_law F /\ fails F op_mul (ef_mul F)).
Proof.
  intros fails. split.
  - exists (odd_type (fun x y => Qred (x - y)) (fun x y => Qred (x * y))).
    destruct (odd_laws (fun x y => Qred (x - y)) (fun x y => Qred (x * y))) as (T1 & T2 & T3).
    + intros x y z L. rewrite !Qred_correct. lra.
    + intros x y z L K. rewrite !Qred_correct. apply Qmult_le_compat_r; auto.
    + split; [exact T1|]. split; [exact T2|]. split; [exact T3|].
      exists (mk (N := exact_num (odd_type (fun x y => Qred (x - y)) (fun x y => Qred (x * y)))) (inject_Z 0) (inject_Z 1)), (mk (N := exact_num (odd_type (fun x y => Qred (x - y)) (fun x y => Qred (x * y)))) (inject_Z 0) (inject_Z 1)), (mk (N := exact_num (odd_type (fun x y => Qred (x - y)) (fun x y => Qred (x * y)))) (0 # 1)%Q (0 # 1)%Q), 1%Q, 0%Q.
      split; [reflexivity|]. split; [reflexivity|]. split; [intros s; reflexivity|].
      split; [split; reflexivity|]. split; [split; reflexivity|]. intros [_ K]. discriminate K.
  - exists (odd_type (fun x y => Qred (x + y)) (fun x y => Qred (x * Qabs y))).
    destruct (odd_laws (fun x y => Qred (x + y)) (fun x y => Qred (x * Qabs y))) as (T1 & T2 & T3).
    + intros x y z L. rewrite !Qred_correct. lra.
    + intros x y z L K. rewrite !Qred_correct. apply Qmult_le_compat_r; auto. apply Qabs_nonneg.
    + split; [exact T1|]. split; [exact T2|]. split; [exact T3|].
      exists (mk (N := exact_num (odd_type (fun x y => Qred (x + y)) (fun x y => Qred (x * Qabs y)))) (inject_Z (-2)) (inject_Z (-1))), (mk (N := exact_num (odd_type (fun x y => Qred (x + y)) (fun x y => Qred (x * Qabs y)))) (inject_Z (-2)) (inject_Z (-1))), (mk (N := exact_num (odd_type (fun x y => Qred (x + y)) (fun x y => Qred (x * Qabs y)))) (-1 # 1)%Q (-4 # 1)%Q), (-1)%Q, (-1)%Q.
      split; [reflexivity|]. split; [reflexivity|]. split; [intros s; reflexivity|].
      split; [split; reflexivity|]. split; [split; reflexivity|]. intros [_ K]. discriminate K.
Qed.
Print Assumptions C80_identities_needed.

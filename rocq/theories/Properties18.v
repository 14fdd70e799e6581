(** * C63: algebraic laws of the operations

    Expressions that are equal by a law of the reals that uses each operand once
    give intervals with the same bounds, rounding included. *)

From Coq Require Import Reals ZArith Lra Lia Bool List Psatz.
From Flocq Require Import Core BinarySingleNaN.
From Verif Require Import Outcome Base Checking Interval Utility Arith Arith2 FloatNum Spec ExtR Sem
  CoreArith CoreDiv CoreMore CoreFun CoreUtil FloatSpec FloatPol Inst Witness LawsProof.
Local Open Scope R_scope.

(** Both expressions return, in every rounding mode, nonempty intervals with
    the same bounds. *)
Definition same_results {p} (m m' : M (itv (fnum p))) : Prop :=
  exists z z', returns m z /\ returns m' z' /\ fvalid z /\ fvalid z' /\ fsame z z'.
(** The bounds of the operand x. *)
Definition gives_back {p} (m : M (itv (fnum p))) (x : itv (fnum p)) : Prop := same_results m (ret x).
Definition meet {p} (x y : itv (fnum p)) : Prop := exists r, fmem x r /\ fmem y r.

Lemma agrees {p} (m m' : M (itv (fnum p))) : agree p m m' -> same_results m m'.
Proof. intros A. exact A. Qed.
Theorem C63_commutative : forall p k debug c ord (x y : itv (fnum p)), fvalid x -> fvalid y ->
  let P := fpol p Save k debug c ord in
  same_results (op_add P x y) (op_add P y x) /\
  same_results (op_mul P x y) (op_mul P y x) /\
  same_results (u_max P x y) (u_max P y x) /\
  same_results (u_min P x y) (u_min P y x) /\
  same_results (hull P x y) (hull P y x) /\
  (meet x y -> same_results (intersect P x y) (intersect P y x)) /\
  (~ meet x y -> gives_empty c (intersect P x y) /\ gives_empty c (intersect P y x)).
Proof.
  intros p k debug c ord x y Hx Hy P.
  split; [|split; [|split; [|split; [|split; [|split]]]]].
  - apply agrees. eapply agree_ext; [|apply g_add; assumption|apply g_add; assumption].
    intros t; split; intros (a & b & Ma & Mb & ->); exists b, a; (split; [exact Mb|split; [exact Ma|ring]]).
  - apply agrees. eapply agree_ext; [|apply g_mul; assumption|apply g_mul; assumption].
    intros t; split; intros (a & b & Ma & Mb & ->); exists b, a; (split; [exact Mb|split; [exact Ma|ring]]).
  - apply agrees. eapply agree_ext; [|apply exactly_gives, g_max; assumption|apply exactly_gives, g_max; assumption].
    intros t; split; intros (a & b & Ma & Mb & ->); exists b, a; (split; [exact Mb|split; [exact Ma|apply Rmax_comm]]).
  - apply agrees. eapply agree_ext; [|apply exactly_gives, g_min; assumption|apply exactly_gives, g_min; assumption].
    intros t; split; intros (a & b & Ma & Mb & ->); exists b, a; (split; [exact Mb|split; [exact Ma|apply Rmin_comm]]).
  - apply agrees. eapply agree_ext; [|apply g_hull; assumption|apply g_hull; assumption]. intros t; unfold either; tauto.
  - intros (r & Mx & My). apply agrees. eapply agree_ext; [|apply exactly_gives, g_inter|apply exactly_gives, g_inter]; try assumption.
    + intros t; unfold both; tauto.
    + exists r; split; assumption.
    + exists r; split; assumption.
  - intros D. split; apply (empty_gives p k debug c ord); intros o Ho s.
    + exact (intersect_disjoint (fpolspec p Save k debug c ord) x y o Hx Hy D Ho s).
    + refine (intersect_disjoint (fpolspec p Save k debug c ord) y x o Hy Hx _ Ho s). intros (r & A & B). apply D. exists r. split; assumption.
Qed.
Print Assumptions C63_commutative.

(** x + 0, x - 0, x * 1, x * 0; the point is given by any float of that value,
    so either zero. *)
Theorem C63_neutral : forall p k debug c ord (x : itv (fnum p)) (zero one : T (fnum p)), fvalid x ->
  fval (zero : flt (p_T p)) = Fin 0 -> fval (one : flt (p_T p)) = Fin 1 ->
  let P := fpol p Save k debug c ord in
  gives_back (op_add P x (mk zero zero)) x /\
  gives_back (op_sub P x (mk zero zero)) x /\
  gives_back (op_mul P x (mk one one)) x /\
  gives_back (op_div P x (mk one one)) x /\
  gives_back (op_mul P x (mk zero zero)) (mk zero zero).
Proof.
  intros p k debug c ord x zero one Hx E0 E1 P.
  assert (V0 : fvalid (mk zero zero)) by (exact (valid_point zero 0 E0)).
  assert (V1 : fvalid (mk one one)) by (exact (valid_point one 1 E1)).
  assert (M0 : forall r, fmem (mk zero zero) r <-> r = 0).
  { intros r. unfold fmem, mem. cbn [low up]. rewrite E0. simpl. split; lra. }
  assert (M1 : forall r, fmem (mk one one) r <-> r = 1).
  { intros r. unfold fmem, mem. cbn [low up]. rewrite E1. simpl. split; lra. }
  split; [|split; [|split; [|split]]].
  - apply agrees. eapply agree_ext; [|apply g_add; assumption|apply exactly_gives, ret_exact; assumption].
    intros t; split.
    + intros (a & b & Ma & Mb & ->). apply M0 in Mb. subst b. rewrite Rplus_0_r. exact Ma.
    + intros Mt. exists t, 0. split; [exact Mt|]. split; [apply M0; reflexivity|ring].
  - apply agrees. eapply agree_ext; [|apply g_sub; assumption|apply exactly_gives, ret_exact; assumption].
    intros t; split.
    + intros (a & b & Ma & Mb & ->). apply M0 in Mb. subst b. rewrite Rminus_0_r. exact Ma.
    + intros Mt. exists t, 0. split; [exact Mt|]. split; [apply M0; reflexivity|ring].
  - apply agrees. eapply agree_ext; [|apply g_mul; assumption|apply exactly_gives, ret_exact; assumption].
    intros t; split.
    + intros (a & b & Ma & Mb & ->). apply M1 in Mb. subst b. rewrite Rmult_1_r. exact Ma.
    + intros Mt. exists t, 1. split; [exact Mt|]. split; [apply M1; reflexivity|ring].
  - apply agrees. eapply agree_ext; [|apply (g_div p k debug c ord); [exact Hx|exact V1|intros M; apply M1 in M; lra]|apply exactly_gives, ret_exact; assumption].
    intros t; split.
    + intros (a & b & Ma & Mb & ->). apply M1 in Mb. subst b. replace (a / 1) with a by field. exact Ma.
    + intros Mt. exists t, 1. split; [exact Mt|]. split; [apply M1; reflexivity|field].
  - apply agrees. eapply agree_ext; [|apply g_mul; assumption|apply exactly_gives, ret_exact; exact V0].
    intros t; split.
    + intros (a & b & Ma & Mb & ->). apply M0 in Mb. subst b. rewrite Rmult_0_r. apply M0. reflexivity.
    + intros Mt. apply M0 in Mt. subst t. destruct (valid_mem _ x Hx) as (r & Mr).
      exists r, 0. split; [exact Mr|]. split; [apply M0; reflexivity|ring].
Qed.
Print Assumptions C63_neutral.

(** Signs. *)
Theorem C63_negation : forall p k debug c ord (x y : itv (fnum p)), fvalid x -> fvalid y ->
  let P := fpol p Save k debug c ord in
  gives_back (let! u := op_neg P x in op_neg P u) x /\
  same_results (op_sub P x y) (let! v := op_neg P y in op_add P x v) /\
  same_results (let! z := op_add P x y in op_neg P z) (let! u := op_neg P x in let! v := op_neg P y in op_add P u v) /\
  same_results (let! z := op_sub P x y in op_neg P z) (op_sub P y x) /\
  same_results (let! z := op_mul P x y in op_neg P z) (let! u := op_neg P x in op_mul P u y) /\
  same_results (op_mul P x y) (let! u := op_neg P x in let! v := op_neg P y in op_mul P u v) /\
  (~ fmem y 0 -> same_results (let! z := op_div P x y in op_neg P z) (let! u := op_neg P x in op_div P u y)) /\
  (~ fmem y 0 -> same_results (op_div P x y) (let! u := op_neg P x in let! v := op_neg P y in op_div P u v)) /\
  same_results (let! z := u_max P x y in op_neg P z) (let! u := op_neg P x in let! v := op_neg P y in u_min P u v) /\
  same_results (let! u := op_neg P x in u_abs P u) (u_abs P x) /\
  same_results (let! u := op_neg P x in square P u) (square P x).
Proof.
  intros p k debug c ord x y Hx Hy P.
  pose proof (g_neg p k debug c ord x Hx) as NX. pose proof (g_neg p k debug c ord y Hy) as NY.
  split; [|split; [|split; [|split; [|split; [|split; [|split; [|split; [|split; [|split]]]]]]]]]; try intros HZ.
  - apply agrees. eapply agree_ext; [|eapply bind_exact; [exact NX|]|apply exactly_gives, ret_exact; exact Hx].
    2:{ intros u Vu Du. apply exactly_gives. eapply exactly_ext; [|apply g_neg; exact Vu].
        intros t. cbv beta. instantiate (1 := image1 Ropp (image1 Ropp (fmem x))). split; intros (r & Mr & ->); exists r; (split; [apply Du; exact Mr|reflexivity]). }
    intros t; split.
    + intros (r & (s & Ms & ->) & ->). rewrite Ropp_involutive. exact Ms.
    + intros Mt. exists (- t). split; [exists t; auto|ring].
  - apply agrees. apply (gives_agree _ _ _ (image2 Rminus (fmem x) (fmem y))); [apply g_sub; assumption|].
    eapply bind_exact; [exact NY|]. intros v Vv Dv. eapply gives_ext; [|apply g_add; assumption].
    intros t; split; intros (a & b & Ma & Mb & ->).
    + apply Dv in Mb. destruct Mb as (s & Ms & ->). exists a, s. split; [exact Ma|]. split; [exact Ms|ring].
    + exists a, (- b). split; [exact Ma|]. split; [apply Dv; exists b; auto|ring].
  - apply agrees. apply (gives_agree _ _ _ (image1 Ropp (image2 Rplus (fmem x) (fmem y)))).
    + apply bind_neg; [apply ne2; assumption|apply g_add; assumption].
    + eapply bind_exact; [exact NX|]. intros u Vu Du. eapply bind_exact; [exact NY|]. intros v Vv Dv. eapply gives_ext; [|apply g_add; assumption].
      intros t; split.
      * intros (a & b & Ma & Mb & ->). apply Du in Ma. apply Dv in Mb. destruct Ma as (r & Mr & ->), Mb as (s & Ms & ->).
        exists (r + s). split; [exists r, s; auto|ring].
      * intros (q & (r & s & Mr & Ms & ->) & ->). exists (- r), (- s). split; [apply Du; exists r; auto|]. split; [apply Dv; exists s; auto|ring].
  - apply agrees. apply (gives_agree _ _ _ (image1 Ropp (image2 Rminus (fmem x) (fmem y)))).
    + apply bind_neg; [apply ne2; assumption|apply g_sub; assumption].
    + eapply gives_ext; [|apply g_sub; assumption]. intros t; split.
      * intros (a & b & Ma & Mb & ->). exists (b - a). split; [exists b, a; auto|ring].
      * intros (q & (r & s & Mr & Ms & ->) & ->). exists s, r. split; [exact Ms|]. split; [exact Mr|ring].
  - apply agrees. apply (gives_agree _ _ _ (image1 Ropp (image2 Rmult (fmem x) (fmem y)))).
    + apply bind_neg; [apply ne2; assumption|apply g_mul; assumption].
    + eapply bind_exact; [exact NX|]. intros u Vu Du. eapply gives_ext; [|apply g_mul; assumption]. intros t; split.
      * intros (a & b & Ma & Mb & ->). apply Du in Ma. destruct Ma as (r & Mr & ->). exists (r * b). split; [exists r, b; auto|ring].
      * intros (q & (r & s & Mr & Ms & ->) & ->). exists (- r), s. split; [apply Du; exists r; auto|]. split; [exact Ms|ring].
  - apply agrees. apply (gives_agree _ _ _ (image2 Rmult (fmem x) (fmem y))); [apply g_mul; assumption|].
    eapply bind_exact; [exact NX|]. intros u Vu Du. eapply bind_exact; [exact NY|]. intros v Vv Dv. eapply gives_ext; [|apply g_mul; assumption].
    intros t; split; intros (a & b & Ma & Mb & ->).
    + apply Du in Ma. apply Dv in Mb. destruct Ma as (r & Mr & ->), Mb as (s & Ms & ->). exists r, s. split; [exact Mr|]. split; [exact Ms|ring].
    + exists (- a), (- b). split; [apply Du; exists a; auto|]. split; [apply Dv; exists b; auto|ring].
  - apply agrees. apply (gives_agree _ _ _ (image1 Ropp (image2 Rdiv (fmem x) (fmem y)))).
    + apply bind_neg; [apply ne2; assumption|apply g_div; assumption].
    + eapply bind_exact; [exact NX|]. intros u Vu Du. eapply gives_ext; [|apply g_div; assumption]. intros t; split.
      * intros (a & b & Ma & Mb & ->). apply Du in Ma. destruct Ma as (r & Mr & ->). exists (r / b). split; [exists r, b; auto|unfold Rdiv; ring].
      * intros (q & (r & s & Mr & Ms & ->) & ->). exists (- r), s. split; [apply Du; exists r; auto|]. split; [exact Ms|unfold Rdiv; ring].
  - apply agrees. apply (gives_agree _ _ _ (image2 Rdiv (fmem x) (fmem y))); [apply g_div; assumption|].
    eapply bind_exact; [exact NX|]. intros u Vu Du. eapply bind_exact; [exact NY|]. intros v Vv Dv.
    assert (HV : ~ mem (N := fnum p) (@fval (p_T p)) v 0).
    { intros M. apply Dv in M. destruct M as (s & Ms & E). apply HZ. replace 0 with s by lra. exact Ms. }
    eapply gives_ext; [|apply g_div; assumption].
    intros t; split; intros (a & b & Ma & Mb & ->).
    + assert (Z : b <> 0) by (intros ->; exact (HV Mb)).
      apply Du in Ma. apply Dv in Mb. destruct Ma as (r & Mr & ->), Mb as (s & Ms & ->). exists r, s. split; [exact Mr|]. split; [exact Ms|field; lra].
    + assert (Z : b <> 0) by (intros ->; exact (HZ Mb)).
      exists (- a), (- b). split; [apply Du; exists a; auto|]. split; [apply Dv; exists b; auto|field; lra].
  - apply agrees. apply (gives_agree _ _ _ (image1 Ropp (image2 Rmax (fmem x) (fmem y)))).
    + apply bind_neg; [apply ne2; assumption|apply exactly_gives, g_max; assumption].
    + eapply bind_exact; [exact NX|]. intros u Vu Du. eapply bind_exact; [exact NY|]. intros v Vv Dv. eapply gives_ext; [|apply exactly_gives, g_min; assumption].
      intros t; split.
      * intros (a & b & Ma & Mb & ->). apply Du in Ma. apply Dv in Mb. destruct Ma as (r & Mr & ->), Mb as (s & Ms & ->).
        exists (Rmax r s). split; [exists r, s; auto|]. symmetry. apply Ropp_Rmax.
      * intros (q & (r & s & Mr & Ms & ->) & ->). exists (- r), (- s). split; [apply Du; exists r; auto|]. split; [apply Dv; exists s; auto|apply Ropp_Rmax].
  - apply agrees. apply (gives_agree _ _ _ (image1 Rabs (fmem x))); [|apply exactly_gives, g_abs; assumption].
    eapply bind_exact; [exact NX|]. intros u Vu Du. eapply gives_ext; [|apply exactly_gives, g_abs; assumption].
    intros t; split; intros (a & Ma & ->).
    + apply Du in Ma. destruct Ma as (r & Mr & ->). exists r. split; [exact Mr|apply Rabs_Ropp].
    + exists (- a). split; [apply Du; exists a; auto|symmetry; apply Rabs_Ropp].
  - apply agrees. apply (gives_agree _ _ _ (image1 (fun r => r * r) (fmem x))); [|apply g_square; assumption].
    eapply bind_exact; [exact NX|]. intros u Vu Du. eapply gives_ext; [|apply g_square; assumption].
    intros t; split; intros (a & Ma & ->).
    + apply Du in Ma. destruct Ma as (r & Mr & ->). exists r. split; [exact Mr|ring].
    + exists (- a). split; [apply Du; exists a; auto|ring].
Qed.
Print Assumptions C63_negation.

(** x + x and 2 * x: an interval contains the midpoints of its members. *)
Theorem C63_double : forall p k debug c ord (x : itv (fnum p)) (two : T (fnum p)), fvalid x ->
  fval (two : flt (p_T p)) = Fin 2 ->
  let P := fpol p Save k debug c ord in
  same_results (op_add P x x) (op_mul P (mk two two) x).
Proof.
  intros p k debug c ord x two Hx E2 P.
  assert (V2 : fvalid (mk two two)) by (exact (valid_point two 2 E2)).
  assert (M2 : forall r, fmem (mk two two) r <-> r = 2).
  { intros r. unfold fmem, mem. cbn [low up]. rewrite E2. simpl. split; lra. }
  apply agrees. eapply agree_ext; [|apply g_add; assumption|apply g_mul; assumption].
  intros t; split.
  - intros (a & b & Ma & Mb & ->). exists 2, ((a + b) / 2). split; [apply M2; reflexivity|]. split; [|field].
    destruct (Rle_lt_dec a b).
    + apply (mem_between p x a b); try assumption; lra.
    + apply (mem_between p x b a); try assumption; lra.
  - intros (a & b & Ma & Mb & ->). apply M2 in Ma. subst a. exists b, b. split; [exact Mb|]. split; [exact Mb|ring].
Qed.
Print Assumptions C63_double.

(** max, min, hull and intersect: associative, idempotent; the absorption laws
    of hull and intersect. *)
Theorem C63_lattice : forall p k debug c ord (x y z : itv (fnum p)), fvalid x -> fvalid y -> fvalid z ->
  let P := fpol p Save k debug c ord in
  (gives_back (u_max P x x) x /\ gives_back (u_min P x x) x /\ gives_back (hull P x x) x /\ gives_back (intersect P x x) x) /\
  same_results (let! a := u_max P x y in u_max P a z) (let! b := u_max P y z in u_max P x b) /\
  same_results (let! a := u_min P x y in u_min P a z) (let! b := u_min P y z in u_min P x b) /\
  same_results (let! a := hull P x y in hull P a z) (let! b := hull P y z in hull P x b) /\
  ((exists r, fmem x r /\ fmem y r /\ fmem z r) ->
    same_results (let! a := intersect P x y in intersect P a z) (let! b := intersect P y z in intersect P x b)) /\
  gives_back (let! h := hull P x y in intersect P x h) x /\
  (meet x y -> gives_back (let! h := intersect P x y in hull P x h) x).
Proof.
  intros p k debug c ord x y z Hx Hy Hz P.
  split; [split; [|split; [|split]]|split; [|split; [|split; [|split; [|split]]]]].
  - apply agrees. eapply agree_ext; [|apply exactly_gives, g_max; assumption|apply exactly_gives, ret_exact; assumption].
    intros t; split.
    + intros (a & b & Ma & Mb & ->). unfold Rmax. destruct (Rle_dec a b); assumption.
    + intros Mt. exists t, t. split; [exact Mt|]. split; [exact Mt|]. rewrite Rmax_left; lra.
  - apply agrees. eapply agree_ext; [|apply exactly_gives, g_min; assumption|apply exactly_gives, ret_exact; assumption].
    intros t; split.
    + intros (a & b & Ma & Mb & ->). unfold Rmin. destruct (Rle_dec a b); assumption.
    + intros Mt. exists t, t. split; [exact Mt|]. split; [exact Mt|]. rewrite Rmin_left; lra.
  - apply agrees. eapply agree_ext; [|apply g_hull; assumption|apply exactly_gives, ret_exact; assumption]. intros t; unfold either; tauto.
  - apply agrees. eapply agree_ext; [|apply exactly_gives, g_inter; try assumption|apply exactly_gives, ret_exact; assumption]; [intros t; unfold both; tauto|].
    destruct (valid_mem _ x Hx) as (r & Mr). exists r. split; exact Mr.
  - apply agrees. apply (gives_agree _ _ _ (image2 Rmax (image2 Rmax (fmem x) (fmem y)) (fmem z))).
    + eapply bind_exact; [apply g_max; assumption|]. intros a Va Da. eapply gives_ext; [|apply exactly_gives, g_max; assumption].
      intros t; split; intros (q & s & Mq & Ms & ->); exists q, s; (split; [apply Da; exact Mq|split; [exact Ms|reflexivity]]).
    + eapply bind_exact; [apply g_max; assumption|]. intros b Vb Db. eapply gives_ext; [|apply exactly_gives, g_max; assumption].
      intros t; split.
      * intros (q & s & Mq & Ms & ->). apply Db in Ms. destruct Ms as (u & v & Mu & Mv & ->). exists (Rmax q u), v.
        split; [exists q, u; auto|]. split; [exact Mv|]. apply Rmax_assoc.
      * intros (q & v & (r & u & Mr & Mu & ->) & Mv & ->). exists r, (Rmax u v). split; [exact Mr|].
        split; [apply Db; exists u, v; auto|]. symmetry. apply Rmax_assoc.
  - apply agrees. apply (gives_agree _ _ _ (image2 Rmin (image2 Rmin (fmem x) (fmem y)) (fmem z))).
    + eapply bind_exact; [apply g_min; assumption|]. intros a Va Da. eapply gives_ext; [|apply exactly_gives, g_min; assumption].
      intros t; split; intros (q & s & Mq & Ms & ->); exists q, s; (split; [apply Da; exact Mq|split; [exact Ms|reflexivity]]).
    + eapply bind_exact; [apply g_min; assumption|]. intros b Vb Db. eapply gives_ext; [|apply exactly_gives, g_min; assumption].
      intros t; split.
      * intros (q & s & Mq & Ms & ->). apply Db in Ms. destruct Ms as (u & v & Mu & Mv & ->). exists (Rmin q u), v.
        split; [exists q, u; auto|]. split; [exact Mv|]. apply Rmin_assoc.
      * intros (q & v & (r & u & Mr & Mu & ->) & Mv & ->). exists r, (Rmin u v). split; [exact Mr|].
        split; [apply Db; exists u, v; auto|]. symmetry. apply Rmin_assoc.
  - apply agrees. eapply agree_ext; [|apply bind_hull; [exact Hz|apply g_hull; assumption]|apply bind_hull'; [exact Hx|apply g_hull; assumption]].
    intros t; unfold either; tauto.
  - intros (r & Mx & My & Mz). apply agrees. apply (gives_agree _ _ _ (fun t => fmem x t /\ fmem y t /\ fmem z t)).
    + eapply bind_exact; [apply g_inter; try assumption; exists r; split; assumption|]. intros a Va Da.
      eapply gives_ext; [|apply exactly_gives, g_inter; try assumption; exists r; split; [apply Da; split; assumption|exact Mz]].
      intros t. unfold both. split; [intros (A & B); apply Da in A; destruct A; auto|intros (A & B & C); split; [apply Da; split; assumption|exact C]].
    + eapply bind_exact; [apply g_inter; try assumption; exists r; split; assumption|]. intros b Vb Db.
      eapply gives_ext; [|apply exactly_gives, g_inter; try assumption; exists r; split; [exact Mx|apply Db; split; assumption]].
      intros t. unfold both. split; [intros (A & B); apply Db in B; destruct B; auto|intros (A & B & C); split; [exact A|apply Db; split; assumption]].
  - apply agrees. apply (gives_agree _ _ _ (fmem x)); [apply exactly_gives, bind_inter_hull; assumption|apply exactly_gives, ret_exact; assumption].
  - intros (r & Mx & My). apply agrees. apply (gives_agree _ _ _ (fmem x)); [|apply exactly_gives, ret_exact; assumption].
    eapply bind_exact; [apply g_inter; try assumption; exists r; split; assumption|]. intros h Vh Dh.
    eapply gives_ext; [|apply g_hull; assumption]. intros t; unfold either. split; [intros [A|A]; [exact A|apply Dh in A; apply A]|auto].
Qed.
Print Assumptions C63_lattice.

(** ** What rounding breaks

    Addition is not associative: (1 + 2^-53) + 2^-53 against 1 + (2^-53 + 2^-53). *)
Theorem C63_add_associative_refuted : exists x y z : itv (fnum double_sse), fvalid x /\ fvalid y /\ fvalid z /\
  ~ same_results (let! a := op_add Pdef x y in op_add Pdef a z) (let! b := op_add Pdef y z in op_add Pdef x b).
Proof.
  exists (di 1 1), (mk (dbl 1 (-53)) (dbl 1 (-53))), (mk (dbl 1 (-53)) (dbl 1 (-53))).
  assert (V2 : fvalid (mk (dbl 1 (-53)) (dbl 1 (-53)) : itv (fnum double_sse))) by (apply validb_ok; reflexivity).
  split; [apply di_valid; lia|]. split; [exact V2|]. split; [exact V2|].
  intros (u & v & Ru & Rv & _ & _ & (E & _)).
  assert (A : run show (let! a := op_add Pdef (di 1 1) (mk (dbl 1 (-53)) (dbl 1 (-53))) in op_add Pdef a (mk (dbl 1 (-53)) (dbl 1 (-53)))) RNE
    = (Ok (show (mk (dbl 1 0) (dbl 4503599627370498 (-52)))), RNE)) by (vm_compute; reflexivity).
  assert (B : run show (let! b := op_add Pdef (mk (dbl 1 (-53)) (dbl 1 (-53))) (mk (dbl 1 (-53)) (dbl 1 (-53))) in op_add Pdef (di 1 1) b) RNE
    = (Ok (show (mk (dbl 4503599627370497 (-52)) (dbl 4503599627370497 (-52)))), RNE)) by (vm_compute; reflexivity).
  unfold run in A, B. rewrite (Ru RNE) in A. rewrite (Rv RNE) in B. simpl omap in A, B.
  assert (A' : show u = show (mk (dbl 1 0) (dbl 4503599627370498 (-52)))) by congruence.
  assert (B' : show v = show (mk (dbl 4503599627370497 (-52)) (dbl 4503599627370497 (-52)))) by congruence.
  apply show_inj in A'. apply show_inj in B'. subst u v. cbn [low up] in E.
  assert (C : (Bltb (dbl 1 0 : flt binary64) (dbl 4503599627370497 (-52))) = true) by (vm_compute; reflexivity).
  apply Bltb_fval in C.
  change (fval (dbl 1 0 : flt binary64) = fval (dbl 4503599627370497 (-52) : flt binary64)) in E. rewrite E in C. revert C. apply xlt_irrefl.
Qed.
Print Assumptions C63_add_associative_refuted.

(** Nor is x * (y + z) a subset of x * y + x * z: 3 * (1 + 2^-53). *)
Theorem C63_subdistributive_refuted : exists (x y z u v : itv (fnum double_sse)) (r : R), fvalid x /\ fvalid y /\ fvalid z /\
  returns (let! a := op_add Pdef y z in op_mul Pdef x a) u /\
  returns (let! a := op_mul Pdef x y in let! b := op_mul Pdef x z in op_add Pdef a b) v /\
  fmem u r /\ ~ fmem v r.
Proof.
  set (e := mk (dbl 1 (-53)) (dbl 1 (-53)) : itv (fnum double_sse)).
  assert (Ve : fvalid e) by (apply validb_ok; reflexivity).
  assert (Vx : fvalid (di 3 3)) by (apply di_valid; lia). assert (Vy : fvalid (di 1 1)) by (apply di_valid; lia).
  destruct (g_add double_sse Opp true CkStrict (fun _ => true) (di 1 1) e Vy Ve) as (a & Ra & Va & _).
  destruct (g_mul double_sse Opp true CkStrict (fun _ => true) (di 3 3) a Vx Va) as (u & Ru & Vu & _).
  destruct (g_mul double_sse Opp true CkStrict (fun _ => true) (di 3 3) (di 1 1) Vx Vy) as (b & Rb & Vb & _).
  destruct (g_mul double_sse Opp true CkStrict (fun _ => true) (di 3 3) e Vx Ve) as (d & Rd & Vd & _).
  destruct (g_add double_sse Opp true CkStrict (fun _ => true) b d Vb Vd) as (v & Rv & Vv & _).
  assert (RU : returns (let! a := op_add Pdef (di 1 1) e in op_mul Pdef (di 3 3) a) u).
  { intros s. unfold bind. fold Pdef in *. rewrite (Ra s). exact (Ru s). }
  assert (RV : returns (let! a := op_mul Pdef (di 3 3) (di 1 1) in let! b := op_mul Pdef (di 3 3) e in op_add Pdef a b) v).
  { intros s. unfold bind. fold Pdef in *. rewrite (Rb s), (Rd s). exact (Rv s). }
  assert (A : run show (let! a := op_add Pdef (di 1 1) e in op_mul Pdef (di 3 3) a) RNE
    = (Ok (show (mk (dbl 3 0) (dbl 3377699720527873 (-50)))), RNE)) by (vm_compute; reflexivity).
  assert (B : run show (let! a := op_mul Pdef (di 3 3) (di 1 1) in let! b := op_mul Pdef (di 3 3) e in op_add Pdef a b) RNE
    = (Ok (show (mk (dbl 3 0) (dbl 6755399441055745 (-51)))), RNE)) by (vm_compute; reflexivity).
  unfold run in A, B. rewrite (RU RNE) in A. rewrite (RV RNE) in B. simpl omap in A, B.
  assert (A' : show u = show (mk (dbl 3 0) (dbl 3377699720527873 (-50)))) by congruence.
  assert (B' : show v = show (mk (dbl 3 0) (dbl 6755399441055745 (-51)))) by congruence.
  apply show_inj in A'. apply show_inj in B'.
  exists (di 3 3), (di 1 1), e, u, v, (B2R (dbl 3377699720527873 (-50) : flt binary64)).
  split; [exact Vx|]. split; [exact Vy|]. split; [exact Ve|]. split; [exact RU|]. split; [exact RV|].
  assert (F : fval (dbl 3377699720527873 (-50) : flt binary64) = Fin (B2R (dbl 3377699720527873 (-50) : flt binary64))).
  { apply fval_finite. vm_compute. reflexivity. }
  subst u v. split.
  - destruct Vu as (L & _). cbn [low up] in L.
    change (xle (fval (dbl 3 0 : flt binary64)) (fval (dbl 3377699720527873 (-50) : flt binary64))) in L. split.
    + change (xle (fval (dbl 3 0 : flt binary64)) (Fin (B2R (dbl 3377699720527873 (-50) : flt binary64)))). rewrite <- F. exact L.
    + change (xle (Fin (B2R (dbl 3377699720527873 (-50) : flt binary64))) (fval (dbl 3377699720527873 (-50) : flt binary64))). rewrite F. simpl. lra.
  - intros (_ & U). cbn [low up] in U.
    change (xle (Fin (B2R (dbl 3377699720527873 (-50) : flt binary64))) (fval (dbl 6755399441055745 (-51) : flt binary64))) in U. rewrite <- F in U.
    assert (C : (Bltb (dbl 6755399441055745 (-51) : flt binary64) (dbl 3377699720527873 (-50))) = true) by (vm_compute; reflexivity).
    apply Bltb_fval in C. exact (xlt_irrefl _ (xlt_le_trans _ _ _ C U)).
Qed.
Print Assumptions C63_subdistributive_refuted.

(** The hypotheses are met, and the roundings matter: 1 / 3 twice. *)
Example C63_case : fvalid (di (-1) 2) /\ fvalid (di 1 3) /\ meet (di (-1) 2) (di 1 3) /\ ~ fmem (di 1 3) 0 /\
  run show (let! z := op_div Pdef (di (-1) 2) (di 3 7) in op_neg Pdef z) RNE = run show (let! u := op_neg Pdef (di (-1) 2) in op_div Pdef u (di 3 7)) RNE /\
  run show (op_div Pdef (di (-1) 2) (di 3 7)) RNE = (Ok (show (mk (dbl (-6004799503160662) (-54)) (dbl 6004799503160662 (-53)))), RNE).
Proof.
  split; [apply di_valid; lia|]. split; [apply di_valid; lia|]. split.
  { exists 1. unfold fmem, mem, di. cbn [low up]. repeat dval. simpl. lra. }
  split. { intros (A & _). revert A. unfold di. cbn [low up]. dval. simpl. lra. }
  split; vm_compute; reflexivity.
Qed.

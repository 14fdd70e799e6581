(** * Inclusion from the documented requirements on the rounding policy

    The proofs of CoreArith.v ... CoreUtil.v without optimality: the rounding
    functions are only known to return bounds (SpecUser.v). *)

From Coq Require Import Reals ZArith Lra Lia Psatz Bool List.
From Verif Require Import Outcome Base Checking Interval Utility Arith Arith2 FloatNum Spec ExtR Sem
  CoreArith CoreDiv CoreMore CoreFun CorePow CoreUtil Ops SpecUser.
Local Open Scope R_scope.

Section Sound.
Context {N : num} {rnd : ext -> ext} {val : T N -> ext} {P : policy N} {ready : rmode -> Prop}
        (HR : rounding rnd) (H : user_policy rnd val P ready).
Notation V := (valid val).
Notation NS := (up_num _ _ _ _ H).
Notation CS := (up_ck _ _ _ _ H).
Notation prods x y := (image2 Rmult (mem val x) (mem val y)).
Notation quots x y := (quotients (mem val x) (mem val y)).
Notation bound_of := (CoreArith.bound_of (N := N)).
Notation image2_point_l := (CoreMore.image2_point_l (val := val)).
Notation image2_point_r := (CoreMore.image2_point_r (val := val)).
Notation quots_point := (CoreMore.quots_point (val := val)).

(** The interval contains the rounded results. *)
Definition sound (z : itv N) (S : R -> Prop) : Prop :=
  forall r, S r -> xle (val (low z)) (rnd (Fin r)) /\ xle (rnd (Fin r)) (val (up z)).

Lemma sound_intro a b (S : R -> Prop) e1 e2 :
  is_lb e1 S -> is_ub e2 S -> LB rnd val e1 a -> UB rnd val e2 b -> sound (mk a b) S.
Proof.
  intros L U A B r Hr. split; cbn [low up].
  - eapply xle_trans; [exact A|]. apply (rnd_mono _ HR). apply L; auto.
  - eapply xle_trans; [|exact B]. apply (rnd_mono _ HR). apply U; auto.
Qed.
Lemma sound_ext z (S S' : R -> Prop) : (forall r, S r <-> S' r) -> sound z S -> sound z S'.
Proof. intros E K r Hr. apply K, E, Hr. Qed.
Lemma rnd_fin_nn r : rnd (Fin r) <> NaN.
Proof. assert (K : xle (Fin r) (Fin r)) by (simpl; lra). apply (rnd_mono _ HR) in K. eapply xle_nnl; eauto. Qed.
Lemma LB_ninf t : val t = NInf -> LB rnd val NInf t.
Proof. intros E. unfold LB. rewrite E, (rnd_ninf _ HR). exact I. Qed.
Lemma UB_pinf t : val t = PInf -> UB rnd val PInf t.
Proof. intros E. unfold UB. rewrite E, (rnd_pinf _ HR). exact I. Qed.
Lemma with_rnd_runs_u {A} (body : M A) a : runsI ready body a -> runsP P ready (with_rnd P body) a.
Proof.
  intros Hb. unfold runsP, with_rnd. destruct (p_prot P) eqn:E; auto.
  intros s. destruct (up_restore _ _ _ _ H E s) as (m & E1 & E2).
  unfold bind. rewrite E1. destruct (up_init _ _ _ _ H E s) as (s1 & Hr & ->).
  destruct (Hb s1 Hr) as (s2 & Hr2 & ->). rewrite E2. reflexivity.
Qed.

Lemma val_zero : val zero = Fin 0.
Proof. apply (ns_0 _ _ NS). Qed.
Lemma val_one : val one = Fin 1.
Proof. apply (ns_1 _ _ NS). Qed.
Lemma LB_zero : LB rnd val (Fin 0) zero.
Proof. unfold LB. rewrite val_zero, (rnd_0 _ HR). simpl. lra. Qed.
Lemma is_neg_iff v : is_neg v = true <-> xlt (val v) (Fin 0).
Proof. unfold is_neg. rewrite (ns_lt _ _ NS), val_zero. tauto. Qed.
Lemma is_pos_iff v : is_pos v = true <-> xlt (Fin 0) (val v).
Proof. unfold is_pos, n_gt. rewrite (ns_lt _ _ NS), val_zero. tauto. Qed.
Lemma is_zero_iff v : is_zero v = true <-> val v = Fin 0.
Proof.
  unfold is_zero. rewrite (ns_eq _ _ NS), val_zero. split; [tauto|].
  intros E. rewrite E. split; congruence.
Qed.
Lemma is_neg_case v : val v <> NaN ->
  (is_neg v = true /\ xlt (val v) (Fin 0)) \/ (is_neg v = false /\ xle (Fin 0) (val v)).
Proof.
  intros Hn. destruct (is_neg v) eqn:E; [left|right]; split; auto.
  - apply is_neg_iff; auto.
  - apply xnlt_le; auto; try discriminate. rewrite <- is_neg_iff. congruence.
Qed.
Lemma is_pos_case v : val v <> NaN ->
  (is_pos v = true /\ xlt (Fin 0) (val v)) \/ (is_pos v = false /\ xle (val v) (Fin 0)).
Proof.
  intros Hn. destruct (is_pos v) eqn:E; [left|right]; split; auto.
  - apply is_pos_iff; auto.
  - apply xnlt_le; auto; try discriminate. rewrite <- is_pos_iff. congruence.
Qed.
Lemma is_zero_case v :
  (is_zero v = true /\ val v = Fin 0) \/ (is_zero v = false /\ val v <> Fin 0).
Proof.
  destruct (is_zero v) eqn:E; [left|right]; split; auto.
  - apply is_zero_iff; auto.
  - rewrite <- is_zero_iff. congruence.
Qed.
Lemma le_case a b : val a <> NaN -> val b <> NaN ->
  (n_le N a b = true /\ xle (val a) (val b)) \/ (n_le N a b = false /\ xlt (val b) (val a)).
Proof.
  intros Ha Hb. destruct (n_le N a b) eqn:E; [left|right]; split; auto.
  - apply (ns_le _ _ NS); auto.
  - apply xnle_lt; auto. rewrite <- (ns_le _ _ NS). congruence.
Qed.
Lemma lt_case a b : val a <> NaN -> val b <> NaN ->
  (n_lt N a b = true /\ xlt (val a) (val b)) \/ (n_lt N a b = false /\ xle (val b) (val a)).
Proof.
  intros Ha Hb. destruct (n_lt N a b) eqn:E; [left|right]; split; auto.
  - apply (ns_lt _ _ NS); auto.
  - apply xnlt_le; auto. rewrite <- (ns_lt _ _ NS). congruence.
Qed.
Lemma test_valid x : V x -> test_input_i P x = false.
Proof. intros (Hx & _). unfold test_input_i. apply (cs_empty _ _ CS); auto. Qed.
Lemma test_valid2 x y : V x -> V y -> test_input_ii P x y = false.
Proof. intros. unfold test_input_ii. rewrite !test_valid; auto. Qed.
Lemma test_ni v y : val v <> NaN -> V y -> pureM (test_input_ni P v y) false.
Proof.
  intros Hv Hy. eapply pureM_bind; [apply (cs_nan _ _ CS); auto|].
  rewrite test_valid; auto. apply pureM_ret.
Qed.
Lemma test_in x v : val v <> NaN -> V x -> pureM (test_input_in P x v) false.
Proof.
  intros Hv Hy. unfold test_input_in. rewrite test_valid; auto. apply (cs_nan _ _ CS); auto.
Qed.
Lemma test_nn a b : val a <> NaN -> val b <> NaN -> pureM (test_input_nn P a b) false.
Proof.
  intros Ha Hb. eapply pureM_bind; [apply (cs_nan _ _ CS); auto|]. simpl. apply (cs_nan _ _ CS); auto.
Qed.
Lemma via_rnd {A} (b : M A) (Q : A -> Prop) :
  (exists z, runsI ready b z /\ Q z) -> exists z, runsP P ready (with_rnd P b) z /\ Q z.
Proof. intros (z & H1 & H2). exists z. split; auto. eapply with_rnd_runs_u; eauto. Qed.
Lemma add_case o x y : V x -> V y ->
  exists z, runsI ready (mk_args o (add_down (p_ar P) (low x) (low y)) (add_up (p_ar P) (up x) (up y))) z
            /\ sound z (image2 Rplus (mem val x) (mem val y)).
Proof.
  intros Hx Hy.
  destruct (up_add_down _ _ _ _ H (low x) (low y)) as (a & Ra & Ea); [apply xadd_low; auto|].
  destruct (up_add_up _ _ _ _ H (up x) (up y)) as (b & Rb & Eb); [apply xadd_up; auto|].
  exists (mk a b). split; [runs|].
  eapply sound_intro; [apply is_lb_add|apply is_ub_add|exact Ra|exact Rb].
Qed.
Lemma op_add_ok x y : V x -> V y ->
  exists z, runsP P ready (op_add P x y) z /\ sound z (image2 Rplus (mem val x) (mem val y)).
Proof.
  intros Hx Hy. unfold op_add. rewrite test_valid2; auto.
  apply via_rnd, add_case; auto.
Qed.
Lemma sub_case o x y : V x -> V y ->
  exists z, runsI ready (mk_args o (sub_down (p_ar P) (low x) (up y)) (sub_up (p_ar P) (up x) (low y))) z
            /\ sound z (image2 Rminus (mem val x) (mem val y)).
Proof.
  intros Hx Hy.
  destruct (up_sub_down _ _ _ _ H (low x) (up y)) as (a & Ra & Ea); [apply xsub_low; auto|].
  destruct (up_sub_up _ _ _ _ H (up x) (low y)) as (b & Rb & Eb); [apply xsub_up; auto|].
  exists (mk a b). split; [runs|].
  eapply sound_intro; [| |exact Ra|exact Rb].
  - intros t (r & s & [A _] & [_ B] & ->). unfold xsub.
    destruct (val (low x)), (val (up y)); simpl in *; try tauto; lra.
  - intros t (r & s & [_ A] & [B _] & ->). unfold xsub.
    destruct (val (up x)), (val (low y)); simpl in *; try tauto; lra.
Qed.
Lemma op_sub_ok x y : V x -> V y ->
  exists z, runsP P ready (op_sub P x y) z /\ sound z (image2 Rminus (mem val x) (mem val y)).
Proof.
  intros Hx Hy. unfold op_sub. rewrite test_valid2; auto.
  apply via_rnd, sub_case; auto.
Qed.
Lemma op_neg_ok x : V x ->
  exists z, runsP P ready (op_neg P x) z /\ denotes val z (image1 Ropp (mem val x))
            /\ V z /\ val (low z) = xopp (val (up x)) /\ val (up z) = xopp (val (low x)).
Proof.
  intros Hx. unfold op_neg. rewrite test_valid; auto.
  destruct (ns_neg _ _ NS (up x)) as (a & Ra & Ea).
  destruct (ns_neg _ _ NS (low x)) as (b & Rb & Eb).
  exists (mk a b). split; [|split; [|split; [|split; auto]]].
  - apply pure_runsP, pureM_mk_args; auto.
  - intros t. unfold mem at 1. cbn [low up]. rewrite Ra, Rb. split.
    + intros [A B]. exists (-t). split; [split|lra].
      * apply xle_opp in B. rewrite xopp_involutive in B. auto.
      * apply xle_opp in A. rewrite xopp_involutive in A. auto.
    + intros (r & [A B] & ->). split; [apply (xle_opp (Fin r))|apply (xle_opp _ (Fin r))]; auto.
  - destruct Hx as (A & B & C). split; [|split]; simpl; rewrite ?Ra, ?Rb.
    + apply xle_opp; auto.
    + destruct (val (up x)); simpl; congruence.
    + destruct (val (low x)); simpl; congruence.
Qed.
Lemma mul_case o x y cx cy dx dy : V x -> V y ->
  bound_of x cx -> bound_of y cy -> bound_of x dx -> bound_of y dy ->
  xmul (val cx) (val cy) <> NaN -> xmul (val dx) (val dy) <> NaN ->
  is_lb (xmul (val cx) (val cy)) (prods x y) ->
  is_ub (xmul (val dx) (val dy)) (prods x y) ->
  exists z, runsI ready (mk_args o (mul_down (p_ar P) cx cy) (mul_up (p_ar P) dx dy)) z
            /\ sound z (prods x y).
Proof.
  intros Hx Hy B1 B2 B3 B4 N1 N2 L U.
  destruct (up_mul_down _ _ _ _ H cx cy) as (a & Ra & Ea); auto.
  destruct (up_mul_up _ _ _ _ H dx dy) as (b & Rb & Eb); auto.
  exists (mk a b). split; [runs|].
  eapply sound_intro; [exact L|exact U|exact Ra|exact Rb].
Qed.
Lemma mk_zero_sound (S : R -> Prop) : (forall r, S r -> r = 0) -> sound (mk zero zero) S.
Proof.
  intros Z r Hr. rewrite (Z r Hr), (rnd_0 _ HR). cbn [low up]. rewrite val_zero. simpl. lra.
Qed.
(** minimum and maximum of two directed results *)
Lemma std_min_LB e1 e2 a b : LB rnd val e1 a -> LB rnd val e2 b ->
  LB rnd val e1 (std_min a b) /\ LB rnd val e2 (std_min a b).
Proof.
  unfold LB. intros A B. unfold std_min.
  pose proof (xle_nnl _ _ A). pose proof (xle_nnl _ _ B).
  destruct (lt_case b a) as [[-> L]|[-> L]]; auto; split; auto.
  - apply xlt_xle in L. eapply xle_trans; eauto.
  - eapply xle_trans; eauto.
Qed.
Lemma std_max_UB e1 e2 a b : UB rnd val e1 a -> UB rnd val e2 b ->
  UB rnd val e1 (std_max a b) /\ UB rnd val e2 (std_max a b).
Proof.
  unfold UB. intros A B. unfold std_max.
  pose proof (xle_nnr _ _ A). pose proof (xle_nnr _ _ B).
  destruct (lt_case a b) as [[-> L]|[-> L]]; auto; split; auto.
  - apply xlt_xle in L. eapply xle_trans; eauto.
  - eapply xle_trans; eauto.
Qed.
Ltac bnd := solve [unfold bound_of; auto].
Ltac corner x y :=
  let A := fresh in let B := fresh in
  repeat match goal with HV : valid val _ |- _ => destruct HV as (? & ? & ?) end;
  try (intros ? (? & ? & (? & ?) & (? & ?) & ->));
  destruct (val (low x)) as [| |?xl|], (val (up x)) as [| |?xu|];
  cbn [xle xlt] in *; try contradiction; try congruence;
  destruct (val (low y)) as [| |?yl|], (val (up y)) as [| |?yu|];
  cbn [xle xlt xmul] in *; try contradiction; try congruence;
  xcase; try contradiction; try congruence; try exact I; try lra; try nra.
Lemma op_mul_ok x y : V x -> V y ->
  exists z, runsP P ready (op_mul P x y) z /\ sound z (prods x y).
Proof.
  intros Hx Hy. unfold op_mul. rewrite test_valid2; auto.
  apply via_rnd. cbv zeta.
  pose proof (vlow_nn x Hx) as NX1. pose proof (vup_nn x Hx) as NX2.
  pose proof (vlow_nn y Hy) as NY1. pose proof (vup_nn y Hy) as NY2.
  assert (ZX : xle (Fin 0) (val (low x)) -> xle (val (up x)) (Fin 0) -> forall r, prods x y r -> r = 0).
  { intros A B t (r & s & [R1 R2] & _ & ->).
    pose proof (xle_trans _ _ _ A R1). pose proof (xle_trans _ _ _ R2 B). simpl in *.
    replace r with 0 by lra. lra. }
  assert (ZY : xle (Fin 0) (val (low y)) -> xle (val (up y)) (Fin 0) -> forall r, prods x y r -> r = 0).
  { intros A B t (r & s & _ & [R1 R2] & ->).
    pose proof (xle_trans _ _ _ A R1). pose proof (xle_trans _ _ _ R2 B). simpl in *.
    replace s with 0 by lra. lra. }
  destruct (is_neg_case (low x)) as [[-> X1]|[-> X1]]; auto.
  - destruct (is_pos_case (up x)) as [[-> X2]|[-> X2]]; auto.
    + destruct (is_neg_case (low y)) as [[-> Y1]|[-> Y1]]; auto.
      * destruct (is_pos_case (up y)) as [[-> Y2]|[-> Y2]]; auto.
        -- (* M * M *)
           assert (N1 : xmul (val (low x)) (val (up y)) <> NaN) by corner x y.
           assert (N2 : xmul (val (up x)) (val (low y)) <> NaN) by corner x y.
           assert (N3 : xmul (val (low x)) (val (low y)) <> NaN) by corner x y.
           assert (N4 : xmul (val (up x)) (val (up y)) <> NaN) by corner x y.
           destruct (up_mul_down _ _ _ _ H (low x) (up y)) as (a1 & Ra1 & Ea1); auto.
           destruct (up_mul_down _ _ _ _ H (up x) (low y)) as (a2 & Ra2 & Ea2); auto.
           destruct (up_mul_up _ _ _ _ H (low x) (low y)) as (b1 & Rb1 & Eb1); auto.
           destruct (up_mul_up _ _ _ _ H (up x) (up y)) as (b2 & Rb2 & Eb2); auto.
           exists (mk (std_min a1 a2) (std_max b1 b2)). split.
           { apply runsI_mk_args.
             - eapply runsI_bind; [apply runsI_args2; eauto|]. apply runsI_ret.
             - eapply runsI_bind; [apply runsI_args2; eauto|]. apply runsI_ret. }
           assert (L : forall t, prods x y t ->
                     xle (xmul (val (low x)) (val (up y))) (Fin t) \/
                     xle (xmul (val (up x)) (val (low y))) (Fin t)).
           { clear - X1 X2 Y1 Y2 Hx Hy N1 N2.
             intros t (r & s & (R1 & R2) & (S1 & S2) & ->).
             destruct Hx as (?&?&?), Hy as (?&?&?).
             destruct (val (low x)) as [| |xl|], (val (up x)) as [| |xu|]; simpl in R1, R2, X1, X2; try tauto;
             destruct (val (low y)) as [| |yl|], (val (up y)) as [| |yu|]; simpl in S1, S2, Y1, Y2; try tauto;
             cbn [xmul] in *; xcase; try tauto; try lra.
             destruct (Rle_or_lt 0 s).
             - left. cbn [xle]. destruct (Rle_or_lt 0 r); nra.
             - right. cbn [xle]. destruct (Rle_or_lt 0 r); nra. }
           assert (U : forall t, prods x y t ->
                     xle (Fin t) (xmul (val (low x)) (val (low y))) \/
                     xle (Fin t) (xmul (val (up x)) (val (up y)))).
           { clear - X1 X2 Y1 Y2 Hx Hy N3 N4.
             intros t (r & s & (R1 & R2) & (S1 & S2) & ->).
             destruct Hx as (?&?&?), Hy as (?&?&?).
             destruct (val (low x)) as [| |xl|], (val (up x)) as [| |xu|]; simpl in R1, R2, X1, X2; try tauto;
             destruct (val (low y)) as [| |yl|], (val (up y)) as [| |yu|]; simpl in S1, S2, Y1, Y2; try tauto;
             cbn [xmul] in *; xcase; try tauto; try lra.
             destruct (Rle_or_lt 0 s).
             - right. cbn [xle]. destruct (Rle_or_lt 0 r); nra.
             - left. cbn [xle]. destruct (Rle_or_lt 0 r); nra. }
           destruct (std_min_LB _ _ _ _ Ra1 Ra2) as [D1 D2].
           destruct (std_max_UB _ _ _ _ Rb1 Rb2) as [G1 G2].
           intros t Ht. split; cbn [low up].
           ++ destruct (L t Ht) as [K|K]; apply (rnd_mono _ HR) in K;
                (eapply xle_trans; [|exact K]); assumption.
           ++ destruct (U t Ht) as [K|K]; apply (rnd_mono _ HR) in K;
                (eapply xle_trans; [exact K|]); assumption.
        -- (* M * N *) apply mul_case; auto; try bnd; clear ZX ZY; corner x y.
      * destruct (is_pos_case (up y)) as [[-> Y2]|[-> Y2]]; auto.
        -- (* M * P *) apply mul_case; auto; try bnd; clear ZX ZY; corner x y.
        -- exists (mk zero zero). split; [apply runsI_ret|]. apply mk_zero_sound; auto.
    + destruct (is_neg_case (low y)) as [[-> Y1]|[-> Y1]]; auto.
      * destruct (is_pos_case (up y)) as [[-> Y2]|[-> Y2]]; auto.
        -- apply mul_case; auto; try bnd; clear ZX ZY; corner x y.
        -- apply mul_case; auto; try bnd; clear ZX ZY; corner x y.
      * destruct (is_pos_case (up y)) as [[-> Y2]|[-> Y2]]; auto.
        -- apply mul_case; auto; try bnd; clear ZX ZY; corner x y.
        -- exists (mk zero zero). split; [apply runsI_ret|]. apply mk_zero_sound; auto.
  - destruct (is_pos_case (up x)) as [[-> X2]|[-> X2]]; auto.
    + destruct (is_neg_case (low y)) as [[-> Y1]|[-> Y1]]; auto.
      * destruct (is_pos_case (up y)) as [[-> Y2]|[-> Y2]]; auto.
        -- apply mul_case; auto; try bnd; clear ZX ZY; corner x y.
        -- apply mul_case; auto; try bnd; clear ZX ZY; corner x y.
      * destruct (is_pos_case (up y)) as [[-> Y2]|[-> Y2]]; auto.
        -- apply mul_case; auto; try bnd; clear ZX ZY; corner x y.
        -- exists (mk zero zero). split; [apply runsI_ret|]. apply mk_zero_sound; auto.
    + exists (mk zero zero). split; [apply runsI_ret|]. apply mk_zero_sound; auto.
Qed.
Lemma zero_in_iff y : V y -> zero_in P y = true <-> mem val y 0.
Proof.
  intros Hy. unfold zero_in, mem. rewrite test_valid by auto.
  pose proof (vlow_nn y Hy). pose proof (vup_nn y Hy).
  destruct (is_pos_case (low y)) as [[-> A]|[-> A]]; auto;
  destruct (is_neg_case (up y)) as [[-> B]|[-> B]]; auto; simpl; split; auto; try discriminate.
  - intros [C _]. exfalso. apply (xlt_nle _ _ A C).
  - intros [C _]. exfalso. apply (xlt_nle _ _ A C).
  - intros [_ C]. exfalso. apply (xlt_nle _ _ B C).
Qed.
Lemma zero_in_false y : V y -> zero_in P y = false ->
  xlt (Fin 0) (val (low y)) \/ xlt (val (up y)) (Fin 0).
Proof.
  intros Hy Z. unfold zero_in in Z. rewrite test_valid in Z by auto.
  pose proof (vlow_nn y Hy). pose proof (vup_nn y Hy).
  destruct (is_pos_case (low y)) as [[E A]|[E A]]; auto; rewrite E in Z;
  destruct (is_neg_case (up y)) as [[E' B]|[E' B]]; auto; rewrite E' in Z; simpl in Z; discriminate.
Qed.
Lemma i_whole_runs : n_has_inf N = true ->
  exists z, pureM (i_whole P) z /\ val (low z) = NInf /\ val (up z) = PInf.
Proof.
  intros I. destruct (cs_neg_inf _ _ CS I) as (a & Ra & Ea).
  destruct (cs_pos_inf _ _ CS I) as (b & Rb & Eb).
  exists (mk a b). split; auto. apply pureM_mk_args; auto.
Qed.
Lemma whole_sound z (S : R -> Prop) : val (low z) = NInf -> val (up z) = PInf -> sound z S.
Proof.
  intros E1 E2 r _. rewrite E1, E2. pose proof (rnd_fin_nn r). destruct (rnd (Fin r)); simpl; auto; congruence.
Qed.
Lemma zeros_case x : V x ->
  (is_zero (low x) && is_zero (up x) = true /\ val (low x) = Fin 0 /\ val (up x) = Fin 0) \/
  (is_zero (low x) && is_zero (up x) = false /\ ~ (val (low x) = Fin 0 /\ val (up x) = Fin 0)).
Proof.
  intros Hx. destruct (is_zero_case (low x)) as [[-> A]|[-> A]];
  destruct (is_zero_case (up x)) as [[-> B]|[-> B]]; simpl; [left|right|right|right]; tauto.
Qed.
Lemma zero_num_sound x y : V x -> val (low x) = Fin 0 -> val (up x) = Fin 0 -> sound x (quots x y).
Proof.
  intros Hx E1 E2 t (r & s & [R1 R2] & _ & Hs & ->). rewrite E1, E2 in *. simpl in R1, R2.
  replace (r / s) with 0 by (replace r with 0 by lra; field; auto).
  rewrite (rnd_0 _ HR). simpl. lra.
Qed.
Ltac fin_div := first
  [ apply div_le_div; nra | apply div_nonneg; nra | apply div_nonpos; nra ].
Ltac cornerd x y :=
  repeat match goal with HV : valid val _ |- _ => destruct HV as (? & ? & ?) end;
  try (intros ? (? & ? & (? & ?) & (? & ?) & ? & ->));
  destruct (val (low x)) as [| |?xl|], (val (up x)) as [| |?xu|];
  cbn [xle xlt] in *; try contradiction; try congruence;
  destruct (val (low y)) as [| |?yl|], (val (up y)) as [| |?yu|];
  cbn [xle xlt xdiv] in *; try contradiction; try congruence;
  xcase; try contradiction; try congruence; try exact I; try lra;
  repeat match goal with
  | E : Fin _ = Fin _ |- _ => injection E; clear E; intro E
  | E : ?s <> 0 |- _ => apply Rdichotomy in E; destruct E
  end; try lra; try fin_div.
Lemma div_case o x y cx cy dx dy : V x -> V y ->
  bound_of x cx -> bound_of y cy -> bound_of x dx -> bound_of y dy ->
  xdiv (val cx) (val cy) <> NaN -> xdiv (val dx) (val dy) <> NaN ->
  is_lb (xdiv (val cx) (val cy)) (quots x y) ->
  is_ub (xdiv (val dx) (val dy)) (quots x y) ->
  exists z, runsI ready (mk_args o (div_down (p_ar P) cx cy) (div_up (p_ar P) dx dy)) z
            /\ sound z (quots x y).
Proof.
  intros Hx Hy B1 B2 B3 B4 N1 N2 L U.
  destruct (up_div_down _ _ _ _ H cx cy) as (a & Ra & Ea); auto.
  destruct (up_div_up _ _ _ _ H dx dy) as (b & Rb & Eb); auto.
  exists (mk a b). split; [runs|].
  eapply sound_intro; [exact L|exact U|exact Ra|exact Rb].
Qed.
Lemma div_non_zero_ok x y : V x -> V y ->
  (xlt (Fin 0) (val (low y)) \/ xlt (val (up y)) (Fin 0)) ->
  exists z, runsP P ready (div_non_zero P x y) z /\ sound z (quots x y).
Proof.
  intros Hx Hy Z. apply via_rnd. cbv zeta.
  pose proof (vlow_nn x Hx) as NX1. pose proof (vup_nn x Hx) as NX2.
  pose proof (vlow_nn y Hy) as NY1. pose proof (vup_nn y Hy) as NY2.
  assert (ZP : xle (Fin 0) (val (up y)) -> xlt (Fin 0) (val (low y))).
  { intros A. destruct Z as [Z|Z]; auto. exfalso. apply (xlt_nle _ _ Z A). }
  destruct (is_neg_case (up x)) as [[-> X2]|[-> X2]]; auto.
  - destruct (is_neg_case (up y)) as [[-> Y2]|[-> Y2]]; auto.
    + clear Z ZP. apply div_case; auto; try bnd; cornerd x y.
    + specialize (ZP Y2). clear Z. apply div_case; auto; try bnd; cornerd x y.
  - destruct (is_neg_case (low x)) as [[-> X1]|[-> X1]]; auto;
    (destruct (is_neg_case (up y)) as [[-> Y2]|[-> Y2]]; auto;
     [clear Z ZP|specialize (ZP Y2); clear Z]);
    apply div_case; auto; try bnd; cornerd x y.
Qed.
Lemma dp_neg x y ni : V x -> V y -> val (low y) = Fin 0 -> val (up y) <> Fin 0 ->
  xlt (val (up x)) (Fin 0) -> val ni = NInf ->
  exists b, runsI ready (div_up (p_ar P) (up x) (up y)) b /\ sound (mk ni b) (quots x y).
Proof.
  intros Hx Hy E1 E2 X2 En.
  pose proof (up_pos y Hy E1 E2) as YP.
  assert (X1 : xlt (val (low x)) (Fin 0)) by (apply xle_lt_trans with (val (up x)); auto; apply Hx).
  destruct (up_div_up _ _ _ _ H (up x) (up y)) as (b & Rb & Eb).
  { cornerd x y. }
  exists b. split; auto.
  eapply sound_intro with NInf _; [| |apply LB_ninf; auto|exact Rb].
  - intros r _; exact I.
  - cornerd x y.
Qed.
Lemma dp_pos x y pi : V x -> V y -> val (low y) = Fin 0 -> val (up y) <> Fin 0 ->
  xle (Fin 0) (val (low x)) -> ~ (val (low x) = Fin 0 /\ val (up x) = Fin 0) -> val pi = PInf ->
  exists b, runsI ready (div_down (p_ar P) (low x) (up y)) b /\ sound (mk b pi) (quots x y).
Proof.
  intros Hx Hy E1 E2 X1 Z En.
  pose proof (up_pos y Hy E1 E2) as YP. pose proof (up_pos_nz x Hx X1 Z) as X3.
  destruct (up_div_down _ _ _ _ H (low x) (up y)) as (b & Rb & Eb).
  { cornerd x y. }
  exists b. split; auto.
  eapply sound_intro with (e2 := PInf); [| |exact Rb|apply UB_pinf; auto].
  - cornerd x y.
  - intros r _; exact I.
Qed.
Lemma dn_neg x y pi : V x -> V y -> val (up y) = Fin 0 -> val (low y) <> Fin 0 ->
  xlt (val (up x)) (Fin 0) -> val pi = PInf ->
  exists b, runsI ready (div_down (p_ar P) (up x) (low y)) b /\ sound (mk b pi) (quots x y).
Proof.
  intros Hx Hy E1 E2 X2 En.
  pose proof (low_neg y Hy E1 E2) as YP.
  assert (X1 : xlt (val (low x)) (Fin 0)) by (apply xle_lt_trans with (val (up x)); auto; apply Hx).
  destruct (up_div_down _ _ _ _ H (up x) (low y)) as (b & Rb & Eb).
  { cornerd x y. }
  exists b. split; auto.
  eapply sound_intro with (e2 := PInf); [| |exact Rb|apply UB_pinf; auto].
  - cornerd x y.
  - intros r _; exact I.
Qed.
Lemma dn_pos x y ni : V x -> V y -> val (up y) = Fin 0 -> val (low y) <> Fin 0 ->
  xle (Fin 0) (val (low x)) -> ~ (val (low x) = Fin 0 /\ val (up x) = Fin 0) -> val ni = NInf ->
  exists b, runsI ready (div_up (p_ar P) (low x) (low y)) b /\ sound (mk ni b) (quots x y).
Proof.
  intros Hx Hy E1 E2 X1 Z En.
  pose proof (low_neg y Hy E1 E2) as YP. pose proof (up_pos_nz x Hx X1 Z) as X3.
  destruct (up_div_up _ _ _ _ H (low x) (low y)) as (b & Rb & Eb).
  { cornerd x y. }
  exists b. split; auto.
  eapply sound_intro with NInf _; [| |apply LB_ninf; auto|exact Rb].
  - intros r _; exact I.
  - cornerd x y.
Qed.
Lemma div_positive_ok x y : n_has_inf N = true -> V x -> V y ->
  val (low y) = Fin 0 -> val (up y) <> Fin 0 ->
  exists z, runsP P ready (div_positive P x (up y)) z /\ sound z (quots x y).
Proof.
  intros HI Hx Hy E1 E2. unfold div_positive.
  destruct (zeros_case x Hx) as [(-> & Z1 & Z2)|(-> & Z)].
  { exists x. split; [apply runsP_ret|]. apply zero_num_sound; auto. }
  apply via_rnd. cbv zeta.
  destruct (cs_neg_inf _ _ CS HI) as (ni & Rn & En).
  destruct (cs_pos_inf _ _ CS HI) as (pi & Rp & Ep).
  pose proof (vlow_nn x Hx) as NX1. pose proof (vup_nn x Hx) as NX2.
  destruct (is_neg_case (up x)) as [[-> X2]|[-> X2]]; auto.
  - destruct (dp_neg x y ni) as (b & Rb & T0); auto. exists (mk ni b). split; [runs|auto].
  - destruct (is_neg_case (low x)) as [[-> X1]|[-> X1]]; auto.
    + exists (mk ni pi). split; [runs|]. apply whole_sound; auto.
    + destruct (dp_pos x y pi) as (b & Rb & T0); auto. exists (mk b pi). split; [runs|auto].
Qed.
Lemma div_negative_ok x y : n_has_inf N = true -> V x -> V y ->
  val (up y) = Fin 0 -> val (low y) <> Fin 0 ->
  exists z, runsP P ready (div_negative P x (low y)) z /\ sound z (quots x y).
Proof.
  intros HI Hx Hy E1 E2. unfold div_negative.
  destruct (zeros_case x Hx) as [(-> & Z1 & Z2)|(-> & Z)].
  { exists x. split; [apply runsP_ret|]. apply zero_num_sound; auto. }
  apply via_rnd. cbv zeta.
  destruct (cs_neg_inf _ _ CS HI) as (ni & Rn & En).
  destruct (cs_pos_inf _ _ CS HI) as (pi & Rp & Ep).
  pose proof (vlow_nn x Hx) as NX1. pose proof (vup_nn x Hx) as NX2.
  destruct (is_neg_case (up x)) as [[-> X2]|[-> X2]]; auto.
  - destruct (dn_neg x y pi) as (b & Rb & T0); auto. exists (mk b pi). split; [runs|auto].
  - destruct (is_neg_case (low x)) as [[-> X1]|[-> X1]]; auto.
    + exists (mk ni pi). split; [runs|]. apply whole_sound; auto.
    + destruct (dn_pos x y ni) as (b & Rb & T0); auto. exists (mk ni b). split; [runs|auto].
Qed.
Lemma div_zero_ok x y : n_has_inf N = true -> V x ->
  exists z, runsP P ready (div_zero P x) z /\ sound z (quots x y).
Proof.
  intros HI Hx. unfold div_zero.
  destruct (zeros_case x Hx) as [(-> & Z1 & Z2)|(-> & G)].
  { exists x. split; [apply runsP_ret|]. apply zero_num_sound; auto. }
  destruct (i_whole_runs HI) as (z & Rz & F1 & F2). exists z. split; [apply pure_runsP; auto|].
  apply whole_sound; auto.
Qed.
Lemma op_div_ok x y : V x -> V y -> ~ (val (low y) = Fin 0 /\ val (up y) = Fin 0) ->
  (mem val y 0 -> n_has_inf N = true) ->
  exists z, runsP P ready (op_div P x y) z /\ sound z (quots x y).
Proof.
  intros Hx Hy G HI. unfold op_div. rewrite test_valid2 by auto.
  destruct (zero_in P y) eqn:EZ.
  - apply zero_in_iff in EZ; auto. specialize (HI EZ).
    destruct (is_zero_case (low y)) as [[-> A]|[-> A]];
    destruct (is_zero_case (up y)) as [[-> B]|[-> B]]; simpl; try tauto.
    + apply div_positive_ok; auto.
    + apply div_negative_ok; auto.
    + apply div_zero_ok; auto.
  - apply zero_in_false in EZ; auto. apply div_non_zero_ok; auto.
Qed.
Lemma test_ni_fin v c y : val v = Fin c -> V y -> pureM (test_input_ni P v y) false.
Proof. intros E Hy. apply test_ni; auto. congruence. Qed.
Lemma test_in_fin v c y : val v = Fin c -> V y -> pureM (test_input_in P y v) false.
Proof. intros E Hy. apply test_in; auto. congruence. Qed.
Lemma run_guard {A} (g : M bool) (k : bool -> M A) z :
  pureM g false -> runsP P ready (k false) z -> runsP P ready (bind g k) z.
Proof. intros Hg Hk. eapply runsP_bind; eauto. apply pure_runsP; auto. Qed.
Lemma guarded {A} (g : M bool) (k : bool -> M A) (Q : A -> Prop) :
  pureM g false -> (exists z, runsP P ready (k false) z /\ Q z) ->
  exists z, runsP P ready (bind g k) z /\ Q z.
Proof. intros Hg (z & Rz & Qz). exists z. split; auto. apply run_guard; auto. Qed.
Lemma sound_ex (m : M (itv N)) (S S' : R -> Prop) (K : M (itv N) -> itv N -> Prop) :
  (forall r, S r <-> S' r) -> (exists z, K m z /\ sound z S) -> exists z, K m z /\ sound z S'.
Proof. intros E (z & R1 & R2). exists z. split; auto. eapply sound_ext; eauto. Qed.
Lemma op_add_ni_ok v c y : val v = Fin c -> V y ->
  exists z, runsP P ready (op_add_ni P v y) z /\ sound z (image1 (fun r => c + r) (mem val y)).
Proof.
  intros E Hy. pose proof (valid_point v c E) as Hv.
  apply guarded; [eapply test_ni_fin; eauto|].
  eapply (sound_ex _); [apply image2_point_l; eauto|].
  apply via_rnd, (add_case _ (mk v v) y); auto.
Qed.
Lemma op_add_in_ok x v c : val v = Fin c -> V x ->
  exists z, runsP P ready (op_add_in P x v) z /\ sound z (image1 (fun r => r + c) (mem val x)).
Proof.
  intros E Hx. eapply (sound_ex _); [|apply op_add_ni_ok; eauto].
  intros t; split; intros (r & Hr & ->); exists r; split; auto; lra.
Qed.
Lemma op_sub_ni_ok v c y : val v = Fin c -> V y ->
  exists z, runsP P ready (op_sub_ni P v y) z /\ sound z (image1 (fun r => c - r) (mem val y)).
Proof.
  intros E Hy. pose proof (valid_point v c E) as Hv.
  apply guarded; [eapply test_ni_fin; eauto|].
  eapply (sound_ex _); [apply image2_point_l; eauto|].
  apply via_rnd, (sub_case _ (mk v v) y); auto.
Qed.
Lemma op_sub_in_ok x v c : val v = Fin c -> V x ->
  exists z, runsP P ready (op_sub_in P x v) z /\ sound z (image1 (fun r => r - c) (mem val x)).
Proof.
  intros E Hx. pose proof (valid_point v c E) as Hv.
  apply guarded; [eapply test_in_fin; eauto|].
  eapply (sound_ex _); [apply image2_point_r; eauto|].
  apply via_rnd, (sub_case _ x (mk v v)); auto.
Qed.
Lemma sign_fin v c : val v = Fin c ->
  (is_neg v = true /\ c < 0) \/ (is_neg v = false /\ is_zero v = true /\ c = 0)
  \/ (is_neg v = false /\ is_zero v = false /\ 0 < c).
Proof.
  intros E. destruct (is_neg_case v) as [[-> A]|[-> A]]; rewrite E in *; try discriminate; simpl in A; auto.
  destruct (is_zero_case v) as [[-> B]|[-> B]]; rewrite E in B; right.
  - left. injection B. auto.
  - right. assert (c <> 0) by congruence. repeat split; auto; lra.
Qed.
Lemma op_mul_ni_ok v c y : val v = Fin c -> V y ->
  exists z, runsP P ready (op_mul_ni P v y) z /\ sound z (image1 (fun r => c * r) (mem val y)).
Proof.
  intros E Hy. pose proof (valid_point v c E) as Hv.
  apply guarded; [eapply test_ni_fin; eauto|].
  eapply (sound_ex _); [apply image2_point_l; eauto|].
  apply via_rnd. cbv zeta.
  destruct (sign_fin v c E) as [[-> A]|[(-> & -> & A)|(-> & -> & A)]].
  - apply (mul_case _ (mk v v) y); auto; try (unfold bound_of; simpl; auto).
    + rewrite E. destruct Hy as (B & C & D). destruct (val (low y)), (val (up y)); simpl in *; xcase; try tauto; try congruence; lra.
    + rewrite E. destruct Hy as (B & C & D). destruct (val (low y)), (val (up y)); simpl in *; xcase; try tauto; try congruence; lra.
    + intros t (r & s & Hr & [S1 S2] & ->). apply (mem_point v c E) in Hr. subst r. rewrite E.
      destruct (val (up y)); simpl in *; xcase; try tauto; try nra.
    + intros t (r & s & Hr & [S1 S2] & ->). apply (mem_point v c E) in Hr. subst r. rewrite E.
      destruct (val (low y)); simpl in *; xcase; try tauto; try nra.
  - exists (mk zero zero). split; [apply runsI_ret|]. apply mk_zero_sound.
    intros t (r & s & Hr & _ & ->). apply (mem_point v c E) in Hr. subst. lra.
  - apply (mul_case _ (mk v v) y); auto; try (unfold bound_of; simpl; auto).
    + rewrite E. destruct Hy as (B & C & D). destruct (val (low y)), (val (up y)); simpl in *; xcase; try tauto; try congruence; lra.
    + rewrite E. destruct Hy as (B & C & D). destruct (val (low y)), (val (up y)); simpl in *; xcase; try tauto; try congruence; lra.
    + intros t (r & s & Hr & [S1 S2] & ->). apply (mem_point v c E) in Hr. subst r. rewrite E.
      destruct (val (low y)); simpl in *; xcase; try tauto; try nra.
    + intros t (r & s & Hr & [S1 S2] & ->). apply (mem_point v c E) in Hr. subst r. rewrite E.
      destruct (val (up y)); simpl in *; xcase; try tauto; try nra.
Qed.
Lemma op_mul_in_ok x v c : val v = Fin c -> V x ->
  exists z, runsP P ready (op_mul_in P x v) z /\ sound z (image1 (fun r => r * c) (mem val x)).
Proof.
  intros E Hx. eapply (sound_ex _); [|apply op_mul_ni_ok; eauto].
  intros t; split; intros (r & Hr & ->); exists r; split; auto; lra.
Qed.
Lemma op_div_in_ok x v c : val v = Fin c -> c <> 0 -> V x ->
  exists z, runsP P ready (op_div_in P x v) z /\ sound z (image1 (fun r => r / c) (mem val x)).
Proof.
  intros E Hc Hx. pose proof (valid_point v c E) as Hv.
  apply guarded; [eapply test_in_fin; eauto|].
  assert (EX : forall t, quotients (mem val x) (mem val (mk v v)) t <-> image1 (fun r => r / c) (mem val x) t).
  { intros t. split.
    - intros (r & s & Hr & Hs & _ & ->). apply (mem_point v c E) in Hs. subst s. exists r; auto.
    - intros (r & Hr & ->). exists r, c. split; auto. split; [apply (mem_point v c E); auto|auto]. }
  destruct (sign_fin v c E) as [[E1 A]|[(_ & _ & A)|(E1 & E2 & A)]]; [|tauto|].
  - assert (is_zero v = false) as ->.
    { destruct (is_zero_case v) as [[_ B]|[-> _]]; auto. congruence. }
    simpl. rewrite E1. eapply (sound_ex _); [exact EX|]. apply via_rnd.
    apply (div_case _ x (mk v v)); auto; try (unfold bound_of; simpl; auto).
    + rewrite E. destruct Hx as (B & C & D). destruct (val (low x)), (val (up x)); simpl in *; xcase; try tauto; try congruence; lra.
    + rewrite E. destruct Hx as (B & C & D). destruct (val (low x)), (val (up x)); simpl in *; xcase; try tauto; try congruence; lra.
    + intros t (r & s & [R1 R2] & Hs & _ & ->). apply (mem_point v c E) in Hs. subst s. rewrite E.
      destruct (val (up x)); simpl in *; xcase; try tauto; try lra. apply div_le_div; nra.
    + intros t (r & s & [R1 R2] & Hs & _ & ->). apply (mem_point v c E) in Hs. subst s. rewrite E.
      destruct (val (low x)); simpl in *; xcase; try tauto; try lra. apply div_le_div; nra.
  - rewrite E1, E2. simpl. eapply (sound_ex _); [exact EX|]. apply via_rnd.
    apply (div_case _ x (mk v v)); auto; try (unfold bound_of; simpl; auto).
    + rewrite E. destruct Hx as (B & C & D). destruct (val (low x)), (val (up x)); simpl in *; xcase; try tauto; try congruence; lra.
    + rewrite E. destruct Hx as (B & C & D). destruct (val (low x)), (val (up x)); simpl in *; xcase; try tauto; try congruence; lra.
    + intros t (r & s & [R1 R2] & Hs & _ & ->). apply (mem_point v c E) in Hs. subst s. rewrite E.
      destruct (val (low x)); simpl in *; xcase; try tauto; try lra. apply div_le_div; nra.
    + intros t (r & s & [R1 R2] & Hs & _ & ->). apply (mem_point v c E) in Hs. subst s. rewrite E.
      destruct (val (up x)); simpl in *; xcase; try tauto; try lra. apply div_le_div; nra.
Qed.
Ltac cornern E y :=
  match type of E with ?vv = Fin ?c =>
  repeat match goal with HV : valid val _ |- _ => destruct HV as (? & ? & ?) end;
  try (intros ? (? & ? & Hr & (? & ?) & ? & ->); apply (mem_point _ _ E) in Hr; subst);
  cbn [low up] in *;
  rewrite ?E in *;
  destruct (val (low y)) as [| |?yl|], (val (up y)) as [| |?yu|];
  cbn [xle xlt xdiv] in *; try contradiction; try congruence;
  xcase; try contradiction; try congruence; try exact I; try lra;
  repeat match goal with
  | E : Fin _ = Fin _ |- _ => injection E; clear E; intro E
  | E : ?s <> 0 |- _ => apply Rdichotomy in E; destruct E
  end; try lra; try fin_div end.
Lemma div_non_zero_n_ok v c y : val v = Fin c -> V y ->
  (xlt (Fin 0) (val (low y)) \/ xlt (val (up y)) (Fin 0)) ->
  exists z, runsP P ready (div_non_zero_n P v y) z /\ sound z (quotients (point c) (mem val y)).
Proof.
  intros E Hy Z. pose proof (valid_point v c E) as Hv.
  eapply (sound_ex _); [apply quots_point; eauto|].
  apply via_rnd. cbv zeta.
  destruct (sign_fin v c E) as [[-> A]|K].
  - apply (div_case _ (mk v v) y); auto; try (unfold bound_of; simpl; solve [auto]);
    destruct Z as [Z|Z]; cornern E y.
  - assert (is_neg v = false /\ 0 <= c) as [-> A] by (destruct K as [(? & _ & ->)|(? & _ & ?)]; split; auto; lra).
    clear K. apply (div_case _ (mk v v) y); auto; try (unfold bound_of; simpl; solve [auto]);
    destruct Z as [Z|Z]; cornern E y.
Qed.
Lemma zero_num_n_sound (Y : R -> Prop) : sound (mk zero zero) (quotients (point 0) Y).
Proof.
  apply mk_zero_sound; auto. intros t (r & s & -> & _ & Hs & ->). field; auto.
Qed.
Lemma div_positive_n_ok v c y : n_has_inf N = true -> val v = Fin c -> V y ->
  val (low y) = Fin 0 -> val (up y) <> Fin 0 ->
  exists z, runsP P ready (div_positive_n P v (up y)) z /\ sound z (quotients (point c) (mem val y)).
Proof.
  intros HI E Hy E1 E2. unfold div_positive_n. pose proof (valid_point v c E) as Hv.
  assert (YP : xlt (Fin 0) (val (up y))).
  { destruct Hy as (A & _ & _). rewrite E1 in A.
    destruct (val (up y)) as [| |u|]; simpl in *; try tauto.
    assert (u <> 0) by congruence. lra. }
  destruct (cs_neg_inf _ _ CS HI) as (ni & Rn & En).
  destruct (cs_pos_inf _ _ CS HI) as (pi & Rp & Ep).
  destruct (is_zero_case v) as [[-> B]|[-> B]]; rewrite E in B.
  { injection B; intros ->. exists (mk zero zero). split; [apply runsP_ret|]. apply zero_num_n_sound; auto. }
  assert (c <> 0) by congruence. apply via_rnd.
  destruct (sign_fin v c E) as [[-> A]|[(_ & _ & A)|(-> & _ & A)]]; [|tauto|].
  - destruct (up_div_up _ _ _ _ H v (up y)) as (b & Rb & Eb); [cornern E y|].
    exists (mk ni b). split; [runs|].
    eapply sound_intro with NInf _; [| |apply LB_ninf; auto|exact Rb].
    + intros r _; exact I.
    + intros t Ht. apply (quots_point v c _ E) in Ht. revert t Ht. cornern E y.
  - destruct (up_div_down _ _ _ _ H v (up y)) as (b & Rb & Eb); [cornern E y|].
    exists (mk b pi). split; [runs|].
    eapply sound_intro with (e2 := PInf); [| |exact Rb|apply UB_pinf; auto].
    + intros t Ht. apply (quots_point v c _ E) in Ht. revert t Ht. cornern E y.
    + intros r _; exact I.
Qed.
Lemma div_negative_n_ok v c y : n_has_inf N = true -> val v = Fin c -> V y ->
  val (up y) = Fin 0 -> val (low y) <> Fin 0 ->
  exists z, runsP P ready (div_negative_n P v (low y)) z /\ sound z (quotients (point c) (mem val y)).
Proof.
  intros HI E Hy E1 E2. unfold div_negative_n. pose proof (valid_point v c E) as Hv.
  assert (YP : xlt (val (low y)) (Fin 0)).
  { destruct Hy as (A & _ & _). rewrite E1 in A.
    destruct (val (low y)) as [| |u|]; simpl in *; try tauto.
    assert (u <> 0) by congruence. lra. }
  destruct (cs_neg_inf _ _ CS HI) as (ni & Rn & En).
  destruct (cs_pos_inf _ _ CS HI) as (pi & Rp & Ep).
  destruct (is_zero_case v) as [[-> B]|[-> B]]; rewrite E in B.
  { injection B; intros ->. exists (mk zero zero). split; [apply runsP_ret|]. apply zero_num_n_sound; auto. }
  assert (c <> 0) by congruence. apply via_rnd.
  destruct (sign_fin v c E) as [[-> A]|[(_ & _ & A)|(-> & _ & A)]]; [|tauto|].
  - destruct (up_div_down _ _ _ _ H v (low y)) as (b & Rb & Eb); [cornern E y|].
    exists (mk b pi). split; [runs|].
    eapply sound_intro with (e2 := PInf); [| |exact Rb|apply UB_pinf; auto].
    + intros t Ht. apply (quots_point v c _ E) in Ht. revert t Ht. cornern E y.
    + intros r _; exact I.
  - destruct (up_div_up _ _ _ _ H v (low y)) as (b & Rb & Eb); [cornern E y|].
    exists (mk ni b). split; [runs|].
    eapply sound_intro with NInf _; [| |apply LB_ninf; auto|exact Rb].
    + intros r _; exact I.
    + intros t Ht. apply (quots_point v c _ E) in Ht. revert t Ht. cornern E y.
Qed.
Lemma div_zero_n_ok v c y : n_has_inf N = true -> val v = Fin c -> V y -> mem val y 0 ->
  val (low y) <> Fin 0 -> val (up y) <> Fin 0 ->
  exists z, runsP P ready (div_zero_n P v) z /\ sound z (quotients (point c) (mem val y)).
Proof.
  intros HI E Hy Z E1 E2. unfold div_zero_n. pose proof (valid_point v c E) as Hv.
  destruct (is_zero_case v) as [[-> B]|[-> B]]; rewrite E in B.
  { injection B; intros ->. exists (mk zero zero). split; [apply runsP_ret|]. apply zero_num_n_sound; auto. }
  destruct (i_whole_runs HI) as (z & Rz & F1 & F2). exists z. split; [apply pure_runsP; auto|].
  apply whole_sound; auto.
Qed.
Lemma op_div_ni_ok v c y : val v = Fin c -> V y -> ~ (val (low y) = Fin 0 /\ val (up y) = Fin 0) ->
  (mem val y 0 -> n_has_inf N = true) ->
  exists z, runsP P ready (op_div_ni P v y) z /\ sound z (quotients (point c) (mem val y)).
Proof.
  intros E Hy G HI. apply guarded; [eapply test_ni_fin; eauto|].
  destruct (zero_in P y) eqn:EZ.
  - apply zero_in_iff in EZ; auto. specialize (HI EZ).
    destruct (is_zero_case (low y)) as [[-> A]|[-> A]];
    destruct (is_zero_case (up y)) as [[-> B]|[-> B]]; simpl; try tauto.
    + apply div_positive_n_ok; auto.
    + apply div_negative_n_ok; auto.
    + apply div_zero_n_ok; auto.
  - apply zero_in_false in EZ; auto. apply div_non_zero_n_ok; auto.
Qed.
Lemma inverse_ok y : V y -> ~ (val (low y) = Fin 0 /\ val (up y) = Fin 0) ->
  (mem val y 0 -> n_has_inf N = true) ->
  exists z, runsP P ready (multiplicative_inverse P y) z /\ sound z (quotients (point 1) (mem val y)).
Proof.
  intros Hy G HI. unfold multiplicative_inverse. rewrite test_valid by auto.
  pose proof val_one as E. pose proof (valid_point one 1 E) as Hv.
  eapply (sound_ex _); [apply (quots_point one 1); auto|].
  apply via_rnd.
  destruct (zero_in P y) eqn:EZ.
  - apply zero_in_iff in EZ; auto. specialize (HI EZ).
    destruct (cs_neg_inf _ _ CS HI) as (ni & Rn & En).
    destruct (cs_pos_inf _ _ CS HI) as (pi & Rp & Ep).
    destruct (is_zero_case (low y)) as [[-> A]|[-> A]];
    destruct (is_zero_case (up y)) as [[-> B]|[-> B]]; simpl; try tauto.
    + assert (YP : xlt (Fin 0) (val (up y))).
      { destruct EZ as [_ EZ]. destruct (val (up y)) as [| |u|]; simpl in *; try tauto.
        assert (u <> 0) by congruence. lra. }
      destruct (up_div_down _ _ _ _ H one (up y)) as (b & Rb & Eb); [cornern E y|].
      exists (mk b pi). split; [runs|].
      eapply sound_intro with (e2 := PInf); [| |exact Rb|apply UB_pinf; auto].
      * cornern E y.
      * intros r _; exact I.
    + assert (YP : xlt (val (low y)) (Fin 0)).
      { destruct EZ as [EZ _]. destruct (val (low y)) as [| |u|]; simpl in *; try tauto.
        assert (u <> 0) by congruence. lra. }
      destruct (up_div_up _ _ _ _ H one (low y)) as (b & Rb & Eb); [cornern E y|].
      exists (mk ni b). split; [runs|].
      eapply sound_intro with NInf _; [| |apply LB_ninf; auto|exact Rb].
      * intros r _; exact I.
      * cornern E y.
    + destruct (i_whole_runs HI) as (z & Rz & F1 & F2).
      exists z. split; [apply pure_runsI; auto|].
      apply whole_sound; auto.
  - apply zero_in_false in EZ; auto.
    apply (div_case _ (mk one one) y); auto; try (unfold bound_of; simpl; solve [auto]);
    destruct EZ as [Z|Z]; cornern E y.
Qed.
Lemma square_ok x : V x ->
  exists z, runsP P ready (square P x) z /\ sound z (image1 (fun r => r * r) (mem val x)).
Proof.
  intros Hx. unfold square. rewrite test_valid by auto. apply via_rnd. cbv zeta.
  pose proof (vlow_nn x Hx) as NX1. pose proof (vup_nn x Hx) as NX2.
  set (S := image1 (fun r => r * r) (mem val x)).
  assert (NN : forall c, bound_of x c -> xmul (val c) (val c) <> NaN).
  { intros c Hc. assert (val c <> NaN) by (destruct Hc; subst; auto). destruct (val c); simpl; congruence. }
  assert (BL : bound_of x (low x)) by (left; auto). assert (BU : bound_of x (up x)) by (right; auto).
  destruct (is_neg_case (up x)) as [[-> X2]|[-> X2]]; auto.
  - destruct (up_mul_down _ _ _ _ H (up x) (up x)) as (a & Ra & Ea); auto.
    destruct (up_mul_up _ _ _ _ H (low x) (low x)) as (b & Rb & Eb); auto.
    exists (mk a b). split; [runs|].
    eapply sound_intro; [| |exact Ra|exact Rb].
    + intros t (r & [R1 R2] & ->). destruct (val (up x)); simpl in *; try tauto; nra.
    + intros t (r & [R1 R2] & ->). destruct (val (low x)), (val (up x)); simpl in *; try tauto; nra.
  - destruct (is_pos_case (low x)) as [[-> X1]|[-> X1]]; auto.
    + destruct (up_mul_down _ _ _ _ H (low x) (low x)) as (a & Ra & Ea); auto.
      destruct (up_mul_up _ _ _ _ H (up x) (up x)) as (b & Rb & Eb); auto.
      exists (mk a b). split; [runs|].
      eapply sound_intro; [| |exact Ra|exact Rb].
      * intros t (r & [R1 R2] & ->). destruct (val (low x)); simpl in *; try tauto; nra.
      * intros t (r & [R1 R2] & ->). destruct (val (low x)), (val (up x)); simpl in *; try tauto; nra.
    + destruct (ns_xopp _ _ NS (low x) (up x)) as (nx & Rn & En).
      assert (D0 : LB rnd val (Fin 0) zero) by apply LB_zero.
      assert (LBS : is_lb (Fin 0) S). { intros t (r & _ & ->). simpl. nra. }
      destruct (x_lt N (n_load N (up x)) nx) eqn:EX.
      * assert (C : xlt (val (up x)) (xopp (val (low x)))) by (apply En; auto).
        destruct (up_mul_up _ _ _ _ H (low x) (low x)) as (b & Rb & Eb); auto.
        exists (mk zero b). split.
        { eapply runsI_bind; [apply pure_runsI; eauto|]. rewrite EX.
          eapply runsI_bind; eauto. apply runsI_ret. }
        eapply sound_intro; [exact LBS| |exact D0|exact Rb].
        -- intros t (r & [R1 R2] & ->). destruct (val (low x)), (val (up x)); simpl in *; try tauto; nra.
      * assert (C : ~ xlt (val (up x)) (xopp (val (low x)))) by (rewrite <- En; congruence).
        destruct (up_mul_up _ _ _ _ H (up x) (up x)) as (b & Rb & Eb); auto.
        exists (mk zero b). split.
        { eapply runsI_bind; [apply pure_runsI; eauto|]. rewrite EX.
          eapply runsI_bind; eauto. apply runsI_ret. }
        eapply sound_intro; [exact LBS| |exact D0|exact Rb].
        -- intros t (r & [R1 R2] & ->).
           destruct (val (low x)) as [| |l|], (val (up x)) as [| |u|]; simpl in *; try tauto.
           apply Rnot_lt_le in C. nra.
Qed.
Lemma sqrt_ok x : V x -> xle (Fin 0) (val (up x)) ->
  exists z, runsP P ready (i_sqrt P x) z /\ sound z (roots (mem val x)).
Proof.
  intros Hx X2. unfold i_sqrt. rewrite test_valid by auto. simpl.
  pose proof (vlow_nn x Hx) as NX1. pose proof (vup_nn x Hx) as NX2.
  destruct (is_neg_case (up x)) as [[_ K]|[-> _]]; auto.
  { exfalso. apply (xlt_nle _ _ K X2). }
  apply via_rnd.
  destruct (up_sqrt_up _ _ _ _ H (up x)) as (b & Rb & Eb).
  { destruct (val (up x)); simpl in *; xcase; try tauto; discriminate. }
  assert (UBS : is_ub (xsqrt (val (up x))) (roots (mem val x))).
  { intros t (r & [R1 R2] & Hr & ->). destruct (val (up x)); simpl in *; xcase; try tauto.
    apply sqrt_le_1_alt; auto. }
  destruct (is_pos_case (low x)) as [[-> X1]|[-> X1]]; auto; simpl negb; cbv iota.
  - destruct (up_sqrt_down _ _ _ _ H (low x)) as (a & Ra & Ea).
    { destruct (val (low x)); simpl in *; xcase; try tauto; try discriminate. lra. }
    exists (mk a b). split.
    { eapply runsI_bind; eauto. eapply runsI_bind; eauto. apply runsI_ret. }
    eapply sound_intro; [|exact UBS|exact Ra|exact Rb].
    + intros t (r & [R1 R2] & Hr & ->). destruct (val (low x)); simpl in *; xcase; try tauto.
      apply sqrt_le_1_alt; auto. lra.
  - exists (mk zero b). split.
    { eapply runsI_bind; [apply runsI_ret|]. eapply runsI_bind; eauto. apply runsI_ret. }
    eapply sound_intro with (e1 := Fin 0); [|exact UBS| |exact Rb].
    + intros t (r & _ & _ & ->). simpl. apply sqrt_pos.
    + apply LB_zero.
Qed.
Lemma std_max_spec a b : val a <> NaN -> val b <> NaN ->
  val (std_max a b) <> NaN /\
  (forall e, xle e (val (std_max a b)) <-> xle e (val a) \/ xle e (val b)) /\
  (forall e, xle (val (std_max a b)) e <-> xle (val a) e /\ xle (val b) e).
Proof.
  intros Ha Hb. unfold std_max. destruct (lt_case a b) as [[-> L]|[-> L]]; auto.
  - apply xlt_xle in L. split; auto. split; intros e; split; try tauto.
    + intros [K|K]; auto. eapply xle_trans; eauto.
    + intros K. split; auto. eapply xle_trans; eauto.
  - split; auto. split; intros e; split; try tauto.
    + intros [K|K]; auto. eapply xle_trans; eauto.
    + intros K. split; auto. eapply xle_trans; eauto.
Qed.
Lemma std_min_spec a b : val a <> NaN -> val b <> NaN ->
  val (std_min a b) <> NaN /\
  (forall e, xle (val (std_min a b)) e <-> xle (val a) e \/ xle (val b) e) /\
  (forall e, xle e (val (std_min a b)) <-> xle e (val a) /\ xle e (val b)).
Proof.
  intros Ha Hb. unfold std_min. destruct (lt_case b a) as [[-> L]|[-> L]]; auto.
  - apply xlt_xle in L. split; auto. split; intros e; split; try tauto.
    + intros [K|K]; auto. eapply xle_trans; eauto.
    + intros K. split; auto. eapply xle_trans; eauto.
  - split; auto. split; intros e; split; try tauto.
    + intros [K|K]; auto. eapply xle_trans; eauto.
    + intros K. split; auto. eapply xle_trans; eauto.
Qed.
Lemma abs_ok x : V x ->
  exists z, runsP P ready (u_abs P x) z /\ denotes val z (image1 Rabs (mem val x)).
Proof.
  intros Hx. unfold u_abs. rewrite test_valid by auto.
  pose proof (vlow_nn x Hx) as NX1. pose proof (vup_nn x Hx) as NX2.
  destruct (is_neg_case (low x)) as [[-> X1]|[-> X1]]; auto; simpl negb; cbv iota.
  - destruct (is_pos_case (up x)) as [[-> X2]|[-> X2]]; auto; simpl negb; cbv iota.
    + destruct (ns_neg _ _ NS (low x)) as (nl & Enl & Rnl).
      assert (NN : val nl <> NaN) by (rewrite Enl; destruct (val (low x)); simpl; congruence).
      exists (mk zero (std_max nl (up x))). split.
      { eapply runsP_bind; [apply pure_runsP; eauto|]. apply runsP_ret. }
      destruct (std_max_spec nl (up x) NN NX2) as (_ & M1 & _).
      intros t. unfold mem at 1. cbn [low up]. rewrite val_zero, M1, Enl. split.
      * intros [T0 [T1|T1]]; simpl in T0.
        -- exists (-t). split; [split|rewrite Rabs_Ropp, Rabs_pos_eq; auto].
           ++ apply xle_opp in T1. rewrite xopp_involutive in T1. exact T1.
           ++ eapply xle_trans; [|apply xlt_xle, X2]. simpl; lra.
        -- exists t. split; [split|rewrite Rabs_pos_eq; auto]; auto.
           eapply xle_trans; [apply xlt_xle, X1|]. simpl; auto.
      * intros (r & [R1 R2] & ->). split; [simpl; apply Rabs_pos|].
        unfold Rabs. destruct (Rcase_abs r); [left|right]; auto.
        apply (xle_opp _ (Fin r)); auto.
    + destruct (op_neg_ok x Hx) as (z & Rz & Dz & _ & _ & _).
      exists z. split; auto. intros t. rewrite (Dz t). split.
      * intros (r & [R1 R2] & ->). exists r. split; [split; auto|].
        pose proof (xle_trans _ _ _ R2 X2). simpl in *. rewrite Rabs_left1; lra.
      * intros (r & [R1 R2] & ->). exists r. split; [split; auto|].
        pose proof (xle_trans _ _ _ R2 X2). simpl in *. rewrite Rabs_left1; lra.
  - exists x. split; [apply runsP_ret|]. intros t. split.
    + intros [R1 R2]. exists t. split; [split; auto|].
      pose proof (xle_trans _ _ _ X1 R1). simpl in *. rewrite Rabs_pos_eq; lra.
    + intros (r & [R1 R2] & ->). 
      pose proof (xle_trans _ _ _ X1 R1). simpl in *. rewrite Rabs_pos_eq by lra. split; auto.
Qed.
Lemma max_denotes a b c d (x y : itv N) : V x -> V y ->
  a = low x -> b = low y -> c = up x -> d = up y ->
  denotes val (mk (std_max a b) (std_max c d)) (image2 Rmax (mem val x) (mem val y)).
Proof.
  intros Hx Hy -> -> -> ->.
  destruct (std_max_spec (low x) (low y) (vlow_nn x Hx) (vlow_nn y Hy)) as (_ & _ & L).
  destruct (std_max_spec (up x) (up y) (vup_nn x Hx) (vup_nn y Hy)) as (_ & U & _).
  intros t. unfold mem at 1. cbn [low up]. rewrite L, U. split.
  - intros [[L1 L2] [U1|U1]].
    + destruct (mem_le y t Hy L2) as (s & Hs & Hl). exists t, s. split; [split; auto|].
      split; auto. symmetry. apply Rmax_left; auto.
    + destruct (mem_le x t Hx L1) as (s & Hs & Hl). exists s, t. split; auto.
      split; [split; auto|]. symmetry. apply Rmax_right; auto.
  - intros (r & s & [R1 R2] & [S1 S2] & ->). split.
    + split; eapply xle_trans; eauto; simpl; [apply Rmax_l|apply Rmax_r].
    + unfold Rmax. destruct (Rle_dec r s); auto.
Qed.
Lemma min_denotes a b c d (x y : itv N) : V x -> V y ->
  a = low x -> b = low y -> c = up x -> d = up y ->
  denotes val (mk (std_min a b) (std_min c d)) (image2 Rmin (mem val x) (mem val y)).
Proof.
  intros Hx Hy -> -> -> ->.
  destruct (std_min_spec (low x) (low y) (vlow_nn x Hx) (vlow_nn y Hy)) as (_ & L & _).
  destruct (std_min_spec (up x) (up y) (vup_nn x Hx) (vup_nn y Hy)) as (_ & _ & U).
  intros t. unfold mem at 1. cbn [low up]. rewrite L, U. split.
  - intros [[L1|L1] [U1 U2]].
    + destruct (mem_ge y t Hy U2) as (s & Hs & Hl). exists t, s. split; [split; auto|].
      split; auto. symmetry. apply Rmin_left; auto.
    + destruct (mem_ge x t Hx U1) as (s & Hs & Hl). exists s, t. split; auto.
      split; [split; auto|]. symmetry. apply Rmin_right; auto.
  - intros (r & s & [R1 R2] & [S1 S2] & ->). split.
    + unfold Rmin. destruct (Rle_dec r s); auto.
    + split; eapply xle_trans; eauto; simpl; [apply Rmin_l|apply Rmin_r].
Qed.
Lemma u_max_ok x y : V x -> V y ->
  exists z, runsP P ready (u_max P x y) z /\ denotes val z (image2 Rmax (mem val x) (mem val y)).
Proof.
  intros Hx Hy. unfold u_max. rewrite test_valid2 by auto.
  eexists. split; [apply runsP_ret|]. apply max_denotes; auto.
Qed.
Lemma u_min_ok x y : V x -> V y ->
  exists z, runsP P ready (u_min P x y) z /\ denotes val z (image2 Rmin (mem val x) (mem val y)).
Proof.
  intros Hx Hy. unfold u_min. rewrite test_valid2 by auto.
  eexists. split; [apply runsP_ret|]. apply min_denotes; auto.
Qed.
Lemma u_max_in_ok x v c : val v = Fin c -> V x ->
  exists z, runsP P ready (u_max_in P x v) z /\ denotes val z (image1 (fun r => Rmax r c) (mem val x)).
Proof.
  intros E Hx. pose proof (valid_point v c E) as Hv.
  apply guarded; [eapply test_in_fin; eauto|].
  eexists. split; [apply runsP_ret|].
  eapply denotes_ext; [eapply (image2_point_r _ v c _ E)|]. apply max_denotes; auto.
Qed.
Lemma u_max_ni_ok x v c : val v = Fin c -> V x ->
  exists z, runsP P ready (u_max_ni P v x) z /\ denotes val z (image1 (fun r => Rmax c r) (mem val x)).
Proof.
  intros E Hx. pose proof (valid_point v c E) as Hv.
  apply guarded; [eapply test_ni_fin; eauto|].
  eexists. split; [apply runsP_ret|].
  eapply denotes_ext; [eapply (image2_point_l _ v c _ E)|]. apply max_denotes; auto.
Qed.
Lemma u_min_in_ok x v c : val v = Fin c -> V x ->
  exists z, runsP P ready (u_min_in P x v) z /\ denotes val z (image1 (fun r => Rmin r c) (mem val x)).
Proof.
  intros E Hx. pose proof (valid_point v c E) as Hv.
  apply guarded; [eapply test_in_fin; eauto|].
  eexists. split; [apply runsP_ret|].
  eapply denotes_ext; [eapply (image2_point_r _ v c _ E)|]. apply min_denotes; auto.
Qed.
Lemma u_min_ni_ok x v c : val v = Fin c -> V x ->
  exists z, runsP P ready (u_min_ni P v x) z /\ denotes val z (image1 (fun r => Rmin c r) (mem val x)).
Proof.
  intros E Hx. pose proof (valid_point v c E) as Hv.
  apply guarded; [eapply test_ni_fin; eauto|].
  eexists. split; [apply runsP_ret|].
  eapply denotes_ext; [eapply (image2_point_l _ v c _ E)|]. apply min_denotes; auto.
Qed.
Lemma widen_ok x v c : V x -> val v = Fin c -> 0 <= c ->
  exists z, runsP P ready (widen P x v) z /\
    sound z (fun t => exists r, mem val x r /\ Rabs (t - r) <= c).
Proof.
  intros Hx E Hc. unfold widen. rewrite test_valid by auto. apply via_rnd.
  pose proof (valid_point v c E) as Hv.
  destruct (up_sub_down _ _ _ _ H (low x) v) as (a & Ra & Ea); [apply (xsub_low x (mk v v)); auto|].
  destruct (up_add_up _ _ _ _ H (up x) v) as (b & Rb & Eb); [apply (xadd_up x (mk v v)); auto|].
  exists (mk a b). split; [runs|].
  eapply sound_intro; [| |exact Ra|exact Rb].
  - intros t (r & [R1 R2] & Ht). rewrite E. unfold xsub. destruct (val (low x)); simpl in *; try tauto.
    apply Rabs_le_inv' in Ht. lra.
  - intros t (r & [R1 R2] & Ht). rewrite E. destruct (val (up x)); simpl in *; try tauto.
    apply Rabs_le_inv' in Ht. lra.
Qed.
Lemma le_iff a b : n_le N a b = true <-> xle (val a) (val b).
Proof. apply (ns_le _ _ NS). Qed.
Lemma intersect_ok x y : V x -> V y -> (exists r, mem val x r /\ mem val y r) ->
  exists z, runsP P ready (intersect P x y) z /\ denotes val z (fun r => mem val x r /\ mem val y r).
Proof.
  intros Hx Hy (r & [X1 X2] & [Y1 Y2]). unfold intersect. rewrite test_valid2 by auto.
  destruct (std_max_spec (low x) (low y) (vlow_nn x Hx) (vlow_nn y Hy)) as (_ & _ & L).
  destruct (std_min_spec (up x) (up y) (vup_nn x Hx) (vup_nn y Hy)) as (_ & _ & U).
  assert (n_le N (std_max (low x) (low y)) (std_min (up x) (up y)) = true) as ->.
  { apply le_iff. apply xle_trans with (Fin r); [apply L|apply U]; auto. }
  eexists. split; [apply runsP_ret|].
  intros t. unfold mem. cbn [low up]. rewrite L, U. tauto.
Qed.
Definition hulls (X Y : R -> Prop) (t : R) : Prop := exists r s, X r /\ Y s /\ Rmin r s <= t <= Rmax r s.
Lemma hull_encloses x y : V x -> V y ->
  encloses val (mk (std_min (low x) (low y)) (std_max (up x) (up y))) (hulls (mem val x) (mem val y)).
Proof.
  intros Hx Hy t (r & s & [A1 A2] & [B1 B2] & T1 & T2).
  destruct (std_min_spec (low x) (low y) (vlow_nn x Hx) (vlow_nn y Hy)) as (_ & L & _).
  destruct (std_max_spec (up x) (up y) (vup_nn x Hx) (vup_nn y Hy)) as (_ & U & _).
  split; cbn [low up].
  - apply xle_trans with (Fin (Rmin r s)); [|exact T1]. apply L.
    unfold Rmin. destruct (Rle_dec r s); auto.
  - apply xle_trans with (Fin (Rmax r s)); [exact T2|]. apply U.
    unfold Rmax. destruct (Rle_dec r s); auto.
Qed.
Lemma hull_ok x y : V x -> V y ->
  exists z, runsP P ready (hull P x y) z /\ encloses val z (hulls (mem val x) (mem val y)).
Proof.
  intros Hx Hy. unfold hull. rewrite !test_valid by auto.
  eexists. split; [apply runsP_ret|]. apply hull_encloses; auto.
Qed.
Lemma hull_in_ok x v c : V x -> val v = Fin c ->
  exists z, runsP P ready (hull_in P x v) z /\ encloses val z (hulls (mem val x) (mem val (mk v v))).
Proof.
  intros Hx E. unfold hull_in. rewrite test_valid by auto. pose proof (valid_point v c E) as Hv.
  eexists. split.
  - eapply runsP_bind; [apply pure_runsP, (cs_nan _ _ CS); congruence|]. apply runsP_ret.
  - apply (hull_encloses x (mk v v)); auto.
Qed.
Lemma hull_ni_ok x v c : V x -> val v = Fin c ->
  exists z, runsP P ready (hull_ni P v x) z /\ encloses val z (hulls (mem val (mk v v)) (mem val x)).
Proof.
  intros Hx E. unfold hull_ni. rewrite test_valid by auto. pose proof (valid_point v c E) as Hv.
  eexists. split.
  - eapply runsP_bind; [apply pure_runsP, (cs_nan _ _ CS); congruence|]. apply runsP_ret.
  - apply (hull_encloses (mk v v) x); auto.
Qed.
Lemma hull_nn_ok a b ca cb : val a = Fin ca -> val b = Fin cb ->
  exists z, runsP P ready (hull_nn P a b) z /\ encloses val z (fun r => Rmin ca cb <= r <= Rmax ca cb).
Proof.
  intros Ea Eb. unfold hull_nn, i_hull.
  destruct (le_case a b) as [[E L]|[E L]]; try congruence; rewrite Ea, Eb in L; simpl in L.
  - exists (mk a b). split.
    + repeat (eapply runsP_bind; [apply pure_runsP, (cs_nan _ _ CS); congruence|]).
      rewrite E. apply runsP_ret.
    + intros r. unfold mem. simpl. rewrite Ea, Eb. simpl. rewrite Rmin_left, Rmax_right; lra.
  - exists (mk b a). split.
    + repeat (eapply runsP_bind; [apply pure_runsP, (cs_nan _ _ CS); congruence|]).
      rewrite E. apply runsP_ret.
    + intros r. unfold mem. simpl. rewrite Ea, Eb. simpl. rewrite Rmin_right, Rmax_left; lra.
Qed.
Section Arith3.
Context (a b : T N) (ca cb : R) (Ea : val a = Fin ca) (Eb : val b = Fin cb).
Let Va := valid_point a ca Ea.
Let Vb := valid_point b cb Eb.
Notation point2 := (point2 (val := val) a b ca cb Ea Eb).
Lemma n_add_ok : exists z, runsP P ready (n_add P a b) z /\ sound z (point (ca + cb)).
Proof.
  apply guarded; [apply test_nn; congruence|].
  eapply sound_ex; [apply point2|]. apply via_rnd, (add_case _ (mk a a) (mk b b)); auto.
Qed.
Lemma n_sub_ok : exists z, runsP P ready (n_sub P a b) z /\ sound z (point (ca - cb)).
Proof.
  apply guarded; [apply test_nn; congruence|].
  eapply sound_ex; [apply point2|]. apply via_rnd, (sub_case _ (mk a a) (mk b b)); auto.
Qed.
Lemma n_mul_ok : exists z, runsP P ready (n_mul P a b) z /\ sound z (point (ca * cb)).
Proof.
  apply guarded; [apply test_nn; congruence|].
  eapply sound_ex; [apply point2|]. apply via_rnd.
  apply (mul_case _ (mk a a) (mk b b)); auto; try (unfold bound_of; simpl; solve [auto]);
    rewrite ?Ea, ?Eb; try discriminate.
  - intros t Ht. apply point2 in Ht. rewrite Ht. simpl. lra.
  - intros t Ht. apply point2 in Ht. rewrite Ht. simpl. lra.
Qed.
Lemma n_div_ok : cb <> 0 -> exists z, runsP P ready (n_div P a b) z /\ sound z (point (ca / cb)).
Proof.
  intros Hb. apply guarded; [apply test_nn; congruence|].
  destruct (is_zero_case b) as [[_ K]|[-> _]]; [congruence|]. simpl.
  assert (Q : forall t, quotients (mem val (mk a a)) (mem val (mk b b)) t <-> point (ca / cb) t).
  { intros t. split.
    - intros (r & s & Hr & Hs & _ & ->). apply (mem_point a ca Ea) in Hr. apply (mem_point b cb Eb) in Hs.
      subst. reflexivity.
    - intros ->. exists ca, cb. rewrite (mem_point a ca Ea), (mem_point b cb Eb). auto. }
  eapply sound_ex; [exact Q|]. apply via_rnd.
  apply (div_case _ (mk a a) (mk b b)); auto; try (unfold bound_of; simpl; solve [auto]);
    rewrite ?Ea, ?Eb; simpl; destruct (Req_EM_T cb 0); try tauto; try discriminate.
  - intros t Ht. apply Q in Ht. rewrite Ht. simpl. lra.
  - intros t Ht. apply Q in Ht. rewrite Ht. simpl. lra.
Qed.
End Arith3.
(** ** Powers, for exact bounds and products that keep signs *)
Section Pow.
Context (EX : forall e, rnd e = e) (KS : keeps_signs val P ready).
Notation powers n x := (image1 (fun r => r ^ Z.to_nat n) (mem val x)).
Notation dn_inv := (CorePow.dn_inv (val := val)).
Notation small := (CorePow.small (val := val)).
Notation big := (CorePow.big (val := val)).
Lemma mul_down_inv x y A B : dn_inv x A -> dn_inv y B ->
  exists z, runsI ready (mul_down (p_ar P) x y) z /\ dn_inv z (A * B).
Proof.
  intros (a & Ea & Ha) (b & Eb & Hb).
  destruct (up_mul_down _ _ _ _ H x y) as (z & Rz & Ez).
  { rewrite Ea, Eb. simpl. discriminate. }
  exists z. split; auto. unfold LB, UB in Rz. rewrite EX, Ea, Eb in Rz. simpl in Rz.
  assert (Z0 : xle (Fin 0) (val z)) by (apply (ks_down _ _ _ KS x y a b z); auto; lra).
  unfold CorePow.dn_inv.
  destruct (val z) as [| |c|]; simpl in *; try tauto. exists c. split; auto.
  pose proof (Rmult_le_both a A b B Ha Hb). split; lra.
Qed.
Lemma pow_loop_dn p : forall x y A B, dn_inv x A -> dn_inv y B ->
  exists z, runsI ready (pow_loop (mul_down (p_ar P)) x y p) z /\ dn_inv z (A ^ (2 * Pos.to_nat p) * B).
Proof.
  induction p; intros x y A B Hx Hy; cbn [pow_loop];
  destruct (mul_down_inv x x A A Hx Hx) as (x' & Rx & Hx').
  - destruct (mul_down_inv x' y _ _ Hx' Hy) as (y' & Ry & Hy').
    destruct (IHp x' y' _ _ Hx' Hy') as (z & Rz & Hz).
    exists z. split.
    + eapply runsI_bind; eauto. eapply runsI_bind; eauto.
    + rewrite pow_xI in Hz. auto.
  - destruct (IHp x' y _ _ Hx' Hy) as (z & Rz & Hz).
    exists z. split; [eapply runsI_bind; eauto|]. rewrite pow_xO in Hz. auto.
  - destruct (mul_down_inv x' y _ _ Hx' Hy) as (z & Rz & Hz).
    exists z. split; [eapply runsI_bind; eauto|].
    replace (A ^ (2 * Pos.to_nat 1)) with (A * A) by (simpl; lra). auto.
Qed.
Lemma pow_dn_ok x a n : (0 < n)%Z -> val x = Fin a -> 0 <= a ->
  exists z c, runsI ready (pow_dn P x n) z /\ val z = Fin c /\ 0 <= c <= a ^ Z.to_nat n.
Proof.
  intros Hn Ex Ha. rewrite (pow_split a n Hn). unfold pow_dn, pow_aux.
  assert (Hx : dn_inv x a) by (exists a; split; auto; lra).
  assert (Hy : dn_inv (if Z.odd n then x else one) (if Z.odd n then a else 1)).
  { destruct (Z.odd n); auto. exists 1. split; [apply val_one|lra]. }
  destruct (Z.shiftr n 1) as [|p|p].
  - exists (if Z.odd n then x else one). destruct Hy as (c & Ec & Hc). exists c.
    split; [apply runsI_ret|auto].
  - destruct (pow_loop_dn p x _ _ _ Hx Hy) as (z & Rz & c & Ec & Hc). exists z, c. auto.
  - exists (if Z.odd n then x else one). destruct Hy as (c & Ec & Hc). exists c.
    split; [apply runsI_ret|auto].
Qed.
Lemma mul_up_small x y A B : small x A -> small y B ->
  exists z, runsI ready (mul_up (p_ar P) x y) z /\ small z (A * B).
Proof.
  intros (a & Ea & Ha & Ha1) (b & Eb & Hb & Hb1).
  destruct (up_mul_up _ _ _ _ H x y) as (z & Rz & Ez).
  { rewrite Ea, Eb. simpl. discriminate. }
  exists z. split; auto. unfold LB, UB in Rz. rewrite EX, Ea, Eb in Rz. simpl in Rz.
  assert (Z1 : xle (val z) (Fin 1)) by (apply (ks_up _ _ _ KS x y a b z); auto; lra).
  unfold CorePow.small.
  destruct (val z) as [| |c|]; simpl in *; try tauto. exists c. split; auto.
  pose proof (Rmult_le_both A a B b Ha Hb). split; lra.
Qed.
Lemma mul_up_big x y A B : big x A -> big y B ->
  exists z, runsI ready (mul_up (p_ar P) x y) z /\ big z (A * B).
Proof.
  intros (X1 & A0 & XA) (Y1 & B0 & YB).
  destruct (up_mul_up _ _ _ _ H x y) as (z & Rz & Ez).
  { destruct (val x), (val y); simpl in *; xcase; try tauto; try discriminate; lra. }
  exists z. split; auto. unfold UB in Rz. rewrite EX in Rz. unfold CorePow.big.
  assert (M1 : xle (Fin 1) (xmul (val x) (val y))).
  { destruct (val x), (val y); simpl in *; xcase; try tauto; try lra. nra. }
  assert (M2 : xle (Fin (A * B)) (xmul (val x) (val y))).
  { destruct (val x), (val y); simpl in *; xcase; try tauto; try lra. nra. }
  split; [eapply xle_trans; eauto|]. split; [nra|eapply xle_trans; eauto].
Qed.
Lemma pow_loop_up (K : T N -> R -> Prop)
  (HK : forall x y A B, K x A -> K y B -> exists z, runsI ready (mul_up (p_ar P) x y) z /\ K z (A * B)) p :
  forall x y A B, K x A -> K y B ->
  exists z, runsI ready (pow_loop (mul_up (p_ar P)) x y p) z /\ K z (A ^ (2 * Pos.to_nat p) * B).
Proof.
  induction p; intros x y A B Hx Hy; cbn [pow_loop];
  destruct (HK x x A A Hx Hx) as (x' & Rx & Hx').
  - destruct (HK x' y _ _ Hx' Hy) as (y' & Ry & Hy').
    destruct (IHp x' y' _ _ Hx' Hy') as (z & Rz & Hz).
    exists z. split.
    + eapply runsI_bind; eauto. eapply runsI_bind; eauto.
    + rewrite pow_xI in Hz. auto.
  - destruct (IHp x' y _ _ Hx' Hy) as (z & Rz & Hz).
    exists z. split; [eapply runsI_bind; eauto|]. rewrite pow_xO in Hz. auto.
  - destruct (HK x' y _ _ Hx' Hy) as (z & Rz & Hz).
    exists z. split; [eapply runsI_bind; eauto|].
    replace (A ^ (2 * Pos.to_nat 1)) with (A * A) by (simpl; lra). auto.
Qed.
Lemma pow_aux_up (K : T N -> R -> Prop) x A n :
  (forall x y A B, K x A -> K y B -> exists z, runsI ready (mul_up (p_ar P) x y) z /\ K z (A * B)) ->
  (0 < n)%Z -> K x A -> K one 1 ->
  exists z, runsI ready (pow_up P x n) z /\ K z (A ^ Z.to_nat n).
Proof.
  intros HK Hn Hx H1. rewrite (pow_split A n Hn). unfold pow_up, pow_aux.
  assert (Hy : K (if Z.odd n then x else one) (if Z.odd n then A else 1)) by (destruct (Z.odd n); auto).
  destruct (Z.shiftr n 1) as [|p|p].
  - eexists. split; [apply runsI_ret|auto].
  - destruct (pow_loop_up K HK p x _ _ _ Hx Hy) as (z & Rz & Hz). exists z. auto.
  - eexists. split; [apply runsI_ret|auto].
Qed.
Lemma pow_up_ok x n : (0 < n)%Z -> xle (Fin 0) (val x) ->
  exists z, runsI ready (pow_up P x n) z /\ xle (Fin 0) (val z) /\
    forall A, 0 <= A -> xle (Fin A) (val x) -> xle (Fin (A ^ Z.to_nat n)) (val z).
Proof.
  intros Hn Hx. destruct (xle_total (val x) (Fin 1)) as [L|L].
  { eapply xle_nnr; eauto. } { discriminate. }
  - destruct (val x) as [| |a|] eqn:Ex; simpl in Hx, L; try tauto.
    destruct (pow_aux_up small x a n mul_up_small Hn) as (z & Rz & c & Ec & Hc & Hc1).
    + exists a. auto with real.
    + exists 1. split; [apply val_one|lra].
    + exists z. split; auto. rewrite Ec. split; [simpl; lra|].
      intros A HA HA'. simpl in *. pose proof (pow_incr_0 A a (Z.to_nat n)). lra.
  - assert (B1 : big one 1). { split; [|split; [lra|]]; rewrite val_one; simpl; lra. }
    assert (U : exists z, runsI ready (pow_up P x n) z /\ xle (Fin 0) (val z)).
    { destruct (pow_aux_up big x 1 n mul_up_big Hn) as (z & Rz & Z1 & _ & _); auto.
      - split; auto. split; [lra|auto].
      - exists z. split; auto. eapply xle_trans; [|exact Z1]. simpl. lra. }
    destruct U as (z & Rz & Z0). exists z. split; auto. split; auto.
    intros A HA HA'.
    destruct (pow_aux_up big x A n mul_up_big Hn) as (z' & Rz' & _ & _ & Z2); auto.
    + split; auto.
    + destruct (up_ready _ _ _ _ H) as (s & Hs).
      destruct (Rz s Hs) as (? & _ & E1), (Rz' s Hs) as (? & _ & E2). congruence.
Qed.
Lemma neg_ok a : exists t, val t = xopp (val a) /\ pureM (neg a) t.
Proof. apply (ns_neg _ _ NS). Qed.
Lemma pow_pos_ok x n : (0 < n)%Z -> V x ->
  exists z, runsP P ready (pow_pos P x n) z /\ encloses val z (powers n x) /\
    (Z.odd n = false -> xle (Fin 0) (val (low z))).
Proof.
  intros Hn Hx. unfold pow_pos. apply via_rnd.
  pose proof (vlow_nn x Hx) as NX1. pose proof (vup_nn x Hx) as NX2.
  destruct (is_neg_case (up x)) as [[-> X2]|[-> X2]]; auto.
  - destruct (neg_ok (up x)) as (nu & Enu & Rnu). destruct (neg_ok (low x)) as (nl & Enl & Rnl).
    assert (exists u, val (up x) = Fin u /\ u < 0) as (u & Eu & Hu).
    { destruct Hx as (_ & _ & K). destruct (val (up x)) as [| |u|]; simpl in *; try tauto. eauto. }
    rewrite Eu in Enu. simpl in Enu.
    destruct (pow_dn_ok nu (-u) n Hn Enu) as (yl & c & Ryl & Ec & Hc); [lra|].
    destruct (pow_up_ok nl n Hn) as (yu & Ryu & Y0 & Hyu).
    { rewrite Enl. destruct Hx as (K & K' & _). rewrite Eu in K. destruct (val (low x)); simpl in *; try tauto; lra. }
    assert (EN : forall r, mem val x r -> xle (val yl) (Fin ((-r) ^ Z.to_nat n)) /\ xle (Fin ((-r) ^ Z.to_nat n)) (val yu)).
    { intros r [R1 R2]. rewrite Eu in R2. simpl in R2. split.
      - rewrite Ec. simpl. pose proof (pow_incr_0 (-u) (-r) (Z.to_nat n)). lra.
      - apply Hyu; [lra|]. rewrite Enl. apply (xle_opp _ (Fin r)). auto. }
    destruct (Z.odd n) eqn:O.
    + destruct (neg_ok yu) as (a & Ea & Ra). destruct (neg_ok yl) as (b & Eb & Rb).
      exists (mk a b). split.
      { repeat (eapply runsI_bind; [first [eassumption|apply pure_runsI; eassumption]|]).
        apply runsI_mk_args; apply pure_runsI; auto. }
      split; [|discriminate].
      intros t (r & Hr & ->). destruct (EN r Hr) as [A B].
      rewrite (pow_odd_opp r n O Hn) in A, B.
      split; simpl low; simpl up; rewrite ?Ea, ?Eb.
      * apply xle_opp in B. simpl in B. rewrite Ropp_involutive in B. exact B.
      * apply xle_opp in A. simpl xopp in A. rewrite Ropp_involutive in A. exact A.
    + exists (mk yl yu). split.
      { repeat (eapply runsI_bind; [first [eassumption|apply pure_runsI; eassumption]|]). apply runsI_ret. }
      split; [|intros _; cbn [low]; rewrite Ec; apply Hc].
      intros t (r & Hr & ->). destruct (EN r Hr) as [A B].
      rewrite (pow_even_opp r n O Hn) in A, B. split; auto.
  - destruct (is_neg_case (low x)) as [[-> X1]|[-> X1]]; auto.
    + destruct (neg_ok (low x)) as (nl & Enl & Rnl).
      assert (NL0 : xle (Fin 0) (val nl)).
      { rewrite Enl. destruct (val (low x)); simpl in *; try tauto; lra. }
      destruct (Z.odd n) eqn:O.
      * destruct (pow_up_ok nl n Hn NL0) as (t1 & Rt1 & T10 & Ht1).
        destruct (pow_up_ok (up x) n Hn X2) as (t2 & Rt2 & T20 & Ht2).
        destruct (neg_ok t1) as (a & Ea & Ra).
        exists (mk a t2). split.
        { apply runsI_mk_args; auto.
          repeat (eapply runsI_bind; [first [eassumption|apply pure_runsI; eassumption]|]).
          apply pure_runsI; auto. }
        split; [|discriminate].
        intros t (r & [R1 R2] & ->). split; simpl low; simpl up; rewrite ?Ea.
        -- destruct (Rle_or_lt 0 r).
           ++ apply xle_trans with (Fin 0).
              ** destruct (val t1); simpl in *; try tauto; lra.
              ** simpl. apply pow_le; auto.
           ++ assert (K : xle (Fin ((-r) ^ Z.to_nat n)) (val t1)).
              { apply Ht1; [lra|]. rewrite Enl. apply (xle_opp _ (Fin r)). auto. }
              apply xle_opp in K. rewrite (pow_odd_opp r n O Hn) in K. simpl in K.
              rewrite Ropp_involutive in K. exact K.
        -- destruct (Rle_or_lt 0 r); [apply Ht2; auto|].
           apply xle_trans with (Fin 0); auto. simpl.
           replace r with (- (- r)) by lra. rewrite (pow_odd_opp (-r) n O Hn).
           pose proof (pow_le (-r) (Z.to_nat n)). lra.
      * assert (MX : xle (Fin 0) (val (std_max nl (up x))) /\ xle (val nl) (val (std_max nl (up x)))
                     /\ xle (val (up x)) (val (std_max nl (up x)))).
        { unfold std_max. assert (val nl <> NaN) by (eapply xle_nnr; eauto).
          destruct (lt_case nl (up x)) as [[-> L]|[-> L]]; auto.
          - split; auto. split; [apply xlt_xle; auto|apply xle_refl; auto].
          - split; auto. split; auto. apply xle_refl; auto. }
        destruct MX as (M0 & M1 & M2).
        destruct (pow_up_ok _ n Hn M0) as (t1 & Rt1 & T10 & Ht1).
        exists (mk zero t1). split.
        { repeat (eapply runsI_bind; [first [eassumption|apply pure_runsI; eassumption]|]). apply runsI_ret. }
        split; [|intros _; cbn [low]; rewrite val_zero; simpl; lra].
        intros t (r & [R1 R2] & ->).
        assert (K0 : 0 <= r ^ Z.to_nat n /\ r ^ Z.to_nat n = Rabs r ^ Z.to_nat n).
        { unfold Rabs. destruct (Rcase_abs r).
          - rewrite (pow_even_opp r n O Hn). split; auto.
            rewrite <- (pow_even_opp r n O Hn). apply pow_le; lra.
          - split; auto. apply pow_le; lra. }
        split; simpl low; simpl up; rewrite ?val_zero; [simpl; apply K0|].
        rewrite (proj2 K0). apply Ht1; [apply Rabs_pos|].
        unfold Rabs. destruct (Rcase_abs r).
        -- eapply xle_trans; [|exact M1]. rewrite Enl. apply (xle_opp _ (Fin r)). auto.
        -- eapply xle_trans; [|exact M2]. auto.
    + assert (exists l, val (low x) = Fin l /\ 0 <= l) as (l & El & Hl).
      { destruct Hx as (_ & K & _). destruct (val (low x)) as [| |u|]; simpl in *; try tauto. eauto. }
      destruct (pow_dn_ok (low x) l n Hn El Hl) as (yl & c & Ryl & Ec & Hc).
      destruct (pow_up_ok (up x) n Hn X2) as (yu & Ryu & Y0 & Hyu).
      exists (mk yl yu). split; [runs|]. split; [|intros _; cbn [low]; rewrite Ec; apply Hc].
      intros t (r & [R1 R2] & ->). rewrite El in R1. simpl in R1. split; simpl low; simpl up.
      * rewrite Ec. simpl. pose proof (pow_incr_0 l r (Z.to_nat n)). lra.
      * apply Hyu; auto. lra.
Qed.
Lemma pow_positive_ok x n : (0 < n)%Z -> V x ->
  exists z, runsP P ready (pow P x n) z /\ encloses val z (powers n x) /\
    (Z.odd n = false -> xle (Fin 0) (val (low z))).
Proof.
  intros Hn Hx. unfold pow. rewrite test_valid by auto.
  rewrite (proj2 (Z.eqb_neq n 0)) by lia. rewrite (proj2 (Z.ltb_ge n 0)) by lia.
  apply pow_pos_ok; auto.
Qed.
Lemma pow_zero_ok x : V x -> ~ (val (low x) = Fin 0 /\ val (up x) = Fin 0) ->
  exists z, runsP P ready (pow P x 0) z /\ val (low z) = Fin 1 /\ val (up z) = Fin 1.
Proof.
  intros Hx Hz. unfold pow. rewrite test_valid by auto. simpl.
  destruct (zeros_case x Hx) as [(-> & Z1 & Z2)|(-> & _)]; [tauto|].
  exists (mk one one). split; [|split; apply val_one].
  apply pure_runsP. unfold ctor_num. eapply pureM_bind; [apply (cs_nan _ _ CS)|].
  - rewrite val_one; discriminate.
  - apply pureM_ret.
Qed.
Lemma pow_negative_ok x n : (int_min < n < 0)%Z -> V x ->
  ~ (val (low x) = Fin 0 /\ val (up x) = Fin 0) -> n_has_inf N = true ->
  exists z, runsP P ready (pow P x n) z /\ encloses val z (inv_powers n (mem val x)).
Proof.
  intros Hn Hx Hz HI. unfold pow. rewrite test_valid by auto.
  rewrite (proj2 (Z.eqb_neq n 0)) by lia. rewrite (proj2 (Z.ltb_lt n 0)) by lia.
  rewrite (proj2 (Z.eqb_neq n int_min)) by lia.
  destruct (pow_pos_ok x (-n)) as (z & Rz & Ez & _); auto; [lia|].
  assert (exists r, mem val x r /\ r <> 0) as (r & Hr & Hr').
  { destruct Hx as (A & B & C). unfold mem.
    destruct (val (low x)) as [| |l|], (val (up x)) as [| |u|]; simpl in *; try tauto.
    - destruct (Req_dec u 0) as [->|Hu]; [exists (-1)|exists u]; repeat split; auto; lra.
    - exists 1. repeat split; auto; lra.
    - destruct (Req_dec u 0) as [->|Hu]; [|exists u; repeat split; auto; lra].
      destruct (Req_dec l 0) as [->|Hl]; [exfalso; apply Hz; auto|exists l; repeat split; auto; lra].
    - destruct (Req_dec l 0) as [->|Hl]; [exists 1|exists l]; repeat split; auto; lra. }
  assert (Mz : mem val z (r ^ Z.to_nat (-n))) by (apply Ez; exists r; auto).
  pose proof (pow_nonzero r (Z.to_nat (-n)) Hr') as NZ.
  destruct (inverse_ok z) as (w & Rw & Ew); auto.
  - eapply mem_valid; eauto.
  - intros [E1 E2]. destruct Mz as [M1 M2]. rewrite E1 in M1. rewrite E2 in M2. simpl in *. lra.
  - exists w. split; [eapply runsP_bind; eauto|].
    intros t (q & Hq & Hq' & ->). unfold mem. rewrite <- (EX (Fin _)). apply Ew. exists 1, (q ^ Z.to_nat (-n)).
    split; [reflexivity|]. split; [apply Ez; exists q; auto|]. split; [apply pow_nonzero; auto|].
    field. apply pow_nonzero; auto.
Qed.
End Pow.
End Sound.

(** * Correctness of the arithmetic operators, from the rounding interface *)

From Coq Require Import Reals ZArith Lra Psatz Bool List.
From Verif Require Import Outcome Base Checking Interval Utility Arith Arith2 FloatNum Spec ExtR Sem.
Local Open Scope R_scope.

Section Core.
Context {N : num} {val : T N -> ext} {P : policy N} {ready : rmode -> Prop}
        (H : polspec val P ready).
Notation V := (valid val).
Notation "x ∋ r" := (mem val x r) (at level 70).
Notation tight := (tightest val).
Notation NS := (ps_num _ _ _ H).
Notation AS := (ps_ar _ _ _ H).
Notation CS := (ps_ck _ _ _ H).

Lemma val_zero : val zero = Fin 0.
Proof. apply (ns_0 _ _ NS). Qed.
Lemma val_one : val one = Fin 1.
Proof. apply (ns_1 _ _ NS). Qed.

Lemma is_neg_iff v : is_neg v = true <-> xlt (val v) (Fin 0).
Proof. unfold is_neg. rewrite (ns_lt _ _ NS), val_zero. tauto. Qed.
Lemma is_pos_iff v : is_pos v = true <-> xlt (Fin 0) (val v).
Proof. unfold is_pos, n_gt. rewrite (ns_lt _ _ NS), val_zero. tauto. Qed.
Lemma is_zero_iff v : is_zero v = true <-> val v = Fin 0.
Proof.
  unfold is_zero. rewrite (ns_eq _ _ NS), val_zero. split; [tauto|].
  intros E. rewrite E. split; congruence.
Qed.
Lemma is_neg_case v : val v <> NaN ->
  (is_neg v = true /\ xlt (val v) (Fin 0)) \/ (is_neg v = false /\ xle (Fin 0) (val v)).
Proof.
  intros Hn. destruct (is_neg v) eqn:E; [left|right]; split; auto.
  - apply is_neg_iff; auto.
  - apply xnlt_le; auto; try discriminate. rewrite <- is_neg_iff. congruence.
Qed.
Lemma is_pos_case v : val v <> NaN ->
  (is_pos v = true /\ xlt (Fin 0) (val v)) \/ (is_pos v = false /\ xle (val v) (Fin 0)).
Proof.
  intros Hn. destruct (is_pos v) eqn:E; [left|right]; split; auto.
  - apply is_pos_iff; auto.
  - apply xnlt_le; auto; try discriminate. rewrite <- is_pos_iff. congruence.
Qed.
Lemma is_zero_case v :
  (is_zero v = true /\ val v = Fin 0) \/ (is_zero v = false /\ val v <> Fin 0).
Proof.
  destruct (is_zero v) eqn:E; [left|right]; split; auto.
  - apply is_zero_iff; auto.
  - rewrite <- is_zero_iff. congruence.
Qed.
Lemma le_case a b : val a <> NaN -> val b <> NaN ->
  (n_le N a b = true /\ xle (val a) (val b)) \/ (n_le N a b = false /\ xlt (val b) (val a)).
Proof.
  intros Ha Hb. destruct (n_le N a b) eqn:E; [left|right]; split; auto.
  - apply (ns_le _ _ NS); auto.
  - apply xnle_lt; auto. rewrite <- (ns_le _ _ NS). congruence.
Qed.
Lemma lt_case a b : val a <> NaN -> val b <> NaN ->
  (n_lt N a b = true /\ xlt (val a) (val b)) \/ (n_lt N a b = false /\ xle (val b) (val a)).
Proof.
  intros Ha Hb. destruct (n_lt N a b) eqn:E; [left|right]; split; auto.
  - apply (ns_lt _ _ NS); auto.
  - apply xnlt_le; auto. rewrite <- (ns_lt _ _ NS). congruence.
Qed.
Lemma eq_case a b : val a <> NaN ->
  (n_eq N a b = true /\ val a = val b) \/ (n_eq N a b = false /\ val a <> val b).
Proof.
  intros Ha. destruct (n_eq N a b) eqn:E; [left|right]; split; auto.
  - apply (ns_eq _ _ NS); auto.
  - intros E'. assert (n_eq N a b = true) by (apply (ns_eq _ _ NS); auto). congruence.
Qed.

Lemma test_valid x : V x -> test_input_i P x = false.
Proof. intros (Hx & _). unfold test_input_i. apply (cs_empty _ _ CS); auto. Qed.
Lemma test_valid2 x y : V x -> V y -> test_input_ii P x y = false.
Proof. intros. unfold test_input_ii. rewrite !test_valid; auto. Qed.
Lemma test_ni v y : val v <> NaN -> V y -> pureM (test_input_ni P v y) false.
Proof.
  intros Hv Hy. eapply pureM_bind; [apply (cs_nan _ _ CS); auto|].
  rewrite test_valid; auto. apply pureM_ret.
Qed.
Lemma test_in x v : val v <> NaN -> V x -> pureM (test_input_in P x v) false.
Proof.
  intros Hv Hy. unfold test_input_in. rewrite test_valid; auto. apply (cs_nan _ _ CS); auto.
Qed.
Lemma test_nn a b : val a <> NaN -> val b <> NaN -> pureM (test_input_nn P a b) false.
Proof.
  intros Ha Hb. eapply pureM_bind; [apply (cs_nan _ _ CS); auto|]. simpl. apply (cs_nan _ _ CS); auto.
Qed.

(** The policy's reaction to an empty result. *)
Definition empty_out (o : outcome (itv N)) : Prop := empty_action val (p_ck P) o.

Lemma i_empty_run o : empty_out o -> forall s, i_empty P s = (o, s).
Proof.
  intros Ho s. unfold i_empty, mk_args, args2. destruct Ho as [l u H1 H2 _ _|e H1 H2].
  - destruct (p_ord P (H_interval, 297%Z)); unfold bind; rewrite ?H1, ?H2, ?H1; reflexivity.
  - destruct (p_ord P (H_interval, 297%Z)); unfold bind; rewrite ?H1, ?H2; reflexivity.
Qed.

Lemma vlow_nn x : V x -> val (low x) <> NaN.
Proof. apply valid_low_nn. Qed.
Lemma vup_nn x : V x -> val (up x) <> NaN.
Proof. apply valid_up_nn. Qed.

(** ** Addition and subtraction *)
Lemma xadd_low x y : V x -> V y -> xadd (val (low x)) (val (low y)) <> NaN.
Proof.
  intros (A & B & _) (A' & B' & _).
  destruct (val (low x)), (val (low y)); simpl in *; try congruence; tauto.
Qed.
Lemma xadd_up x y : V x -> V y -> xadd (val (up x)) (val (up y)) <> NaN.
Proof.
  intros (A & _ & B) (A' & _ & B').
  destruct (val (low x)), (val (up x)), (val (low y)), (val (up y)); simpl in *; try congruence; tauto.
Qed.

Lemma is_lb_add x y : is_lb (xadd (val (low x)) (val (low y))) (image2 Rplus (mem val x) (mem val y)).
Proof.
  intros t (r & s & [A _] & [B _] & ->).
  destruct (val (low x)), (val (low y)); simpl in *; try tauto; lra.
Qed.
Lemma is_ub_add x y : is_ub (xadd (val (up x)) (val (up y))) (image2 Rplus (mem val x) (mem val y)).
Proof.
  intros t (r & s & [_ A] & [_ B] & ->).
  destruct (val (up x)), (val (up y)); simpl in *; try tauto; lra.
Qed.

Lemma add_case o x y : V x -> V y ->
  exists z, runsI ready (mk_args o (add_down (p_ar P) (low x) (low y)) (add_up (p_ar P) (up x) (up y))) z
            /\ tight z (image2 Rplus (mem val x) (mem val y)).
Proof.
  intros Hx Hy.
  destruct (as_add_down _ _ _ AS (low x) (low y)) as (a & Ra & Ea); [apply xadd_low; auto|].
  destruct (as_add_up _ _ _ AS (up x) (up y)) as (b & Rb & Eb); [apply xadd_up; auto|].
  exists (mk a b). split; [runs|].
  eapply tightest_intro; [apply is_lb_add| |apply is_ub_add| |exact Ra|exact Rb].
  - apply slim_wlim, slim_add; [apply valid_slim_low|apply valid_slim_low|apply xadd_low]; auto.
  - apply slim_wlim, slim_add; [apply valid_slim_up|apply valid_slim_up|apply xadd_up]; auto.
Qed.

Lemma via_rnd {A} (b : M A) (Q : A -> Prop) :
  (exists z, runsI ready b z /\ Q z) -> exists z, runsP P ready (with_rnd P b) z /\ Q z.
Proof. intros (z & H1 & H2). exists z. split; auto. eapply with_rnd_runs; eauto. Qed.

Lemma op_add_ok x y : V x -> V y ->
  exists z, runsP P ready (op_add P x y) z /\ tight z (image2 Rplus (mem val x) (mem val y)).
Proof.
  intros Hx Hy. unfold op_add. rewrite test_valid2; auto.
  apply via_rnd, add_case; auto.
Qed.

Lemma xsub_low x y : V x -> V y -> xsub (val (low x)) (val (up y)) <> NaN.
Proof.
  intros (A & B & _) (A' & _ & B'). unfold xsub.
  destruct (val (low x)), (val (low y)), (val (up y)); simpl in *; try congruence; tauto.
Qed.
Lemma xsub_up x y : V x -> V y -> xsub (val (up x)) (val (low y)) <> NaN.
Proof.
  intros (A & _ & B) (A' & B' & _). unfold xsub.
  destruct (val (low x)), (val (up x)), (val (low y)); simpl in *; try congruence; tauto.
Qed.

Lemma slim_sub X Y a b : slim X a -> slim Y b -> xsub a b <> NaN ->
  slim (image2 Rminus X Y) (xsub a b).
Proof.
  intros HX HY Hn. apply slim_opp in HY.
  pose proof (slim_add _ _ _ _ HX HY Hn) as HS. revert HS. apply slim_ext.
  intros t (r & s & Hr & (s' & Hs' & ->) & ->). exists r, s'. repeat split; auto.
Qed.

Lemma sub_case o x y : V x -> V y ->
  exists z, runsI ready (mk_args o (sub_down (p_ar P) (low x) (up y)) (sub_up (p_ar P) (up x) (low y))) z
            /\ tight z (image2 Rminus (mem val x) (mem val y)).
Proof.
  intros Hx Hy.
  destruct (as_sub_down _ _ _ AS (low x) (up y)) as (a & Ra & Ea); [apply xsub_low; auto|].
  destruct (as_sub_up _ _ _ AS (up x) (low y)) as (b & Rb & Eb); [apply xsub_up; auto|].
  exists (mk a b). split; [runs|].
  eapply tightest_intro; [| | | |exact Ra|exact Rb].
  - intros t (r & s & [A _] & [_ B] & ->). unfold xsub.
    destruct (val (low x)), (val (up y)); simpl in *; try tauto; lra.
  - apply slim_wlim, slim_sub; [apply valid_slim_low|apply valid_slim_up|apply xsub_low]; auto.
  - intros t (r & s & [_ A] & [B _] & ->). unfold xsub.
    destruct (val (up x)), (val (low y)); simpl in *; try tauto; lra.
  - apply slim_wlim, slim_sub; [apply valid_slim_up|apply valid_slim_low|apply xsub_up]; auto.
Qed.

Lemma op_sub_ok x y : V x -> V y ->
  exists z, runsP P ready (op_sub P x y) z /\ tight z (image2 Rminus (mem val x) (mem val y)).
Proof.
  intros Hx Hy. unfold op_sub. rewrite test_valid2; auto.
  apply via_rnd, sub_case; auto.
Qed.

(** ** Negation *)
Lemma op_neg_ok x : V x ->
  exists z, runsP P ready (op_neg P x) z /\ denotes val z (image1 Ropp (mem val x))
            /\ V z /\ val (low z) = xopp (val (up x)) /\ val (up z) = xopp (val (low x)).
Proof.
  intros Hx. unfold op_neg. rewrite test_valid; auto.
  destruct (ns_neg _ _ NS (up x)) as (a & Ra & Ea).
  destruct (ns_neg _ _ NS (low x)) as (b & Rb & Eb).
  exists (mk a b). split; [|split; [|split; [|split; auto]]].
  - apply pure_runsP, pureM_mk_args; auto.
  - intros t. unfold mem at 1. cbn [low up]. rewrite Ra, Rb. split.
    + intros [A B]. exists (-t). split; [split|lra].
      * apply xle_opp in B. rewrite xopp_involutive in B. auto.
      * apply xle_opp in A. rewrite xopp_involutive in A. auto.
    + intros (r & [A B] & ->). split; [apply (xle_opp (Fin r))|apply (xle_opp _ (Fin r))]; auto.
  - destruct Hx as (A & B & C). split; [|split]; simpl; rewrite ?Ra, ?Rb.
    + apply xle_opp; auto.
    + destruct (val (up x)); simpl; congruence.
    + destruct (val (low x)); simpl; congruence.
Qed.

(** ** Multiplication *)
Definition bound_of (x : itv N) (c : T N) : Prop := c = low x \/ c = up x.

Lemma bound_slim x c : V x -> bound_of x c -> slim (mem val x) (val c).
Proof. intros Hx [->| ->]; [apply valid_slim_low|apply valid_slim_up]; auto. Qed.

Notation prods x y := (image2 Rmult (mem val x) (mem val y)).

Lemma mul_case o x y cx cy dx dy : V x -> V y ->
  bound_of x cx -> bound_of y cy -> bound_of x dx -> bound_of y dy ->
  xmul (val cx) (val cy) <> NaN -> xmul (val dx) (val dy) <> NaN ->
  is_lb (xmul (val cx) (val cy)) (prods x y) ->
  is_ub (xmul (val dx) (val dy)) (prods x y) ->
  exists z, runsI ready (mk_args o (mul_down (p_ar P) cx cy) (mul_up (p_ar P) dx dy)) z
            /\ tight z (prods x y).
Proof.
  intros Hx Hy B1 B2 B3 B4 N1 N2 L U.
  destruct (as_mul_down _ _ _ AS cx cy) as (a & Ra & Ea); auto.
  destruct (as_mul_up _ _ _ AS dx dy) as (b & Rb & Eb); auto.
  exists (mk a b). split; [runs|].
  eapply tightest_intro; [exact L| |exact U| |exact Ra|exact Rb].
  - apply slim_wlim, slim_mul; auto; apply bound_slim; auto.
  - apply slim_wlim, slim_mul; auto; apply bound_slim; auto.
Qed.

Lemma mk_zero_tight S : nonempty S -> (forall r, S r -> r = 0) -> tight (mk zero zero) S.
Proof.
  intros (q & Hq) Z. pose proof (Z q Hq); subst q.
  eapply tightest_intro with (Fin 0) (Fin 0); simpl.
  - intros r Hr. simpl. rewrite (Z r Hr). lra.
  - apply (slim_wlim S (Fin 0)). auto.
  - intros r Hr. simpl. rewrite (Z r Hr). lra.
  - apply (slim_wlim S (Fin 0)). auto.
  - rewrite <- val_zero at 1. apply RD_val. rewrite val_zero; discriminate.
  - rewrite <- val_zero at 1. apply RU_val. rewrite val_zero; discriminate.
Qed.

(** minimum and maximum of two directed results *)
Lemma std_min_RD e1 e2 a b : RD val e1 a -> RD val e2 b ->
  (xle e1 e2 -> RD val e1 (std_min a b)) /\ (xle e2 e1 -> RD val e2 (std_min a b)).
Proof.
  intros [A1 A2] [B1 B2]. unfold std_min.
  pose proof (xle_nnl _ _ A1). pose proof (xle_nnl _ _ B1).
  destruct (lt_case b a) as [[-> L]|[-> L]]; auto; split; intros E.
  - exfalso. apply (xlt_nle _ _ L). apply B2. eapply xle_trans; eauto.
  - split; auto.
  - split; auto.
  - assert (val a = val b) as E1.
    { apply xle_antisym; auto. apply A2. eapply xle_trans; eauto. }
    split; rewrite E1; auto.
Qed.
Lemma std_max_RU e1 e2 a b : RU val e1 a -> RU val e2 b ->
  (xle e2 e1 -> RU val e1 (std_max a b)) /\ (xle e1 e2 -> RU val e2 (std_max a b)).
Proof.
  intros [A1 A2] [B1 B2]. unfold std_max.
  pose proof (xle_nnr _ _ A1). pose proof (xle_nnr _ _ B1).
  destruct (lt_case a b) as [[-> L]|[-> L]]; auto; split; intros E.
  - exfalso. apply (xlt_nle _ _ L). apply B2. eapply xle_trans; eauto.
  - split; auto.
  - split; auto.
  - assert (val a = val b) as E1.
    { apply xle_antisym; auto. apply A2. eapply xle_trans; eauto. }
    split; rewrite E1; auto.
Qed.

Ltac bnd := solve [unfold bound_of; auto].

(** Kill a goal about an extended-real corner by cases on the four bounds. *)
Ltac corner x y :=
  let A := fresh in let B := fresh in
  repeat match goal with HV : valid val _ |- _ => destruct HV as (? & ? & ?) end;
  try (intros ? (? & ? & (? & ?) & (? & ?) & ->));
  destruct (val (low x)) as [| |?xl|], (val (up x)) as [| |?xu|];
  cbn [xle xlt] in *; try contradiction; try congruence;
  destruct (val (low y)) as [| |?yl|], (val (up y)) as [| |?yu|];
  cbn [xle xlt xmul] in *; try contradiction; try congruence;
  xcase; try contradiction; try congruence; try exact I; try lra; try nra.

Lemma op_mul_ok x y : V x -> V y ->
  exists z, runsP P ready (op_mul P x y) z /\ tight z (prods x y).
Proof.
  intros Hx Hy. unfold op_mul. rewrite test_valid2; auto.
  apply via_rnd. cbv zeta.
  pose proof (vlow_nn x Hx) as NX1. pose proof (vup_nn x Hx) as NX2.
  pose proof (vlow_nn y Hy) as NY1. pose proof (vup_nn y Hy) as NY2.
  assert (NE : nonempty (prods x y)).
  { destruct (valid_mem _ _ Hx) as (r & Hr), (valid_mem _ _ Hy) as (s & Hs).
    exists (r * s), r, s. auto. }
  assert (ZX : xle (Fin 0) (val (low x)) -> xle (val (up x)) (Fin 0) -> forall r, prods x y r -> r = 0).
  { intros A B t (r & s & [R1 R2] & _ & ->).
    pose proof (xle_trans _ _ _ A R1). pose proof (xle_trans _ _ _ R2 B). simpl in *.
    replace r with 0 by lra. lra. }
  assert (ZY : xle (Fin 0) (val (low y)) -> xle (val (up y)) (Fin 0) -> forall r, prods x y r -> r = 0).
  { intros A B t (r & s & _ & [R1 R2] & ->).
    pose proof (xle_trans _ _ _ A R1). pose proof (xle_trans _ _ _ R2 B). simpl in *.
    replace s with 0 by lra. lra. }
  destruct (is_neg_case (low x)) as [[-> X1]|[-> X1]]; auto.
  - destruct (is_pos_case (up x)) as [[-> X2]|[-> X2]]; auto.
    + destruct (is_neg_case (low y)) as [[-> Y1]|[-> Y1]]; auto.
      * destruct (is_pos_case (up y)) as [[-> Y2]|[-> Y2]]; auto.
        -- (* M * M *)
           assert (N1 : xmul (val (low x)) (val (up y)) <> NaN) by corner x y.
           assert (N2 : xmul (val (up x)) (val (low y)) <> NaN) by corner x y.
           assert (N3 : xmul (val (low x)) (val (low y)) <> NaN) by corner x y.
           assert (N4 : xmul (val (up x)) (val (up y)) <> NaN) by corner x y.
           destruct (as_mul_down _ _ _ AS (low x) (up y)) as (a1 & Ra1 & Ea1); auto.
           destruct (as_mul_down _ _ _ AS (up x) (low y)) as (a2 & Ra2 & Ea2); auto.
           destruct (as_mul_up _ _ _ AS (low x) (low y)) as (b1 & Rb1 & Eb1); auto.
           destruct (as_mul_up _ _ _ AS (up x) (up y)) as (b2 & Rb2 & Eb2); auto.
           exists (mk (std_min a1 a2) (std_max b1 b2)). split.
           { apply runsI_mk_args.
             - eapply runsI_bind; [apply runsI_args2; eauto|]. apply runsI_ret.
             - eapply runsI_bind; [apply runsI_args2; eauto|]. apply runsI_ret. }
           assert (W1 : wlim (prods x y) (xmul (val (low x)) (val (up y))))
             by (apply slim_wlim, slim_mul; auto; apply bound_slim; auto; unfold bound_of; auto).
           assert (W2 : wlim (prods x y) (xmul (val (up x)) (val (low y))))
             by (apply slim_wlim, slim_mul; auto; apply bound_slim; auto; unfold bound_of; auto).
           assert (W3 : wlim (prods x y) (xmul (val (low x)) (val (low y))))
             by (apply slim_wlim, slim_mul; auto; apply bound_slim; auto; unfold bound_of; auto).
           assert (W4 : wlim (prods x y) (xmul (val (up x)) (val (up y))))
             by (apply slim_wlim, slim_mul; auto; apply bound_slim; auto; unfold bound_of; auto).
           assert (L : forall t, prods x y t ->
                     xle (xmul (val (low x)) (val (up y))) (Fin t) \/
                     xle (xmul (val (up x)) (val (low y))) (Fin t)).
           { clear - X1 X2 Y1 Y2 Hx Hy N1 N2.
             intros t (r & s & (R1 & R2) & (S1 & S2) & ->).
             destruct Hx as (?&?&?), Hy as (?&?&?).
             destruct (val (low x)) as [| |xl|], (val (up x)) as [| |xu|]; simpl in R1, R2, X1, X2; try tauto;
             destruct (val (low y)) as [| |yl|], (val (up y)) as [| |yu|]; simpl in S1, S2, Y1, Y2; try tauto;
             cbn [xmul] in *; xcase; try tauto; try lra.
             destruct (Rle_or_lt 0 s).
             - left. cbn [xle]. destruct (Rle_or_lt 0 r); nra.
             - right. cbn [xle]. destruct (Rle_or_lt 0 r); nra. }
           assert (U : forall t, prods x y t ->
                     xle (Fin t) (xmul (val (low x)) (val (low y))) \/
                     xle (Fin t) (xmul (val (up x)) (val (up y)))).
           { clear - X1 X2 Y1 Y2 Hx Hy N3 N4.
             intros t (r & s & (R1 & R2) & (S1 & S2) & ->).
             destruct Hx as (?&?&?), Hy as (?&?&?).
             destruct (val (low x)) as [| |xl|], (val (up x)) as [| |xu|]; simpl in R1, R2, X1, X2; try tauto;
             destruct (val (low y)) as [| |yl|], (val (up y)) as [| |yu|]; simpl in S1, S2, Y1, Y2; try tauto;
             cbn [xmul] in *; xcase; try tauto; try lra.
             destruct (Rle_or_lt 0 s).
             - right. cbn [xle]. destruct (Rle_or_lt 0 r); nra.
             - left. cbn [xle]. destruct (Rle_or_lt 0 r); nra. }
           assert (D : exists e1, is_lb e1 (prods x y) /\ wlim (prods x y) e1 /\ RD val e1 (std_min a1 a2)).
           { destruct (std_min_RD _ _ _ _ Ra1 Ra2) as [D1 D2].
             destruct (xle_total _ _ N1 N2) as [E|E].
             - exists (xmul (val (low x)) (val (up y))). split; auto.
               intros t Ht. destruct (L t Ht); auto. eapply xle_trans; eauto.
             - exists (xmul (val (up x)) (val (low y))). split; auto.
               intros t Ht. destruct (L t Ht); auto. eapply xle_trans; eauto. }
           assert (G : exists e2, is_ub e2 (prods x y) /\ wlim (prods x y) e2 /\ RU val e2 (std_max b1 b2)).
           { destruct (std_max_RU _ _ _ _ Rb1 Rb2) as [D1 D2].
             destruct (xle_total _ _ N3 N4) as [E|E].
             - exists (xmul (val (up x)) (val (up y))). split; auto.
               intros t Ht. destruct (U t Ht); auto. eapply xle_trans; eauto.
             - exists (xmul (val (low x)) (val (low y))). split; auto.
               intros t Ht. destruct (U t Ht); auto. eapply xle_trans; eauto. }
           destruct D as (e1 & ? & ? & ?), G as (e2 & ? & ? & ?).
           eapply tightest_intro; eauto.
        -- (* M * N *) apply mul_case; auto; try bnd; clear NE ZX ZY; corner x y.
      * destruct (is_pos_case (up y)) as [[-> Y2]|[-> Y2]]; auto.
        -- (* M * P *) apply mul_case; auto; try bnd; clear NE ZX ZY; corner x y.
        -- exists (mk zero zero). split; [apply runsI_ret|]. apply mk_zero_tight; auto.
    + destruct (is_neg_case (low y)) as [[-> Y1]|[-> Y1]]; auto.
      * destruct (is_pos_case (up y)) as [[-> Y2]|[-> Y2]]; auto.
        -- apply mul_case; auto; try bnd; clear NE ZX ZY; corner x y.
        -- apply mul_case; auto; try bnd; clear NE ZX ZY; corner x y.
      * destruct (is_pos_case (up y)) as [[-> Y2]|[-> Y2]]; auto.
        -- apply mul_case; auto; try bnd; clear NE ZX ZY; corner x y.
        -- exists (mk zero zero). split; [apply runsI_ret|]. apply mk_zero_tight; auto.
  - destruct (is_pos_case (up x)) as [[-> X2]|[-> X2]]; auto.
    + destruct (is_neg_case (low y)) as [[-> Y1]|[-> Y1]]; auto.
      * destruct (is_pos_case (up y)) as [[-> Y2]|[-> Y2]]; auto.
        -- apply mul_case; auto; try bnd; clear NE ZX ZY; corner x y.
        -- apply mul_case; auto; try bnd; clear NE ZX ZY; corner x y.
      * destruct (is_pos_case (up y)) as [[-> Y2]|[-> Y2]]; auto.
        -- apply mul_case; auto; try bnd; clear NE ZX ZY; corner x y.
        -- exists (mk zero zero). split; [apply runsI_ret|]. apply mk_zero_tight; auto.
    + exists (mk zero zero). split; [apply runsI_ret|]. apply mk_zero_tight; auto.
Qed.
End Core.

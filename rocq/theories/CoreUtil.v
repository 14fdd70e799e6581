(** * Absolute value, min, max, norm, width, widen and set operations *)

From Coq Require Import Reals ZArith Lra Lia Psatz Bool List.
From Verif Require Import Outcome Base Checking Interval Utility Arith Arith2 FloatNum Spec ExtR Sem
  CoreArith CoreDiv CoreMore CoreFun.
Local Open Scope R_scope.

Section Core.
Context {N : num} {val : T N -> ext} {P : policy N} {ready : rmode -> Prop}
        (H : polspec val P ready).
Notation V := (valid val).
Notation tight := (tightest val).
Notation NS := (ps_num _ _ _ H).
Notation AS := (ps_ar _ _ _ H).
Notation CS := (ps_ck _ _ _ H).
Notation val_zero := (val_zero H).
Notation via_rnd := (via_rnd H).
Notation is_empty_out o := (empty_out (P := P) (val := val) o).

Lemma std_max_spec a b : val a <> NaN -> val b <> NaN ->
  val (std_max a b) <> NaN /\
  (forall e, xle e (val (std_max a b)) <-> xle e (val a) \/ xle e (val b)) /\
  (forall e, xle (val (std_max a b)) e <-> xle (val a) e /\ xle (val b) e).
Proof.
  intros Ha Hb. unfold std_max. destruct (lt_case H a b) as [[-> L]|[-> L]]; auto.
  - apply xlt_xle in L. split; auto. split; intros e; split; try tauto.
    + intros [K|K]; auto. eapply xle_trans; eauto.
    + intros K. split; auto. eapply xle_trans; eauto.
  - split; auto. split; intros e; split; try tauto.
    + intros [K|K]; auto. eapply xle_trans; eauto.
    + intros K. split; auto. eapply xle_trans; eauto.
Qed.
Lemma std_min_spec a b : val a <> NaN -> val b <> NaN ->
  val (std_min a b) <> NaN /\
  (forall e, xle (val (std_min a b)) e <-> xle (val a) e \/ xle (val b) e) /\
  (forall e, xle e (val (std_min a b)) <-> xle e (val a) /\ xle e (val b)).
Proof.
  intros Ha Hb. unfold std_min. destruct (lt_case H b a) as [[-> L]|[-> L]]; auto.
  - apply xlt_xle in L. split; auto. split; intros e; split; try tauto.
    + intros [K|K]; auto. eapply xle_trans; eauto.
    + intros K. split; auto. eapply xle_trans; eauto.
  - split; auto. split; intros e; split; try tauto.
    + intros [K|K]; auto. eapply xle_trans; eauto.
    + intros K. split; auto. eapply xle_trans; eauto.
Qed.

(** A member below / above a given real. *)
Lemma mem_le x t : V x -> xle (val (low x)) (Fin t) -> exists r, mem val x r /\ r <= t.
Proof.
  intros Hx L. destruct (valid_mem _ _ Hx) as (s & S1 & S2). exists (Rmin s t). split; [split|apply Rmin_r].
  - unfold Rmin. destruct (Rle_dec s t); auto.
  - eapply xle_trans; [|exact S2]. simpl. apply Rmin_l.
Qed.
Lemma mem_ge x t : V x -> xle (Fin t) (val (up x)) -> exists r, mem val x r /\ t <= r.
Proof.
  intros Hx L. destruct (valid_mem _ _ Hx) as (s & S1 & S2). exists (Rmax s t). split; [split|apply Rmax_r].
  - eapply xle_trans; [exact S1|]. simpl. apply Rmax_l.
  - unfold Rmax. destruct (Rle_dec s t); auto.
Qed.

Lemma denotes_valid z (S : R -> Prop) : nonempty S -> denotes val z S -> V z.
Proof. intros (r & Hr) D. apply (mem_valid _ z r). apply D; auto. Qed.

(** ** abs *)
Lemma abs_ok x : V x ->
  exists z, runsP P ready (u_abs P x) z /\ denotes val z (image1 Rabs (mem val x)).
Proof.
  intros Hx. unfold u_abs. rewrite (test_valid H) by auto.
  pose proof (vlow_nn x Hx) as NX1. pose proof (vup_nn x Hx) as NX2.
  destruct (is_neg_case H (low x)) as [[-> X1]|[-> X1]]; auto; simpl negb; cbv iota.
  - destruct (is_pos_case H (up x)) as [[-> X2]|[-> X2]]; auto; simpl negb; cbv iota.
    + destruct (ns_neg _ _ NS (low x)) as (nl & Enl & Rnl).
      assert (NN : val nl <> NaN) by (rewrite Enl; destruct (val (low x)); simpl; congruence).
      exists (mk zero (std_max nl (up x))). split.
      { eapply runsP_bind; [apply pure_runsP; eauto|]. apply runsP_ret. }
      destruct (std_max_spec nl (up x) NN NX2) as (_ & M1 & _).
      intros t. unfold mem at 1. cbn [low up]. rewrite val_zero, M1, Enl. split.
      * intros [T0 [T1|T1]]; simpl in T0.
        -- exists (-t). split; [split|rewrite Rabs_Ropp, Rabs_pos_eq; auto].
           ++ apply xle_opp in T1. rewrite xopp_involutive in T1. exact T1.
           ++ eapply xle_trans; [|apply xlt_xle, X2]. simpl; lra.
        -- exists t. split; [split|rewrite Rabs_pos_eq; auto]; auto.
           eapply xle_trans; [apply xlt_xle, X1|]. simpl; auto.
      * intros (r & [R1 R2] & ->). split; [simpl; apply Rabs_pos|].
        unfold Rabs. destruct (Rcase_abs r); [left|right]; auto.
        apply (xle_opp _ (Fin r)); auto.
    + destruct (op_neg_ok H x Hx) as (z & Rz & Dz & _ & _ & _).
      exists z. split; auto. intros t. rewrite (Dz t). split.
      * intros (r & [R1 R2] & ->). exists r. split; [split; auto|].
        pose proof (xle_trans _ _ _ R2 X2). simpl in *. rewrite Rabs_left1; lra.
      * intros (r & [R1 R2] & ->). exists r. split; [split; auto|].
        pose proof (xle_trans _ _ _ R2 X2). simpl in *. rewrite Rabs_left1; lra.
  - exists x. split; [apply runsP_ret|]. intros t. split.
    + intros [R1 R2]. exists t. split; [split; auto|].
      pose proof (xle_trans _ _ _ X1 R1). simpl in *. rewrite Rabs_pos_eq; lra.
    + intros (r & [R1 R2] & ->). 
      pose proof (xle_trans _ _ _ X1 R1). simpl in *. rewrite Rabs_pos_eq by lra. split; auto.
Qed.

(** ** max and min *)
Lemma max_denotes a b c d (x y : itv N) : V x -> V y ->
  a = low x -> b = low y -> c = up x -> d = up y ->
  denotes val (mk (std_max a b) (std_max c d)) (image2 Rmax (mem val x) (mem val y)).
Proof.
  intros Hx Hy -> -> -> ->.
  destruct (std_max_spec (low x) (low y) (vlow_nn x Hx) (vlow_nn y Hy)) as (_ & _ & L).
  destruct (std_max_spec (up x) (up y) (vup_nn x Hx) (vup_nn y Hy)) as (_ & U & _).
  intros t. unfold mem at 1. cbn [low up]. rewrite L, U. split.
  - intros [[L1 L2] [U1|U1]].
    + destruct (mem_le y t Hy L2) as (s & Hs & Hl). exists t, s. split; [split; auto|].
      split; auto. symmetry. apply Rmax_left; auto.
    + destruct (mem_le x t Hx L1) as (s & Hs & Hl). exists s, t. split; auto.
      split; [split; auto|]. symmetry. apply Rmax_right; auto.
  - intros (r & s & [R1 R2] & [S1 S2] & ->). split.
    + split; eapply xle_trans; eauto; simpl; [apply Rmax_l|apply Rmax_r].
    + unfold Rmax. destruct (Rle_dec r s); auto.
Qed.
Lemma min_denotes a b c d (x y : itv N) : V x -> V y ->
  a = low x -> b = low y -> c = up x -> d = up y ->
  denotes val (mk (std_min a b) (std_min c d)) (image2 Rmin (mem val x) (mem val y)).
Proof.
  intros Hx Hy -> -> -> ->.
  destruct (std_min_spec (low x) (low y) (vlow_nn x Hx) (vlow_nn y Hy)) as (_ & L & _).
  destruct (std_min_spec (up x) (up y) (vup_nn x Hx) (vup_nn y Hy)) as (_ & _ & U).
  intros t. unfold mem at 1. cbn [low up]. rewrite L, U. split.
  - intros [[L1|L1] [U1 U2]].
    + destruct (mem_ge y t Hy U2) as (s & Hs & Hl). exists t, s. split; [split; auto|].
      split; auto. symmetry. apply Rmin_left; auto.
    + destruct (mem_ge x t Hx U1) as (s & Hs & Hl). exists s, t. split; auto.
      split; [split; auto|]. symmetry. apply Rmin_right; auto.
  - intros (r & s & [R1 R2] & [S1 S2] & ->). split.
    + unfold Rmin. destruct (Rle_dec r s); auto.
    + split; eapply xle_trans; eauto; simpl; [apply Rmin_l|apply Rmin_r].
Qed.

Lemma u_max_ok x y : V x -> V y ->
  exists z, runsP P ready (u_max P x y) z /\ denotes val z (image2 Rmax (mem val x) (mem val y)).
Proof.
  intros Hx Hy. unfold u_max. rewrite (test_valid2 H) by auto.
  eexists. split; [apply runsP_ret|]. apply max_denotes; auto.
Qed.
Lemma u_min_ok x y : V x -> V y ->
  exists z, runsP P ready (u_min P x y) z /\ denotes val z (image2 Rmin (mem val x) (mem val y)).
Proof.
  intros Hx Hy. unfold u_min. rewrite (test_valid2 H) by auto.
  eexists. split; [apply runsP_ret|]. apply min_denotes; auto.
Qed.
Lemma denotes_ext z (S S' : R -> Prop) : (forall r, S r <-> S' r) -> denotes val z S -> denotes val z S'.
Proof. intros E D r. rewrite (D r). apply E. Qed.
Lemma u_max_in_ok x v c : val v = Fin c -> V x ->
  exists z, runsP P ready (u_max_in P x v) z /\ denotes val z (image1 (fun r => Rmax r c) (mem val x)).
Proof.
  intros E Hx. pose proof (valid_point v c E) as Hv.
  apply guarded; [eapply (test_in_fin H); eauto|].
  eexists. split; [apply runsP_ret|].
  eapply denotes_ext; [eapply (image2_point_r _ v c _ E)|]. apply max_denotes; auto.
Qed.
Lemma u_max_ni_ok x v c : val v = Fin c -> V x ->
  exists z, runsP P ready (u_max_ni P v x) z /\ denotes val z (image1 (fun r => Rmax c r) (mem val x)).
Proof.
  intros E Hx. pose proof (valid_point v c E) as Hv.
  apply guarded; [eapply (test_ni_fin H); eauto|].
  eexists. split; [apply runsP_ret|].
  eapply denotes_ext; [eapply (image2_point_l _ v c _ E)|]. apply max_denotes; auto.
Qed.
Lemma u_min_in_ok x v c : val v = Fin c -> V x ->
  exists z, runsP P ready (u_min_in P x v) z /\ denotes val z (image1 (fun r => Rmin r c) (mem val x)).
Proof.
  intros E Hx. pose proof (valid_point v c E) as Hv.
  apply guarded; [eapply (test_in_fin H); eauto|].
  eexists. split; [apply runsP_ret|].
  eapply denotes_ext; [eapply (image2_point_r _ v c _ E)|]. apply min_denotes; auto.
Qed.
Lemma u_min_ni_ok x v c : val v = Fin c -> V x ->
  exists z, runsP P ready (u_min_ni P v x) z /\ denotes val z (image1 (fun r => Rmin c r) (mem val x)).
Proof.
  intros E Hx. pose proof (valid_point v c E) as Hv.
  apply guarded; [eapply (test_ni_fin H); eauto|].
  eexists. split; [apply runsP_ret|].
  eapply denotes_ext; [eapply (image2_point_l _ v c _ E)|]. apply min_denotes; auto.
Qed.

(** ** norm: the least upper bound of the magnitudes *)
Lemma norm_ok x : V x ->
  exists t, runsP P ready (norm P x) t /\
    is_ub (val t) (image1 Rabs (mem val x)) /\
    (forall e, is_ub e (image1 Rabs (mem val x)) -> xle (val t) e).
Proof.
  intros Hx. unfold norm. rewrite (test_valid H) by auto.
  pose proof (vlow_nn x Hx) as NX1. pose proof (vup_nn x Hx) as NX2.
  destruct (ns_neg _ _ NS (low x)) as (nl & Enl & Rnl).
  assert (NN : val nl <> NaN) by (rewrite Enl; destruct (val (low x)); simpl; congruence).
  destruct (std_max_spec nl (up x) NN NX2) as (_ & M1 & M2).
  exists (std_max nl (up x)). split; [|split].
  - eapply runsP_bind; [apply pure_runsP; eauto|]. apply runsP_ret.
  - intros t (r & [R1 R2] & ->). apply M1. unfold Rabs. destruct (Rcase_abs r); [left|right]; auto.
    rewrite Enl. apply (xle_opp _ (Fin r)); auto.
  - intros e He. apply M2. rewrite Enl. split.
    + pose proof (slim_wlim _ _ (slim_opp _ _ (valid_slim_low val x Hx))) as K.
      eapply wlim_ub; [exact K|]. intros t (r & Hr & ->).
      eapply xle_trans; [|apply He; exists r; split; eauto]. simpl. rewrite <- Rabs_Ropp. apply Rle_abs.
    + pose proof (slim_wlim _ _ (valid_slim_up val x Hx)) as K.
      eapply wlim_ub; [exact K|]. intros r Hr.
      eapply xle_trans; [|apply He; exists r; split; eauto]. simpl. apply Rle_abs.
Qed.

(** ** width *)
Lemma width_ok x : V x ->
  exists t, runsP P ready (width P x) t /\
    is_ub (val t) (image2 Rminus (mem val x) (mem val x)) /\
    (forall t', is_ub (val t') (image2 Rminus (mem val x) (mem val x)) -> xle (val t) (val t')).
Proof.
  intros Hx. unfold width. rewrite (test_valid H) by auto.
  destruct (as_sub_up _ _ _ AS (up x) (low x)) as (b & [Rb1 Rb2] & Eb); [apply xsub_up; auto|].
  exists b. split; [|split].
  - eapply with_rnd_runs; eauto.
  - intros t (r & s & [A1 A] & [B B1] & ->). eapply xle_trans; [|exact Rb1]. unfold xsub.
    destruct (val (up x)), (val (low x)); simpl in *; try tauto; lra.
  - intros t' Ht'. apply Rb2.
    eapply wlim_ub; [|exact Ht'].
    apply slim_wlim, slim_sub; [apply valid_slim_up|apply valid_slim_low|apply xsub_up]; auto.
Qed.

(** ** widen *)
Lemma Rabs_le_inv' a b : Rabs a <= b -> - b <= a <= b.
Proof. pose proof (Rle_abs a). pose proof (Rle_abs (- a)). rewrite Rabs_Ropp in *. lra. Qed.

Lemma widen_ok x v c : V x -> val v = Fin c -> 0 <= c ->
  exists z, runsP P ready (widen P x v) z /\
    tight z (fun t => exists r, mem val x r /\ Rabs (t - r) <= c).
Proof.
  intros Hx E Hc. unfold widen. rewrite (test_valid H) by auto. apply via_rnd.
  pose proof (valid_point v c E) as Hv.
  destruct (as_sub_down _ _ _ AS (low x) v) as (a & Ra & Ea); [apply (xsub_low x (mk v v)); auto|].
  destruct (as_add_up _ _ _ AS (up x) v) as (b & Rb & Eb); [apply (xadd_up x (mk v v)); auto|].
  exists (mk a b). split; [runs|].
  assert (SV : slim (mem val (mk v v)) (val v)) by (apply (valid_slim_low val (mk v v)); auto).
  eapply tightest_intro; [| | | |exact Ra|exact Rb].
  - intros t (r & [R1 R2] & Ht). rewrite E. unfold xsub. destruct (val (low x)); simpl in *; try tauto.
    apply Rabs_le_inv' in Ht. lra.
  - eapply wlim_ext, slim_wlim, slim_sub; [|apply valid_slim_low; auto|exact SV|apply (xsub_low x (mk v v)); auto].
    intros t (r & s & Hr & Hs & ->). apply (mem_point v c E) in Hs. subst s.
    exists r. split; auto. replace (r - c - r) with (-c) by lra. rewrite Rabs_Ropp, Rabs_pos_eq; lra.
  - intros t (r & [R1 R2] & Ht). rewrite E. destruct (val (up x)); simpl in *; try tauto.
    apply Rabs_le_inv' in Ht. lra.
  - eapply wlim_ext, slim_wlim, slim_add; [|apply valid_slim_up; auto|exact SV|apply (xadd_up x (mk v v)); auto].
    intros t (r & s & Hr & Hs & ->). apply (mem_point v c E) in Hs. subst s.
    exists r. split; auto. replace (r + c - r) with c by lra. rewrite Rabs_pos_eq; lra.
Qed.

(** ** Predicates *)
Lemma le_iff a b : n_le N a b = true <-> xle (val a) (val b).
Proof. apply (ns_le _ _ NS). Qed.

Lemma subset_bounds x y : V x -> (forall r, mem val x r -> mem val y r) <->
  (xle (val (low y)) (val (low x)) /\ xle (val (up x)) (val (up y))).
Proof.
  intros Hx. split.
  - intros S. split.
    + eapply wlim_lb; [apply slim_wlim, valid_slim_low; auto|]. intros r Hr. apply (S r Hr).
    + eapply wlim_ub; [apply slim_wlim, valid_slim_up; auto|]. intros r Hr. apply (S r Hr).
  - intros [A B] r [R1 R2]. split; eapply xle_trans; eauto.
Qed.

Lemma u_in_ok v y : val v <> NaN -> V y ->
  exists b, pureM (u_in P v y) b /\ (b = true <-> xle (val (low y)) (val v) /\ xle (val v) (val (up y))).
Proof.
  intros Hv Hy. eexists. split.
  - eapply pureM_bind; [apply (test_ni H); auto|]. apply pureM_ret.
  - rewrite andb_true_iff, !le_iff. tauto.
Qed.
Lemma subset_ok x y : V x -> V y -> subset P x y = true <-> (forall r, mem val x r -> mem val y r).
Proof.
  intros Hx Hy. unfold subset, u_empty. rewrite !(test_valid H) by auto. simpl.
  rewrite andb_true_iff, !le_iff. rewrite subset_bounds by auto. tauto.
Qed.
Lemma ne_iff a b : val a <> NaN -> n_ne a b = true <-> val a <> val b.
Proof.
  intros Ha. unfold n_ne. destruct (eq_case H a b Ha) as [[-> E]|[-> E]]; simpl; split; try congruence; tauto.
Qed.
Lemma same_sets x y : V x -> V y -> (forall r, mem val x r <-> mem val y r) <->
  (val (low x) = val (low y) /\ val (up x) = val (up y)).
Proof.
  intros Hx Hy. split.
  - intros S. destruct (proj1 (subset_bounds x y Hx) (fun r => proj1 (S r))).
    destruct (proj1 (subset_bounds y x Hy) (fun r => proj2 (S r))).
    split; apply xle_antisym; auto.
  - intros [E1 E2] r. unfold mem. rewrite E1, E2. tauto.
Qed.
Lemma proper_subset_ok x y : V x -> V y -> proper_subset P x y = true <->
  (forall r, mem val x r -> mem val y r) /\ (exists r, mem val y r /\ ~ mem val x r).
Proof.
  intros Hx Hy. unfold proper_subset, u_empty. rewrite !(test_valid H) by auto.
  rewrite !andb_true_iff, orb_true_iff, !le_iff.
  rewrite !ne_iff by first [apply vlow_nn; auto|apply vup_nn; auto].
  rewrite subset_bounds by auto. split.
  - intros ((A & B) & C). split; auto.
    destruct C as [C|C].
    + assert (L : xlt (val (low y)) (val (low x))).
      { apply xnle_lt; [apply vlow_nn; auto|apply vlow_nn; auto|]. intros K. apply C, xle_antisym; auto. }
      destruct Hy as (Y1 & Y2 & Y3). destruct Hx as (X1 & X2 & X3).
      destruct (val (low y)) as [| |yl|] eqn:EY, (val (low x)) as [| |xl|] eqn:EX; simpl in *; try tauto.
      * exists (Rmin (xl - 1) (match val (up y) with Fin u => u | _ => xl end)).
        unfold mem. rewrite EX, EY. split; [split; auto|].
        -- destruct (val (up y)); simpl in *; try tauto. apply Rmin_r.
        -- intros [K _]. simpl in K. pose proof (Rmin_l (xl - 1) (match val (up y) with Fin u => u | _ => xl end)). lra.
      * exists yl. unfold mem. rewrite EX, EY. simpl. split; [split; [lra|]|intros [K _]; lra].
        destruct (val (up y)); simpl in *; tauto.
    + assert (L : xlt (val (up x)) (val (up y))).
      { apply xnle_lt; [apply vup_nn; auto|apply vup_nn; auto|]. intros K. apply C, xle_antisym; auto. }
      destruct Hy as (Y1 & Y2 & Y3). destruct Hx as (X1 & X2 & X3).
      destruct (val (up y)) as [| |yl|] eqn:EY, (val (up x)) as [| |xl|] eqn:EX; simpl in *; try tauto.
      * exists yl. unfold mem. rewrite EX, EY. simpl. split; [split; [|lra]|intros [_ K]; lra].
        destruct (val (low y)); simpl in *; tauto.
      * exists (Rmax (xl + 1) (match val (low y) with Fin u => u | _ => xl end)).
        unfold mem. rewrite EX, EY. split; [split; auto|].
        -- destruct (val (low y)); simpl in *; try tauto. apply Rmax_r.
        -- intros [_ K]. simpl in K. pose proof (Rmax_l (xl + 1) (match val (low y) with Fin u => u | _ => xl end)). lra.
  - intros ((A & B) & r & R1 & R2). split; auto.
    destruct (eq_case H (low y) (low x)) as [[_ E1]|[_ E1]]; [apply vlow_nn; auto| |tauto].
    destruct (eq_case H (up x) (up y)) as [[_ E2]|[_ E2]]; [apply vup_nn; auto| |tauto].
    exfalso. apply R2. destruct R1. split; congruence.
Qed.
Ltac wit r := exists r; unfold Rmin, Rmax; repeat destruct Rle_dec; repeat split; (exact I || lra).
Lemma overlap_ok x y : V x -> V y -> overlap P x y = true <-> (exists r, mem val x r /\ mem val y r).
Proof.
  intros Hx Hy. unfold overlap. rewrite (test_valid2 H) by auto.
  rewrite orb_true_iff, !andb_true_iff, !le_iff. split.
  - destruct Hx as (X1 & X2 & X3), Hy as (Y1 & Y2 & Y3). unfold mem.
    destruct (val (low x)) as [| |xl|], (val (up x)) as [| |xu|]; simpl in *; try tauto;
    destruct (val (low y)) as [| |yl|], (val (up y)) as [| |yu|]; simpl in *; try tauto; intros K.
    all: destruct K as [[K1 K2]|[K1 K2]]; try tauto.
    all: first
      [ wit 0
      | match goal with a : R |- _ => wit a end
      | match goal with a : R, b : R |- _ => wit (Rmin a b) end
      | match goal with a : R, b : R |- _ => wit (Rmax a b) end ].
  - intros (r & [A B] & [C D]).
    destruct (xle_total (val (low x)) (val (low y))) as [K|K]; try (apply vlow_nn; auto).
    + left. split; auto. eapply xle_trans; eauto.
    + right. split; auto. eapply xle_trans; eauto.
Qed.
Lemma singleton_ok x : V x -> singleton P x = true <-> (exists r, forall s, mem val x s <-> s = r).
Proof.
  intros Hx. unfold singleton, u_empty. rewrite (test_valid H) by auto. simpl.
  destruct (eq_case H (low x) (up x)) as [[-> E]|[-> E]]; [apply vlow_nn; auto| |]; split; auto; try discriminate.
  - intros _. destruct Hx as (A & B & C). unfold mem. rewrite <- E in *.
    destruct (val (low x)) as [| |l|]; simpl in *; try tauto. exists l. intros s. split; [intros []; lra|intros ->; lra].
  - intros (r & Hr). exfalso. destruct (proj2 (Hr r) eq_refl) as [R1 R2].
    destruct Hx as (A & B & C).
    destruct (val (low x)) as [| |l|] eqn:EL, (val (up x)) as [| |u|] eqn:EU; simpl in *; try tauto.
    + assert (r - 1 = r); [|lra]. apply Hr. unfold mem. rewrite EL, EU. simpl. split; auto; lra.
    + assert (r - 1 = r); [|lra]. apply Hr. unfold mem. rewrite EL, EU. simpl. split; auto; lra.
    + assert (l = r /\ u = r); [|intuition congruence].
      split; apply Hr; unfold mem; rewrite EL, EU; simpl; split; lra.
    + assert (r + 1 = r); [|lra]. apply Hr. unfold mem. rewrite EL, EU. simpl. split; auto; lra.
Qed.
Lemma equal_ok x y : V x -> V y -> equal P x y = true <-> (forall r, mem val x r <-> mem val y r).
Proof.
  intros Hx Hy. unfold equal, u_empty. rewrite !(test_valid H) by auto. simpl.
  rewrite andb_true_iff, (same_sets x y Hx Hy).
  destruct (eq_case H (low x) (low y)) as [[-> E1]|[-> E1]]; try (apply vlow_nn; auto);
  destruct (eq_case H (up x) (up y)) as [[-> E2]|[-> E2]]; try (apply vup_nn; auto); split; intros []; auto; congruence.
Qed.

(** ** intersect, hull *)
Lemma intersect_ok x y : V x -> V y -> (exists r, mem val x r /\ mem val y r) ->
  exists z, runsP P ready (intersect P x y) z /\ denotes val z (fun r => mem val x r /\ mem val y r).
Proof.
  intros Hx Hy (r & [X1 X2] & [Y1 Y2]). unfold intersect. rewrite (test_valid2 H) by auto.
  destruct (std_max_spec (low x) (low y) (vlow_nn x Hx) (vlow_nn y Hy)) as (_ & _ & L).
  destruct (std_min_spec (up x) (up y) (vup_nn x Hx) (vup_nn y Hy)) as (_ & _ & U).
  assert (n_le N (std_max (low x) (low y)) (std_min (up x) (up y)) = true) as ->.
  { apply le_iff. apply xle_trans with (Fin r); [apply L|apply U]; auto. }
  eexists. split; [apply runsP_ret|].
  intros t. unfold mem. cbn [low up]. rewrite L, U. tauto.
Qed.
Lemma intersect_disjoint x y o : V x -> V y -> ~ (exists r, mem val x r /\ mem val y r) ->
  is_empty_out o -> forall s, intersect P x y s = (o, s).
Proof.
  intros Hx Hy D Ho s. unfold intersect. rewrite (test_valid2 H) by auto.
  destruct (n_le N (std_max (low x) (low y)) (std_min (up x) (up y))) eqn:E; [|eapply i_empty_run; eauto].
  exfalso. apply D. apply (overlap_ok x y Hx Hy).
  unfold overlap. rewrite (test_valid2 H) by auto.
  rewrite orb_true_iff, !andb_true_iff, !le_iff.
  apply le_iff in E.
  destruct (std_max_spec (low x) (low y) (vlow_nn x Hx) (vlow_nn y Hy)) as (_ & L0 & L).
  destruct (std_min_spec (up x) (up y) (vup_nn x Hx) (vup_nn y Hy)) as (_ & U0 & U).
  apply L in E. destruct E as [E1 E2]. apply U in E1, E2.
  destruct (xle_total (val (low x)) (val (low y))) as [K|K]; try (apply vlow_nn; auto); tauto.
Qed.

Lemma hull_tight x y : V x -> V y ->
  tight (mk (std_min (low x) (low y)) (std_max (up x) (up y))) (fun r => mem val x r \/ mem val y r).
Proof.
  intros Hx Hy.
  destruct (std_min_spec (low x) (low y) (vlow_nn x Hx) (vlow_nn y Hy)) as (_ & L & L').
  destruct (std_max_spec (up x) (up y) (vup_nn x Hx) (vup_nn y Hy)) as (_ & U & U').
  split.
  - intros r [[A B]|[A B]]; (split; [apply L|apply U]); auto.
  - intros w Hw. cbn [low up]. rewrite L', U'.
    destruct (proj1 (subset_bounds x w Hx) (fun r K => Hw r (or_introl K))).
    destruct (proj1 (subset_bounds y w Hy) (fun r K => Hw r (or_intror K))). tauto.
Qed.
Lemma hull_ok x y : V x -> V y ->
  exists z, runsP P ready (hull P x y) z /\ tight z (fun r => mem val x r \/ mem val y r).
Proof.
  intros Hx Hy. unfold hull. rewrite !(test_valid H) by auto.
  eexists. split; [apply runsP_ret|]. apply hull_tight; auto.
Qed.
Lemma hull_in_ok x v c : V x -> val v = Fin c ->
  exists z, runsP P ready (hull_in P x v) z /\ tight z (fun r => mem val x r \/ r = c).
Proof.
  intros Hx E. unfold hull_in. rewrite (test_valid H) by auto. pose proof (valid_point v c E) as Hv.
  eexists. split.
  - eapply runsP_bind; [apply pure_runsP, (cs_nan _ _ CS); congruence|]. apply runsP_ret.
  - eapply tightest_ext; [|apply (hull_tight x (mk v v)); auto].
    intros r. simpl. rewrite (mem_point v c E). tauto.
Qed.
Lemma hull_ni_ok x v c : V x -> val v = Fin c ->
  exists z, runsP P ready (hull_ni P v x) z /\ tight z (fun r => r = c \/ mem val x r).
Proof.
  intros Hx E. unfold hull_ni. rewrite (test_valid H) by auto. pose proof (valid_point v c E) as Hv.
  eexists. split.
  - eapply runsP_bind; [apply pure_runsP, (cs_nan _ _ CS); congruence|]. apply runsP_ret.
  - eapply tightest_ext; [|apply (hull_tight (mk v v) x); auto].
    intros r. simpl. rewrite (mem_point v c E). tauto.
Qed.
Lemma hull_nn_ok a b ca cb : val a = Fin ca -> val b = Fin cb ->
  exists z, runsP P ready (hull_nn P a b) z /\ denotes val z (fun r => Rmin ca cb <= r <= Rmax ca cb).
Proof.
  intros Ea Eb. unfold hull_nn, i_hull.
  destruct (le_case H a b) as [[E L]|[E L]]; try congruence; rewrite Ea, Eb in L; simpl in L.
  - exists (mk a b). split.
    + repeat (eapply runsP_bind; [apply pure_runsP, (cs_nan _ _ CS); congruence|]).
      rewrite E. apply runsP_ret.
    + intros r. unfold mem. simpl. rewrite Ea, Eb. simpl. rewrite Rmin_left, Rmax_right; lra.
  - exists (mk b a). split.
    + repeat (eapply runsP_bind; [apply pure_runsP, (cs_nan _ _ CS); congruence|]).
      rewrite E. apply runsP_ret.
    + intros r. unfold mem. simpl. rewrite Ea, Eb. simpl. rewrite Rmin_right, Rmax_left; lra.
Qed.

(** ** Functions of two numbers (arith3.hpp) *)
Section Arith3.
Context (a b : T N) (ca cb : R) (Ea : val a = Fin ca) (Eb : val b = Fin cb).
Let Va := valid_point a ca Ea.
Let Vb := valid_point b cb Eb.

Lemma point2 f t : image2 f (mem val (mk a a)) (mem val (mk b b)) t <-> point (f ca cb) t.
Proof.
  split.
  - intros (r & s & Hr & Hs & ->). apply (mem_point a ca Ea) in Hr. apply (mem_point b cb Eb) in Hs.
    subst. reflexivity.
  - intros ->. exists ca, cb. rewrite (mem_point a ca Ea), (mem_point b cb Eb). auto.
Qed.

Lemma n_add_ok : exists z, runsP P ready (n_add P a b) z /\ tight z (point (ca + cb)).
Proof.
  apply guarded; [apply (test_nn H); congruence|].
  eapply tight_ex; [apply point2|]. apply via_rnd, (add_case H _ (mk a a) (mk b b)); auto.
Qed.
Lemma n_sub_ok : exists z, runsP P ready (n_sub P a b) z /\ tight z (point (ca - cb)).
Proof.
  apply guarded; [apply (test_nn H); congruence|].
  eapply tight_ex; [apply point2|]. apply via_rnd, (sub_case H _ (mk a a) (mk b b)); auto.
Qed.
Lemma n_mul_ok : exists z, runsP P ready (n_mul P a b) z /\ tight z (point (ca * cb)).
Proof.
  apply guarded; [apply (test_nn H); congruence|].
  eapply tight_ex; [apply point2|]. apply via_rnd.
  apply (mul_case H _ (mk a a) (mk b b)); auto; try (unfold bound_of; simpl; solve [auto]);
    rewrite ?Ea, ?Eb; try discriminate.
  - intros t Ht. apply point2 in Ht. rewrite Ht. simpl. lra.
  - intros t Ht. apply point2 in Ht. rewrite Ht. simpl. lra.
Qed.
Lemma n_div_ok : cb <> 0 -> exists z, runsP P ready (n_div P a b) z /\ tight z (point (ca / cb)).
Proof.
  intros Hb. apply guarded; [apply (test_nn H); congruence|].
  destruct (is_zero_case H b) as [[_ K]|[-> _]]; [congruence|]. simpl.
  assert (Q : forall t, quotients (mem val (mk a a)) (mem val (mk b b)) t <-> point (ca / cb) t).
  { intros t. split.
    - intros (r & s & Hr & Hs & _ & ->). apply (mem_point a ca Ea) in Hr. apply (mem_point b cb Eb) in Hs.
      subst. reflexivity.
    - intros ->. exists ca, cb. rewrite (mem_point a ca Ea), (mem_point b cb Eb). auto. }
  eapply tight_ex; [exact Q|]. apply via_rnd.
  apply (div_case H _ (mk a a) (mk b b)); auto; try (unfold bound_of; simpl; solve [auto]);
    rewrite ?Ea, ?Eb; simpl; destruct (Req_EM_T cb 0); try tauto; try discriminate.
  - intros t Ht. apply Q in Ht. rewrite Ht. simpl. lra.
  - intros t Ht. apply Q in Ht. rewrite Ht. simpl. lra.
Qed.
Lemma n_div_zero o : cb = 0 -> is_empty_out o -> forall s, n_div P a b s = (o, s).
Proof.
  intros -> Ho s. unfold n_div, bind. rewrite (test_nn H a b) by congruence.
  destruct (is_zero_case H b) as [[-> _]|[_ K]]; [|tauto]. simpl. eapply i_empty_run; eauto.
Qed.
End Arith3.
End Core.

(** * Correctness of the remaining arithmetic functions *)

From Coq Require Import Reals ZArith Lra Lia Psatz Bool List.
From Verif Require Import Outcome Base Checking Interval Utility Arith Arith2 FloatNum Spec ExtR Sem CoreArith CoreDiv.
Local Open Scope R_scope.

Section Core.
Context {N : num} {val : T N -> ext} {P : policy N} {ready : rmode -> Prop}
        (H : polspec val P ready).
Notation V := (valid val).
Notation tight := (tightest val).
Notation NS := (ps_num _ _ _ H).
Notation AS := (ps_ar _ _ _ H).
Notation CS := (ps_ck _ _ _ H).
Notation quots x y := (quotients (mem val x) (mem val y)).
Notation val_zero := (val_zero H).

(** ** A number as a degenerate interval *)
Lemma mem_point v c : val v = Fin c -> forall r, mem val (mk v v) r <-> r = c.
Proof.
  intros E r. unfold mem. simpl. rewrite E. simpl. split; [intros []; lra|intros ->; lra].
Qed.
Lemma valid_point v c : val v = Fin c -> V (mk v v).
Proof. intros E. split; simpl; rewrite E; simpl; [lra|split; discriminate]. Qed.

Lemma image2_point_l f v c (Y : R -> Prop) : val v = Fin c ->
  forall t, image2 f (mem val (mk v v)) Y t <-> image1 (f c) Y t.
Proof.
  intros E t. split.
  - intros (r & s & Hr & Hs & ->). apply (mem_point v c E) in Hr. subst r. exists s; auto.
  - intros (s & Hs & ->). exists c, s. split; auto. apply (mem_point v c E); auto.
Qed.
Lemma image2_point_r f v c (X : R -> Prop) : val v = Fin c ->
  forall t, image2 f X (mem val (mk v v)) t <-> image1 (fun r => f r c) X t.
Proof.
  intros E t. split.
  - intros (r & s & Hr & Hs & ->). apply (mem_point v c E) in Hs. subst s. exists r; auto.
  - intros (s & Hs & ->). exists s, c. split; auto. split; auto. apply (mem_point v c E); auto.
Qed.

Lemma fin_nn v c : val v = Fin c -> val v <> NaN.
Proof. congruence. Qed.
Lemma test_ni_fin v c y : val v = Fin c -> V y -> pureM (test_input_ni P v y) false.
Proof. intros E Hy. apply (test_ni H); auto. congruence. Qed.
Lemma test_in_fin v c y : val v = Fin c -> V y -> pureM (test_input_in P y v) false.
Proof. intros E Hy. apply (test_in H); auto. congruence. Qed.

Lemma run_guard {A} (g : M bool) (k : bool -> M A) z :
  pureM g false -> runsP P ready (k false) z -> runsP P ready (bind g k) z.
Proof. intros Hg Hk. eapply runsP_bind; eauto. apply pure_runsP; auto. Qed.

(** ** Number + interval and friends *)
Notation via_rnd := (via_rnd H).
Lemma guarded {A} (g : M bool) (k : bool -> M A) (Q : A -> Prop) :
  pureM g false -> (exists z, runsP P ready (k false) z /\ Q z) ->
  exists z, runsP P ready (bind g k) z /\ Q z.
Proof. intros Hg (z & Rz & Qz). exists z. split; auto. apply run_guard; auto. Qed.

Lemma tight_ex (m : M (itv N)) (S S' : R -> Prop) (K : M (itv N) -> itv N -> Prop) :
  (forall r, S r <-> S' r) -> (exists z, K m z /\ tight z S) -> exists z, K m z /\ tight z S'.
Proof. intros E (z & R1 & R2). exists z. split; auto. eapply tightest_ext; eauto. Qed.

Lemma op_add_ni_ok v c y : val v = Fin c -> V y ->
  exists z, runsP P ready (op_add_ni P v y) z /\ tight z (image1 (fun r => c + r) (mem val y)).
Proof.
  intros E Hy. pose proof (valid_point v c E) as Hv.
  apply guarded; [eapply test_ni_fin; eauto|].
  eapply (tight_ex _); [apply image2_point_l; eauto|].
  apply via_rnd, (add_case H _ (mk v v) y); auto.
Qed.
Lemma op_add_in_ok x v c : val v = Fin c -> V x ->
  exists z, runsP P ready (op_add_in P x v) z /\ tight z (image1 (fun r => r + c) (mem val x)).
Proof.
  intros E Hx. eapply (tight_ex _); [|apply op_add_ni_ok; eauto].
  intros t; split; intros (r & Hr & ->); exists r; split; auto; lra.
Qed.
Lemma op_sub_ni_ok v c y : val v = Fin c -> V y ->
  exists z, runsP P ready (op_sub_ni P v y) z /\ tight z (image1 (fun r => c - r) (mem val y)).
Proof.
  intros E Hy. pose proof (valid_point v c E) as Hv.
  apply guarded; [eapply test_ni_fin; eauto|].
  eapply (tight_ex _); [apply image2_point_l; eauto|].
  apply via_rnd, (sub_case H _ (mk v v) y); auto.
Qed.
Lemma op_sub_in_ok x v c : val v = Fin c -> V x ->
  exists z, runsP P ready (op_sub_in P x v) z /\ tight z (image1 (fun r => r - c) (mem val x)).
Proof.
  intros E Hx. pose proof (valid_point v c E) as Hv.
  apply guarded; [eapply test_in_fin; eauto|].
  eapply (tight_ex _); [apply image2_point_r; eauto|].
  apply via_rnd, (sub_case H _ x (mk v v)); auto.
Qed.

Lemma sign_fin v c : val v = Fin c ->
  (is_neg v = true /\ c < 0) \/ (is_neg v = false /\ is_zero v = true /\ c = 0)
  \/ (is_neg v = false /\ is_zero v = false /\ 0 < c).
Proof.
  intros E. destruct (is_neg_case H v) as [[-> A]|[-> A]]; rewrite E in *; try discriminate; simpl in A; auto.
  destruct (is_zero_case H v) as [[-> B]|[-> B]]; rewrite E in B; right.
  - left. injection B. auto.
  - right. assert (c <> 0) by congruence. repeat split; auto; lra.
Qed.

Lemma op_mul_ni_ok v c y : val v = Fin c -> V y ->
  exists z, runsP P ready (op_mul_ni P v y) z /\ tight z (image1 (fun r => c * r) (mem val y)).
Proof.
  intros E Hy. pose proof (valid_point v c E) as Hv.
  apply guarded; [eapply test_ni_fin; eauto|].
  eapply (tight_ex _); [apply image2_point_l; eauto|].
  apply via_rnd. cbv zeta.
  destruct (sign_fin v c E) as [[-> A]|[(-> & -> & A)|(-> & -> & A)]].
  - apply (mul_case H _ (mk v v) y); auto; try (unfold bound_of; simpl; auto).
    + rewrite E. destruct Hy as (B & C & D). destruct (val (low y)), (val (up y)); simpl in *; xcase; try tauto; try congruence; lra.
    + rewrite E. destruct Hy as (B & C & D). destruct (val (low y)), (val (up y)); simpl in *; xcase; try tauto; try congruence; lra.
    + intros t (r & s & Hr & [S1 S2] & ->). apply (mem_point v c E) in Hr. subst r. rewrite E.
      destruct (val (up y)); simpl in *; xcase; try tauto; try nra.
    + intros t (r & s & Hr & [S1 S2] & ->). apply (mem_point v c E) in Hr. subst r. rewrite E.
      destruct (val (low y)); simpl in *; xcase; try tauto; try nra.
  - exists (mk zero zero). split; [apply runsI_ret|]. apply (mk_zero_tight H).
    + destruct (valid_mem _ _ Hy) as (s & Hs). exists (c * s), c, s.
      split; [apply (mem_point v c E); auto|auto].
    + intros t (r & s & Hr & _ & ->). apply (mem_point v c E) in Hr. subst. lra.
  - apply (mul_case H _ (mk v v) y); auto; try (unfold bound_of; simpl; auto).
    + rewrite E. destruct Hy as (B & C & D). destruct (val (low y)), (val (up y)); simpl in *; xcase; try tauto; try congruence; lra.
    + rewrite E. destruct Hy as (B & C & D). destruct (val (low y)), (val (up y)); simpl in *; xcase; try tauto; try congruence; lra.
    + intros t (r & s & Hr & [S1 S2] & ->). apply (mem_point v c E) in Hr. subst r. rewrite E.
      destruct (val (low y)); simpl in *; xcase; try tauto; try nra.
    + intros t (r & s & Hr & [S1 S2] & ->). apply (mem_point v c E) in Hr. subst r. rewrite E.
      destruct (val (up y)); simpl in *; xcase; try tauto; try nra.
Qed.
Lemma op_mul_in_ok x v c : val v = Fin c -> V x ->
  exists z, runsP P ready (op_mul_in P x v) z /\ tight z (image1 (fun r => r * c) (mem val x)).
Proof.
  intros E Hx. eapply (tight_ex _); [|apply op_mul_ni_ok; eauto].
  intros t; split; intros (r & Hr & ->); exists r; split; auto; lra.
Qed.

(** interval / number *)
Lemma op_div_in_ok x v c : val v = Fin c -> c <> 0 -> V x ->
  exists z, runsP P ready (op_div_in P x v) z /\ tight z (image1 (fun r => r / c) (mem val x)).
Proof.
  intros E Hc Hx. pose proof (valid_point v c E) as Hv.
  apply guarded; [eapply test_in_fin; eauto|].
  assert (EX : forall t, quotients (mem val x) (mem val (mk v v)) t <-> image1 (fun r => r / c) (mem val x) t).
  { intros t. split.
    - intros (r & s & Hr & Hs & _ & ->). apply (mem_point v c E) in Hs. subst s. exists r; auto.
    - intros (r & Hr & ->). exists r, c. split; auto. split; [apply (mem_point v c E); auto|auto]. }
  destruct (sign_fin v c E) as [[E1 A]|[(_ & _ & A)|(E1 & E2 & A)]]; [|tauto|].
  - assert (is_zero v = false) as ->.
    { destruct (is_zero_case H v) as [[_ B]|[-> _]]; auto. congruence. }
    simpl. rewrite E1. eapply (tight_ex _); [exact EX|]. apply via_rnd.
    apply (div_case H _ x (mk v v)); auto; try (unfold bound_of; simpl; auto).
    + rewrite E. destruct Hx as (B & C & D). destruct (val (low x)), (val (up x)); simpl in *; xcase; try tauto; try congruence; lra.
    + rewrite E. destruct Hx as (B & C & D). destruct (val (low x)), (val (up x)); simpl in *; xcase; try tauto; try congruence; lra.
    + intros t (r & s & [R1 R2] & Hs & _ & ->). apply (mem_point v c E) in Hs. subst s. rewrite E.
      destruct (val (up x)); simpl in *; xcase; try tauto; try lra. apply div_le_div; nra.
    + intros t (r & s & [R1 R2] & Hs & _ & ->). apply (mem_point v c E) in Hs. subst s. rewrite E.
      destruct (val (low x)); simpl in *; xcase; try tauto; try lra. apply div_le_div; nra.
  - rewrite E1, E2. simpl. eapply (tight_ex _); [exact EX|]. apply via_rnd.
    apply (div_case H _ x (mk v v)); auto; try (unfold bound_of; simpl; auto).
    + rewrite E. destruct Hx as (B & C & D). destruct (val (low x)), (val (up x)); simpl in *; xcase; try tauto; try congruence; lra.
    + rewrite E. destruct Hx as (B & C & D). destruct (val (low x)), (val (up x)); simpl in *; xcase; try tauto; try congruence; lra.
    + intros t (r & s & [R1 R2] & Hs & _ & ->). apply (mem_point v c E) in Hs. subst s. rewrite E.
      destruct (val (low x)); simpl in *; xcase; try tauto; try lra. apply div_le_div; nra.
    + intros t (r & s & [R1 R2] & Hs & _ & ->). apply (mem_point v c E) in Hs. subst s. rewrite E.
      destruct (val (up x)); simpl in *; xcase; try tauto; try lra. apply div_le_div; nra.
Qed.
Lemma op_div_in_zero x v o : val v = Fin 0 -> V x -> empty_out (P := P) (val := val) o ->
  forall s, op_div_in P x v s = (o, s).
Proof.
  intros E Hx Ho s. unfold op_div_in, bind. rewrite (test_in_fin v 0 x E Hx).
  destruct (is_zero_case H v) as [[-> _]|[_ B]]; [|tauto]. simpl. eapply i_empty_run; eauto.
Qed.

(** number / interval *)
Lemma quots_point v c (Y : R -> Prop) : val v = Fin c ->
  forall t, quotients (mem val (mk v v)) Y t <-> quotients (point c) Y t.
Proof.
  intros E t. split; intros (r & s & Hr & Hs & Hn & ->).
  - apply (mem_point v c E) in Hr. exists r, s. auto.
  - exists r, s. split; auto. apply (mem_point v c E); auto.
Qed.

Ltac fin_div := first
  [ apply div_le_div; nra | apply div_nonneg; nra | apply div_nonpos; nra ].
(** Goals about one corner of c / y. *)
Ltac cornern E y :=
  match type of E with ?vv = Fin ?c =>
  repeat match goal with HV : valid val _ |- _ => destruct HV as (? & ? & ?) end;
  try (intros ? (? & ? & Hr & (? & ?) & ? & ->); apply (mem_point _ _ E) in Hr; subst);
  cbn [low up] in *;
  rewrite ?E in *;
  destruct (val (low y)) as [| |?yl|], (val (up y)) as [| |?yu|];
  cbn [xle xlt xdiv] in *; try contradiction; try congruence;
  xcase; try contradiction; try congruence; try exact I; try lra;
  repeat match goal with
  | E : Fin _ = Fin _ |- _ => injection E; clear E; intro E
  | E : ?s <> 0 |- _ => apply Rdichotomy in E; destruct E
  end; try lra; try fin_div end.

Lemma div_non_zero_n_ok v c y : val v = Fin c -> V y ->
  (xlt (Fin 0) (val (low y)) \/ xlt (val (up y)) (Fin 0)) ->
  exists z, runsP P ready (div_non_zero_n P v y) z /\ tight z (quotients (point c) (mem val y)).
Proof.
  intros E Hy Z. pose proof (valid_point v c E) as Hv.
  eapply (tight_ex _); [apply quots_point; eauto|].
  apply via_rnd. cbv zeta.
  destruct (sign_fin v c E) as [[-> A]|K].
  - apply (div_case H _ (mk v v) y); auto; try (unfold bound_of; simpl; solve [auto]);
    destruct Z as [Z|Z]; cornern E y.
  - assert (is_neg v = false /\ 0 <= c) as [-> A] by (destruct K as [(? & _ & ->)|(? & _ & ?)]; split; auto; lra).
    clear K. apply (div_case H _ (mk v v) y); auto; try (unfold bound_of; simpl; solve [auto]);
    destruct Z as [Z|Z]; cornern E y.
Qed.

Lemma zero_num_n_tight (Y : R -> Prop) : nonempty (quotients (point 0) Y) ->
  tight (mk zero zero) (quotients (point 0) Y).
Proof.
  intros NE. apply (mk_zero_tight H); auto. intros t (r & s & -> & _ & Hs & ->). field; auto.
Qed.

Lemma div_positive_n_ok v c y : n_has_inf N = true -> val v = Fin c -> V y ->
  val (low y) = Fin 0 -> val (up y) <> Fin 0 ->
  exists z, runsP P ready (div_positive_n P v (up y)) z /\ tight z (quotients (point c) (mem val y)).
Proof.
  intros HI E Hy E1 E2. unfold div_positive_n. pose proof (valid_point v c E) as Hv.
  destruct (mem_near_pos y Hy E1 E2) as (d & Hd & Hn).
  assert (NE : nonempty (quotients (point c) (mem val y))).
  { exists (c / d), c, d. split; [reflexivity|split; [apply Hn; lra|split; [lra|reflexivity]]]. }
  assert (YP : xlt (Fin 0) (val (up y))).
  { destruct Hy as (A & _ & _). rewrite E1 in A.
    destruct (val (up y)) as [| |u|]; simpl in *; try tauto.
    assert (u <> 0) by congruence. lra. }
  destruct (cs_neg_inf _ _ CS HI) as (ni & Rn & En).
  destruct (cs_pos_inf _ _ CS HI) as (pi & Rp & Ep).
  assert (WD : xdiv (val v) (val (up y)) <> NaN -> wlim (quotients (point c) (mem val y)) (xdiv (val v) (val (up y)))).
  { intros Hn'. eapply wlim_ext; [apply quots_point; eauto|]. apply wlim_div; auto.
    - rewrite E. simpl. apply (mem_point v c E); auto.
    - apply valid_slim_up; auto. }
  destruct (is_zero_case H v) as [[-> B]|[-> B]]; rewrite E in B.
  { injection B; intros ->. exists (mk zero zero). split; [apply runsP_ret|]. apply zero_num_n_tight; auto. }
  assert (c <> 0) by congruence. apply via_rnd.
  destruct (sign_fin v c E) as [[-> A]|[(_ & _ & A)|(-> & _ & A)]]; [|tauto|].
  - destruct (as_div_up _ _ _ AS v (up y)) as (b & Rb & Eb); [cornern E y|].
    exists (mk ni b). split; [runs|].
    eapply tightest_intro with NInf _; [| | | |apply RD_ninf; auto|exact Rb].
    + intros r _; exact I.
    + apply (proj2 (quot_unbounded_pos (point c) _ c d eq_refl Hd Hn) A).
    + intros t Ht. apply (quots_point v c _ E) in Ht. revert t Ht. cornern E y.
    + apply WD. cornern E y.
  - destruct (as_div_down _ _ _ AS v (up y)) as (b & Rb & Eb); [cornern E y|].
    exists (mk b pi). split; [runs|].
    eapply tightest_intro with (e2 := PInf); [| | | |exact Rb|apply RU_pinf; auto].
    + intros t Ht. apply (quots_point v c _ E) in Ht. revert t Ht. cornern E y.
    + apply WD. cornern E y.
    + intros r _; exact I.
    + apply (proj1 (quot_unbounded_pos (point c) _ c d eq_refl Hd Hn) A).
Qed.

Lemma div_negative_n_ok v c y : n_has_inf N = true -> val v = Fin c -> V y ->
  val (up y) = Fin 0 -> val (low y) <> Fin 0 ->
  exists z, runsP P ready (div_negative_n P v (low y)) z /\ tight z (quotients (point c) (mem val y)).
Proof.
  intros HI E Hy E1 E2. unfold div_negative_n. pose proof (valid_point v c E) as Hv.
  destruct (mem_near_neg y Hy E1 E2) as (d & Hd & Hn).
  assert (NE : nonempty (quotients (point c) (mem val y))).
  { exists (c / -d), c, (-d). split; [reflexivity|split; [apply Hn; lra|split; [lra|reflexivity]]]. }
  assert (YP : xlt (val (low y)) (Fin 0)).
  { destruct Hy as (A & _ & _). rewrite E1 in A.
    destruct (val (low y)) as [| |u|]; simpl in *; try tauto.
    assert (u <> 0) by congruence. lra. }
  destruct (cs_neg_inf _ _ CS HI) as (ni & Rn & En).
  destruct (cs_pos_inf _ _ CS HI) as (pi & Rp & Ep).
  assert (WD : xdiv (val v) (val (low y)) <> NaN -> wlim (quotients (point c) (mem val y)) (xdiv (val v) (val (low y)))).
  { intros Hn'. eapply wlim_ext; [apply quots_point; eauto|]. apply wlim_div; auto.
    - rewrite E. simpl. apply (mem_point v c E); auto.
    - apply valid_slim_low; auto. }
  destruct (is_zero_case H v) as [[-> B]|[-> B]]; rewrite E in B.
  { injection B; intros ->. exists (mk zero zero). split; [apply runsP_ret|]. apply zero_num_n_tight; auto. }
  assert (c <> 0) by congruence. apply via_rnd.
  destruct (sign_fin v c E) as [[-> A]|[(_ & _ & A)|(-> & _ & A)]]; [|tauto|].
  - destruct (as_div_down _ _ _ AS v (low y)) as (b & Rb & Eb); [cornern E y|].
    exists (mk b pi). split; [runs|].
    eapply tightest_intro with (e2 := PInf); [| | | |exact Rb|apply RU_pinf; auto].
    + intros t Ht. apply (quots_point v c _ E) in Ht. revert t Ht. cornern E y.
    + apply WD. cornern E y.
    + intros r _; exact I.
    + apply (proj1 (quot_unbounded_neg (point c) _ c d eq_refl Hd Hn) A).
  - destruct (as_div_up _ _ _ AS v (low y)) as (b & Rb & Eb); [cornern E y|].
    exists (mk ni b). split; [runs|].
    eapply tightest_intro with NInf _; [| | | |apply RD_ninf; auto|exact Rb].
    + intros r _; exact I.
    + apply (proj2 (quot_unbounded_neg (point c) _ c d eq_refl Hd Hn) A).
    + intros t Ht. apply (quots_point v c _ E) in Ht. revert t Ht. cornern E y.
    + apply WD. cornern E y.
Qed.

Lemma div_zero_n_ok v c y : n_has_inf N = true -> val v = Fin c -> V y -> mem val y 0 ->
  val (low y) <> Fin 0 -> val (up y) <> Fin 0 ->
  exists z, runsP P ready (div_zero_n P v) z /\ tight z (quotients (point c) (mem val y)).
Proof.
  intros HI E Hy Z E1 E2. unfold div_zero_n. pose proof (valid_point v c E) as Hv.
  destruct (mem_near_both y Hy Z E1 E2) as (d & Hd & Hn).
  assert (NE : nonempty (quotients (point c) (mem val y))).
  { exists (c / d), c, d. split; [reflexivity|split; [apply Hn; lra|split; [lra|reflexivity]]]. }
  destruct (is_zero_case H v) as [[-> B]|[-> B]]; rewrite E in B.
  { injection B; intros ->. exists (mk zero zero). split; [apply runsP_ret|]. apply zero_num_n_tight; auto. }
  destruct (i_whole_runs H HI) as (z & Rz & F1 & F2). exists z. split; [apply pure_runsP; auto|].
  eapply tightest_ext; [apply quots_point; eauto|].
  destruct (nonzero_quots_whole (val := val) (mk v v) y); auto.
  - simpl. rewrite E. tauto.
  - apply whole_tight; auto.
Qed.

Lemma op_div_ni_ok v c y : val v = Fin c -> V y -> ~ (val (low y) = Fin 0 /\ val (up y) = Fin 0) ->
  (mem val y 0 -> n_has_inf N = true) ->
  exists z, runsP P ready (op_div_ni P v y) z /\ tight z (quotients (point c) (mem val y)).
Proof.
  intros E Hy G HI. apply guarded; [eapply test_ni_fin; eauto|].
  destruct (zero_in P y) eqn:EZ.
  - apply (zero_in_iff H) in EZ; auto. specialize (HI EZ).
    destruct (is_zero_case H (low y)) as [[-> A]|[-> A]];
    destruct (is_zero_case H (up y)) as [[-> B]|[-> B]]; simpl; try tauto.
    + apply div_positive_n_ok; auto.
    + apply div_negative_n_ok; auto.
    + apply div_zero_n_ok; auto.
  - apply (zero_in_false H) in EZ; auto. apply div_non_zero_n_ok; auto.
Qed.
Lemma op_div_ni_zero v c y o : val v = Fin c -> V y -> val (low y) = Fin 0 -> val (up y) = Fin 0 ->
  empty_out (P := P) (val := val) o -> forall s, op_div_ni P v y s = (o, s).
Proof.
  intros E Hy E1 E2 Ho s. unfold op_div_ni, bind. rewrite (test_ni_fin v c y E Hy).
  assert (zero_in P y = true) as ->.
  { apply (zero_in_iff H); auto. split; rewrite ?E1, ?E2; simpl; lra. }
  destruct (is_zero_case H (low y)) as [[-> A]|[-> A]]; [|tauto].
  destruct (is_zero_case H (up y)) as [[-> B]|[-> B]]; [|tauto].
  simpl. eapply i_empty_run; eauto.
Qed.

(** ** multiplicative_inverse *)
Lemma inverse_ok y : V y -> ~ (val (low y) = Fin 0 /\ val (up y) = Fin 0) ->
  (mem val y 0 -> n_has_inf N = true) ->
  exists z, runsP P ready (multiplicative_inverse P y) z /\ tight z (quotients (point 1) (mem val y)).
Proof.
  intros Hy G HI. unfold multiplicative_inverse. rewrite (test_valid H) by auto.
  pose proof (val_one H) as E. pose proof (valid_point one 1 E) as Hv.
  eapply (tight_ex _); [apply (quots_point one 1); auto|].
  apply via_rnd.
  destruct (zero_in P y) eqn:EZ.
  - apply (zero_in_iff H) in EZ; auto. specialize (HI EZ).
    destruct (cs_neg_inf _ _ CS HI) as (ni & Rn & En).
    destruct (cs_pos_inf _ _ CS HI) as (pi & Rp & Ep).
    assert (W1 : xdiv (val one) (val (low y)) <> NaN -> wlim (quots (mk one one) y) (xdiv (val one) (val (low y)))).
    { intros Hn'. apply wlim_div; auto; [apply (valid_slim_low _ (mk one one))|apply valid_slim_low]; auto. }
    assert (W2 : xdiv (val one) (val (up y)) <> NaN -> wlim (quots (mk one one) y) (xdiv (val one) (val (up y)))).
    { intros Hn'. apply wlim_div; auto; [apply (valid_slim_low _ (mk one one))|apply valid_slim_up]; auto. }
    assert (M1 : mem val (mk one one) 1) by (apply (mem_point one 1); auto).
    destruct (is_zero_case H (low y)) as [[-> A]|[-> A]];
    destruct (is_zero_case H (up y)) as [[-> B]|[-> B]]; simpl; try tauto.
    + destruct (mem_near_pos y Hy A B) as (d & Hd & Hn).
      assert (YP : xlt (Fin 0) (val (up y))).
      { destruct EZ as [_ EZ]. destruct (val (up y)) as [| |u|]; simpl in *; try tauto.
        assert (u <> 0) by congruence. lra. }
      destruct (as_div_down _ _ _ AS one (up y)) as (b & Rb & Eb); [clear W1 W2; cornern E y|].
      exists (mk b pi). split; [runs|].
      eapply tightest_intro with (e2 := PInf); [| | | |exact Rb|apply RU_pinf; auto].
      * clear W1 W2. cornern E y.
      * apply W2. clear W1 W2. cornern E y.
      * intros r _; exact I.
      * apply (proj1 (quot_unbounded_pos _ _ 1 d M1 Hd Hn)). lra.
    + destruct (mem_near_neg y Hy B A) as (d & Hd & Hn).
      assert (YP : xlt (val (low y)) (Fin 0)).
      { destruct EZ as [EZ _]. destruct (val (low y)) as [| |u|]; simpl in *; try tauto.
        assert (u <> 0) by congruence. lra. }
      destruct (as_div_up _ _ _ AS one (low y)) as (b & Rb & Eb); [clear W1 W2; cornern E y|].
      exists (mk ni b). split; [runs|].
      eapply tightest_intro with NInf _; [| | | |apply RD_ninf; auto|exact Rb].
      * intros r _; exact I.
      * apply (proj2 (quot_unbounded_neg _ _ 1 d M1 Hd Hn)). lra.
      * clear W1 W2. cornern E y.
      * apply W1. clear W1 W2. cornern E y.
    + destruct (i_whole_runs H HI) as (z & Rz & F1 & F2).
      exists z. split; [apply pure_runsI; auto|].
      destruct (nonzero_quots_whole (val := val) (mk one one) y); auto.
      * simpl. rewrite E. intros [K _]. injection K. lra.
      * apply whole_tight; auto.
  - apply (zero_in_false H) in EZ; auto.
    apply (div_case H _ (mk one one) y); auto; try (unfold bound_of; simpl; solve [auto]);
    destruct EZ as [Z|Z]; cornern E y.
Qed.
Lemma inverse_zero y o : V y -> val (low y) = Fin 0 -> val (up y) = Fin 0 ->
  empty_out (P := P) (val := val) o -> forall s, multiplicative_inverse P y s = (o, s).
Proof.
  intros Hy E1 E2 Ho s. unfold multiplicative_inverse. rewrite (test_valid H) by auto.
  assert (zero_in P y = true) as ->.
  { apply (zero_in_iff H); auto. split; rewrite ?E1, ?E2; simpl; lra. }
  destruct (is_zero_case H (low y)) as [[-> A]|[-> A]]; [|tauto].
  destruct (is_zero_case H (up y)) as [[-> B]|[-> B]]; [|tauto].
  simpl. apply (with_rnd_out H); [|eapply empty_out_ok; eauto].
  intros. eapply i_empty_run; eauto.
Qed.
End Core.

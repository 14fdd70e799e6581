(** * Correctness of division, from the rounding interface *)

From Coq Require Import Reals ZArith Lra Psatz Bool List.
From Verif Require Import Outcome Base Checking Interval Utility Arith Arith2 FloatNum Spec ExtR Sem CoreArith.
Local Open Scope R_scope.

Lemma div_le_div a b r s : 0 < b * s -> a * s <= r * b -> a / b <= r / s.
Proof.
  intros H1 H2.
  assert (b <> 0) by (intros ->; lra). assert (s <> 0) by (intros ->; lra).
  apply Rminus_le. replace (a / b - r / s) with ((a * s - r * b) * / (b * s)) by (field; auto).
  apply Rinv_0_lt_compat in H1. nra.
Qed.
Lemma div_nonneg r s : 0 <= r * s -> 0 <= r / s.
Proof.
  intros H. destruct (Req_dec s 0) as [->|Hs].
  - unfold Rdiv. rewrite Rinv_0. lra.
  - replace (r / s) with (r * s * (/ s * / s)) by (field; auto).
    apply Rmult_le_pos; auto. apply Rle_0_sqr.
Qed.
Lemma div_nonpos r s : r * s <= 0 -> r / s <= 0.
Proof.
  intros H. pose proof (div_nonneg (-r) s). unfold Rdiv in *.
  assert (0 <= - r * s) by lra. specialize (H0 H1). lra.
Qed.

(** Quotients by numbers of one sign near zero are unbounded. *)
Lemma quot_unbounded_pos (X Y : R -> Prop) r d : X r -> 0 < d -> (forall s, 0 < s <= d -> Y s) ->
  (0 < r -> slim (quotients X Y) PInf) /\ (r < 0 -> slim (quotients X Y) NInf).
Proof.
  intros HX Hd HY.
  assert (K : forall M, r <> 0 -> exists s, 0 < s <= d /\ M * s <= Rabs r).
  { intros M Hr. pose proof (Rabs_pos_lt r Hr) as Ha. pose proof (Rabs_pos M) as HM.
    exists (Rmin d (Rabs r / (Rabs M + 1))).
    assert (0 < Rabs r / (Rabs M + 1)) by (apply Rdiv_lt_0_compat; lra).
    split; [split; [apply Rmin_glb_lt; auto|apply Rmin_l]|].
    apply Rle_trans with ((Rabs M + 1) * (Rabs r / (Rabs M + 1))).
    - apply Rle_trans with ((Rabs M + 1) * Rmin d (Rabs r / (Rabs M + 1))).
      + pose proof (Rle_abs M). apply Rmult_le_compat_r; [|lra].
        apply Rlt_le, Rmin_glb_lt; auto.
      + apply Rmult_le_compat_l; [lra|apply Rmin_r].
    - right. field. lra. }
  split; intros Hr M.
  - destruct (K M) as (s & Hs & Hl); [lra|]. rewrite Rabs_pos_eq in Hl by lra.
    exists (r / s). split; [exists r, s; repeat split; auto; lra|].
    replace M with (M / 1) by field. apply div_le_div; lra.
  - destruct (K (-M)) as (s & Hs & Hl); [lra|]. rewrite Rabs_left in Hl by lra.
    exists (r / s). split; [exists r, s; repeat split; auto; lra|].
    replace M with (M / 1) by field. apply div_le_div; lra.
Qed.
Lemma quot_unbounded_neg (X Y : R -> Prop) r d : X r -> 0 < d -> (forall s, - d <= s < 0 -> Y s) ->
  (r < 0 -> slim (quotients X Y) PInf) /\ (0 < r -> slim (quotients X Y) NInf).
Proof.
  intros HX Hd HY.
  destruct (quot_unbounded_pos (image1 Ropp X) (image1 Ropp Y) (-r) d) as [A B].
  - exists r; auto.
  - auto.
  - intros s Hs. exists (-s). split; [apply HY|]; lra.
  - assert (E : forall t, quotients (image1 Ropp X) (image1 Ropp Y) t -> quotients X Y t).
    { intros t (a & b & (a' & Ha & ->) & (b' & Hb & ->) & Hn & ->).
      exists a', b'. repeat split; auto; [lra|]. field. lra. }
    split; intros Hr; eapply slim_ext; eauto; [apply A|apply B]; lra.
Qed.

Section Core.
Context {N : num} {val : T N -> ext} {P : policy N} {ready : rmode -> Prop}
        (H : polspec val P ready).
Notation V := (valid val).
Notation tight := (tightest val).
Notation NS := (ps_num _ _ _ H).
Notation AS := (ps_ar _ _ _ H).
Notation CS := (ps_ck _ _ _ H).
Notation quots x y := (quotients (mem val x) (mem val y)).
Notation val_zero := (val_zero H).

(** A block that returns or throws without rounding restores the mode. *)
Lemma with_rnd_out {A} (body : M A) (o : outcome A) :
  (forall s, body s = (o, s)) -> (exists a, o = Ok a) \/ (exists e, o = Throw e) ->
  forall s, with_rnd P body s = (o, s).
Proof.
  intros Hb Ho s. unfold with_rnd. destruct (p_prot P) eqn:E; auto.
  destruct (ps_restore _ _ _ H E s) as (m & E1 & E2).
  unfold bind. rewrite E1. destruct (as_init _ _ _ AS s) as (s1 & Hr & ->).
  rewrite Hb. destruct Ho as [(a & ->)|(e & ->)]; rewrite E2; reflexivity.
Qed.
Lemma empty_out_ok o : empty_out (P := P) (val := val) o ->
  (exists a : itv N, o = Ok a) \/ (exists e, o = Throw e).
Proof. intros []; eauto. Qed.

Lemma zero_in_iff y : V y -> zero_in P y = true <-> mem val y 0.
Proof.
  intros Hy. unfold zero_in, mem. rewrite (test_valid H) by auto.
  pose proof (vlow_nn y Hy). pose proof (vup_nn y Hy).
  destruct (is_pos_case H (low y)) as [[-> A]|[-> A]]; auto;
  destruct (is_neg_case H (up y)) as [[-> B]|[-> B]]; auto; simpl; split; auto; try discriminate.
  - intros [C _]. exfalso. apply (xlt_nle _ _ A C).
  - intros [C _]. exfalso. apply (xlt_nle _ _ A C).
  - intros [_ C]. exfalso. apply (xlt_nle _ _ B C).
Qed.
Lemma zero_in_false y : V y -> zero_in P y = false ->
  xlt (Fin 0) (val (low y)) \/ xlt (val (up y)) (Fin 0).
Proof.
  intros Hy Z. unfold zero_in in Z. rewrite (test_valid H) in Z by auto.
  pose proof (vlow_nn y Hy). pose proof (vup_nn y Hy).
  destruct (is_pos_case H (low y)) as [[E A]|[E A]]; auto; rewrite E in Z;
  destruct (is_neg_case H (up y)) as [[E' B]|[E' B]]; auto; rewrite E' in Z; simpl in Z; discriminate.
Qed.

Lemma i_whole_runs : n_has_inf N = true ->
  exists z, pureM (i_whole P) z /\ val (low z) = NInf /\ val (up z) = PInf.
Proof.
  intros I. destruct (cs_neg_inf _ _ CS I) as (a & Ra & Ea).
  destruct (cs_pos_inf _ _ CS I) as (b & Rb & Eb).
  exists (mk a b). split; auto. apply pureM_mk_args; auto.
Qed.

Lemma whole_encl z (S : R -> Prop) : val (low z) = NInf -> val (up z) = PInf -> encloses val z S.
Proof. intros E1 E2 r _. split; rewrite ?E1, ?E2; simpl; auto. Qed.
Lemma whole_tight z (S : R -> Prop) : val (low z) = NInf -> val (up z) = PInf ->
  slim S NInf -> slim S PInf -> tight z S.
Proof.
  intros E1 E2 L1 L2. apply tightest_intro with NInf PInf.
  - intros r _. exact I.
  - exact L1.
  - intros r _. exact I.
  - exact L2.
  - rewrite <- E1. apply RD_val. congruence.
  - rewrite <- E2. apply RU_val. congruence.
Qed.

Lemma RD_ninf t : val t = NInf -> RD val NInf t.
Proof. intros E. rewrite <- E. apply RD_val. congruence. Qed.
Lemma RU_pinf t : val t = PInf -> RU val PInf t.
Proof. intros E. rewrite <- E. apply RU_val. congruence. Qed.

(** Members near a bound. *)
Lemma mem_near_pos y : V y -> val (low y) = Fin 0 -> val (up y) <> Fin 0 ->
  exists d, 0 < d /\ forall s, 0 < s <= d -> mem val y s.
Proof.
  intros (A & B & C) E1 E2. unfold mem. rewrite E1 in *.
  destruct (val (up y)) as [| |u|]; simpl in *; try tauto.
  - assert (u <> 0) by congruence. exists u. split; [lra|]. intros; split; lra.
  - exists 1. split; [lra|]. intros; split; auto; lra.
Qed.
Lemma mem_near_neg y : V y -> val (up y) = Fin 0 -> val (low y) <> Fin 0 ->
  exists d, 0 < d /\ forall s, - d <= s < 0 -> mem val y s.
Proof.
  intros (A & B & C) E1 E2. unfold mem. rewrite E1 in *.
  destruct (val (low y)) as [| |u|]; simpl in *; try tauto.
  - exists 1. split; [lra|]. intros; split; auto; lra.
  - assert (u <> 0) by congruence. exists (-u). split; [lra|]. intros; split; lra.
Qed.
Lemma mem_near_both y : V y -> mem val y 0 -> val (low y) <> Fin 0 -> val (up y) <> Fin 0 ->
  exists d, 0 < d /\ forall s, - d <= s <= d -> mem val y s.
Proof.
  intros (A & B & C) [M1 M2] E1 E2. unfold mem.
  destruct (val (low y)) as [| |l|], (val (up y)) as [| |u|]; simpl in *; try tauto.
  - assert (u <> 0) by congruence. exists u. split; [lra|]. intros; split; auto; lra.
  - exists 1. split; [lra|]. intros; split; auto; lra.
  - assert (l <> 0) by congruence. assert (u <> 0) by congruence.
    exists (Rmin (-l) u). split; [apply Rmin_glb_lt; lra|].
    intros s [S1 S2]. pose proof (Rmin_l (-l) u). pose proof (Rmin_r (-l) u). split; lra.
  - assert (l <> 0) by congruence. exists (-l). split; [lra|]. intros; split; auto; lra.
Qed.
Lemma mem_neg x : V x -> xlt (val (low x)) (Fin 0) -> exists r, mem val x r /\ r < 0.
Proof.
  intros (A & B & C) L. unfold mem.
  destruct (val (low x)) as [| |l|], (val (up x)) as [| |u|]; simpl in *; try tauto.
  - exists (Rmin (-1) u). pose proof (Rmin_l (-1) u). pose proof (Rmin_r (-1) u).
    repeat split; auto; lra.
  - exists (-1). repeat split; auto; lra.
  - exists l. repeat split; lra.
  - exists l. repeat split; auto; lra.
Qed.
Lemma mem_pos x : V x -> xlt (Fin 0) (val (up x)) -> exists r, mem val x r /\ 0 < r.
Proof.
  intros (A & B & C) L. unfold mem.
  destruct (val (low x)) as [| |l|], (val (up x)) as [| |u|]; simpl in *; try tauto.
  - exists u. repeat split; auto; lra.
  - exists 1. repeat split; auto; lra.
  - exists u. repeat split; lra.
  - exists (Rmax 1 l). pose proof (Rmax_l 1 l). pose proof (Rmax_r 1 l).
    repeat split; auto; lra.
Qed.

Lemma zeros_case x : V x ->
  (is_zero (low x) && is_zero (up x) = true /\ val (low x) = Fin 0 /\ val (up x) = Fin 0) \/
  (is_zero (low x) && is_zero (up x) = false /\ ~ (val (low x) = Fin 0 /\ val (up x) = Fin 0)).
Proof.
  intros Hx. destruct (is_zero_case H (low x)) as [[-> A]|[-> A]];
  destruct (is_zero_case H (up x)) as [[-> B]|[-> B]]; simpl; [left|right|right|right]; tauto.
Qed.

(** The zero interval divided by anything with a nonzero member. *)
Lemma zero_num_tight x y : V x -> val (low x) = Fin 0 -> val (up x) = Fin 0 ->
  nonempty (quots x y) -> tight x (quots x y).
Proof.
  intros Hx E1 E2 (q & Hq).
  assert (Z : forall t, quots x y t -> t = 0).
  { intros t (r & s & [R1 R2] & _ & Hs & ->). rewrite E1 in R1. rewrite E2 in R2. simpl in *.
    replace r with 0 by lra. field; auto. }
  pose proof (Z q Hq); subst q.
  apply tightest_intro with (Fin 0) (Fin 0).
  - intros r Hr. rewrite (Z r Hr). simpl. lra.
  - apply (slim_wlim (quots x y) (Fin 0)). auto.
  - intros r Hr. rewrite (Z r Hr). simpl. lra.
  - apply (slim_wlim (quots x y) (Fin 0)). auto.
  - rewrite <- E1. apply RD_val. congruence.
  - rewrite <- E2. apply RU_val. congruence.
Qed.

Ltac fin_div := first
  [ apply div_le_div; nra | apply div_nonneg; nra | apply div_nonpos; nra ].

(** Goals about one corner of a quotient. *)
Ltac corner x y :=
  repeat match goal with HV : valid val _ |- _ => destruct HV as (? & ? & ?) end;
  try (intros ? (? & ? & (? & ?) & (? & ?) & ? & ->));
  destruct (val (low x)) as [| |?xl|], (val (up x)) as [| |?xu|];
  cbn [xle xlt] in *; try contradiction; try congruence;
  destruct (val (low y)) as [| |?yl|], (val (up y)) as [| |?yu|];
  cbn [xle xlt xdiv] in *; try contradiction; try congruence;
  xcase; try contradiction; try congruence; try exact I; try lra;
  repeat match goal with
  | E : Fin _ = Fin _ |- _ => injection E; clear E; intro E
  | E : ?s <> 0 |- _ => apply Rdichotomy in E; destruct E
  end; try lra; try fin_div.

Lemma div_case o x y cx cy dx dy : V x -> V y ->
  bound_of x cx -> bound_of y cy -> bound_of x dx -> bound_of y dy ->
  xdiv (val cx) (val cy) <> NaN -> xdiv (val dx) (val dy) <> NaN ->
  is_lb (xdiv (val cx) (val cy)) (quots x y) ->
  is_ub (xdiv (val dx) (val dy)) (quots x y) ->
  exists z, runsI ready (mk_args o (div_down (p_ar P) cx cy) (div_up (p_ar P) dx dy)) z
            /\ tight z (quots x y).
Proof.
  intros Hx Hy B1 B2 B3 B4 N1 N2 L U.
  destruct (as_div_down _ _ _ AS cx cy) as (a & Ra & Ea); auto.
  destruct (as_div_up _ _ _ AS dx dy) as (b & Rb & Eb); auto.
  exists (mk a b). split; [runs|].
  eapply tightest_intro; [exact L| |exact U| |exact Ra|exact Rb].
  - apply wlim_div; auto; apply bound_slim; auto.
  - apply wlim_div; auto; apply bound_slim; auto.
Qed.

Notation via_rnd := (via_rnd H).

Ltac bnd := solve [unfold bound_of; auto].

Lemma div_non_zero_ok x y : V x -> V y ->
  (xlt (Fin 0) (val (low y)) \/ xlt (val (up y)) (Fin 0)) ->
  exists z, runsP P ready (div_non_zero P x y) z /\ tight z (quots x y).
Proof.
  intros Hx Hy Z. apply via_rnd. cbv zeta.
  pose proof (vlow_nn x Hx) as NX1. pose proof (vup_nn x Hx) as NX2.
  pose proof (vlow_nn y Hy) as NY1. pose proof (vup_nn y Hy) as NY2.
  assert (ZP : xle (Fin 0) (val (up y)) -> xlt (Fin 0) (val (low y))).
  { intros A. destruct Z as [Z|Z]; auto. exfalso. apply (xlt_nle _ _ Z A). }
  destruct (is_neg_case H (up x)) as [[-> X2]|[-> X2]]; auto.
  - destruct (is_neg_case H (up y)) as [[-> Y2]|[-> Y2]]; auto.
    + clear Z ZP. apply div_case; auto; try bnd; corner x y.
    + specialize (ZP Y2). clear Z. apply div_case; auto; try bnd; corner x y.
  - destruct (is_neg_case H (low x)) as [[-> X1]|[-> X1]]; auto;
    (destruct (is_neg_case H (up y)) as [[-> Y2]|[-> Y2]]; auto;
     [clear Z ZP|specialize (ZP Y2); clear Z]);
    apply div_case; auto; try bnd; corner x y.
Qed.

Lemma up_pos y : V y -> val (low y) = Fin 0 -> val (up y) <> Fin 0 -> xlt (Fin 0) (val (up y)).
Proof.
  intros (A & _ & _) E1 E2. rewrite E1 in A.
  destruct (val (up y)) as [| |u|]; simpl in *; try tauto.
  assert (u <> 0) by congruence. lra.
Qed.
Lemma low_neg y : V y -> val (up y) = Fin 0 -> val (low y) <> Fin 0 -> xlt (val (low y)) (Fin 0).
Proof.
  intros (A & _ & _) E1 E2. rewrite E1 in A.
  destruct (val (low y)) as [| |u|]; simpl in *; try tauto.
  assert (u <> 0) by congruence. lra.
Qed.
Lemma up_pos_nz x : V x -> xle (Fin 0) (val (low x)) -> ~ (val (low x) = Fin 0 /\ val (up x) = Fin 0) ->
  xlt (Fin 0) (val (up x)).
Proof.
  intros (A & _) X1 Z. destruct (val (low x)) as [| |l|], (val (up x)) as [| |u|]; simpl in *; try tauto.
  destruct (Req_dec u 0) as [->|]; [|lra]. exfalso. apply Z. split; auto. f_equal; lra.
Qed.

(** x / [0, yu] for x < 0 and x >= 0, x / [yl, 0] likewise *)
Lemma dp_neg x y ni : V x -> V y -> val (low y) = Fin 0 -> val (up y) <> Fin 0 ->
  xlt (val (up x)) (Fin 0) -> val ni = NInf ->
  exists b, runsI ready (div_up (p_ar P) (up x) (up y)) b /\ tight (mk ni b) (quots x y).
Proof.
  intros Hx Hy E1 E2 X2 En. destruct (mem_near_pos y Hy E1 E2) as (d & Hd & Hn).
  pose proof (up_pos y Hy E1 E2) as YP.
  assert (X1 : xlt (val (low x)) (Fin 0)) by (apply xle_lt_trans with (val (up x)); auto; apply Hx).
  destruct (as_div_up _ _ _ AS (up x) (up y)) as (b & Rb & Eb).
  { corner x y. }
  exists b. split; auto.
  eapply tightest_intro with NInf _; [| | | |apply RD_ninf; auto|exact Rb].
  - intros r _; exact I.
  - destruct (mem_neg x Hx X1) as (r & Hr & Hr'). 
    apply (proj2 (quot_unbounded_pos _ _ r d Hr Hd Hn) Hr').
  - corner x y.
  - apply wlim_div; [apply valid_slim_up; auto|apply valid_slim_up; auto|].
    corner x y.
Qed.
Lemma dp_pos x y pi : V x -> V y -> val (low y) = Fin 0 -> val (up y) <> Fin 0 ->
  xle (Fin 0) (val (low x)) -> ~ (val (low x) = Fin 0 /\ val (up x) = Fin 0) -> val pi = PInf ->
  exists b, runsI ready (div_down (p_ar P) (low x) (up y)) b /\ tight (mk b pi) (quots x y).
Proof.
  intros Hx Hy E1 E2 X1 Z En. destruct (mem_near_pos y Hy E1 E2) as (d & Hd & Hn).
  pose proof (up_pos y Hy E1 E2) as YP. pose proof (up_pos_nz x Hx X1 Z) as X3.
  destruct (as_div_down _ _ _ AS (low x) (up y)) as (b & Rb & Eb).
  { corner x y. }
  exists b. split; auto.
  eapply tightest_intro with (e2 := PInf); [| | | |exact Rb|apply RU_pinf; auto].
  - corner x y.
  - apply wlim_div; [apply valid_slim_low; auto|apply valid_slim_up; auto|].
    corner x y.
  - intros r _; exact I.
  - destruct (mem_pos x Hx X3) as (r & Hr & Hr').
    apply (proj1 (quot_unbounded_pos _ _ r d Hr Hd Hn) Hr').
Qed.
Lemma dn_neg x y pi : V x -> V y -> val (up y) = Fin 0 -> val (low y) <> Fin 0 ->
  xlt (val (up x)) (Fin 0) -> val pi = PInf ->
  exists b, runsI ready (div_down (p_ar P) (up x) (low y)) b /\ tight (mk b pi) (quots x y).
Proof.
  intros Hx Hy E1 E2 X2 En. destruct (mem_near_neg y Hy E1 E2) as (d & Hd & Hn).
  pose proof (low_neg y Hy E1 E2) as YP.
  assert (X1 : xlt (val (low x)) (Fin 0)) by (apply xle_lt_trans with (val (up x)); auto; apply Hx).
  destruct (as_div_down _ _ _ AS (up x) (low y)) as (b & Rb & Eb).
  { corner x y. }
  exists b. split; auto.
  eapply tightest_intro with (e2 := PInf); [| | | |exact Rb|apply RU_pinf; auto].
  - corner x y.
  - apply wlim_div; [apply valid_slim_up; auto|apply valid_slim_low; auto|].
    corner x y.
  - intros r _; exact I.
  - destruct (mem_neg x Hx X1) as (r & Hr & Hr').
    apply (proj1 (quot_unbounded_neg _ _ r d Hr Hd Hn) Hr').
Qed.
Lemma dn_pos x y ni : V x -> V y -> val (up y) = Fin 0 -> val (low y) <> Fin 0 ->
  xle (Fin 0) (val (low x)) -> ~ (val (low x) = Fin 0 /\ val (up x) = Fin 0) -> val ni = NInf ->
  exists b, runsI ready (div_up (p_ar P) (low x) (low y)) b /\ tight (mk ni b) (quots x y).
Proof.
  intros Hx Hy E1 E2 X1 Z En. destruct (mem_near_neg y Hy E1 E2) as (d & Hd & Hn).
  pose proof (low_neg y Hy E1 E2) as YP. pose proof (up_pos_nz x Hx X1 Z) as X3.
  destruct (as_div_up _ _ _ AS (low x) (low y)) as (b & Rb & Eb).
  { corner x y. }
  exists b. split; auto.
  eapply tightest_intro with NInf _; [| | | |apply RD_ninf; auto|exact Rb].
  - intros r _; exact I.
  - destruct (mem_pos x Hx X3) as (r & Hr & Hr').
    apply (proj2 (quot_unbounded_neg _ _ r d Hr Hd Hn) Hr').
  - corner x y.
  - apply wlim_div; [apply valid_slim_low; auto|apply valid_slim_low; auto|].
    corner x y.
Qed.

(** x / [0, yu] *)
Lemma div_positive_ok x y : n_has_inf N = true -> V x -> V y ->
  val (low y) = Fin 0 -> val (up y) <> Fin 0 ->
  exists z, runsP P ready (div_positive P x (up y)) z /\ encloses val z (quots x y) /\
    (~ (xlt (val (low x)) (Fin 0) /\ val (up x) = Fin 0) -> tight z (quots x y)).
Proof.
  intros HI Hx Hy E1 E2. unfold div_positive.
  destruct (mem_near_pos y Hy E1 E2) as (d & Hd & Hn).
  assert (NE : nonempty (quots x y)).
  { destruct (valid_mem _ _ Hx) as (r & Hr). exists (r / d), r, (d).
    split; [exact Hr|split; [apply Hn; lra|split; [lra|reflexivity]]]. }
  destruct (zeros_case x Hx) as [(-> & Z1 & Z2)|(-> & Z)].
  { exists x. pose proof (zero_num_tight x y Hx Z1 Z2 NE). split; [apply runsP_ret|].
    split; auto. apply H0. }
  apply via_rnd. cbv zeta.
  destruct (cs_neg_inf _ _ CS HI) as (ni & Rn & En).
  destruct (cs_pos_inf _ _ CS HI) as (pi & Rp & Ep).
  pose proof (vlow_nn x Hx) as NX1. pose proof (vup_nn x Hx) as NX2.
  destruct (is_neg_case H (up x)) as [[-> X2]|[-> X2]]; auto.
  - destruct (dp_neg x y ni) as (b & Rb & T0); auto. exists (mk ni b). split; [runs|]. split; auto. apply T0.
  - destruct (is_neg_case H (low x)) as [[-> X1]|[-> X1]]; auto.
    + exists (mk ni pi). split; [runs|]. split; [apply whole_encl; auto|].
      intros G. assert (X3 : xlt (Fin 0) (val (up x))).
      { destruct (val (up x)) as [| |u|]; simpl in *; try tauto.
        assert (u <> 0) by (intros ->; tauto). lra. }
      destruct (mem_neg x Hx X1) as (r & Hr & Hr').
      destruct (mem_pos x Hx X3) as (q & Hq & Hq').
      apply whole_tight; auto.
      * apply (proj2 (quot_unbounded_pos _ _ r d Hr Hd Hn) Hr').
      * apply (proj1 (quot_unbounded_pos _ _ q d Hq Hd Hn) Hq').
    + destruct (dp_pos x y pi) as (b & Rb & T0); auto. exists (mk b pi). split; [runs|]. split; auto. apply T0.
Qed.

(** x / [yl, 0] *)
Lemma div_negative_ok x y : n_has_inf N = true -> V x -> V y ->
  val (up y) = Fin 0 -> val (low y) <> Fin 0 ->
  exists z, runsP P ready (div_negative P x (low y)) z /\ encloses val z (quots x y) /\
    (~ (xlt (val (low x)) (Fin 0) /\ val (up x) = Fin 0) -> tight z (quots x y)).
Proof.
  intros HI Hx Hy E1 E2. unfold div_negative.
  destruct (mem_near_neg y Hy E1 E2) as (d & Hd & Hn).
  assert (NE : nonempty (quots x y)).
  { destruct (valid_mem _ _ Hx) as (r & Hr). exists (r / -d), r, (-d).
    split; [exact Hr|split; [apply Hn; lra|split; [lra|reflexivity]]]. }
  destruct (zeros_case x Hx) as [(-> & Z1 & Z2)|(-> & Z)].
  { exists x. pose proof (zero_num_tight x y Hx Z1 Z2 NE). split; [apply runsP_ret|].
    split; auto. apply H0. }
  apply via_rnd. cbv zeta.
  destruct (cs_neg_inf _ _ CS HI) as (ni & Rn & En).
  destruct (cs_pos_inf _ _ CS HI) as (pi & Rp & Ep).
  pose proof (vlow_nn x Hx) as NX1. pose proof (vup_nn x Hx) as NX2.
  destruct (is_neg_case H (up x)) as [[-> X2]|[-> X2]]; auto.
  - destruct (dn_neg x y pi) as (b & Rb & T0); auto. exists (mk b pi). split; [runs|]. split; auto. apply T0.
  - destruct (is_neg_case H (low x)) as [[-> X1]|[-> X1]]; auto.
    + exists (mk ni pi). split; [runs|]. split; [apply whole_encl; auto|].
      intros G. assert (X3 : xlt (Fin 0) (val (up x))).
      { destruct (val (up x)) as [| |u|]; simpl in *; try tauto.
        assert (u <> 0) by (intros ->; tauto). lra. }
      destruct (mem_neg x Hx X1) as (r & Hr & Hr').
      destruct (mem_pos x Hx X3) as (q & Hq & Hq').
      apply whole_tight; auto.
      * apply (proj2 (quot_unbounded_neg _ _ q d Hq Hd Hn) Hq').
      * apply (proj1 (quot_unbounded_neg _ _ r d Hr Hd Hn) Hr').
    + destruct (dn_pos x y ni) as (b & Rb & T0); auto. exists (mk ni b). split; [runs|]. split; auto. apply T0.
Qed.

Lemma nonzero_quots_whole x y : V x -> V y -> mem val y 0 ->
  val (low y) <> Fin 0 -> val (up y) <> Fin 0 -> ~ (val (low x) = Fin 0 /\ val (up x) = Fin 0) ->
  slim (quots x y) NInf /\ slim (quots x y) PInf.
Proof.
  intros Hx Hy Z E1 E2 G.
  destruct (mem_near_both y Hy Z E1 E2) as (d & Hd & Hn).
  assert (exists r, mem val x r /\ r <> 0) as (r & Hr & Hr').
  { destruct Hx as (A & B & C). unfold mem.
    destruct (val (low x)) as [| |l|], (val (up x)) as [| |u|]; simpl in *; try tauto.
    - destruct (Req_dec u 0) as [->|Hu]; [exists (-1)|exists u]; repeat split; auto; lra.
    - exists 1. repeat split; auto; lra.
    - destruct (Req_dec u 0) as [->|Hu]; [|exists u; repeat split; auto; lra].
      destruct (Req_dec l 0) as [->|Hl]; [exfalso; apply G; auto|exists l; repeat split; auto; lra].
    - destruct (Req_dec l 0) as [->|Hl]; [exists 1|exists l]; repeat split; auto; lra. }
  destruct (quot_unbounded_pos (mem val x) (mem val y) r d Hr Hd) as [A B]; [intros; apply Hn; lra|].
  destruct (quot_unbounded_neg (mem val x) (mem val y) r d Hr Hd) as [A' B']; [intros; apply Hn; lra|].
  destruct (Rtotal_order r 0) as [|[|]]; [split|tauto|split]; auto.
Qed.

Lemma div_zero_ok x y : n_has_inf N = true -> V x -> V y -> mem val y 0 ->
  val (low y) <> Fin 0 -> val (up y) <> Fin 0 ->
  exists z, runsP P ready (div_zero P x) z /\ tight z (quots x y).
Proof.
  intros HI Hx Hy Z E1 E2. unfold div_zero.
  destruct (mem_near_both y Hy Z E1 E2) as (d & Hd & Hn).
  assert (NE : nonempty (quots x y)).
  { destruct (valid_mem _ _ Hx) as (r & Hr). exists (r / d), r, d.
    split; [exact Hr|split; [apply Hn; lra|split; [lra|reflexivity]]]. }
  destruct (zeros_case x Hx) as [(-> & Z1 & Z2)|(-> & G)].
  { exists x. split; [apply runsP_ret|]. apply zero_num_tight; auto. }
  destruct (i_whole_runs HI) as (z & Rz & F1 & F2). exists z. split; [apply pure_runsP; auto|].
  destruct (nonzero_quots_whole x y); auto. apply whole_tight; auto.
Qed.

Notation half_zero y := (val (low y) = Fin 0 \/ val (up y) = Fin 0).

Lemma op_div_ok x y : V x -> V y -> ~ (val (low y) = Fin 0 /\ val (up y) = Fin 0) ->
  (mem val y 0 -> n_has_inf N = true) ->
  exists z, runsP P ready (op_div P x y) z /\ encloses val z (quots x y) /\
   (~ (xlt (val (low x)) (Fin 0) /\ val (up x) = Fin 0 /\ half_zero y) -> tight z (quots x y)).
Proof.
  intros Hx Hy G HI. unfold op_div. rewrite (test_valid2 H) by auto.
  destruct (zero_in P y) eqn:EZ.
  - apply zero_in_iff in EZ; auto. specialize (HI EZ).
    destruct (is_zero_case H (low y)) as [[-> A]|[-> A]];
    destruct (is_zero_case H (up y)) as [[-> B]|[-> B]]; simpl; try tauto.
    + destruct (div_positive_ok x y) as (z & R1 & R2 & R3); auto. exists z. split; auto. split; auto.
      intros K. apply R3. tauto.
    + destruct (div_negative_ok x y) as (z & R1 & R2 & R3); auto. exists z. split; auto. split; auto.
      intros K. apply R3. tauto.
    + destruct (div_zero_ok x y) as (z & R1 & R2); auto. exists z. split; auto. split; auto. apply R2.
  - apply zero_in_false in EZ; auto.
    destruct (div_non_zero_ok x y) as (z & R1 & R2); auto. exists z. split; auto. split; auto. apply R2.
Qed.

(** Division by the zero interval: empty, as the policy says. *)
Lemma op_div_zero x y o : V x -> V y -> val (low y) = Fin 0 -> val (up y) = Fin 0 ->
  empty_out (P := P) (val := val) o -> forall s, op_div P x y s = (o, s).
Proof.
  intros Hx Hy E1 E2 Ho s. unfold op_div. rewrite (test_valid2 H) by auto.
  assert (zero_in P y = true) as ->.
  { apply zero_in_iff; auto. split; rewrite ?E1, ?E2; simpl; lra. }
  destruct (is_zero_case H (low y)) as [[-> A]|[-> A]]; [|tauto].
  destruct (is_zero_case H (up y)) as [[-> B]|[-> B]]; [|tauto].
  simpl. eapply i_empty_run; eauto.
Qed.
End Core.

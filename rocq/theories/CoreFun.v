(** * Division parts, square, square root, powers, absolute value, min, max *)

From Coq Require Import Reals ZArith Lra Lia Psatz Bool List.
From Verif Require Import Outcome Base Checking Interval Utility Arith Arith2 FloatNum Spec ExtR Sem
  CoreArith CoreDiv CoreMore.
Local Open Scope R_scope.

Section Core.
Context {N : num} {val : T N -> ext} {P : policy N} {ready : rmode -> Prop}
        (H : polspec val P ready).
Notation V := (valid val).
Notation tight := (tightest val).
Notation NS := (ps_num _ _ _ H).
Notation AS := (ps_ar _ _ _ H).
Notation CS := (ps_ck _ _ _ H).
Notation quots x y := (quotients (mem val x) (mem val y)).
Notation val_zero := (val_zero H).
Notation via_rnd := (via_rnd H).
Notation is_empty_out o := (empty_out (P := P) (val := val) o).

(** ** division_part1, division_part2 *)
Notation half_zero y := (val (low y) = Fin 0 \/ val (up y) = Fin 0).
Definition nonpos (S : R -> Prop) : R -> Prop := fun t => S t /\ t <= 0.
Definition nonneg (S : R -> Prop) : R -> Prop := fun t => S t /\ 0 <= t.

Lemma split_straddle y : V y -> mem val y 0 -> val (low y) <> Fin 0 -> val (up y) <> Fin 0 ->
  V (mk zero (up y)) /\ V (mk (low y) zero) /\
  (forall s, mem val (mk zero (up y)) s <-> (mem val y s /\ 0 <= s)) /\
  (forall s, mem val (mk (low y) zero) s <-> (mem val y s /\ s <= 0)).
Proof.
  intros (A & B & C) [M1 M2] E1 E2. unfold valid, mem. cbn [low up]. rewrite val_zero.
  destruct (val (low y)) as [| |l|], (val (up y)) as [| |u|]; simpl in *; try tauto;
  (split; [repeat split; try discriminate; auto|]);
  (split; [repeat split; try discriminate; auto|]); split; intros s; split; intros; repeat split; try tauto; try lra.
Qed.

Definition ge0 x : xle (Fin 0) (val (low x)) -> forall r, mem val x r -> 0 <= r.
Proof. intros A r [B _]. pose proof (xle_trans _ _ _ A B). auto. Qed.
Definition lt0 x : xlt (val (up x)) (Fin 0) -> forall r, mem val x r -> r < 0.
Proof. intros A r [_ B]. pose proof (xle_lt_trans _ _ _ B A). auto. Qed.

Lemma quot_sign_neg x y : (forall r, mem val x r -> r < 0) ->
  V y -> mem val y 0 -> val (low y) <> Fin 0 -> val (up y) <> Fin 0 ->
  (forall t, quots x (mk zero (up y)) t <-> nonpos (quots x y) t) /\
  (forall t, quots x (mk (low y) zero) t <-> nonneg (quots x y) t).
Proof.
  intros X Hy Z E1 E2. destruct (split_straddle y Hy Z E1 E2) as (_ & _ & M1 & M2).
  split; intros t; split.
  - intros (r & s & Hr & Hs & Hn & ->). apply M1 in Hs. destruct Hs as [Hs Hp].
    split; [exists r, s; auto|]. apply div_nonpos. specialize (X r Hr). nra.
  - intros [(r & s & Hr & Hs & Hn & ->) Ht]. exists r, s. split; auto. split; auto.
    apply M1. split; auto. destruct (Rle_or_lt 0 s); auto. exfalso.
    specialize (X r Hr). assert (0 < r / s); [|lra].
    replace (r / s) with ((-r) / (-s)) by (field; auto). apply Rdiv_lt_0_compat; lra.
  - intros (r & s & Hr & Hs & Hn & ->). apply M2 in Hs. destruct Hs as [Hs Hp].
    split; [exists r, s; auto|]. apply div_nonneg. specialize (X r Hr). nra.
  - intros [(r & s & Hr & Hs & Hn & ->) Ht]. exists r, s. split; auto. split; auto.
    apply M2. split; auto. destruct (Rle_or_lt s 0); auto. exfalso.
    specialize (X r Hr). assert (0 < (-r) / s) by (apply Rdiv_lt_0_compat; lra).
    unfold Rdiv in *. lra.
Qed.
Lemma quot_sign_pos x y : (forall r, mem val x r -> 0 <= r) ->
  V y -> mem val y 0 -> val (low y) <> Fin 0 -> val (up y) <> Fin 0 ->
  (forall t, quots x (mk (low y) zero) t <-> nonpos (quots x y) t) /\
  (forall t, quots x (mk zero (up y)) t <-> nonneg (quots x y) t).
Proof.
  intros X Hy Z E1 E2. destruct (split_straddle y Hy Z E1 E2) as (_ & _ & M1 & M2).
  destruct (mem_near_both y Hy Z E1 E2) as (d & Hd & Hn0).
  split; intros t; split.
  - intros (r & s & Hr & Hs & Hn & ->). apply M2 in Hs. destruct Hs as [Hs Hp].
    split; [exists r, s; auto|]. apply div_nonpos. specialize (X r Hr). nra.
  - intros [(r & s & Hr & Hs & Hn & ->) Ht]. specialize (X r Hr).
    destruct (Rle_or_lt s 0).
    + exists r, s. split; auto. split; auto. apply M2. auto.
    + destruct (Req_dec r 0) as [->|Hr0].
      * exists 0, (-d). split; auto. split; [apply M2; split; [apply Hn0|]; lra|]. split; [lra|]. field; lra.
      * exfalso. assert (0 < r / s) by (apply Rdiv_lt_0_compat; lra). lra.
  - intros (r & s & Hr & Hs & Hn & ->). apply M1 in Hs. destruct Hs as [Hs Hp].
    split; [exists r, s; auto|]. apply div_nonneg. specialize (X r Hr). nra.
  - intros [(r & s & Hr & Hs & Hn & ->) Ht]. specialize (X r Hr).
    destruct (Rle_or_lt 0 s).
    + exists r, s. split; auto. split; auto. apply M1. auto.
    + destruct (Req_dec r 0) as [->|Hr0].
      * exists 0, d. split; auto. split; [apply M1; split; [apply Hn0|]; lra|]. split; [lra|]. field; lra.
      * exfalso. assert (0 < r / (-s)) by (apply Rdiv_lt_0_compat; lra).
        replace (r / - s) with (- (r / s)) in H1 by (field; auto). lra.
Qed.

(** What division_part1 and division_part2 promise together. *)
Definition two_parts (x y : itv N) (z1 : itv N) (b : bool) : Prop :=
  if b then
    exists z2, runsP P ready (division_part2 P x y true) z2 /\
      tight z1 (nonpos (quots x y)) /\ tight z2 (nonneg (quots x y))
  else encloses val z1 (quots x y) /\
    (~ (xlt (val (low x)) (Fin 0) /\ val (up x) = Fin 0 /\ half_zero y) -> tight z1 (quots x y)).

Lemma nb_runs x y (m : M (itv N)) z : runsP P ready m z -> two_parts x y z false ->
  exists zb, runsP P ready (let! z := m in ret (z, false)) zb /\ two_parts x y (fst zb) (snd zb).
Proof.
  intros R1 R2. exists (z, false). split; auto. eapply runsP_bind; eauto. apply runsP_ret.
Qed.

Lemma parts_straddle x y : n_has_inf N = true -> V x -> V y -> mem val y 0 ->
  val (low y) <> Fin 0 -> val (up y) <> Fin 0 ->
  exists zb, runsP P ready (div_zero_part1 P x y) zb /\ two_parts x y (fst zb) (snd zb).
Proof.
  intros HI Hx Hy Z E1 E2. unfold div_zero_part1.
  destruct (mem_near_both y Hy Z E1 E2) as (d & Hd & Hn).
  assert (NE : nonempty (quots x y)).
  { destruct (valid_mem _ _ Hx) as (r & Hr). exists (r / d), r, d.
    split; [exact Hr|split; [apply Hn; lra|split; [lra|reflexivity]]]. }
  destruct (zeros_case H x Hx) as [(-> & Z1 & Z2)|(-> & G)].
  { exists (x, false). split; [apply runsP_ret|]. simpl.
    pose proof (zero_num_tight x y Hx Z1 Z2 NE) as K. split; auto. apply K. }
  destruct (cs_neg_inf _ _ CS HI) as (ni & Rn & En).
  destruct (cs_pos_inf _ _ CS HI) as (pi & Rp & Ep).
  pose proof (vlow_nn x Hx) as NX1. pose proof (vup_nn x Hx) as NX2.
  destruct (split_straddle y Hy Z E1 E2) as (VP & VN & _ & _).
  apply via_rnd. cbv zeta.
  destruct (is_neg_case H (up x)) as [[EX X2]|[EX X2]]; auto; rewrite EX.
  - destruct (quot_sign_neg x y (lt0 x X2) Hy Z E1 E2) as [Q1 Q2].
    destruct (dp_neg H x (mk zero (up y)) ni) as (b & Rb & T1); auto; try apply val_zero.
    destruct (dn_neg H x (mk (low y) zero) pi) as (c & Rc & T2); auto; try apply val_zero.
    exists (mk ni b, true). split.
    + eapply runsI_bind; [runs|]. apply runsI_ret.
    + simpl. exists (mk c pi). split; [|split].
      * unfold division_part2, div_zero_part2. simpl. eapply with_rnd_runs; eauto. rewrite EX. runs.
      * eapply tightest_ext; [exact Q1|auto].
      * eapply tightest_ext; [exact Q2|auto].
  - destruct (is_neg_case H (low x)) as [[EX1 X1]|[EX1 X1]]; auto; rewrite EX1.
    + exists (mk ni pi, false). split.
      * eapply runsI_bind; [runs|]. apply runsI_ret.
      * simpl. destruct (nonzero_quots_whole x y Hx Hy Z E1 E2 G). split.
        -- apply whole_encl; auto.
        -- intros _. apply whole_tight; auto.
    + destruct (quot_sign_pos x y (ge0 x X1) Hy Z E1 E2) as [Q1 Q2].
      destruct (dn_pos H x (mk (low y) zero) ni) as (b & Rb & T1); auto; try apply val_zero.
      destruct (dp_pos H x (mk zero (up y)) pi) as (c & Rc & T2); auto; try apply val_zero.
      exists (mk ni b, true). split.
      * eapply runsI_bind; [runs|]. apply runsI_ret.
      * simpl. exists (mk c pi). split; [|split].
        -- unfold division_part2, div_zero_part2. simpl. eapply with_rnd_runs; eauto. rewrite EX. runs.
        -- eapply tightest_ext; [exact Q1|auto].
        -- eapply tightest_ext; [exact Q2|auto].
Qed.

Lemma division_part1_ok x y : V x -> V y -> ~ (val (low y) = Fin 0 /\ val (up y) = Fin 0) ->
  (mem val y 0 -> n_has_inf N = true) ->
  exists zb, runsP P ready (division_part1 P x y) zb /\ two_parts x y (fst zb) (snd zb).
Proof.
  intros Hx Hy G HI. unfold division_part1. rewrite (test_valid2 H) by auto.
  destruct (zero_in P y) eqn:EZ.
  - apply (zero_in_iff H) in EZ; auto. specialize (HI EZ).
    destruct (is_zero_case H (low y)) as [[-> A]|[-> A]];
    destruct (is_zero_case H (up y)) as [[-> B]|[-> B]]; simpl negb; cbv iota; try tauto.
    + destruct (div_positive_ok H x y) as (z & R1 & R2 & R3); auto.
      eapply nb_runs; eauto. split; auto. intros K. apply R3. tauto.
    + destruct (div_negative_ok H x y) as (z & R1 & R2 & R3); auto.
      eapply nb_runs; eauto. split; auto. intros K. apply R3. tauto.
    + apply parts_straddle; auto.
  - apply (zero_in_false H) in EZ; auto.
    destruct (div_non_zero_ok H x y) as (z & R1 & R2); auto.
    eapply nb_runs; eauto. split; auto. apply R2.
Qed.
Lemma division_part2_false x y o : is_empty_out o -> forall s, division_part2 P x y false s = (o, s).
Proof. intros Ho s. simpl. eapply i_empty_run; eauto. Qed.
Lemma division_part1_zero x y z : V x -> V y -> val (low y) = Fin 0 -> val (up y) = Fin 0 ->
  is_empty_out (Ok z) -> forall s, division_part1 P x y s = (Ok (z, false), s).
Proof.
  intros Hx Hy E1 E2 Ho s. unfold division_part1. rewrite (test_valid2 H) by auto.
  assert (zero_in P y = true) as ->.
  { apply (zero_in_iff H); auto. split; rewrite ?E1, ?E2; simpl; lra. }
  destruct (is_zero_case H (low y)) as [[-> A]|[-> A]]; [|tauto].
  destruct (is_zero_case H (up y)) as [[-> B]|[-> B]]; [|tauto].
  simpl. unfold bind. erewrite i_empty_run; eauto. reflexivity.
Qed.

(** ** square *)
Lemma square_ok x : V x ->
  exists z, runsP P ready (square P x) z /\ tight z (image1 (fun r => r * r) (mem val x)).
Proof.
  intros Hx. unfold square. rewrite (test_valid H) by auto. apply via_rnd. cbv zeta.
  pose proof (vlow_nn x Hx) as NX1. pose proof (vup_nn x Hx) as NX2.
  set (S := image1 (fun r => r * r) (mem val x)).
  assert (SL : forall c, bound_of x c -> xmul (val c) (val c) <> NaN -> slim S (xmul (val c) (val c))).
  { intros c Hc. pose proof (bound_slim x c Hx Hc) as K. unfold S.
    destruct (val c) as [| |a|]; cbn [xmul] in *; intros Hn; try tauto.
    - intros M. destruct (K (- Rmax M 1)) as (r & Hr & Hl). exists (r * r). split; [exists r; auto|].
      pose proof (Rmax_l M 1). pose proof (Rmax_r M 1). nra.
    - exists a. auto.
    - intros M. destruct (K (Rmax M 1)) as (r & Hr & Hl). exists (r * r). split; [exists r; auto|].
      pose proof (Rmax_l M 1). pose proof (Rmax_r M 1). nra. }
  assert (NN : forall c, bound_of x c -> xmul (val c) (val c) <> NaN).
  { intros c Hc. assert (val c <> NaN) by (destruct Hc; subst; auto). destruct (val c); simpl; congruence. }
  assert (BL : bound_of x (low x)) by (left; auto). assert (BU : bound_of x (up x)) by (right; auto).
  destruct (is_neg_case H (up x)) as [[-> X2]|[-> X2]]; auto.
  - destruct (as_mul_down _ _ _ AS (up x) (up x)) as (a & Ra & Ea); auto.
    destruct (as_mul_up _ _ _ AS (low x) (low x)) as (b & Rb & Eb); auto.
    exists (mk a b). split; [runs|].
    eapply tightest_intro; [| | | |exact Ra|exact Rb].
    + intros t (r & [R1 R2] & ->). destruct (val (up x)); simpl in *; try tauto; nra.
    + apply slim_wlim; auto.
    + intros t (r & [R1 R2] & ->). destruct (val (low x)), (val (up x)); simpl in *; try tauto; nra.
    + apply slim_wlim; auto.
  - destruct (is_pos_case H (low x)) as [[-> X1]|[-> X1]]; auto.
    + destruct (as_mul_down _ _ _ AS (low x) (low x)) as (a & Ra & Ea); auto.
      destruct (as_mul_up _ _ _ AS (up x) (up x)) as (b & Rb & Eb); auto.
      exists (mk a b). split; [runs|].
      eapply tightest_intro; [| | | |exact Ra|exact Rb].
      * intros t (r & [R1 R2] & ->). destruct (val (low x)); simpl in *; try tauto; nra.
      * apply slim_wlim; auto.
      * intros t (r & [R1 R2] & ->). destruct (val (low x)), (val (up x)); simpl in *; try tauto; nra.
      * apply slim_wlim; auto.
    + destruct (ns_xopp _ _ NS (low x) (up x)) as (nx & Rn & En).
      assert (S0 : S 0). { exists 0. split; [split; auto|lra]. }
      assert (D0 : RD val (Fin 0) zero). { rewrite <- val_zero at 1. apply RD_val. rewrite val_zero; discriminate. }
      assert (LB : is_lb (Fin 0) S). { intros t (r & _ & ->). simpl. nra. }
      assert (W0 : wlim S (Fin 0)). { apply slim_wlim. exact S0. }
      destruct (x_lt N (n_load N (up x)) nx) eqn:EX.
      * assert (C : xlt (val (up x)) (xopp (val (low x)))) by (apply En; auto).
        destruct (as_mul_up _ _ _ AS (low x) (low x)) as (b & Rb & Eb); auto.
        exists (mk zero b). split.
        { eapply runsI_bind; [apply pure_runsI; eauto|]. rewrite EX.
          eapply runsI_bind; eauto. apply runsI_ret. }
        eapply tightest_intro; [exact LB|exact W0| | |exact D0|exact Rb].
        -- intros t (r & [R1 R2] & ->). destruct (val (low x)), (val (up x)); simpl in *; try tauto; nra.
        -- apply slim_wlim; auto.
      * assert (C : ~ xlt (val (up x)) (xopp (val (low x)))) by (rewrite <- En; congruence).
        destruct (as_mul_up _ _ _ AS (up x) (up x)) as (b & Rb & Eb); auto.
        exists (mk zero b). split.
        { eapply runsI_bind; [apply pure_runsI; eauto|]. rewrite EX.
          eapply runsI_bind; eauto. apply runsI_ret. }
        eapply tightest_intro; [exact LB|exact W0| | |exact D0|exact Rb].
        -- intros t (r & [R1 R2] & ->).
           destruct (val (low x)) as [| |l|], (val (up x)) as [| |u|]; simpl in *; try tauto.
           apply Rnot_lt_le in C. nra.
        -- apply slim_wlim; auto.
Qed.

(** ** sqrt *)
Definition roots (S : R -> Prop) : R -> Prop := fun t => exists r, S r /\ 0 <= r /\ t = sqrt r.

Context (HS : sqrtspec val ready (p_ar P)).

Lemma sqrt_ok x : V x -> xle (Fin 0) (val (up x)) ->
  exists z, runsP P ready (i_sqrt P x) z /\ tight z (roots (mem val x)).
Proof.
  intros Hx X2. unfold i_sqrt. rewrite (test_valid H) by auto. simpl.
  pose proof (vlow_nn x Hx) as NX1. pose proof (vup_nn x Hx) as NX2.
  destruct (is_neg_case H (up x)) as [[_ K]|[-> _]]; auto.
  { exfalso. apply (xlt_nle _ _ K X2). }
  apply via_rnd.
  destruct (as_sqrt_up _ _ _ HS (up x)) as (b & Rb & Eb).
  { destruct (val (up x)); simpl in *; xcase; try tauto; discriminate. }
  assert (UB : is_ub (xsqrt (val (up x))) (roots (mem val x))).
  { intros t (r & [R1 R2] & Hr & ->). destruct (val (up x)); simpl in *; xcase; try tauto.
    apply sqrt_le_1_alt; auto. }
  assert (WU : wlim (roots (mem val x)) (xsqrt (val (up x)))).
  { apply slim_wlim. pose proof (valid_slim_up _ x Hx) as K.
    destruct (val (up x)) as [| |u|] eqn:EU; simpl in *; xcase; try tauto.
    - exists u. auto.
    - intros M. destruct (K (Rmax M 1 * Rmax M 1)) as (r & Hr & Hl).
      pose proof (Rmax_l M 1). pose proof (Rmax_r M 1).
      exists (sqrt r). split; [exists r; repeat split; auto; [apply Hr|apply Hr|nra]|].
      apply Rle_trans with (Rmax M 1); auto. rewrite <- (sqrt_square (Rmax M 1)) by lra.
      apply sqrt_le_1_alt. auto. }
  destruct (is_pos_case H (low x)) as [[-> X1]|[-> X1]]; auto; simpl negb; cbv iota.
  - destruct (as_sqrt_down _ _ _ HS (low x)) as (a & Ra & Ea).
    { destruct (val (low x)); simpl in *; xcase; try tauto; try discriminate. lra. }
    exists (mk a b). split.
    { eapply runsI_bind; eauto. eapply runsI_bind; eauto. apply runsI_ret. }
    eapply tightest_intro; [| |exact UB|exact WU|exact Ra|exact Rb].
    + intros t (r & [R1 R2] & Hr & ->). destruct (val (low x)); simpl in *; xcase; try tauto.
      apply sqrt_le_1_alt; auto. lra.
    + apply slim_wlim. pose proof (valid_slim_low _ x Hx) as K.
      destruct (val (low x)) as [| |l|] eqn:EL; simpl in *; xcase; try tauto; try lra.
      * exists l. auto.
      * destruct Hx as (_ & Hx & _). congruence.
  - exists (mk zero b). split.
    { eapply runsI_bind; [apply runsI_ret|]. eapply runsI_bind; eauto. apply runsI_ret. }
    eapply tightest_intro with (e1 := Fin 0); [| |exact UB|exact WU| |exact Rb].
    + intros t (r & _ & _ & ->). simpl. apply sqrt_pos.
    + apply slim_wlim. exists 0. split; [split; auto|]. split; [lra|]. symmetry. apply sqrt_0.
    + simpl. rewrite <- val_zero at 1. apply RD_val. rewrite val_zero; discriminate.
Qed.
Lemma sqrt_neg x o : V x -> xlt (val (up x)) (Fin 0) -> is_empty_out o ->
  forall s, i_sqrt P x s = (o, s).
Proof.
  intros Hx X2 Ho s. unfold i_sqrt. rewrite (proj2 (is_neg_iff H (up x)) X2), orb_true_r.
  eapply i_empty_run; eauto.
Qed.
End Core.

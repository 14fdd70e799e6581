(** * Expressions with transcendental functions under the documented requirements *)

From Coq Require Import Reals ZArith Lra Lia Bool.
From Verif Require Import Outcome Base Checking Interval Utility Arith Arith2 FloatNum Spec ExtR Sem
  CoreArith Ops SpecUser CoreSound ExprSound Transc SpecTransc TransReal CoreTransc Properties10 ExprT.
From Verif Require CoreTranscSound.
Local Open Scope R_scope.

(** A power occurs in the expression. *)
Fixpoint t_has_pow {N} (e : texpr N) : Prop :=
  match e with
  | x_var _ | x_num _ | x_nn _ _ _ => False
  | x_1 o e1 => match o with U_pow _ => True | _ => False end \/ t_has_pow e1
  | x_2 _ e1 e2 | x_intersect e1 e2 => t_has_pow e1 \/ t_has_pow e2
  | x_in _ e1 _ | x_ni _ _ e1 | x_widen e1 _ | x_call _ e1 => t_has_pow e1
  end.

Lemma rel1_exactly o r t : rel1 o r t -> rel1_rnd exactly o r t.
Proof. intros K. destruct o; simpl in *; auto; try (exists t; split; auto; reflexivity); try (split; auto; reflexivity). Qed.
Lemma rel2_exactly o r s t : rel2 o r s t -> rel2_rnd exactly o r s t.
Proof. intros K. destruct o; simpl in *; auto; exists t; split; auto; reflexivity. Qed.

Section Sound.
Context {N : num} {val : T N -> ext} {P : policy N} {ready : rmode -> Prop}
        (H : user_policy exactly val P ready).
Notation CS := (up_ck _ _ _ _ H).
Context (K : consts N) (RR : transc N) (fuel : nat).

Lemma call_user f (x : itv N) r t : val (n_cst N (-1)) = Fin (-1) -> n_has_inf N = true ->
  half_bound (val := val) (K := K) -> pi_bound (val := val) (K := K) ->
  f <> Fsin -> f <> Fcos -> f <> Ftan -> doc_down val ready RR f -> doc_up val ready RR f ->
  mem val x r -> graph f r t -> exists z, runsP P ready (call f K RR fuel P x) z /\ mem val z t.
Proof.
  intros HM HI KH KP F1 F2 F3 D U M G.
  assert (Hx : valid val x) by (eapply mem_valid; eauto).
  apply (doc_down_ok _ F1 F2 F3) in D. apply (doc_up_ok _ F1 F2 F3) in U.
  assert (Q : exists z, runsP P ready (call f K RR fuel P x) z /\ CoreTransc.holds (val := val) f x z).
  { destruct M as [M1 M2]. destruct f; try congruence; cbn [call].
    - exact (CoreTranscSound.t_exp_ok H x D U Hx).
    - apply (CoreTranscSound.t_log_ok H x HI D U Hx). cbn [graph] in G. subst r.
      refine (xlt_le_trans (Fin 0) _ _ _ M2). apply exp_pos.
    - apply (CoreTranscSound.t_asin_ok H HM x KH D U Hx). destruct G as [_ <-]. pose proof (SIN_bound t).
      split; [refine (xle_trans _ _ _ _ M2)|refine (xle_trans _ _ _ M1 _)]; cbn [xle]; lra.
    - apply (CoreTranscSound.t_acos_ok H HM x KP D U Hx). destruct G as [_ <-]. pose proof (COS_bound t).
      split; [refine (xle_trans _ _ _ _ M2)|refine (xle_trans _ _ _ M1 _)]; cbn [xle]; lra.
    - exact (CoreTranscSound.t_atan_ok H x D U Hx).
    - exact (CoreTranscSound.t_sinh_ok H x D U Hx).
    - exact (CoreTranscSound.t_cosh_ok H x D U Hx).
    - exact (CoreTranscSound.t_tanh_ok H x D U Hx).
    - exact (CoreTranscSound.t_asinh_ok H x D U Hx).
    - apply (CoreTranscSound.t_acosh_ok H x D U Hx). refine (xle_trans _ (Fin r) _ _ M2). cbn [xle].
      destruct G as [T0 <-]. change (1 <= cosh t). rewrite <- cosh_0. apply cosh_le; lra.
    - cbn [graph] in G. rewrite tanh_graph in G. subst r. pose proof (tanh_bound t) as B.
      apply (CoreTranscSound.t_atanh_ok H HM x HI D U Hx).
      + refine (xlt_le_trans (Fin (-1)) _ _ _ M2). cbn [xlt]. lra.
      + refine (xle_lt_trans _ _ (Fin 1) M1 _). cbn [xlt]. lra. }
  destruct Q as (z & Rz & Hz). exists z. split; auto. exact (Hz r t M G).
Qed.

Theorem teval_sound (ok : tfun -> Prop) eo (env : nat -> itv N) (rho : nat -> R) :
  (forall f x r t, ok f -> mem val x r -> graph f r t -> exists z, runsP P ready (call f K RR fuel P x) z /\ mem val z t) ->
  n_has_inf N = true -> (forall n, mem val (env n) (rho n)) ->
  forall (e : texpr N) t, tproper val ok e -> (t_has_pow e -> keeps_signs val P ready) -> tmeans val e rho t ->
  exists z, runsP P ready (teval P K RR fuel eo env e) z /\ mem val z t.
Proof.
  intros Hf HI Henv. pose proof exactly_rounding as HR.
  induction e as [n|v|o e IH|o e1 IH1 e2 IH2|o e IH v|o v e IH|o v w|e1 IH1 e2 IH2|e IH v|f e IH];
    intros t Wf Hp Ht; cbn [teval]; simpl in Wf, Hp, Ht.
  - subst t. exists (env n). split; [apply runsP_ret|apply Henv].
  - exists (mk v v). split; [|unfold mem; simpl; rewrite Ht; simpl; lra].
    unfold ctor_num. eapply runsP_bind; [apply pure_runsP, (cs_nan _ _ CS); congruence|]. apply runsP_ret.
  - destruct Wf as (Wo & We), Ht as (r & Hr & Hrel). destruct (IH r) as (x & Rx & Mx); auto.
    destruct (run1_sound HR H o x r t) as (z & Rz & Mz); auto using rel1_exactly.
    exists z. split; [eapply runsP_bind; eauto|exact Mz].
  - destruct Wf as (W1 & W2), Ht as (r & s & Hr & Hs & Hrel).
    destruct (IH1 r) as (x & Rx & Mx); auto. destruct (IH2 s) as (y & Ry & My); auto.
    destruct (run2_sound HR H o x y r s t) as (z & Rz & Mz); auto using rel2_exactly.
    exists z. split; [eapply runsP_bind; [apply runsP_args2; eauto|exact Rz]|exact Mz].
  - destruct Wf as (We & Wv), Ht as (r & s & Hr & Hs & Hrel). destruct (IH r) as (x & Rx & Mx); auto.
    destruct (run_in_sound HR H o x v r s t) as (z & Rz & Mz); auto using rel2_exactly.
    exists z. split; [eapply runsP_bind; eauto|exact Mz].
  - destruct Wf as (We & Wv), Ht as (r & s & Hr & Hs & Hrel). destruct (IH s) as (x & Rx & Mx); auto.
    destruct (run_ni_sound HR H o v x r s t) as (z & Rz & Mz); auto using rel2_exactly.
    exists z. split; [eapply runsP_bind; eauto|exact Mz].
  - destruct Ht as (r & s & Hr & Hs & Hrel). eapply (run_nn_sound HR H); eauto using rel2_exactly.
  - destruct Wf as (W1 & W2), Ht as (H1 & H2).
    destruct (IH1 t) as (x & Rx & Mx); auto. destruct (IH2 t) as (y & Ry & My); auto.
    destruct (use_den (val := val) (P := P) (ready := ready) (intersect P x y) (fun r => mem val x r /\ mem val y r) t) as (z & Rz & Mz); auto.
    { apply (intersect_ok H); eauto; eapply mem_valid; eauto. }
    exists z. split; [eapply runsP_bind; [apply runsP_args2; eauto|exact Rz]|exact Mz].
  - destruct Wf as (We & s' & Es & Ps), Ht as (r & s & Hr & Hs & Hrel).
    assert (s' = s) by congruence. subst s'.
    destruct (IH r) as (x & Rx & Mx); auto.
    destruct (use (rnd := exactly) (val := val) (P := P) (ready := ready) (widen P x v) (fun t => exists r, mem val x r /\ Rabs (t - r) <= s) t t) as (z & Rz & Mz); auto.
    { apply (widen_ok HR H); auto. eapply mem_valid; eauto. }
    { exists r. auto. }
    exists z. split; [eapply runsP_bind; eauto|exact Mz].
  - destruct Wf as (Wo & We), Ht as (r & Hr & Hrel). destruct (IH r) as (x & Rx & Mx); auto.
    destruct (Hf f x r t Wo Mx Hrel) as (z & Rz & Mz). exists z. split; [eapply runsP_bind; eauto|exact Mz].
Qed.
End Sound.

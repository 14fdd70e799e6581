(** * Expressions under the documented requirements *)

From Coq Require Import Reals ZArith Lra Lia Psatz Bool List.
From Verif Require Import Outcome Base Checking Interval Utility Arith Arith2 FloatNum Spec ExtR Sem
  CoreArith CoreDiv CoreMore CoreFun CorePow CoreUtil Ops SpecUser CoreSound.
Local Open Scope R_scope.

Section Sound.
Context {N : num} {rnd : ext -> ext} {val : T N -> ext} {P : policy N} {ready : rmode -> Prop}
        (HR : rounding rnd) (H : user_policy rnd val P ready).
Notation V := (valid val).
Notation CS := (up_ck _ _ _ _ H).

Lemma sound_mem z S r t : sound (rnd := rnd) (val := val) z S -> S r -> rnd (Fin r) = Fin t -> mem val z t.
Proof. intros K Hr E. destruct (K r Hr) as [A B]. rewrite E in *. split; auto. Qed.
Lemma use (m : M (itv N)) S r t : (exists z, runsP P ready m z /\ sound (rnd := rnd) (val := val) z S) ->
  S r -> rnd (Fin r) = Fin t -> exists z, runsP P ready m z /\ mem val z t.
Proof. intros (z & R & K) Hr E. exists z. split; auto. eapply sound_mem; eauto. Qed.
Lemma use_encl (m : M (itv N)) S t : (exists z, runsP P ready m z /\ encloses val z S) ->
  S t -> exists z, runsP P ready m z /\ mem val z t.
Proof. intros (z & R & K) Ht. exists z. split; auto. Qed.
Lemma use_den (m : M (itv N)) S t : (exists z, runsP P ready m z /\ denotes val z S) ->
  S t -> exists z, runsP P ready m z /\ mem val z t.
Proof. intros (z & R & K) Ht. exists z. split; auto. apply K; auto. Qed.
Lemma not_zero y s : mem val y s -> s <> 0 -> ~ (val (low y) = Fin 0 /\ val (up y) = Fin 0).
Proof. intros [A B] Hs [E1 E2]. rewrite E1 in A. rewrite E2 in B. simpl in *. lra. Qed.

Lemma run1_sound o x r t :
  (match o with U_inverse => True | U_pow n => (n < 0)%Z | _ => False end -> n_has_inf N = true) ->
  (match o with U_pow _ => True | _ => False end -> keeps_signs val P ready) ->
  match o with U_pow n => (int_min < n <= int_max)%Z | _ => True end ->
  mem val x r -> rel1_rnd rnd o r t -> exists z, runsP P ready (run1 P o x) z /\ mem val z t.
Proof.
  intros HI HK Wo Mx Hrel. pose proof (mem_valid _ _ _ Mx) as Vx.
  destruct o as [| | | | |n]; cbn [run1 rel1_rnd rel1] in *.
  - destruct (op_neg_ok H x Vx) as (z & Rz & Dz & _). exists z. split; auto. apply Dz. exists r. auto.
  - eapply use_den; [apply (abs_ok H); auto|]. exists r. auto.
  - destruct Hrel as (q & (R0 & ->) & Hq). eapply use; [apply (sqrt_ok HR H); auto| |exact Hq].
    + destruct Mx as [_ B]. eapply xle_trans; [|exact B]. simpl. auto.
    + exists r. auto.
  - destruct Hrel as (q & -> & Hq). eapply use; [apply (square_ok HR H); auto| |exact Hq]. exists r. auto.
  - destruct Hrel as (q & (R0 & ->) & Hq). eapply use; [apply (inverse_ok HR H); auto| |exact Hq].
    + eapply not_zero; eauto.
    + exists 1, r. split; [reflexivity|auto].
  - destruct Hrel as (EX & Hrel). specialize (HK I).
    destruct (Z.ltb_spec 0 n) as [L|L].
    + destruct (pow_positive_ok H EX HK x n L Vx) as (z & Rz & Ez & _).
      exists z. split; auto. apply Ez. exists r. auto.
    + destruct (Z.ltb_spec n 0) as [L'|L'].
      * destruct Hrel as (R0 & ->).
        destruct (pow_negative_ok HR H EX HK x n) as (z & Rz & Ez); auto; [lia|eapply not_zero; eauto|].
        exists z. split; auto. apply Ez. exists r. auto.
      * assert (n = 0%Z) as -> by lia. destruct Hrel as (R0 & ->).
        destruct (pow_zero_ok H x Vx) as (z & Rz & E1 & E2); [eapply not_zero; eauto|].
        exists z. split; auto. unfold mem. rewrite E1, E2. simpl. lra.
Qed.

Lemma run2_sound o x y r s t : (o = B_div -> n_has_inf N = true) ->
  mem val x r -> mem val y s -> rel2_rnd rnd o r s t ->
  exists z, runsP P ready (run2 P o x y) z /\ mem val z t.
Proof.
  intros HI Mx My Hrel. pose proof (mem_valid _ _ _ Mx) as Vx. pose proof (mem_valid _ _ _ My) as Vy.
  destruct o; cbn [run2 rel2_rnd rel2] in *.
  - destruct Hrel as (q & -> & Hq). eapply use; [apply (op_add_ok HR H); auto| |exact Hq]. exists r, s. auto.
  - destruct Hrel as (q & -> & Hq). eapply use; [apply (op_sub_ok HR H); auto| |exact Hq]. exists r, s. auto.
  - destruct Hrel as (q & -> & Hq). eapply use; [apply (op_mul_ok HR H); auto| |exact Hq]. exists r, s. auto.
  - destruct Hrel as (q & (S0 & ->) & Hq).
    eapply use; [apply (op_div_ok HR H); auto; eapply not_zero; eauto| |exact Hq]. exists r, s. auto.
  - eapply use_den; [apply (u_max_ok H); auto|]. exists r, s. auto.
  - eapply use_den; [apply (u_min_ok H); auto|]. exists r, s. auto.
  - eapply use_encl; [apply (hull_ok H); auto|]. exists r, s. auto.
Qed.
Lemma run_in_sound o x v r s t : val v = Fin s ->
  mem val x r -> rel2_rnd rnd o r s t -> exists z, runsP P ready (run_in P o x v) z /\ mem val z t.
Proof.
  intros E Mx Hrel. pose proof (mem_valid _ _ _ Mx) as Vx.
  destruct o; cbn [run_in rel2_rnd rel2] in *.
  - destruct Hrel as (q & -> & Hq). eapply use; [eapply (op_add_in_ok HR H); eauto| |exact Hq]. exists r. auto.
  - destruct Hrel as (q & -> & Hq). eapply use; [eapply (op_sub_in_ok HR H); eauto| |exact Hq]. exists r. auto.
  - destruct Hrel as (q & -> & Hq). eapply use; [eapply (op_mul_in_ok HR H); eauto| |exact Hq]. exists r. auto.
  - destruct Hrel as (q & (S0 & ->) & Hq).
    eapply use; [eapply (op_div_in_ok HR H); eauto| |exact Hq]. exists r. auto.
  - eapply use_den; [eapply (u_max_in_ok H); eauto|]. exists r. auto.
  - eapply use_den; [eapply (u_min_in_ok H); eauto|]. exists r. auto.
  - eapply use_encl; [eapply (hull_in_ok H); eauto|]. exists r, s. split; auto. split; auto.
    apply (mem_point v s E); auto.
Qed.
Lemma run_ni_sound o v x r s t : (o = B_div -> n_has_inf N = true) -> val v = Fin r ->
  mem val x s -> rel2_rnd rnd o r s t -> exists z, runsP P ready (run_ni P o v x) z /\ mem val z t.
Proof.
  intros HI E Mx Hrel. pose proof (mem_valid _ _ _ Mx) as Vx.
  destruct o; cbn [run_ni rel2_rnd rel2] in *.
  - destruct Hrel as (q & -> & Hq). eapply use; [eapply (op_add_ni_ok HR H); eauto| |exact Hq]. exists s. auto.
  - destruct Hrel as (q & -> & Hq). eapply use; [eapply (op_sub_ni_ok HR H); eauto| |exact Hq]. exists s. auto.
  - destruct Hrel as (q & -> & Hq). eapply use; [eapply (op_mul_ni_ok HR H); eauto| |exact Hq]. exists s. auto.
  - destruct Hrel as (q & (S0 & ->) & Hq).
    eapply use; [eapply (op_div_ni_ok HR H); eauto; eapply not_zero; eauto| |exact Hq].
    exists r, s. split; [reflexivity|auto].
  - eapply use_den; [eapply (u_max_ni_ok H); eauto|]. exists s. auto.
  - eapply use_den; [eapply (u_min_ni_ok H); eauto|]. exists s. auto.
  - eapply use_encl; [eapply (hull_ni_ok H); eauto|]. exists r, s. split; [apply (mem_point v r E); auto|auto].
Qed.
Lemma run_nn_sound o v w r s t : val v = Fin r -> val w = Fin s -> rel2_rnd rnd (op_of o) r s t ->
  exists z, runsP P ready (run_nn P o v w) z /\ mem val z t.
Proof.
  intros Ev Ew Hrel. destruct o; cbn [run_nn op_of rel2_rnd rel2] in *.
  - destruct Hrel as (q & -> & Hq). eapply use; [eapply (n_add_ok HR H); eauto|reflexivity|exact Hq].
  - destruct Hrel as (q & -> & Hq). eapply use; [eapply (n_sub_ok HR H); eauto|reflexivity|exact Hq].
  - destruct Hrel as (q & -> & Hq). eapply use; [eapply (n_mul_ok HR H); eauto|reflexivity|exact Hq].
  - destruct Hrel as (q & (S0 & ->) & Hq). eapply use; [eapply (n_div_ok HR H); eauto|reflexivity|exact Hq].
  - eapply use_encl; [eapply (hull_nn_ok H); eauto|]. exact Hrel.
Qed.

Theorem eval_sound eo (env : nat -> itv N) (rho : nat -> R) : (forall n, mem val (env n) (rho n)) ->
  forall (e : expr N) t, proper val e ->
  (divides e -> n_has_inf N = true) -> (has_pow e -> keeps_signs val P ready) ->
  computes rnd val e rho t ->
  exists z, runsP P ready (eval P eo env e) z /\ mem val z t.
Proof.
  intros Henv. induction e as [n|v|o e IH|o e1 IH1 e2 IH2|o e IH v|o v e IH|o v w|e1 IH1 e2 IH2|e IH v];
    intros t Wf Hd Hp Ht; cbn [eval]; simpl in Wf, Hd, Hp, Ht.
  - subst t. exists (env n). split; [apply runsP_ret|apply Henv].
  - exists (mk v v). split; [|unfold mem; simpl; rewrite Ht; simpl; lra].
    unfold ctor_num. eapply runsP_bind; [apply pure_runsP, (cs_nan _ _ CS); congruence|]. apply runsP_ret.
  - destruct Wf as (Wo & We), Ht as (r & Hr & Hrel). destruct (IH r) as (x & Rx & Mx); auto.
    destruct (run1_sound o x r t) as (z & Rz & Mz); auto.
    exists z. split; [eapply runsP_bind; eauto|exact Mz].
  - destruct Wf as (W1 & W2), Ht as (r & s & Hr & Hs & Hrel).
    destruct (IH1 r) as (x & Rx & Mx); auto. destruct (IH2 s) as (y & Ry & My); auto.
    destruct (run2_sound o x y r s t) as (z & Rz & Mz); auto.
    exists z. split; [eapply runsP_bind; [apply runsP_args2; eauto|exact Rz]|exact Mz].
  - destruct Wf as (We & Wv), Ht as (r & s & Hr & Hs & Hrel). destruct (IH r) as (x & Rx & Mx); auto.
    destruct (run_in_sound o x v r s t) as (z & Rz & Mz); auto.
    exists z. split; [eapply runsP_bind; eauto|exact Mz].
  - destruct Wf as (We & Wv), Ht as (r & s & Hr & Hs & Hrel). destruct (IH s) as (x & Rx & Mx); auto.
    destruct (run_ni_sound o v x r s t) as (z & Rz & Mz); auto.
    exists z. split; [eapply runsP_bind; eauto|exact Mz].
  - destruct Ht as (r & s & Hr & Hs & Hrel). eapply run_nn_sound; eauto.
  - destruct Wf as (W1 & W2), Ht as (H1 & H2).
    destruct (IH1 t) as (x & Rx & Mx); auto. destruct (IH2 t) as (y & Ry & My); auto.
    destruct (use_den (intersect P x y) (fun r => mem val x r /\ mem val y r) t) as (z & Rz & Mz); auto.
    { apply (intersect_ok H); eauto; eapply mem_valid; eauto. }
    exists z. split; [eapply runsP_bind; [apply runsP_args2; eauto|exact Rz]|exact Mz].
  - destruct Wf as (We & s' & Es & Ps), Ht as (r & s & q & Hr & Hs & Hrel & Hq).
    assert (s' = s) by congruence. subst s'.
    destruct (IH r) as (x & Rx & Mx); auto.
    destruct (use (widen P x v) (fun t => exists r, mem val x r /\ Rabs (t - r) <= s) q t) as (z & Rz & Mz); auto.
    { apply (widen_ok HR H); auto. eapply mem_valid; eauto. }
    { exists r. auto. }
    exists z. split; [eapply runsP_bind; eauto|exact Mz].
Qed.
End Sound.

(** With exact bounds, [computes] is [means]. *)
Lemma exactly_rounding : rounding exactly.
Proof. split; auto. Qed.
Lemma computes_means {N} (val : T N -> ext) (e : expr N) rho : forall t,
  means val e rho t -> computes exactly val e rho t.
Proof.
  assert (R1 : forall o r t, rel1 o r t -> rel1_rnd exactly o r t).
  { intros o r t K. destruct o; simpl in *; auto; try (exists t; split; auto; reflexivity); try (split; auto; reflexivity). }
  assert (R2 : forall o r s t, rel2 o r s t -> rel2_rnd exactly o r s t).
  { intros o r s t K. destruct o; simpl in *; auto; exists t; split; auto; reflexivity. }
  induction e; intros t Ht; simpl in *; auto.
  - destruct Ht as (r & Hr & K). eauto.
  - destruct Ht as (r & s & Hr & Hs & K). exists r, s. auto.
  - destruct Ht as (r & s & Hr & Hs & K). exists r, s. auto.
  - destruct Ht as (r & s & Hr & Hs & K). exists r, s. auto.
  - destruct Ht as (r & s & Hr & Hs & K). exists r, s. auto.
  - destruct Ht as [A B]. auto.
  - destruct Ht as (r & s & Hr & Hs & K). exists r, s, t. repeat split; auto.
Qed.

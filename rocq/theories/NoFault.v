(** * Failures come from the base type and the policies: the proofs *)

From Coq Require Import ZArith Bool Lia.
From Verif Require Import Outcome Base Checking Interval Utility Arith Arith2 Extras Compare Transc Mixed
  SpecFault.

Section Rules.
Context (F : fault).

Lemma nv_ret {A} (a : A) : never F (ret a).
Proof. intros s. destruct F; discriminate. Qed.
Lemma nv_nofuel {A} : never F (@fail A NoFuel).
Proof. intros s. destruct F; discriminate. Qed.
Lemma nv_fail {A} (o : outcome A) : ~ suffers F o -> never F (fail o).
Proof. intros H s. exact H. Qed.
Lemma nv_under {A} (f : rmode -> outcome A) : (forall m, ~ suffers F (f m)) -> never F (under_mode f).
Proof. intros H s. apply H. Qed.
Lemma nv_bind {A B} (m : M A) (k : A -> M B) : never F m -> (forall a, never F (k a)) -> never F (bind m k).
Proof.
  intros Hm Hk s. unfold bind. specialize (Hm s). destruct (m s) as [o s1]. cbn [fst] in Hm.
  destruct o; [apply Hk|..]; destruct F; cbn in *; congruence.
Qed.
Lemma nv_args2 {A B} o (m1 : M A) (m2 : M B) : never F m1 -> never F m2 -> never F (args2 o m1 m2).
Proof.
  intros H1 H2. destruct o; cbn [args2]; apply nv_bind; auto; intros a; apply nv_bind; auto; intros b;
    apply nv_ret.
Qed.
Lemma nv_mk_args {N} o (m1 m2 : M (T N)) : never F m1 -> never F m2 -> never F (mk_args o m1 m2).
Proof. intros H1 H2. apply nv_bind. apply nv_args2; auto. intros a. apply nv_ret. Qed.
Lemma nv_if {A} (b : bool) (m1 m2 : M A) : never F m1 -> never F m2 -> never F (if b then m1 else m2).
Proof. destruct b; auto. Qed.
Lemma nv_throw {A} e : F <> Thrown e -> never F (@throw A e).
Proof. intros H s. destruct F; cbn; congruence. Qed.

Lemma nv_with_rnd {N A} (P : policy N) (m : M A) : rounding_never F P -> never F m -> never F (with_rnd P m).
Proof.
  intros H Hm. unfold with_rnd. destruct (p_prot P); auto.
  apply nv_bind; [apply (rn_get F P H)|intros m0]. apply nv_bind; [apply (rn_init F P H)|intros _].
  intros s. specialize (Hm s). destruct (m s) as [o s1]. cbn [fst] in Hm.
  destruct o; try (destruct F; cbn in *; congruence).
  - apply (nv_bind (rc_set (p_ctl P) m0) (fun _ => ret a)); [apply (rn_set F P H)|intros _; apply nv_ret].
  - apply (nv_bind (rc_set (p_ctl P) m0) (fun _ => throw e)); [apply (rn_set F P H)|intros _; apply nv_throw].
    intros E. subst F. cbn in Hm. congruence.
Qed.

(** Members. *)
Definition nevero {N A} (m : MO (N := N) A) : Prop := forall o s, ~ suffers F (fst (fst (m o s))).
Lemma nvo_bind {N A B} (m : MO (N := N) A) (k : A -> MO B) :
  nevero m -> (forall a, nevero (k a)) -> nevero (obind m k).
Proof.
  intros Hm Hk o s. unfold obind. specialize (Hm o s). destruct (m o s) as [[r o1] s1]. cbn [fst] in Hm.
  destruct r; [apply Hk|..]; destruct F; cbn in *; congruence.
Qed.
Lemma nvo_comp {N A} (f : itv N -> M A) : (forall o, never F (f o)) -> nevero (ocomp f).
Proof. intros H o s. unfold ocomp. specialize (H o s). destruct (f o s). exact H. Qed.
Lemma nvo_low {N} (g : itv N -> T N) : nevero (fun o => store_low (g o) o).
Proof. intros o s. destruct F; discriminate. Qed.
Lemma nvo_up {N} (g : itv N -> T N) : nevero (fun o => store_up (g o) o).
Proof. intros o s. destruct F; discriminate. Qed.
Lemma nvo_lowc {N} (v : T N) : nevero (store_low v).
Proof. apply (nvo_low (fun _ => v)). Qed.
Lemma nvo_upc {N} (v : T N) : nevero (store_up v).
Proof. apply (nvo_up (fun _ => v)). Qed.
Lemma nvo_if {N A} (b : bool) (m1 m2 : MO (N := N) A) : nevero m1 -> nevero m2 -> nevero (if b then m1 else m2).
Proof. destruct b; auto. Qed.
Lemma nv_local {N} (m : MO (N := N) unit) x : nevero m -> never F (local m x).
Proof.
  intros H s. unfold local. specialize (H x s). destruct (m x s) as [[r o1] s1]. cbn [fst] in H.
  destruct r; try (destruct F; cbn in *; congruence).
Qed.
End Rules.

Section Functions.
Context (F : fault) {N : num} (K : consts N) (R : transc N).
Hypothesis HN : base_never F N.
Hypothesis HK : consts_never F K.
Hypothesis HR : transc_never F R.

Definition clean (P : policy N) : Prop := rounding_never F P /\ checking_never F P.
Lemma clean_unprotect P : clean P -> clean (unprotect P).
Proof. intros [H1 H2]. split; [destruct H1|destruct H2]; constructor; auto. Qed.

Lemma nv_neg a : never F (@neg N a).
Proof.
  unfold neg, e_opp, e_store. apply nv_bind.
  - apply nv_under. intros _. apply (bn_opp F N HN).
  - intros x. apply nv_under. intros m. apply (bn_store F N HN).
Qed.
Lemma nv_eopp a : never F (@e_opp N a).
Proof. apply nv_under. intros _. apply (bn_opp F N HN). Qed.
Lemma nv_int z : never F (under_mode (fun m => n_of_int N m z)).
Proof. apply nv_under. intros m. apply (bn_int F N HN). Qed.
Lemma nv_src (s : source N) v : source_never F s -> never F (under_mode (fun m => s_toT s m v)).
Proof. intros H. apply nv_under. intros m. apply H. Qed.

Ltac prim :=
  match goal with
  | H : clean ?P |- _ => first
    [ apply (rn_add_d F P (proj1 H)) | apply (rn_add_u F P (proj1 H)) | apply (rn_sub_d F P (proj1 H))
    | apply (rn_sub_u F P (proj1 H)) | apply (rn_mul_d F P (proj1 H)) | apply (rn_mul_u F P (proj1 H))
    | apply (rn_div_d F P (proj1 H)) | apply (rn_div_u F P (proj1 H)) | apply (rn_median F P (proj1 H))
    | apply (rn_sqrt_d F P (proj1 H)) | apply (rn_sqrt_u F P (proj1 H)) | apply (rn_int_d F P (proj1 H))
    | apply (rn_conv_d F P (proj1 H)); assumption | apply (rn_conv_u F P (proj1 H)); assumption
    | apply (cn_pos_inf F P (proj2 H)) | apply (cn_neg_inf F P (proj2 H)) | apply (cn_nan F P (proj2 H))
    | apply (cn_is_nan F P (proj2 H)) | apply (cn_empty_l F P (proj2 H)) | apply (cn_empty_u F P (proj2 H)) ]
  end.
Ltac step :=
  first
  [ assumption | apply nv_ret | apply nv_nofuel | apply nv_neg | apply nv_eopp | apply nv_int
  | apply nv_src; assumption
  | prim
  | apply HR
  | apply HK
  | match goal with H : clean ?P |- never F (with_rnd ?P _) => apply (nv_with_rnd F P _ (proj1 H)) end
  | apply nv_mk_args | apply nv_args2 | apply nv_if
  | apply nv_bind; [|intros ?] ].
Ltac nv := repeat (first [step | progress (cbv beta zeta) ]).

Section WithP.
Context (P : policy N) (HP : clean P).
Notation I := (itv N).

Lemma f_i_empty : never F (i_empty P). Proof. unfold i_empty. nv. Qed.
Lemma f_i_whole : never F (i_whole P). Proof. unfold i_whole. nv. Qed.
Lemma f_set_empty : never F (c_set_empty P). Proof. unfold c_set_empty. nv. Qed.
Hint Resolve f_i_empty f_i_whole f_set_empty : nv.
Lemma f_ti_ni x y : never F (test_input_ni P x y). Proof. unfold test_input_ni. nv. Qed.
Lemma f_ti_in x y : never F (test_input_in P x y). Proof. unfold test_input_in. nv. Qed.
Lemma f_ti_n x : never F (test_input_n P x). Proof. unfold test_input_n. nv. Qed.
Lemma f_ti_nn x y : never F (test_input_nn P x y). Proof. unfold test_input_nn. nv. Qed.
Lemma f_nan_src s v : source_never F s -> never F (is_nan_src P s v).
Proof. intros H. unfold is_nan_src. nv. Qed.
End WithP.

Ltac step1 := first
  [ apply f_i_empty; assumption | apply f_i_whole; assumption | apply f_set_empty; assumption
  | apply f_ti_ni; assumption | apply f_ti_in; assumption | apply f_ti_n; assumption
  | apply f_ti_nn; assumption | apply f_nan_src; assumption | step ].
Ltac nv1 := repeat (first [step1 | progress (cbv beta zeta) ]).

Section WithP1.
Context (P : policy N) (HP : clean P).

Lemma f_ctor_num v : never F (ctor_num P v). Proof. unfold ctor_num. nv1. Qed.
Lemma f_ctor_src s v : source_never F s -> never F (ctor_src P s v).
Proof. intros H. unfold ctor_src. nv1. Qed.
Lemma f_ctor_src12 s1 s2 le v w : source_never F s1 -> source_never F s2 -> never F (ctor_src12 P s1 s2 le v w).
Proof. intros H1 H2. unfold ctor_src12. nv1. Qed.
Lemma f_ctor_num2 l u : never F (ctor_num2 P l u). Proof. unfold ctor_num2. nv1. Qed.
Lemma f_ctor_policy P1 r : never F (ctor_policy P P1 r). Proof. unfold ctor_policy. nv1. Qed.
Lemma f_ctor_itv N1 s (P1 : policy N1) toU r : source_never F s -> never F (ctor_itv P s P1 toU r).
Proof. intros H. unfold ctor_itv. nv1. Qed.
Lemma f_ctor_back r : never F (ctor_back P r).
Proof. unfold ctor_back, ctor_copy. destruct (p_prot P); try apply nv_ret. apply f_ctor_policy. Qed.
Lemma f_i_hull a b : never F (i_hull P a b). Proof. unfold i_hull. nv1. Qed.

Lemma f_lower x : never F (checked_lower P x). Proof. unfold checked_lower. nv1. Qed.
Lemma f_upper x : never F (checked_upper P x). Proof. unfold checked_upper. nv1. Qed.
Lemma f_width x : never F (width P x). Proof. unfold width. nv1. Qed.
Lemma f_median x : never F (median P x). Proof. unfold median. nv1. Qed.
Lemma f_widen x v : never F (widen P x v). Proof. unfold widen. nv1. Qed.
Lemma f_in v x : never F (u_in P v x). Proof. unfold u_in. nv1. Qed.
Lemma f_intersect x y : never F (intersect P x y). Proof. unfold intersect. nv1. Qed.
Lemma f_hull x y : never F (hull P x y). Proof. unfold hull. nv1. Qed.
Lemma f_hull_in x y : never F (hull_in P x y). Proof. unfold hull_in. nv1. Qed.
Lemma f_hull_ni x y : never F (hull_ni P x y). Proof. unfold hull_ni. nv1. Qed.
Lemma f_bisect x : never F (bisect P x).
Proof. unfold bisect. apply nv_if; [nv1|]. apply nv_bind; [apply f_median|intros m; nv1]. Qed.
Lemma f_norm x : never F (norm P x). Proof. unfold norm. nv1. Qed.
Lemma f_op_neg x : never F (op_neg P x). Proof. unfold op_neg. nv1. Qed.
Lemma f_abs x : never F (u_abs P x). Proof. unfold u_abs. repeat (first [apply f_op_neg|step1]). Qed.
Lemma f_max x y : never F (u_max P x y). Proof. unfold u_max. nv1. Qed.
Lemma f_max_in x y : never F (u_max_in P x y). Proof. unfold u_max_in. nv1. Qed.
Lemma f_max_ni x y : never F (u_max_ni P x y). Proof. unfold u_max_ni. nv1. Qed.
Lemma f_min x y : never F (u_min P x y). Proof. unfold u_min. nv1. Qed.
Lemma f_min_in x y : never F (u_min_in P x y). Proof. unfold u_min_in. nv1. Qed.
Lemma f_min_ni x y : never F (u_min_ni P x y). Proof. unfold u_min_ni. nv1. Qed.

Lemma f_add x y : never F (op_add P x y). Proof. unfold op_add. nv1. Qed.
Lemma f_add_ni x y : never F (op_add_ni P x y). Proof. unfold op_add_ni. nv1. Qed.
Lemma f_sub x y : never F (op_sub P x y). Proof. unfold op_sub. nv1. Qed.
Lemma f_sub_ni x y : never F (op_sub_ni P x y). Proof. unfold op_sub_ni. nv1. Qed.
Lemma f_sub_in x y : never F (op_sub_in P x y). Proof. unfold op_sub_in. nv1. Qed.
Lemma f_mul x y : never F (op_mul P x y). Proof. unfold op_mul. nv1. Qed.
Lemma f_mul_ni x y : never F (op_mul_ni P x y). Proof. unfold op_mul_ni. nv1. Qed.
Lemma f_div x y : never F (op_div P x y).
Proof.
  unfold op_div, div_zero, div_negative, div_positive, div_non_zero. nv1.
Qed.
Lemma f_div_ni x y : never F (op_div_ni P x y).
Proof. unfold op_div_ni, div_zero_n, div_negative_n, div_positive_n, div_non_zero_n. nv1. Qed.
Lemma f_div_in x y : never F (op_div_in P x y). Proof. unfold op_div_in. nv1. Qed.
Lemma f_part1 x y : never F (division_part1 P x y).
Proof. unfold division_part1, div_zero_part1, div_negative, div_positive, div_non_zero. nv1. Qed.
Lemma f_part2 x y b : never F (division_part2 P x y b).
Proof. unfold division_part2, div_zero_part2. nv1. Qed.
Lemma f_inverse x : never F (multiplicative_inverse P x). Proof. unfold multiplicative_inverse. nv1. Qed.
Lemma f_pow_loop mul : (forall a b, never F (mul a b)) -> forall p x y, never F (@pow_loop N mul x y p).
Proof.
  intros H p. induction p; intros x y; cbn [pow_loop]; (apply nv_bind; [apply H|intros x']); auto.
  apply nv_bind; [apply H|intros y']. auto.
Qed.
Lemma f_pow_aux mul : (forall a b, never F (mul a b)) -> forall n x, never F (@pow_aux N mul x n).
Proof.
  intros H n x. unfold pow_aux. destruct (Z.shiftr n 1); try apply nv_ret. apply f_pow_loop; auto.
Qed.
Lemma f_pow_dn x n : never F (pow_dn P x n).
Proof. apply f_pow_aux. intros a b. nv1. Qed.
Lemma f_pow_up x n : never F (pow_up P x n).
Proof. apply f_pow_aux. intros a b. nv1. Qed.
Lemma f_pow_pos x n : never F (pow_pos P x n).
Proof. unfold pow_pos. repeat (first [apply f_pow_dn|apply f_pow_up|step1|progress (cbv beta zeta)]). Qed.
Lemma f_pow x n : pow_arg F n -> never F (pow P x n).
Proof.
  intros H. unfold pow. apply nv_if; [apply f_i_empty; auto|]. apply nv_if.
  - apply nv_if; [apply f_i_empty; auto|apply f_ctor_num].
  - apply nv_if; [|apply f_pow_pos]. destruct (Z.eqb_spec n int_min) as [E|E].
    + apply nv_fail. destruct F; try discriminate. intros _. apply H; auto.
    + apply nv_bind; [apply f_pow_pos|intros z]. apply f_inverse.
Qed.
Lemma f_sqrt x : never F (i_sqrt P x). Proof. unfold i_sqrt. nv1. Qed.
Lemma f_square x : never F (square P x). Proof. unfold square. nv1. Qed.
Lemma f_nadd x y : never F (n_add P x y). Proof. unfold n_add. nv1. Qed.
Lemma f_nsub x y : never F (n_sub P x y). Proof. unfold n_sub. nv1. Qed.
Lemma f_nmul x y : never F (n_mul P x y). Proof. unfold n_mul. nv1. Qed.
Lemma f_ndiv x y : never F (n_div P x y). Proof. unfold n_div. nv1. Qed.

(** The members. *)
Ltac so := first
  [ apply nvo_bind; [|intros ?] | apply nvo_comp; intros ? | apply nvo_lowc | apply nvo_upc
  | apply nvo_low | apply nvo_up | apply nvo_if | step1 | progress (cbv beta zeta) ].
Lemma o_set l u : nevero F (@m_set N l u).
Proof. unfold m_set. apply nvo_bind; [apply (nvo_low F (fun o => rd o l))|intros _; apply (nvo_up F (fun o => rd o u))]. Qed.
Lemma o_set_empty : nevero F (m_set_empty P). Proof. unfold m_set_empty. repeat so. Qed.
Lemma o_set_whole : nevero F (m_set_whole P). Proof. unfold m_set_whole. repeat so. Qed.
Lemma o_assign l u : nevero F (m_assign P l u).
Proof. unfold m_assign. repeat (first [apply o_set|apply o_set_empty|so]). Qed.
Lemma o_assign_num v : nevero F (m_assign_num P v).
Proof.
  unfold m_assign_num. apply nvo_bind; [repeat so|intros b]. apply nvo_if; [apply o_set_empty|].
  apply nvo_bind; [apply (nvo_up F (fun o => rd o v))|intros _; apply (nvo_low F (fun o => up o))].
Qed.
Lemma o_assign_src s v : source_never F s -> nevero F (m_assign_src P s v).
Proof. intros H. unfold m_assign_src. repeat (first [apply o_set_empty|so]). Qed.
Lemma o_copy r : nevero F (@m_copy N r).
Proof.
  unfold m_copy. apply nvo_bind; [apply (nvo_low F (fun o => low (rdi o r)))|intros _].
  apply (nvo_up F (fun o => up (rdi o r))).
Qed.
Lemma o_assign_policy P1 r : nevero F (m_assign_policy P P1 r).
Proof. unfold m_assign_policy. repeat (first [apply o_set_empty|so]). Qed.
Lemma o_assign_itv N1 s (P1 : policy N1) toU r : source_never F s -> nevero F (m_assign_itv P s P1 toU r).
Proof. intros H. unfold m_assign_itv. repeat (first [apply o_set_empty|so]). Qed.
Lemma o_add r : nevero F (m_add P r). Proof. unfold m_add. repeat (first [apply o_set|apply o_set_empty|so]). Qed.
Lemma o_add_n r : nevero F (m_add_n P r). Proof. unfold m_add_n. repeat (first [apply o_set|apply o_set_empty|so]). Qed.
Lemma o_sub r : nevero F (m_sub P r). Proof. unfold m_sub. repeat (first [apply o_set|apply o_set_empty|so]). Qed.
Lemma o_sub_n r : nevero F (m_sub_n P r). Proof. unfold m_sub_n. repeat (first [apply o_set|apply o_set_empty|so]). Qed.
Lemma o_via f : (forall x, never F (f x)) -> nevero F (@m_via N f).
Proof. intros H. unfold m_via. apply nvo_bind; [apply nvo_comp; auto|intros v; apply o_copy]. Qed.

Lemma member_never m : member F P m -> nevero F m.
Proof.
  intros H. destruct H;
  [ apply o_set | apply o_set_empty | apply o_set_whole | apply o_assign | apply o_assign_num
  | apply o_assign_src; auto | apply o_copy | apply o_assign_policy | apply o_assign_itv; auto
  | apply o_add | apply o_add_n | apply o_sub | apply o_sub_n
  | apply o_via; intros x; apply f_mul | apply o_via; intros x; apply f_mul_ni
  | apply o_via; intros x; apply f_div | apply o_via; intros x; apply f_div_in ].
Qed.
End WithP1.

Section WithP2.
Context (P : policy N) (HP : clean P).
Let HU : clean (unprotect P) := clean_unprotect P HP.

Ltac step2 := first
  [ apply f_ctor_back; assumption | apply f_mul_ni; assumption | apply f_sub; assumption
  | apply f_sub_ni; assumption | apply f_ctor_num; assumption | apply f_op_neg; assumption
  | apply f_width; assumption | step1 ].
Ltac nv2 := repeat (first [step2 | progress (cbv beta zeta) ]).

Lemma f_fmod x y : never F (fmod P x y). Proof. unfold fmod. nv2. Qed.
Lemma f_fmod_in x y : never F (fmod_in P x y). Proof. unfold fmod_in. nv2. Qed.
Lemma f_fmod_ni x y : never F (fmod_ni P x y). Proof. unfold fmod_ni. nv2. Qed.

Lemma f_root_step tk x k y : pow_arg F k -> pow_arg F (k - 1) -> never F (root_step P tk x k y).
Proof.
  intros H1 H2. unfold root_step.
  repeat (first [ apply f_median; assumption | apply f_pow; assumption | apply f_sub_in; assumption
    | apply f_div; assumption | apply f_intersect; assumption | step2 ]).
Qed.
Lemma f_root_loop fuel tk x k : pow_arg F k -> pow_arg F (k - 1) -> forall y, never F (root_loop fuel P tk x k y).
Proof.
  intros H1 H2. induction fuel as [|n IH]; intros y; cbn [root_loop]; [apply nv_nofuel|].
  apply nv_bind; [apply f_root_step; auto|intros yy]. apply nv_if; [apply nv_ret|apply IH].
Qed.
Lemma f_root_aux fuel x k : pow_arg F k -> pow_arg F (k - 1) -> never F (root_aux fuel P x k).
Proof. intros H1 H2. unfold root_aux. apply nv_bind; [apply nv_int|intros tk]. apply f_root_loop; auto. Qed.
Lemma f_root_dn fuel x k : pow_arg F k -> pow_arg F (k - 1) -> never F (root_aux_dn fuel P x k).
Proof.
  intros H1 H2. unfold root_aux_dn. repeat (first [apply f_root_aux; assumption|step2]).
Qed.
Lemma f_root_up fuel x k : pow_arg F k -> pow_arg F (k - 1) -> never F (root_aux_up fuel P x k).
Proof.
  intros H1 H2. unfold root_aux_up. repeat (first [apply f_root_aux; assumption|step2]).
Qed.

Ltac step3 := first [ apply f_fmod; assumption | step2 ].
Lemma f_pi : never F (i_pi P K). Proof. unfold i_pi. nv2. Qed.
Lemma f_pi_half : never F (i_pi_half P K). Proof. unfold i_pi_half. nv2. Qed.
Lemma f_pi_twice : never F (i_pi_twice P K). Proof. unfold i_pi_twice. nv2. Qed.
Lemma f_exp x : never F (t_exp R P x). Proof. unfold t_exp. nv2. Qed.
Lemma f_log x : never F (t_log R P x). Proof. unfold t_log. nv2. Qed.
Lemma f_asin x : never F (t_asin K R P x). Proof. unfold t_asin. nv2. Qed.
Lemma f_acos x : never F (t_acos K R P x). Proof. unfold t_acos. nv2. Qed.
Lemma f_atan x : never F (t_atan R P x). Proof. unfold t_atan. nv2. Qed.
Lemma f_sinh x : never F (t_sinh R P x). Proof. unfold t_sinh. nv2. Qed.
Lemma f_cosh x : never F (t_cosh R P x). Proof. unfold t_cosh. nv2. Qed.
Lemma f_tanh x : never F (t_tanh R P x). Proof. unfold t_tanh. nv2. Qed.
Lemma f_asinh x : never F (t_asinh R P x). Proof. unfold t_asinh. nv2. Qed.
Lemma f_acosh x : never F (t_acosh R P x). Proof. unfold t_acosh. nv2. Qed.
Lemma f_atanh x : never F (t_atanh R P x). Proof. unfold t_atanh. nv2. Qed.
End WithP2.

Lemma f_tan P : clean P -> forall x, never F (t_tan K R P x).
Proof.
  intros HP x. pose proof (clean_unprotect P HP) as HU. unfold t_tan.
  repeat (first [ apply f_pi; assumption | apply f_fmod; assumption
    | apply nv_local; apply o_sub; assumption | step1 | progress (cbv beta zeta) ]).
Qed.
Lemma f_cos fuel : forall P, clean P -> forall x, never F (t_cos K R fuel P x).
Proof.
  induction fuel as [|n IH]; intros P HP x; cbn [t_cos]; [apply nv_nofuel|].
  pose proof (clean_unprotect P HP) as HU.
  repeat (first [ apply IH; assumption | apply f_pi; assumption | apply f_pi_twice; assumption
    | apply f_fmod; assumption | apply f_width; assumption | apply f_sub; assumption
    | apply f_op_neg; assumption | apply f_ctor_back; assumption | step1 | progress (cbv beta zeta) ]).
Qed.
Lemma f_sin fuel P : clean P -> forall x, never F (t_sin K R fuel P x).
Proof.
  intros HP x. pose proof (clean_unprotect P HP) as HU. unfold t_sin.
  repeat (first [ apply f_cos; assumption | apply f_pi_half; assumption | apply f_sub; assumption
    | apply f_ctor_back; assumption | step1 | progress (cbv beta zeta) ]).
Qed.
Lemma f_root P debug fuel x k : clean P -> root_arg F debug k -> never F (nth_root P debug fuel x k).
Proof.
  intros HP [HU' HA]. pose proof (clean_unprotect P HP) as HU.
  assert (H1 : pow_arg F k) by (intros E; specialize (HU' E); unfold int_min; lia).
  assert (H2 : pow_arg F (k - 1)) by (intros E; specialize (HU' E); unfold int_min; lia).
  unfold nth_root. apply nv_if; [apply f_i_empty; auto|]. apply nv_bind.
  - unfold assert_. destruct debug; [|apply nv_ret]. destruct (Z.ltb_spec 0 k); [apply nv_ret|].
    apply nv_fail. destruct F; try discriminate. intros _. specialize (HA eq_refl eq_refl). lia.
  - intros _. repeat (first [apply f_root_up; assumption|apply f_root_dn; assumption|step1]).
Qed.

Theorem library_never P : clean P -> forall A (m : M A), library F P K R m -> never F m.
Proof.
  intros HP A m H.
  destruct H; try apply nv_ret;
    try solve [unfold add_xn, add_nx, sub_xn, sub_nx, mul_xn, mul_nx, div_xn, div_nx, to_T;
      apply nv_bind; [apply nv_int|intros t];
      first [apply f_add_ni; assumption|apply f_sub_ni; assumption|apply f_sub_in; assumption
        |apply f_mul_ni; assumption|apply f_div_ni; assumption|apply f_div_in; assumption]].
  all: first [ apply nv_local, (member_never P HP); assumption
    | apply f_ctor_num | apply f_ctor_src | apply f_ctor_src12 | apply f_ctor_num2 | apply f_ctor_policy
    | apply f_ctor_itv | apply f_i_empty | apply f_i_whole | apply f_i_hull | apply f_lower | apply f_upper
    | apply f_width | apply f_median | apply f_widen | apply f_in | apply f_intersect | apply f_hull
    | apply f_hull_in | apply f_hull_ni | apply f_bisect | apply f_norm | apply f_abs | apply f_max
    | apply f_max_in | apply f_max_ni | apply f_min | apply f_min_in | apply f_min_ni | apply f_op_neg
    | apply f_add | apply f_add_ni | apply f_sub | apply f_sub_ni | apply f_sub_in | apply f_mul | apply f_mul_ni
    | apply f_div | apply f_div_ni | apply f_div_in | apply f_fmod | apply f_fmod_in | apply f_fmod_ni
    | apply f_part1 | apply f_part2 | apply f_inverse | apply f_pow | apply f_sqrt | apply f_square
    | apply f_root | apply f_nadd | apply f_nsub | apply f_nmul | apply f_ndiv | apply f_pi | apply f_pi_half
    | apply f_pi_twice | apply f_exp | apply f_log | apply f_cos | apply f_sin | apply f_tan | apply f_asin
    | apply f_acos | apply f_atan | apply f_sinh | apply f_cosh | apply f_tanh | apply f_asinh | apply f_acosh
    | apply f_atanh | (destruct o; apply nv_ret) ]; auto.
Qed.

Theorem comparison_never P : clean P -> F <> Thrown ComparisonError ->
  forall A (m : M A), comparison P m -> never F m.
Proof.
  intros HP HF A m H.
  assert (HC : forall B, never F (@cerr B)) by (intros B; apply nv_throw; auto).
  destruct H, o;
    cbv [def_cmp def_cmpn certain certainn possible possiblen lexi lexin tribool tribooln setcmpn
      cmp_lt cmp_gt cmp_le cmp_ge cmp_eq cmp_ne cmpn_lt cmpn_gt cmpn_le cmpn_ge cmpn_eq cmpn_ne
      interval_holder number_holder];
    repeat match goal with |- never F (?f _ _ _ _) => progress unfold f | |- never F (?f _ _ _) => progress unfold f
      | |- never F (?f _ _) => progress unfold f end;
    unfold guarded, guarded_n;
    repeat (first [apply HC|step1]).
Qed.
End Functions.

(** * nth_root always terminates

    Whatever the rounding mode, the policy and the argument: the search interval
    only shrinks, and there are finitely many representable ends. *)

From Coq Require Import Reals ZArith Lra Lia Bool Psatz.
From Flocq Require Import Core BinarySingleNaN.
From Verif Require Import Outcome Base Checking Interval Utility Arith Arith2 FloatNum Spec ExtR Sem
  CoreArith CoreDiv CoreMore CoreFun CorePow CoreUtil FloatSpec FloatPol FloatMed CoreRoot.
Local Open Scope R_scope.

(** The computation ends (normally, by an exception or a failed assertion), and
    is defined. *)
Definition ends {A} (o : outcome A) : Prop := match o with NoFuel | UB => False | _ => True end.
Definition safe {A} (m : M A) : Prop := forall s, ends (fst (m s)).

Lemma safe_ret {A} (a : A) : safe (ret a). Proof. intros s. exact Logic.I. Qed.
Lemma safe_throw {A} e : safe (throw e : M A). Proof. intros s. exact Logic.I. Qed.
Lemma safe_bind {A B} (m : M A) (k : A -> M B) : safe m -> (forall a, safe (k a)) -> safe (bind m k).
Proof.
  intros Hm Hk s. unfold bind. specialize (Hm s). destruct (m s) as [[a|e| | |] s']; simpl in *; auto. apply Hk.
Qed.
Lemma safe_args2 {A B} o (m1 : M A) (m2 : M B) : safe m1 -> safe m2 -> safe (args2 o m1 m2).
Proof.
  intros H1 H2. destruct o; simpl; repeat (apply safe_bind; auto; intros); apply safe_ret.
Qed.
Lemma safe_mk_args {N : num} o (m1 m2 : M (T N)) : safe m1 -> safe m2 -> safe (mk_args o m1 m2).
Proof. intros H1 H2. apply safe_bind; [apply safe_args2; auto|]. intros; apply safe_ret. Qed.

Section Term.
Context (p : platform) (pr : protection) (k : rkind) (debug : bool) (c : ckind) (ord : site -> bool).
Notation N := (fnum p).
Notation Q := (fpol p pr k debug c ord).
Notation spec := (fpolspec p pr k debug c ord).
Notation fv := (@fval (p_T p)).

Lemma safe_assert dbg b : safe (assert_ dbg b).
Proof. intros s. unfold assert_. destruct dbg, b; exact Logic.I. Qed.
Lemma safe_with_rnd {A} (body : M A) : safe body -> safe (with_rnd Q body).
Proof.
  intros H. unfold with_rnd. cbn [p_prot fpol]. destruct pr; auto.
  apply safe_bind; [intros s; exact Logic.I|]. intros m. apply safe_bind.
  - destruct k; intros s; exact Logic.I.
  - intros _ s. specialize (H s). destruct (body s) as [[a|e| | |] s']; simpl in *; auto.
Qed.
Lemma safe_neg (a : T N) : safe (neg a). Proof. intros s; exact Logic.I. Qed.
Lemma safe_add_down a b : safe (add_down (p_ar Q) a b). Proof. cbn [p_ar fpol]. destruct k; intros s; exact Logic.I. Qed.
Lemma safe_add_up a b : safe (add_up (p_ar Q) a b). Proof. cbn [p_ar fpol]. destruct k; intros s; exact Logic.I. Qed.
Lemma safe_sub_down a b : safe (sub_down (p_ar Q) a b). Proof. cbn [p_ar fpol]. destruct k; intros s; exact Logic.I. Qed.
Lemma safe_sub_up a b : safe (sub_up (p_ar Q) a b). Proof. cbn [p_ar fpol]. destruct k; intros s; exact Logic.I. Qed.
Lemma safe_mul_down a b : safe (mul_down (p_ar Q) a b). Proof. cbn [p_ar fpol]. destruct k; intros s; exact Logic.I. Qed.
Lemma safe_mul_up a b : safe (mul_up (p_ar Q) a b). Proof. cbn [p_ar fpol]. destruct k; intros s; exact Logic.I. Qed.
Lemma safe_div_down a b : safe (div_down (p_ar Q) a b). Proof. cbn [p_ar fpol]. destruct k; intros s; exact Logic.I. Qed.
Lemma safe_div_up a b : safe (div_up (p_ar Q) a b). Proof. cbn [p_ar fpol]. destruct k; intros s; exact Logic.I. Qed.
Lemma safe_median a b : safe (ar_median (p_ar Q) a b). Proof. cbn [p_ar fpol]. destruct k; intros s; exact Logic.I. Qed.
Lemma safe_ck_nan : safe (ck_nan (p_ck Q)).
Proof. cbn [p_ck fpol]. destruct c; intros s; cbn; unfold assert_; destruct debug; exact Logic.I. Qed.
Lemma safe_is_nan a : safe (ck_is_nan (p_ck Q) a).
Proof.
  cbn [p_ck fpol]. destruct c; intros s; cbn; try exact Logic.I; unfold bind, ret; destruct (n_ne (N := N) a a); exact Logic.I.
Qed.
Lemma safe_pinf : safe (ck_pos_inf (p_ck Q)).
Proof. cbn [p_ck fpol]. destruct c; intros s; cbn; unfold assert_; destruct debug; exact Logic.I. Qed.
Lemma safe_ninf : safe (ck_neg_inf (p_ck Q)).
Proof. cbn [p_ck fpol]. destruct c; intros s; cbn; unfold assert_; destruct debug; exact Logic.I. Qed.
Lemma safe_empty : safe (i_empty Q).
Proof. apply safe_mk_args; cbn [p_ck fpol]; destruct c; intros s; exact Logic.I. Qed.
Lemma safe_set_empty : safe (c_set_empty Q).
Proof.
  unfold c_set_empty. apply safe_mk_args || (apply safe_bind; [|intros; apply safe_bind; [|intros; apply safe_ret]]);
  cbn [p_ck fpol]; destruct c; intros s; exact Logic.I.
Qed.

Ltac sf := repeat first
  [ apply safe_ret | apply safe_throw | apply safe_assert | apply safe_neg | apply safe_add_down | apply safe_add_up
  | apply safe_sub_down | apply safe_sub_up | apply safe_mul_down | apply safe_mul_up | apply safe_div_down
  | apply safe_div_up | apply safe_median | apply safe_ck_nan | apply safe_is_nan | apply safe_pinf | apply safe_ninf
  | apply safe_empty | apply safe_set_empty | apply safe_with_rnd | apply safe_args2 | apply safe_mk_args
  | apply safe_bind; [|intros ?]
  | match goal with |- safe (if ?b then _ else _) => destruct b end ].

Lemma safe_pow_loop mul : (forall a b, safe (mul a b)) -> forall (q : positive) (x y : T N), safe (pow_loop mul x y q).
Proof. intros Hm. induction q; intros x y; cbn [pow_loop]; apply safe_bind; auto; intros; apply safe_bind; auto. Qed.
Lemma safe_pow_dn x n : safe (pow_dn Q x n).
Proof. unfold pow_dn, pow_aux. destruct (Z.shiftr n 1); sf. apply safe_pow_loop. intros; sf. Qed.
Lemma safe_pow_up x n : safe (pow_up Q x n).
Proof. unfold pow_up, pow_aux. destruct (Z.shiftr n 1); sf. apply safe_pow_loop. intros; sf. Qed.
Lemma safe_pow x n : (0 <= n)%Z -> safe (pow Q x n).
Proof.
  intros Hn. unfold pow. destruct (test_input_i Q x); [sf|]. destruct (n =? 0)%Z.
  - unfold ctor_num. sf.
  - destruct (Z.ltb_spec n 0); [lia|]. unfold pow_pos. sf; apply safe_pow_dn || apply safe_pow_up.
Qed.
Lemma safe_sub_in x y : safe (op_sub_in Q x y).
Proof. unfold op_sub_in, test_input_in. sf. Qed.
Lemma safe_sub_ni x y : safe (op_sub_ni Q x y).
Proof. unfold op_sub_ni, test_input_ni. sf. Qed.
Lemma safe_mul_ni x y : safe (op_mul_ni Q x y).
Proof. unfold op_mul_ni, test_input_ni. cbv zeta. sf. Qed.
Lemma safe_div x y : safe (op_div Q x y).
Proof. unfold op_div, div_zero, div_negative, div_positive, div_non_zero, i_whole. cbv zeta. sf. Qed.
Lemma safe_intersect x y : safe (intersect Q x y).
Proof. unfold intersect. cbv zeta. sf. Qed.
Lemma safe_root_step tk x n y : (1 <= n)%Z -> safe (root_step Q tk x n y).
Proof.
  intros Hn. unfold root_step. apply safe_bind; [unfold median; sf|intros y0].
  apply safe_bind.
  { apply safe_args2; (apply safe_bind; [apply safe_pow; lia|intros q]); [apply safe_sub_in|apply safe_mul_ni]. }
  intros d. apply safe_bind; [apply safe_div|intros q]. apply safe_bind; [apply safe_sub_ni|intros z]. apply safe_intersect.
Qed.

(** What one step can return. *)
Lemma bind_ok {A B} (m : M A) (f : A -> M B) s b s' : bind m f s = (Ok b, s') ->
  exists a s1, m s = (Ok a, s1) /\ f a s1 = (Ok b, s').
Proof. unfold bind. destruct (m s) as [[a|e| | |] s1]; intros E; try discriminate. eauto. Qed.

Lemma i_empty_ok s z s' : i_empty Q s = (Ok z, s') -> test_input_i Q z = true.
Proof.
  unfold i_empty, mk_args, test_input_i. cbn [p_ck fpol]. destruct (p_ord Q (H_interval, 297%Z)); destruct c; cbn;
    intros E; try discriminate; injection E as <- _; reflexivity.
Qed.

Lemma intersect_shape y z s yy s' : intersect Q y z s = (Ok yy, s') ->
  (test_input_i Q yy = true) \/
  (test_input_i Q y = false /\ xle (fv (low yy)) (fv (up yy)) /\
   (low yy = low y \/ xlt (fv (low y)) (fv (low yy))) /\ (up yy = up y \/ xlt (fv (up yy)) (fv (up y)))).
Proof.
  unfold intersect, test_input_ii. destruct (test_input_i Q y) eqn:TY; cbn [orb].
  - intros E. left. eapply i_empty_ok; eauto.
  - destruct (test_input_i Q z); [intros E; left; eapply i_empty_ok; eauto|]. cbv zeta.
    destruct (n_le N _ _) eqn:LE; [|intros E; left; eapply i_empty_ok; eauto].
    intros E. injection E as <- _. right. split; [reflexivity|].
    split; [apply (ns_le _ _ (fnumspec p)); exact LE|]. cbn [low up]. unfold std_max, std_min. split.
    + destruct (n_lt N (low y) (low z)) eqn:L; auto. right. apply (ns_lt _ _ (fnumspec p)). exact L.
    + destruct (n_lt N (up z) (up y)) eqn:L; auto. right. apply (ns_lt _ _ (fnumspec p)). exact L.
Qed.
Lemma root_step_shape tk x n y s yy s' : root_step Q tk x n y s = (Ok yy, s') ->
  exists z s1, intersect Q y z s1 = (Ok yy, s').
Proof.
  unfold root_step. intros E. do 4 (apply bind_ok in E; destruct E as (? & ? & _ & E)). eauto.
Qed.

(** Position of an end in the search grid. *)
Definition gval (t : T N) : R := match fv t with Fin r => r | _ => bpow radix2 (emax (p_T p)) end.
Lemma gval_int (t : T N) : xle (Fin 1) (fv t) -> exists z, gval t * bpow radix2 (prec (p_T p) - 1) = IZR z.
Proof.
  intros H. unfold gval. pose proof (fmt_prec_gt_0 (p_T p)) as P0. pose proof (fmt_prec_lt_emax (p_T p)) as PE.
  destruct (fv t) as [| |r|] eqn:E; simpl in H; try tauto.
  - apply fval_fin_iff in E. destruct E as [_ <-]. apply float_int. exact H.
  - exists (2 ^ (emax (p_T p) + prec (p_T p) - 1))%Z. change 2%Z with (radix_val radix2).
    rewrite IZR_Zpower by lia. rewrite <- bpow_plus. f_equal. lia.
Qed.
Lemma gval_lt (a b : T N) : xle (Fin 1) (fv a) -> xlt (fv a) (fv b) -> gval a < gval b.
Proof.
  intros H L. unfold gval. destruct (fv a) as [| |r|] eqn:Ea, (fv b) as [| |r'|] eqn:Eb; simpl in H, L; try tauto.
  apply fval_fin_iff in Ea. destruct Ea as [F <-]. pose proof (finite_lt_emax (a : flt (p_T p))) as K.
  apply Rabs_lt_inv in K. lra.
Qed.
Lemma gval_range (t : T N) : xle (Fin 1) (fv t) -> 1 <= gval t <= bpow radix2 (emax (p_T p)).
Proof.
  intros H. unfold gval. destruct (fv t) as [| |r|] eqn:Ea; simpl in H; try tauto.
  - apply fval_fin_iff in Ea. destruct Ea as [F <-]. pose proof (finite_lt_emax (t : flt (p_T p))) as K.
    apply Rabs_lt_inv in K. lra.
  - split; [|lra]. change 1 with (bpow radix2 0). apply bpow_le. pose proof (fmt_prec_gt_0 (p_T p)).
    pose proof (fmt_prec_lt_emax (p_T p)). lia.
Qed.

Lemma equal_proper (y yy : itv N) : xle (fv (low y)) (fv (up y)) -> xle (fv (low yy)) (fv (up yy)) -> equal Q y yy = false ->
  fv (low y) <> fv (low yy) \/ fv (up y) <> fv (up yy).
Proof.
  intros A B. unfold equal, u_empty. rewrite !test_i_ordered by auto. cbn [negb andb].
  intros E. apply andb_false_iff in E. destruct E as [E|E].
  - left. intros K. assert (n_eq N (low y) (low yy) = true); [|congruence].
    apply (ns_eq _ _ (fnumspec p)). split; [exact K|]. eapply xle_nnl; eauto.
  - right. intros K. assert (n_eq N (up y) (up yy) = true); [|congruence].
    apply (ns_eq _ _ (fnumspec p)). split; [exact K|]. eapply xle_nnr; eauto.
Qed.

(** From an interval whose bounds are not ordered: at most one more step. *)
Lemma loop_empty tk x n (y : itv N) fuel : (1 <= n)%Z -> ~ xle (fv (low y)) (fv (up y)) -> (3 <= fuel)%nat ->
  safe (root_loop fuel Q tk x n y).
Proof.
  intros Hn Hy Hf.
  assert (E : forall y fuel, test_input_i Q y = true -> (1 <= fuel)%nat -> safe (root_loop fuel Q tk x n y)).
  { clear y Hy fuel Hf. intros y [|fuel] Ty Hf; [lia|]. intros s. cbn [root_loop]. unfold bind.
    pose proof (safe_root_step tk x n y Hn s) as S. destruct (root_step Q tk x n y s) as [o s'] eqn:ES.
    destruct o as [yy|e| | |]; simpl in *; auto.
    destruct (root_step_shape _ _ _ _ _ _ _ ES) as (z & s1 & EI).
    destruct (intersect_shape _ _ _ _ _ EI) as [TT|(K & _)]; [|congruence].
    assert (equal Q y yy = true) as ->; [|exact Logic.I].
    unfold equal, u_empty. rewrite Ty, TT. reflexivity. }
  destruct fuel as [|fuel]; [lia|]. intros s. cbn [root_loop]. unfold bind.
  pose proof (safe_root_step tk x n y Hn s) as S. destruct (root_step Q tk x n y s) as [o s'] eqn:ES.
  destruct o as [yy|e| | |]; simpl in *; auto.
  destruct (equal Q y yy); [exact Logic.I|]. apply E; [|lia].
  destruct (root_step_shape _ _ _ _ _ _ _ ES) as (z & s1 & EI).
  destruct (intersect_shape _ _ _ _ _ EI) as [TT|(_ & K & [L|L] & [U|U])]; auto; exfalso; apply Hy.
  - rewrite <- L, <- U. exact K.
  - rewrite <- L. eapply xle_trans; [exact K|]. apply xlt_xle; exact U.
  - rewrite <- U. eapply xle_trans; [apply xlt_xle; exact L|exact K].
  - eapply xle_trans; [apply xlt_xle; exact L|]. eapply xle_trans; [exact K|]. apply xlt_xle; exact U.
Qed.

Lemma root_loop_ends m : forall tk x n (y : itv N), (1 <= n)%Z -> xle (Fin 1) (fv (low y)) ->
  (xle (fv (low y)) (fv (up y)) -> (gval (up y) - gval (low y)) * bpow radix2 (prec (p_T p) - 1) <= INR m) ->
  forall fuel, (m + 4 <= fuel)%nat -> safe (root_loop fuel Q tk x n y).
Proof.
  induction m as [m IH] using lt_wf_ind. intros tk x n y Hn Hl Hm fuel Hf.
  destruct (Bleb (low y : flt (p_T p)) (up y)) eqn:LE.
  2:{ apply loop_empty; auto; try lia. intros K. apply Bleb_fval in K. congruence. }
  apply Bleb_fval in LE. specialize (Hm LE).
  destruct fuel as [|fuel]; [lia|]. intros s. cbn [root_loop]. unfold bind.
  pose proof (safe_root_step tk x n y Hn s) as S. destruct (root_step Q tk x n y s) as [o s'] eqn:ES.
  destruct o as [yy|e| | |]; simpl in S |- *; auto.
  destruct (equal Q y yy) eqn:EQ; [exact Logic.I|].
  destruct (root_step_shape _ _ _ _ _ _ _ ES) as (z & s1 & EI).
  destruct (intersect_shape _ _ _ _ _ EI) as [TT|(_ & K & Lo & Up)].
  { apply loop_empty; auto; try lia. intros K.
    rewrite (test_i_ordered p pr k debug c ord yy K) in TT. discriminate. }
  assert (Hl' : xle (Fin 1) (fv (low yy))).
  { destruct Lo as [->|L]; auto. eapply xle_trans; [exact Hl|apply xlt_xle; exact L]. }
  assert (Hu' : xle (Fin 1) (fv (up yy))) by (eapply xle_trans; [exact Hl'|exact K]).
  assert (Hu : xle (Fin 1) (fv (up y))) by (eapply xle_trans; [exact Hl|exact LE]).
  destruct (gval_int _ Hl) as (a & Ga). destruct (gval_int _ Hl') as (a' & Ga').
  destruct (gval_int _ Hu) as (b & Gb). destruct (gval_int _ Hu') as (b' & Gb').
  set (B := bpow radix2 (prec (p_T p) - 1)) in *. assert (B0 : 0 < B) by apply bpow_gt_0.
  destruct (equal_proper y yy LE K EQ) as [NE|NE].
  - destruct Lo as [Lo|Lo]; [rewrite Lo in NE; congruence|].
    pose proof (gval_lt _ _ Hl Lo) as L1.
    assert (A1 : (a < a')%Z) by (apply lt_IZR; rewrite <- Ga, <- Ga'; nra).
    assert (A2 : (b' <= b)%Z).
    { apply le_IZR. rewrite <- Gb, <- Gb'. destruct Up as [->|U]; [lra|]. pose proof (gval_lt _ _ Hu' U). nra. }
    assert (A3 : (b - a <= Z.of_nat m)%Z).
    { apply le_IZR. rewrite <- INR_IZR_INZ, minus_IZR, <- Ga, <- Gb. lra. }
    assert (A4 : (a' <= b')%Z).
    { apply le_IZR. rewrite <- Ga', <- Gb'. apply Rmult_le_compat_r; [lra|].
      unfold gval. destruct (fv (low yy)) as [| |r1|] eqn:E1, (fv (up yy)) as [| |r2|] eqn:E2; simpl in *; try tauto; try lra.
      apply fval_fin_iff in E1. destruct E1 as [F <-]. pose proof (finite_lt_emax (low yy : flt (p_T p))) as G.
      apply Rabs_lt_inv in G. lra. }
    apply (IH (Z.to_nat (b' - a'))); auto; try lia.
    intros _. rewrite INR_IZR_INZ, Z2Nat.id, minus_IZR, <- Ga', <- Gb' by lia. fold B. lra.
  - destruct Up as [Up|Up]; [rewrite Up in NE; congruence|].
    pose proof (gval_lt _ _ Hu' Up) as L1.
    assert (A1 : (b' < b)%Z) by (apply lt_IZR; rewrite <- Gb, <- Gb'; nra).
    assert (A2 : (a <= a')%Z).
    { apply le_IZR. rewrite <- Ga, <- Ga'. destruct Lo as [->|U]; [lra|]. pose proof (gval_lt _ _ Hl U). nra. }
    assert (A3 : (b - a <= Z.of_nat m)%Z).
    { apply le_IZR. rewrite <- INR_IZR_INZ, minus_IZR, <- Ga, <- Gb. lra. }
    assert (A4 : (a' <= b')%Z).
    { apply le_IZR. rewrite <- Ga', <- Gb'. apply Rmult_le_compat_r; [lra|].
      unfold gval. destruct (fv (low yy)) as [| |r1|] eqn:E1, (fv (up yy)) as [| |r2|] eqn:E2; simpl in *; try tauto; try lra.
      apply fval_fin_iff in E1. destruct E1 as [F <-]. pose proof (finite_lt_emax (low yy : flt (p_T p))) as G.
      apply Rabs_lt_inv in G. lra. }
    apply (IH (Z.to_nat (b' - a'))); auto; try lia.
    intros _. rewrite INR_IZR_INZ, Z2Nat.id, minus_IZR, <- Ga', <- Gb' by lia. fold B. lra.
Qed.

(** One bound for a whole format. *)
Definition root_fuel : nat := (Z.to_nat (2 ^ (emax (p_T p) + prec (p_T p))) + 4)%nat.

Lemma root_aux_ends (x : T N) n fuel : (1 <= n)%Z -> (root_fuel <= fuel)%nat -> safe (root_aux fuel Q x n).
Proof.
  intros Hn Hf. unfold root_aux. apply safe_bind; [intros s; exact Logic.I|]. intros tk.
  pose proof (fmt_prec_gt_0 (p_T p)) as P0. pose proof (fmt_prec_lt_emax (p_T p)) as PE.
  assert (E1 : fv (one : T N) = Fin 1) by (apply (ns_1 _ _ (fnumspec p))).
  apply (root_loop_ends (Z.to_nat (2 ^ (emax (p_T p) + prec (p_T p))))); auto.
  - cbn [low]. rewrite E1. simpl. lra.
  - cbn [low up]. intros K.
    assert (Hx : xle (Fin 1) (fv x)) by (rewrite <- E1; exact K).
    pose proof (gval_range x Hx) as [_ G]. unfold gval at 2. rewrite E1.
    rewrite INR_IZR_INZ, Z2Nat.id by lia. change 2%Z with (radix_val radix2).
    rewrite IZR_Zpower by lia. replace (emax (p_T p) + prec (p_T p))%Z with (emax (p_T p) + (prec (p_T p) - 1) + 1)%Z by lia.
    rewrite !bpow_plus. change (bpow radix2 1) with 2.
    pose proof (bpow_gt_0 radix2 (prec (p_T p) - 1)). pose proof (bpow_gt_0 radix2 (emax (p_T p))). nra.
Qed.
Lemma root_aux_up_ends (x : T N) n fuel : (1 <= n)%Z -> (root_fuel <= fuel)%nat -> safe (root_aux_up fuel Q x n).
Proof.
  intros Hn Hf. unfold root_aux_up. apply safe_with_rnd. destruct (n_gt x one).
  { apply safe_bind; [apply root_aux_ends; auto|intros; apply safe_ret]. }
  destruct (n_eq N x one); [apply safe_ret|]. apply safe_bind; [apply safe_div_down|intros d].
  apply safe_bind; [apply root_aux_ends; auto|intros y]. apply safe_div_up.
Qed.
Lemma root_aux_dn_ends (x : T N) n fuel : (1 <= n)%Z -> (root_fuel <= fuel)%nat -> safe (root_aux_dn fuel Q x n).
Proof.
  intros Hn Hf. unfold root_aux_dn. apply safe_with_rnd. destruct (n_gt x one).
  { apply safe_bind; [apply root_aux_ends; auto|intros; apply safe_ret]. }
  destruct (n_eq N x one); [apply safe_ret|]. apply safe_bind; [apply safe_div_up|intros d].
  apply safe_bind; [apply root_aux_ends; auto|intros y]. apply safe_div_down.
Qed.
End Term.

Lemma nth_root_ends p pr k debug c ord dbg (x : itv (fnum p)) n fuel : (1 <= n)%Z -> (root_fuel p <= fuel)%nat ->
  safe (nth_root (fpol p pr k debug c ord) dbg fuel x n).
Proof.
  intros Hn Hf. unfold nth_root.
  assert (U : unprotect (fpol p pr k debug c ord) = fpol p (unprotected pr) k debug c ord) by reflexivity.
  rewrite U.
  assert (A1 : forall y, safe (root_aux_up fuel (fpol p (unprotected pr) k debug c ord) y n)).
  { intros y. apply root_aux_up_ends; auto. }
  assert (A2 : forall y, safe (root_aux_dn fuel (fpol p (unprotected pr) k debug c ord) y n)).
  { intros y. apply root_aux_dn_ends; auto. }
  pose proof (safe_empty p pr k debug c ord) as SE.
  assert (SN : forall a : T (fnum p), safe (neg a)) by (intros; apply safe_neg).
  assert (SR : forall a : itv (fnum p), safe (ret a)) by (intros; apply safe_ret).
  repeat first [ apply safe_assert | apply A1 | apply A2 | apply SE | apply SN | apply SR | apply safe_mk_args
    | apply safe_bind; [|intros ?]
    | match goal with |- safe (if ?b then _ else _) => destruct b end ].
Qed.

(** ** The budget does not matter once it is large enough *)
Definition below {A} (m m' : M A) : Prop := forall s, fst (m s) = NoFuel \/ m s = m' s.
Lemma below_refl {A} (m : M A) : below m m. Proof. intros s. auto. Qed.
Lemma below_bind {A B} (m m' : M A) (f f' : A -> M B) : below m m' -> (forall a, below (f a) (f' a)) ->
  below (bind m f) (bind m' f').
Proof.
  intros H1 H2 s. unfold bind. destruct (H1 s) as [E|E].
  - left. destruct (m s) as [o s']. simpl in E. subst. reflexivity.
  - rewrite E. destruct (m' s) as [[a|e| | |] s']; auto. apply H2.
Qed.
Lemma below_args2 {A B} o (m1 m1' : M A) (m2 m2' : M B) : below m1 m1' -> below m2 m2' ->
  below (args2 o m1 m2) (args2 o m1' m2').
Proof. intros H1 H2. destruct o; simpl; repeat (apply below_bind; auto; intros); apply below_refl. Qed.
Lemma below_with_rnd {N A} (P : policy N) (m m' : M A) : below m m' -> below (with_rnd P m) (with_rnd P m').
Proof.
  intros H. unfold with_rnd. destruct (p_prot P); auto.
  apply below_bind; [apply below_refl|]. intros md. apply below_bind; [apply below_refl|]. intros _ s.
  destruct (H s) as [E|E].
  - left. destruct (m s) as [o s']. simpl in E. subst. reflexivity.
  - right. rewrite E. reflexivity.
Qed.
Lemma below_loop {N} (Q : policy N) tk x n fuel : forall fuel' y, (fuel <= fuel')%nat ->
  below (root_loop fuel Q tk x n y) (root_loop fuel' Q tk x n y).
Proof.
  induction fuel as [|fuel IH]; intros [|fuel'] y Hf; try lia.
  - apply below_refl.
  - intros s. left. reflexivity.
  - cbn [root_loop]. apply below_bind; [apply below_refl|]. intros yy. destruct (equal Q y yy); [apply below_refl|].
    apply IH. lia.
Qed.
Lemma below_root_aux {N} (Q : policy N) x n fuel fuel' : (fuel <= fuel')%nat ->
  below (root_aux fuel Q x n) (root_aux fuel' Q x n).
Proof. intros H. apply below_bind; [apply below_refl|]. intros; apply below_loop; auto. Qed.
Ltac bl := repeat first
  [ apply below_root_aux; assumption | apply below_refl | apply below_with_rnd | apply below_args2
  | apply below_bind; [|intros ?]
  | match goal with |- below (if ?b then _ else _) _ => destruct b end ].
Lemma below_up {N} (Q : policy N) x n fuel fuel' : (fuel <= fuel')%nat ->
  below (root_aux_up fuel Q x n) (root_aux_up fuel' Q x n).
Proof. intros H. unfold root_aux_up. bl. Qed.
Lemma below_dn {N} (Q : policy N) x n fuel fuel' : (fuel <= fuel')%nat ->
  below (root_aux_dn fuel Q x n) (root_aux_dn fuel' Q x n).
Proof. intros H. unfold root_aux_dn. bl. Qed.
Lemma below_nth_root {N} (P : policy N) dbg x n fuel fuel' : (fuel <= fuel')%nat ->
  below (nth_root P dbg fuel x n) (nth_root P dbg fuel' x n).
Proof.
  intros H. unfold nth_root.
  assert (A1 : forall y, below (root_aux_up fuel (unprotect P) y n) (root_aux_up fuel' (unprotect P) y n)) by (intros; apply below_up; auto).
  assert (A2 : forall y, below (root_aux_dn fuel (unprotect P) y n) (root_aux_dn fuel' (unprotect P) y n)) by (intros; apply below_dn; auto).
  repeat first
  [ apply A1 | apply A2 | apply below_refl | apply below_args2
  | apply below_bind; [|intros ?]
  | match goal with |- below (if ?b then _ else _) _ => destruct b end ].
Qed.

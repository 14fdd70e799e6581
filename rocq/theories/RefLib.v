(** * A mathematical library that honours the rounding mode

    The correctly rounded library: used only to show that the hypothesis of the
    theorems on transcendental functions can be met. *)

From Coq Require Import Reals ZArith Lra Lia Bool.
From Flocq Require Import Core BinarySingleNaN.
From Verif Require Import Outcome Base Checking Interval FloatNum Spec ExtR FloatSpec Transc SpecTransc TransReal.
Local Open Scope R_scope.

(** The value of a function, NaN outside the domain. *)
Definition ref_value (f : tfun) (e : ext) : ext :=
  match e with
  | Fin r =>
      match f with
      | Fexp => Fin (exp r)
      | Flog => if Rlt_dec 0 r then Fin (ln r) else NaN
      | Fsin => Fin (sin r)
      | Fcos => Fin (cos r)
      | Ftan => if Req_EM_T (cos r) 0 then NaN else Fin (sin r / cos r)
      | Fasin => if Rle_dec (Rabs r) 1 then Fin (asin r) else NaN
      | Facos => if Rle_dec (Rabs r) 1 then Fin (acos r) else NaN
      | Fatan => Fin (atan r)
      | Fsinh => Fin ((exp r - exp (- r)) / 2)
      | Fcosh => Fin ((exp r + exp (- r)) / 2)
      | Ftanh => Fin ((exp r - exp (- r)) / (exp r + exp (- r)))
      | Fasinh => Fin (arcsinh r)
      | Facosh => if Rle_dec 1 r then Fin (ln (r + sqrt (r * r - 1))) else NaN
      | Fatanh => if Rlt_dec (Rabs r) 1 then Fin (ln ((1 + r) / (1 - r)) / 2) else NaN
      end
  | PInf =>
      match f with
      | Fexp | Flog | Fsinh | Fcosh | Fasinh | Facosh => PInf
      | Fatan => Fin (PI / 2)
      | Ftanh => Fin 1
      | _ => NaN
      end
  | NInf =>
      match f with
      | Fexp => Fin 0
      | Fsinh | Fasinh => NInf
      | Fcosh => PInf
      | Fatan => Fin (- (PI / 2))
      | Ftanh => Fin (- 1)
      | _ => NaN
      end
  | NaN => NaN
  end.

(** Rounding a real number to a format. *)
Definition f_of_R (f : fmt) (m : rmode) (r : R) : flt f :=
  let e := cexp radix2 (fexpf f) r in
  binary_normalize (prec f) (emax f) (fmt_P0 f) (fmt_PE f) (md m)
    (round_mode (md m) (scaled_mantissa radix2 (fexpf f) r)) e (Rlt_bool r 0).
Definition f_of_ext (f : fmt) (m : rmode) (e : ext) : flt f :=
  match e with
  | NaN => B754_nan
  | NInf => B754_infinity true
  | PInf => B754_infinity false
  | Fin r => f_of_R f m r
  end.
Definition ref_lib (p : platform) : libm (fnum p) := fun f m x => f_of_ext (p_X p) m (ref_value f (fval (f := p_T p) x)).

Lemma f_of_R_rounds f m r : rounds (md m) (rnd f (md m) r) (f_of_R f m r).
Proof. unfold f_of_R. apply normalize_rounds. Qed.
(** It is the correctly rounded value. *)
Lemma f_of_R_correct f d r : dr d (Fin r) (f_of_R f (dmode d) r).
Proof.
  apply rounds_dr. pose proof (f_of_R_rounds f (dmode d) r) as K. unfold rounds in *.
  assert (E : rnd f (md (dmode d)) (rnd f (md (dmode d)) r) = rnd f (md (dmode d)) r).
  { apply round_generic; [apply valid_rnd_round_mode|]. apply generic_format_round; [apply fexp_correct; apply fmt_P0|apply valid_rnd_round_mode]. }
  rewrite E in K. destruct Rlt_bool eqn:B; auto.
  destruct K as (s & S & K). exists s. split; auto.
  assert (S0 : rnd f (md (dmode d)) r <> 0).
  { intros Z. rewrite Z, Rabs_R0 in B. apply Rlt_bool_false_iff in B || idtac. 
    assert (0 < bpow radix2 (emax f)) by apply bpow_gt_0. revert B. case Rlt_bool_spec; intros; try discriminate. lra. }
  assert (V : Valid_exp (fexpf f)) by (apply fexp_correct; apply fmt_P0).
  assert (M : forall a, round radix2 (fexpf f) (round_mode (md (dmode d))) a = rnd f (md (dmode d)) a) by reflexivity.
  unfold sgn_ok in *. destruct s.
  - destruct (Rle_or_lt r 0); auto. exfalso. apply S0. apply Rle_antisym; auto.
    rewrite <- (round_0 radix2 (fexpf f) (round_mode (md (dmode d)))). apply round_le; [exact V|apply valid_rnd_round_mode|lra].
  - destruct (Rle_or_lt 0 r); auto. exfalso. apply S0. apply Rle_antisym; auto.
    rewrite <- (round_0 radix2 (fexpf f) (round_mode (md (dmode d)))). apply round_le; [exact V|apply valid_rnd_round_mode|lra].
Qed.

(** The function meets the relational specification. *)
Lemma acosh_formula r : 1 <= r -> 0 <= ln (r + sqrt (r * r - 1)) /\
  (exp (ln (r + sqrt (r * r - 1))) + exp (- ln (r + sqrt (r * r - 1)))) / 2 = r.
Proof.
  intros Hr. set (q := sqrt (r * r - 1)).
  assert (Hq : q * q = r * r - 1) by (apply sqrt_sqrt; nra).
  assert (Pq : 0 <= q) by apply sqrt_pos.
  assert (E : exp (ln (r + q)) = r + q) by (apply exp_ln; lra).
  rewrite exp_Ropp, E. split.
  - destruct (Rle_or_lt 0 (ln (r + q))) as [|K]; auto. exfalso. apply exp_increasing in K. rewrite E, exp_0 in K. lra.
  - assert (/ (r + q) = r - q). { apply Rmult_eq_reg_l with (r + q); [|lra]. rewrite Rinv_r by lra. nra. } lra.
Qed.
Lemma atanh_formula r : Rabs r < 1 ->
  (exp (ln ((1 + r) / (1 - r)) / 2) - exp (- (ln ((1 + r) / (1 - r)) / 2))) / (exp (ln ((1 + r) / (1 - r)) / 2) + exp (- (ln ((1 + r) / (1 - r)) / 2))) = r.
Proof.
  intros H. apply Rabs_def2 in H. rewrite tanh_graph, tanh_alt.
  replace (2 * (ln ((1 + r) / (1 - r)) / 2)) with (ln ((1 + r) / (1 - r))) by field.
  rewrite exp_ln; [field; split; lra|]. apply Rdiv_lt_0_compat; lra.
Qed.
Lemma ref_graph f r v : ref_value f (Fin r) = v -> v <> NaN -> exists t, v = Fin t /\ graph f r t.
Proof.
  intros E Hn. destruct f; cbn [ref_value] in E; try (subst v; eexists; split; [reflexivity|]; cbn [graph]; reflexivity).
  - destruct Rlt_dec; [|congruence]. subst v. eexists. split; [reflexivity|]. cbn [graph]. apply exp_ln; auto.
  - destruct Req_EM_T; [congruence|]. subst v. eexists. split; [reflexivity|]. cbn [graph]. auto.
  - destruct Rle_dec as [B|]; [|congruence]. apply Rabs_le_inv in B. subst v. eexists. split; [reflexivity|]. cbn [graph].
    split; [apply asin_bound|apply sin_asin; lra].
  - destruct Rle_dec as [B|]; [|congruence]. apply Rabs_le_inv in B. subst v. eexists. split; [reflexivity|]. cbn [graph].
    split; [apply acos_bound|apply cos_acos; lra].
  - subst v. eexists. split; [reflexivity|]. cbn [graph]. split; [pose proof (atan_bound r); lra|]. apply (tan_atan r).
  - subst v. eexists. split; [reflexivity|]. cbn [graph]. apply sinh_arcsinh.
  - destruct Rle_dec; [|congruence]. subst v. eexists. split; [reflexivity|]. cbn [graph]. apply acosh_formula; auto.
  - destruct Rlt_dec; [|congruence]. subst v. eexists. split; [reflexivity|]. cbn [graph]. apply atanh_formula; auto.
Qed.
(** Values are unique. *)
Lemma graph_unique f r t t' : graph f r t -> graph f r t' -> t = t'.
Proof.
  intros G G'. destruct f; cbn [graph] in G, G'; try congruence;
  try (apply Rle_antisym; [eapply (graph_mono Flog r t r t')|eapply (graph_mono Flog r t' r t)]; cbn [increasing graph]; auto; lra);
  try (apply Rle_antisym; [eapply (graph_mono Fasin r t r t')|eapply (graph_mono Fasin r t' r t)]; cbn [increasing graph]; auto; lra);
  try (apply Rle_antisym; [eapply (graph_mono Fatan r t r t')|eapply (graph_mono Fatan r t' r t)]; cbn [increasing graph]; auto; lra);
  try (apply Rle_antisym; [eapply (graph_mono Fasinh r t r t')|eapply (graph_mono Fasinh r t' r t)]; cbn [increasing graph]; auto; lra);
  try (apply Rle_antisym; [eapply (graph_mono Facosh r t r t')|eapply (graph_mono Facosh r t' r t)]; cbn [increasing graph]; auto; lra);
  try (apply Rle_antisym; [eapply (graph_mono Fatanh r t r t')|eapply (graph_mono Fatanh r t' r t)]; cbn [increasing graph]; auto; lra).
  - destruct G as [_ ->], G' as [_ ->]. auto.
  - destruct G as [B E], G' as [B' E']. destruct (Rtotal_order t t') as [K|[K|K]]; auto; exfalso.
    + assert (cos t' < cos t) by (apply cos_decreasing_1; lra). lra.
    + assert (cos t < cos t') by (apply cos_decreasing_1; lra). lra.
Qed.
(** A value exists exactly where [ref_value] gives one. *)
Lemma ref_total f r t : graph f r t -> ref_value f (Fin r) <> NaN.
Proof.
  intros G. destruct f; cbn [ref_value graph] in *; try discriminate.
  - destruct Rlt_dec as [|K]; [discriminate|]. exfalso. apply K. subst r. apply exp_pos.
  - destruct G as [K _]. destruct Req_EM_T; [contradiction|discriminate].
  - destruct Rle_dec as [|K]; [discriminate|]. exfalso. apply K. destruct G as [_ <-]. apply Rabs_le. pose proof (SIN_bound t). lra.
  - destruct Rle_dec as [|K]; [discriminate|]. exfalso. apply K. destruct G as [_ <-]. apply Rabs_le. pose proof (COS_bound t). lra.
  - destruct Rle_dec as [|K]; [discriminate|]. exfalso. apply K. destruct G as [P E]. rewrite <- E. change (1 <= cosh t).
    rewrite <- cosh_0. apply cosh_le; lra.
  - destruct Rlt_dec as [|K]; [discriminate|]. exfalso. apply K. rewrite tanh_graph in G. subst r. apply Rabs_def1; apply tanh_bound.
Qed.
Lemma ref_xgraph f e v : xgraph f e v -> ref_value f e = v /\ v <> NaN.
Proof.
  intros G. destruct e as [| |r|]; cbn [xgraph] in G; try tauto.
  - destruct f; try tauto; subst v; split; try reflexivity; discriminate.
  - destruct G as (t & -> & G). split; [|discriminate].
    destruct (ref_graph f r _ eq_refl (ref_total f r t G)) as (t' & -> & G'). f_equal. eapply graph_unique; eauto.
  - destruct f; try tauto; subst v; split; try reflexivity; discriminate.
Qed.
Theorem ref_lib_ok p : lib_ok (ref_lib p).
Proof.
  intros f x v G. destruct (ref_xgraph f _ v G) as [E Hn]. unfold ref_lib. rewrite E.
  destruct v as [| |r|]; [congruence| | |]; cbn [f_of_ext].
  - split; exact Logic.I.
  - split; [apply (f_of_R_correct _ Dn)|apply (f_of_R_correct _ Up)].
  - split; exact Logic.I.
Qed.

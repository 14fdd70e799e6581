(** * Policies that meet the documented requirements: the library's own, and box arithmetic *)

From Coq Require Import Reals ZArith Lra Lia Psatz Bool.
From Flocq Require Import Core BinarySingleNaN.
From Verif Require Import Outcome Base Checking Interval Utility Arith Arith2 FloatNum ExactNum Spec ExtR Sem
  FloatSpec FloatPol Ops SpecUser SpecBox CoreSound ExprSound.
Local Open Scope R_scope.

(** ** The directed policies *)
Lemma fpol_user p pr k debug c ord :
  user_policy exactly (N := fnum p) fval (fpol p pr k debug c ord) (fready k).
Proof.
  pose proof (farspec p k) as S. pose proof (fsqrtspec p k) as Q.
  pose proof (fpolspec p pr k debug c ord) as F.
  assert (D2 : forall f op, op2_ok (N := fnum p) fval (fready k) (RD (N := fnum p) fval) f op -> bounds2 (N := fnum p) fval (LB (N := fnum p) exactly fval) (fready k) f op).
  { intros f op K a b Hn. destruct (K a b Hn) as (t & [A _] & R). exists t. split; auto. }
  assert (U2 : forall f op, op2_ok (N := fnum p) fval (fready k) (RU (N := fnum p) fval) f op -> bounds2 (N := fnum p) fval (UB (N := fnum p) exactly fval) (fready k) f op).
  { intros f op K a b Hn. destruct (K a b Hn) as (t & [A _] & R). exists t. split; auto. }
  split.
  - apply (ps_num _ _ _ F).
  - apply (ps_ck _ _ _ F).
  - destruct k; [exists RNE|exists RUP]; simpl; auto.
  - intros _. apply (as_init _ _ _ S).
  - apply (ps_restore _ _ _ F).
  - apply D2, (as_add_down _ _ _ S).
  - apply U2, (as_add_up _ _ _ S).
  - apply D2, (as_sub_down _ _ _ S).
  - apply U2, (as_sub_up _ _ _ S).
  - apply D2, (as_mul_down _ _ _ S).
  - apply U2, (as_mul_up _ _ _ S).
  - apply D2, (as_div_down _ _ _ S).
  - apply U2, (as_div_up _ _ _ S).
  - intros a Hn. destruct (as_sqrt_down _ _ _ Q a Hn) as (t & [A _] & R). exists t. split; auto.
  - intros a Hn. destruct (as_sqrt_up _ _ _ Q a Hn) as (t & [A _] & R). exists t. split; auto.
Qed.
Lemma fpol_signs p pr k debug c ord :
  keeps_signs (N := fnum p) fval (fpol p pr k debug c ord) (fready k).
Proof.
  pose proof (farspec p k) as S. pose proof (fnumspec p) as NS.
  assert (E : exists s, fready k s) by (destruct k; [exists RNE|exists RUP]; simpl; auto).
  destruct E as (s0 & H0).
  split; intros a b r s t Ea Eb Ha Hb R.
  - destruct (as_mul_down _ _ _ S a b) as (t' & [_ B] & R'); [rewrite Ea, Eb; discriminate|].
    assert (t = t') as ->.
    { destruct (R s0 H0) as (? & _ & E1), (R' s0 H0) as (? & _ & E2). cbn [fpol p_ar] in E1. congruence. }
    rewrite <- (ns_0 _ _ NS). apply B. rewrite (ns_0 _ _ NS), Ea, Eb. simpl. nra.
  - destruct (as_mul_up _ _ _ S a b) as (t' & [_ B] & R'); [rewrite Ea, Eb; discriminate|].
    assert (t = t') as ->.
    { destruct (R s0 H0) as (? & _ & E1), (R' s0 H0) as (? & _ & E2). cbn [fpol p_ar] in E1. congruence. }
    rewrite <- (ns_1 _ _ NS). apply B. rewrite (ns_1 _ _ NS), Ea, Eb. simpl. nra.
Qed.

(** ** Rounding to a format in one mode, as a function of extended reals *)
Section Ext.
Context (f : fmt) (m : rmode).
Definition over (neg : bool) : ext :=
  match m, neg with
  | RNE, true | RDN, true => NInf
  | RNE, false | RUP, false => PInf
  | RUP, true | RZR, true => Fin (- max_val (f := f))
  | RDN, false | RZR, false => Fin (max_val (f := f))
  end.
Definition xrnd (e : ext) : ext :=
  match e with
  | Fin r => if Rlt_bool (Rabs (rnd f (md m) r)) (bpow radix2 (emax f))
             then Fin (rnd f (md m) r) else over (Rlt_bool r 0)
  | _ => e
  end.
Lemma rnd_zero : rnd f (md m) 0 = 0.
Proof. apply round_0, valid_rnd_round_mode. Qed.
Lemma rounds_val r (t : flt f) : rounds (md m) r t -> fval t = xrnd (Fin r).
Proof.
  unfold rounds, xrnd. case Rlt_bool_spec; intros O.
  - intros [Ft Et]. rewrite fval_finite, Et; auto.
  - assert (r <> 0).
    { intros ->. rewrite rnd_zero, Rabs_R0 in O. pose proof (bpow_gt_0 radix2 (emax f)). lra. }
    intros (s & Hs & E).
    assert (Rlt_bool r 0 = s) as ->.
    { destruct s; simpl in Hs; [apply Rlt_bool_true|apply Rlt_bool_false]; lra. }
    unfold over. destruct m, s; unfold binary_overflow in E; simpl in E; simpl;
      try (apply overflow_inf in E; subst t; reflexivity);
      apply overflow_fin in E; destruct E as [Ft Et]; rewrite fval_finite, Et; auto.
Qed.
Lemma rnd_max r : Rabs (rnd f (md m) r) < bpow radix2 (emax f) -> Rabs (rnd f (md m) r) <= max_val (f := f).
Proof.
  intros L. set (q := rnd f (md m) r) in *.
  assert (G : generic_format radix2 (fexpf f) (Rabs q)).
  { apply generic_format_abs, generic_format_round; [apply fexp_correct, fmt_P0|apply valid_rnd_round_mode]. }
  pose proof (fmt_prec_gt_0 f). pose proof (fmt_prec_lt_emax f).
  assert (GB : generic_format radix2 (fexpf f) (bpow radix2 (emax f))).
  { apply generic_format_bpow. unfold SpecFloat.fexp, SpecFloat.emin. lia. }
  assert (VE : Valid_exp (fexpf f)) by (apply fexp_correct, fmt_P0).
  pose proof (pred_ge_gt radix2 (fexpf f) _ _ G GB L) as K.
  rewrite pred_bpow in K. replace (fexpf f (emax f)) with (emax f - prec f)%Z in K; auto.
  unfold SpecFloat.fexp, SpecFloat.emin. lia.
Qed.
Lemma max_pos : 0 < max_val (f := f).
Proof.
  unfold max_val. pose proof (fmt_prec_gt_0 f).
  assert (bpow radix2 (emax f - prec f) < bpow radix2 (emax f)) by (apply bpow_lt; lia). lra.
Qed.
Lemma xrnd_mono a b : xle a b -> xle (xrnd a) (xrnd b).
Proof.
  pose proof max_pos as MP.
  assert (MX : max_val (f := f) < bpow radix2 (emax f)).
  { unfold max_val. pose proof (bpow_gt_0 radix2 (emax f - prec f)). lra. }
  assert (VE : Valid_exp (fexpf f)) by (apply fexp_correct, fmt_P0).
  assert (FI : forall r s, r <= s -> xle (xrnd (Fin r)) (xrnd (Fin s))).
  { intros r s L. assert (Q : rnd f (md m) r <= rnd f (md m) s) by (apply round_le; auto; apply valid_rnd_round_mode).
    assert (Z : forall r, 0 <= r -> 0 <= rnd f (md m) r).
    { intros r0 H0. rewrite <- rnd_zero. apply round_le; auto; apply valid_rnd_round_mode. }
    assert (Z' : forall r, r <= 0 -> rnd f (md m) r <= 0).
    { intros r0 H0. rewrite <- rnd_zero. apply round_le; auto; apply valid_rnd_round_mode. }
    unfold xrnd, over. destruct (Rlt_bool_spec (Rabs (rnd f (md m) r)) (bpow radix2 (emax f))) as [Or|Or];
      destruct (Rlt_bool_spec (Rabs (rnd f (md m) s)) (bpow radix2 (emax f))) as [Os|Os].
    - exact Q.
    - pose proof (rnd_max r Or) as Mr. apply Rabs_le_inv in Mr.
      case Rlt_bool_spec; intros S.
      + pose proof (Z' s ltac:(lra)). rewrite Rabs_left1 in Os by auto. exfalso. lra.
      + destruct m; cbn [xle]; try exact I; lra.
    - pose proof (rnd_max s Os) as Ms. apply Rabs_le_inv in Ms.
      case Rlt_bool_spec; intros S.
      + destruct m; cbn [xle]; try exact I; lra.
      + pose proof (Z r ltac:(lra)). rewrite Rabs_pos_eq in Or by auto. exfalso. lra.
    - case Rlt_bool_spec; intros Sr; case Rlt_bool_spec; intros Ss; try (exfalso; lra);
        destruct m; cbn [xle]; try exact I; lra. }
  destruct a as [| |r|], b as [| |s|]; intros L; try exact L; simpl in L; try tauto; try (apply FI; exact L);
    unfold xrnd, over; try (case Rlt_bool_spec; intros O; [exact I|]); destruct m; simpl;
    try (case Rlt_bool_spec; simpl; intros; exact I); auto.
Qed.
Lemma xrnd_0 : xrnd (Fin 0) = Fin 0.
Proof.
  unfold xrnd. rewrite rnd_zero, Rabs_R0. rewrite Rlt_bool_true by apply bpow_gt_0. reflexivity.
Qed.

Ltac split_val x :=
  let E := fresh "E" in let F := fresh "F" in
  destruct (fval_cases x) as [[E F]|[[E F]|[[E F]|[E F]]]]; [| | |].
Ltac sgn x Fx :=
  destruct (Rlt_dec 0 (B2R x)) as [S|S];
  [ destruct (finite_pos x Fx S) as (?m & ?e & ?B & ->)
  | destruct (Rlt_dec (B2R x) 0) as [S'|S'];
    [ destruct (finite_neg x Fx S') as (?m & ?e & ?B & ->) | ] ].
Implicit Types x y : flt f.
Lemma fadd_val x y : xadd (fval x) (fval y) <> NaN -> fval (fadd m x y) = xrnd (xadd (fval x) (fval y)).
Proof.
  split_val x; split_val y; rewrite E, E0; simpl; intros Hn; try congruence;
    try (apply rounds_val, fadd_rounds; assumption);
    subst; unfold fadd;
    try destruct x as [| | |]; try destruct y as [| | |]; simpl in *; congruence.
Qed.
Lemma fsub_val x y : xsub (fval x) (fval y) <> NaN -> fval (fsub m x y) = xrnd (xsub (fval x) (fval y)).
Proof.
  unfold xsub. split_val x; split_val y; rewrite E, E0; simpl; intros Hn; try congruence;
    try (apply rounds_val, fsub_rounds; assumption);
    subst; unfold fsub;
    try destruct x as [| | |]; try destruct y as [| | |]; simpl in *; congruence.
Qed.
Lemma fmul_val x y : xmul (fval x) (fval y) <> NaN -> fval (fmul m x y) = xrnd (xmul (fval x) (fval y)).
Proof.
  split_val x; split_val y; rewrite E, E0; cbn [xmul]; intros Hn; try congruence;
    try (apply rounds_val, fmul_rounds; assumption);
    subst; try reflexivity;
    revert Hn;
    match goal with F : is_finite ?u = true |- _ => sgn u F; intros Hn; try (exfalso; apply Hn; reflexivity); reflexivity end.
Qed.
Lemma fdiv_val x y : xdiv (fval x) (fval y) <> NaN -> fval (fdiv m x y) = xrnd (xdiv (fval x) (fval y)).
Proof.
  split_val x; split_val y; rewrite E, E0; cbn [xdiv]; intros Hn; try congruence.
  - subst x. revert Hn. sgn y F0; intros Hn; try (exfalso; apply Hn; reflexivity); reflexivity.
  - subst x. revert Hn. sgn y F0; intros Hn; try (exfalso; apply Hn; reflexivity); reflexivity.
  - subst y. rewrite xrnd_0. destruct x; try discriminate; reflexivity.
  - subst y. rewrite xrnd_0. destruct x; try discriminate; reflexivity.
  - destruct (Req_EM_T (B2R y) 0); [congruence|]. apply rounds_val, fdiv_rounds; assumption.
Qed.
Lemma fsqrt_val x : xsqrt (fval x) <> NaN -> fval (fsqrt m x) = xrnd (xsqrt (fval x)).
Proof.
  split_val x; rewrite E; cbn [xsqrt]; intros Hn; try congruence.
  - subst x. reflexivity.
  - destruct (Rle_dec 0 (B2R x)); [|congruence]. apply rounds_val, fsqrt_rounds; assumption.
Qed.
Lemma fconv_val g (x : flt g) : fval (fconv g f m x) = xrnd (fval x).
Proof.
  destruct (fval_cases x) as [[E F]|[[E F]|[[E F]|[E F]]]]; rewrite E; try (subst x; reflexivity).
  apply rounds_val, fconv_rounds; auto.
Qed.
End Ext.

(** ** Box arithmetic *)
Section Box.
Context (p : platform) (m : rmode).
Notation N := (fnum p).
Definition brnd (e : ext) : ext := xrnd (p_T p) m (xrnd (p_X p) m e).

Lemma brnd_rounding : rounding brnd.
Proof.
  split; unfold brnd.
  - intros a b L. apply xrnd_mono, xrnd_mono, L.
  - rewrite !xrnd_0. reflexivity.
  - reflexivity.
  - reflexivity.
Qed.
Notation ld := (fconv (p_T p) (p_X p) RNE).
Lemma brnd_nn e : e <> NaN -> brnd e <> NaN.
Proof.
  intros He K. pose proof (rnd_mono _ brnd_rounding e e (xle_refl e He)) as L. rewrite K in L. exact L.
Qed.
Lemma sc_add_val a b : xadd (fval a) (fval b) <> NaN -> fval (sc_add p m a b) = brnd (xadd (fval a) (fval b)).
Proof.
  intros Hn. unfold sc_add. rewrite fconv_val. rewrite <- (fval_ld p a), <- (fval_ld p b) in *.
  rewrite fadd_val; auto.
Qed.
Lemma sc_sub_val a b : xsub (fval a) (fval b) <> NaN -> fval (sc_sub p m a b) = brnd (xsub (fval a) (fval b)).
Proof.
  intros Hn. unfold sc_sub. rewrite fconv_val. rewrite <- (fval_ld p a), <- (fval_ld p b) in *.
  rewrite fsub_val; auto.
Qed.
Lemma sc_mul_val a b : xmul (fval a) (fval b) <> NaN -> fval (sc_mul p m a b) = brnd (xmul (fval a) (fval b)).
Proof.
  intros Hn. unfold sc_mul. rewrite fconv_val. rewrite <- (fval_ld p a), <- (fval_ld p b) in *.
  rewrite fmul_val; auto.
Qed.
Lemma sc_div_val a b : xdiv (fval a) (fval b) <> NaN -> fval (sc_div p m a b) = brnd (xdiv (fval a) (fval b)).
Proof.
  intros Hn. unfold sc_div. rewrite fconv_val. rewrite <- (fval_ld p a), <- (fval_ld p b) in *.
  rewrite fdiv_val; auto.
Qed.
Lemma sc_sqrt_val a : xsqrt (fval a) <> NaN -> fval (sc_sqrt p m a) = brnd (xsqrt (fval a)).
Proof.
  intros Hn. unfold sc_sqrt. rewrite fconv_val. rewrite <- (fval_ld p a) in *.
  rewrite fsqrt_val; auto.
Qed.

Lemma box_user debug c ord :
  user_policy brnd (N := N) fval (exact_pol N debug c ord) (fun s => s = m).
Proof.
  assert (B2 : forall f (op : T N -> T N -> M (T N)) sc,
    (forall a b, f (fval a) (fval b) <> NaN -> fval (sc a b) = brnd (f (fval a) (fval b))) ->
    (forall a b, op a b m = (Ok (sc a b : T N), m)) ->
    bounds2 (N := N) fval (LB (N := N) brnd fval) (fun s => s = m) f op /\
    bounds2 (N := N) fval (UB (N := N) brnd fval) (fun s => s = m) f op).
  { intros f op sc K R. split; intros a b Hn; exists (sc a b); (split;
      [|intros s ->; exists m; auto]); unfold LB, UB; rewrite K by auto; apply xle_refl, brnd_nn, Hn. }
  assert (B1 : forall f (op : T N -> M (T N)) sc,
    (forall a, f (fval a) <> NaN -> fval (sc a) = brnd (f (fval a))) ->
    (forall a, op a m = (Ok (sc a : T N), m)) ->
    bounds1 (N := N) fval (LB (N := N) brnd fval) (fun s => s = m) f op /\
    bounds1 (N := N) fval (UB (N := N) brnd fval) (fun s => s = m) f op).
  { intros f op sc K R. split; intros a Hn; exists (sc a); (split;
      [|intros s ->; exists m; auto]); unfold LB, UB; rewrite K by auto; apply xle_refl, brnd_nn, Hn. }
  split.
  - apply fnumspec.
  - apply (fckspec p debug c).
  - exists m. reflexivity.
  - discriminate.
  - discriminate.
  - apply (B2 _ _ (sc_add p m) sc_add_val). intros; reflexivity.
  - apply (B2 _ _ (sc_add p m) sc_add_val). intros; reflexivity.
  - apply (B2 _ _ (sc_sub p m) sc_sub_val). intros; reflexivity.
  - apply (B2 _ _ (sc_sub p m) sc_sub_val). intros; reflexivity.
  - apply (B2 _ _ (sc_mul p m) sc_mul_val). intros; reflexivity.
  - apply (B2 _ _ (sc_mul p m) sc_mul_val). intros; reflexivity.
  - apply (B2 _ _ (sc_div p m) sc_div_val). intros; reflexivity.
  - apply (B2 _ _ (sc_div p m) sc_div_val). intros; reflexivity.
  - apply (B1 _ _ (sc_sqrt p m) sc_sqrt_val). intros; reflexivity.
  - apply (B1 _ _ (sc_sqrt p m) sc_sqrt_val). intros; reflexivity.
Qed.

(** The scalar program computes what [computes] says. *)
Lemma fin_some (t u : flt (p_T p)) : fin p t = Some u -> t = u /\ is_finite u = true.
Proof. unfold fin. destruct (is_finite t) eqn:E; [|discriminate]. intros [= <-]. auto. Qed.
Lemma sc2_rel o x y t r s : fval x = Fin r -> fval y = Fin s -> sc2 p m o x y = Some t ->
  exists q, fval t = Fin q /\ rel2_rnd brnd o r s q.
Proof.
  intros Ex Ey. destruct o; cbn [sc2]; intros K; try discriminate; apply fin_some in K; destruct K as [<- F].
  - pose proof (sc_add_val x y) as V. rewrite Ex, Ey in V. specialize (V ltac:(discriminate)).
    rewrite (fval_finite _ F) in *. eexists. split; [reflexivity|]. exists (r + s). split; [reflexivity|]. symmetry. exact V.
  - pose proof (sc_sub_val x y) as V. rewrite Ex, Ey in V. specialize (V ltac:(discriminate)).
    rewrite (fval_finite _ F) in *. eexists. split; [reflexivity|]. exists (r - s). split; [reflexivity|]. symmetry. exact V.
  - pose proof (sc_mul_val x y) as V. rewrite Ex, Ey in V. specialize (V ltac:(discriminate)).
    rewrite (fval_finite _ F) in *. eexists. split; [reflexivity|]. exists (r * s). split; [reflexivity|]. symmetry. exact V.
  - pose proof (sc_div_val x y) as V. rewrite Ex, Ey in V. simpl in V.
    destruct (Req_EM_T s 0) as [S|S].
    + exfalso. subst s.
      assert (exists b, y = B754_zero b) as (b & ->).
      { apply fval_fin_iff in Ey. destruct Ey as [Fy Ey]. destruct y as [b|b| |b my e B]; try discriminate; eauto.
        exfalso. revert Ey. apply F2R_neq_0. destruct b; simpl; lia. }
      apply fval_fin_iff in Ex. destruct Ex as [Fx _].
      unfold sc_div in F. 
      assert (L : fconv (p_T p) (p_X p) RNE (B754_zero b) = B754_zero b) by reflexivity. rewrite L in F.
      assert (FL : is_finite (fconv (p_T p) (p_X p) RNE x) = true).
      { pose proof (fval_ld p x) as K. rewrite (fval_finite x Fx) in K. apply fval_fin_iff in K. tauto. }
      destruct (fconv (p_T p) (p_X p) RNE x); try discriminate FL; discriminate F.
    + specialize (V ltac:(discriminate)).
      rewrite (fval_finite _ F) in *. eexists. split; [reflexivity|]. exists (r / s). split; [split; [exact S|reflexivity]|]. symmetry. exact V.
  - exists (Rmax r s). split; [|reflexivity]. 
    destruct (Bltb x y) eqn:B; [apply Bltb_fval in B|apply not_true_iff_false in B; rewrite Bltb_fval in B];
      rewrite Ex, Ey in B; simpl in B; [rewrite Ey, Rmax_right|rewrite Ex, Rmax_left]; auto; lra.
  - exists (Rmin r s). split; [|reflexivity]. 
    destruct (Bltb y x) eqn:B; [apply Bltb_fval in B|apply not_true_iff_false in B; rewrite Bltb_fval in B];
      rewrite Ex, Ey in B; simpl in B; [rewrite Ey, Rmin_right|rewrite Ex, Rmin_left]; auto; lra.
Qed.
Lemma sc1_rel o x t r : fval x = Fin r -> sc1 p m o x = Some t ->
  exists q, fval t = Fin q /\ rel1_rnd brnd o r q.
Proof.
  intros Ex. destruct o; cbn [sc1]; intros K; try discriminate.
  - apply fin_some in K. destruct K as [<- F]. exists (- r). split; [|reflexivity].
    change (Bopp x) with (fopp x). rewrite fval_opp, Ex. reflexivity.
  - apply fin_some in K. destruct K as [<- F]. exists (Rabs r). split; [|reflexivity].
    rewrite (fval_finite _ F), B2R_Babs. apply fval_fin_iff in Ex. destruct Ex as [_ ->]. reflexivity.
  - apply fin_some in K. destruct K as [<- F].
    pose proof (sc_sqrt_val x) as V. rewrite Ex in V. simpl in V. destruct (Rle_dec 0 r) as [R|R].
    + specialize (V ltac:(discriminate)). rewrite (fval_finite _ F) in *.
      eexists. split; [reflexivity|]. exists (sqrt r). split; [split; [exact R|reflexivity]|]. symmetry. exact V.
    + exfalso. unfold sc_sqrt in F. pose proof (fval_ld p x) as L. rewrite Ex in L.
      apply fval_fin_iff in L. destruct L as [FL EL].
      assert (N0 : B2R (fconv (p_T p) (p_X p) RNE x) < 0) by lra.
      destruct (finite_neg _ FL N0) as (mx & e & B & E). rewrite E in F. discriminate F.
  - change (fin p (sc_mul p m x x) = Some t) in K.
    destruct (sc2_rel B_mul x x t r r Ex Ex K) as (q & Eq & Hq). exists q. split; auto.
  - change (sc2 p m B_div (f_of_Z (p_T p) RNE 1) x = Some t) in K.
    assert (E1 : fval (f_of_Z (p_T p) RNE 1) = Fin 1) by (apply (ns_1 _ _ (fnumspec p))).
    destruct (sc2_rel B_div _ _ t 1 r E1 Ex K) as (q & Eq & Hq). exists q. split; auto.
Qed.
Lemma obind_some {A B} (o : option A) (k : A -> option B) b : obind o k = Some b -> exists a, o = Some a /\ k a = Some b.
Proof. destruct o; [eauto|discriminate]. Qed.

Definition rval (x : flt (p_T p)) : R := B2R x.
Lemma scalar_computes rho : forall e t, proper (N := N) fval e -> scalar p m e rho = Some t ->
  exists q, fval t = Fin q /\ computes brnd (N := N) fval e (fun n => B2R (rho n)) q.
Proof.
  induction e as [n|v|o e IH|o e1 IH1 e2 IH2|o e IH v|o v e IH|o v w|e1 IH1 e2 IH2|e IH v];
    cbn [scalar computes]; intros t Wf K; simpl in Wf.
  - apply fin_some in K. destruct K as [-> F]. exists (B2R t). split; auto using fval_finite.
  - apply fin_some in K. destruct K as [-> F]. exists (B2R t). split; apply fval_finite; auto.
  - apply obind_some in K. destruct K as (x & Kx & K). destruct (IH x) as (r & Er & Cr); [tauto|auto|].
    destruct (sc1_rel o x t r Er K) as (q & Eq & Hq). exists q. split; eauto.
  - apply obind_some in K. destruct K as (x & Kx & K). apply obind_some in K. destruct K as (y & Ky & K).
    destruct (IH1 x) as (r & Er & Cr); [tauto|auto|]. destruct (IH2 y) as (s & Es & Cs); [tauto|auto|].
    destruct (sc2_rel o x y t r s Er Es K) as (q & Eq & Hq). exists q. split; auto. exists r, s. auto.
  - apply obind_some in K. destruct K as (x & Kx & K). destruct Wf as (We & Wv).
    destruct (IH x) as (r & Er & Cr); [tauto|auto|].
    destruct Wv as (s & Es).
    destruct (sc2_rel o x v t r s Er Es K) as (q & Eq & Hq). exists q. split; auto. exists r, s. auto.
  - apply obind_some in K. destruct K as (x & Kx & K). destruct Wf as (We & Wv).
    destruct (IH x) as (r & Er & Cr); [tauto|auto|].
    destruct Wv as (s & Es).
    destruct (sc2_rel o v x t s r Es Er K) as (q & Eq & Hq). exists q. split; auto. exists s, r. auto.
  - destruct Wf as ((r & Er) & (s & Es)).
    destruct (sc2_rel (op_of o) v w t r s Er Es K) as (q & Eq & Hq). exists q. split; auto. exists r, s. auto.
  - discriminate.
  - discriminate.
Qed.
Lemma scalar_no_pow rho : forall e t, scalar p m e rho = Some t -> has_pow e -> False.
Proof.
  induction e as [n|v|o e IH|o e1 IH1 e2 IH2|o e IH v|o v e IH|o v w|e1 IH1 e2 IH2|e IH v];
    cbn [scalar has_pow]; intros t K; try tauto; try discriminate.
  - apply obind_some in K. destruct K as (x & Kx & K). intros [Q|Q]; [|eauto]. destruct o; try tauto. discriminate.
  - apply obind_some in K. destruct K as (x & Kx & K). apply obind_some in K. destruct K as (y & Ky & K).
    intros [Q|Q]; eauto.
  - apply obind_some in K. destruct K as (x & Kx & K). eauto.
  - apply obind_some in K. destruct K as (x & Kx & K). eauto.
Qed.
End Box.

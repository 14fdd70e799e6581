(** * The floating-point instances satisfy the rounding interface *)

From Coq Require Import Reals ZArith Lra Lia Bool.
From Flocq Require Import Core BinarySingleNaN.
From Verif Require Import Outcome Base Checking Interval Utility Arith Arith2 FloatNum Spec ExtR Sem.
Local Open Scope R_scope.

(** Directed rounding of an extended real in a format. *)
Definition rd {f : fmt} (e : ext) (t : flt f) : Prop :=
  xle (fval t) e /\ forall t' : flt f, xle (fval t') e -> xle (fval t') (fval t).
Definition ru {f : fmt} (e : ext) (t : flt f) : Prop :=
  xle e (fval t) /\ forall t' : flt f, xle e (fval t') -> xle (fval t) (fval t').

Notation fexpf f := (SpecFloat.fexp (prec f) (emax f)).
Notation rnd f m r := (round radix2 (fexpf f) (round_mode m) r).

Section Fmt.
Context {f : fmt}.
Implicit Types x y t : flt f.

#[local] Instance valid_exp_f : Valid_exp (fexpf f).
Proof. apply FLT_exp_valid. apply fmt_prec_gt_0. Qed.

Lemma fval_finite x : is_finite x = true -> fval x = Fin (B2R x).
Proof. destruct x as [s|s| |s m e B]; simpl; try discriminate; auto. Qed.
Lemma fval_fin_iff x r : fval x = Fin r <-> is_finite x = true /\ B2R x = r.
Proof.
  destruct x as [s|[|]| |s m e B]; simpl; split; try discriminate; try (intros []; discriminate).
  - intros [=]; auto.
  - intros [_ <-]; auto.
  - intros [=]; auto.
  - intros [_ <-]; auto.
Qed.
Lemma fval_cases x : (fval x = NaN /\ x = B754_nan) \/ (fval x = NInf /\ x = B754_infinity true) \/
  (fval x = PInf /\ x = B754_infinity false) \/ (fval x = Fin (B2R x) /\ is_finite x = true).
Proof. destruct x as [s|[|]| |s m e B]; simpl; auto 6. Qed.

Lemma fval_opp x : fval (fopp x) = xopp (fval x).
Proof.
  destruct x as [s|[|]| |s m e B]; simpl; auto; try (f_equal; lra).
  f_equal. unfold F2R. simpl. destruct s; simpl; rewrite ?Pos2Z.opp_pos, ?Pos2Z.opp_neg; simpl;
    try change (Z.neg m) with (- Z.pos m)%Z; rewrite ?opp_IZR; lra.
Qed.

(** ** Comparisons *)
Lemma Bltb_fval x y : Bltb x y = true <-> xlt (fval x) (fval y).
Proof.
  destruct (is_finite x) eqn:Fx, (is_finite y) eqn:Fy.
  - rewrite Bltb_correct, !fval_finite by auto. simpl. 
    case Rlt_bool_spec; intros; split; intros; try lra; try discriminate; auto.
  - destruct x as [s|s| |s m e B], y as [s'|[|]| |s' m' e' B']; try discriminate; cbn;
      try (destruct s); split; intros; auto; discriminate || tauto.
  - destruct x as [s|[|]| |s m e B], y as [s'|s'| |s' m' e' B']; try discriminate; cbn;
      try (destruct s'); split; intros; auto; discriminate || tauto.
  - destruct x as [s|[|]| |s m e B], y as [s'|[|]| |s' m' e' B']; try discriminate; cbn;
      split; intros; auto; discriminate || tauto.
Qed.
Lemma Bleb_fval x y : Bleb x y = true <-> xle (fval x) (fval y).
Proof.
  destruct (is_finite x) eqn:Fx, (is_finite y) eqn:Fy.
  - rewrite Bleb_correct, !fval_finite by auto. simpl. 
    case Rle_bool_spec; intros; split; intros; try lra; try discriminate; auto.
  - destruct x as [s|s| |s m e B], y as [s'|[|]| |s' m' e' B']; try discriminate; cbn;
      try (destruct s); split; intros; auto; discriminate || tauto.
  - destruct x as [s|[|]| |s m e B], y as [s'|s'| |s' m' e' B']; try discriminate; cbn;
      try (destruct s'); split; intros; auto; discriminate || tauto.
  - destruct x as [s|[|]| |s m e B], y as [s'|[|]| |s' m' e' B']; try discriminate; cbn;
      split; intros; auto; discriminate || tauto.
Qed.
Lemma Beqb_fval x y : Beqb x y = true <-> fval x = fval y /\ fval x <> NaN.
Proof.
  destruct (is_finite x) eqn:Fx, (is_finite y) eqn:Fy.
  - rewrite Beqb_correct, !fval_finite by auto.
    case Req_bool_spec; intros; split; intros; auto; try discriminate.
    + split; congruence.
    + destruct H0. congruence.
  - destruct x as [s|s| |s m e B], y as [s'|[|]| |s' m' e' B']; try discriminate; cbn;
      try (destruct s); split; try discriminate; intros [? ?]; discriminate || tauto.
  - destruct x as [s|[|]| |s m e B], y as [s'|s'| |s' m' e' B']; try discriminate; cbn;
      try (destruct s'); split; try discriminate; intros [? ?]; discriminate || tauto.
  - destruct x as [s|[|]| |s m e B], y as [s'|[|]| |s' m' e' B']; try discriminate; cbn;
      split; try discriminate; try (intros [? ?]; discriminate || tauto); split; congruence.
Qed.

(** ** Correct rounding in one mode, overflow included *)
Definition sgn_ok (s : bool) (r : R) : Prop := if s then r <= 0 else 0 <= r.
Definition rounds (m : mode) (r : R) (t : flt f) : Prop :=
  if Rlt_bool (Rabs (rnd f m r)) (bpow radix2 (emax f))
  then is_finite t = true /\ B2R t = rnd f m r
  else exists s, sgn_ok s r /\ B2SF t = binary_overflow (prec f) (emax f) m s.

Lemma finite_lt_emax x : Rabs (B2R x) < bpow radix2 (emax f).
Proof. apply abs_B2R_lt_emax. Qed.
Definition max_val : R := bpow radix2 (emax f) - bpow radix2 (emax f - prec f).
Lemma finite_le_max x : Rabs (B2R x) <= max_val.
Proof. apply abs_B2R_le_emax_minus_prec, fmt_prec_gt_0. Qed.

Lemma overflow_fin t s : B2SF t = SpecFloat.S754_finite s (Z.to_pos (2 ^ prec f - 1)) (emax f - prec f) ->
  is_finite t = true /\ B2R t = if s then - max_val else max_val.
Proof.
  intros E. split.
  - destruct t; simpl in *; try discriminate; auto.
  - rewrite <- SF2R_B2SF, E. simpl. unfold F2R, max_val. simpl.
    pose proof (fmt_prec_gt_0 f) as P0.
    assert (Q : (0 < 2 ^ prec f - 1)%Z).
    { pose proof (Z.pow_gt_1 2 (prec f)). lia. }
    assert (W : IZR (Z.pos (Z.to_pos (2 ^ prec f - 1))) = bpow radix2 (prec f) - 1).
    { rewrite Z2Pos.id by auto. rewrite minus_IZR. f_equal. change 2%Z with (radix_val radix2).
      rewrite IZR_Zpower by lia. reflexivity. }
    assert (B : bpow radix2 (emax f) = bpow radix2 (prec f) * bpow radix2 (emax f - prec f)).
    { rewrite <- bpow_plus. f_equal. lia. }
    destruct s; simpl.
    + change (Z.neg (Z.to_pos (2 ^ prec f - 1))) with (- Z.pos (Z.to_pos (2 ^ prec f - 1)))%Z.
      rewrite opp_IZR, W, B. ring.
    + rewrite W, B. ring.
Qed.
Lemma overflow_inf t s : B2SF t = SpecFloat.S754_infinity s -> t = B754_infinity s.
Proof. destruct t; simpl; try discriminate. intros [= ->]. auto. Qed.

Lemma rounds_rd r t : rounds mode_DN r t -> rd (Fin r) t.
Proof.
  unfold rounds. pose proof (round_DN_pt radix2 (fexpf f) r) as (G & L & K).
  change (round radix2 (fexpf f) Zfloor r) with (rnd f mode_DN r) in *.
  set (q := rnd f mode_DN r) in *. clearbody q.
  case Rlt_bool_spec; intros O.
  - intros [Ft Et]. split; rewrite (fval_finite t Ft), Et; auto.
    intros t' Ht'. destruct (fval_cases t') as [[E _]|[[E _]|[[E _]|[E _]]]]; rewrite E in *; simpl in *; try tauto.
    apply K; auto. apply generic_format_B2R.
  - intros (s & Hs & E). unfold binary_overflow in E. simpl in E. destruct s; simpl in *.
    + apply overflow_inf in E. subst t. split; simpl; auto.
      intros t' Ht'. destruct (fval_cases t') as [[E _]|[[E _]|[[E _]|[E _]]]]; rewrite E in *; simpl in *; try tauto.
      exfalso. pose proof (finite_lt_emax t').
      assert (B2R t' <= q) by (apply K; auto; apply generic_format_B2R).
      pose proof (Rle_abs (- B2R t')) as Q. rewrite Rabs_Ropp in Q.
      rewrite Rabs_left1 in O by lra. lra.
    + apply overflow_fin in E. destruct E as [Ft Et]. simpl in Et.
      split; rewrite (fval_finite t Ft), Et; simpl.
      * assert (0 <= q) by (apply K; auto; apply generic_format_0).
        rewrite Rabs_pos_eq in O by auto.
        pose proof (bpow_gt_0 radix2 (emax f - prec f)). unfold max_val. lra.
      * intros t' Ht'. destruct (fval_cases t') as [[E _]|[[E _]|[[E _]|[E _]]]]; rewrite E in *; simpl in *; try tauto.
        pose proof (finite_le_max t'). pose proof (Rle_abs (B2R t')). lra.
Qed.
Lemma rounds_ru r t : rounds mode_UP r t -> ru (Fin r) t.
Proof.
  unfold rounds. pose proof (round_UP_pt radix2 (fexpf f) r) as (G & L & K).
  change (round radix2 (fexpf f) Zceil r) with (rnd f mode_UP r) in *.
  set (q := rnd f mode_UP r) in *. clearbody q.
  case Rlt_bool_spec; intros O.
  - intros [Ft Et]. split; rewrite (fval_finite t Ft), Et; auto.
    intros t' Ht'. destruct (fval_cases t') as [[E _]|[[E _]|[[E _]|[E _]]]]; rewrite E in *; simpl in *; try tauto.
    apply K; auto. apply generic_format_B2R.
  - intros (s & Hs & E). unfold binary_overflow in E. simpl in E. destruct s; simpl in *.
    + apply overflow_fin in E. destruct E as [Ft Et]. simpl in Et.
      split; rewrite (fval_finite t Ft), Et; simpl.
      * assert (q <= 0) by (apply K; auto; apply generic_format_0).
        rewrite Rabs_left1 in O by auto.
        pose proof (bpow_gt_0 radix2 (emax f - prec f)). unfold max_val. lra.
      * intros t' Ht'. destruct (fval_cases t') as [[E _]|[[E _]|[[E _]|[E _]]]]; rewrite E in *; simpl in *; try tauto.
        pose proof (finite_le_max t'). pose proof (Rle_abs (- B2R t')) as Q. rewrite Rabs_Ropp in Q. lra.
    + apply overflow_inf in E. subst t. split; simpl; auto.
      intros t' Ht'. destruct (fval_cases t') as [[E _]|[[E _]|[[E _]|[E _]]]]; rewrite E in *; simpl in *; try tauto.
      exfalso. pose proof (finite_lt_emax t').
      assert (q <= B2R t') by (apply K; auto; apply generic_format_B2R).
      pose proof (Rle_abs (B2R t')) as Q. 
      rewrite Rabs_pos_eq in O by lra. lra.
Qed.
(** A representable real is returned unchanged in every mode. *)
Lemma rounds_exact m x t : is_finite x = true -> rounds m (B2R x) t -> fval t = fval x.
Proof.
  intros Fx. unfold rounds. pose proof (generic_format_B2R (prec f) (emax f) x) as G.
  assert (E : rnd f m (B2R x) = B2R x) by (apply round_generic; auto; apply valid_rnd_round_mode).
  rewrite E. rewrite Rlt_bool_true by apply finite_lt_emax.
  intros [Ft Et]. rewrite !fval_finite, Et by auto. auto.
Qed.

(** ** The operations round correctly *)
Lemma sgn_B2R x : is_finite x = true -> sgn_ok (Bsign x) (B2R x).
Proof.
  destruct x as [s|s| |s m e B]; simpl; try discriminate; intros _.
  - destruct s; simpl; lra.
  - destruct s; simpl.
    + apply F2R_le_0. simpl. lia.
    + apply F2R_ge_0. simpl. lia.
Qed.
Lemma fadd_rounds m x y : is_finite x = true -> is_finite y = true ->
  rounds m (B2R x + B2R y) (Bplus (prec_gt_0_ := fmt_P0 f) (prec_lt_emax_ := fmt_PE f) m x y).
Proof.
  intros Fx Fy. unfold rounds. pose proof (Bplus_correct (prec f) (emax f) (fmt_P0 f) (fmt_PE f) m x y Fx Fy) as K.
  destruct Rlt_bool.
  - destruct K as (A & B & _). auto.
  - destruct K as (A & B). exists (Bsign x). split; auto.
    pose proof (sgn_B2R x Fx). pose proof (sgn_B2R y Fy). rewrite <- B in *.
    destruct (Bsign x); simpl in *; lra.
Qed.
Lemma fsub_rounds m x y : is_finite x = true -> is_finite y = true ->
  rounds m (B2R x - B2R y) (Bminus (prec_gt_0_ := fmt_P0 f) (prec_lt_emax_ := fmt_PE f) m x y).
Proof.
  intros Fx Fy. unfold rounds. pose proof (Bminus_correct (prec f) (emax f) (fmt_P0 f) (fmt_PE f) m x y Fx Fy) as K.
  destruct Rlt_bool.
  - destruct K as (A & B & _). auto.
  - destruct K as (A & B). exists (Bsign x). split; auto.
    pose proof (sgn_B2R x Fx). pose proof (sgn_B2R y Fy). rewrite B in *.
    destruct (Bsign y); simpl in *; lra.
Qed.
Lemma fmul_rounds m x y : is_finite x = true -> is_finite y = true ->
  rounds m (B2R x * B2R y) (Bmult (prec_gt_0_ := fmt_P0 f) (prec_lt_emax_ := fmt_PE f) m x y).
Proof.
  intros Fx Fy. unfold rounds. pose proof (Bmult_correct (prec f) (emax f) (fmt_P0 f) (fmt_PE f) m x y) as K.
  destruct Rlt_bool.
  - destruct K as (A & B & _). rewrite Fx, Fy in B. auto.
  - exists (xorb (Bsign x) (Bsign y)). split; auto.
    pose proof (sgn_B2R x Fx). pose proof (sgn_B2R y Fy).
    destruct (Bsign x), (Bsign y); simpl in *; nra.
Qed.
Lemma fdiv_rounds m x y : is_finite x = true -> is_finite y = true -> B2R y <> 0 ->
  rounds m (B2R x / B2R y) (Bdiv (prec_gt_0_ := fmt_P0 f) (prec_lt_emax_ := fmt_PE f) m x y).
Proof.
  intros Fx Fy Ny. unfold rounds. pose proof (Bdiv_correct (prec f) (emax f) (fmt_P0 f) (fmt_PE f) m x y Ny) as K.
  destruct Rlt_bool.
  - destruct K as (A & B & _). rewrite Fx in B. auto.
  - exists (xorb (Bsign x) (Bsign y)). split; auto.
    pose proof (sgn_B2R x Fx). pose proof (sgn_B2R y Fy). unfold Rdiv.
    destruct (Bsign x), (Bsign y); simpl in *;
      (assert (B2R y < 0 /\ / B2R y < 0 \/ 0 < B2R y /\ 0 < / B2R y)
        by (destruct (Rdichotomy _ _ Ny); [left; split; auto; apply Rinv_lt_0_compat; auto
                                          |right; split; auto; apply Rinv_0_lt_compat; auto])); nra.
Qed.
Lemma fsqrt_rounds m x : is_finite x = true -> 0 <= B2R x ->
  rounds m (sqrt (B2R x)) (Bsqrt (prec_gt_0_ := fmt_P0 f) (prec_lt_emax_ := fmt_PE f) m x).
Proof.
  intros Fx Px. unfold rounds. destruct (Bsqrt_correct (prec f) (emax f) (fmt_P0 f) (fmt_PE f) m x) as (A & B & _).
  rewrite <- A. rewrite Rlt_bool_true by apply finite_lt_emax. split; auto. rewrite B.
  destruct x as [s|s| |[|] mx e Bx]; simpl in *; try discriminate; auto.
  exfalso. assert (F2R (Float radix2 (Z.neg mx) e) < 0) by (apply F2R_lt_0; simpl; lia). simpl in *. lra.
Qed.
Lemma normalize_rounds m z e s :
  rounds m (F2R (Float radix2 z e)) (binary_normalize (prec f) (emax f) (fmt_P0 f) (fmt_PE f) m z e s).
Proof.
  unfold rounds. pose proof (binary_normalize_correct (prec f) (emax f) (fmt_P0 f) (fmt_PE f) m z e s) as K.
  cbv zeta in K. destruct Rlt_bool.
  - destruct K as (A & B & _). auto.
  - exists (Rlt_bool (F2R (Float radix2 z e)) 0). split; auto. case Rlt_bool_spec; simpl; lra.
Qed.
End Fmt.

(** ** Directed operations in one format, special values included *)
Section Directed.
Context {f : fmt}.
Implicit Types x y t : flt f.

Lemma rd_of_val t e : fval t = e -> e <> NaN -> rd e t.
Proof. intros E He. split; rewrite E; auto. apply xle_refl; auto. Qed.
Lemma ru_of_val t e : fval t = e -> e <> NaN -> ru e t.
Proof. intros E He. split; rewrite E; auto. apply xle_refl; auto. Qed.

(** The directed modes. *)
Inductive dir := Dn | Up.
Definition dmode (d : dir) : rmode := match d with Dn => RDN | Up => RUP end.
Definition dr (d : dir) (e : ext) t : Prop := match d with Dn => rd e t | Up => ru e t end.
Lemma rounds_dr d r t : rounds (md (dmode d)) r t -> dr d (Fin r) t.
Proof. destruct d; [apply rounds_rd|apply rounds_ru]. Qed.
Lemma dr_of_val d t e : fval t = e -> e <> NaN -> dr d e t.
Proof. destruct d; [apply rd_of_val|apply ru_of_val]. Qed.

Ltac split_val x :=
  let E := fresh "E" in let F := fresh "F" in
  destruct (fval_cases x) as [[E F]|[[E F]|[[E F]|[E F]]]]; [| | |].

Lemma fadd_dr d x y : xadd (fval x) (fval y) <> NaN -> dr d (xadd (fval x) (fval y)) (fadd (dmode d) x y).
Proof.
  split_val x; split_val y; rewrite E, E0; simpl; intros Hn; try congruence;
    try (apply rounds_dr, fadd_rounds; assumption);
    subst; apply dr_of_val; try congruence; unfold fadd;
    try destruct x as [| | |]; try destruct y as [| | |]; simpl in *; congruence.
Qed.
Lemma fsub_dr d x y : xsub (fval x) (fval y) <> NaN -> dr d (xsub (fval x) (fval y)) (fsub (dmode d) x y).
Proof.
  unfold xsub. split_val x; split_val y; rewrite E, E0; simpl; intros Hn; try congruence;
    try (apply rounds_dr, fsub_rounds; assumption);
    subst; apply dr_of_val; try congruence; unfold fsub;
    try destruct x as [| | |]; try destruct y as [| | |]; simpl in *; congruence.
Qed.
Lemma B2R_sign_pos s m e B : 0 < B2R (B754_finite s m e B : flt f) -> s = false.
Proof. destruct s; auto. simpl. intros K. exfalso. assert (F2R (Float radix2 (Z.neg m) e) < 0) by (apply F2R_lt_0; simpl; lia). simpl in *. lra. Qed.
Lemma B2R_sign_neg s m e B : B2R (B754_finite s m e B : flt f) < 0 -> s = true.
Proof. destruct s; auto. simpl. intros K. exfalso. assert (0 < F2R (Float radix2 (Z.pos m) e)) by (apply F2R_gt_0; simpl; lia). simpl in *. lra. Qed.
Lemma finite_pos x : is_finite x = true -> 0 < B2R x -> exists m e B, x = B754_finite false m e B.
Proof.
  destruct x as [s|s| |s m e B]; try discriminate; intros _ K.
  - simpl in K. lra.
  - pose proof (B2R_sign_pos s m e B K). subst. eauto.
Qed.
Lemma finite_neg x : is_finite x = true -> B2R x < 0 -> exists m e B, x = B754_finite true m e B.
Proof.
  destruct x as [s|s| |s m e B]; try discriminate; intros _ K.
  - simpl in K. lra.
  - pose proof (B2R_sign_neg s m e B K). subst. eauto.
Qed.
Ltac sgn x Fx :=
  destruct (Rlt_dec 0 (B2R x)) as [S|S];
  [ destruct (finite_pos x Fx S) as (?m & ?e & ?B & ->)
  | destruct (Rlt_dec (B2R x) 0) as [S'|S'];
    [ destruct (finite_neg x Fx S') as (?m & ?e & ?B & ->) | ] ].
Lemma fmul_dr d x y : xmul (fval x) (fval y) <> NaN -> dr d (xmul (fval x) (fval y)) (fmul (dmode d) x y).
Proof.
  split_val x; split_val y; rewrite E, E0; cbn [xmul]; intros Hn; try congruence;
    try (apply rounds_dr, fmul_rounds; assumption);
    subst; try (apply dr_of_val; [reflexivity|congruence]);
    revert Hn;
    match goal with F : is_finite ?u = true |- _ => sgn u F; intros Hn; try (exfalso; apply Hn; reflexivity); apply dr_of_val; first [reflexivity|congruence] end.
Qed.
Lemma fdiv_dr d x y : xdiv (fval x) (fval y) <> NaN -> dr d (xdiv (fval x) (fval y)) (fdiv (dmode d) x y).
Proof.
  split_val x; split_val y; rewrite E, E0; cbn [xdiv]; intros Hn; try congruence.
  - subst x. revert Hn. sgn y F0; intros Hn; try (exfalso; apply Hn; reflexivity); apply dr_of_val; first [reflexivity|congruence].
  - subst x. revert Hn. sgn y F0; intros Hn; try (exfalso; apply Hn; reflexivity); apply dr_of_val; first [reflexivity|congruence].
  - subst y. apply dr_of_val; [|congruence]. destruct x; try discriminate; reflexivity.
  - subst y. apply dr_of_val; [|congruence]. destruct x; try discriminate; reflexivity.
  - destruct (Req_EM_T (B2R y) 0); [congruence|]. apply rounds_dr, fdiv_rounds; assumption.
Qed.
Lemma fsqrt_dr d x : xsqrt (fval x) <> NaN -> dr d (xsqrt (fval x)) (fsqrt (dmode d) x).
Proof.
  split_val x; rewrite E; cbn [xsqrt]; intros Hn; try congruence.
  - subst x. apply dr_of_val; [reflexivity|congruence].
  - destruct (Rle_dec 0 (B2R x)); [|congruence]. apply rounds_dr, fsqrt_rounds; assumption.
Qed.
Lemma f_of_Z_rounds m z : rounds (f := f) (md m) (IZR z) (f_of_Z f m z).
Proof.
  replace (IZR z) with (F2R (Float radix2 z 0)) by (unfold F2R; simpl; ring). apply normalize_rounds.
Qed.
Lemma f_of_Z_dr d z : dr d (Fin (IZR z)) (f_of_Z f (dmode d) z).
Proof. apply rounds_dr, f_of_Z_rounds. Qed.

Lemma rd_opp e t : ru (xopp e) t -> rd e (fopp t).
Proof.
  intros [A B]. split.
  - rewrite fval_opp. rewrite <- (xopp_involutive e). apply xle_opp; auto.
  - intros t' Ht'. rewrite fval_opp. rewrite <- (xopp_involutive (fval t')). apply xle_opp.
    rewrite <- fval_opp. apply B. rewrite fval_opp. apply xle_opp; auto.
Qed.
End Directed.

(** ** Conversions between formats *)
Lemma fconv_rounds f g m (x : flt f) : is_finite x = true ->
  rounds (f := g) (md m) (B2R x) (fconv f g m x).
Proof.
  destruct x as [s|s| |s mx e B]; try discriminate; intros _.
  - simpl. unfold rounds. rewrite round_0 by apply valid_rnd_round_mode. rewrite Rabs_R0.
    rewrite Rlt_bool_true by apply bpow_gt_0. auto.
  - apply normalize_rounds.
Qed.
Lemma fconv_dr f g d (x : flt f) : fval x <> NaN -> dr (f := g) d (fval x) (fconv f g (dmode d) x).
Proof.
  destruct (fval_cases x) as [[E F]|[[E F]|[[E F]|[E F]]]]; rewrite E; intros Hn; try congruence.
  - subst x. apply dr_of_val; [reflexivity|congruence].
  - subst x. apply dr_of_val; [reflexivity|congruence].
  - apply rounds_dr, fconv_rounds; auto.
Qed.
Lemma format_sub f g r : fmt_sub f g -> generic_format radix2 (fexpf f) r -> generic_format radix2 (fexpf g) r.
Proof.
  intros [A B]. apply generic_inclusion_mag. intros _. unfold SpecFloat.fexp, SpecFloat.emin. 
  pose proof (fmt_prec_gt_0 f). pose proof (fmt_prec_gt_0 g). lia.
Qed.
(** Widening is exact. *)
Lemma fconv_widen f g m (x : flt f) : fmt_sub f g -> fval (fconv f g m x) = fval x.
Proof.
  intros S. destruct (fval_cases x) as [[E F]|[[E F]|[[E F]|[E F]]]]; rewrite E; try (subst x; reflexivity).
  pose proof (fconv_rounds f g m x F) as K. unfold rounds in K.
  rewrite round_generic in K.
  - rewrite Rlt_bool_true in K.
    + destruct K as [Ft Et]. rewrite fval_finite, Et; auto.
    + eapply Rlt_le_trans; [apply (abs_B2R_lt_emax (prec f) (emax f))|]. apply bpow_le, S.
  - apply valid_rnd_round_mode.
  - eapply format_sub; eauto. apply generic_format_B2R.
Qed.
(** Converting a value representable in the target is exact in every mode. *)
Lemma fconv_exact f g m (x : flt f) (t : flt g) : fval x = fval t -> fval (fconv f g m x) = fval t.
Proof.
  intros Ex. destruct (fval_cases x) as [[E F]|[[E F]|[[E F]|[E F]]]]; try (subst x; rewrite <- Ex; reflexivity).
  pose proof (fconv_rounds f g m x F) as K.
  rewrite E in Ex. symmetry in Ex. apply fval_fin_iff in Ex. destruct Ex as [Ft Et].
  rewrite <- Et in K. apply (rounds_exact _ t) in K; auto.
Qed.
(** Rounding twice in the same direction, through a wider format (C49). *)
Lemma dr_trans f g d e (x : flt g) (t : flt f) : fmt_sub f g ->
  dr d e x -> dr d (fval x) t -> dr d e t.
Proof.
  intros S. destruct d; intros [A1 A2] [B1 B2]; split.
  - eapply xle_trans; eauto.
  - intros t' Ht'. apply B2. rewrite <- (fconv_widen f g RNE t' S). apply A2. rewrite fconv_widen; auto.
  - eapply xle_trans; eauto.
  - intros t' Ht'. apply B2. rewrite <- (fconv_widen f g RNE t' S). apply A2. rewrite fconv_widen; auto.
Qed.

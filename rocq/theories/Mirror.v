(** * Rounding down is rounding up, mirrored

    The identities behind rounded_arith_opp, as equalities of floats (signed
    zeros, infinities and NaN included). *)

From Coq Require Import Reals ZArith Lra Lia Bool.
From Flocq Require Import Core BinarySingleNaN.
From Verif Require Import Outcome Base FloatNum Spec ExtR FloatSpec.
Local Open Scope R_scope.

Lemma B2SF_opp (f : fmt) (x : flt f) : B2SF (Bopp x) = SpecFloat.SFopp (B2SF x).
Proof. destruct x; reflexivity. Qed.

Section Mirror.
Context {f : fmt}.
Implicit Types x y t : flt f.

(** [t] is the result of rounding the real [r]: [s0] is its sign if it does not
    overflow, [so] the sign used on overflow. *)
Definition corr (m : mode) (r : R) (s0 so : bool) t : Prop :=
  if Rlt_bool (Rabs (round radix2 (SpecFloat.fexp (prec f) (emax f)) (round_mode m) r)) (bpow radix2 (emax f))
  then B2R t = round radix2 (SpecFloat.fexp (prec f) (emax f)) (round_mode m) r /\
       is_finite t = true /\ Bsign t = s0
  else B2SF t = binary_overflow (prec f) (emax f) m so.

Lemma corr_opp r s0 so t u : corr mode_DN r s0 so t -> corr mode_UP (- r) (negb s0) (negb so) u ->
  t = fopp u.
Proof.
  unfold corr. simpl round_mode. rewrite round_UP_opp, Rabs_Ropp.
  destruct Rlt_bool.
  - intros (A & B & C) (A' & B' & C'). apply B2R_Bsign_inj; auto.
    + unfold fopp. rewrite is_finite_Bopp. auto.
    + unfold fopp. rewrite B2R_Bopp. lra.
    + unfold fopp. rewrite Bsign_Bopp by (destruct u; simpl in *; congruence).
      rewrite C, C', negb_involutive. reflexivity.
  - intros A B. apply B2SF_inj. unfold fopp. rewrite B2SF_opp, A, B.
    unfold binary_overflow, overflow_to_inf. rewrite negb_involutive.
    destruct so; reflexivity.
Qed.

Lemma sgn_cmp r : (if Rlt_bool r 0 then true else false) = Rlt_bool r 0.
Proof. destruct Rlt_bool; reflexivity. Qed.

Lemma add_mirror x y : fadd RDN x y = fopp (fsub RUP (fopp x) y).
Proof.
  destruct (is_finite x) eqn:Fx; [destruct (is_finite y) eqn:Fy|].
  - pose proof (Bplus_correct (prec f) (emax f) (fmt_P0 f) (fmt_PE f) mode_DN x y Fx Fy) as K1.
    pose proof (Bminus_correct (prec f) (emax f) (fmt_P0 f) (fmt_PE f) mode_UP (fopp x) y) as K2.
    unfold fopp in K2. rewrite is_finite_Bopp, B2R_Bopp in K2. specialize (K2 Fx Fy).
    rewrite Bsign_Bopp in K2 by (destruct x; simpl in *; congruence).
    replace (- B2R x - B2R y) with (- (B2R x + B2R y)) in K2 by ring.
    apply (corr_opp (B2R x + B2R y)
      (match Rcompare (B2R x + B2R y) 0 with Eq => Bsign x || Bsign y | Lt => true | Gt => false end) (Bsign x)).
    + unfold corr. change (Bplus (md RDN) x y) with (fadd RDN x y) in K1.
      destruct Rlt_bool; [exact K1|apply K1].
    + clear K1; unfold corr. unfold fsub, fopp. cbn [md]. destruct Rlt_bool; [|apply K2].
      destruct K2 as (A & B & C). split; [exact A|split; [exact B|]]. rewrite C.
      destruct (Rcompare_spec (B2R x + B2R y) 0); destruct (Rcompare_spec (- (B2R x + B2R y)) 0); try lra; auto.
      destruct (Bsign x), (Bsign y); reflexivity.
  - destruct x as [s|s| |s m e B], y as [s'|s'| |s' m' e' B']; try discriminate; try reflexivity;
    destruct s'; reflexivity.
  - destruct x as [s|s| |s m e B], y as [s'|s'| |s' m' e' B']; try discriminate; try reflexivity;
    destruct s; try destruct s'; reflexivity.
Qed.

Lemma sub_mirror x y : fsub RDN x y = fopp (fsub RUP y x).
Proof.
  destruct (is_finite x) eqn:Fx; [destruct (is_finite y) eqn:Fy|].
  - pose proof (Bminus_correct (prec f) (emax f) (fmt_P0 f) (fmt_PE f) mode_DN x y Fx Fy) as K1.
    pose proof (Bminus_correct (prec f) (emax f) (fmt_P0 f) (fmt_PE f) mode_UP y x Fy Fx) as K2.
    replace (B2R y - B2R x) with (- (B2R x - B2R y)) in K2 by ring.
    apply (corr_opp (B2R x - B2R y)
      (match Rcompare (B2R x - B2R y) 0 with Eq => Bsign x || negb (Bsign y) | Lt => true | Gt => false end) (Bsign x)).
    + clear K2; unfold corr. unfold fsub. cbn [md]. destruct Rlt_bool; [exact K1|apply K1].
    + clear K1; unfold corr. unfold fsub, fopp. cbn [md]. destruct (Rlt_bool (Rabs (round _ _ (round_mode mode_UP) _)) _).
      * destruct K2 as (A & B & C). split; [exact A|split; [exact B|]]. rewrite C.
        destruct (Rcompare_spec (B2R x - B2R y) 0); destruct (Rcompare_spec (- (B2R x - B2R y)) 0); try lra; auto.
        destruct (Bsign x), (Bsign y); reflexivity.
      * destruct K2 as (A & B). rewrite A, B. rewrite negb_involutive || idtac. f_equal.
  - destruct x as [s|s| |s m e B], y as [s'|s'| |s' m' e' B']; try discriminate; try reflexivity;
    destruct s'; reflexivity.
  - destruct x as [s|s| |s m e B], y as [s'|s'| |s' m' e' B']; try discriminate; try reflexivity;
    destruct s; try destruct s'; reflexivity.
Qed.

Lemma mul_mirror x y : fmul RDN x y = fopp (fmul RUP x (fopp y)).
Proof.
  destruct (is_finite x) eqn:Fx; [destruct (is_finite y) eqn:Fy|].
  - pose proof (Bmult_correct (prec f) (emax f) (fmt_P0 f) (fmt_PE f) mode_DN x y) as K1.
    pose proof (Bmult_correct (prec f) (emax f) (fmt_P0 f) (fmt_PE f) mode_UP x (fopp y)) as K2.
    unfold fopp in K2. rewrite is_finite_Bopp, B2R_Bopp in K2. rewrite Fx, Fy in *. simpl andb in *.
    rewrite Bsign_Bopp in K2 by (destruct y; simpl in *; congruence).
    replace (B2R x * - B2R y) with (- (B2R x * B2R y)) in K2 by ring.
    apply (corr_opp (B2R x * B2R y) (xorb (Bsign x) (Bsign y)) (xorb (Bsign x) (Bsign y))).
    + clear K2; unfold corr, fmul. cbn [md]. destruct Rlt_bool; [|exact K1].
      destruct K1 as (A & B & C). split; [exact A|split; [exact B|]]. apply C.
      destruct (Bmult mode_DN x y); simpl in *; congruence.
    + clear K1; unfold corr, fmul, fopp. cbn [md]. rewrite negb_xorb_r. destruct Rlt_bool; [|exact K2].
      destruct K2 as (A & B & C). split; [exact A|split; [exact B|]]. apply C.
      destruct (Bmult mode_UP x (Bopp y)); simpl in *; congruence.
  - destruct x as [s|s| |s m e B], y as [s'|s'| |s' m' e' B']; try discriminate; try reflexivity;
    destruct s, s'; reflexivity.
  - destruct x as [s|s| |s m e B], y as [s'|s'| |s' m' e' B']; try discriminate; try reflexivity;
    destruct s; try destruct s'; reflexivity.
Qed.

Lemma B2R_nz s m e B : B2R (B754_finite s m e B : flt f) <> 0.
Proof.
  intros K. simpl in K. apply eq_0_F2R in K. destruct s; discriminate.
Qed.

Lemma div_mirror x y : fdiv RDN x y = fopp (fdiv RUP x (fopp y)).
Proof.
  destruct y as [s'|s'| |s' m' e' B'].
  - destruct x as [s|s| |s m e B]; try reflexivity; destruct s, s'; reflexivity.
  - destruct x as [s|s| |s m e B]; try reflexivity; destruct s, s'; reflexivity.
  - destruct x as [s|s| |s m e B]; reflexivity.
  - destruct (is_finite x) eqn:Fx.
    + set (y := B754_finite s' m' e' B' : flt f).
      assert (Ny : B2R y <> 0) by apply B2R_nz.
      pose proof (Bdiv_correct (prec f) (emax f) (fmt_P0 f) (fmt_PE f) mode_DN x y Ny) as K1.
      pose proof (Bdiv_correct (prec f) (emax f) (fmt_P0 f) (fmt_PE f) mode_UP x (fopp y)) as K2.
      unfold fopp in K2. rewrite B2R_Bopp in K2. assert (Ny' : - B2R y <> 0) by lra. specialize (K2 Ny').
      rewrite Fx in *. rewrite Bsign_Bopp in K2 by reflexivity.
      replace (B2R x / - B2R y) with (- (B2R x / B2R y)) in K2 by (field; auto).
      apply (corr_opp (B2R x / B2R y) (xorb (Bsign x) (Bsign y)) (xorb (Bsign x) (Bsign y))).
      * clear K2; unfold corr, fdiv. cbn [md]. destruct Rlt_bool; [|exact K1].
        destruct K1 as (A & B & C). split; [exact A|split; [exact B|]]. apply C.
        destruct (Bdiv mode_DN x y); simpl in *; congruence.
      * clear K1; unfold corr, fdiv, fopp. cbn [md]. rewrite negb_xorb_r. destruct Rlt_bool; [|exact K2].
        destruct K2 as (A & B & C). split; [exact A|split; [exact B|]]. apply C.
        destruct (Bdiv mode_UP x (Bopp y)); simpl in *; congruence.
    + destruct x as [s|s| |s m e B]; try discriminate; try reflexivity; destruct s, s'; reflexivity.
Qed.

Lemma rint_mirror x : frint RDN x = fopp (frint RUP (fopp x)).
Proof.
  destruct (is_finite x) eqn:Fx.
  - pose proof (Bnearbyint_correct (prec f) (emax f) (fmt_PE f) mode_DN x) as (A & B & C).
    pose proof (Bnearbyint_correct (prec f) (emax f) (fmt_PE f) mode_UP (fopp x)) as (A' & B' & C').
    unfold fopp in A', B', C'. rewrite is_finite_Bopp in B'. rewrite B2R_Bopp in A'. rewrite Fx in *.
    rewrite Bsign_Bopp in C' by (destruct x; simpl in *; congruence).
    unfold frint, fopp. cbn [md]. apply B2R_Bsign_inj; auto.
    + rewrite is_finite_Bopp. auto.
    + rewrite B2R_Bopp, A, A'. simpl round_mode. rewrite round_UP_opp. ring.
    + rewrite Bsign_Bopp by (destruct (Bnearbyint mode_UP (Bopp x)); simpl in *; congruence).
      rewrite C by (destruct (Bnearbyint mode_DN x); simpl in *; congruence).
      rewrite C' by (destruct (Bnearbyint mode_UP (Bopp x)); simpl in *; congruence).
      symmetry. apply negb_involutive.
  - destruct x as [s|s| |s m e B]; try discriminate; try reflexivity; destruct s; reflexivity.
Qed.
End Mirror.

Lemma conv_mirror f g (x : flt f) : fconv f g RDN x = fopp (fconv f g RUP (fopp x)).
Proof.
  destruct x as [s|s| |s m e B]; try reflexivity; try (destruct s; reflexivity).
  cbn [fconv fopp Bopp md].
  pose proof (binary_normalize_correct (prec g) (emax g) (fmt_P0 g) (fmt_PE g) mode_DN (cond_Zopp s (Zpos m)) e s) as K1.
  pose proof (binary_normalize_correct (prec g) (emax g) (fmt_P0 g) (fmt_PE g) mode_UP (cond_Zopp (negb s) (Zpos m)) e (negb s)) as K2.
  cbv zeta in K1, K2.
  replace (F2R (beta := radix2) {| Fnum := cond_Zopp (negb s) (Z.pos m); Fexp := e |}) with
    (- F2R (beta := radix2) {| Fnum := cond_Zopp s (Z.pos m); Fexp := e |}) in K2
    by (rewrite <- F2R_Zopp; destruct s; reflexivity).
  set (r := F2R (beta := radix2) {| Fnum := cond_Zopp s (Z.pos m); Fexp := e |}) in *.
  assert (Nr : r <> 0).
  { unfold r. intros K. apply eq_0_F2R in K. destruct s; discriminate. }
  apply (corr_opp r (match Rcompare r 0 with Eq => s | Lt => true | Gt => false end) (Rlt_bool r 0)).
  - clear K2; unfold corr. destruct (Rlt_bool (Rabs _) _); exact K1.
  - clear K1; unfold corr. destruct (Rlt_bool (Rabs _) _).
    + destruct K2 as (A & B' & C). split; [exact A|split; [exact B'|]]. rewrite C.
      destruct (Rcompare_spec r 0); destruct (Rcompare_spec (- r) 0); try lra; auto.
    + rewrite K2. f_equal. destruct (Rlt_bool_spec r 0); destruct (Rlt_bool_spec (- r) 0); try lra; auto.
Qed.

Lemma fopp_invol f (x : flt f) : fopp (fopp x) = x.
Proof. apply Bopp_involutive. Qed.

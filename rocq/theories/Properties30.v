(** * C75: no wider than a running error analysis *)

From Coq Require Import Reals ZArith Lra Lia Psatz Bool Classical.
From Flocq Require Import Core BinarySingleNaN.
From Verif Require Import Outcome Base Checking Interval Utility Arith Arith2 FloatNum Spec ExtR Sem
  FloatSpec FloatPol FloatInt CoreArith Inst Witness CoreCtor Ops OpsProof OpsIso Transc SpecTransc TransReal CoreTransc
  FloatTrans RefLib Properties1 Properties2 Properties10 ExprT ExTransc ExprWidth Properties21 Properties25 TrigAcc Properties29 RunErr.
Local Open Scope R_scope.

(** A certificate names the value of the expression. *)
Lemma cert_means p rho d e : forall t E, cert p rho d e t E -> tmeans (N := fnum p) fval e rho t.
Proof.
  induction e as [n|v|o e IH|o e1 IH1 e2 IH2|o e IH v|o v e IH|o v w|e1 IH1 e2 IH2|e IH v|f e IH]; intros t E C; cbn [cert tmeans] in *.
  - exact (proj1 C).
  - exact (proj1 C).
  - destruct C as (t1 & E1 & C1 & D & Q & _). exists t1. split; [exact (IH t1 E1 C1)|exact Q].
  - destruct C as (t1 & E1 & t2 & E2 & C1 & C2 & _ & _ & D & Q & _). exists t1, t2. split; [exact (IH1 _ _ C1)|split; [exact (IH2 _ _ C2)|exact Q]].
  - destruct C as (t1 & E1 & t2 & C1 & Ev & _ & _ & D & Q & _). exists t1, t2. split; [exact (IH _ _ C1)|split; [exact Ev|exact Q]].
  - destruct C as (t1 & t2 & E2 & Ev & C2 & _ & _ & D & Q & _). exists t1, t2. split; [exact Ev|split; [exact (IH _ _ C2)|exact Q]].
  - destruct C as (_ & t1 & t2 & E1 & E2 & _ & _ & D & Q & _). exists t1, t2. auto.
  - destruct C as (E1 & E2 & C1 & C2 & _). split; [exact (IH1 _ _ C1)|exact (IH2 _ _ C2)].
  - destruct C as (E1 & s & C1 & Ev & Ps & _). exists t, s. split; [exact (IH _ _ C1)|split; [exact Ev|]].
    rewrite Rminus_diag_eq, Rabs_R0 by reflexivity. exact Ps.
  - destruct C as (t1 & E1 & C1 & C). exists t1. split; [exact (IH _ _ C1)|]. 
destruct f; cbn [call_cert] in C; try (destruct C as (D & Q & _); exact Q); exact (proj1 C).
Qed.

(** The type of the bounds, with its constants. *)
Definition float_or_double (p : platform) (K : consts (fnum p)) : Prop := exists m0,
  ((p = float_sse \/ p = float_x87) /\ K = consts_float p m0) \/ ((p = double_sse \/ p = double_x87) /\ K = consts_double p m0).
Lemma fd_precision p K : float_or_double p K -> pi_precision p K (1 - prec (p_T p)).
Proof.
  intros (m0 & [[Hp ->]|[Hp ->]]).
  - replace (1 - prec (p_T p))%Z with (-23)%Z by (destruct Hp as [-> | ->]; reflexivity). apply prec_float. exact Hp.
  - replace (1 - prec (p_T p))%Z with (-52)%Z by (destruct Hp as [-> | ->]; reflexivity). apply prec_double. exact Hp.
Qed.
Lemma scale_256 p : bpow radix2 (1 - prec (p_T p) + 8) = 256 * eps (p_T p).
Proof. rewrite bpow_plus, Rmult_comm. reflexivity. Qed.

(** ** The statements

    Whatever error analysis certifies about an expression holds of the interval
    that the library computes for it: the interval contains the exact value and
    no number further away from it than the certified error. *)
Theorem C75_error_analysis : forall p debug c ord (L : libm (fnum p)) K fuel eo (env : nat -> itv (fnum p)) rho d e t E,
  float_or_double p K -> lib_rounds L -> (2 <= fuel)%nat ->
  (forall n, fmem (env n) (rho n) /\ forall r, fmem (env n) r -> Rabs (r - rho n) <= d n) ->
  cert p rho d e t E ->
  tmeans (N := fnum p) fval e rho t /\
  exists z, returns (teval (P_ p Std debug c ord) K (transc_std (control_hw (fnum p)) L) fuel eo env e) z /\
    fvalid z /\ fmem z t /\ forall w, fmem z w -> Rabs (w - t) <= E.
Proof.
  intros p debug c ord L K fuel eo env rho d e t E HK HL HF He C. split; [exact (cert_means p rho d e t E C)|].
  pose proof (fd_precision p K HK) as PP. pose proof (scale_256 p) as S256.
  destruct (cert_correct p Std debug c ord K (transc_std (control_hw (fnum p)) L) fuel) with (rho := rho) (d := d) (eo := eo) (env := env) (e := e) (t := t) (E := E)
    as (z & Rz & Mz & Bz); try assumption.
  - intros f x F1 F2 F3 V S. destruct HK as (m0 & HK). exact (C66_std_tightest p debug c ord L K m0 fuel f x HK HL F1 F2 F3 V S).
  - intros f x Hf V. destruct (C74_sin_cos_accurate p debug c ord L K _ f x HL PP Hf V) as (z & Rz & Cz & Az).
    exists z. split; [exact (Rz fuel HF)|]. split; [exact Cz|]. rewrite S256 in Az. exact Az.
  - intros x V Far. rewrite <- S256 in Far. destruct (C74_tan_accurate p debug c ord L K _ x HL PP V Far) as (z & Rz & Cz & Az).
    exists z. split; [exact (Rz fuel)|]. split; [exact Cz|]. rewrite S256 in Az. exact Az.
  - exists z. split; [exact Rz|]. split; [exact (mem_fvalid p z t Mz)|]. split; [exact Mz|exact Bz].
Qed.
Print Assumptions C75_error_analysis.

(** The same with the class of examples/transc.cpp. *)
Theorem C75_error_analysis_mpfr : forall p debug c ord (M : mpfr p) m0 fuel eo (env : nat -> itv (fnum p)) rho d e t E,
  p = double_sse \/ p = double_x87 -> mpfr_ok M -> (2 <= fuel)%nat ->
  (forall n, fmem (env n) (rho n) /\ forall r, fmem (env n) r -> Rabs (r - rho n) <= d n) ->
  cert p rho d e t E ->
  tmeans (N := fnum p) fval e rho t /\
  exists z, returns (teval (P_ p Opp debug c ord) (consts_double p m0) (full_rounding M) fuel eo env e) z /\
    fvalid z /\ fmem z t /\ forall w, fmem z w -> Rabs (w - t) <= E.
Proof.
  intros p debug c ord M m0 fuel eo env rho d e t E Hp HM HF He C. split; [exact (cert_means p rho d e t E C)|].
  assert (HK : float_or_double p (consts_double p m0)) by (exists m0; right; auto).
  pose proof (fd_precision p _ HK) as PP. pose proof (scale_256 p) as S256.
  destruct (cert_correct p Opp debug c ord (consts_double p m0) (full_rounding M) fuel) with (rho := rho) (d := d) (eo := eo) (env := env) (e := e) (t := t) (E := E)
    as (z & Rz & Mz & Bz); try assumption.
  - intros f x F1 F2 F3 V S. exact (C66_tightest p debug c ord M m0 fuel f x Hp HM F1 F2 F3 V S).
  - intros f x Hf V. destruct (sin_cos_main p Opp debug c ord (full_rounding M) (consts_double p m0) _ PP f x Hf) as (z & Rz & Cz & Az); auto;
      [apply full_down; auto|apply full_up; auto|].
    exists z. split; [exact (Rz fuel HF)|]. split; [exact Cz|]. rewrite S256 in Az. exact Az.
  - intros x V Far. rewrite <- S256 in Far.
    destruct (tan_main p Opp debug c ord (full_rounding M) (consts_double p m0) _ PP x) as (z & Rz & Cz & Az); auto; [apply full_down; auto|apply full_up; auto|].
    exists z. split; [exact (Rz fuel)|]. split; [exact Cz|]. rewrite S256 in Az. exact Az.
  - exists z. split; [exact Rz|]. split; [exact (mem_fvalid p z t Mz)|]. split; [exact Mz|exact Bz].
Qed.
Print Assumptions C75_error_analysis_mpfr.

(** ** Non-vacuity: exp(0) + sin(x / 1024) for x in [1023,1025]. *)
Definition demo : texpr (fnum double_sse) := x_2 B_add (x_call Fexp (x_num (dbl 0 0))) (x_call Fsin (x_in B_div (x_var 0) (dbl 1024 0))).
Lemma rounded_double t D E : 0 <= D <= 1 -> Rabs t <= 4 -> D + / 1000000000 <= E -> rounded binary64 t D E.
Proof.
  intros HD Ht HE. pose proof (tiny_le_eps binary64) as T. pose proof double_eps as U. pose proof (Rabs_pos t) as A. split.
  - apply Rle_trans with (bpow radix2 (emax binary64 - 1)); [|apply largest_ge].
    apply Rle_trans with (bpow radix2 4); [simpl; lra|apply bpow_le; vm_compute; discriminate].
  - assert (eps binary64 * (Rabs t + D) <= eps binary64 * 5) by (apply Rmult_le_compat_l; [pose proof (eps_pos binary64)|]; lra). lra.
Qed.
Example C75_case : float_or_double double_sse (consts_double double_sse RNE) /\ lib_rounds (ref_lib double_sse) /\ (exists W : mpfr_ok ref_mpfr, W = W) /\
  (forall n : nat, fmem (p := double_sse) (di 1023 1025) 1024 /\ forall r, fmem (p := double_sse) (di 1023 1025) r -> Rabs (r - 1024) <= 1) /\
  cert double_sse (fun _ => 1024) (fun _ => 1) demo (1 + sin 1) (4 / 1024).
Proof.
  assert (V : forall m, (Z.abs m <= 2 ^ 53)%Z -> fval (f := binary64) (dbl m 0) = Fin (IZR m)) by exact dbl_val.
  split; [exists RNE; right; auto|]. split; [apply ref_lib_rounds|]. split; [exists ref_mpfr_ok; reflexivity|]. split.
  { intros _. split.
    - split; cbn [low up di]; [change (xle (fval (f := binary64) (dbl 1023 0)) (Fin 1024))|change (xle (Fin 1024) (fval (f := binary64) (dbl 1025 0)))];
        rewrite V by lia; cbn [xle]; lra.
    - intros r [M1 M2]. change (xle (fval (f := binary64) (dbl 1023 0)) (Fin r)) in M1. change (xle (Fin r) (fval (f := binary64) (dbl 1025 0))) in M2.
      rewrite V in M1, M2 by lia. cbn [xle] in M1, M2. apply Rabs_le. lra. }
  pose proof (SIN_bound 1) as S1. pose proof double_eps as U.
  exists 1, (/ 1000000000), (sin 1), (3 / 1024). split; [|split].
  - exists 0, 0. split; [split; [exact (V 0%Z ltac:(lia))|lra]|]. exists 0. split; [symmetry; exact exp_0|]. split.
    + intros r w Hr ->. rewrite Rminus_0_r in Hr. assert (r = 0) by (apply Rabs_le_inv in Hr; lra). subst r. rewrite exp_0, Rminus_diag_eq, Rabs_R0 by reflexivity. lra.
    + apply rounded_double; [lra| |lra]. rewrite Rabs_pos_eq; lra.
  - exists 1, (2 / 1024). split.
    + exists 1024, 1, 1024. split; [split; [reflexivity|lra]|]. split; [exact (V 1024%Z ltac:(lia))|]. split; [discriminate|].
      split; [intros _; rewrite Rabs_pos_eq; lra|]. exists (/ 1024). split; [split; [lra|field]|]. split.
      * intros r s w Hr Hs [_ ->]. assert (s = 1024) by (apply Rabs_le_inv in Hs; lra). subst s. apply Rabs_le_inv in Hr. apply Rabs_le. lra.
      * apply rounded_double; [lra| |lra]. rewrite Rabs_pos_eq; lra.
    + split; [reflexivity|]. unfold reduction. cbn [p_T double_sse]. change (p_T double_sse) with binary64. rewrite U, (Rabs_pos_eq 1) by lra. lra.
  - split; [discriminate|]. split; [discriminate|]. exists (3 / 1024 + / 1000000000). split; [reflexivity|]. split.
    + intros r s w Hr Hs ->. replace (r + s - (1 + sin 1)) with ((r - 1) + (s - sin 1)) by ring. eapply Rle_trans; [apply Rabs_triang|]. lra.
    + apply rounded_double; [lra| |lra]. apply Rabs_le. lra.
Qed.

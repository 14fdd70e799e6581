(** * C66: correctly rounded transcendental functions (examples/transc.cpp) *)

From Coq Require Import Reals ZArith Lra Lia Bool.
From Flocq Require Import Core BinarySingleNaN.
From Verif Require Import Outcome Base Checking Interval Utility Arith Arith2 FloatNum Spec ExtR Sem
  FloatSpec FloatPol FloatInt CoreArith Inst Witness Ops OpsProof Transc SpecTransc TransReal CoreTransc CoreTrig TightTransc
  FloatConst FloatTrans RefLib Properties10 ExprT ExTransc.
Local Open Scope R_scope.

(** What is assumed of MPFR: its numbers include the doubles, the functions and
    the conversion to double round correctly in the direction they are given. *)
Record mpfr_ok {p} (M : mpfr p) := {
  mv : mp_t M -> ext;
  mv_set_d : forall x m, mv (mp_set_d M x m) = fval x;
  mv_down : forall f a v, xgraph f (mv a) v ->
    xle (mv (mp_fun M f a RDN)) v /\ forall b, xle (mv b) v -> xle (mv b) (mv (mp_fun M f a RDN));
  mv_up : forall f a v, xgraph f (mv a) v ->
    xle v (mv (mp_fun M f a RUP)) /\ forall b, xle v (mv b) -> xle (mv (mp_fun M f a RUP)) (mv b);
  mv_get_down : forall a, mv a <> NaN -> rd (mv a) (mp_get_d M a RDN);
  mv_get_up : forall a, mv a <> NaN -> ru (mv a) (mp_get_d M a RUP)
}.
(** The same of a C library: correctly rounded in the evaluation format. *)
Definition lib_rounds {p} (L : libm (fnum p)) : Prop :=
  forall f (x : T (fnum p)) v, xgraph f (fval (f := p_T p) x) v -> rd v (L f RDN x : flt (p_X p)) /\ ru v (L f RUP x : flt (p_X p)).

(** The values of f on x. *)
Definition fvalues {p} (f : tfun) (x : itv (fnum p)) (t : R) : Prop := exists r, fmem x r /\ graph f r t.

(** ** The rounding classes *)
Section Classes.
Context (p : platform).
Notation N := (fnum p).
Notation drnd k RR f := (down_rnd (N := N) (val := fval) (ready := fready k) (R := RR) f).
Notation urnd k RR f := (up_rnd (N := N) (val := fval) (ready := fready k) (R := RR) f).

Lemma invoke_down (M : mpfr p) (S : mpfr_ok M) f (x : flt (p_T p)) v : xgraph f (fval x) v -> rd v (invoke_mpfr M x f RDN).
Proof.
  intros G. unfold invoke_mpfr. set (a := mp_set_d M x RNE).
  assert (G' : xgraph f (mv M S a) v) by (unfold a; rewrite (mv_set_d M S); exact G).
  destruct (mv_down M S f a v G') as [A B]. set (b := mp_fun M f a RDN) in *.
  destruct (mv_get_down M S b (xle_nnl _ _ A)) as [C D]. split; [exact (xle_trans _ _ _ C A)|].
  intros t' L. apply D. rewrite <- (mv_set_d M S t' RNE). apply B. rewrite (mv_set_d M S). exact L.
Qed.
Lemma invoke_up (M : mpfr p) (S : mpfr_ok M) f (x : flt (p_T p)) v : xgraph f (fval x) v -> ru v (invoke_mpfr M x f RUP).
Proof.
  intros G. unfold invoke_mpfr. set (a := mp_set_d M x RNE).
  assert (G' : xgraph f (mv M S a) v) by (unfold a; rewrite (mv_set_d M S); exact G).
  destruct (mv_up M S f a v G') as [A B]. set (b := mp_fun M f a RUP) in *.
  destruct (mv_get_up M S b (xle_nnr _ _ A)) as [C D]. split; [exact (xle_trans _ _ _ A C)|].
  intros t' L. apply D. rewrite <- (mv_set_d M S t' RNE). apply B. rewrite (mv_set_d M S). exact L.
Qed.
Lemma full_down k (M : mpfr p) f : mpfr_ok M -> drnd k (full_rounding M) f.
Proof.
  intros S x v G. exists (invoke_mpfr M x f RDN : T N). split; [exact (invoke_down M S f x v G)|].
  intros s Hs. exists s. split; [exact Hs|reflexivity].
Qed.
Lemma full_up k (M : mpfr p) f : mpfr_ok M -> urnd k (full_rounding M) f.
Proof.
  intros S x v G. exists (invoke_mpfr M x f RUP : T N). split; [exact (invoke_up M S f x v G)|].
  intros s Hs. exists s. split; [exact Hs|reflexivity].
Qed.
Lemma std_down (L : libm N) f : lib_rounds L -> drnd Std (transc_std (control_hw N) L) f.
Proof.
  intros HL x v G. exists (fconv (p_X p) (p_T p) RDN (L f RDN x) : T N). destruct (HL f x v G) as [A _]. split.
  - exact (dr_trans (p_T p) (p_X p) Dn v _ _ (p_TX p) A (fconv_dr _ _ Dn _ (xle_nnl _ _ (proj1 A)))).
  - intros s Hs. exists RDN. split; [exact Logic.I|reflexivity].
Qed.
Lemma std_up (L : libm N) f : lib_rounds L -> urnd Std (transc_std (control_hw N) L) f.
Proof.
  intros HL x v G. exists (fconv (p_X p) (p_T p) RUP (L f RUP x) : T N). destruct (HL f x v G) as [_ A]. split.
  - exact (dr_trans (p_T p) (p_X p) Up v _ _ (p_TX p) A (fconv_dr _ _ Up _ (xle_nnr _ _ (proj1 A)))).
  - intros s Hs. exists RUP. split; [exact Logic.I|reflexivity].
Qed.

(** The constants of float and double are correctly rounded. *)
Lemma best_constants K m0 :
  ((p = float_sse \/ p = float_x87) /\ K = consts_float p m0) \/ ((p = double_sse \/ p = double_x87) /\ K = consts_double p m0) ->
  half_best (val := (fval : T N -> ext)) (K := K) /\ pi_best (val := (fval : T N -> ext)) (K := K).
Proof.
  intros Hp.
  assert (Q : exists m e, (2 ^ (prec (p_T p) - 1) <= Zpos m)%Z /\ (SpecFloat.emin (prec (p_T p)) (emax (p_T p)) <= e - 1)%Z /\
    dyad m e < PI < dyad (Pos.succ m) e /\
    kspec (N := N) fval K (dyad m e) (dyad (Pos.succ m) e) (dyad m (e - 1)) (dyad (Pos.succ m) (e - 1)) (dyad m (e + 1)) (dyad (Pos.succ m) (e + 1))).
  { destruct Hp as [[Hp ->]|[Hp ->]].
    - exists mfl, (-22)%Z. split; [destruct Hp as [-> | ->]; vm_compute; discriminate|]. split; [destruct Hp as [-> | ->]; vm_compute; discriminate|].
      split; [exact float_pi|exact (float_k p m0 Hp)].
    - exists mdl, (-51)%Z. split; [destruct Hp as [-> | ->]; vm_compute; discriminate|]. split; [destruct Hp as [-> | ->]; vm_compute; discriminate|].
      split; [exact double_pi|exact (double_k p m0 Hp)]. }
  destruct Q as (m & e & Hm & He & Hpi & S).
  assert (Hh : dyad m (e - 1) < PI / 2 < dyad (Pos.succ m) (e - 1)) by (rewrite !dyad_half; lra).
  assert (G : forall e' v (u : T N), (SpecFloat.emin (prec (p_T p)) (emax (p_T p)) <= e')%Z -> dyad m e' < v < dyad (Pos.succ m) e' ->
    fval (f := p_T p) u = Fin (dyad (Pos.succ m) e') -> RU (N := N) fval (Fin v) u).
  { intros e' v u He' B Eu. split; [change (xle (Fin v) (fval (f := p_T p) u)); rewrite Eu; cbn [xle]; lra|].
    intros t' L. change (xle (fval (f := p_T p) u) (fval (f := p_T p) t')). change (xle (Fin v) (fval (f := p_T p) t')) in L. rewrite Eu.
    destruct (fval (f := p_T p) t') as [| |r|] eqn:E; cbn [xle] in *; try tauto.
    apply (adjacent _ _ _ t' r Hm He' E). lra. }
  split.
  - destruct (ks_hu _ _ _ _ _ _ _ _ S) as (t & Et & Rt). exists t. split; [exact Rt|]. apply (G (e - 1)%Z); auto.
  - destruct (ks_pu _ _ _ _ _ _ _ _ S) as (t & Et & Rt). exists t. split; [exact Rt|]. apply (G e); auto. lia.
Qed.

Lemma tight_main k debug c ord K RR fuel f (x : itv N) :
  half_best (val := (fval : T N -> ext)) (K := K) /\ pi_best (val := (fval : T N -> ext)) (K := K) -> drnd k RR f -> urnd k RR f ->
  f <> Fsin -> f <> Fcos -> f <> Ftan -> fvalid x -> somewhere_defined f x ->
  exists z : itv N, returns (call f K RR fuel (P_ p k debug c ord) x) z /\ ftightest z (fvalues f x).
Proof.
  intros [KH KP] D U F1 F2 F3 Hx Hd. pose proof (mone_val p) as HM. pose proof (fpolspec p Save k debug c ord) as spec.
  destruct Hd as (r & t & M & G).
  destruct f; try congruence; cbn [call].
  - exact (simple_tight spec Fexp x _ Logic.I Logic.I D U Hx).
  - apply (t_log_tight spec x eq_refl D U Hx). cbn [graph] in G. apply (xle_mem_up p x r 0 M). subst r. apply exp_pos.
  - apply (t_asin_tight spec HM x KH D U Hx). apply (unit_dom p x r M). destruct G as [_ <-]. apply SIN_bound.
  - apply (t_acos_tight spec HM x KP D U Hx). apply (unit_dom p x r M). destruct G as [_ <-]. apply COS_bound.
  - exact (simple_tight spec Fatan x _ Logic.I Logic.I D U Hx).
  - exact (simple_tight spec Fsinh x _ Logic.I Logic.I D U Hx).
  - exact (t_cosh_tight spec x D U Hx).
  - exact (simple_tight spec Ftanh x _ Logic.I Logic.I D U Hx).
  - exact (simple_tight spec Fasinh x _ Logic.I Logic.I D U Hx).
  - apply (t_acosh_tight spec x D U Hx). destruct M as [_ M]. refine (xle_trans _ (Fin r) _ _ M). cbn [xle].
    destruct G as [T0 <-]. change (1 <= cosh t). rewrite <- cosh_0. apply cosh_le; lra.
  - assert (B : -1 < r < 1) by (cbn [graph] in G; rewrite tanh_graph in G; subst r; apply tanh_bound).
    destruct (unit_dom_strict p x r M B) as [S1 S2]. exact (t_atanh_tight spec HM x eq_refl D U Hx S1 S2).
Qed.
End Classes.

(** ** The class of the example *)

(** The eleven functions without argument reduction return the tightest
    interval: no interval of doubles contains all values and is smaller. *)
Theorem C66_tightest : forall p debug c ord (M : mpfr p) m0 fuel f (x : itv (fnum p)),
  p = double_sse \/ p = double_x87 -> mpfr_ok M ->
  f <> Fsin -> f <> Fcos -> f <> Ftan -> fvalid x -> somewhere_defined f x ->
  exists z : itv (fnum p), returns (call f (consts_double p m0) (full_rounding M) fuel (P_ p Opp debug c ord) x) z /\
    ftightest z (fvalues f x).
Proof.
  intros p debug c ord M m0 fuel f x Hp HM. apply tight_main; [apply (best_constants p _ m0); auto|apply full_down; auto|apply full_up; auto].
Qed.
Print Assumptions C66_tightest.

(** All fourteen functions contain the values: the defect of rounded_transc_opp
    (C48) is absent. *)
Theorem C66_values : forall p debug c ord (M : mpfr p) m0 f (x : itv (fnum p)),
  p = double_sse \/ p = double_x87 -> mpfr_ok M -> fvalid x -> somewhere_defined f x ->
  exists z : itv (fnum p),
    (forall fuel, (2 <= fuel)%nat -> returns (call f (consts_double p m0) (full_rounding M) fuel (P_ p Opp debug c ord) x) z) /\
    fvalid z /\ contains_values f x z.
Proof.
  intros p debug c ord M m0 f x Hp HM Hx Hd.
  assert (HK : constants_for p (consts_double p m0)) by (apply for_double; auto).
  assert (W : rint_ok p) by (destruct Hp as [-> | ->]; left; split; cbn; lia).
  assert (Q : (f = Fsin \/ f = Fcos \/ f = Ftan) \/ (f <> Fsin /\ f <> Fcos /\ f <> Ftan)).
  { destruct f; (left; auto; fail) || (right; repeat split; discriminate). }
  destruct Q as [Q|(F1 & F2 & F3)].
  - destruct (trig_main p Opp debug c ord (full_rounding M) W _ f x HK Q) as (z & Rz & Cz & _); [| |exact Hx|].
    { intros a e G. destruct (full_down p Opp M (calls f) HM a e G) as (t & [L _] & R). exists t. auto. }
    { intros a e G. destruct (full_up p Opp M (calls f) HM a e G) as (t & [L _] & R). exists t. auto. }
    exists z. split; [exact Rz|]. split; [|exact Cz]. destruct Hd as (r & t & Mr & G). exact (mem_valid _ _ t (Cz r t Mr G)).
  - destruct (C66_tightest p debug c ord M m0 0 f x Hp HM F1 F2 F3 Hx Hd) as (z & Rz & Tz).
    exists z. split; [intros fuel _; destruct f; try congruence; exact Rz|].
    assert (Cz : contains_values f x z) by (intros r t Mr G; apply (proj1 Tz); exists r; auto).
    split; [|exact Cz]. destruct Hd as (r & t & Mr & G). exact (mem_valid _ _ t (Cz r t Mr G)).
Qed.
Print Assumptions C66_values.

(** Expressions built from these functions and the operations. *)
Theorem C66_expressions : forall p debug c ord (M : mpfr p) m0 fuel eo (env : nat -> itv (fnum p)) (rho : nat -> R) e t,
  p = double_sse \/ p = double_x87 -> mpfr_ok M -> (2 <= fuel)%nat ->
  (forall n, fmem (env n) (rho n)) -> tproper (N := fnum p) fval (fun _ => True) e -> tmeans (N := fnum p) fval e rho t ->
  exists z, returns (teval (fpol p Save Opp debug c ord) (consts_double p m0) (full_rounding M) fuel eo env e) z /\ fvalid z /\ fmem z t.
Proof.
  intros p debug c ord M m0 fuel eo env rho e t Hp HM HF He Wf Mt.
  destruct (teval_contains p Opp debug c ord (consts_double p m0) (full_rounding M) fuel (fun _ => True)) with (eo := eo) (env := env) (rho := rho) (e := e) (t := t)
    as (z & Rz & Mz); try assumption.
  - intros f x r t0 _ Mx G. assert (Vx : fvalid x) by exact (mem_fvalid p x r Mx).
    destruct (C66_values p debug c ord M m0 f x Hp HM Vx) as (z & Rz & _ & Cz); [exists r, t0; auto|].
    exists z. split; [exact (Rz fuel HF)|exact (Cz r t0 Mx G)].
  - exists z. split; [exact Rz|]. split; [exact (mem_fvalid p z t Mz)|exact Mz].
Qed.
Print Assumptions C66_expressions.

(** The same tightness with rounded_transc_std, if the C library rounds
    correctly in the evaluation format. *)
Theorem C66_std_tightest : forall p debug c ord (L : libm (fnum p)) K m0 fuel f (x : itv (fnum p)),
  ((p = float_sse \/ p = float_x87) /\ K = consts_float p m0) \/ ((p = double_sse \/ p = double_x87) /\ K = consts_double p m0) ->
  lib_rounds L -> f <> Fsin -> f <> Fcos -> f <> Ftan -> fvalid x -> somewhere_defined f x ->
  exists z : itv (fnum p), returns (call f K (transc_std (control_hw (fnum p)) L) fuel (P_ p Std debug c ord) x) z /\
    ftightest z (fvalues f x).
Proof.
  intros p debug c ord L K m0 fuel f x Hp HL. apply tight_main; [apply (best_constants p K m0); auto|apply std_down; auto|apply std_up; auto].
Qed.
Print Assumptions C66_std_tightest.

(** ** Non-vacuity *)
Lemma f_of_ext_correct f d e : e <> NaN -> dr d e (f_of_ext f (dmode d) e).
Proof.
  intros Hn. destruct e as [| |r|]; [congruence| | |]; cbn [f_of_ext].
  - apply dr_of_val; [reflexivity|discriminate].
  - apply f_of_R_correct.
  - apply dr_of_val; [reflexivity|discriminate].
Qed.
Lemma ref_lib_rounds p : lib_rounds (ref_lib p).
Proof.
  intros f x v G. destruct (ref_xgraph f _ v G) as [E Hn]. unfold ref_lib. rewrite E.
  split; [apply (f_of_ext_correct _ Dn)|apply (f_of_ext_correct _ Up)]; exact Hn.
Qed.
(** An MPFR whose numbers are those of the 80-bit format. *)
Definition ref_mpfr : mpfr double_sse := {|
  mp_t := flt x87_80;
  mp_set_d := fun (x : flt (p_T double_sse)) m => fconv binary64 x87_80 m x;
  mp_get_d := fun a m => (fconv x87_80 binary64 m a : flt (p_T double_sse));
  mp_fun := fun f a m => f_of_ext x87_80 m (ref_value f (fval a))
|}.
Lemma ref_mpfr_ok : mpfr_ok ref_mpfr.
Proof.
  refine {| mv := (fval : mp_t ref_mpfr -> ext) |}; cbn [ref_mpfr mp_t mp_set_d mp_get_d mp_fun].
  - intros x m. apply fconv_widen. apply fmt_sub_64_80.
  - intros f a v G. destruct (ref_xgraph f _ v G) as [E Hn]. rewrite E. exact (f_of_ext_correct x87_80 Dn v Hn).
  - intros f a v G. destruct (ref_xgraph f _ v G) as [E Hn]. rewrite E. exact (f_of_ext_correct x87_80 Up v Hn).
  - intros a Hn. exact (fconv_dr x87_80 binary64 Dn a Hn).
  - intros a Hn. exact (fconv_dr x87_80 binary64 Up a Hn).
Qed.

(** The program: all fourteen functions are defined somewhere in [0.5, 2.5], so
    that every call of main returns and prints an enclosure. *)
Definition demo_x : itv (fnum double_sse) := mk (dbl 1 (-1) : T (fnum double_sse)) (dbl 5 (-1) : T (fnum double_sse)).
Lemma demo_x_defined f : fvalid demo_x /\ somewhere_defined f demo_x.
Proof.
  assert (M : forall r, 1 / 2 <= r <= 5 / 2 -> fmem demo_x r).
  { assert (E1 : fval (dbl 1 (-1) : flt binary64) = Fin (1 / 2)).
    { apply fval_fin_iff. split; [vm_compute; reflexivity|].
      assert (Q : B2R (dbl 1 (-1)) = F2R (Float radix2 4503599627370496 (-53))) by (vm_compute; reflexivity).
      refine (eq_trans Q _). unfold F2R. simpl. lra. }
    assert (E2 : fval (dbl 5 (-1) : flt binary64) = Fin (5 / 2)).
    { apply fval_fin_iff. split; [vm_compute; reflexivity|].
      assert (Q : B2R (dbl 5 (-1)) = F2R (Float radix2 5629499534213120 (-51))) by (vm_compute; reflexivity).
      refine (eq_trans Q _). unfold F2R. simpl. lra. }
    intros r B. unfold fmem, mem, demo_x. cbn [low up]. split.
    - change (xle (fval (dbl 1 (-1) : flt binary64)) (Fin r)). rewrite E1. cbn [xle]. lra.
    - change (xle (Fin r) (fval (dbl 5 (-1) : flt binary64))). rewrite E2. cbn [xle]. lra. }
  split; [exact (mem_valid _ _ 1 (M 1 ltac:(lra)))|].
  pose proof PI_RGT_0 as P0. pose proof pi_3_4.
  assert (Q : exists r t, 1 / 2 <= r <= 5 / 2 /\ graph f r t).
  { destruct f; cbn [graph].
    - exists 1. eexists. split; [lra|reflexivity].
    - exists 1, 0. split; [lra|apply exp_0].
    - exists 1. eexists. split; [lra|reflexivity].
    - exists 1. eexists. split; [lra|reflexivity].
    - exists 1. eexists. split; [lra|]. split; [|reflexivity]. apply Rgt_not_eq. apply cos_gt_0; lra.
    - exists 1, (PI / 2). rewrite sin_PI2. lra.
    - exists 1, 0. rewrite cos_0. lra.
    - destruct (atan_ex 1) as (t & G). exists 1, t. split; [lra|exact G].
    - exists 1. eexists. split; [lra|reflexivity].
    - exists 1. eexists. split; [lra|reflexivity].
    - exists 1. eexists. split; [lra|reflexivity].
    - destruct (asinh_ex 1) as (t & G). exists 1, t. split; [lra|exact G].
    - destruct (acosh_ex 1) as (t & G); [lra|]. exists 1, t. split; [lra|exact G].
    - destruct (atanh_ex (1 / 2)) as (t & G); [lra|]. exists (1 / 2), t. split; [lra|exact G]. }
  destruct Q as (r & t & B & G). exists r, t. split; [apply M; exact B|exact G].
Qed.
Theorem C66_program : forall ord debug (M : mpfr double_sse) m0 f, mpfr_ok M ->
  exists z : itv (fnum double_sse),
    (forall fuel, (2 <= fuel)%nat -> returns (call f (consts_double double_sse m0) (full_rounding M) fuel (P_ double_sse Opp debug CkStrict ord) demo_x) z) /\
    fvalid z /\ contains_values f demo_x z.
Proof.
  intros ord debug M m0 f HM. destruct (demo_x_defined f) as [V D]. apply C66_values; auto.
Qed.
Print Assumptions C66_program.
Example C66_case : exists W : mpfr_ok ref_mpfr, lib_rounds (ref_lib float_x87) /\ lib_rounds (ref_lib double_sse) /\
  fvalid demo_x /\ (forall f, somewhere_defined f demo_x).
Proof. exists ref_mpfr_ok. split; [apply ref_lib_rounds|]. split; [apply ref_lib_rounds|]. split; [apply (demo_x_defined Fexp)|]. intros f. apply demo_x_defined. Qed.

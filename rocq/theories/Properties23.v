(** * C68: sin, cos and tan with correctly rounded functions *)

From Coq Require Import Reals ZArith Lra Lia Bool Classical.
From Flocq Require Import Core BinarySingleNaN.
From Verif Require Import Outcome Base Checking Interval Utility Arith Arith2 FloatNum Spec ExtR Sem
  FloatSpec FloatPol FloatInt CoreArith CoreMore CoreUtil CoreFmod TransFuel Inst Witness CoreCtor
  Transc SpecTransc TransReal CoreTransc CoreTrig CoreTrigTight TightTransc
  FloatConst FloatTrans RefLib Properties10 ExprT ExTransc Properties21 Properties22.
Local Open Scope R_scope.

Section Range.
Context (p : platform) (k : rkind) (debug : bool) (c : ckind) (ord : site -> bool).
Notation N := (fnum p).
Notation P := (fpol p Save k debug c ord).
Notation I := (itv N).
Context (RR : transc N).
Notation drnd f := (down_rnd (N := N) (val := fval) (ready := fready k) (R := RR) f).
Notation urnd f := (up_rnd (N := N) (val := fval) (ready := fready k) (R := RR) f).

Lemma runsI_det {A} (m : M A) a b : runsI (fready k) m a -> runsI (fready k) m b -> a = b.
Proof.
  intros A1 A2. assert (Q : fready k RUP) by (destruct k; reflexivity || exact Logic.I).
  destruct (A1 RUP Q) as (s1 & _ & E1). destruct (A2 RUP Q) as (s2 & _ & E2). congruence.
Qed.
Lemma rnd_ok f : drnd f -> urnd f -> down_ok (N := N) (val := fval) (ready := fready k) (R := RR) f /\ up_ok (N := N) (val := fval) (ready := fready k) (R := RR) f.
Proof.
  intros D U. split; intros a e G.
  - destruct (D a e G) as (t & [L _] & R). eauto.
  - destruct (U a e G) as (t & [L _] & R). eauto.
Qed.
Lemma one_val : fval (f := p_T p) (one : T N) = Fin 1.
Proof. exact (val_one (fpolspec p Save k debug c ord)). Qed.
Lemma sharp : drnd Fcos -> urnd Fcos -> cos_sharp (N := N) (val := fval) (ready := fready k) (R := RR).
Proof.
  intros D U. split; intros a r t E Rt.
  - destruct (D a (Fin (cos r))) as (t' & [_ B] & R'); [change (fval (f := p_T p) a = Fin r) in E; rewrite E; exists (cos r); split; reflexivity|].
    rewrite (runsI_det _ _ _ Rt R'). change (xle (Fin (-1)) (fval (f := p_T p) t')). rewrite <- (mone_val p). apply B.
    change (xle (fval (f := p_T p) (n_cst N (-1))) (Fin (cos r))). rewrite (mone_val p). cbn [xle]. apply COS_bound.
  - destruct (U a (Fin (cos r))) as (t' & [_ B] & R'); [change (fval (f := p_T p) a = Fin r) in E; rewrite E; exists (cos r); split; reflexivity|].
    rewrite (runsI_det _ _ _ Rt R'). change (xle (fval (f := p_T p) t') (Fin 1)). rewrite <- one_val. apply B.
    change (xle (Fin (cos r)) (fval (f := p_T p) (one : T N))). rewrite one_val. cbn [xle]. apply COS_bound.
Qed.
Lemma range_main K f (x : I) : constants_for p K -> rint_ok p -> f = Fsin \/ f = Fcos -> drnd Fcos -> urnd Fcos -> fvalid x ->
  exists z : I, (forall fuel, (2 <= fuel)%nat -> returns (call f K RR fuel P x) z) /\ fvalid z /\ contains_values f x z /\
    forall r, fmem z r -> -1 <= r <= 1.
Proof.
  intros C W F D U Hx. destruct (rnd_ok Fcos D U) as [D' U'].
  assert (Cf : calls f = Fcos) by (destruct F as [-> | ->]; reflexivity). assert (Nf : f <> Ftan) by (destruct F as [-> | ->]; discriminate).
  destruct (trig_main p k debug c ord RR W K f x C) as (z & Rz & Hz & Vz & Uz); [tauto|rewrite Cf; auto|rewrite Cf; auto|auto|].
  exists z. split; [exact Rz|]. split; [exact (Vz Nf)|]. split; [exact Hz|]. intros r [M1 M2]. destruct (Uz Nf (sharp D U)) as [U1 U2].
  pose proof (xle_trans _ _ _ U1 M1) as A. pose proof (xle_trans _ _ _ M2 U2) as B. cbn [xle] in A, B. lra.
Qed.

(** The constants of float and double. *)
Lemma trig_tight K m0 : ((p = float_sse \/ p = float_x87) /\ K = consts_float p m0) \/ ((p = double_sse \/ p = double_x87) /\ K = consts_double p m0) ->
  forall (x : I), fvalid x ->
  (drnd Fcos -> urnd Fcos -> (forall r, fmem x r -> 0 <= r <= PI) ->
   exists z : I, (forall fuel, (1 <= fuel)%nat -> returns (call Fcos K RR fuel P x) z) /\ ftightest z (fvalues Fcos x)) /\
  (forall t r0, drnd Ftan -> urnd Ftan -> fval (f := p_T p) t = Fin r0 -> r0 < PI / 2 -> (forall r, fmem x r -> 0 <= r < r0) ->
   exists z : I, (forall fuel, returns (call Ftan K RR fuel P x) z) /\ ftightest z (fvalues Ftan x)).
Proof.
  intros Hp x Hx.
  assert (W : rint_ok p) by (destruct Hp as [[[-> | ->] _]|[[-> | ->] _]]; left; split; cbn; lia).
  assert (Q : exists m e, (2 ^ (prec (p_T p) - 1) <= Zpos m)%Z /\ (SpecFloat.emin (prec (p_T p)) (emax (p_T p)) <= e - 1)%Z /\
    dyad m e < PI < dyad (Pos.succ m) e /\
    kspec (N := N) fval K (dyad m e) (dyad (Pos.succ m) e) (dyad m (e - 1)) (dyad (Pos.succ m) (e - 1)) (dyad m (e + 1)) (dyad (Pos.succ m) (e + 1))).
  { destruct Hp as [[Hp ->]|[Hp ->]].
    - exists mfl, (-22)%Z. split; [destruct Hp as [-> | ->]; vm_compute; discriminate|]. split; [destruct Hp as [-> | ->]; vm_compute; discriminate|].
      split; [exact float_pi|exact (float_k p m0 Hp)].
    - exists mdl, (-51)%Z. split; [destruct Hp as [-> | ->]; vm_compute; discriminate|]. split; [destruct Hp as [-> | ->]; vm_compute; discriminate|].
      split; [exact double_pi|exact (double_k p m0 Hp)]. }
  destruct Q as (m & e & Hm & He & Hpi & S).
  assert (Hh : dyad m (e - 1) < PI / 2 < dyad (Pos.succ m) (e - 1)) by (rewrite !dyad_half; lra).
  pose proof (fpolspec p Save k debug c ord) as spec.
  pose proof (largest_pos (p_R p)) as LP. assert (HB : - largest (p_R p) <= 0) by lra.
  assert (HI : forall (a : T N) l yb, fval (f := p_T p) a = Fin l -> 1 <= yb -> - largest (p_R p) <= l / yb ->
    int_hyp (N := N) (val := fval) (P := P) (ready := fready k) l yb (good_quot (Kb := IZR (2 ^ q_prec p)) l yb)).
  { intros a l yb Ea Y Nr. exact (quot_ok p Save k debug c ord a l yb W Ea Y Nr). }
  assert (Fin_x : forall b, (forall r, fmem x r -> 0 <= r <= b) -> exists l u, fval (f := p_T p) (low x) = Fin l /\ fval (f := p_T p) (up x) = Fin u /\ 0 <= l /\ u <= b /\ fmem x u).
  { intros b B. destruct (valid_mem _ _ Hx) as (r & Mr). pose proof Mr as [R1 R2]. destruct Hx as (V1 & V2 & V3).
    change (xle (fval (f := p_T p) (low x)) (Fin r)) in R1. change (xle (Fin r) (fval (f := p_T p) (up x))) in R2.
    assert (El : exists l, fval (f := p_T p) (low x) = Fin l).
    { destruct (fval (f := p_T p) (low x)) as [| |l|] eqn:E; cbn [xle] in R1; try tauto; eauto. exfalso.
      assert (M : fmem x (Rmin r (-1))).
      { split; [change (xle (fval (f := p_T p) (low x)) (Fin (Rmin r (-1)))); rewrite E; exact Logic.I|].
        refine (xle_trans _ (Fin r) _ _ R2). cbn [xle]. apply Rmin_l. }
      specialize (B _ M). pose proof (Rmin_r r (-1)). lra. }
    assert (Eu : exists u, fval (f := p_T p) (up x) = Fin u).
    { destruct (fval (f := p_T p) (up x)) as [| |u|] eqn:E; cbn [xle] in R2; try tauto; eauto. exfalso.
      assert (M : fmem x (Rmax r (b + 1))).
      { split; [|change (xle (Fin (Rmax r (b + 1))) (fval (f := p_T p) (up x))); rewrite E; exact Logic.I].
        refine (xle_trans _ (Fin r) _ R1 _). cbn [xle]. apply Rmax_l. }
      specialize (B _ M). pose proof (Rmax_r r (b + 1)). lra. }
    destruct El as (l & El), Eu as (u & Eu). exists l, u. rewrite El in R1. rewrite Eu in R2. cbn [xle] in R1, R2.
    assert (ME : forall q, l <= q <= u -> fmem x q).
    { intros q Q. split; [change (xle (fval (f := p_T p) (low x)) (Fin q)); rewrite El|change (xle (Fin q) (fval (f := p_T p) (up x))); rewrite Eu]; cbn [xle]; lra. }
    pose proof (B l (ME l ltac:(lra))). pose proof (B u (ME u ltac:(lra))). repeat (split; auto); try lra; apply ME; lra. }
  assert (Below : forall e' v r (t : T N), (SpecFloat.emin (prec (p_T p)) (emax (p_T p)) <= e')%Z -> dyad m e' < v < dyad (Pos.succ m) e' ->
    fval (f := p_T p) t = Fin r -> r <= v -> r <= dyad m e').
  { intros e' v r t He' B Et L. destruct (Rle_or_lt r (dyad m e')) as [G|G]; auto. exfalso.
    pose proof (adjacent _ _ _ t r Hm He' Et G). lra. }
  split.
  - intros D U B. destruct (Fin_x PI B) as (l & u & El & Eu & L0 & LU & _).
    assert (UP : u <= dyad m e) by (apply (Below e PI u (up x)); auto; lia).
    assert (T : forall n, exists z : I, returns (t_cos K RR (Datatypes.S n) P x) z /\ ftightest z (fvalues Fcos x)).
    { intros n. exact (cos_tight spec S ltac:(lra) HB HI n x l u D U Hx El Eu L0 UP). }
    destruct (T 0%nat) as (z & Rz & Tz). exists z. split; [|exact Tz]. intros fuel Lf.
    refine (refines_returns (fun n => t_cos K RR n P x) 1 z _ Rz fuel Lf). intros n. apply cos_more.
  - intros t r0 D U Et Lt B. destruct (Fin_x r0) as (l & u & El & Eu & L0 & LU & Mu); [intros r Mr; specialize (B r Mr); lra|].
    assert (UP : r0 <= dyad m (e - 1)) by (apply (Below (e - 1)%Z (PI / 2) r0 t); auto; lra).
    specialize (B u Mu).
    destruct (tan_tight spec S ltac:(lra) HB HI x l u D U Hx El Eu L0 ltac:(lra)) as (z & Rz & Tz).
    exists z. split; [intros fuel; exact Rz|exact Tz].
Qed.
End Range.

(** ** The statements

    sin and cos return intervals inside [-1,1], on every argument, bounded or
    not, on every platform. *)
Theorem C68_range : forall p debug c ord (L : libm (fnum p)) K f (x : itv (fnum p)),
  lib_rounds L -> constants_for p K -> rint_ok p -> f = Fsin \/ f = Fcos -> fvalid x ->
  exists z : itv (fnum p),
    (forall fuel, (2 <= fuel)%nat -> returns (call f K (transc_std (control_hw (fnum p)) L) fuel (P_ p Std debug c ord) x) z) /\
    fvalid z /\ contains_values f x z /\ forall r, fmem z r -> -1 <= r <= 1.
Proof.
  intros p debug c ord L K f x HL C W F Hx. apply range_main; auto; [apply std_down|apply std_up]; auto.
Qed.
Print Assumptions C68_range.
Theorem C68_range_mpfr : forall p debug c ord (M : mpfr p) m0 f (x : itv (fnum p)),
  p = double_sse \/ p = double_x87 -> mpfr_ok M -> f = Fsin \/ f = Fcos -> fvalid x ->
  exists z : itv (fnum p),
    (forall fuel, (2 <= fuel)%nat -> returns (call f (consts_double p m0) (full_rounding M) fuel (P_ p Opp debug c ord) x) z) /\
    fvalid z /\ contains_values f x z /\ forall r, fmem z r -> -1 <= r <= 1.
Proof.
  intros p debug c ord M m0 f x Hp HM F Hx. apply range_main; auto.
  - apply for_double. auto.
  - destruct Hp as [-> | ->]; left; split; cbn; lia.
  - apply full_down; auto.
  - apply full_up; auto.
Qed.
Print Assumptions C68_range_mpfr.

(** cos is the tightest interval on arguments inside [0,pi], tan on arguments
    inside [0,t) where t is a number below pi/2. *)
Theorem C68_tightest_partial : forall p debug c ord (L : libm (fnum p)) K m0 (x : itv (fnum p)),
  ((p = float_sse \/ p = float_x87) /\ K = consts_float p m0) \/ ((p = double_sse \/ p = double_x87) /\ K = consts_double p m0) ->
  lib_rounds L -> fvalid x ->
  ((forall r, fmem x r -> 0 <= r <= PI) ->
   exists z : itv (fnum p), (forall fuel, (1 <= fuel)%nat -> returns (call Fcos K (transc_std (control_hw (fnum p)) L) fuel (P_ p Std debug c ord) x) z) /\
     ftightest z (fvalues Fcos x)) /\
  (forall (t : flt (p_T p)) r0, fval t = Fin r0 -> r0 < PI / 2 -> (forall r, fmem x r -> 0 <= r < r0) ->
   exists z : itv (fnum p), (forall fuel, returns (call Ftan K (transc_std (control_hw (fnum p)) L) fuel (P_ p Std debug c ord) x) z) /\
     ftightest z (fvalues Ftan x)).
Proof.
  intros p debug c ord L K m0 x Hp HL Hx.
  destruct (trig_tight p Std debug c ord (transc_std (control_hw (fnum p)) L) K m0 Hp x Hx) as [A B]. split.
  - apply A; [apply std_down|apply std_up]; auto.
  - intros t r0. apply B; [apply std_down|apply std_up]; auto.
Qed.
Print Assumptions C68_tightest_partial.
Theorem C68_tightest_mpfr_partial : forall p debug c ord (M : mpfr p) m0 (x : itv (fnum p)),
  p = double_sse \/ p = double_x87 -> mpfr_ok M -> fvalid x ->
  ((forall r, fmem x r -> 0 <= r <= PI) ->
   exists z : itv (fnum p), (forall fuel, (1 <= fuel)%nat -> returns (call Fcos (consts_double p m0) (full_rounding M) fuel (P_ p Opp debug c ord) x) z) /\
     ftightest z (fvalues Fcos x)) /\
  (forall (t : flt (p_T p)) r0, fval t = Fin r0 -> r0 < PI / 2 -> (forall r, fmem x r -> 0 <= r < r0) ->
   exists z : itv (fnum p), (forall fuel, returns (call Ftan (consts_double p m0) (full_rounding M) fuel (P_ p Opp debug c ord) x) z) /\
     ftightest z (fvalues Ftan x)).
Proof.
  intros p debug c ord M m0 x Hp HM Hx.
  destruct (trig_tight p Opp debug c ord (full_rounding M) (consts_double p m0) m0 (or_intror (conj Hp eq_refl)) x Hx) as [A B]. split.
  - apply A; [apply full_down|apply full_up]; auto.
  - intros t r0. apply B; [apply full_down|apply full_up]; auto.
Qed.
Print Assumptions C68_tightest_mpfr_partial.

(** sin([0,0]) is not the interval [0,0], whatever the library: the value comes
    from cos at an enclosure of pi/2. *)
Definition zero_dx : itv ND := mk (dbl (-7074237752028441) (-52)) (dbl (-7074237752028440) (-52)).
Definition zero_t : itv ND := mk (dbl 5305678314021329 (-50)) (dbl 5305678314021331 (-50)).
Definition zero_w : T ND := dbl 1 (-49).
Definition zero_d : itv ND := mk (dbl 7074237752028434 (-52)) (dbl 7074237752028444 (-52)).
Definition zero_wd : T ND := dbl 5 (-51).
Section Zero.
Context (L : libm ND) (HL : lib_rounds L).
Notation RR := (transc_std (control_hw ND) L).
Lemma neg_mem (r : itv ND) t s : fvalid (p := D) r -> fmem (p := D) r t ->
  exists g s', (let! r := op_neg (unprotect Q0) r in ctor_back Q0 r) s = (Ok g, s') /\ fmem (p := D) g (- t).
Proof.
  intros V M. pose proof (fpolspec D Save Std true CkStrict (fun _ => true)) as spec.
  destruct (op_neg_ok (polspec_unprotect _ _ _ (polspec_unprotect _ _ _ spec)) r V) as (g & Rg & Dg & _). apply runsP_unprotect in Rg.
  destruct (Rg s Logic.I) as (s' & _ & Eg). exists g, s'. split; [|apply Dg; exists t; auto].
  rewrite (bind_at _ _ _ _ _ Eg). destruct g. reflexivity.
Qed.
Lemma sin_zero_at : exists g r, fst (t_sin K0 RR 2 P0 (di 0 0) RNE) = Ok g /\ fmem (p := D) g r /\ 0 < r.
Proof.
  destruct (far_apart (up zero_d) (up zero_d) 7074237752028444 7074237752028444) as (ru & _ & Vu & _ & Cu & _); [vm_compute; reflexivity ..|].
  assert (Vl : fval (f := binary64) (low zero_d) = Fin (dyad 7074237752028434 (-52))) by (apply pos_val; vm_compute; reflexivity).
  assert (Cl : 0 < cos (dyad 7074237752028434 (-52))).
  { apply cos_gt_0.
    - apply Rlt_le_trans with 0; [pose proof PI_RGT_0; lra|]. unfold dyad. apply Rmult_le_pos; [apply IZR_le; lia|apply bpow_ge_0].
    - destruct double_pi as [U _]. assert (Lt : dyad 7074237752028434 (-52) < dyad mdl (-52)) by (apply dyad_lt; vm_compute; reflexivity).
      pose proof (dyad_half mdl (-51)) as Hh. change (-51 - 1)%Z with (-52)%Z in Hh. lra. }
  destruct (cos_mono_branch L HL (t_cos K0 RR 0) Q0 zero_d RUP zero_d zero_wd (dyad 7074237752028434 (-52)) ru (or_intror eq_refl)) as (a & b & s' & E & [A _] & [B _]);
    [runs|runs|bool|bool|bool|runs|exact Vl|exact Vu|].
  assert (M : fmem (p := D) (mk a b) (cos ru)).
  { split; [exact A|]. refine (xle_trans (Fin (cos ru)) (Fin (cos (dyad 7074237752028434 (-52)))) _ _ B). cbn [xle]. lra. }
  destruct (neg_mem (mk a b) (cos ru) s' (mem_valid _ _ _ M) M) as (g & s2 & Eg & Mg).
  assert (Q : cos_body K0 RR (t_cos K0 RR 1) Q0 zero_dx RUP = (Ok g, s2)).
  { rewrite (body_neg K0 RR (t_cos K0 RR 1) Q0 zero_dx RUP w_pi2 RUP zero_t RUP zero_w RUP (up w_pi) RUP w_pi RUP zero_d RUP);
      [|runs|runs|runs|bool|runs|bool|runs|runs].
    cbv zeta. rewrite t_cos_unfold. rewrite (bind_at _ _ RUP (mk a b) s'); [exact Eg|].
    rewrite no_test by auto. exact E. }
  exists (mk (low g) (up g)), (- cos ru). split; [|split; [destruct g; exact Mg|lra]]. unfold t_sin. rewrite no_test by auto.
  erewrite with_at; [reflexivity|]. cbv zeta.
  rewrite (bind_at _ _ RNE w_half RNE) by runs. rewrite (bind_at _ _ RNE zero_dx RUP) by runs.
  rewrite (bind_at _ _ RUP g s2) by (rewrite t_cos_unfold, no_test by auto; exact Q). reflexivity.
Qed.
End Zero.
Theorem C68_sin_tightest_refuted : forall L : libm (fnum double_sse), lib_rounds L ->
  (exists z : itv (fnum double_sse),
     (forall fuel, (2 <= fuel)%nat -> returns (call Fsin (consts_double double_sse RNE) (transc_std (control_hw (fnum double_sse)) L) fuel
        (P_ double_sse Std true CkStrict (fun _ => true)) (di 0 0)) z) /\
     ~ ftightest z (fvalues Fsin (di 0 0)) /\ exists r, fmem z r /\ 0 < r) /\
  (forall r, fvalues Fsin (di 0 0) r <-> r = 0).
Proof.
  intros L HL. pose proof (dbl_val 0 ltac:(lia)) as E0. change (IZR 0) with 0 in E0.
  assert (M0 : forall r, fmem (p := D) (di 0 0) r <-> r = 0).
  { intros r. split.
    - intros [M1 M2]. change (xle (fval (f := binary64) (dbl 0 0)) (Fin r)) in M1. change (xle (Fin r) (fval (f := binary64) (dbl 0 0))) in M2.
      rewrite E0 in M1, M2. cbn [xle] in M1, M2. lra.
    - intros ->. split; [change (xle (fval (f := binary64) (dbl 0 0)) (Fin 0))|change (xle (Fin 0) (fval (f := binary64) (dbl 0 0)))]; rewrite E0; cbn [xle]; lra. }
  assert (V0 : forall r, fvalues (p := D) Fsin (di 0 0) r <-> r = 0).
  { intros r. split.
    - intros (t & M & G). apply M0 in M. subst t. cbn [graph] in G. rewrite G. apply sin_0.
    - intros ->. exists 0. split; [apply M0; reflexivity|]. cbn [graph]. symmetry. apply sin_0. }
  split; [|exact V0].
  destruct (C68_range D true CkStrict (fun _ => true) L (consts_double D RNE) Fsin (di 0 0) HL) as (z & Rz & _).
  { apply for_double. auto. } { left; split; cbn; lia. } { auto. } { apply di_valid; lia. }
  destruct (sin_zero_at L HL) as (g & r & Eg & Mg & Hr).
  pose proof (Rz 2%nat ltac:(lia) RNE) as E2. cbn [call] in E2. rewrite E2 in Eg. cbn [fst] in Eg.
  assert (Q : z = g) by congruence. subst g.
  exists z. split; [exact Rz|]. split; [|exists r; auto].
  intros [_ Ti]. destruct (Ti (di 0 0)) as [_ U].
  { intros t Ht. apply V0 in Ht. apply M0. exact Ht. }
  destruct Mg as [_ M2]. pose proof (xle_trans _ _ _ M2 U) as B. change (xle (Fin r) (fval (f := binary64) (dbl 0 0))) in B.
  rewrite E0 in B. cbn [xle] in B. lra.
Qed.
Print Assumptions C68_sin_tightest_refuted.

Example C68_case : lib_rounds (ref_lib double_sse) /\ constants_for double_sse (consts_double double_sse RNE) /\ rint_ok double_sse /\
  fvalid (di 0 3) /\ (forall r, fmem (p := double_sse) (di 0 3) r -> 0 <= r <= PI) /\
  (exists r0, fval (f := p_T double_sse) (dbl 3 (-1)) = Fin r0 /\ r0 < PI / 2 /\ forall r, fmem (p := double_sse) (di 0 1) r -> 0 <= r < r0) /\
  (exists W : mpfr_ok ref_mpfr, fvalid (di 0 1)).
Proof.
  pose proof pi_3_4 as P3.
  assert (Mm : forall b r, (0 <= b <= 3)%Z -> fmem (p := double_sse) (di 0 b) r -> 0 <= r <= IZR b).
  { intros b r Hb [M1 M2]. change (xle (fval (f := binary64) (dbl 0 0)) (Fin r)) in M1. change (xle (Fin r) (fval (f := binary64) (dbl b 0))) in M2.
    rewrite dbl_val in M1 by lia. rewrite dbl_val in M2 by lia. cbn [xle] in M1, M2. lra. }
  split; [apply ref_lib_rounds|]. split; [apply for_double; auto|]. split; [left; split; cbn; lia|]. split; [apply di_valid; lia|].
  split; [intros r M; apply Mm in M; [lra|lia]|]. split.
  - exists (3 / 2). split; [|split; [lra|intros r M; apply Mm in M; [lra|lia]]].
    change (fval (f := binary64) (dbl 3 (-1)) = Fin (3 / 2)). rewrite (pos_val (dbl 3 (-1)) 6755399441055744 (-52)) by (vm_compute; reflexivity).
    f_equal. unfold dyad. simpl. lra.
  - exists ref_mpfr_ok. apply di_valid; lia.
Qed.

(** * Properties C45, C46, C47, C48: constants and transcendental functions *)

From Coq Require Import Reals ZArith Lra Lia Bool.
From Flocq Require Import Core BinarySingleNaN.
From Verif Require Import Outcome Base Checking Interval Utility Arith Arith2 FloatNum Spec ExtR Sem
  FloatSpec FloatPol FloatInt CoreArith CoreDiv CoreMore CoreFmod Inst Witness
  Transc SpecTransc TransReal CoreTransc CoreTrig FloatConst FloatTrans RefLib TransFuel.
Local Open Scope R_scope.

Notation P_ p k debug c ord := (fpol p Save k debug c ord).

(** Which constants go with which type (constants.hpp:27-53); [m0] is the
    rounding mode when the program starts. *)
Inductive constants_for : forall p, consts (fnum p) -> Prop :=
| for_float p m0 : p = float_sse \/ p = float_x87 -> constants_for p (consts_float p m0)
| for_double p m0 : p = double_sse \/ p = double_x87 -> constants_for p (consts_double p m0)
| for_long_double p pd m0 : ld_pair p pd -> constants_for p (consts_long_double p pd m0)
| for_other p : (3 <= prec (p_T p))%Z -> (3 <= prec (p_R p))%Z -> constants_for p (consts_generic (fnum p)).

(** The library function of each name; [fuel] bounds the recursion of cos. *)
Definition call {N} (f : tfun) (K : consts N) (R : transc N) (fuel : nat) (P : policy N) : itv N -> M (itv N) :=
  match f with
  | Fexp => t_exp R P | Flog => t_log R P
  | Fsin => t_sin K R fuel P | Fcos => t_cos K R fuel P | Ftan => t_tan K R P
  | Fasin => t_asin K R P | Facos => t_acos K R P | Fatan => t_atan R P
  | Fsinh => t_sinh R P | Fcosh => t_cosh R P | Ftanh => t_tanh R P
  | Fasinh => t_asinh R P | Facosh => t_acosh R P | Fatanh => t_atanh R P
  end.

Lemma constants_kspec p K : constants_for p K -> exists pl pu hl hu tl tu,
  kspec (N := fnum p) fval K pl pu hl hu tl tu /\ tl <= IZR (2 ^ q_prec p) * (tu - tl).
Proof.
  intros C. destruct C as [p m0 Hp|p m0 Hp|p pd m0 Hp|p H1 H2]; do 6 eexists.
  - split; [apply float_k; exact Hp|]. change mfu with (Pos.succ mfl). rewrite dyad_gap.
    replace (IZR (2 ^ q_prec p)) with (bpow radix2 24) by (destruct Hp as [-> | ->]; reflexivity).
    rewrite <- bpow_plus. change (bpow radix2 (24 + -21)) with 8.
    pose proof float_pi as [A _]. pose proof pi_3_4. rewrite (dyad_twice mfl (-22) : dyad mfl (-21) = _). lra.
  - split; [apply double_k; exact Hp|]. change mdu with (Pos.succ mdl). rewrite dyad_gap.
    replace (IZR (2 ^ q_prec p)) with (bpow radix2 53) by (destruct Hp as [-> | ->]; reflexivity).
    rewrite <- bpow_plus. change (bpow radix2 (53 + -50)) with 8.
    pose proof double_pi as [A _]. pose proof pi_3_4. rewrite (dyad_twice mdl (-51) : dyad mdl (-50) = _). lra.
  - split; [apply long_k; exact Hp|]. change mdu with (Pos.succ mdl). rewrite dyad_gap.
    apply Rle_trans with (bpow radix2 53 * bpow radix2 (-50)).
    + rewrite <- bpow_plus. change (bpow radix2 (53 + -50)) with 8.
      pose proof double_pi as [A _]. pose proof pi_3_4. rewrite (dyad_twice mdl (-51) : dyad mdl (-50) = _). lra.
    + apply Rmult_le_compat_r; [apply bpow_ge_0|]. change (bpow radix2 53) with (IZR (2 ^ 53)). apply IZR_le.
      destruct Hp as [[-> _]|[-> _]]; vm_compute; discriminate.
  - split; [apply generic_k; exact H1|]. assert (8 <= IZR (2 ^ q_prec p)).
    { apply (IZR_le 8). change 8%Z with (2 ^ 3)%Z. apply Z.pow_le_mono_r; unfold q_prec; lia. }
    lra.
Qed.

(** ** C45 *)
Lemma pair_returns {N} o (m1 m2 : M (T N)) a b : pureM m1 a -> pureM m2 b -> returns (mk_args o m1 m2) (mk a b).
Proof. intros H1 H2 s. apply pureM_mk_args; auto. Qed.

(** pi<I>(), pi_half<I>() and pi_twice<I>() contain pi, pi/2 and 2 pi, whatever
    the rounding modes when the program starts and at the call; no call changes
    the mode. *)
Theorem C45_constants : forall p k debug c ord K, constants_for p K ->
  exists zp zh zt : itv (fnum p),
    returns (i_pi (P_ p k debug c ord) K) zp /\ fvalid zp /\ fmem zp PI /\
    returns (i_pi_half (P_ p k debug c ord) K) zh /\ fvalid zh /\ fmem zh (PI / 2) /\
    returns (i_pi_twice (P_ p k debug c ord) K) zt /\ fvalid zt /\ fmem zt (2 * PI).
Proof.
  intros p k debug c ord K C. destruct (constants_kspec p K C) as (pl & pu & hl & hu & tl & tu & S & _).
  destruct S as [(a & Ea & Ra) (b & Eb & Rb) (d & Ed & Rd) (e & Ee & Re) (f & Ef & Rf) (g & Eg & Rg) B1 B2 B3 _].
  assert (V : forall u v ru rv r, fval (f := p_T p) u = Fin ru -> fval (f := p_T p) v = Fin rv -> ru <= r <= rv ->
     fvalid (p := p) (mk (u : T (fnum p)) (v : T (fnum p))) /\ fmem (p := p) (mk (u : T (fnum p)) (v : T (fnum p))) r).
  { intros u v ru rv r Eu Ev B. assert (M : fmem (p := p) (mk (u : T (fnum p)) (v : T (fnum p))) r).
    { unfold fmem, mem. cbn [low up]. rewrite Eu, Ev. exact B. }
    split; auto. exact (mem_valid _ _ r M). }
  exists (mk a b), (mk d e), (mk f g).
  destruct (V a b _ _ PI Ea Eb B1) as [V1 V2]. destruct (V d e _ _ (PI / 2) Ed Ee B2) as [V3 V4]. destruct (V f g _ _ (2 * PI) Ef Eg B3) as [V5 V6].
  split; [apply pair_returns; auto|]. split; auto. split; auto.
  split; [apply pair_returns; auto|]. split; auto. split; auto.
  split; [apply pair_returns; auto|]. split; auto.
Qed.
Print Assumptions C45_constants.
Example C45_case : constants_for float_sse (consts_float float_sse RUP) /\ constants_for double_x87 (consts_double double_x87 RDN) /\
  constants_for long_double_c99 (consts_long_double long_double_c99 double_sse RZR) /\ constants_for double_sse (consts_generic (fnum double_sse)).
Proof.
  split; [apply for_float; auto|]. split; [apply for_double; auto|].
  split; [apply for_long_double; left; auto|]. apply for_other; cbn; lia.
Qed.

(** The bounds m 2^e and (m+1) 2^e of a number strictly between are the tightest. *)
Lemma adjacent_tightest p m e v (l u : T (fnum p)) : (2 ^ (prec (p_T p) - 1) <= Zpos m)%Z -> (SpecFloat.emin (prec (p_T p)) (emax (p_T p)) <= e)%Z ->
  fval (f := p_T p) l = Fin (dyad m e) -> fval (f := p_T p) u = Fin (dyad (Pos.succ m) e) -> dyad m e < v < dyad (Pos.succ m) e ->
  ftightest (p := p) (mk l u) (point v).
Proof.
  intros Hm He El Eu B. split.
  - intros r ->. unfold mem. cbn [low up]. unfold fval. split.
    + change (xle (fval (f := p_T p) l) (Fin v)). rewrite El. cbn [xle]. lra.
    + change (xle (Fin v) (fval (f := p_T p) u)). rewrite Eu. cbn [xle]. lra.
  - intros w Ew. destruct (Ew v eq_refl) as [W1 W2]. cbn [low up].
    change (xle (fval (f := p_T p) (low w)) (fval (f := p_T p) l) /\ xle (fval (f := p_T p) u) (fval (f := p_T p) (up w))).
    rewrite El, Eu. split.
    + destruct (fval (f := p_T p) (low w)) as [| |r|] eqn:E; cbn [xle] in *; try tauto.
      destruct (Rle_or_lt r (dyad m e)) as [K|K]; auto. exfalso.
      pose proof (adjacent _ _ _ (low w) r Hm He E K). lra.
    + destruct (fval (f := p_T p) (up w)) as [| |r|] eqn:E; cbn [xle] in *; try tauto.
      apply (adjacent _ _ _ (up w) r Hm He E). lra.
Qed.
(** For float and double the enclosures are the tightest possible: the bounds are
    consecutive numbers. *)
Theorem C45_tight : forall p k debug c ord K m0,
  ((p = float_sse \/ p = float_x87) /\ K = consts_float p m0) \/ ((p = double_sse \/ p = double_x87) /\ K = consts_double p m0) ->
  exists zp zh zt : itv (fnum p),
    returns (i_pi (P_ p k debug c ord) K) zp /\ ftightest zp (point PI) /\
    returns (i_pi_half (P_ p k debug c ord) K) zh /\ ftightest zh (point (PI / 2)) /\
    returns (i_pi_twice (P_ p k debug c ord) K) zt /\ ftightest zt (point (2 * PI)).
Proof.
  intros p k debug c ord K m0 Hp.
  assert (S : exists m e, (2 ^ (prec (p_T p) - 1) <= Zpos m)%Z /\ (SpecFloat.emin (prec (p_T p)) (emax (p_T p)) <= e - 1)%Z /\
    dyad m e < PI < dyad (Pos.succ m) e /\
    kspec (N := fnum p) fval K (dyad m e) (dyad (Pos.succ m) e) (dyad m (e - 1)) (dyad (Pos.succ m) (e - 1)) (dyad m (e + 1)) (dyad (Pos.succ m) (e + 1))).
  { destruct Hp as [[Hp ->]|[Hp ->]].
    - exists mfl, (-22)%Z. split; [destruct Hp as [-> | ->]; vm_compute; discriminate|]. split; [destruct Hp as [-> | ->]; vm_compute; discriminate|].
      split; [exact float_pi|exact (float_k p m0 Hp)].
    - exists mdl, (-51)%Z. split; [destruct Hp as [-> | ->]; vm_compute; discriminate|]. split; [destruct Hp as [-> | ->]; vm_compute; discriminate|].
      split; [exact double_pi|exact (double_k p m0 Hp)]. }
  destruct S as (m & e & Hm & He & Hpi & S).
  destruct S as [(a & Ea & Ra) (b & Eb & Rb) (d & Ed & Rd) (g & Eg & Rg) (h & Eh & Rh) (i & Ei & Ri) _ _ _ _].
  exists (mk a b), (mk d g), (mk h i).
  assert (Hh : dyad m (e - 1) < PI / 2 < dyad (Pos.succ m) (e - 1)) by (rewrite !dyad_half; lra).
  assert (Ht : dyad m (e + 1) < 2 * PI < dyad (Pos.succ m) (e + 1)) by (rewrite !dyad_twice; lra).
  split; [apply pair_returns; auto|]. split; [apply (adjacent_tightest p m e); auto; lia|].
  split; [apply pair_returns; auto|]. split; [apply (adjacent_tightest p m (e - 1)); auto; lia|].
  split; [apply pair_returns; auto|]. apply (adjacent_tightest p m (e + 1)); auto; lia.
Qed.
Print Assumptions C45_tight.
Example C45_tight_case : ((double_sse = float_sse \/ double_sse = float_x87) /\ consts_double double_sse RUP = consts_float double_sse RUP) \/
  ((double_sse = double_sse \/ double_sse = double_x87) /\ consts_double double_sse RUP = consts_double double_sse RUP).
Proof. right. auto. Qed.

(** ** C46: the functions without argument reduction *)
Section Mono.
Context (p : platform) (k : rkind) (debug : bool) (c : ckind) (ord : site -> bool) (L : libm (fnum p)) (HL : lib_ok L).
Notation P := (P_ p k debug c ord).
Notation spec := (fpolspec p Save k debug c ord).
Notation RR := (ftransc p k L).

Lemma finish (f : tfun) (m : M (itv (fnum p))) (x : itv (fnum p)) : somewhere_defined f x ->
  (exists z : itv (fnum p), runsP P (fready k) m z /\ holds (N := fnum p) (val := fval) f x z) ->
  exists z : itv (fnum p), returns m z /\ fvalid z /\ contains_values f x z.
Proof.
  intros (r & t & M & G) (z & Rz & Hz). exists z. split; [exact Rz|]. split; [|exact Hz].
  exact (mem_valid _ _ t (Hz r t M G)).
Qed.
Lemma xle_mem_up (x : itv (fnum p)) r a : fmem x r -> xlt (Fin a) (Fin r) -> xlt (Fin a) (fval (f := p_T p) (up x)).
Proof. intros [_ M] A. exact (xlt_le_trans _ _ _ A M). Qed.

Definition domain_open (x : itv (fnum p)) := xlt (Fin (-1)) (fval (f := p_T p) (up x)) /\ xlt (fval (f := p_T p) (low x)) (Fin 1).
Lemma kbounds K : constants_for p K -> half_bound (val := (fval : T (fnum p) -> ext)) (K := K) /\ pi_bound (val := (fval : T (fnum p) -> ext)) (K := K).
Proof.
  intros C. destruct (constants_kspec p K C) as (pl & pu & hl & hu & tl & tu & S & _). split.
  - destruct (ks_hu _ _ _ _ _ _ _ _ S) as (t & Et & Rt). exists t. split; auto.
    change (xle (Fin (PI / 2)) (fval (f := p_T p) t)). change (fval (f := p_T p) t = Fin hu) in Et. rewrite Et. apply (ks_half _ _ _ _ _ _ _ _ S).
  - destruct (ks_pu _ _ _ _ _ _ _ _ S) as (t & Et & Rt). exists t. split; auto.
    change (xle (Fin PI) (fval (f := p_T p) t)). change (fval (f := p_T p) t = Fin pu) in Et. rewrite Et. apply (ks_pi _ _ _ _ _ _ _ _ S).
Qed.
Lemma unit_dom (x : itv (fnum p)) r : fmem x r -> -1 <= r <= 1 ->
  xle (Fin (-1)) (fval (f := p_T p) (up x)) /\ xle (fval (f := p_T p) (low x)) (Fin 1).
Proof. intros [A B] [C D]. split; [exact (xle_trans (Fin (-1)) (Fin r) _ C B)|exact (xle_trans _ (Fin r) (Fin 1) A D)]. Qed.
Lemma unit_dom_strict (x : itv (fnum p)) r : fmem x r -> -1 < r < 1 ->
  xlt (Fin (-1)) (fval (f := p_T p) (up x)) /\ xlt (fval (f := p_T p) (low x)) (Fin 1).
Proof. intros [A B] [C D]. split; [exact (xlt_le_trans (Fin (-1)) (Fin r) _ C B)|exact (xle_lt_trans _ (Fin r) (Fin 1) A D)]. Qed.

Lemma mono_doc (RR : transc (fnum p)) K fuel f (x : itv (fnum p)) : constants_for p K ->
  f <> Fsin -> f <> Fcos -> f <> Ftan ->
  doc_down (N := fnum p) fval (fready k) RR f -> doc_up (N := fnum p) fval (fready k) RR f ->
  fvalid x -> somewhere_defined f x ->
  exists z : itv (fnum p), returns (call f K RR fuel P x) z /\ fvalid z /\ contains_values f x z.
Proof.
  intros C F1 F2 F3 D U Hx Hd. apply finish; auto.
  apply (doc_down_ok _ F1 F2 F3) in D. apply (doc_up_ok _ F1 F2 F3) in U.
  destruct (kbounds K C) as [KH KP]. pose proof (mone_val p) as HM.
  destruct Hd as (r & t & M & G).
  destruct f; try congruence; cbn [call].
  - exact (t_exp_ok spec x D U Hx).
  - apply (t_log_ok spec x eq_refl D U Hx). cbn [graph] in G. apply (xle_mem_up x r 0 M). subst r. apply exp_pos.
  - apply (t_asin_ok spec HM x KH D U Hx). apply (unit_dom x r M). destruct G as [_ <-]. apply SIN_bound.
  - apply (t_acos_ok spec HM x KP D U Hx). apply (unit_dom x r M). destruct G as [_ <-]. apply COS_bound.
  - exact (t_atan_ok spec x D U Hx).
  - exact (t_sinh_ok spec x D U Hx).
  - exact (t_cosh_ok spec x D U Hx).
  - exact (t_tanh_ok spec x D U Hx).
  - exact (t_asinh_ok spec x D U Hx).
  - apply (t_acosh_ok spec x D U Hx). destruct M as [_ M]. refine (xle_trans _ (Fin r) _ _ M). cbn [xle].
    destruct G as [T0 <-]. change (1 <= cosh t). rewrite <- cosh_0. apply cosh_le; lra.
  - assert (B : -1 < r < 1) by (cbn [graph] in G; rewrite tanh_graph in G; subst r; apply tanh_bound).
    destruct (unit_dom_strict x r M B) as [S1 S2]. exact (t_atanh_ok spec HM x eq_refl D U Hx S1 S2).
Qed.
Lemma mono_main K fuel f (x : itv (fnum p)) : constants_for p K ->
  f <> Fsin -> f <> Fcos -> f <> Ftan -> (k = Opp -> switches f = true) ->
  fvalid x -> somewhere_defined f x ->
  exists z : itv (fnum p), returns (call f K RR fuel P x) z /\ fvalid z /\ contains_values f x z.
Proof.
  intros C F1 F2 F3 Hs Hx Hd. apply (mono_doc RR K fuel f x C F1 F2 F3); auto.
  - apply down_doc, (ftransc_down p L HL k f Hs).
  - apply up_doc, (ftransc_up p L HL k f).
Qed.
Lemma empty_main (R' : transc (fnum p)) K fuel f (x : itv (fnum p)) :
  f <> Fsin -> f <> Fcos -> f <> Ftan -> fvalid x ->
  (f = Fatanh -> forall r, fmem x r -> ~ (-1 <= r <= 1)) -> nowhere_defined f x ->
  gives_empty c (call f K R' fuel P x).
Proof.
  intros F1 F2 F3 Hx Ha Hd. pose proof (mone_val p) as HM.
  assert (Un : (forall r, fmem x r -> ~ (-1 <= r <= 1)) ->
    ~ (xle (Fin (-1)) (fval (f := p_T p) (up x)) /\ xle (fval (f := p_T p) (low x)) (Fin 1))).
  { intros Nm [A B]. destruct (valid_mem _ _ Hx) as (r0 & R1 & R2).
    change (xle (fval (f := p_T p) (low x)) (Fin r0)) in R1. change (xle (Fin r0) (fval (f := p_T p) (up x))) in R2.
    (* the member nearest to the domain *)
    pose (r1 := Rmax (-1) (Rmin r0 1)).
    assert (M1 : fmem x r1).
    { unfold r1. destruct (Rle_or_lt r0 1) as [Q|Q].
      - rewrite (Rmin_left r0 1) by lra. destruct (Rle_or_lt (-1) r0) as [Q'|Q'].
        + rewrite Rmax_right by lra. split; auto.
        + rewrite Rmax_left by lra. split; [exact (xle_trans _ (Fin r0) (Fin (-1)) R1 (Rlt_le _ _ Q'))|exact A].
      - rewrite (Rmin_right r0 1) by lra. rewrite Rmax_right by lra. split; [exact B|exact (xle_trans (Fin 1) (Fin r0) _ (Rlt_le _ _ Q) R2)]. }
    apply (Nm r1 M1). unfold r1. split; [apply Rmax_l|]. apply Rmax_lub; [lra|apply Rmin_r]. }
  assert (Nx : exists r0, fmem x r0) by exact (valid_mem _ _ Hx). destruct Nx as (r0 & M0).
  assert (Total : (exists t, graph f r0 t) -> gives_empty c (call f K R' fuel P x)).
  { intros (t & G). destruct (Hd r0 t M0 G). }
  destruct f; try congruence; cbn [call] in *; try (apply Total; eexists; cbn [graph]; reflexivity).
  - apply empty_gives with (k := k) (debug := debug) (ord := ord). intros o Ho s. refine (t_log_empty spec x o Hx _ Ho s).
    destruct (Hx) as (V1 & V2 & V3). change (xle (fval (f := p_T p) (up x)) (Fin 0)).
    destruct (fval (f := p_T p) (up x)) as [| |u|] eqn:E; cbn [xle].
    + destruct M0 as [_ M0]. change (xle (Fin r0) (fval (f := p_T p) (up x))) in M0. rewrite E in M0. exact M0.
    + exact Logic.I.
    + destruct (Rle_or_lt u 0) as [|Q]; auto. exfalso. apply (Hd u (ln u)).
      * destruct M0 as [M1 M2]. change (xle (Fin r0) (fval (f := p_T p) (up x))) in M2. rewrite E in M2. split; [exact (xle_trans _ (Fin r0) (Fin u) M1 M2)|].
        change (xle (Fin u) (fval (f := p_T p) (up x))). rewrite E. apply Rle_refl.
      * cbn [graph]. apply exp_ln; auto.
    + exfalso. apply (Hd (Rmax r0 1) (ln (Rmax r0 1))).
      * destruct M0 as [M1 M2]. split; [exact (xle_trans _ (Fin r0) (Fin (Rmax r0 1)) M1 (Rmax_l _ _))|].
        change (xle (Fin (Rmax r0 1)) (fval (f := p_T p) (up x))). rewrite E. exact Logic.I.
      * cbn [graph]. apply exp_ln. pose proof (Rmax_r r0 1). lra.
  - apply empty_gives with (k := k) (debug := debug) (ord := ord). intros o Ho s.
    assert (Q : ~ (xle (Fin (-1)) (fval (f := p_T p) (up x)) /\ xle (fval (f := p_T p) (low x)) (Fin 1))).
    { apply Un. intros r Mr B. destruct (asin_ex r B) as (t & Gt). exact (Hd r t Mr Gt). }
    exact (proj1 (unit_empty spec HM x o Hx Q Ho s)).
  - apply empty_gives with (k := k) (debug := debug) (ord := ord). intros o Ho s.
    assert (Q : ~ (xle (Fin (-1)) (fval (f := p_T p) (up x)) /\ xle (fval (f := p_T p) (low x)) (Fin 1))).
    { apply Un. intros r Mr B. destruct (acos_ex r B) as (t & Gt). exact (Hd r t Mr Gt). }
    exact (proj1 (proj2 (unit_empty spec HM x o Hx Q Ho s))).
  - apply Total. exact (atan_ex r0).
  - apply Total. exact (asinh_ex r0).
  - apply empty_gives with (k := k) (debug := debug) (ord := ord). intros o Ho s. refine (t_acosh_empty spec x o Hx _ Ho s).
    destruct (Hx) as (V1 & V2 & V3). change (xlt (fval (f := p_T p) (up x)) (Fin 1)).
    destruct M0 as [M1 M2]. change (xle (Fin r0) (fval (f := p_T p) (up x))) in M2.
    destruct (fval (f := p_T p) (up x)) as [| |u|] eqn:E; cbn [xle xlt] in *; auto.
    + destruct (Rle_or_lt 1 u) as [Q|]; auto. exfalso. destruct (acosh_ex u Q) as (t & Gt). apply (Hd u t); auto.
      split; [exact (xle_trans _ (Fin r0) (Fin u) M1 M2)|].
      change (xle (Fin u) (fval (f := p_T p) (up x))). rewrite E. apply Rle_refl.
    + exfalso. destruct (acosh_ex (Rmax r0 1) (Rmax_r _ _)) as (t & Gt). apply (Hd (Rmax r0 1) t); auto.
      split; [exact (xle_trans _ (Fin r0) (Fin (Rmax r0 1)) M1 (Rmax_l _ _))|].
      change (xle (Fin (Rmax r0 1)) (fval (f := p_T p) (up x))). rewrite E. exact Logic.I.
  - apply empty_gives with (k := k) (debug := debug) (ord := ord). intros o Ho s.
    exact (proj2 (proj2 (unit_empty (K := K) spec HM x o Hx (Un (Ha eq_refl)) Ho s))).
Qed.
End Mono.

(** With the rounding class rounded_transc_std, whatever library honours the
    rounding mode: the result contains the value of the function at every member
    where it is defined. *)
Theorem C46_values : forall p debug c ord (L : libm (fnum p)) K fuel f (x : itv (fnum p)),
  lib_ok L -> constants_for p K -> f <> Fsin -> f <> Fcos -> f <> Ftan -> fvalid x -> somewhere_defined f x ->
  exists z : itv (fnum p), returns (call f K (transc_std (control_hw (fnum p)) L) fuel (P_ p Std debug c ord) x) z /\
    fvalid z /\ contains_values f x z.
Proof.
  intros p debug c ord L K fuel f x HL C F1 F2 F3 Hx Hd.
  apply (mono_main p Std debug c ord L HL K fuel f x); auto. discriminate.
Qed.
Print Assumptions C46_values.
(** The same for the class rounded_transc_opp and the functions it computes in
    the downward mode (see C48 for the others). *)
Theorem C46_values_opp_partial : forall p debug c ord (L : libm (fnum p)) K fuel f (x : itv (fnum p)),
  lib_ok L -> constants_for p K -> f = Fexp \/ f = Flog \/ f = Facos \/ f = Fcosh \/ f = Fasinh \/ f = Fatanh ->
  fvalid x -> somewhere_defined f x ->
  exists z : itv (fnum p), returns (call f K (transc_opp (control_hw (fnum p)) L) fuel (P_ p Opp debug c ord) x) z /\
    fvalid z /\ contains_values f x z.
Proof.
  intros p debug c ord L K fuel f x HL C F Hx Hd.
  apply (mono_main p Opp debug c ord L HL K fuel f x); auto; destruct F as [F|[F|[F|[F|[F|F]]]]]; subst f; try discriminate; auto.
Qed.
Print Assumptions C46_values_opp_partial.
(** Empty (or the exception) when the function is defined at no member; for atanh
    only if moreover neither -1 nor 1 is a member. *)
Theorem C46_empty_partial : forall p k debug c ord (L : libm (fnum p)) K fuel f (x : itv (fnum p)),
  f <> Fsin -> f <> Fcos -> f <> Ftan -> fvalid x -> nowhere_defined f x ->
  (f = Fatanh -> forall r, fmem x r -> ~ (-1 <= r <= 1)) ->
  gives_empty c (call f K (ftransc p k L) fuel (P_ p k debug c ord) x).
Proof. intros. apply empty_main; auto. Qed.
Print Assumptions C46_empty_partial.
(** atanh([1,1]): no member is in the domain, yet no exception is thrown. *)
Theorem C46_atanh_refuted : forall L : libm (fnum double_sse), exists x : itv (fnum double_sse),
  fvalid x /\ nowhere_defined Fatanh x /\
  ~ gives_empty CkStrict (t_atanh (ftransc double_sse Std L) (P_ double_sse Std true CkStrict (fun _ => true)) x).
Proof.
  intros L. exists (di 1 1). split; [apply di_valid; lia|]. split.
  - intros r t [A B] G. unfold di in A, B. cbn [low up] in A, B. dval_in A. dval_in B. cbn [xle] in A, B.
    cbn [graph] in G. rewrite tanh_graph in G. pose proof (tanh_bound t). lra.
  - intros K. specialize (K RNE). revert K.
    change (t_atanh (ftransc double_sse Std L) (P_ double_sse Std true CkStrict (fun _ => true)) (di 1 1) RNE)
      with (Ok (mk (fconv binary64 binary64 RDN (L Fatanh RDN (dbl 1 0)) : T (fnum double_sse)) pinf), RNE). discriminate.
Qed.
Print Assumptions C46_atanh_refuted.
Example C46_case : lib_ok (ref_lib double_sse) /\ constants_for double_sse (consts_double double_sse RNE) /\
  fvalid (di (-3) 2) /\ somewhere_defined Flog (di (-3) 2) /\ nowhere_defined Flog (di (-3) (-2)) /\ nowhere_defined Fatanh (di 2 3) /\
  (forall r, fmem (di 2 3) r -> ~ (-1 <= r <= 1)).
Proof.
  split; [apply ref_lib_ok|]. split; [apply for_double; auto|]. split; [apply di_valid; lia|].
  split; [|split; [|split]].
  - exists 1, 0. split; [|apply exp_0]. unfold fmem, mem, di. cbn [low up]. split; dval; cbn [xle]; lra.
  - intros r t [_ B] G. unfold di in B. cbn [up] in B. dval_in B. cbn [xle] in B. cbn [graph] in G. pose proof (exp_pos t). lra.
  - intros r t [A B] G. unfold di in A. cbn [low] in A. dval_in A. cbn [xle] in A. cbn [graph] in G. rewrite tanh_graph in G. pose proof (tanh_bound t). lra.
  - intros r [A _]. unfold di in A. cbn [low] in A. dval_in A. cbn [xle] in A. lra.
Qed.

(** ** C47: cos, sin and tan *)
Section Trig.
Context (p : platform) (k : rkind) (debug : bool) (c : ckind) (ord : site -> bool) (RR : transc (fnum p)) (W : rint_ok p).
Notation P := (P_ p k debug c ord).
Notation spec := (fpolspec p Save k debug c ord).

(** The function of the rounding class that each function calls. *)
Definition calls (f : tfun) : tfun := match f with Ftan => Ftan | _ => Fcos end.
Lemma trig_doc K f (x : itv (fnum p)) : constants_for p K -> f = Fsin \/ f = Fcos \/ f = Ftan ->
  doc_down (N := fnum p) fval (fready k) RR (calls f) -> doc_up (N := fnum p) fval (fready k) RR (calls f) -> fvalid x ->
  exists z : itv (fnum p), (forall fuel, (2 <= fuel)%nat -> returns (call f K RR fuel P x) z) /\ contains_values f x z /\
    (f <> Ftan -> fvalid z) /\
    (f <> Ftan -> cos_sharp (N := fnum p) (val := fval) (ready := fready k) (R := RR) -> unit_itv (N := fnum p) (val := fval) z).
Proof.
  intros C F D U Hx. destruct (constants_kspec p K C) as (pl & pu & hl & hu & tl & tu & S & HKb).
  pose proof (largest_pos (p_R p)) as LP. assert (HB : - largest (p_R p) <= 0) by lra.
  pose proof (mone_val p) as HM.
  assert (HI : forall pr (a : T (fnum p)) l yb, fval a = Fin l -> 1 <= yb -> - largest (p_R p) <= l / yb ->
    int_hyp (N := fnum p) (val := fval) (P := fpol p pr k debug c ord) (ready := fready k) l yb (good_quot (Kb := IZR (2 ^ q_prec p)) l yb)).
  { intros pr a l yb Ea Y Nr. exact (quot_ok p pr k debug c ord a l yb W Ea Y Nr). }
  destruct F as [->|[->| ->]]; cbn [call calls] in *.
  - destruct (t_sin_ok spec S HM HKb HB (HI Save) 0 x (fno_lower_u p Save k debug c ord) (ffar_u p Save k debug c ord) D U Hx) as (z & Rz & Vz & Hz & Uz).
    exists z. split; [|split; auto]. intros fuel Lf. refine (refines_returns (fun n => t_sin K RR n P x) 2 z _ Rz fuel Lf).
    intros n. apply sin_more.
  - destruct (t_cos_ok spec S HM HKb HB (HI Save) 0 x (fno_lower p Save k debug c ord) (ffar p Save k debug c ord) D U Hx) as (z & Rz & Vz & Hz & Uz).
    exists z. split; [|split; auto]. intros fuel Lf. refine (refines_returns (fun n => t_cos K RR n P x) 2 z _ Rz fuel Lf).
    intros n. apply cos_more.
  - destruct (t_tan_ok spec S (HI Save) x (fno_lower p Save k debug c ord) (ffar p Save k debug c ord) D U eq_refl Hx) as (z & Rz & Hz).
    exists z. split; [intros fuel _; exact Rz|]. split; auto. split; congruence.
Qed.
Lemma trig_main K f (x : itv (fnum p)) : constants_for p K -> f = Fsin \/ f = Fcos \/ f = Ftan ->
  down_ok (N := fnum p) (val := fval) (ready := fready k) (R := RR) (calls f) ->
  up_ok (N := fnum p) (val := fval) (ready := fready k) (R := RR) (calls f) -> fvalid x ->
  exists z : itv (fnum p), (forall fuel, (2 <= fuel)%nat -> returns (call f K RR fuel P x) z) /\ contains_values f x z /\
    (f <> Ftan -> fvalid z) /\
    (f <> Ftan -> cos_sharp (N := fnum p) (val := fval) (ready := fready k) (R := RR) -> unit_itv (N := fnum p) (val := fval) z).
Proof. intros C F D U Hx. apply trig_doc; auto; [apply down_doc|apply up_doc]; assumption. Qed.
End Trig.

(** Two nested calls are enough: the result is the same for every larger budget,
    so the recursion ends.  Bounded or not, however large the argument. *)
Theorem C47_cos_sin : forall p k debug c ord (L : libm (fnum p)) K f (x : itv (fnum p)),
  lib_ok L -> constants_for p K -> rint_ok p -> f = Fsin \/ f = Fcos -> fvalid x ->
  exists z : itv (fnum p),
    (forall fuel, (2 <= fuel)%nat -> returns (call f K (ftransc p k L) fuel (P_ p k debug c ord) x) z) /\
    fvalid z /\ contains_values f x z.
Proof.
  intros p k debug c ord L K f x HL C W F Hx.
  destruct (trig_main p k debug c ord (ftransc p k L) W K f x C) as (z & Rz & Hz & Vz & _); [tauto| | |auto|].
  { apply ftransc_down; auto. intros _. destruct F; subst; reflexivity. }
  { apply ftransc_up; auto. }
  exists z. split; auto. split; auto. apply Vz. destruct F; subst; discriminate.
Qed.
Print Assumptions C47_cos_sin.
Theorem C47_tan : forall p debug c ord (L : libm (fnum p)) K (x : itv (fnum p)),
  lib_ok L -> constants_for p K -> rint_ok p -> fvalid x ->
  exists z : itv (fnum p), returns (t_tan K (transc_std (control_hw (fnum p)) L) (P_ p Std debug c ord) x) z /\
    contains_values Ftan x z /\ (somewhere_defined Ftan x -> fvalid z).
Proof.
  intros p debug c ord L K x HL C W Hx.
  destruct (trig_main p Std debug c ord (ftransc p Std L) W K Ftan x C) as (z & Rz & Hz & Vz & _); [tauto| | |auto|].
  { apply ftransc_down; auto. discriminate. }
  { apply ftransc_up; auto. }
  exists z. split; [exact (Rz 2%nat (le_n _))|]. split; auto.
  intros (r & t & M & G). exact (mem_valid _ _ t (Hz r t M G)).
Qed.
Print Assumptions C47_tan.
Example C47_case : lib_ok (ref_lib long_double_c99) /\
  constants_for long_double_c99 (consts_long_double long_double_c99 double_sse RNE) /\ rint_ok long_double_c99 /\
  lib_ok (ref_lib float_x87) /\ constants_for float_x87 (consts_float float_x87 RNE) /\ rint_ok float_x87.
Proof.
  split; [apply ref_lib_ok|]. split; [apply for_long_double; left; auto|]. split; [right; split; cbn; lia|].
  split; [apply ref_lib_ok|]. split; [apply for_float; auto|]. left; split; cbn; lia.
Qed.

(** ** C48: rounded_transc_opp *)
(** The functions computed in the downward mode are lower bounds, and the upward
    mode in which the class works is restored. *)
Theorem C48_partial : forall p (L : libm (fnum p)) f (x : T (fnum p)) v,
  lib_ok L -> f = Fexp \/ f = Flog \/ f = Fcos \/ f = Facos \/ f = Fcosh \/ f = Fasinh \/ f = Fatanh ->
  xgraph f (fval (f := p_T p) x) v ->
  exists t : T (fnum p), tr_down (transc_opp (control_hw (fnum p)) L) f x RUP = (Ok t, RUP) /\ xle (fval (f := p_T p) t) v.
Proof.
  intros p L f x v HL F G.
  assert (Hs : switches f = true) by (destruct F as [F|[F|[F|[F|[F|[F|F]]]]]]; subst f; reflexivity).
  destruct (ftransc_down p L HL Opp f (fun _ => Hs) x v G) as (t & Lt & Rt). exists t. split; auto.
  destruct (Rt RUP eq_refl) as (s & -> & E). exact E.
Qed.
Print Assumptions C48_partial.

(** The others compute -(-f(x)) in the upward mode: the negations are exact, so
    the result is f(x) rounded upwards, which exceeds f(x) unless f(x) is a
    number of the type.  On every platform without extra precision, with every
    library, at every argument where the value is not representable. *)
Theorem C48_refuted : forall p (L : libm (fnum p)) f (x : T (fnum p)) r,
  p_X p = p_T p -> lib_ok L ->
  f = Fsin \/ f = Ftan \/ f = Fasin \/ f = Fatan \/ f = Fsinh \/ f = Ftanh \/ f = Facosh ->
  xgraph f (fval (f := p_T p) x) (Fin r) -> (forall t : T (fnum p), fval (f := p_T p) t <> Fin r) ->
  exists t : T (fnum p), tr_down (transc_opp (control_hw (fnum p)) L) f x RUP = (Ok t, RUP) /\ xlt (Fin r) (fval (f := p_T p) t).
Proof.
  intros p L f x r EX HL F G Nr.
  assert (Hs : switches f = false) by (destruct F as [F|[F|[F|[F|[F|[F|F]]]]]]; subst f; reflexivity).
  pose proof (proj2 (HL f x (Fin r) G)) as U. set (a := L f RUP x) in *.
  set (y := fconv (p_X p) (p_T p) RUP (fopp a)).
  assert (Q : fval y = xopp (fval a)).
  { assert (Q : forall X (b : flt X), X = p_T p -> fval (fconv X (p_T p) RUP (fopp b)) = xopp (fval b)).
    { intros X b ->. rewrite fconv_widen by apply fmt_sub_refl. apply fval_opp. }
    exact (Q (p_X p) a EX). }
  destruct (neg_pure p y) as (t & Et & Rt). exists t. split.
  - cbn [transc_opp tr_down]. rewrite Hs. exact (Rt RUP).
  - specialize (Nr t). change (fval (f := p_T p) t = xopp (fval (f := p_T p) y)) in Et. rewrite Et, Q in *.
    change (xle (Fin r) (fval (f := p_X p) a)) in U.
    destruct (fval (f := p_X p) a) as [| |q|]; cbn [xle xlt xopp] in *; auto.
    rewrite Ropp_involutive in *. destruct (Rle_lt_or_eq_dec _ _ U) as [|E]; auto. congruence.
Qed.
Print Assumptions C48_refuted.

(** Such arguments exist: asin(1) = pi/2 for double, so asin_down(1) > pi/2. *)
Example C48_case : p_X double_sse = p_T double_sse /\ lib_ok (ref_lib double_sse) /\
  xgraph Fasin (fval (f := binary64) (dbl 1 0)) (Fin (PI / 2)) /\
  (forall t : T (fnum double_sse), fval (f := binary64) t <> Fin (PI / 2)).
Proof.
  split; [reflexivity|]. split; [apply ref_lib_ok|]. split.
  - dval. exists (PI / 2). split; [reflexivity|]. cbn [graph]. pose proof pi_3_4. split; [lra|apply sin_PI2].
  - intros t E. pose proof double_pi as [A B].
    assert (L : dyad mdl (-52) < PI / 2) by (rewrite (dyad_half mdl (-51) : dyad mdl (-52) = _); lra).
    assert (U : PI / 2 < dyad (Pos.succ mdl) (-52)) by (rewrite (dyad_half mdu (-51) : dyad (Pos.succ mdl) (-52) = _); lra).
    pose proof (adjacent binary64 mdl (-52) t (PI / 2) ltac:(vm_compute; discriminate) ltac:(vm_compute; discriminate) E L). lra.
Qed.

(** Consequently atan([1,1]) with rounded_transc_opp lies strictly above
    pi/4 = atan(1): C46 fails for that class. *)
Theorem C46_opp_refuted : forall L : libm (fnum double_sse), lib_ok L ->
  exists x : itv (fnum double_sse), fvalid x /\ fmem x 1 /\ graph Fatan 1 (PI / 4) /\
  exists z : itv (fnum double_sse), returns (t_atan (transc_opp (control_hw (fnum double_sse)) L) Pdef x) z /\ ~ fmem z (PI / 4).
Proof.
  intros L HL. exists (di 1 1). split; [apply di_valid; lia|].
  split; [unfold fmem, mem, di; cbn [low up]; split; dval; cbn [xle]; lra|].
  assert (G : graph Fatan 1 (PI / 4)).
  { pose proof pi_3_4. split; [lra|]. rewrite sin_cos_PI4. field. pose proof cos_PI4. pose proof (cos_gt_0 (PI / 4)). lra. }
  split; [exact G|].
  assert (G' : xgraph Fatan (fval (f := binary64) (dbl 1 0)) (Fin (PI / 4))) by (dval; exists (PI / 4); split; [reflexivity|exact G]).
  destruct (C48_refuted double_sse L Fatan (dbl 1 0) (PI / 4) eq_refl HL ltac:(tauto) G') as (t & Rt & Lt).
  { intros t E. pose proof double_pi as [A B].
    assert (L1 : dyad mdl (-53) < PI / 4) by (rewrite (dyad_half mdl (-52) : dyad mdl (-53) = _), (dyad_half mdl (-51) : dyad mdl (-52) = _); lra).
    assert (U1 : PI / 4 < dyad (Pos.succ mdl) (-53)) by (rewrite (dyad_half mdu (-52) : dyad (Pos.succ mdl) (-53) = _), (dyad_half mdu (-51) : dyad mdu (-52) = _); lra).
    pose proof (adjacent binary64 mdl (-53) t (PI / 4) ltac:(vm_compute; discriminate) ltac:(vm_compute; discriminate) E L1). lra. }
  destruct (ftransc_up double_sse L HL Opp Fatan (dbl 1 0) _ G') as (u & Lu & Ru).
  exists (mk t u). split.
  - intros s. unfold t_atan. rewrite (test_valid (fpolspec double_sse Save Opp true CkStrict (fun _ => true))) by (apply di_valid; lia).
    destruct (Ru RUP eq_refl) as (s' & -> & E). cbn [ftransc] in E.
    unfold with_rnd, mk_args, args2, bind. cbn [Pdef fpol p_prot p_ctl p_ar p_ord control_hw rc_get rc_set farith arith_opp ar_init rc_up ret].
    change (low (di 1 1)) with (dbl 1 0). change (up (di 1 1)) with (dbl 1 0).
    change (set_mode RUP s) with (Ok tt, RUP). cbv beta iota. rewrite Rt. cbv beta iota. rewrite E. reflexivity.
  - intros [A _]. cbn [low] in A. exact (xlt_irrefl _ (xlt_le_trans _ _ _ Lt A)).
Qed.
Print Assumptions C46_opp_refuted.

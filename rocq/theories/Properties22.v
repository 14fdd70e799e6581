(** * C67: inclusion isotonicity with transcendental functions *)

From Coq Require Import Reals ZArith Lra Lia Bool Classical.
From Flocq Require Import Core BinarySingleNaN.
From Verif Require Import Outcome Base Checking Interval Utility Arith Arith2 FloatNum Spec ExtR Sem
  FloatSpec FloatPol FloatInt CoreArith CoreUtil Inst Witness CoreCtor Ops OpsProof OpsIso Properties1 Properties2
  Transc SpecTransc TransReal CoreTransc CoreTrig TightTransc
  FloatConst FloatTrans RefLib Properties10 ExprT ExTransc Properties21.
Local Open Scope R_scope.

Notation inside x x' := (forall r, fmem x r -> fmem x' r).

(** ** Expressions *)
Section IsoT.
Context (p : platform) (k : rkind) (debug : bool) (c : ckind) (ord : site -> bool).
Notation N := (fnum p).
Notation P := (fpol p Save k debug c ord).
Notation I := (itv N).
Notation ok := (ok_interval (p := p) c).
Context (K : consts N) (RR : transc N) (fuel : nat).
Hypothesis KB : half_best (val := (fval : T N -> ext)) (K := K) /\ pi_best (val := (fval : T N -> ext)) (K := K).
Hypothesis DD : forall f, down_rnd (N := N) (val := fval) (ready := fready k) (R := RR) f.
Hypothesis UU : forall f, up_rnd (N := N) (val := fval) (ready := fready k) (R := RR) f.

Definition reducible (f : tfun) : Prop := f = Fsin \/ f = Fcos \/ f = Ftan.
(** The functions whose results are empty exactly when no value exists. *)
Definition regular (f : tfun) : Prop := ~ reducible f /\ f <> Fatanh.

Lemma not_reducible f : ~ reducible f -> f <> Fsin /\ f <> Fcos /\ f <> Ftan.
Proof. unfold reducible. intros H. repeat split; intros ->; tauto. Qed.
Lemma call_tight f (x : I) : ~ reducible f -> fvalid x -> somewhere_defined f x ->
  exists z : I, returns (call f K RR fuel P x) z /\ ftightest z (fvalues f x).
Proof. intros F V D. destruct (not_reducible f F) as (F1 & F2 & F3). apply tight_main; auto. Qed.
Lemma tight_valid (z : I) S : nonempty S -> ftightest z S -> fvalid z.
Proof. intros (r & Hr) [E _]. exact (mem_fvalid p z r (E r Hr)). Qed.
Lemma call_correct f (x : I) : regular f -> fvalid x -> correct p c (call f K RR fuel P x) (fvalues f x).
Proof.
  intros [F Fa] V. apply correct_intro.
  - intros (t & r & M & G). destruct (call_tight f x F V) as (z & R & T); [exists r, t; auto|].
    exists z. split; [exact R|]. split; [|exact (tight_encloses p z _ T)]. eapply tight_valid; [|exact T]. exists t, r. auto.
  - intros Ne. destruct (not_reducible f F) as (F1 & F2 & F3). apply empty_main; auto.
    intros r t M G. apply Ne. exists t, r. auto.
Qed.
Lemma call_empty f (x : I) : regular f -> allows_empty c = true -> fempty x -> gives_empty c (call f K RR fuel P x).
Proof.
  intros [F _] Al Ex. destruct (not_reducible f F) as (F1 & F2 & F3). pose proof (proj2 (is_empty_iff p k debug c ord x Al) Ex) as T.
  apply (gives_i_empty p k debug c ord). intros s. destruct f; try congruence; cbn [call];
    unfold t_exp, t_log, t_asin, t_acos, t_atan, t_sinh, t_cosh, t_tanh, t_asinh, t_acosh, t_atanh; rewrite T; reflexivity.
Qed.
Lemma iso_call f (x x' : I) : regular f -> ok x -> ok x' -> sub p x x' ->
  exists o o', res p c (call f K RR fuel P x) o /\ res p c (call f K RR fuel P x') o' /\ leO p o o'.
Proof.
  intros F Ox Ox' S. 
  assert (R' : exists r', res p c (call f K RR fuel P x') r').
  { destruct Ox' as [V'|[Al E']]; [eapply correct_res; apply call_correct; auto|].
    destruct (gives_res p c _ (call_empty f x' F Al E')) as (r & Rr & _). eauto. }
  destruct Ox as [V|[Al E]].
  - pose proof (sub_valid p c x x' V S Ox') as V'.
    eapply iso_of; [apply call_correct; auto|apply call_correct; auto| |].
    + intros t (r & Hr & Q). exists r. split; [apply S, Hr|exact Q].
    + intros z z' (t & r & M & G) Rz Rz'. destruct F as [F _].
      destruct (call_tight f x F V) as (w & Rw & Tw); [exists r, t; auto|].
      destruct (call_tight f x' F V') as (w' & Rw' & Tw'); [exists r, t; auto|].
      rewrite (returns_det _ _ _ Rz Rw), (returns_det _ _ _ Rz' Rw').
      eapply tight_sub; [exact Tw|exact (tight_encloses p _ _ Tw')|]. intros q (q' & Mq & Gq). exists q'. auto.
  - destruct R' as (r' & R'). eapply iso_empty; eauto. apply call_empty; auto.
Qed.

Lemma teval_iso eo eo' (env env' : nat -> I) : (forall n, ok (env n)) -> (forall n, ok (env' n)) ->
  (forall n, sub p (env n) (env' n)) ->
  forall e : texpr N, tproper (N := N) fval regular e ->
  exists o o', res p c (teval P K RR fuel eo env e) o /\ res p c (teval P K RR fuel eo' env' e) o' /\ leO p o o'.
Proof.
  intros Oe Oe' Se. induction e as [n|v|o e IH|o e1 IH1 e2 IH2|o e IH v|o v e IH|o v w|e1 IH1 e2 IH2|e IH v|f e IH];
    intros W; cbn [teval]; simpl in W.
  - exists (Some (env n)), (Some (env' n)). split; [split; [intros s; reflexivity|apply Oe]|].
    split; [split; [intros s; reflexivity|apply Oe']|]. apply Se.
  - destruct W as (r & E). destruct (correct_res p c _ _ (num_correct p k debug c ord v r E)) as (o & R). eapply iso_const; eauto.
  - destruct W as (Wo & We), (IH We) as (q & q' & R & R' & L). eapply iso_step; eauto. intros. apply iso1; auto.
  - destruct W as (W1 & W2), (IH1 W1) as (q1 & q1' & R1 & R1' & L1), (IH2 W2) as (q2 & q2' & R2 & R2' & L2).
    eapply iso_step2; eauto. intros. apply iso2; auto.
  - destruct W as (We & r & E), (IH We) as (q & q' & R & R' & L).
    exact (iso_step p c _ _ (fun x => run_in P o x v) q q' R R' L (fun x x' A B C => iso_in p k debug c ord o v x x' r E A B C)).
  - destruct W as (We & r & E), (IH We) as (q & q' & R & R' & L).
    exact (iso_step p c _ _ (fun x => run_ni P o v x) q q' R R' L (fun x x' A B C => iso_ni p k debug c ord o v x x' r E A B C)).
  - destruct W as ((r & E) & (s & F)). destruct (correct_res p c _ _ (run_nn_correct p k debug c ord o v w r s E F)) as (q & R).
    eapply iso_const; eauto.
  - destruct W as (W1 & W2), (IH1 W1) as (q1 & q1' & R1 & R1' & L1), (IH2 W2) as (q2 & q2' & R2 & R2' & L2).
    eapply iso_step2; eauto. intros. apply iso_intersect; auto.
  - destruct W as (We & s & E & Hs), (IH We) as (q & q' & R & R' & L).
    exact (iso_step p c _ _ (fun x => widen P x v) q q' R R' L (fun x x' A B C => iso_widen p k debug c ord x x' v s E Hs A B C)).
  - destruct W as (Wo & We), (IH We) as (q & q' & R & R' & L). eapply iso_step; eauto. intros. apply iso_call; auto.
Qed.
Lemma iso_main eo eo' (env env' : nat -> I) e : (forall n, ok (env n)) -> (forall n, ok (env' n)) ->
  (forall n, inside (env n) (env' n)) -> tproper (N := N) fval regular e ->
  forall z, returns (teval P K RR fuel eo env e) z ->
  exists z', returns (teval P K RR fuel eo' env' e) z' /\ inside z z'.
Proof.
  intros O O' S W z R. destruct (teval_iso eo eo' env env' O O' S e W) as (o & o' & Ro & Ro' & L).
  destruct o as [w|]; [|destruct Ro as [Ro _]; pose proof (eq_trans (eq_sym (R RNE)) (Ro RNE)); discriminate].
  destruct o' as [w'|]; [|destruct L]. destruct Ro as [Ro _], Ro' as [Ro' _].
  rewrite (returns_det _ _ _ R Ro). exists w'. split; [exact Ro'|exact L].
Qed.
End IsoT.

(** ** The statements

    With a correctly rounding library, shrinking the operands of an expression
    shrinks its result. *)
Theorem C67_isotone_partial : forall p debug c ord (L : libm (fnum p)) K m0 fuel eo eo' (env env' : nat -> itv (fnum p)) e,
  ((p = float_sse \/ p = float_x87) /\ K = consts_float p m0) \/ ((p = double_sse \/ p = double_x87) /\ K = consts_double p m0) ->
  lib_rounds L ->
  (forall n, ok_interval c (env n)) -> (forall n, ok_interval c (env' n)) -> (forall n, inside (env n) (env' n)) ->
  tproper (N := fnum p) fval (fun f => f <> Fsin /\ f <> Fcos /\ f <> Ftan /\ f <> Fatanh) e ->
  forall z, returns (teval (P_ p Std debug c ord) K (transc_std (control_hw (fnum p)) L) fuel eo env e) z ->
  exists z', returns (teval (P_ p Std debug c ord) K (transc_std (control_hw (fnum p)) L) fuel eo' env' e) z' /\ inside z z'.
Proof.
  intros p debug c ord L K m0 fuel eo eo' env env' e Hp HL O O' S W.
  apply (iso_main p Std debug c ord K _ fuel (best_constants p K m0 Hp)); auto.
  - intros f. apply std_down; auto.
  - intros f. apply std_up; auto.
  - clear - W. induction e; simpl in *; intuition. unfold regular, reducible. intuition.
Qed.
Print Assumptions C67_isotone_partial.
(** The same with the MPFR class of examples/transc.cpp. *)
Theorem C67_isotone_mpfr_partial : forall p debug c ord (M : mpfr p) m0 fuel eo eo' (env env' : nat -> itv (fnum p)) e,
  p = double_sse \/ p = double_x87 -> mpfr_ok M ->
  (forall n, ok_interval c (env n)) -> (forall n, ok_interval c (env' n)) -> (forall n, inside (env n) (env' n)) ->
  tproper (N := fnum p) fval (fun f => f <> Fsin /\ f <> Fcos /\ f <> Ftan /\ f <> Fatanh) e ->
  forall z, returns (teval (P_ p Opp debug c ord) (consts_double p m0) (full_rounding M) fuel eo env e) z ->
  exists z', returns (teval (P_ p Opp debug c ord) (consts_double p m0) (full_rounding M) fuel eo' env' e) z' /\ inside z z'.
Proof.
  intros p debug c ord M m0 fuel eo eo' env env' e Hp HM O O' S W.
  apply (iso_main p Opp debug c ord (consts_double p m0) _ fuel (best_constants p _ m0 (or_intror (conj Hp eq_refl)))); auto.
  - intros f. apply full_down; auto.
  - intros f. apply full_up; auto.
  - clear - W. induction e; simpl in *; intuition. unfold regular, reducible. intuition.
Qed.
Print Assumptions C67_isotone_mpfr_partial.

(** ** cos, sin and tan: counterexamples *)
Section Stages.
Context {N : num} (K : consts N) (R : transc N).
Notation I := (itv N).
Notation mone := (n_cst N (-1)).
Definition cos_body (again : policy N -> I -> M I) (P : policy N) (x : I) : M I :=
  let Pu := unprotect P in
  let! pi2 := i_pi_twice P K in
  let! tmp := fmod Pu x pi2 in
  let! w := width Pu tmp in
  if n_ge w (low pi2) then ret (mk mone one) else
  let! pu := k_pi_u K in
  if n_ge (low tmp) pu then
    let! pi := i_pi P K in
    let! d := op_sub Pu tmp pi in
    let! r := again Pu d in
    let! r := op_neg Pu r in
    ctor_back P r
  else
    let l := low tmp in
    let u := up tmp in
    let! pl := k_pi_l K in
    if n_le N u pl then
      mk_args (p_ord P (H_transc, 73%Z)) (tr_down R Fcos u) (tr_up R Fcos l)
    else if n_le N u (low pi2) then
      mk_args (p_ord P (H_transc, 75%Z)) (ret mone)
        (let! d := sub_down (p_ar P) (low pi2) u in
         tr_up R Fcos (std_min d l))
    else ret (mk mone one).
Lemma t_cos_unfold fuel P x : t_cos K R (S fuel) P x =
  if test_input_i P x then i_empty P else with_rnd P (cos_body (t_cos K R fuel) P x).
Proof. reflexivity. Qed.
Lemma bind_at {A B} (m : M A) (g : A -> M B) s a s' : m s = (Ok a, s') -> bind m g s = g a s'.
Proof. intros E. unfold bind. rewrite E. reflexivity. Qed.
Lemma body_mono again P x s pi2 s1 tmp s2 w s3 pu s4 pl s5 : let Pu := unprotect P in
  i_pi_twice P K s = (Ok pi2, s1) -> fmod Pu x pi2 s1 = (Ok tmp, s2) -> width Pu tmp s2 = (Ok w, s3) ->
  n_ge w (low pi2) = false -> k_pi_u K s3 = (Ok pu, s4) -> n_ge (low tmp) pu = false ->
  k_pi_l K s4 = (Ok pl, s5) -> n_le N (up tmp) pl = true ->
  cos_body again P x s = mk_args (p_ord P (H_transc, 73%Z)) (tr_down R Fcos (up tmp)) (tr_up R Fcos (low tmp)) s5.
Proof.
  intros Pu E1 E2 E3 E4 E5 E6 E7 E8. unfold cos_body. rewrite (bind_at _ _ _ _ _ E1), (bind_at _ _ _ _ _ E2), (bind_at _ _ _ _ _ E3), E4.
  rewrite (bind_at _ _ _ _ _ E5), E6. cbv zeta. rewrite (bind_at _ _ _ _ _ E7), E8. reflexivity.
Qed.
Lemma body_low again P x s pi2 s1 tmp s2 w s3 pu s4 pl s5 : let Pu := unprotect P in
  i_pi_twice P K s = (Ok pi2, s1) -> fmod Pu x pi2 s1 = (Ok tmp, s2) -> width Pu tmp s2 = (Ok w, s3) ->
  n_ge w (low pi2) = false -> k_pi_u K s3 = (Ok pu, s4) -> n_ge (low tmp) pu = false ->
  k_pi_l K s4 = (Ok pl, s5) -> n_le N (up tmp) pl = false -> n_le N (up tmp) (low pi2) = true ->
  cos_body again P x s = mk_args (p_ord P (H_transc, 75%Z)) (ret mone)
        (let! d := sub_down (p_ar P) (low pi2) (up tmp) in tr_up R Fcos (std_min d (low tmp))) s5.
Proof.
  intros Pu E1 E2 E3 E4 E5 E6 E7 E8 E9. unfold cos_body. rewrite (bind_at _ _ _ _ _ E1), (bind_at _ _ _ _ _ E2), (bind_at _ _ _ _ _ E3), E4.
  rewrite (bind_at _ _ _ _ _ E5), E6. cbv zeta. rewrite (bind_at _ _ _ _ _ E7), E8, E9. reflexivity.
Qed.
Lemma body_neg again P x s pi2 s1 tmp s2 w s3 pu s4 pi s5 d s6 : let Pu := unprotect P in
  i_pi_twice P K s = (Ok pi2, s1) -> fmod Pu x pi2 s1 = (Ok tmp, s2) -> width Pu tmp s2 = (Ok w, s3) ->
  n_ge w (low pi2) = false -> k_pi_u K s3 = (Ok pu, s4) -> n_ge (low tmp) pu = true ->
  i_pi P K s4 = (Ok pi, s5) -> op_sub Pu tmp pi s5 = (Ok d, s6) ->
  cos_body again P x s = (let! r := again Pu d in let! r := op_neg Pu r in ctor_back P r) s6.
Proof.
  intros Pu E1 E2 E3 E4 E5 E6 E7 E8. unfold cos_body. rewrite (bind_at _ _ _ _ _ E1), (bind_at _ _ _ _ _ E2), (bind_at _ _ _ _ _ E3), E4.
  rewrite (bind_at _ _ _ _ _ E5), E6. rewrite (bind_at _ _ _ _ _ E7), (bind_at _ _ _ _ _ E8). reflexivity.
Qed.
End Stages.

Notation D := double_sse.
Notation ND := (fnum double_sse).
Notation P0 := (fpol double_sse Save Std true CkStrict (fun _ => true)).
Notation Q0 := (unprotect P0).
Notation K0 := (consts_double double_sse RNE).
Lemma run_at (m : M (itv ND)) s z s' : run show m s = (Ok (show z), s') -> m s = (Ok z, s').
Proof.
  unfold run. destruct (m s) as [[w|e| | |] s1]; cbn [omap]; try discriminate. intros E.
  assert (E1 : show w = show z) by congruence. assert (E2 : s1 = s') by congruence. rewrite (show_inj w z E1), E2. reflexivity.
Qed.
Definition shown (a : T ND) : SpecFloat.spec_float := B2SF (a : flt binary64).
Lemma runn_at (m : M (T ND)) s (a : T ND) s' : run shown m s = (Ok (shown a), s') -> m s = (Ok a, s').
Proof.
  unfold run. destruct (m s) as [[w|e| | |] s1]; cbn [omap]; try discriminate. intros E.
  assert (E1 : shown w = shown a) by congruence. assert (E2 : s1 = s') by congruence.
  rewrite (B2SF_inj 53 1024 w a E1), E2. reflexivity.
Qed.
Lemma pos_val (a : T ND) m e : shown a = SpecFloat.S754_finite false m e -> fval (a : flt binary64) = Fin (dyad m e).
Proof. apply (sf_val binary64). Qed.
Lemma dyad_lt m m' e : (Zpos m < Zpos m')%Z -> dyad m e < dyad m' e.
Proof. intros H. unfold dyad. apply Rmult_lt_compat_r; [apply bpow_gt_0|apply IZR_lt; exact H]. Qed.

(** Doubles near 2^30 (cos), 2^13 (sin), 2^34 (tan), and what the reduction of
    the argument makes of them.  The smaller interval is reduced by one period
    more than the larger one; the product of the number of periods and the
    enclosure of the period is rounded for the first and exact for the second. *)
Definition nzero : T ND := B754_zero true.
Definition w_pi : itv ND := (mk (dbl (7074237752028440) (-51)) (dbl (7074237752028441) (-51))).
Definition w_pi2 : itv ND := (mk (dbl (7074237752028440) (-50)) (dbl (7074237752028441) (-50))).
Definition w_half : itv ND := (mk (dbl (7074237752028440) (-52)) (dbl (7074237752028441) (-52))).
Definition cos_x : itv ND := (mk (dbl (7074237804735620) (-23)) (dbl (7074237817912413) (-23))).
Definition cos_y : itv ND := (mk (dbl (7074237804735619) (-23)) (dbl (7074237817912413) (-23))).
Definition cos_tx : itv ND := (mk nzero (dbl (7074237948887040) (-52))).
Definition cos_wx : T ND := (dbl (7074237948887040) (-52)).
Definition cos_ty : itv ND := (mk (dbl (7074237680451584) (-50)) (dbl (8842797167673344) (-50))).
Definition cos_wy : T ND := (dbl (7074237948887040) (-52)).
Definition cos_d : itv ND := (mk (dbl (7074237608874727) (-51)) (dbl (5305678291659124) (-50))).
Definition cos_td : itv ND := (mk (dbl (7074237608874727) (-51)) (dbl (5305678291659124) (-50))).
Definition cos_wd : T ND := (dbl (7074237948887042) (-52)).
Definition cos_s : T ND := (dbl (7074237841477264) (-52)).
Definition sin_x : itv ND := (mk (dbl (7082873296159336) (-40)) (dbl (7084600404985512) (-40))).
Definition sin_y : itv ND := (mk (dbl (7082873296159335) (-40)) (dbl (7084600404985512) (-40))).
Definition sin_dx : itv ND := (mk (dbl (7081146187333157) (-40)) (dbl (7082873296159334) (-40))).
Definition sin_dy : itv ND := (mk (dbl (7081146187333156) (-40)) (dbl (7082873296159334) (-40))).
Definition sin_tx : itv ND := (mk nzero (dbl (7074237752029184) (-52))).
Definition sin_wx : T ND := (dbl (7074237752029184) (-52)).
Definition sin_ty : itv ND := (mk (dbl (7074237752028160) (-50)) (dbl (8842797190035456) (-50))).
Definition sin_wy : T ND := (dbl (7074237752029184) (-52)).
Definition sin_d : itv ND := (mk (dbl (7074237752027879) (-51)) (dbl (5305678314021236) (-50))).
Definition sin_td : itv ND := (mk (dbl (7074237752027879) (-51)) (dbl (5305678314021236) (-50))).
Definition sin_wd : T ND := (dbl (7074237752029186) (-52)).
Definition sin_s : T ND := (dbl (7074237752028816) (-52)).
Definition tan_x : itv ND := (mk (dbl (7074237752851991) (-18)) (dbl (7074237753263764) (-18))).
Definition tan_y : itv ND := (mk (dbl (7074237752851990) (-18)) (dbl (7074237753263764) (-18))).
Definition tan_tx : itv ND := (mk nzero (dbl (7074240633241600) (-52))).
Definition tan_ty : itv ND := (mk (dbl (7074232043307008) (-51)) (dbl (5305676179963904) (-50))).
Definition tan_d : itv ND := (mk (dbl (-5986028285329408) (-71)) (dbl (7074229215798736) (-52))).

Ltac runs := first [apply run_at | apply runn_at]; vm_compute; reflexivity.
Ltac bool := vm_compute; reflexivity.

Section Cex.
Context (L : libm ND) (HL : lib_rounds L).
Notation RR := (transc_std (control_hw ND) L).
Notation std P := (P = P0 \/ P = Q0).

Lemma pair_at (m1 m2 : M (T ND)) a b s : runsI (fready Std) m1 a -> runsI (fready Std) m2 b ->
  exists s', mk_args true m1 m2 s = (Ok (mk a b), s').
Proof.
  intros R1 R2. destruct (R1 s Logic.I) as (s1 & _ & E1). destruct (R2 s1 Logic.I) as (s2 & _ & E2). exists s2.
  unfold mk_args, args2. unfold bind at 1. rewrite (bind_at _ _ _ _ _ E1), (bind_at _ _ _ _ _ E2). reflexivity.
Qed.
Lemma cosv (a : T ND) r : fval (f := binary64) a = Fin r -> xgraph Fcos (fval (f := binary64) a) (Fin (cos r)).
Proof. intros ->. exists (cos r). split; reflexivity. Qed.

Lemma pu_at : k_pi_u K0 RUP = (Ok (up w_pi), RUP).
Proof. runs. Qed.
Lemma pl_at : k_pi_l K0 RUP = (Ok (low w_pi), RUP).
Proof. runs. Qed.

(** The monotone branch. *)
Lemma cos_mono_branch again P x s tmp w rl ru : std P ->
  fmod (unprotect P) x w_pi2 s = (Ok tmp, RUP) -> width (unprotect P) tmp RUP = (Ok w, RUP) ->
  n_ge w (low w_pi2) = false -> n_ge (low tmp) (up w_pi) = false -> n_le ND (up tmp) (low w_pi) = true ->
  i_pi_twice P K0 s = (Ok w_pi2, s) ->
  fval (f := binary64) (low tmp) = Fin rl -> fval (f := binary64) (up tmp) = Fin ru ->
  exists a b s', cos_body K0 RR again P x s = (Ok (mk a b), s') /\ RD (N := ND) fval (Fin (cos ru)) a /\ RU (N := ND) fval (Fin (cos rl)) b.
Proof.
  intros HP E2 E3 E4 E6 E8 E1 Vl Vu.
  destruct (std_down double_sse L Fcos HL (up tmp) _ (cosv _ _ Vu)) as (a & Ra & Ea).
  destruct (std_up double_sse L Fcos HL (low tmp) _ (cosv _ _ Vl)) as (b & Rb & Eb).
  destruct (pair_at _ _ a b RUP Ea Eb) as (s' & Es). exists a, b, s'. split; [|auto].
  rewrite (body_mono K0 RR again P x s w_pi2 s tmp RUP w RUP (up w_pi) RUP (low w_pi) RUP E1 E2 E3 E4 pu_at E6 pl_at E8).
  destruct HP as [-> | ->]; exact Es.
Qed.
(** The branch below the second half of the period. *)
Lemma cos_low_branch again P x s tmp w d r : std P ->
  fmod (unprotect P) x w_pi2 s = (Ok tmp, RUP) -> width (unprotect P) tmp RUP = (Ok w, RUP) ->
  n_ge w (low w_pi2) = false -> n_ge (low tmp) (up w_pi) = false -> n_le ND (up tmp) (low w_pi) = false ->
  n_le ND (up tmp) (low w_pi2) = true -> sub_down (p_ar P) (low w_pi2) (up tmp) RUP = (Ok d, RDN) ->
  n_lt ND (low tmp) d = false -> i_pi_twice P K0 s = (Ok w_pi2, s) -> fval (f := binary64) d = Fin r ->
  exists b s', cos_body K0 RR again P x s = (Ok (mk (n_cst ND (-1)) b), s') /\ RU (N := ND) fval (Fin (cos r)) b.
Proof.
  intros HP E2 E3 E4 E6 E8 E9 E10 E11 E1 Vd.
  destruct (std_up double_sse L Fcos HL d _ (cosv _ _ Vd)) as (b & Rb & Eb).
  destruct (Eb RDN Logic.I) as (s' & _ & Es). exists b, s'. split; [|auto].
  rewrite (body_low K0 RR again P x s w_pi2 s tmp RUP w RUP (up w_pi) RUP (low w_pi) RUP E1 E2 E3 E4 pu_at E6 pl_at E8 E9).
  assert (Q : (let! d := sub_down (p_ar P) (low w_pi2) (up tmp) in tr_up RR Fcos (std_min d (low tmp))) RUP = (Ok b, s')).
  { rewrite (bind_at _ _ _ _ _ E10). unfold std_min. rewrite E11. exact Es. }
  destruct HP as [-> | ->]; unfold mk_args, args2; cbn [p_ord fpol unprotect]; unfold bind at 1 2, ret at 1; unfold bind at 1;
    (rewrite (bind_at _ _ _ _ _ Q) || (unfold bind in Q |- *; rewrite Q)); reflexivity.
Qed.
Lemma with_at (body : M (itv ND)) s a s1 : body s = (Ok a, s1) -> with_rnd P0 body s = (Ok a, s).
Proof. intros E. unfold with_rnd. cbn. unfold bind, ret. cbn. rewrite E. reflexivity. Qed.
Lemma neg_back P b rb s : std P -> RU (N := ND) fval (Fin rb) b -> -1 <= rb -> rb <= 0 ->
  exists g s', (let! r := ret (mk (n_cst ND (-1)) b) in let! r := op_neg (unprotect P) r in ctor_back P r) s = (Ok g, s') /\
    xle (Fin 0) (fval (f := binary64) (low g)).
Proof.
  intros HP Rb A B. pose proof (fpolspec double_sse Save Std true CkStrict (fun _ => true)) as spec.
  assert (Vb : xle (Fin rb) (fval (f := binary64) b)) by exact (proj1 Rb).
  assert (Nb : xle (fval (f := binary64) b) (Fin 0)).
  { assert (E : fval (f := binary64) (dbl 0 0) = Fin 0) by (apply dbl_val; lia). rewrite <- E. apply (proj2 Rb).
    change (xle (Fin rb) (fval (f := binary64) (dbl 0 0))). rewrite E. exact B. }
  assert (V : fvalid (p := double_sse) (mk (n_cst ND (-1)) b)).
  { assert (M : fmem (p := double_sse) (mk (n_cst ND (-1)) b) (-1)); [|exact (mem_valid _ _ _ M)]. split; cbn [low up].
    - change (xle (fval (f := p_T double_sse) (n_cst (fnum double_sse) (-1))) (Fin (-1))). rewrite (mone_val double_sse). apply Rle_refl.
    - exact (xle_trans (Fin (-1)) (Fin rb) _ A Vb). }
  destruct (op_neg_ok (polspec_unprotect _ _ _ spec) _ V) as (g & Rg & _ & Vg & El & _). apply runsP_unprotect in Rg.
  destruct (Rg s Logic.I) as (s' & _ & Eg). exists (mk (low g) (up g)), s'. split.
  - rewrite (bind_at (ret _) _ s (mk (n_cst ND (-1)) b) s eq_refl). destruct HP as [-> | ->]; rewrite (bind_at _ _ _ _ _ Eg); reflexivity.
  - cbn [low]. change (xle (Fin 0) (fval (f := binary64) (low g))). change (fval (f := binary64) (low g) = xopp (fval (f := binary64) b)) in El. rewrite El.
    destruct (fval (f := binary64) b); cbn [xopp xle] in *; try tauto. lra.
Qed.
Lemma no_test (P : policy ND) x : std P -> test_input_i P x = false.
Proof. intros [-> | ->]; reflexivity. Qed.
Lemma far_apart (t s : T ND) mt ms : shown t = SpecFloat.S754_finite false mt (-52) -> shown s = SpecFloat.S754_finite false ms (-52) ->
  (Zpos mdu < Zpos mt)%Z -> (Zpos mdu < Zpos ms)%Z -> (Zpos mt < 9007199254740992)%Z -> (Zpos ms < 9007199254740992)%Z ->
  exists rt rs, fval (f := binary64) t = Fin rt /\ fval (f := binary64) s = Fin rs /\ cos rt < 0 /\ cos rs < 0.
Proof.
  intros Et Es H1 H2 B1 B2. exists (dyad mt (-52)), (dyad ms (-52)). split; [exact (pos_val _ _ _ Et)|]. split; [exact (pos_val _ _ _ Es)|].
  assert (G : forall m, (Zpos mdu < Zpos m)%Z -> (Zpos m < 9007199254740992)%Z -> cos (dyad m (-52)) < 0).
  { intros m A B. destruct double_pi as [_ U]. pose proof (dyad_lt mdu m (-52) A) as Lm. pose proof (dyad_half mdu (-51)) as Hh.
    change (-51 - 1)%Z with (-52)%Z in Hh. pose proof PI_4. pose proof pi_3_4.
    assert (dyad m (-52) < 2).
    { unfold dyad. apply IZR_lt in B. change (bpow radix2 (-52)) with (/ 4503599627370496). lra. }
    apply cos_lt_0; lra. }
  split; apply G; auto.
Qed.
(** The two results: one contains a negative number, the other none. *)
Lemma nested_false (a b : T ND) (g : itv ND) rl ru : RD (N := ND) fval (Fin (cos ru)) a -> RU (N := ND) fval (Fin (cos rl)) b -> cos ru < 0 -> rl = 0 ->
  xle (Fin 0) (fval (f := binary64) (low g)) -> exists r, fmem (p := double_sse) (mk a b) r /\ ~ fmem (p := double_sse) g r.
Proof.
  intros [A _] [B _] C -> G. exists (cos ru). split; [split; [exact A|]|].
  - cbn [up]. refine (xle_trans _ (Fin (cos 0)) _ _ B). rewrite cos_0. cbn [xle]. lra.
  - intros [M _]. pose proof (xle_trans (Fin 0) _ (Fin (cos ru)) G M) as Q. cbn [xle] in Q. lra.
Qed.
Lemma cos_x_at (fuel : nat) : exists a b ru, cos ru < 0 /\
  fst (t_cos K0 RR (S fuel) P0 cos_x RNE) = Ok (mk a b) /\ RD (N := ND) fval (Fin (cos ru)) a /\ RU (N := ND) fval (Fin (cos 0)) b.
Proof.
  destruct (far_apart (up cos_tx) cos_s 7074237948887040 7074237841477264) as (rt & rs & Vt & Vs & Ct & _); [vm_compute; reflexivity ..|].
  destruct (cos_mono_branch (t_cos K0 RR fuel) P0 cos_x RNE cos_tx cos_wx 0 rt (or_introl eq_refl)) as (a & b & s' & E & A & B);
    [runs|runs|bool|bool|bool|runs|reflexivity|exact Vt|].
  exists a, b, rt. split; [exact Ct|]. split; [|auto]. rewrite t_cos_unfold, no_test by auto. rewrite (with_at _ _ _ _ E). reflexivity.
Qed.
Lemma cos_y_at : exists g, fst (t_cos K0 RR 2 P0 cos_y RNE) = Ok g /\ xle (Fin 0) (fval (f := binary64) (low g)).
Proof.
  destruct (far_apart (up cos_tx) cos_s 7074237948887040 7074237841477264) as (rt & rs & Vt & Vs & _ & Cs); [vm_compute; reflexivity ..|].
  destruct (cos_low_branch (t_cos K0 RR 0) Q0 cos_d RUP cos_td cos_wd cos_s rs (or_intror eq_refl)) as (b & s' & E & B);
    [runs|runs|bool|bool|bool|bool|runs|bool|runs|exact Vs|].
  destruct (neg_back P0 b (cos rs) s' (or_introl eq_refl) B) as (g & s2 & Eg & Lg); [apply COS_bound|lra|]. exists g. split; [|exact Lg].
  rewrite t_cos_unfold, no_test by auto.
  assert (Q : cos_body K0 RR (t_cos K0 RR 1) P0 cos_y RNE = (Ok g, s2)).
  { rewrite (body_neg K0 RR (t_cos K0 RR 1) P0 cos_y RNE w_pi2 RNE cos_ty RUP cos_wy RUP (up w_pi) RUP w_pi RUP cos_d RUP);
      [|runs|runs|runs|bool|runs|bool|runs|runs].
    cbv zeta. rewrite t_cos_unfold. rewrite (bind_at _ _ RUP (mk (n_cst ND (-1)) b) s'); [exact Eg|].
    rewrite no_test by auto. exact E. }
  rewrite (with_at _ _ _ _ Q). reflexivity.
Qed.

Lemma sin_x_at (fuel : nat) : exists a b ru, cos ru < 0 /\
  fst (t_sin K0 RR (S fuel) P0 sin_x RNE) = Ok (mk a b) /\ RD (N := ND) fval (Fin (cos ru)) a /\ RU (N := ND) fval (Fin (cos 0)) b.
Proof.
  destruct (far_apart (up sin_tx) sin_s 7074237752029184 7074237752028816) as (rt & rs & Vt & Vs & Ct & _); [vm_compute; reflexivity ..|].
  destruct (cos_mono_branch (t_cos K0 RR fuel) Q0 sin_dx RUP sin_tx sin_wx 0 rt (or_intror eq_refl)) as (a & b & s' & E & A & B);
    [runs|runs|bool|bool|bool|runs|reflexivity|exact Vt|].
  exists a, b, rt. split; [exact Ct|]. split; [|auto]. unfold t_sin. rewrite no_test by auto.
  erewrite with_at; [reflexivity|]. cbv zeta.
  rewrite (bind_at _ _ RNE w_half RNE) by runs. rewrite (bind_at _ _ RNE sin_dx RUP) by runs.
  rewrite (bind_at _ _ RUP (mk a b) s') by (rewrite t_cos_unfold, no_test by auto; exact E). reflexivity.
Qed.
Lemma sin_y_at : exists g, fst (t_sin K0 RR 2 P0 sin_y RNE) = Ok g /\ xle (Fin 0) (fval (f := binary64) (low g)).
Proof.
  destruct (far_apart (up sin_tx) sin_s 7074237752029184 7074237752028816) as (rt & rs & Vt & Vs & _ & Cs); [vm_compute; reflexivity ..|].
  destruct (cos_low_branch (t_cos K0 RR 0) Q0 sin_d RUP sin_td sin_wd sin_s rs (or_intror eq_refl)) as (b & s' & E & B);
    [runs|runs|bool|bool|bool|bool|runs|bool|runs|exact Vs|].
  destruct (neg_back Q0 b (cos rs) s' (or_intror eq_refl) B) as (g & s2 & Eg & Lg); [apply COS_bound|lra|].
  assert (Q : cos_body K0 RR (t_cos K0 RR 1) Q0 sin_dy RUP = (Ok g, s2)).
  { rewrite (body_neg K0 RR (t_cos K0 RR 1) Q0 sin_dy RUP w_pi2 RUP sin_ty RUP sin_wy RUP (up w_pi) RUP w_pi RUP sin_d RUP);
      [|runs|runs|runs|bool|runs|bool|runs|runs].
    cbv zeta. rewrite t_cos_unfold. rewrite (bind_at _ _ RUP (mk (n_cst ND (-1)) b) s'); [exact Eg|].
    rewrite no_test by auto. exact E. }
  exists (mk (low g) (up g)). split; [|exact Lg]. unfold t_sin. rewrite no_test by auto.
  erewrite with_at; [reflexivity|]. cbv zeta.
  rewrite (bind_at _ _ RNE w_half RNE) by runs. rewrite (bind_at _ _ RNE sin_dy RUP) by runs.
  rewrite (bind_at _ _ RUP g s2) by (rewrite t_cos_unfold, no_test by auto; exact Q). reflexivity.
Qed.
Lemma tan_x_at : exists g, fst (t_tan K0 RR P0 tan_x RNE) = Ok g /\ fval (f := binary64) (low g) = NInf /\ fval (f := binary64) (up g) = PInf.
Proof.
  exists (mk ninf pinf). split; [|split; reflexivity]. unfold t_tan. rewrite no_test by auto.
  erewrite with_at; [reflexivity|].
  rewrite (bind_at _ _ RNE w_pi RNE) by runs. rewrite (bind_at _ _ RNE tan_tx RUP) by runs.
  rewrite (bind_at _ _ RUP (low w_half) RUP) by runs.
  replace (n_ge (low tan_tx) (low w_half)) with false by bool.
  rewrite (bind_at _ _ RUP tan_tx RUP) by reflexivity.
  rewrite (bind_at _ _ RUP (dbl (-7074237752028440) (-52)) RUP) by runs.
  replace (n_le ND (low tan_tx) (dbl (-7074237752028440) (-52)) || n_ge (up tan_tx) (low w_half)) with true by bool.
  runs.
Qed.
Lemma tan_y_at : exists g, fst (t_tan K0 RR P0 tan_y RNE) = Ok g /\ xle (Fin (-1)) (fval (f := binary64) (low g)).
Proof.
  assert (Vl : exists rl, fval (f := binary64) (low tan_d) = Fin rl /\ - (1/2) <= rl <= 0).
  { exists (- dyad 5986028285329408 (-71)). split.
    - apply fval_fin_iff. split; [vm_compute; reflexivity|].
      assert (Q : B2R (low tan_d : flt binary64) = F2R (Float radix2 (-5986028285329408) (-71))) by (vm_compute; reflexivity).
      refine (eq_trans Q _). unfold F2R, dyad. cbn [Fnum Defs.Fexp]. change (bpow radix2 (-71)) with (/ 2361183241434822606848). lra.
    - unfold dyad. change (bpow radix2 (-71)) with (/ 2361183241434822606848). lra. }
  assert (Vu : exists ru, fval (f := binary64) (up tan_d) = Fin ru /\ 0 <= ru < PI / 2).
  { exists (dyad 7074229215798736 (-52)). split; [apply pos_val; vm_compute; reflexivity|].
    destruct double_pi as [U _]. assert (Lt : dyad 7074229215798736 (-52) < dyad mdl (-52)) by (apply dyad_lt; vm_compute; reflexivity).
    pose proof (dyad_half mdl (-51)) as Hh. change (-51 - 1)%Z with (-52)%Z in Hh.
    assert (0 <= dyad 7074229215798736 (-52)) by (unfold dyad; apply Rmult_le_pos; [apply IZR_le; lia|apply bpow_ge_0]). lra. }
  destruct Vl as (rl & Vl & Bl), Vu as (ru & Vu & Bu). pose proof pi_3_4 as P34.
  assert (Gl : xgraph Ftan (fval (f := binary64) (low tan_d)) (Fin (sin rl / cos rl))).
  { rewrite Vl. exists (sin rl / cos rl). split; [reflexivity|]. split; [|reflexivity]. apply Rgt_not_eq, cos_gt_0; lra. }
  assert (Gu : xgraph Ftan (fval (f := binary64) (up tan_d)) (Fin (sin ru / cos ru))).
  { rewrite Vu. exists (sin ru / cos ru). split; [reflexivity|]. split; [|reflexivity]. apply Rgt_not_eq, cos_gt_0; lra. }
  destruct (std_down double_sse L Ftan HL (low tan_d) _ Gl) as (a & Ra & Ea).
  destruct (std_up double_sse L Ftan HL (up tan_d) _ Gu) as (b & Rb & Eb).
  destruct (pair_at _ _ a b RUP Ea Eb) as (s' & Es). exists (mk a b). split.
  - unfold t_tan. rewrite no_test by auto. erewrite with_at; [reflexivity|].
    rewrite (bind_at _ _ RNE w_pi RNE) by runs. rewrite (bind_at _ _ RNE tan_ty RUP) by runs.
    rewrite (bind_at _ _ RUP (low w_half) RUP) by runs.
    replace (n_ge (low tan_ty) (low w_half)) with true by bool.
    rewrite (bind_at _ _ RUP tan_d RUP) by runs.
    rewrite (bind_at _ _ RUP (dbl (-7074237752028440) (-52)) RUP) by runs.
    replace (n_le ND (low tan_d) (dbl (-7074237752028440) (-52)) || n_ge (up tan_d) (low w_half)) with false by bool.
    exact Es.
  - cbn [low]. assert (E : fval (f := binary64) (dbl (-1) 0) = Fin (-1)) by (apply (dbl_val (-1)); lia). rewrite <- E. apply (proj2 Ra).
    change (xle (fval (f := binary64) (dbl (-1) 0)) (Fin (sin rl / cos rl))). rewrite E. cbn [xle].
    replace (-1) with (sin (- (PI / 4)) / cos (- (PI / 4))).
    + apply tan_graph_le; lra.
    + rewrite sin_neg, cos_neg, sin_cos_PI4. field. apply Rgt_not_eq, cos_gt_0; lra.
Qed.
End Cex.

Lemma inside_b (x y : itv ND) : Bleb (low y : flt binary64) (low x) = true -> Bleb (up x : flt binary64) (up y) = true -> (forall r, fmem (p := D) x r -> fmem (p := D) y r).
Proof.
  intros A B r [M1 M2]. apply (proj1 (Bleb_fval (f := binary64) _ _)) in A. apply (proj1 (Bleb_fval (f := binary64) _ _)) in B. split.
  - exact (xle_trans _ _ (Fin r) A M1).
  - exact (xle_trans (Fin r) _ _ M2 B).
Qed.
Lemma returns_fst {A} (m : M A) a b s : returns m a -> fst (m s) = Ok b -> a = b.
Proof. intros R E. rewrite R in E. simpl in E. congruence. Qed.

(** An interval x inside an interval y such that sin(x) is not inside sin(y)
    although the library is correctly rounded; the same for cos and tan.  So
    the exclusion of the three functions above is necessary. *)
Theorem C67_reduction_refuted : forall (L : libm ND) f, lib_rounds L -> f = Fsin \/ f = Fcos \/ f = Ftan ->
  exists x y z w : itv ND, fvalid x /\ fvalid y /\ inside x y /\
    (forall fuel, (2 <= fuel)%nat -> returns (call f K0 (transc_std (control_hw ND) L) fuel P0 x) z) /\
    (forall fuel, (2 <= fuel)%nat -> returns (call f K0 (transc_std (control_hw ND) L) fuel P0 y) w) /\
    exists r, fmem z r /\ ~ fmem w r.
Proof.
  intros L f HL F.
  assert (W : rint_ok D) by (left; split; cbn; lia).
  assert (HK : constants_for D K0) by (apply for_double; auto).
  assert (Ex : forall x : itv ND, fvalid x -> exists z, forall fuel, (2 <= fuel)%nat -> returns (call f K0 (transc_std (control_hw ND) L) fuel P0 x) z).
  { intros x Hx. destruct (trig_main D Std true CkStrict (fun _ => true) (transc_std (control_hw ND) L) W K0 f x HK F) as (z & Rz & _); eauto.
    - intros a e G. destruct (std_down D L (calls f) HL a e G) as (t & [Lt _] & R). exists t. auto.
    - intros a e G. destruct (std_up D L (calls f) HL a e G) as (t & [Lt _] & R). exists t. auto. }
  assert (Go : forall x y : itv ND, fvalid x -> fvalid y -> inside x y ->
    (forall z w, (forall fuel, (2 <= fuel)%nat -> returns (call f K0 (transc_std (control_hw ND) L) fuel P0 x) z) ->
      (forall fuel, (2 <= fuel)%nat -> returns (call f K0 (transc_std (control_hw ND) L) fuel P0 y) w) -> exists r, fmem z r /\ ~ fmem w r) ->
    exists x y z w : itv ND, fvalid x /\ fvalid y /\ inside x y /\
    (forall fuel, (2 <= fuel)%nat -> returns (call f K0 (transc_std (control_hw ND) L) fuel P0 x) z) /\
    (forall fuel, (2 <= fuel)%nat -> returns (call f K0 (transc_std (control_hw ND) L) fuel P0 y) w) /\
    exists r, fmem z r /\ ~ fmem w r).
  { intros x y Vx Vy S H. destruct (Ex x Vx) as (z & Rz), (Ex y Vy) as (w & Rw). exists x, y, z, w. repeat (split; [assumption|]). apply H; assumption. }
  destruct F as [->|[->| ->]]; cbn [call] in *.
  - apply (Go sin_x sin_y); [apply validb_ok; vm_compute; reflexivity|apply validb_ok; vm_compute; reflexivity|apply inside_b; vm_compute; reflexivity|].
    intros z w Rz Rw. destruct (sin_x_at L HL 1) as (a & b & ru & C & E & A & B). destruct (sin_y_at L HL) as (g & Eg & Lg).
    rewrite (returns_fst _ _ _ _ (Rz 2%nat (le_n _)) E), (returns_fst _ _ _ _ (Rw 2%nat (le_n _)) Eg). exact (nested_false a b g 0 ru A B C eq_refl Lg).
  - apply (Go cos_x cos_y); [apply validb_ok; vm_compute; reflexivity|apply validb_ok; vm_compute; reflexivity|apply inside_b; vm_compute; reflexivity|].
    intros z w Rz Rw. destruct (cos_x_at L HL 1) as (a & b & ru & C & E & A & B). destruct (cos_y_at L HL) as (g & Eg & Lg).
    rewrite (returns_fst _ _ _ _ (Rz 2%nat (le_n _)) E), (returns_fst _ _ _ _ (Rw 2%nat (le_n _)) Eg). exact (nested_false a b g 0 ru A B C eq_refl Lg).
  - apply (Go tan_x tan_y); [apply validb_ok; vm_compute; reflexivity|apply validb_ok; vm_compute; reflexivity|apply inside_b; vm_compute; reflexivity|].
    intros z w Rz Rw. destruct (tan_x_at L) as (a & E & A & B). destruct (tan_y_at L HL) as (g & Eg & Lg).
    rewrite (returns_fst _ _ _ _ (Rz 2%nat (le_n _)) E), (returns_fst _ _ _ _ (Rw 2%nat (le_n _)) Eg). exists (-2). split.
    + split; [change (xle (fval (f := binary64) (low a)) (Fin (-2))); rewrite A|change (xle (Fin (-2)) (fval (f := binary64) (up a))); rewrite B]; exact Logic.I.
    + intros [M _]. pose proof (xle_trans (Fin (-1)) _ (Fin (-2)) Lg M) as Q. cbn [xle] in Q. lra.
Qed.
Print Assumptions C67_reduction_refuted.

(** exp(sqrt(x) + 1) / log(y): a case that meets the hypotheses. *)
Definition demo_texpr : texpr ND := x_2 B_div (x_call Fexp (x_in B_add (x_1 U_sqrt (x_var 0)) (dbl 1 0))) (x_call Flog (x_var 1)).
Definition demo_small (n : nat) : itv ND := match n with O => di 1 3 | _ => di 2 5 end.
Definition demo_large (n : nat) : itv ND := match n with O => di (-1) 4 | _ => di 0 6 end.
Example C67_case : lib_rounds (ref_lib D) /\ (forall n, ok_interval CkStrict (demo_small n)) /\ (forall n, ok_interval CkStrict (demo_large n)) /\
  (forall n, inside (demo_small n) (demo_large n)) /\
  tproper (N := ND) fval (fun f => f <> Fsin /\ f <> Fcos /\ f <> Ftan /\ f <> Fatanh) demo_texpr.
Proof.
  split; [apply ref_lib_rounds|]. split; [intros [|n]; left; apply di_valid; lia|]. split; [intros [|n]; left; apply di_valid; lia|].
  split; [intros [|n]; apply inside_b; vm_compute; reflexivity|].
  cbn. repeat split; try discriminate. exists 1. apply (dbl_val 1). lia.
Qed.

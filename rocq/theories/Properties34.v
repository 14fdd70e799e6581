(** * C77: the functions of the rounding policy are called on their documented
    domains, and inclusion of transcendental functions under the documented
    requirements *)

From Coq Require Import Reals ZArith Lra Lia Bool.
From Flocq Require Import Core BinarySingleNaN.
From Verif Require Import Outcome Base Checking Interval Utility Arith Arith2 FloatNum Spec ExtR Sem
  CoreArith FloatSpec FloatPol Inst Witness Ops SpecUser CoreSound ExprSound Transc SpecTransc TransReal FloatTrans RefLib
  CoreTransc CoreTrig FloatConst BoxProof Properties10 ExprT ExprTSound Properties33.
From Verif Require CoreTranscSound.
Local Open Scope R_scope.

(** The function of the rounding policy that each function calls: sin is computed
    from cos. *)
Definition called (f : tfun) : tfun := match f with Fsin => Fcos | _ => f end.

(** With the arithmetic of the library: it is enough that the functions f_down
    and f_up work on the domains written in the documentation
    (doc/rounding.htm); they are not called elsewhere. *)
Theorem C77_domains : forall p k debug c ord (R : transc (fnum p)) K fuel f (x : itv (fnum p)),
  constants_for p K -> rint_ok p -> (2 <= fuel)%nat ->
  doc_down (N := fnum p) fval (fready k) R (called f) -> doc_up (N := fnum p) fval (fready k) R (called f) ->
  fvalid x -> somewhere_defined f x ->
  exists z : itv (fnum p), returns (call f K R fuel (P_ p k debug c ord) x) z /\ contains_values f x z.
Proof.
  intros p k debug c ord R K fuel f x C W Lf D U Hx Hd.
  assert (F : (f = Fsin \/ f = Fcos \/ f = Ftan) \/ (f <> Fsin /\ f <> Fcos /\ f <> Ftan)) by (destruct f; auto; right; repeat split; discriminate).
  destruct F as [F|(F1 & F2 & F3)].
  - destruct (trig_doc p k debug c ord R W K f x C F) as (z & Rz & Hz & _); auto;
      [destruct F as [->|[->| ->]]; exact D|destruct F as [->|[->| ->]]; exact U|].
    exists z. auto.
  - assert (E : called f = f) by (destruct f; try reflexivity; congruence). rewrite E in D, U.
    destruct (mono_doc p k debug c ord R K fuel f x C F1 F2 F3 D U Hx Hd) as (z & Rz & _ & Hz). eauto.
Qed.
Print Assumptions C77_domains.

(** A case: a policy whose cos and tan fail outside of the documented domains
    meets the hypotheses. *)
Definition in_domain (f : tfun) (e : ext) : bool :=
  match f, e with
  | Fcos, Fin r => if Rle_dec 0 r then if Rle_dec r (2 * PI) then true else false else false
  | Ftan, Fin r => if Rlt_dec (- (PI / 2)) r then if Rlt_dec r (PI / 2) then true else false else false
  | Fcos, _ | Ftan, _ | Fsin, _ => false
  | _, _ => true
  end.
Definition guarded : transc (fnum double_sse) :=
  let R := ftransc double_sse Std (ref_lib double_sse) in {|
  tr_down := fun f (a : T (fnum double_sse)) => if in_domain f (fval (f := p_T double_sse) a) then tr_down R f a else fail Outcome.UB;
  tr_up := fun f (a : T (fnum double_sse)) => if in_domain f (fval (f := p_T double_sse) a) then tr_up R f a else fail Outcome.UB
|}.
Lemma doc_in_domain f e : doc_domain f e -> in_domain f e = true.
Proof.
  destruct f; simpl; intros D; auto; try tauto; destruct D as (r & -> & D1 & D2).
  - destruct (Rle_dec 0 r); [|lra]. destruct (Rle_dec r (2 * PI)); [auto|lra].
  - destruct (Rlt_dec (- (PI / 2)) r); [|lra]. destruct (Rlt_dec r (PI / 2)); [auto|lra].
Qed.
Lemma guarded_ok f : doc_down (N := fnum double_sse) fval (fready Std) guarded f /\
  doc_up (N := fnum double_sse) fval (fready Std) guarded f.
Proof.
  split; intros a e D G; cbn [guarded tr_down tr_up]; rewrite (doc_in_domain _ _ D).
  - exact (ftransc_down double_sse _ (ref_lib_ok double_sse) Std f ltac:(discriminate) a e G).
  - exact (ftransc_up double_sse _ (ref_lib_ok double_sse) Std f a e G).
Qed.
Example C77_domains_case : constants_for double_sse (consts_double double_sse RNE) /\ rint_ok double_sse /\
  (forall f, doc_down (N := fnum double_sse) fval (fready Std) guarded (called f) /\
             doc_up (N := fnum double_sse) fval (fready Std) guarded (called f)) /\
  (forall s, tr_up guarded Fcos (dbl 7 0) s = (Outcome.UB, s)) /\
  (forall s, tr_down guarded Ftan (dbl (-2) 0) s = (Outcome.UB, s)) /\
  fvalid (di 100 101) /\ somewhere_defined Ftan (di 0 7) /\ somewhere_defined Fcos (di 100 101).
Proof.
  pose proof pi_3_4 as P34.
  split; [apply for_double; auto|]. split; [right; split; cbn; lia|]. split; [intros f; apply guarded_ok|].
  split; [|split; [|split; [apply di_valid; lia|split]]].
  - intros s. cbn [guarded tr_up]. rewrite (v_ 7) by lia. unfold in_domain.
    destruct (Rle_dec 0 7); [|reflexivity]. destruct (Rle_dec 7 (2 * PI)); [|reflexivity].
    exfalso. pose proof double_pi as [_ B]. assert (dyad mdu (-51) <= 7/2) by (unfold dyad; cbn; lra). lra.
  - intros s. cbn [guarded tr_down]. rewrite (v_ (-2)) by lia. unfold in_domain.
    destruct (Rlt_dec (- (PI / 2)) (-2)); [lra|reflexivity].
  - exists 0, 0. split; [unfold fmem, mem, di; cbn [low up]; rewrite !v_ by lia; simpl; lra|].
    simpl. rewrite cos_0, sin_0. split; lra.
  - exists 100, (cos 100). split; [unfold fmem, mem, di; cbn [low up]; rewrite !v_ by lia; simpl; lra|]. reflexivity.
Qed.

(** For every base type with infinities, every rounding policy whose functions
    return bounds on their documented domains, every expression without sin, cos
    and tan: the result contains the value of the expression.

    Missing: powers need [keeps_signs] (C76), and sin, cos and tan need more. *)
Theorem C77_inclusion_partial : forall (N : num) (val : T N -> ext) (P : policy N) (ready : rmode -> Prop)
    (K : consts N) (TR : transc N) (fuel : nat) (eo : texpr N -> bool) (env : nat -> itv N) (rho : nat -> R) (e : texpr N) (t : R),
  user_policy exactly val P ready ->
  (t_has_pow e -> keeps_signs val P ready) ->
  n_has_inf N = true -> val (n_cst N (-1)) = Fin (-1) ->
  (exists h, pureM (k_half_u K) h /\ xle (Fin (PI / 2)) (val h)) ->
  (exists h, pureM (k_pi_u K) h /\ xle (Fin PI) (val h)) ->
  (forall f, doc_down val ready TR f /\ doc_up val ready TR f) ->
  tproper val (fun f => f <> Fsin /\ f <> Fcos /\ f <> Ftan) e ->
  (forall n, mem val (env n) (rho n)) -> tmeans val e rho t ->
  exists z, runsP P ready (teval P K TR fuel eo env e) z /\ mem val z t.
Proof.
  intros N val P ready K TR fuel eo env rho e t HU HK HI HM KH KP HT Wf He Ht.
  eapply (teval_sound HU K TR fuel (fun f => f <> Fsin /\ f <> Fcos /\ f <> Ftan) eo env rho); eauto.
  intros f x r u (F1 & F2 & F3) M G. destruct (HT f) as [D U]. eapply (call_user HU); eauto.
Qed.
Print Assumptions C77_inclusion_partial.

(** A case: exp(x * y) + cosh(x) at x = 0, y = 3, with products that are too small by 3. *)
Definition c77_expr : texpr (fnum double_sse) :=
  x_2 B_add (x_call Fexp (x_2 B_mul (x_var 0) (x_var 1))) (x_call Fcosh (x_var 0)).
Definition c77_env (n : nat) : itv (fnum double_sse) := match n with O => di (-1) 1 | _ => di 2 5 end.
Definition c77_rho (n : nat) : R := match n with O => 0 | _ => 3 end.
Example C77_inclusion_case : let K := consts_double double_sse RNE in
  user_policy exactly (N := fnum double_sse) fval loose (fready Std) /\ ~ t_has_pow c77_expr /\
  n_has_inf (fnum double_sse) = true /\ fval (f := p_T double_sse) (n_cst (fnum double_sse) (-1)) = Fin (-1) /\
  (exists h, pureM (k_half_u K) h /\ xle (Fin (PI / 2)) (fval (f := p_T double_sse) h)) /\
  (exists h, pureM (k_pi_u K) h /\ xle (Fin PI) (fval (f := p_T double_sse) h)) /\
  (forall f, doc_down (N := fnum double_sse) fval (fready Std) guarded f /\
             doc_up (N := fnum double_sse) fval (fready Std) guarded f) /\
  tproper (N := fnum double_sse) fval (fun f => f <> Fsin /\ f <> Fcos /\ f <> Ftan) c77_expr /\
  (forall n, mem (N := fnum double_sse) fval (c77_env n) (c77_rho n)) /\
  tmeans (N := fnum double_sse) fval c77_expr c77_rho 2.
Proof.
  destruct (kbounds double_sse (consts_double double_sse RNE)) as [KH KP]; [apply for_double; auto|].
  split; [apply loose_user|]. split; [simpl; tauto|]. split; [reflexivity|]. split; [apply (mone_val double_sse)|].
  split; [exact KH|]. split; [exact KP|]. split; [apply guarded_ok|]. split; [|split].
  - simpl. repeat split; discriminate.
  - intros [|n]; unfold mem, c77_env, c77_rho, di; cbn [low up]; rewrite !v_ by lia; simpl; lra.
  - exists 1, 1. split; [|split; [|simpl; lra]].
    + exists 0. split; [exists 0, 3; simpl; repeat split; lra|]. simpl. symmetry. apply exp_0.
    + exists 0. split; [reflexivity|]. simpl. rewrite Ropp_0, exp_0. lra.
Qed.

(** tan, when the number of periods subtracted is finite: the quotient of the
    lower bound by pi, rounded down, has an integer part. *)
Theorem C77_tan_partial : forall (N : num) (val : T N -> ext) (P : policy N) (ready : rmode -> Prop)
    (K : consts N) (TR : transc N) (x : itv N) (pl pu h q n : T N) (a b d : R) (i : Z),
  user_policy exactly val P ready -> n_has_inf N = true ->
  pureM (k_pi_l K) pl -> pureM (k_pi_u K) pu -> pureM (k_half_l K) h ->
  val pl = Fin a -> val pu = Fin b -> val h = Fin d -> a <= PI <= b -> d <= PI / 2 ->
  doc_down val ready TR Ftan -> doc_up val ready TR Ftan -> valid val x ->
  runsI ready (div_down (p_ar P) (low x) (if is_neg (low x) then pl else pu)) q ->
  runsI ready (int_down (p_ar P) q) n -> val n = Fin (IZR i) ->
  exists z, runsP P ready (t_tan K TR P x) z /\ forall r t, mem val x r -> graph Ftan r t -> mem val z t.
Proof.
  intros N val P ready K TR x pl pu h q n a b d i HU HI Rl Ru Rh El Eu Eh Bp Bh D U Hx Rq Rn En.
  apply (CoreTranscSound.tan_user HU x pl pu h a b d); auto. exists q, n, i. auto.
Qed.
Print Assumptions C77_tan_partial.
Lemma num_runs (m : M (T (fnum double_sse))) (z : T (fnum double_sse)) s s' :
  run (B2SF : flt (p_T double_sse) -> SpecFloat.spec_float) m s = (Ok (B2SF (z : flt (p_T double_sse))), s') -> m s = (Ok z, s').
Proof.
  unfold run. destruct (m s) as [[w|e| | |] s1]; try discriminate. cbn [omap]. intros E.
  injection E as E1 E2. apply (B2SF_inj (prec (p_T double_sse)) (emax (p_T double_sse))) in E1. subst. reflexivity.
Qed.
Definition c77_pu : T (fnum double_sse) := pi_d double_sse RNE 273689.
(** 4 / pi rounded down *)
Definition c77_q : T (fnum double_sse) := dbl 5734161139222658 (-52).
Example C77_tan_case : let K := consts_double double_sse RNE in
  exists (pl h : T (fnum double_sse)) (a b d : R),
  user_policy exactly (N := fnum double_sse) fval loose (fready Std) /\ n_has_inf (fnum double_sse) = true /\
  pureM (k_pi_l K) pl /\ pureM (k_pi_u K) c77_pu /\ pureM (k_half_l K) h /\
  fval (f := p_T double_sse) pl = Fin a /\ fval (f := p_T double_sse) c77_pu = Fin b /\ fval (f := p_T double_sse) h = Fin d /\
  a <= PI <= b /\ d <= PI / 2 /\
  doc_down (N := fnum double_sse) fval (fready Std) guarded Ftan /\ doc_up (N := fnum double_sse) fval (fready Std) guarded Ftan /\
  fvalid (di 4 5) /\
  runsI (fready Std) (div_down (p_ar loose) (dbl 4 0) (if is_neg (N := fnum double_sse) (dbl 4 0) then pl else c77_pu)) c77_q /\
  runsI (fready Std) (int_down (p_ar loose) c77_q) (dbl 1 0) /\ fval (f := p_T double_sse) (dbl 1 0) = Fin (IZR 1).
Proof.
  cbv zeta.
  destruct (constants_kspec double_sse (consts_double double_sse RNE)) as (pl & pu & hl & hu & tl & tu & S & _); [apply for_double; auto|].
  destruct (ks_pl _ _ _ _ _ _ _ _ S) as (vl & El & Rl). destruct (ks_pu _ _ _ _ _ _ _ _ S) as (vu & Eu & Ru).
  destruct (ks_hl _ _ _ _ _ _ _ _ S) as (vh & Eh & Rh).
  assert (Qu : vu = c77_pu).
  { pose proof (Ru RNE) as Q. unfold c77_pu. cbv [consts_double consts_from k_pi_u ret] in Q. congruence. }
  subst vu.
  exists vl, vh, pl, pu, hl. split; [apply loose_user|]. split; [reflexivity|]. do 3 (split; [assumption|]).
  do 3 (split; [assumption|]). split; [apply (ks_pi _ _ _ _ _ _ _ _ S)|]. split; [apply (ks_half _ _ _ _ _ _ _ _ S)|].
  split; [apply guarded_ok|]. split; [apply guarded_ok|]. split; [apply di_valid; lia|].
  split; [|split; [|apply v_; lia]].
  - change (is_neg (N := fnum double_sse) (dbl 4 0)) with false. cbv iota.
    intros s _. exists RDN. split; [exact Logic.I|]. apply num_runs. destruct s; vm_compute; reflexivity.
  - intros s _. exists RDN. split; [exact Logic.I|]. apply num_runs. destruct s; vm_compute; reflexivity.
Qed.

(** For cos (and sin) the requirements are not enough.  In this policy
    differences are rounded down to a bound that is too small by 2, everything
    else is that of the library, and cos_down, cos_up are bounds for all
    arguments; fmod([0,1], 2 pi) is then [-2,1], and cos([0,1]) lacks cos 0. *)
Definition loose_sub : arith (fnum double_sse) :=
  let A := farith double_sse Std in {|
  ar_init := ar_init A;
  add_down := add_down A; add_up := add_up A;
  sub_down := fun x y => let! t := sub_down A x y in sub_down A t (dbl 2 0);
  sub_up := sub_up A;
  mul_down := mul_down A; mul_up := mul_up A;
  div_down := div_down A; div_up := div_up A;
  ar_median := ar_median A;
  sqrt_down := sqrt_down A; sqrt_up := sqrt_up A;
  int_down := int_down A; int_up := int_up A;
  conv_down := conv_down A; conv_up := conv_up A
|}.
Definition loose_diff : policy (fnum double_sse) := {|
  p_prot := Save; p_ctl := control_hw (fnum double_sse); p_ar := loose_sub;
  p_ck := fchecking double_sse true CkStrict; p_ord := fun _ => true
|}.
Lemma loose_diff_user : user_policy exactly (N := fnum double_sse) fval loose_diff (fready Std).
Proof.
  pose proof (fpol_user double_sse Save Std true CkStrict (fun _ => true)) as U.
  destruct U; split; auto; clear - up_sub_down.
  intros a b Hn. destruct (up_sub_down a b Hn) as (t & A & R). unfold LB, exactly in A.
  assert (E3 : fval (f := p_T double_sse) (dbl 2 0) = Fin 2) by (apply (dbl_val 2); lia).
  assert (NN : xsub (fval (f := p_T double_sse) t) (fval (f := p_T double_sse) (dbl 2 0)) <> NaN).
  { rewrite E3. apply xle_nnl in A. destruct (fval (f := p_T double_sse) t) eqn:Et; simpl; try discriminate.
    exfalso. congruence. }
  destruct (up_sub_down t (dbl 2 0) NN) as (u & B & R').
  exists u. split.
  - unfold LB, exactly in *. eapply xle_trans; [exact B|]. eapply xle_trans; [|exact A].
    apply xle_nnl in A. rewrite E3.
    destruct (fval (f := p_T double_sse) t) eqn:Et; simpl; auto; try lra; exfalso; congruence.
  - intros s Hs. destruct (R s Hs) as (s1 & H1 & E1). destruct (R' s1 H1) as (s2 & H2 & E2).
    exists s2. split; auto. unfold loose_diff, loose_sub. cbn [p_ar sub_down]. unfold bind.
    cbn [fpol p_ar] in E1, E2. rewrite E1. exact E2.
Qed.
(** -1 <= cos; cos <= 0 on [-3,-2]; cos <= 1. *)
Definition rough : transc (fnum double_sse) := {|
  tr_down := fun f (a : T (fnum double_sse)) => ret (dbl (-1) 0);
  tr_up := fun f (a : T (fnum double_sse)) =>
    let le x y := n_le (fnum double_sse) x y in
    ret (if (le (dbl (-3) 0) a && le a (dbl (-2) 0))%bool then dbl 0 0 else dbl 1 0)
|}.
Lemma rough_ok : down_ok (N := fnum double_sse) (val := fval) (ready := fready Std) (R := rough) Fcos /\
  up_ok (N := fnum double_sse) (val := fval) (ready := fready Std) (R := rough) Fcos.
Proof.
  pose proof pi_3_4 as P34.
  assert (G : forall (a : T (fnum double_sse)) e, xgraph Fcos (fval (f := p_T double_sse) a) e -> exists r, fval (f := p_T double_sse) a = Fin r /\ e = Fin (cos r)).
  { intros a e G. destruct (fval (f := p_T double_sse) a) as [| |r|]; cbn [xgraph] in G; try tauto.
    destruct G as (t & -> & G). cbn [graph] in G. subst t. eauto. }
  split; intros a e Ge; destruct (G a e Ge) as (r & Ea & ->); cbn [rough tr_down tr_up].
  - exists (dbl (-1) 0). split; [rewrite (v_ (-1)) by lia; cbn [xle]; apply COS_bound|]. intros s Hs. exists s. auto.
  - eexists. split; [|intros s Hs; exists s; split; [exact Hs|reflexivity]].
    destruct (n_le (fnum double_sse) (dbl (-3) 0) a && n_le (fnum double_sse) a (dbl (-2) 0))%bool eqn:E.
    + apply andb_prop in E. destruct E as [E1 E2]. apply (Bleb_fval (f := p_T double_sse)) in E1. apply (Bleb_fval (f := p_T double_sse)) in E2.
      rewrite Ea, v_ in E1 by lia. rewrite Ea, v_ in E2 by lia. cbn [xle] in E1, E2.
      rewrite v_ by lia. cbn [xle]. rewrite <- cos_neg. apply cos_le_0; lra.
    + rewrite v_ by lia. cbn [xle]. apply COS_bound.
Qed.

Theorem C77_cos_refuted :
  exists (P : policy (fnum double_sse)) (ready : rmode -> Prop) (R : transc (fnum double_sse)) (K : consts (fnum double_sse))
    (x z : itv (fnum double_sse)),
  user_policy exactly (N := fnum double_sse) fval P ready /\ constants_for double_sse K /\
  down_ok (N := fnum double_sse) (val := fval) (ready := ready) (R := R) Fcos /\
  up_ok (N := fnum double_sse) (val := fval) (ready := ready) (R := R) Fcos /\
  fvalid x /\ fmem x 0 /\ returns (t_cos K R 2 P x) z /\ ~ fmem z (cos 0).
Proof.
  exists loose_diff, (fready Std), rough, (consts_double double_sse RNE), (di 0 1), (mk (dbl (-1) 0) (dbl 0 0)).
  split; [apply loose_diff_user|]. split; [apply for_double; auto|]. split; [apply rough_ok|]. split; [apply rough_ok|].
  split; [apply di_valid; lia|]. split; [unfold fmem, mem, di; cbn [low up]; rewrite !v_ by lia; simpl; lra|].
  split; [apply run_show_returns; intros s; destruct s; vm_compute; reflexivity|].
  intros [_ B]. cbn [up] in B. rewrite cos_0 in B.
  rewrite v_ in B by lia. simpl in B. lra.
Qed.
Print Assumptions C77_cos_refuted.

(** The documented domain of sqrt_up is ]0;+oo], but sqrt calls it on 0 when the
    upper bound of its argument is 0: a policy that differs from that of the library
    only in the result of sqrt_up(0) gives a result that does not contain 0. *)
Definition with_sqrt_up (A : arith (fnum double_sse)) (g : T (fnum double_sse) -> M (T (fnum double_sse))) : arith (fnum double_sse) := {|
  ar_init := ar_init A;
  add_down := add_down A; add_up := add_up A;
  sub_down := sub_down A; sub_up := sub_up A;
  mul_down := mul_down A; mul_up := mul_up A;
  div_down := div_down A; div_up := div_up A;
  ar_median := ar_median A;
  sqrt_down := sqrt_down A; sqrt_up := g;
  int_down := int_down A; int_up := int_up A;
  conv_down := conv_down A; conv_up := conv_up A
|}.
Theorem C77_sqrt_domain_refuted :
  exists (g : T (fnum double_sse) -> M (T (fnum double_sse))) (x z : itv (fnum double_sse)),
  let A := farith double_sse Std in
  (forall a : T (fnum double_sse), xlt (Fin 0) (fval (f := p_T double_sse) a) -> g a = sqrt_up A a) /\
  fvalid x /\ fmem x 0 /\
  returns (i_sqrt {| p_prot := Save; p_ctl := control_hw (fnum double_sse); p_ar := with_sqrt_up A g;
                     p_ck := fchecking double_sse true CkStrict; p_ord := fun _ => true |} x) z /\
  ~ fmem z (sqrt 0).
Proof.
  exists (fun a : T (fnum double_sse) => if is_pos a then sqrt_up (farith double_sse Std) a else ret (dbl (-1) 0)), (di (-2) 0), (mk (dbl 0 0) (dbl (-1) 0)).
  cbv zeta. split.
  { intros a La. replace (is_pos a) with true; auto. symmetry.
    apply (is_pos_iff (fpol_user double_sse Save Std true CkStrict (fun _ => true)) a). exact La. }
  split; [apply di_valid; lia|]. split; [unfold fmem, mem, di; cbn [low up]; rewrite !v_ by lia; simpl; lra|].
  split; [apply run_show_returns; intros s; destruct s; vm_compute; reflexivity|].
  intros [_ B]. cbn [up] in B. rewrite sqrt_0, v_ in B by lia. simpl in B. lra.
Qed.
Print Assumptions C77_sqrt_domain_refuted.

(** * The floating-point policies satisfy the interface of Sem.v

    For every platform (base format, expression format, rint format), for
    rounded_arith_std and rounded_arith_opp, every checking policy and every
    evaluation order. *)

From Coq Require Import Reals ZArith Lra Lia Bool.
From Flocq Require Import Core BinarySingleNaN.
From Verif Require Import Outcome Base Checking Interval Utility Arith Arith2 FloatNum Spec ExtR Sem FloatSpec.
Local Open Scope R_scope.

Section Pol.
Context (p : platform).
Notation N := (fnum p).
Notation TT := (flt (p_T p)).
Notation XX := (flt (p_X p)).

(** The states in which the directed operations work: any for std, upward for
    opp (set by init()). *)
Definition fready (k : rkind) : rmode -> Prop :=
  match k with Std => fun _ => True | Opp => fun m => m = RUP end.

Notation ld := (fconv (p_T p) (p_X p) RNE).
Notation st m := (fconv (p_X p) (p_T p) m).

Lemma fval_ld (a : TT) : fval (ld a) = fval a.
Proof. apply fconv_widen, p_TX. Qed.

(** Store an expression value rounded in the same direction. *)
Lemma st_dr d e (x : XX) : dr d e x -> dr d e (st (dmode d) x).
Proof.
  intros K. eapply dr_trans; [apply p_TX|exact K|]. apply fconv_dr.
  destruct d, K as [A _]; destruct (fval x); simpl in *; congruence || tauto || (destruct e; tauto).
Qed.

Lemma neg_val (a : TT) m : fval (st m (fopp (ld a))) = xopp (fval a).
Proof.
  rewrite <- fval_opp. apply fconv_exact. rewrite !fval_opp. f_equal. apply fval_ld.
Qed.

(** Numbers with the same nonzero value are equal. *)
Lemma fval_inj_nz f (a b : flt f) : fval a = fval b -> fval a <> Fin 0 -> a = b.
Proof.
  intros E Z.
  destruct (fval_cases a) as [[Ea Fa]|[[Ea Fa]|[[Ea Fa]|[Ea Fa]]]];
  destruct (fval_cases b) as [[Eb Fb]|[[Eb Fb]|[[Eb Fb]|[Eb Fb]]]]; try congruence.
  assert (SF : forall c : flt f, is_finite c = true -> B2R c <> 0 -> is_finite_strict c = true).
  { intros c Fc Nc. destruct c; simpl in *; try discriminate; auto; lra. }
  assert (B2R a = B2R b) by congruence. assert (B2R a <> 0) by congruence.
  apply B2R_inj; auto; apply SF; auto; congruence.
Qed.
(** Converting a representable number gives the same float in every mode. *)
Lemma fconv_mode (f g : fmt) m m' (x : flt f) (t : flt g) :
  fval x = fval t -> fconv f g m x = fconv f g m' x.
Proof.
  intros E. destruct x as [s|s| |s mx e B]; auto.
  apply fval_inj_nz.
  - rewrite !(fconv_exact f g _ _ t E); auto.
  - rewrite (fconv_exact f g _ _ t E), <- E. simpl. intros [= K].
    revert K. apply F2R_neq_0. destruct s; simpl; lia.
Qed.
Lemma neg_pure (a : T N) : exists t : T N, fval t = xopp (fval a) /\ pureM (neg a) t.
Proof.
  exists (st RNE (fopp (ld a))). split; [apply neg_val|]. intros s.
  unfold neg, e_opp, e_store, under_mode, bind. cbn. do 2 f_equal.
  apply (fconv_mode _ _ _ _ _ (fopp a)). rewrite !fval_opp. f_equal. apply fval_ld.
Qed.


(** Small integers are exact in every mode. *)
Lemma IZR_format f z : (Z.abs z <= 2 ^ prec f)%Z -> generic_format radix2 (fexpf f) (IZR z).
Proof.
  intros Hz. pose proof (fmt_prec_gt_0 f) as P0. pose proof (fmt_prec_lt_emax f) as PE.
  assert (D : (Z.abs z < 2 ^ prec f \/ Z.abs z = 2 ^ prec f)%Z) by lia. destruct D as [D|D].
  - apply generic_format_FLT. exists (Float radix2 z 0); unfold F2R; simpl; try lra; auto.
    unfold SpecFloat.emin. lia.
  - assert (B : generic_format radix2 (fexpf f) (bpow radix2 (prec f))).
    { apply generic_format_bpow. unfold SpecFloat.fexp, SpecFloat.emin. lia. }
    assert (E : bpow radix2 (prec f) = IZR (Z.abs z)).
    { rewrite D. rewrite <- IZR_Zpower by lia. reflexivity. }
    rewrite E, abs_IZR in B. unfold Rabs in B. destruct Rcase_abs; auto.
    rewrite <- (Ropp_involutive (IZR z)). apply generic_format_opp; auto.
Qed.
Lemma f_of_Z_exact f m z : (Z.abs z <= 2 ^ prec f)%Z -> fval (f_of_Z f m z) = Fin (IZR z).
Proof.
  intros Hz. pose proof (f_of_Z_rounds (f := f) m z) as K. unfold rounds in K.
  rewrite round_generic in K; [|apply valid_rnd_round_mode|apply IZR_format; auto].
  rewrite Rlt_bool_true in K.
  - destruct K as [F E]. rewrite fval_finite, E; auto.
  - rewrite <- abs_IZR. eapply Rle_lt_trans; [apply IZR_le, Hz|].
    pose proof (fmt_prec_gt_0 f). pose proof (fmt_prec_lt_emax f).
    change 2%Z with (radix_val radix2). rewrite IZR_Zpower by lia. apply bpow_lt; auto.
Qed.
Lemma pow_prec_ge f : (2 <= 2 ^ prec f)%Z.
Proof.
  change 2%Z with (2 ^ 1)%Z at 1. apply Z.pow_le_mono_r; try lia. pose proof (fmt_prec_gt_0 f). lia.
Qed.

Lemma fnumspec : numspec N fval.
Proof.
  pose proof (pow_prec_ge (p_T p)) as P2.
  split.
  - apply Bltb_fval.
  - apply Bleb_fval.
  - apply Beqb_fval.
  - apply f_of_Z_exact. lia.
  - apply f_of_Z_exact. lia.
  - apply f_of_Z_exact. lia.
  - apply neg_pure.
  - intros a b. exists (fopp (ld a)). split; [intros s; reflexivity|].
    change (Bltb (ld b) (fopp (ld a)) = true <-> xlt (fval b) (xopp (fval a))).
    rewrite Bltb_fval, fval_opp, !fval_ld. tauto.
Qed.

(** ** Directed arithmetic *)
Lemma ready_up k s : s = RUP -> fready k s.
Proof. destruct k; simpl; auto. Qed.

(** Rounding upwards and negating, as rounded_arith_opp does. *)
Lemma runs_dn_std (e : M XX) (x : XX) r : (forall s, s = RDN -> e s = (Ok x, s)) -> rd r x ->
  exists t : TT, rd r t /\ runsI (fready Std) (rc_down (control_hw N) ;;; let! t := (e : M (X N)) in rc_force (control_hw N) t) t.
Proof.
  intros He Hr. exists (st RDN x). split; [apply (st_dr Dn); auto|].
  intros s _. exists RDN. split; [simpl; auto|]. unfold bind. simpl. rewrite He by auto. reflexivity.
Qed.
Lemma runs_up_std (e : M XX) (x : XX) r : (forall s, s = RUP -> e s = (Ok x, s)) -> ru r x ->
  exists t : TT, ru r t /\ runsI (fready Std) (rc_up (control_hw N) ;;; let! t := (e : M (X N)) in rc_force (control_hw N) t) t.
Proof.
  intros He Hr. exists (st RUP x). split; [apply (st_dr Up); auto|].
  intros s _. exists RUP. split; [simpl; auto|]. unfold bind. simpl. rewrite He by auto. reflexivity.
Qed.
Lemma runs_up_opp (e : M XX) (x : XX) r : (forall s, s = RUP -> e s = (Ok x, s)) -> ru r x ->
  exists t : TT, ru r t /\ runsI (fready Opp) (let! t := (e : M (X N)) in rc_force (control_hw N) t) t.
Proof.
  intros He Hr. exists (st RUP x). split; [apply (st_dr Up); auto|].
  intros s Hs. exists RUP. split; [simpl; auto|]. unfold bind. rewrite He, Hs by auto. reflexivity.
Qed.
Lemma runs_upneg_opp (e : M XX) (x : XX) r : (forall s, s = RUP -> e s = (Ok x, s)) -> ru (xopp r) x ->
  exists t : TT, rd r t /\ runsI (fready Opp) (let! t := (e : M (X N)) in let! r := rc_force (control_hw N) t in neg r) t.
Proof.
  intros He Hr. destruct (neg_pure (st RUP x)) as (t & Et & Nt).
  exists t. split.
  - pose proof (rd_opp r _ (st_dr Up _ _ Hr)) as K. unfold rd in *. rewrite fval_opp in K. rewrite Et. exact K.
  - intros s Hs. exists RUP. split; [simpl; auto|]. unfold bind. rewrite He, Hs by auto.
    exact (Nt RUP).
Qed.
Lemma runs_dn_opp (e : M XX) (x : XX) r : (forall s, s = RDN -> e s = (Ok x, s)) -> rd r x ->
  exists t : TT, rd r t /\ runsI (fready Opp) (rc_down (control_hw N) ;;; let! t := (e : M (X N)) in
     let! r := rc_force (control_hw N) t in rc_up (control_hw N) ;;; ret r) t.
Proof.
  intros He Hr. exists (st RDN x). split; [apply (st_dr Dn); auto|].
  intros s _. exists RUP. split; [simpl; auto|]. unfold bind. simpl. rewrite He by auto. reflexivity.
Qed.

Lemma xopp_add a b : xsub (xopp a) b = xopp (xadd a b).
Proof. destruct a, b; simpl; auto; f_equal; lra. Qed.
Lemma xopp_sub a b : xsub b a = xopp (xsub a b).
Proof. destruct a, b; simpl; auto; f_equal; lra. Qed.
Lemma xopp_mul a b : xmul a (xopp b) = xopp (xmul a b).
Proof.
  destruct a, b; simpl; auto; try (f_equal; lra);
    repeat destruct Rlt_dec; simpl; auto; lra.
Qed.
Lemma xopp_div a b : xdiv a (xopp b) = xopp (xdiv a b).
Proof.
  destruct a, b; simpl; auto; try (f_equal; lra);
    repeat destruct Rlt_dec; repeat destruct Req_EM_T; simpl; auto; try lra; f_equal; try lra.
  field; lra.
Qed.

Lemma x2_dr (op : rmode -> XX -> XX -> XX) (xop : ext -> ext -> ext) :
  (forall d (x y : XX), xop (fval x) (fval y) <> NaN -> dr d (xop (fval x) (fval y)) (op (dmode d) x y)) ->
  forall d (a b : TT), xop (fval a) (fval b) <> NaN ->
  dr d (xop (fval a) (fval b)) (op (dmode d) (ld a) (ld b)).
Proof. intros K d a b Hn. rewrite <- (fval_ld a), <- (fval_ld b) in *. apply K; auto. Qed.

Lemma farspec k : arspec (N := N) fval (fready k) (farith p k).
Proof.
  destruct k.
  - split.
    + intros s. exists s. split; simpl; auto.
    + intros a b Hn. eapply runs_dn_std; [intros s ->; reflexivity|]. apply (x2_dr _ _ (fun d => fadd_dr d) Dn); auto.
    + intros a b Hn. eapply runs_up_std; [intros s ->; reflexivity|]. apply (x2_dr _ _ (fun d => fadd_dr d) Up); auto.
    + intros a b Hn. eapply runs_dn_std; [intros s ->; reflexivity|]. apply (x2_dr _ _ (fun d => fsub_dr d) Dn); auto.
    + intros a b Hn. eapply runs_up_std; [intros s ->; reflexivity|]. apply (x2_dr _ _ (fun d => fsub_dr d) Up); auto.
    + intros a b Hn. eapply runs_dn_std; [intros s ->; reflexivity|]. apply (x2_dr _ _ (fun d => fmul_dr d) Dn); auto.
    + intros a b Hn. eapply runs_up_std; [intros s ->; reflexivity|]. apply (x2_dr _ _ (fun d => fmul_dr d) Up); auto.
    + intros a b Hn. eapply runs_dn_std; [intros s ->; reflexivity|]. apply (x2_dr _ _ (fun d => fdiv_dr d) Dn); auto.
    + intros a b Hn. eapply runs_up_std; [intros s ->; reflexivity|]. apply (x2_dr _ _ (fun d => fdiv_dr d) Up); auto.
  - assert (NO : forall e, xopp e <> NaN <-> e <> NaN) by (intros []; simpl; split; congruence).
    split.
    + intros s. exists RUP. split; simpl; auto.
    + intros a b Hn. eapply runs_upneg_opp; [intros s ->; reflexivity|].
      rewrite <- xopp_add in *. rewrite <- NO, <- xopp_add in Hn.
      rewrite <- (fval_ld a), <- (fval_ld b), <- fval_opp in *. apply (fsub_dr Up); auto.
    + intros a b Hn. eapply runs_up_opp; [intros s ->; reflexivity|]. apply (x2_dr _ _ (fun d => fadd_dr d) Up); auto.
    + intros a b Hn. eapply runs_upneg_opp; [intros s ->; reflexivity|].
      rewrite <- NO, <- xopp_sub in Hn. rewrite <- xopp_sub. apply (x2_dr _ _ (fun d => fsub_dr d) Up); auto.
    + intros a b Hn. eapply runs_up_opp; [intros s ->; reflexivity|]. apply (x2_dr _ _ (fun d => fsub_dr d) Up); auto.
    + intros a b Hn. eapply runs_upneg_opp; [intros s ->; reflexivity|].
      rewrite <- NO, <- xopp_mul in Hn. rewrite <- xopp_mul.
      rewrite <- (fval_ld a), <- (fval_ld b), <- fval_opp in *. apply (fmul_dr Up); auto.
    + intros a b Hn. eapply runs_up_opp; [intros s ->; reflexivity|]. apply (x2_dr _ _ (fun d => fmul_dr d) Up); auto.
    + intros a b Hn. eapply runs_upneg_opp; [intros s ->; reflexivity|].
      rewrite <- NO, <- xopp_div in Hn. rewrite <- xopp_div.
      rewrite <- (fval_ld a), <- (fval_ld b), <- fval_opp in *. apply (fdiv_dr Up); auto.
    + intros a b Hn. eapply runs_up_opp; [intros s ->; reflexivity|]. apply (x2_dr _ _ (fun d => fdiv_dr d) Up); auto.
Qed.
Lemma fsqrtspec k : sqrtspec (N := N) fval (fready k) (farith p k).
Proof.
  assert (K : forall d (a : TT), xsqrt (fval a) <> NaN -> dr d (xsqrt (fval a)) (fsqrt (dmode d) (ld a))).
  { intros d a Hn. rewrite <- (fval_ld a) in *. apply fsqrt_dr; auto. }
  destruct k; split; intros a Hn.
  - eapply runs_dn_std; [intros s ->; reflexivity|]. apply (K Dn); auto.
  - eapply runs_up_std; [intros s ->; reflexivity|]. apply (K Up); auto.
  - eapply runs_dn_opp; [intros s ->; reflexivity|]. apply (K Dn); auto.
  - eapply runs_up_opp; [intros s ->; reflexivity|]. apply (K Up); auto.
Qed.

(** ** Checking policies *)
Lemma n_ne_self (a : T N) : fval a <> NaN -> n_ne a a = false.
Proof.
  intros Ha. unfold n_ne. change (negb (Beqb (a : TT) a) = false). rewrite (proj2 (Beqb_fval a a)); auto.
Qed.
Lemma assert_true debug : pureM (assert_ debug true) tt.
Proof. destruct debug; intros s; reflexivity. Qed.

Lemma base_neg_inf debug : exists t : T N, fval t = NInf /\ pureM (ck_neg_inf (checking_base N debug)) t.
Proof.
  destruct (neg_pure (B754_infinity false : TT)) as (t & Et & Nt). exists t. split; auto.
  eapply pureM_bind; [apply assert_true|]. apply Nt.
Qed.
Lemma fckspec debug c : ckspec (N := N) fval (fchecking p debug c).
Proof.
  assert (PI : exists t : T N, fval t = PInf /\ pureM (ck_pos_inf (checking_base N debug)) t).
  { exists (B754_infinity false). split; auto. eapply pureM_bind; [apply assert_true|]. apply pureM_ret. }
  assert (NI := base_neg_inf debug).
  assert (IN : forall a : T N, fval a <> NaN -> pureM (ck_is_nan (checking_base N debug) a) false).
  { intros a Ha s. simpl. unfold ret. rewrite n_ne_self; auto. }
  assert (IE : forall l u : T N, xle (fval l) (fval u) -> ck_is_empty (checking_base N debug) l u = false).
  { intros l u K. change (negb (Bleb (l : TT) u) = false). rewrite (proj2 (Bleb_fval l u)); auto. }
  assert (EA : empty_action (N := N) fval (checking_base N debug) (Ok (mk (B754_nan : T N) (B754_nan : T N)))).
  { apply EA_ret; try (intros s; reflexivity); try reflexivity. simpl. tauto. }
  assert (CN : forall C e, (forall a : T N, fval a <> NaN -> pureM (ck_is_nan C a) false) ->
     forall a : T N, fval a <> NaN -> pureM (ck_is_nan (checking_catch_nan N e C) a) false).
  { intros C e HC a Ha. eapply pureM_bind; [apply HC; auto|]. apply pureM_ret. }
  destruct c; (split; [intros _; exact PI|intros _; exact NI| | | ]).
  - exact IN.
  - exact IE.
  - eexists; exact EA.
  - intros; apply pureM_ret.
  - exact IE.
  - inversion EA; subst. eexists. apply EA_ret; eauto.
  - apply CN, IN.
  - exact IE.
  - inversion EA; subst. eexists. apply EA_ret; eauto.
  - exact IN.
  - reflexivity.
  - eexists. eapply EA_throw; intros s; reflexivity.
  - intros; apply pureM_ret.
  - reflexivity.
  - eexists. eapply EA_throw; intros s; reflexivity.
  - apply CN. exact IN.
  - reflexivity.
  - eexists. eapply EA_throw; intros s; reflexivity.
Qed.

Theorem fpolspec pr k debug c ord : polspec (N := N) fval (fpol p pr k debug c ord) (fready k).
Proof.
  split.
  - apply fnumspec.
  - apply farspec.
  - apply fckspec.
  - intros _ s. exists s. split; auto.
Qed.
End Pol.

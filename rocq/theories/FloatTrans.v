(** * The transcendental functions of the floating-point policies *)

From Coq Require Import Reals ZArith Lra Lia Bool.
From Flocq Require Import Core BinarySingleNaN.
From Verif Require Import Outcome Base Checking Interval Utility Arith Arith2 FloatNum Spec ExtR Sem FloatSpec FloatPol
  FloatInt CoreArith CoreDiv CoreMore CoreUtil CoreFmod Transc SpecTransc TransReal CoreTransc CoreTrig.
Local Open Scope R_scope.

(** The two rounding classes with transcendental functions. *)
Definition ftransc (p : platform) (k : rkind) (L : libm (fnum p)) : transc (fnum p) :=
  match k with Std => transc_std (control_hw (fnum p)) L | Opp => transc_opp (control_hw (fnum p)) L end.

Section Lib.
Context (p : platform) (L : libm (fnum p)) (HL : lib_ok L).
Notation N := (fnum p).
Notation TT := (flt (p_T p)).
Notation XX := (flt (p_X p)).
Notation st m := (fconv (p_X p) (p_T p) m).

Lemma lib_down f (x : T N) v : xgraph f (fval x) v -> xle (fval (st RDN (L f RDN x) : TT)) v.
Proof.
  intros G. destruct (HL f x v G) as [A _].
  refine (xle_trans _ _ _ _ A). apply (fconv_dr _ _ Dn). exact (xle_nnl _ _ A).
Qed.
Lemma lib_up f (x : T N) v : xgraph f (fval x) v -> xle v (fval (st RUP (L f RUP x) : TT)).
Proof.
  intros G. destruct (HL f x v G) as [_ A].
  refine (xle_trans _ _ _ A _). apply (fconv_dr _ _ Up). exact (xle_nnr _ _ A).
Qed.
Lemma ftransc_down k f : (k = Opp -> switches f = true) ->
  down_ok (N := N) (val := fval) (ready := fready k) (R := ftransc p k L) f.
Proof.
  intros Hs x e G. exists (st RDN (L f RDN x) : T N). split; [apply lib_down; auto|].
  destruct k; intros s Hr; cbn [ftransc transc_std transc_opp tr_down].
  - exists RDN. split; [exact Logic.I|reflexivity].
  - rewrite (Hs eq_refl). exists RUP. split; [reflexivity|reflexivity].
Qed.
Lemma ftransc_up k f : up_ok (N := N) (val := fval) (ready := fready k) (R := ftransc p k L) f.
Proof.
  intros x e G. exists (st RUP (L f RUP x) : T N). split; [apply lib_up; auto|].
  destruct k; intros s Hr; cbn [ftransc transc_std transc_opp tr_up].
  - exists RUP. split; [exact Logic.I|reflexivity].
  - simpl in Hr. subst s. exists RUP. split; [reflexivity|reflexivity].
Qed.
End Lib.

Lemma mone_val p : fval (f := p_T p) (n_cst (fnum p) (-1)) = Fin (-1).
Proof. apply (f_of_Z_exact (p_T p)). pose proof (pow_prec_ge (p_T p)). lia. Qed.

(** int_down of the rounded quotient is the floor of the quotient, or large. *)
Definition q_prec (p : platform) : Z := Z.min (prec (p_T p)) (prec (p_R p)).
Lemma largest_pos f : 0 < largest f.
Proof.
  unfold largest. pose proof (bpow_lt radix2 (emax f - prec f) (emax f)). pose proof (fmt_prec_gt_0 f).
  specialize (H ltac:(lia)). lra.
Qed.
Lemma quot_both p pr k debug c ord (a : T (fnum p)) l yb : rint_ok p -> fval a = Fin l -> 1 <= yb ->
  - largest (p_R p) <= l / yb ->
  int_hyp (N := fnum p) (val := fval) (P := fpol p pr k debug c ord) (ready := fready k) l yb
    (fun n => (- IZR (2 ^ q_prec p) <= l / yb < IZR (2 ^ q_prec p) -> n = Zfloor (l / yb)) /\
      good_quot (Kb := IZR (2 ^ q_prec p)) l yb n).
Proof.
  intros W Ea Y Near t Dt.
  assert (Pyb : 0 < yb) by lra.
  assert (Bl : Rabs (l / yb) <= largest (p_T p)).
  { pose proof (fin_le_largest _ _ _ Ea) as B. unfold Rdiv. rewrite Rabs_mult.
    assert (0 < / yb <= 1). { split; [apply Rinv_0_lt_compat; auto|]. rewrite <- Rinv_1. apply Rinv_le; lra. }
    rewrite (Rabs_pos_eq (/ yb)) by lra. pose proof (Rabs_pos l). 
    apply Rle_trans with (Rabs l * 1); [apply Rmult_le_compat_l; lra|lra]. }
  apply Rabs_le_inv in Bl.
  destruct (dr_finite (p_T p) Dn (l / yb) t Dt (proj1 Bl)) as (q & Eq).
  assert (Lq : q <= l / yb) by (destruct Dt as [D _]; rewrite Eq in D; exact D).
  assert (LQ : - largest (p_R p) <= q).
  { destruct W as [S|S].
    - rewrite <- (fconv_widen _ _ RNE t S) in Eq. pose proof (fin_le_largest _ _ _ Eq) as K. apply Rabs_le_inv in K. lra.
    - destruct (has_largest (p_R p) true) as (w & Ew). destruct Dt as [_ D].
      specialize (D (fconv (p_R p) (p_T p) RNE w)). rewrite (fconv_widen _ _ RNE w S), Ew, Eq in D. apply D. exact Near. }
  destruct (int_down_ok p k t q W Eq LQ) as (tn & n & En & Ln & Pn & Fn & Rn & Zn).
  exists tn, n. split; auto. split; auto. split; [lra|]. clear Fn.
  pose proof (pow_prec_ge (p_T p)) as PT. pose proof (pow_prec_ge (p_R p)) as PR.
  assert (QT : (2 ^ q_prec p <= 2 ^ prec (p_T p))%Z).
  { unfold q_prec. pose proof (fmt_prec_gt_0 (p_T p)). pose proof (fmt_prec_gt_0 (p_R p)). apply Z.pow_le_mono_r; lia. }
  assert (QR : (2 ^ q_prec p <= 2 ^ prec (p_R p))%Z).
  { unfold q_prec. pose proof (fmt_prec_gt_0 (p_T p)). pose proof (fmt_prec_gt_0 (p_R p)). apply Z.pow_le_mono_r; lia. }
  assert (Q0 : (0 <= 2 ^ q_prec p)%Z) by (apply Z.pow_nonneg; lia).
  assert (Rep : forall z, (Z.abs z <= 2 ^ q_prec p)%Z -> IZR z <= l / yb -> IZR z <= q /\ (z <= n)%Z).
  { intros z Hz Lz. assert (IZR z <= q); [|split; auto; apply Zn; auto; lia].
    destruct Dt as [_ D]. specialize (D (f_of_Z (p_T p) RNE z)).
    change (fval t) with (fval (f := p_T p) t) in D.
    rewrite Eq in D. change (fval (f_of_Z (p_T p) RNE z)) with (fval (f := p_T p) (f_of_Z (p_T p) RNE z)) in D.
    rewrite f_of_Z_exact in D by lia. apply D. exact Lz. }
  split.
  - intros Pl. apply Pn. apply (Rep 0%Z); [cbn; lia|].
    apply Rmult_le_pos; [exact Pl|]. left. apply Rinv_0_lt_compat. auto.
  - assert (Flo : - IZR (2 ^ q_prec p) <= l / yb < IZR (2 ^ q_prec p) -> n = Zfloor (l / yb)).
    2:{ split; [exact Flo|]. unfold good_quot.
    destruct (Rle_or_lt (IZR (2 ^ q_prec p)) (l / yb)) as [B|B].
    { right. rewrite <- abs_IZR. apply IZR_le. assert (2 ^ q_prec p <= n)%Z; [|lia].
      apply Rep; [lia|exact B]. }
    destruct (Rle_or_lt (- IZR (2 ^ q_prec p)) (l / yb)) as [B'|B'].
    2:{ right. rewrite <- abs_IZR. apply IZR_le. assert (n <= - 2 ^ q_prec p)%Z; [|lia].
        apply le_IZR. rewrite opp_IZR. lra. }
    left. auto. }
    intros [B' B].
    assert (B1 : (- 2 ^ q_prec p <= Zfloor (l / yb))%Z) by (apply Zfloor_lub; rewrite opp_IZR; lra).
    assert (B2 : (Zfloor (l / yb) <= 2 ^ q_prec p)%Z) by (apply le_IZR; pose proof (Zfloor_lb (l / yb)); lra).
    apply Z.le_antisymm.
    + apply Zfloor_lub. lra.
    + apply Rep; [lia|apply Zfloor_lb].
Qed.
Lemma quot_ok p pr k debug c ord (a : T (fnum p)) l yb : rint_ok p -> fval a = Fin l -> 1 <= yb ->
  - largest (p_R p) <= l / yb ->
  int_hyp (N := fnum p) (val := fval) (P := fpol p pr k debug c ord) (ready := fready k) l yb
    (good_quot (Kb := IZR (2 ^ q_prec p)) l yb).
Proof.
  intros W E Y L t D. destruct (quot_both p pr k debug c ord a l yb W E Y L t D) as (tn & n & A & B & C & D' & _ & G).
  exists tn, n. auto.
Qed.

(** ** Arguments unbounded below *)
Lemma fval_NInf f (t : flt f) : fval t = NInf -> t = B754_infinity true.
Proof. destruct (fval_cases t) as [[E F]|[[E F]|[[E F]|[E F]]]]; congruence. Qed.
Lemma fval_PInf f (t : flt f) : fval t = PInf -> t = B754_infinity false.
Proof. destruct (fval_cases t) as [[E F]|[[E F]|[[E F]|[E F]]]]; congruence. Qed.
Lemma fval_NaN f (t : flt f) : fval t = NaN -> t = B754_nan.
Proof. destruct (fval_cases t) as [[E F]|[[E F]|[[E F]|[E F]]]]; congruence. Qed.

Section NoLower.
Context (p : platform) (k : rkind) (debug : bool) (c : ckind) (ord : site -> bool) (Q : policy (fnum p)).
Notation N := (fnum p).
Notation TT := (flt (p_T p)).
Hypothesis HQ : p_prot Q <> Save /\ p_ar Q = farith p k /\ p_ck Q = fchecking p debug c.
Hypothesis spec : polspec (N := N) fval Q (fready k).

Lemma rnd_id {A} (b : M A) : with_rnd Q b = b.
Proof. unfold with_rnd. destruct HQ as (A1 & _). destruct (p_prot Q); [congruence|reflexivity|reflexivity]. Qed.
Lemma rnd_id_u {A} (b : M A) : with_rnd (unprotect Q) b = b.
Proof. unfold with_rnd. cbn. destruct HQ as (A1 & _). destruct (p_prot Q); [congruence|reflexivity|reflexivity]. Qed.
Lemma rd_NInf (t : T N) : RD (N := N) fval NInf t -> fval t = NInf.
Proof. intros [A _]. destruct (fval t); cbn [xle] in A; tauto. Qed.
Lemma ru_PInf (t : T N) : RU (N := N) fval PInf t -> fval t = PInf.
Proof. intros [A _]. destruct (fval t); cbn [xle] in A; tauto. Qed.
Lemma ru_NInf (t : T N) : RU (N := N) fval NInf t -> fval t = NInf.
Proof.
  intros [_ A]. specialize (A (B754_infinity true : TT) Logic.I).
  change (fval (B754_infinity true : TT)) with NInf in A. destruct (fval t); cbn [xle] in A; tauto.
Qed.
Lemma int_NInf : runsI (fready k) (int_down (farith p k) (B754_infinity true : TT)) (B754_infinity true : TT).
Proof.
  destruct k; intros s Hs.
  - exists RDN. split; [exact Logic.I|reflexivity].
  - simpl in Hs. subst s. exists RUP. split; reflexivity.
Qed.
Lemma sub_NInf : runsI (fready k) (sub_down (farith p k) (B754_infinity true : TT) (B754_infinity true : TT)) (B754_nan : TT).
Proof.
  destruct k; intros s Hs.
  - exists RDN. split; [exact Logic.I|reflexivity].
  - simpl in Hs. subst s. exists RUP. split; reflexivity.
Qed.
Lemma sub_PInf_NaN : runsI (fready k) (sub_up (farith p k) (B754_infinity false : TT) (B754_nan : TT)) (B754_nan : TT).
Proof.
  destruct k; intros s Hs.
  - exists RUP. split; [exact Logic.I|reflexivity].
  - simpl in Hs. subst s. exists RUP. split; reflexivity.
Qed.

Lemma no_lower_ok (x y : itv N) a b : fvalid x -> fval (low x) = NInf ->
  fval (low y) = Fin a -> fval (up y) = Fin b -> 0 < a -> a <= b ->
  exists z : itv N, runsI (fready k) (fmod Q x y) z /\ fval (low z) = NaN /\ fval (up z) = PInf /\
    exists w : T N, runsI (fready k) (width Q z) w /\ ~ xle (Fin 1) (fval w).
Proof.
  intros Hx El Ea Eb Pa Hab. destruct HQ as (A1 & A2 & A3).
  assert (Hy : fvalid y) by (apply (finite_valid (N := N) y a b); [exact Ea|exact Eb|lra]).
  pose proof (polspec_unprotect _ _ _ spec) as specU.
  assert (Rl : is_neg (low x) = true) by (apply (is_neg_iff spec); rewrite El; exact Logic.I).
  destruct (as_div_down _ _ _ (ps_ar _ _ _ spec) (low x) (low y)) as (q & Dq & Rq).
  { change (xdiv (fval (low x)) (fval (low y)) <> NaN). rewrite El, Ea. simpl. destruct Rlt_dec; [discriminate|lra]. }
  change (RD (N := N) fval (xdiv (fval (low x)) (fval (low y))) q) in Dq. rewrite El, Ea in Dq. simpl in Dq. destruct Rlt_dec as [_|K] in Dq; [|lra].
  apply rd_NInf, fval_NInf in Dq. subst q.
  set (ni := B754_infinity true : T N).
  assert (Eni : fval ni = NInf) by reflexivity.
  destruct (as_mul_down _ _ _ (ps_ar _ _ _ spec) ni (up y)) as (m1 & D1 & R1).
  { change (xmul (fval ni) (fval (up y)) <> NaN). rewrite Eni, Eb. simpl. destruct Rlt_dec; [discriminate|lra]. }
  change (RD (N := N) fval (xmul (fval ni) (fval (up y))) m1) in D1. rewrite Eni, Eb in D1. simpl in D1. destruct Rlt_dec as [_|K] in D1; [|lra].
  apply rd_NInf, fval_NInf in D1.
  destruct (as_mul_up _ _ _ (ps_ar _ _ _ spec) ni (low y)) as (m2 & D2 & R2).
  { change (xmul (fval ni) (fval (low y)) <> NaN). rewrite Eni, Ea. simpl. destruct Rlt_dec; [discriminate|lra]. }
  change (RU (N := N) fval (xmul (fval ni) (fval (low y))) m2) in D2. rewrite Eni, Ea in D2. simpl in D2. destruct Rlt_dec as [_|K] in D2; [|lra].
  apply ru_NInf, fval_NInf in D2. subst m1 m2.
  destruct (as_sub_up _ _ _ (ps_ar _ _ _ spec) (up x) ni) as (u & Du & Ru).
  { change (xsub (fval (up x)) (fval ni) <> NaN). rewrite Eni. destruct Hx as (Q1 & _ & Q3). rewrite El in Q1. destruct (fval (up x)); cbn in *; try discriminate; tauto. }
  change (RU (N := N) fval (xsub (fval (up x)) (fval ni)) u) in Du.
  assert (Eu : xsub (fval (up x)) (fval ni) = PInf).
  { rewrite Eni. destruct Hx as (Q1 & _ & Q3). rewrite El in Q1. change (fval (up x) <> NInf) in Q3. destruct (fval (up x)); cbn [xle xsub xadd xopp] in *; try tauto; congruence. }
  rewrite Eu in Du. apply ru_PInf, fval_PInf in Du. subst u.
  assert (Elx : low x = ni) by (apply fval_NInf; exact El).
  exists (mk (B754_nan : T N) (B754_infinity false : T N)). split; [|split; [reflexivity|split; [reflexivity|]]].
  - unfold fmod. rewrite (test_valid2 spec x y Hx Hy), rnd_id. cbv zeta. rewrite Rl.
    eapply runsI_bind; [exact Rq|]. cbv beta. rewrite A2. eapply runsI_bind; [exact int_NInf|]. cbv beta.
    eapply (runsI_bind _ _ _ (mk ni ni)).
    { unfold op_mul_ni. eapply runsI_bind; [apply pure_runsI; apply (test_ni specU); [discriminate|exact Hy]|]. cbv beta iota.
      rewrite rnd_id_u. cbv zeta. change (B754_infinity true) with ni. rewrite (proj2 (is_neg_iff spec ni)); [|rewrite Eni; exact Logic.I].
      apply runsI_mk_args; [exact R1|exact R2]. }
    cbv beta. eapply (runsI_bind _ _ _ (mk (B754_nan : T N) (B754_infinity false : T N))).
    { unfold op_sub, test_input_ii. rewrite (test_valid specU) by auto. cbn [orb].
      replace (test_input_i (unprotect Q) (mk ni ni)) with false.
      2:{ symmetry. apply (cs_empty _ _ (ps_ck _ _ _ specU)). exact Logic.I. }
      rewrite rnd_id_u. apply runsI_mk_args; cbn [low up]; [|exact Ru]. rewrite Elx.
      change (p_ar (unprotect Q)) with (p_ar Q). rewrite A2. exact sub_NInf. }
    cbv beta. apply pure_runsI. intros s. unfold ctor_back. destruct (p_prot Q); [congruence|reflexivity|reflexivity].
  - unfold width. destruct (test_input_i Q (mk (B754_nan : T N) (B754_infinity false : T N))).
    + exists zero. split; [runs|]. change (~ xle (Fin 1) (fval (zero : T N))). rewrite (val_zero spec). cbn [xle]. lra.
    + exists (B754_nan : T N). split; [|simpl; tauto]. rewrite rnd_id. cbn [low up]. rewrite A2. exact sub_PInf_NaN.
Qed.

(** Arguments far below: the number of periods is -inf. *)
Lemma rd_PInf (t : T N) : RD (N := N) fval PInf t -> fval t = PInf.
Proof.
  intros [_ A]. specialize (A (B754_infinity false : TT) Logic.I).
  change (fval (B754_infinity false : TT)) with PInf in A. destruct (fval t); cbn [xle] in A; tauto.
Qed.
Lemma sub_PInf : runsI (fready k) (sub_up (farith p k) (B754_infinity false : TT) (B754_infinity false : TT)) (B754_nan : TT) /\
  runsI (fready k) (sub_down (farith p k) (B754_infinity false : TT) (B754_infinity false : TT)) (B754_nan : TT).
Proof.
  destruct k; split; intros s Hs.
  - exists RUP. split; [exact Logic.I|reflexivity].
  - exists RDN. split; [exact Logic.I|reflexivity].
  - simpl in Hs. subst s. exists RUP. split; reflexivity.
  - simpl in Hs. subst s. exists RUP. split; reflexivity.
Qed.
Lemma sub_NaN : runsI (fready k) (sub_up (farith p k) (B754_nan : TT) (B754_nan : TT)) (B754_nan : TT).
Proof.
  destruct k; intros s Hs.
  - exists RUP. split; [exact Logic.I|reflexivity].
  - simpl in Hs. subst s. exists RUP. split; reflexivity.
Qed.
Lemma int_PInf : runsI (fready k) (int_down (farith p k) (B754_infinity false : TT)) (B754_infinity false : TT).
Proof.
  destruct k; intros s Hs.
  - exists RDN. split; [exact Logic.I|reflexivity].
  - simpl in Hs. subst s. exists RUP. split; reflexivity.
Qed.
Notation pinf := (B754_infinity false : T N).
Notation ninf := (B754_infinity true : T N).
Notation fnan := (B754_nan : T N).
Lemma inf_test : test_input_i Q (mk pinf pinf) = false.
Proof. apply (cs_empty _ _ (ps_ck _ _ _ spec)). exact Logic.I. Qed.
Lemma width_not_wide (z : itv N) : (fval (low z) = PInf /\ fval (up z) = PInf) \/ (fval (low z) = NaN /\ fval (up z) = NaN) ->
  exists w : T N, runsI (fready k) (width Q z) w /\ ~ xle (Fin 1) (fval w).
Proof.
  intros E. unfold width. destruct HQ as (A1 & A2 & A3). destruct (test_input_i Q z).
  - exists zero. split; [runs|]. change (~ xle (Fin 1) (fval (zero : T N))). rewrite (val_zero spec). cbn [xle]. lra.
  - exists fnan. split; [|simpl; tauto]. rewrite rnd_id, A2. destruct z as [zl zu]. cbn [low up] in *.
    destruct E as [[E1 E2]|[E1 E2]]; [apply fval_PInf in E1; apply fval_PInf in E2|apply fval_NaN in E1; apply fval_NaN in E2]; subst.
    + exact (proj1 sub_PInf).
    + exact sub_NaN.
Qed.
Lemma inf_sub (x y : itv N) a b : fval (low x) = PInf -> fval (up x) = PInf -> fval (low y) = Fin a -> fval (up y) = Fin b -> a <= b ->
  exists z : itv N, runsI (fready k) (op_sub Q x y) z /\ runsI (fready k) (local (m_sub Q (IVal y)) x) z /\
    fval (low z) = PInf /\ fval (up z) = PInf.
Proof.
  intros E1 E2 Ea Eb Hab. destruct HQ as (A1 & A2 & A3).
  assert (Hy : fvalid y) by (apply (finite_valid (N := N) y a b); [exact Ea|exact Eb|lra]).
  apply fval_PInf in E1. apply fval_PInf in E2. destruct x as [xl xu]. cbn [low up] in *. subst xl xu.
  destruct (as_sub_down _ _ _ (ps_ar _ _ _ spec) pinf (up y)) as (d & Dd & Rd).
  { change (xsub (fval pinf) (fval (up y)) <> NaN). rewrite Eb. discriminate. }
  destruct (as_sub_up _ _ _ (ps_ar _ _ _ spec) pinf (low y)) as (u & Du & Ru).
  { change (xsub (fval pinf) (fval (low y)) <> NaN). rewrite Ea. discriminate. }
  change (RD (N := N) fval (xsub (fval pinf) (fval (up y))) d) in Dd. change (RU (N := N) fval (xsub (fval pinf) (fval (low y))) u) in Du.
  rewrite Eb in Dd. rewrite Ea in Du. apply rd_PInf in Dd. apply ru_PInf in Du.
  assert (Tt : test_input_ii Q (mk pinf pinf) y = false).
  { unfold test_input_ii. rewrite inf_test, (test_valid spec y Hy). reflexivity. }
  exists (mk d u). split; [|split; [|split; [exact Dd|exact Du]]].
  - unfold op_sub. rewrite Tt, rnd_id. apply runsI_mk_args; [exact Rd|exact Ru].
  - assert (Rz : runsI (fready k) (mk_args (p_ord Q (H_arith, 73%Z)) (sub_down (p_ar Q) pinf (up y)) (sub_up (p_ar Q) pinf (low y))) (mk d u))
      by (apply runsI_mk_args; [exact Rd|exact Ru]).
    intros s Hs. destruct (Rz s Hs) as (s' & Hs' & E). exists s'. split; auto. rewrite <- E.
    unfold local, m_sub, obind, ocomp, m_set, obind, store_low, store_up, mk_args, with_rnd, ret.
    cbn [rdi rd]. rewrite Tt. cbn [low up].
    destruct (p_prot Q); [congruence| |]; unfold bind;
    destruct (args2 (p_ord Q (H_arith, 73%Z)) (sub_down (p_ar Q) pinf (up y)) (sub_up (p_ar Q) pinf (low y)) s) as [[[? ?]|?| | |] s1]; reflexivity.
Qed.
(** A fmod of a valid or infinite argument whose quotient is infinite. *)
Lemma fmod_inf (x y : itv N) a b (i : bool) (t : T N) (z : itv N) :
  test_input_i Q x = false -> test_input_i (unprotect Q) x = false ->
  fval (low y) = Fin a -> fval (up y) = Fin b -> 0 < a -> a <= b ->
  runsI (fready k) (div_down (p_ar Q) (low x) (if is_neg (low x) then low y else up y)) t ->
  runsI (fready k) (int_down (p_ar Q) t) (B754_infinity i : T N) ->
  runsI (fready k) (sub_down (p_ar Q) (low x) (B754_infinity i : T N)) (low z) ->
  runsI (fready k) (sub_up (p_ar Q) (up x) (B754_infinity i : T N)) (up z) ->
  runsI (fready k) (fmod Q x y) z.
Proof.
  intros T1 T2 Ea Eb Pa Hab Rt Ri Rd Ru. destruct HQ as (A1 & A2 & A3).
  assert (Hy : fvalid y) by (apply (finite_valid (N := N) y a b); [exact Ea|exact Eb|lra]).
  pose proof (polspec_unprotect _ _ _ spec) as specU.
  set (ni := B754_infinity i : T N) in *.
  assert (Eni : fval ni = if i then NInf else PInf) by (destruct i; reflexivity).
  assert (Mu : forall (w : T N) v, fval w = Fin v -> 0 < v -> xmul (fval ni) (fval w) = fval ni).
  { intros w v Ew Pv. rewrite Eni, Ew. destruct i; cbn [xmul]; destruct Rlt_dec; auto; lra. }
  assert (M1 : forall (w : T N) v, fval w = Fin v -> 0 < v -> runsI (fready k) (mul_down (p_ar Q) ni w) ni).
  { intros w v Ew Pv. destruct (as_mul_down _ _ _ (ps_ar _ _ _ spec) ni w) as (m1 & D1 & R1).
    { change (xmul (fval ni) (fval w) <> NaN). rewrite (Mu w v Ew Pv), Eni. destruct i; discriminate. }
    change (RD (N := N) fval (xmul (fval ni) (fval w)) m1) in D1. rewrite (Mu w v Ew Pv), Eni in D1. destruct i.
    - apply rd_NInf, fval_NInf in D1. subst m1. exact R1.
    - apply rd_PInf, fval_PInf in D1. subst m1. exact R1. }
  assert (M2 : forall (w : T N) v, fval w = Fin v -> 0 < v -> runsI (fready k) (mul_up (p_ar Q) ni w) ni).
  { intros w v Ew Pv. destruct (as_mul_up _ _ _ (ps_ar _ _ _ spec) ni w) as (m1 & D1 & R1).
    { change (xmul (fval ni) (fval w) <> NaN). rewrite (Mu w v Ew Pv), Eni. destruct i; discriminate. }
    change (RU (N := N) fval (xmul (fval ni) (fval w)) m1) in D1. rewrite (Mu w v Ew Pv), Eni in D1. destruct i.
    - apply ru_NInf, fval_NInf in D1. subst m1. exact R1.
    - apply ru_PInf, fval_PInf in D1. subst m1. exact R1. }
  unfold fmod, test_input_ii. rewrite T1, (test_valid spec y Hy). cbn [orb]. rewrite rnd_id. cbv zeta.
  eapply runsI_bind; [exact Rt|]. cbv beta. eapply runsI_bind; [exact Ri|]. cbv beta.
  eapply (runsI_bind _ _ _ (mk ni ni)).
  { unfold op_mul_ni. eapply runsI_bind; [apply pure_runsI; apply (test_ni specU); [destruct i; discriminate|exact Hy]|]. cbv beta iota.
    rewrite rnd_id_u. cbv zeta. destruct (is_neg ni) eqn:En.
    - apply runsI_mk_args; [apply (M1 _ b); auto; lra|apply (M2 _ a); auto; lra].
    - destruct (is_zero ni) eqn:Ez; [destruct i; discriminate Ez|].
      apply runsI_mk_args; [apply (M1 _ a); auto; lra|apply (M2 _ b); auto; lra]. }
  cbv beta. eapply (runsI_bind _ _ _ z).
  { unfold op_sub, test_input_ii. rewrite T2. cbn [orb].
    replace (test_input_i (unprotect Q) (mk ni ni)) with false.
    2:{ symmetry. apply (cs_empty _ _ (ps_ck _ _ _ specU)). destruct i; exact Logic.I. }
    rewrite rnd_id_u. destruct z as [zl zu]. apply runsI_mk_args; [exact Rd|exact Ru]. }
  cbv beta. apply pure_runsI. intros s. unfold ctor_back. destruct z. destruct (p_prot Q); [congruence|reflexivity|reflexivity].
Qed.
Lemma far_fmod (x y : itv N) a b l : fvalid x -> fval (low x) = Fin l -> fval (low y) = Fin a -> fval (up y) = Fin b -> 1 <= a -> a <= b ->
  l / (if Rlt_dec l 0 then a else b) < - largest (p_R p) ->
  exists z : itv N, runsI (fready k) (fmod Q x y) z /\ fval (low z) = PInf /\ fval (up z) = PInf /\
    exists w : T N, runsI (fready k) (width Q z) w /\ ~ xle (Fin 1) (fval w).
Proof.
  intros Hx El Ea Eb Pa Hab Far. destruct HQ as (A1 & A2 & A3).
  pose proof (polspec_unprotect _ _ _ spec) as specU.
  assert (Rn : forall c d, d <> 0 -> xdiv (Fin c) (Fin d) = Fin (c / d)) by (intros c0 d Hd; cbn [xdiv]; destruct Req_EM_T; [contradiction|reflexivity]).
  assert (Pk : fval (if is_neg (low x) then low y else up y) = Fin (if Rlt_dec l 0 then a else b)) by (apply (yb_pick spec); auto).
  set (yb := if Rlt_dec l 0 then a else b) in *.
  assert (Pyb : 1 <= yb) by (unfold yb; destruct (Rlt_dec l 0); lra).
  destruct (as_div_down _ _ _ (ps_ar _ _ _ spec) (low x) (if is_neg (low x) then low y else up y)) as (q & Dq & Rq).
  { change (xdiv (fval (low x)) (fval (if is_neg (low x) then low y else up y)) <> NaN). rewrite El, Pk, Rn by lra. discriminate. }
  change (RD (N := N) fval (xdiv (fval (low x)) (fval (if is_neg (low x) then low y else up y))) q) in Dq.
  rewrite El, Pk, Rn in Dq by lra.
  assert (Ri : runsI (fready k) (int_down (p_ar Q) q) ninf).
  { rewrite A2. destruct Dq as [Dq _]. destruct (fval q) as [| |q0|] eqn:Eq; cbn [xle] in Dq; try tauto.
    - apply fval_NInf in Eq. subst q. exact int_NInf.
    - apply (int_down_far p k q q0); auto. lra. }
  assert (S1 : forall (w : T N), fval w <> NaN -> fval w <> NInf -> exists (u : T N), runsI (fready k) (sub_up (p_ar Q) w ninf) u /\ fval u = PInf).
  { intros w N1 N2. destruct (as_sub_up _ _ _ (ps_ar _ _ _ spec) w ninf) as (u & Du & Ru).
    { change (xsub (fval w) NInf <> NaN). destruct (fval w); cbn; congruence. }
    change (RU (N := N) fval (xsub (fval w) NInf) u) in Du. exists u. split; auto.
    replace (xsub (fval w) NInf) with PInf in Du by (destruct (fval w); cbn; congruence). apply ru_PInf; auto. }
  assert (S2 : forall (w : T N), fval w <> NaN -> fval w <> NInf -> exists (u : T N), runsI (fready k) (sub_down (p_ar Q) w ninf) u /\ fval u = PInf).
  { intros w N1 N2. destruct (as_sub_down _ _ _ (ps_ar _ _ _ spec) w ninf) as (u & Du & Ru).
    { change (xsub (fval w) NInf <> NaN). destruct (fval w); cbn; congruence. }
    change (RD (N := N) fval (xsub (fval w) NInf) u) in Du. exists u. split; auto.
    replace (xsub (fval w) NInf) with PInf in Du by (destruct (fval w); cbn; congruence). apply rd_PInf; auto. }
  destruct (S2 (low x)) as (zl & Rl & Ezl); [rewrite El; discriminate|rewrite El; discriminate|].
  destruct Hx as (X1 & X2 & X3).
  destruct (S1 (up x)) as (zu & Ru & Ezu); [intros K; rewrite K in X1; exact (xle_NaN_r _ X1)|exact X3|].
  exists (mk zl zu). split; [|split; [exact Ezl|split; [exact Ezu|apply width_not_wide; left; split; auto]]].
  assert (Hx : fvalid x) by (repeat split; auto).
  apply (fmod_inf x y a b true q (mk zl zu)); cbn [low up]; auto; try lra.
  - apply (test_valid spec); auto.
  - apply (test_valid specU); auto.
Qed.
Lemma inf_fmod (x y : itv N) a b : fval (low x) = PInf -> fval (up x) = PInf -> fval (low y) = Fin a -> fval (up y) = Fin b -> 0 < a -> a <= b ->
  test_input_i Q x = false /\
  exists z : itv N, runsI (fready k) (fmod Q x y) z /\ fval (low z) = NaN /\ fval (up z) = NaN /\
    exists w : T N, runsI (fready k) (width Q z) w /\ ~ xle (Fin 1) (fval w).
Proof.
  intros E1 E2 Ea Eb Pa Hab. destruct HQ as (A1 & A2 & A3).
  apply fval_PInf in E1. apply fval_PInf in E2. destruct x as [xl xu]. cbn [low up] in *. subst xl xu.
  split; [exact inf_test|].
  exists (mk fnan fnan). split; [|split; [reflexivity|split; [reflexivity|apply width_not_wide; right; split; reflexivity]]].
  destruct (as_div_down _ _ _ (ps_ar _ _ _ spec) pinf (if is_neg pinf then low y else up y)) as (q & Dq & Rq).
  { change (xdiv PInf (fval (if is_neg pinf then low y else up y)) <> NaN). destruct (is_neg pinf); rewrite ?Ea, ?Eb; cbn [xdiv]; destruct Rlt_dec; try discriminate; lra. }
  change (RD (N := N) fval (xdiv PInf (fval (if is_neg pinf then low y else up y))) q) in Dq.
  assert (Eq : q = pinf).
  { apply fval_PInf, rd_PInf. revert Dq. destruct (is_neg pinf); rewrite ?Ea, ?Eb; cbn [xdiv]; destruct Rlt_dec; auto; lra. }
  subst q.
  apply (fmod_inf (mk pinf pinf) y a b false pinf (mk fnan fnan)); cbn [low up]; auto.
  - exact inf_test.
  - apply (cs_empty _ _ (ps_ck _ _ _ (polspec_unprotect _ _ _ spec))). exact Logic.I.
  - rewrite A2. exact int_PInf.
  - rewrite A2. exact (proj2 sub_PInf).
  - rewrite A2. exact (proj1 sub_PInf).
Qed.
End NoLower.

Lemma fno_lower p pr k debug c ord : no_lower (N := fnum p) (val := fval) (ready := fready k) (fpol p pr k debug c ord).
Proof.
  intros x y a b. apply (no_lower_ok p k debug c).
  - cbn. destruct pr; repeat split; discriminate.
  - apply polspec_unprotect, fpolspec.
Qed.
Lemma fno_lower_u p pr k debug c ord : no_lower (N := fnum p) (val := fval) (ready := fready k) (unprotect (fpol p pr k debug c ord)).
Proof.
  intros x y a b. apply (no_lower_ok p k debug c).
  - cbn. destruct pr; repeat split; discriminate.
  - apply polspec_unprotect, polspec_unprotect, fpolspec.
Qed.

Lemma ffar p pr k debug c ord :
  far_spec (N := fnum p) (val := fval) (ready := fready k) (Bf := - largest (p_R p)) (fpol p pr k debug c ord).
Proof.
  assert (A : p_prot (unprotect (fpol p pr k debug c ord)) <> Save /\ p_ar (unprotect (fpol p pr k debug c ord)) = farith p k /\
    p_ck (unprotect (fpol p pr k debug c ord)) = fchecking p debug c) by (cbn; destruct pr; repeat split; discriminate).
  assert (A' : p_prot (unprotect (unprotect (fpol p pr k debug c ord))) <> Save /\ p_ar (unprotect (unprotect (fpol p pr k debug c ord))) = farith p k /\
    p_ck (unprotect (unprotect (fpol p pr k debug c ord))) = fchecking p debug c) by (cbn; destruct pr; repeat split; discriminate).
  pose proof (polspec_unprotect _ _ _ (fpolspec p pr k debug c ord)) as S. pose proof (polspec_unprotect _ _ _ S) as S'.
  split.
  - intros x y a b l. apply (far_fmod p k debug c _ A S).
  - intros x y a b. apply (inf_sub p k debug c _ A S).
  - intros x y a b E1 E2 E3 E4 P0 L0. split.
    + exact (proj1 (inf_fmod p k debug c _ A S x y a b E1 E2 E3 E4 P0 L0)).
    + exact (proj2 (inf_fmod p k debug c _ A' S' x y a b E1 E2 E3 E4 P0 L0)).
Qed.
Lemma ffar_u p pr k debug c ord :
  far_spec (N := fnum p) (val := fval) (ready := fready k) (Bf := - largest (p_R p)) (unprotect (fpol p pr k debug c ord)).
Proof. exact (ffar p (p_prot (unprotect (fpol p pr k debug c ord))) k debug c ord). Qed.

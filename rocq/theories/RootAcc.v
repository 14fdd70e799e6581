(** * How accurate nth_root is *)

From Coq Require Import Reals ZArith Lra Lia Bool Psatz.
From Flocq Require Import Core BinarySingleNaN.
From Verif Require Import Outcome Base Checking Interval Utility Arith Arith2 FloatNum Spec ExtR Sem
  FloatSpec FloatPol FloatMed FloatInt CoreArith CoreDiv CoreMore CorePow CoreUtil CoreRoot CoreIso Inst NewtonProof ExprWidth.
Local Open Scope R_scope.

(** ** Real numbers *)
Lemma grow_bound a m : 0 <= a -> (1 + a) ^ m * (1 - INR m * a) <= 1.
Proof.
  intros Ha. induction m as [|m IH]; [simpl; lra|].
  rewrite <- tech_pow_Rmult, S_INR. pose proof (pos_INR m) as Pm. assert (1 <= (1 + a) ^ m) by (apply pow_R1_Rle; lra).
  apply Rle_trans with ((1 + a) ^ m * (1 - INR m * a)); [|exact IH].
  replace ((1 + a) * (1 + a) ^ m * (1 - (INR m + 1) * a)) with ((1 + a) ^ m * ((1 + a) * (1 - (INR m + 1) * a))) by ring.
  apply Rmult_le_compat_l; [lra|]. nra.
Qed.
Lemma bernoulli a m : 0 <= a <= 1 -> 1 - INR m * a <= (1 - a) ^ m.
Proof.
  intros Ha. induction m as [|m IH]; [simpl; lra|].
  rewrite <- tech_pow_Rmult, S_INR. pose proof (pos_INR m) as Pm.
  apply Rle_trans with ((1 - a) * (1 - INR m * a)); [nra|]. apply Rmult_le_compat_l; lra.
Qed.

Section Acc.
Context (p : platform) (pr : protection) (k : rkind) (debug : bool) (c : ckind) (ord : site -> bool).
Notation N := (fnum p).
Notation I := (itv N).
Notation F := (p_T p).
Notation Q := (fpol p pr k debug c ord).
Notation spec := (fpolspec p pr k debug c ord).
Notation ready := (fready k).
Notation fv := (@fval (p_T p)).
Notation e := (eps (p_T p)).

Lemma tiny_small : wide p -> e <= / 4 -> tiny F <= e / 16.
Proof.
  unfold wide. intros W He. unfold eps, tiny in *.
  assert (P3 : (3 <= prec F)%Z).
  { destruct (Z_lt_le_dec (prec F) 3) as [L|L]; auto. exfalso.
    assert (K : bpow radix2 (-1) <= bpow radix2 (1 - prec F)) by (apply bpow_le; lia). change (bpow radix2 (-1)) with (/ 2) in K. lra. }
  replace (SpecFloat.emin (prec F) (emax F)) with ((1 - prec F) + (2 - emax F))%Z by (unfold SpecFloat.emin; lia).
  rewrite bpow_plus. pose proof (bpow_gt_0 radix2 (1 - prec F)) as B.
  assert (K : bpow radix2 (2 - emax F) <= bpow radix2 (-4)) by (apply bpow_le; lia). change (bpow radix2 (-4)) with (/ 16) in K.
  unfold Rdiv. apply Rmult_le_compat_l; lra.
Qed.

(** ** Powers of numbers not below one: the lower bound *)
Section Low.
Context (W : wide p) (He : e <= / 4) (a th : R) (tf : T N) (Et : fv tf = Fin th) (Ha : 1 <= a).
(** Close to the power, or above the threshold. *)
Definition lo (x : T N) (m : nat) : Prop := exists q, fv x = Fin q /\ 1 <= q /\ (th <= q \/ a ^ m <= q * (1 + 2 * e) ^ (m - 1)).
Lemma lo_mul (x y : T N) m l : lo x m -> lo y l -> exists z, runsI ready (mul_down (p_ar Q) x y) z /\ lo z (m + l).
Proof.
  intros (q & Eq & Hq & Cq) (r & Er & Hr & Cr).
  assert (X : xmul (fv x) (fv y) <> NaN) by (rewrite Eq, Er; discriminate).
  destruct (as_mul_down _ _ _ (ps_ar _ _ _ spec) x y X) as (z & Dz & Rz). rewrite Eq, Er in Dz. simpl xmul in Dz.
  exists z. split; [exact Rz|]. pose proof (eps_pos F) as E0.
  assert (Up : forall (t : T N) v, fv t = Fin v -> v <= q * r -> xle (Fin v) (fv z)).
  { intros t v Ev L. destruct Dz as [_ D]. rewrite <- Ev. apply D. rewrite Ev. exact L. }
  assert (P1 : 1 <= q * r) by nra.
  pose proof (Up one 1 (ns_1 _ _ (fnumspec p)) P1) as Z1.
  assert (Zf : exists v, fv z = Fin v).
  { destruct Dz as [D _]. destruct (fv z) as [| |v|]; simpl in *; try tauto. eauto. }
  destruct Zf as (v & Ev). rewrite Ev in Z1, Up. simpl in Z1. exists v. split; [exact Ev|]. split; [exact Z1|].
  pose proof (Up x q Eq ltac:(nra)) as Zq. pose proof (Up y r Er ltac:(nra)) as Zr. simpl in Zq, Zr.
  destruct Cq as [Cq|Cq]; [left; lra|]. destruct Cr as [Cr|Cr]; [left; lra|].
  assert (G : forall i, 1 <= (1 + 2 * e) ^ i) by (intros i; apply pow_R1_Rle; lra).
  destruct m as [|m].
  { right. eapply Rle_trans; [exact Cr|]. simpl plus. apply Rmult_le_compat_r; [pose proof (G (l - 1)%nat); lra|exact Zr]. }
  destruct l as [|l].
  { right. rewrite Nat.add_0_r. eapply Rle_trans; [exact Cq|]. apply Rmult_le_compat_r; [pose proof (G (S m - 1)%nat); lra|exact Zq]. }
  destruct (Rle_or_lt (q * r) (largest F)) as [L|L].
  - right. destruct (RD_close p (q * r) z ltac:(lra) Dz) as (v' & Ev' & _ & C). rewrite Ev in Ev'. injection Ev' as <-.
    replace (S m + S l - 1)%nat with (S ((S m - 1) + (S l - 1))) by lia. rewrite <- tech_pow_Rmult, !pow_add.
    pose proof (G (S m - 1)%nat) as G1. pose proof (G (S l - 1)%nat) as G2.
    set (g := (1 + 2 * e) ^ (S m - 1)) in *. set (h := (1 + 2 * e) ^ (S l - 1)) in *.
    pose proof (tiny_small W He) as T0.
    assert (V : q * r <= v * (1 + 2 * e)).
    { set (s := q * r) in *. assert (V1 : (s - e * s - e / 16) * (1 + 2 * e) <= v * (1 + 2 * e)) by (apply Rmult_le_compat_r; lra).
      assert (V2 : 0 <= (s - 1) * (e * (1 - 2 * e))) by (apply Rmult_le_pos; [lra|apply Rmult_le_pos; lra]).
      assert (V3 : 0 <= e * (/ 4 - e)) by (apply Rmult_le_pos; lra). lra. }
    assert (0 <= a ^ S m) by (apply pow_le; lra). assert (0 <= a ^ S l) by (apply pow_le; lra).
    apply Rle_trans with ((q * g) * (r * h)); [apply Rmult_le_compat; auto|].
    replace (v * ((1 + 2 * e) * (g * h))) with ((v * (1 + 2 * e)) * (g * h)) by ring.
    replace (q * g * (r * h)) with (q * r * (g * h)) by ring. apply Rmult_le_compat_r; [nra|exact V].
  - left. pose proof (fin_le_largest F _ _ Et) as M. apply Rabs_le_inv in M.
    pose proof (Up tf th Et ltac:(lra)) as K. exact K.
Qed.
Lemma lo_loop q : forall x y m l, lo x m -> lo y l ->
  exists z, runsI ready (pow_loop (mul_down (p_ar Q)) x y q) z /\ lo z (m * (2 * Pos.to_nat q) + l).
Proof.
  induction q; intros x y m l Hx Hy; cbn [pow_loop].
  - rewrite Pos2Nat.inj_xI in *. destruct (lo_mul x x m m Hx Hx) as (x' & Rx & Hx').
    destruct (lo_mul x' y (m + m) l Hx' Hy) as (y' & Ry & Hy').
    destruct (IHq x' y' _ _ Hx' Hy') as (z & Rz & Hz).
    exists z. split; [eapply runsI_bind; eauto; eapply runsI_bind; eauto|].
    replace (m * (2 * S (2 * Pos.to_nat q)) + l)%nat with ((m + m) * (2 * Pos.to_nat q) + (m + m + l))%nat by nia. exact Hz.
  - rewrite Pos2Nat.inj_xO in *. destruct (lo_mul x x m m Hx Hx) as (x' & Rx & Hx').
    destruct (IHq x' y _ _ Hx' Hy) as (z & Rz & Hz).
    exists z. split; [eapply runsI_bind; eauto|].
    replace (m * (2 * (2 * Pos.to_nat q)) + l)%nat with ((m + m) * (2 * Pos.to_nat q) + l)%nat by nia. exact Hz.
  - change (Pos.to_nat 1) with 1%nat in *. destruct (lo_mul x x m m Hx Hx) as (x' & Rx & Hx').
    destruct (lo_mul x' y (m + m) l Hx' Hy) as (z & Rz & Hz).
    exists z. split; [eapply runsI_bind; eauto|]. replace (m * (2 * 1) + l)%nat with (m + m + l)%nat by nia. exact Hz.
Qed.
Lemma lo_pow (x : T N) n : (0 < n)%Z -> fv x = Fin a -> exists z q, runsI ready (pow_dn Q x n) z /\ fv z = Fin q /\ 1 <= q /\
  (th <= q \/ a ^ Z.to_nat n <= q * (1 + 2 * e) ^ (Z.to_nat n - 1)).
Proof.
  intros Hn E.
  assert (Nx : lo x 1) by (exists a; split; [exact E|]; split; [exact Ha|]; right; simpl; lra).
  assert (N1 : lo (one : T N) 0) by (exists 1; split; [exact (ns_1 _ _ (fnumspec p))|]; split; [lra|]; right; simpl; lra).
  assert (Ny : lo (if Z.odd n then x else one) (if Z.odd n then 1 else 0)%nat) by (destruct (Z.odd n); auto).
  assert (K : exists z, runsI ready (pow_dn Q x n) z /\ lo z (Z.to_nat n)).
  2:{ destruct K as (z & R & (q & Eq & ?)). exists z, q. auto. }
  pose proof (Zdiv2_odd_eqn n) as D. unfold pow_dn, pow_aux. rewrite <- Z.div2_spec. destruct (Z.div2 n) as [|q|q] eqn:ED.
  - exists (if Z.odd n then x else one). split; [apply runsI_ret|]. destruct (Z.odd n); simpl in D; [|lia].
    replace (Z.to_nat n) with 1%nat by lia. exact Ny.
  - destruct (lo_loop q x _ 1 _ Nx Ny) as (z & Rz & Hz). exists z. split; [exact Rz|].
    replace (Z.to_nat n) with (1 * (2 * Pos.to_nat q) + (if Z.odd n then 1 else 0))%nat; [exact Hz|].
    destruct (Z.odd n); lia.
  - destruct (Z.odd n); lia.
Qed.
End Low.

(** The upper bound. *)
Lemma hi_pow (x : T N) a n : (0 < n)%Z -> fv x = Fin a -> 1 <= a ->
  a ^ Z.to_nat n * (1 + 2 * e) ^ (Z.to_nat n - 1) <= largest F ->
  exists z q, runsI ready (pow_up Q x n) z /\ fv z = Fin q /\ q <= a ^ Z.to_nat n * (1 + 2 * e) ^ (Z.to_nat n - 1).
Proof.
  intros Hn E Ha L. destruct (pow_near p k debug c ord Up x a a n Hn E ltac:(lra) Ha L) as (z & q & R & Eq & C).
  exists z, q. split; [exact R|]. split; [exact Eq|]. apply Rabs_le_inv in C. unfold pow_err in C. lra.
Qed.

(** One-sided versions of tight_close. *)
Lemma tight_ge (z : I) S a : ftightest z S -> (forall s, S s -> a <= s) -> Rabs a <= largest F ->
  forall r, fmem z r -> a - (e * Rabs a + tiny F) <= r.
Proof.
  intros [E T] HS La r [Ml Mu]. destruct (round_close F Dn a La) as (t & q & Et & Ct & Dt).
  destruct (T (@mk N t (up z))) as [A _].
  { intros s Hs. split; cbn [low up]; [rewrite Et; simpl; apply HS in Hs; lra|apply E, Hs]. }
  pose proof (xle_trans _ _ _ A Ml) as A'. cbn [low] in A'. rewrite Et in A'. simpl in A'. apply Rabs_le_inv in Ct. lra.
Qed.
Lemma tight_ge_f (z : I) S (t : T N) a : ftightest z S -> fv t = Fin a -> (forall s, S s -> a <= s) -> forall r, fmem z r -> a <= r.
Proof.
  intros [E T] Et HS r [Ml Mu]. destruct (T (@mk N t (up z))) as [A _].
  { intros s Hs. split; cbn [low up]; [rewrite Et; simpl; apply HS in Hs; lra|apply E, Hs]. }
  pose proof (xle_trans _ _ _ A Ml) as A'. cbn [low] in A'. rewrite Et in A'. exact A'.
Qed.
Lemma tight_le_f (z : I) S (t : T N) a : ftightest z S -> fv t = Fin a -> (forall s, S s -> s <= a) -> forall r, fmem z r -> r <= a.
Proof.
  intros [E T] Et HS r [Ml Mu]. destruct (T (@mk N (low z) t)) as [_ A].
  { intros s Hs. split; cbn [low up]; [apply E, Hs|rewrite Et; simpl; apply HS in Hs; lra]. }
  pose proof (xle_trans _ _ _ Mu A) as A'. cbn [up] in A'. rewrite Et in A'. exact A'.
Qed.

(** ** The rounded midpoint *)
Lemma rnd_rel (f : fmt) v : 1 <= v -> eps f <= e -> tiny f <= e -> Rabs (rnd f mode_NE v - v) <= 2 * e * v.
Proof.
  intros Hv H1 H2. eapply Rle_trans; [apply (err_bound f)|]. fold (eps f). fold (tiny f). rewrite (Rabs_right v) by lra.
  assert (eps f * v <= e * v) by (apply Rmult_le_compat_r; lra). pose proof (eps_pos F).
  assert (e * 1 <= e * v) by (apply Rmult_le_compat_l; lra). lra.
Qed.
Lemma mid_close l u : e <= / 64 -> 1 <= l -> 1 <= u ->
  Rabs (rnd (p_T p) mode_NE (rnd (p_X p) mode_NE (rnd (p_X p) mode_NE (l + u) / 2)) - (l + u) / 2) <= 8 * e * ((l + u) / 2).
Proof.
  intros He Hl Hu. pose proof (eps_pos F) as E0.
  assert (X1 : eps (p_X p) <= e) by (apply bpow_le; destruct (p_TX p); lia).
  assert (X2 : tiny (p_X p) <= e) by (pose proof (tiny_le_eps (p_X p)); lra).
  pose proof (tiny_le_eps F) as X3.
  pose proof (rnd_rel (p_X p) (l + u) ltac:(lra) X1 X2) as K1.
  set (s1 := rnd (p_X p) mode_NE (l + u)) in *. apply Rabs_le_inv in K1.
  set (w := l + u) in *. assert (Hw : 2 <= w) by (unfold w; lra).
  assert (S1 : 1 <= s1 / 2).
  { apply Rmult_le_reg_r with 2; [lra|]. unfold Rdiv. rewrite Rmult_assoc, Rinv_l, Rmult_1_r by lra. rewrite Rmult_1_l.
    unfold s1. assert (G : generic_format radix2 (fexpf (p_X p)) 2).
    { destruct (two_val p) as [_ E2]. rewrite <- E2. apply generic_format_B2R. }
    rewrite <- (rnd_gen (p_X p) mode_NE 2 G). apply round_le; [apply valid_exp_w|apply valid_rnd_round_mode|exact Hw]. }
  pose proof (rnd_rel (p_X p) (s1 / 2) S1 X1 X2) as K2.
  set (s2 := rnd (p_X p) mode_NE (s1 / 2)) in *. apply Rabs_le_inv in K2.
  assert (S2 : 1 <= s2).
  { unfold s2. assert (G : generic_format radix2 (fexpf (p_X p)) 1).
    { pose proof (f_of_Z_exact (p_X p) RNE 1 ltac:(pose proof (fmt_prec_gt_0 (p_X p)); pose proof (Z.pow_gt_1 2 (prec (p_X p))); lia)) as E1.
      apply fval_fin_iff in E1. destruct E1 as [_ E1]. change 1 with (IZR 1). rewrite <- E1. apply generic_format_B2R. }
    rewrite <- (rnd_gen (p_X p) mode_NE 1 G). apply round_le; [apply valid_exp_w|apply valid_rnd_round_mode|exact S1]. }
  pose proof (rnd_rel F s2 S2 ltac:(lra) X3) as K3. apply Rabs_le_inv in K3.
  set (s3 := rnd F mode_NE s2) in *.
  assert (A1 : e * (s1 / 2) <= e * ((w + 2 * e * w) / 2)) by (apply Rmult_le_compat_l; lra).
  assert (A2 : 0 <= e * w * (/ 64 - e)) by (apply Rmult_le_pos; [apply Rmult_le_pos; lra|lra]).
  assert (A3 : e * s2 <= e * (s1 / 2 + 2 * e * (s1 / 2))) by (apply Rmult_le_compat_l; lra).
  assert (A4 : 0 <= e * (s1 / 2) * (/ 64 - e)) by (apply Rmult_le_pos; [apply Rmult_le_pos; lra|lra]).
  apply Rabs_le. unfold w in *. split; lra.
Qed.

(** ** A fixed point of the step is narrow *)
Lemma fixed_narrow (x tk : T N) n xv (y : I) l u r : wide p -> (2 <= n)%Z -> fv x = Fin xv -> 1 <= xv -> fv tk = Fin (IZR n) ->
  64 * IZR n * xv * e <= 1 ->
  fv (low y) = Fin l -> fv (up y) = Fin u -> 1 <= l -> u <= xv -> l <= r <= u -> r ^ Z.to_nat n = xv ->
  root_fixed p pr k debug c ord x tk n y -> u - l <= 64 * e * r.
Proof.
  intros W Hn Ex Hx Etk HB El Eu L1 U1 Hr Er (yy & Ry & Sy). pose proof (eps_pos F) as E0.
  assert (N2 : 2 <= IZR n) by (apply IZR_le; exact Hn).
  assert (NX : 2 <= IZR n * xv) by nra.
  assert (E128 : e <= / 128) by nra.
  pose proof (tiny_small W ltac:(lra)) as T16. pose proof (tiny_pos F) as T0.
  assert (Iy : root_inv p n xv y) by (exists l, u, r; auto 10).
  destruct (inv_median p pr k debug c ord W x n xv Hn Ex Hx y Iy) as (y0 & v & l' & u' & El' & Eu' & Ev & Hv & Rm & Em).
  rewrite El in El'. rewrite Eu in Eu'. injection El' as <-. injection Eu' as <-. clear Iy.
  assert (Vy : fvalid y) by (eapply valid_fin; eauto; lra).
  assert (Vp : fvalid (mk (y0 : T N) y0)) by (eapply valid_fin; simpl; eauto; lra).
  (* the calls of one step *)
  destruct (pow_positive_ok spec (mk (y0 : T N) y0) n ltac:(lia) Vp) as (p1 & R1 & E1 & _).
  assert (M1 : fmem p1 (v ^ Z.to_nat n)).
  { apply E1. exists v. split; [|reflexivity]. unfold mem. cbn [low up]. rewrite Ev. simpl. lra. }
  destruct (op_sub_in_ok spec p1 x xv Ex (mem_valid _ _ _ M1)) as (d1 & R2 & T2).
  assert (M2 : fmem d1 (v ^ Z.to_nat n - xv)) by (apply (proj1 T2); exists (v ^ Z.to_nat n); split; auto).
  destruct (pow_positive_ok spec y (n - 1) ltac:(lia) Vy) as (p2 & R3 & E3 & _).
  assert (M3 : fmem p2 (l ^ Z.to_nat (n - 1))).
  { apply E3. exists l. split; [|reflexivity]. unfold mem. rewrite El, Eu. simpl. lra. }
  destruct (op_mul_ni_ok spec tk (IZR n) p2 Etk (mem_valid _ _ _ M3)) as (d2 & R4 & T4).
  assert (M4 : fmem d2 (IZR n * l ^ Z.to_nat (n - 1))) by (apply (proj1 T4); exists (l ^ Z.to_nat (n - 1)); split; auto).
  (* the powers in the denominator *)
  destruct (lo_pow W ltac:(lra) l xv x Ex L1 (low y) (n - 1) ltac:(lia) El) as (w2 & q2 & Rw2 & Ew2 & Q2 & C2).
  assert (L2 : forall t, fmem p2 t -> q2 <= t).
  { intros t [Ml _]. pose proof R3 as R3'. unfold Arith2.pow in R3'. rewrite (test_valid spec y Vy) in R3'.
    rewrite (proj2 (Z.eqb_neq (n - 1) 0)), (proj2 (Z.ltb_ge (n - 1) 0)) in R3' by lia.
    pose proof (pow_pos_char spec y (n - 1) p2 ltac:(lia) Vy R3') as B.
    change (xle (fv (low p2)) (Fin t)) in Ml.
    change (pow_bounds (N := N) (val := fv) (P := Q) (ready := ready) (n - 1) (fv (low y)) (fv (up y)) (fv (low p2)) (fv (up p2))) in B.
    rewrite El, Eu in B. inversion B as [a b U D Up' E1' E2'|a b U L O Ua Ub E1' E2'|m b U L O Lm Um Cm Ub E1' E2'|a b L Da Ub E1' E2']; clear B;
      try (simpl in U; lra); try (simpl in L; lra).
    destruct Da as (s & z & Es & Rs & Ez).
    assert (s = low y).
    { apply (fval_inj_nz); [rewrite Es, El; reflexivity|]. rewrite Es. intros K. injection K as K. lra. }
    subst s. rewrite <- (runsI_det spec _ _ _ Rw2 Rs) in Ez. rewrite Ew2 in Ez. rewrite <- Ez in Ml. exact Ml. }
  assert (Pos2 : forall t, fmem d2 t -> 1 <= t).
  { apply (tight_ge_f d2 _ one 1 T4 (ns_1 _ _ (fnumspec p))). intros s (t & Mt & ->). pose proof (L2 t Mt). nra. }
  destruct (op_div_ok spec d1 d2 (mem_valid _ _ _ M2) (mem_valid _ _ _ M4)) as (q & R5 & E5 & T5).
  { intros [A B]. destruct M4 as [_ M4]. rewrite B in M4. simpl in M4.
    assert (0 < l ^ Z.to_nat (n - 1)) by (apply pow_lt; lra). nra. }
  { reflexivity. }
  assert (Nz : ~ fmem d2 0) by (intros K; apply Pos2 in K; lra).
  assert (T5' : ftightest q (fun t => exists r s, fmem d1 r /\ fmem d2 s /\ s <> 0 /\ t = r / s)).
  { apply T5. intros (_ & _ & K). assert (P4 : 0 < IZR n * l ^ Z.to_nat (n - 1)) by (pose proof (Pos2 _ M4); lra). destruct M4 as [M4l M4u].
    destruct K as [K|K].
    - apply Nz. split; [rewrite K; simpl; lra|]. eapply xle_trans; [|exact M4u]. simpl. lra.
    - rewrite K in M4u. simpl in M4u. lra. }
  destruct (nonempty_mem p q) as (q0 & Mq0).
  { apply (mem_valid _ _ ((v ^ Z.to_nat n - xv) / (IZR n * l ^ Z.to_nat (n - 1)))). apply E5. do 2 eexists. split; [exact M2|]. split; [exact M4|].
    split; [pose proof (Pos2 _ M4); lra|reflexivity]. }
  destruct (op_sub_ni_ok spec y0 v q Ev (mem_valid _ _ _ Mq0)) as (z & R6 & T6).
  (* the step ran, so y lies in the last interval *)
  assert (Mz : fmem z r).
  { destruct (newton_mvt (Z.to_nat n) v r) as (xi & Hxi & Exi); try lra.
    assert (Hxi' : l <= xi <= u).
    { destruct Hxi as [A B]. split.
      - eapply Rle_trans; [|exact A]. apply Rmin_glb; lra.
      - eapply Rle_trans; [exact B|]. apply Rmax_lub; lra. }
    assert (M3' : fmem p2 (xi ^ Z.to_nat (n - 1))).
    { apply E3. exists xi. split; [|reflexivity]. unfold mem. rewrite El, Eu. simpl. lra. }
    assert (M4' : fmem d2 (IZR n * xi ^ Z.to_nat (n - 1))) by (apply (proj1 T4); exists (xi ^ Z.to_nat (n - 1)); split; auto).
    assert (D0 : 0 < IZR n * xi ^ Z.to_nat (n - 1)) by (pose proof (Pos2 _ M4'); lra).
    assert (M5 : fmem q (v - r)).
    { apply E5. exists (v ^ Z.to_nat n - xv), (IZR n * xi ^ Z.to_nat (n - 1)).
      split; [exact M2|]. split; [exact M4'|]. split; [lra|].
      rewrite <- Er, Exi. replace (Z.to_nat (n - 1)) with (Nat.pred (Z.to_nat n)) in * by lia.
      rewrite INR_IZR_INZ, Z2Nat.id by lia. field. split; [apply Rgt_not_eq, pow_lt; lra|].
      apply Rgt_not_eq, IZR_lt; lia. }
    apply (proj1 T6). exists (v - r). split; [exact M5|lra]. }
  assert (My : fmem y r) by (unfold fmem, mem; rewrite El, Eu; simpl; lra).
  destruct (intersect_ok spec y z Vy (mem_valid _ _ _ Mz)) as (yz & R7 & D7); [eauto|].
  assert (Rs : runsI ready (root_step Q tk x n y) yz).
  { unfold root_step. eapply runsI_bind; [exact Rm|].
    eapply runsI_bind.
    { apply runsI_args2.
      - eapply runsI_bind; [apply (runsP_runsI Q), R1|apply (runsP_runsI Q), R2].
      - eapply runsI_bind; [apply (runsP_runsI Q), R3|apply (runsP_runsI Q), R4]. }
    cbn [fst snd]. eapply runsI_bind; [apply (runsP_runsI Q), R5|].
    eapply runsI_bind; [apply (runsP_runsI Q), R6|]. apply (runsP_runsI Q), R7. }
  assert (yz = yy) by (apply (runsI_det spec _ _ _ Rs Ry)). subst yz.
  assert (Same : forall t, l <= t <= u -> fmem z t).
  { intros t Ht. apply (D7 t). destruct Sy as [S1 S2]. unfold mem. rewrite <- S1, <- S2, El, Eu. simpl. lra. }
  (* the powers in the numerator *)
  destruct (lo_pow W ltac:(lra) v xv x Ex ltac:(lra) y0 n ltac:(lia) Ev) as (w1 & q1 & Rw1 & Ew1 & Q1 & C1).
  assert (B1 : exists w, runsI ready (pow_up Q y0 n) w /\ fv (low p1) = Fin q1 /\ fv (up p1) = fv w).
  { pose proof R1 as R1'. unfold Arith2.pow in R1'. rewrite (test_valid spec _ Vp) in R1'.
    rewrite (proj2 (Z.eqb_neq n 0)), (proj2 (Z.ltb_ge n 0)) in R1' by lia.
    pose proof (pow_pos_char spec _ n p1 ltac:(lia) Vp R1') as B.
    change (pow_bounds (N := N) (val := fv) (P := Q) (ready := ready) n (fv y0) (fv y0) (fv (low p1)) (fv (up p1))) in B.
    rewrite Ev in B. inversion B as [a b U D Up' E1' E2'|a b U L O Ua Ub E1' E2'|m b U L O Lm Um Cm Ub E1' E2'|a b L Da Ub E1' E2']; clear B;
      try (simpl in U; lra); try (simpl in L; lra).
    destruct Da as (s & z1 & Es & Rs1 & Ez). destruct Ub as (s' & z2 & Es' & Rs2 & Ez2).
    assert (Inj : forall t : T N, fv t = Fin v -> t = y0).
    { intros t Et. apply (fval_inj_nz); [rewrite Et, Ev; reflexivity|]. rewrite Et. intros K. injection K as K. lra. }
    rewrite (Inj s Es) in Rs1. rewrite (Inj s' Es') in Rs2. exists z2. split; [exact Rs2|].
    rewrite <- Ez, <- Ez2. rewrite <- (runsI_det spec _ _ _ Rw1 Rs1). auto. }
  destruct B1 as (w1' & Rw1' & Lp1 & Up1).
  assert (P1l : forall t, fmem p1 t -> q1 <= t).
  { intros t [Ml _]. change (xle (fv (low p1)) (Fin t)) in Ml. rewrite Lp1 in Ml. exact Ml. }
  assert (Mid : v = u \/ v = l -> u - l <= 64 * e * r).
  { intros K. pose proof (mid_close l u ltac:(lra) L1 ltac:(lra)) as C. rewrite <- Em in C. apply Rabs_le_inv in C.
    set (s := (l + u) / 2) in *. assert (Us : u - l <= 16 * e * s).
    { destruct K as [K|K]; rewrite K in C; unfold s in *; lra. }
    assert (Sr : s <= r + 8 * e * s) by (unfold s in *; lra).
    assert (S2 : s <= 2 * r). { assert (0 <= s * (/ 128 - e)) by (apply Rmult_le_pos; unfold s; lra). unfold s in *. lra. }
    assert (e * s <= e * (2 * r)) by (apply Rmult_le_compat_l; lra). lra. }
  assert (Du : fmem z u) by (apply Same; lra). assert (Dl : fmem z l) by (apply Same; lra).
  destruct (Rle_or_lt xv q1) as [CA|CA].
  { (* the power of the midpoint is not below x *)
    apply Mid. left. assert (u <= v); [|lra].
    assert (A1 : forall t, fmem d1 t -> 0 <= t).
    { apply (tight_ge_f d1 _ zero 0 T2 (ns_0 _ _ (fnumspec p))). intros s (t & Mt & ->). pose proof (P1l t Mt). lra. }
    assert (A2 : forall t, fmem q t -> 0 <= t).
    { apply (tight_ge_f q _ zero 0 T5' (ns_0 _ _ (fnumspec p))). intros s (a & b & Ma & Mb & _ & ->).
      apply A1 in Ma. apply Pos2 in Mb. apply Rmult_le_pos; [lra|]. left. apply Rinv_0_lt_compat. lra. }
    apply (tight_le_f z _ y0 v T6 Ev); [|exact Du]. intros s (t & Mt & ->). apply A2 in Mt. lra. }
  destruct C1 as [C1|C1]; [lra|].
  set (nn := Z.to_nat n) in *. set (g := (1 + 2 * e) ^ (nn - 1)) in *.
  assert (Inn : INR (nn - 1) <= IZR n).
  { rewrite minus_INR by (unfold nn; lia). unfold nn. rewrite INR_IZR_INZ, Z2Nat.id by lia. simpl. lra. }
  assert (G1 : 1 <= g) by (apply pow_R1_Rle; lra).
  assert (NE : 64 * IZR n * e <= 1). { assert (0 <= 64 * IZR n * e * (xv - 1)) by (apply Rmult_le_pos; [nra|lra]). lra. }
  assert (G2 : g * g * (1 - 4 * IZR n * e) <= 1).
  { unfold g. rewrite <- pow_add. set (m := (nn - 1 + (nn - 1))%nat).
    pose proof (grow_bound (2 * e) m ltac:(lra)) as K. assert (1 <= (1 + 2 * e) ^ m) by (apply pow_R1_Rle; lra).
    assert (INR m * (2 * e) <= 4 * IZR n * e).
    { unfold m. rewrite plus_INR. assert (INR (nn - 1) * e <= IZR n * e) by (apply Rmult_le_compat_r; lra). lra. }
    eapply Rle_trans; [|exact K]. apply Rmult_le_compat_l; lra. }
  assert (NE0 : 0 <= IZR n * e) by nra.
  assert (G3 : g * g <= 16 / 15) by nra.
  assert (G4 : g * g - 1 <= 5 * IZR n * e).
  { assert (g * g * (4 * IZR n * e) <= 16 / 15 * (4 * IZR n * e)) by (apply Rmult_le_compat_r; [nra|lra]). lra. }
  assert (Gs : g <= 16 / 15) by nra.
  (* x and everything else is far below the largest number *)
  assert (LN : 8 * (IZR n * xv) <= largest F).
  { unfold largest. unfold wide in W. pose proof (bpow_gt_0 radix2 (emax F - prec F)).
    assert (X1 : IZR n * xv <= bpow radix2 (prec F)).
    { unfold eps in HB. replace (1 - prec F)%Z with (- (prec F - 1))%Z in HB by lia. rewrite bpow_opp in HB.
      pose proof (bpow_gt_0 radix2 (prec F - 1)) as B. assert (X2 : bpow radix2 (prec F - 1) <= bpow radix2 (prec F)) by (apply bpow_le; lia).
      eapply Rle_trans; [|exact X2]. apply Rmult_le_reg_r with (/ bpow radix2 (prec F - 1)); [apply Rinv_0_lt_compat; lra|].
      rewrite Rinv_r by lra. eapply Rle_trans; [|exact HB]. apply Rmult_le_compat_r; [left; apply Rinv_0_lt_compat; lra|]. lra. }
    assert (X3 : 16 * bpow radix2 (prec F) <= bpow radix2 (emax F)).
    { change 16 with (bpow radix2 4). rewrite <- bpow_plus. apply bpow_le. pose proof (fmt_prec_gt_0 F).
      assert (3 <= prec F)%Z; [|lia]. destruct (Z_lt_le_dec (prec F) 3) as [L|L]; auto. exfalso.
      assert (K : bpow radix2 (-1) <= e) by (apply bpow_le; lia). change (bpow radix2 (-1)) with (/ 2) in K. lra. }
    assert (X4 : bpow radix2 (emax F - prec F) <= / 2 * bpow radix2 (emax F)).
    { change (/ 2) with (bpow radix2 (-1)). rewrite <- bpow_plus. apply bpow_le. pose proof (fmt_prec_gt_0 F). lia. }
    lra. }
  assert (LF : 8 * xv <= largest F). { assert (1 * xv <= IZR n * xv) by (apply Rmult_le_compat_r; lra). lra. }
  assert (Vn : v ^ nn <= xv * g). { eapply Rle_trans; [exact C1|]. apply Rmult_le_compat_r; lra. }
  assert (Vn0 : 1 <= v ^ nn) by (apply pow_R1_Rle; lra).
  destruct (hi_pow y0 v n ltac:(lia) Ev ltac:(lra)) as (w3 & q3 & Rw3 & Ew3 & C3).
  { fold nn. fold g. apply Rle_trans with (xv * g * g); [apply Rmult_le_compat_r; lra|].
    apply Rle_trans with (xv * (16 / 15)); [rewrite Rmult_assoc; apply Rmult_le_compat_l; lra|lra]. }
  fold nn in C3. fold g in C3.
  assert (P1u : forall t, fmem p1 t -> t <= q3).
  { intros t [_ Mu]. change (xle (Fin t) (fv (up p1))) in Mu. rewrite Up1, (runsI_det spec _ _ _ Rw1' Rw3), Ew3 in Mu. exact Mu. }
  destruct (Rle_or_lt q3 xv) as [CB|CB].
  { (* the power of the midpoint is not above x *)
    apply Mid. right. assert (v <= l); [|lra].
    assert (A1 : forall t, fmem d1 t -> t <= 0).
    { apply (tight_le_f d1 _ zero 0 T2 (ns_0 _ _ (fnumspec p))). intros s (t & Mt & ->). pose proof (P1u t Mt). lra. }
    assert (A2 : forall t, fmem q t -> t <= 0).
    { apply (tight_le_f q _ zero 0 T5' (ns_0 _ _ (fnumspec p))). intros s (a & b & Ma & Mb & _ & ->).
      apply A1 in Ma. apply Pos2 in Mb. assert (0 < / b) by (apply Rinv_0_lt_compat; lra). unfold Rdiv. nra. }
    apply (tight_ge_f z _ y0 v T6 Ev); [|exact Dl]. intros s (t & Mt & ->). apply A2 in Mt. lra. }
  (* the power of the midpoint is x, up to rounding *)
  assert (Dq : q3 - q1 <= 5 * IZR n * e * xv).
  { assert (A1 : q3 - q1 <= (v ^ nn) * g - q1) by lra.
    assert (A2 : v ^ nn * g <= q1 * g * g) by (apply Rmult_le_compat_r; lra).
    assert (A3 : q1 * (g * g - 1) <= xv * (g * g - 1)) by (apply Rmult_le_compat_r; [nra|lra]).
    assert (A4 : xv * (g * g - 1) <= xv * (5 * IZR n * e)) by (apply Rmult_le_compat_l; lra). lra. }
  set (dl := IZR n * e * xv) in *.
  assert (D1 : 2 * e <= dl). { unfold dl. replace (IZR n * e * xv) with (IZR n * xv * e) by ring. apply Rmult_le_compat_r; lra. }
  assert (D2 : dl <= / 64) by (unfold dl; lra).
  assert (A1 : forall t, fmem d1 t -> - (6 * dl) <= t <= 6 * dl).
  { intros t Mt. assert (Lb : 5 * dl <= largest F) by lra.
    pose proof (tight_close d1 _ (- (5 * dl)) (5 * dl) T2) as K. rewrite Rabs_Ropp, Rabs_right in K by lra.
    specialize (K ltac:(intros s (b & Mb & ->); pose proof (P1l b Mb); pose proof (P1u b Mb); unfold dl in *; lra) Lb Lb t Mt).
    assert (e * (5 * dl) <= / 128 * (5 * dl)) by (apply Rmult_le_compat_r; lra). lra. }
  set (ll := l ^ Z.to_nat (n - 1)) in *. assert (LL1 : 1 <= ll) by (apply pow_R1_Rle; lra).
  assert (LLx : ll <= xv).
  { unfold ll. rewrite <- Er. apply Rle_trans with (r ^ Z.to_nat (n - 1)); [apply pow_incr; lra|]. apply Rle_pow; [lra|unfold nn; lia]. }
  assert (Q2l : ll <= q2 * g).
  { destruct C2 as [C2|C2]; [assert (q2 * 1 <= q2 * g) by (apply Rmult_le_compat_l; lra); lra|]. eapply Rle_trans; [exact C2|]. apply Rmult_le_compat_l; [lra|]. apply Rle_pow; [lra|unfold nn; lia]. }
  assert (A2 : forall t, fmem d2 t -> IZR n * ll * (7 / 8) <= t).
  { intros t Mt. set (a := IZR n * ll * (15 / 16)).
    assert (A0 : 1 <= a). { unfold a. assert (2 * 1 <= IZR n * ll) by (apply Rmult_le_compat; lra). lra. }
    assert (Al : a <= largest F). { unfold a. assert (IZR n * ll <= IZR n * xv) by (apply Rmult_le_compat_l; lra). lra. }
    pose proof (tight_ge d2 _ a T4) as K. rewrite Rabs_right in K by lra.
    assert (HS : forall s, image1 (fun r0 => IZR n * r0) (mem (N := N) fv p2) s -> a <= s).
    { intros s (b & Mb & ->). pose proof (L2 b Mb) as Lb. unfold a. rewrite Rmult_assoc. apply Rmult_le_compat_l; [lra|].
      assert (q2 * g <= q2 * (16 / 15)) by (apply Rmult_le_compat_l; lra). lra. }
    specialize (K HS Al t Mt). assert (e * a <= / 128 * a) by (apply Rmult_le_compat_r; lra). unfold a in *. lra. }
  assert (EX0 : 0 < e * xv) by (apply Rmult_lt_0_compat; lra).
  set (kp := 8 * e * xv / ll).
  assert (Kp0 : 0 < kp). { unfold kp, Rdiv. apply Rmult_lt_0_compat; [lra|apply Rinv_0_lt_compat; lra]. }
  assert (Kpl : kp <= 8 * e * xv).
  { unfold kp, Rdiv. rewrite <- (Rmult_1_r (8 * e * xv)) at 2. apply Rmult_le_compat_l; [lra|]. rewrite <- Rinv_1. apply Rinv_le_contravar; lra. }
  assert (Ex1 : e * xv <= / 128). { assert (2 * (e * xv) <= IZR n * (e * xv)) by (apply Rmult_le_compat_r; lra). lra. }
  assert (A3 : forall t, fmem q t -> - (kp * (9 / 8) + e) <= t <= kp * (9 / 8) + e).
  { intros t Mt. assert (Lk : kp <= largest F) by lra.
    pose proof (tight_close q _ (- kp) kp T5') as K. rewrite Rabs_Ropp, Rabs_right in K by lra.
    assert (HS : forall s, (exists r0 s0, fmem d1 r0 /\ fmem d2 s0 /\ s0 <> 0 /\ s = r0 / s0) -> - kp <= s <= kp).
    { intros s (a & b & Ma & Mb & _ & ->). apply A1 in Ma. apply A2 in Mb.
      assert (Pb : 0 < IZR n * ll * (7 / 8)) by (repeat apply Rmult_lt_0_compat; lra).
      assert (Ib : 0 < / b <= / (IZR n * ll * (7 / 8))) by (split; [apply Rinv_0_lt_compat; lra|apply Rinv_le_contravar; lra]).
      assert (Kk : 6 * dl * / (IZR n * ll * (7 / 8)) <= kp).
      { unfold kp, dl. replace (6 * (IZR n * e * xv) * / (IZR n * ll * (7 / 8))) with ((48 / 7) * e * xv / ll) by (field; lra).
        unfold Rdiv. apply Rmult_le_compat_r; [left; apply Rinv_0_lt_compat; lra|]. lra. }
      assert (6 * dl * / b <= 6 * dl * / (IZR n * ll * (7 / 8))) by (apply Rmult_le_compat_l; lra).
      assert (a * / b <= 6 * dl * / b) by (apply Rmult_le_compat_r; lra).
      assert (- (6 * dl) * / b <= a * / b) by (apply Rmult_le_compat_r; lra). unfold Rdiv. lra. }
    specialize (K HS Lk Lk t Mt). assert (e * kp <= / 128 * kp) by (apply Rmult_le_compat_r; lra). lra. }
  assert (Kq0 : 0 < kp * (9 / 8) + e) by lra. set (kq := kp * (9 / 8) + e) in *.
  assert (A4 : forall t, fmem z t -> v - (kq * (9 / 8) + 2 * e * v) <= t <= v + (kq * (9 / 8) + 2 * e * v)).
  { intros t Mt.
    assert (La : Rabs (v - kq) <= v + kq) by (apply Rabs_le; lra). assert (Lb : Rabs (v + kq) <= v + kq) by (rewrite Rabs_right; lra).
    assert (Lv : v + kq <= largest F) by (unfold kq; lra).
    pose proof (tight_close z _ (v - kq) (v + kq) T6) as K.
    specialize (K ltac:(intros s (b & Mb & ->); apply A3 in Mb; lra) ltac:(lra) ltac:(lra) t Mt).
    assert (e * Rabs (v - kq) <= e * (v + kq)) by (apply Rmult_le_compat_l; lra).
    assert (e * Rabs (v + kq) <= e * (v + kq)) by (apply Rmult_le_compat_l; lra).
    assert (e * kq <= / 128 * kq) by (apply Rmult_le_compat_r; unfold kq; lra).
    assert (e * 1 <= e * v) by (apply Rmult_le_compat_l; lra). unfold kq in *. lra. }
  pose proof (A4 u Du) as Au. pose proof (A4 l Dl) as Al.
  assert (Wd : u - l <= 9 / 4 * kq + 4 * e * v) by lra.
  (* a first bound, then the derivative at l is close to the one at the root *)
  assert (W1 : u - l <= 32 * e * xv).
  { assert (e * v <= e * xv) by (apply Rmult_le_compat_l; lra). assert (e * 1 <= e * xv) by (apply Rmult_le_compat_l; lra). unfold kq in Wd. lra. }
  assert (LR : r ^ Z.to_nat (n - 1) <= 2 * ll).
  { set (a := (r - l) / r). assert (Ra : r * a = r - l) by (unfold a; field; lra).
    assert (A0 : 0 <= a) by (unfold a; apply Rmult_le_pos; [lra|left; apply Rinv_0_lt_compat; lra]).
    assert (A5 : a <= 32 * e * xv). { assert (1 * a <= r * a) by (apply Rmult_le_compat_r; lra). lra. }
    assert (A6 : a <= 1) by lra.
    pose proof (bernoulli a (Z.to_nat (n - 1)) (conj A0 A6)) as Bn.
    assert (In : INR (Z.to_nat (n - 1)) <= IZR n).
    { rewrite INR_IZR_INZ, Z2Nat.id by lia. apply IZR_le. lia. }
    assert (A7 : INR (Z.to_nat (n - 1)) * a <= / 2).
    { apply Rle_trans with (IZR n * (32 * e * xv)); [apply Rmult_le_compat; auto; apply pos_INR|]. lra. }
    assert (Ell : ll = r ^ Z.to_nat (n - 1) * (1 - a) ^ Z.to_nat (n - 1)).
    { unfold ll. rewrite <- Rpow_mult_distr. f_equal. lra. }
    assert (0 < r ^ Z.to_nat (n - 1)) by (apply pow_lt; lra). rewrite Ell.
    assert (r ^ Z.to_nat (n - 1) * / 2 <= r ^ Z.to_nat (n - 1) * (1 - a) ^ Z.to_nat (n - 1)) by (apply Rmult_le_compat_l; lra). lra. }
  assert (Xr : xv / ll <= 2 * r).
  { apply Rmult_le_reg_r with ll; [lra|]. unfold Rdiv. rewrite Rmult_assoc, Rinv_l, Rmult_1_r by lra.
    rewrite <- Er. unfold nn. replace (Z.to_nat n) with (S (Z.to_nat (n - 1))) by lia. rewrite <- tech_pow_Rmult.
    apply Rle_trans with (r * (2 * ll)); [apply Rmult_le_compat_l; lra|lra]. }
  assert (Kr : kp <= 16 * e * r).
  { unfold kp. replace (8 * e * xv / ll) with (8 * e * (xv / ll)) by (unfold Rdiv; ring). replace (16 * e * r) with (8 * e * (2 * r)) by ring.
    apply Rmult_le_compat_l; lra. }
  assert (Vr : v <= 3 / 2 * r).
  { assert (32 * e * xv <= / 4) by lra. lra. }
  assert (e * v <= e * (3 / 2 * r)) by (apply Rmult_le_compat_l; lra). assert (e * 1 <= e * r) by (apply Rmult_le_compat_l; lra).
  unfold kq in Wd. lra.
Qed.
End Acc.

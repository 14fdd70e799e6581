(** * nth_root on infinite and tiny numbers, for the checking policies that do
      not test for empty intervals

    The first Newton step on [1,+inf] gives not-a-number bounds, and intersect
    then keeps [1,+inf]: the loop stops at once. *)

From Coq Require Import Reals ZArith Lra Lia Bool.
From Flocq Require Import Core BinarySingleNaN.
From Verif Require Import Outcome Base Checking Interval Utility Arith Arith2 FloatNum Spec ExtR Sem CoreArith CoreMore
  CorePow CorePowExact CoreUtil CoreDiv CoreFun FloatSpec FloatPol FloatMed CoreRoot.
Local Open Scope R_scope.

Section Inf.
Context (p : platform) (pr : protection) (k : rkind) (debug : bool) (c : ckind) (ord : site -> bool).
Notation N := (fnum p).
Notation Q := (fpol p pr k debug c ord).
Notation spec := (fpolspec p pr k debug c ord).
Notation ready := (fready k).
Notation fv := (@fval (p_T p)).
Notation AS := (ps_ar _ _ _ spec).
Context (NE : allows_empty c = false).

Lemma inf_is (x : T N) : fv x = PInf -> x = (B754_infinity false : flt (p_T p)).
Proof. destruct (fval_cases (x : flt (p_T p))) as [(A & B)|[(A & B)|[(A & B)|(A & B)]]]; intros E; try congruence. Qed.
Lemma nan_is (x : T N) : fv x = NaN -> x = (B754_nan : flt (p_T p)).
Proof. destruct (fval_cases (x : flt (p_T p))) as [(A & B)|[(A & B)|[(A & B)|(A & B)]]]; intros E; try congruence. Qed.

Lemma test_false (x : itv N) : test_input_i Q x = false.
Proof. unfold test_input_i. cbn [fpol p_ck]. destruct c; try discriminate NE; reflexivity. Qed.
Lemma is_nan_false (a : T N) : fv a <> NaN -> pureM (ck_is_nan (p_ck Q) a) false.
Proof. apply (cs_nan _ _ (ps_ck _ _ _ spec)). Qed.
Lemma test_in_false (x : itv N) (a : T N) : fv a <> NaN -> pureM (test_input_in Q x a) false.
Proof. intros H. unfold test_input_in. rewrite test_false. apply is_nan_false, H. Qed.
Lemma test_ni_false (x : itv N) (a : T N) : fv a <> NaN -> pureM (test_input_ni Q a x) false.
Proof.
  intros H. unfold test_input_ni. eapply pureM_bind; [apply is_nan_false, H|].
  cbv iota beta. rewrite test_false. apply pureM_ret.
Qed.

(** Operations whose result is not a number. *)
Lemma nan_sub (a b : T N) : fv a = PInf -> fv b = PInf \/ fv b = NaN ->
  exists d u : T N, runsI ready (sub_down (p_ar Q) a b) d /\ runsI ready (sub_up (p_ar Q) a b) u /\ fv d = NaN /\ fv u = NaN.
Proof.
  intros Ea Eb. apply inf_is in Ea. exists (B754_nan : flt (p_T p)), (B754_nan : flt (p_T p)).
  assert (E : b = (B754_infinity false : flt (p_T p)) \/ b = (B754_nan : flt (p_T p))) by (destruct Eb; [left; apply inf_is|right; apply nan_is]; assumption).
  subst a. repeat split; try reflexivity; destruct E; subst b; cbn [fpol p_ar]; destruct k; intros s Hs;
    try (exists RDN; split; [exact Logic.I|reflexivity]); try (exists RUP; split; [exact Logic.I|reflexivity]);
    try (exists s; split; [exact Hs|reflexivity]).
Qed.
Lemma nan_div (a b : T N) : fv a = NaN ->
  exists d u : T N, runsI ready (div_down (p_ar Q) a b) d /\ runsI ready (div_up (p_ar Q) a b) u /\ fv d = NaN /\ fv u = NaN.
Proof.
  intros Ea. apply nan_is in Ea. exists (B754_nan : flt (p_T p)), (B754_nan : flt (p_T p)).
  subst a. repeat split; try reflexivity; cbn [fpol p_ar]; destruct k; intros s Hs;
    try (exists RDN; split; [exact Logic.I|reflexivity]); try (exists RUP; split; [exact Logic.I|reflexivity]);
    try (exists s; split; [exact Hs|reflexivity]).
Qed.

(** Powers of +inf and of 1. *)
Lemma RD_inf (t : T N) : RD (N := N) fv PInf t -> fv t = PInf.
Proof. intros [_ A]. specialize (A (B754_infinity false : flt (p_T p)) Logic.I). change (xle PInf (fv t)) in A. destruct (fv t); simpl in A; tauto. Qed.
Lemma RU_inf (t : T N) : RU (N := N) fv PInf t -> fv t = PInf.
Proof. intros [A _]. destruct (fv t); simpl in A; tauto. Qed.
Definition infmul (mul : T N -> T N -> M (T N)) : Prop := forall a b, fv a = PInf -> fv b = PInf \/ fv b = Fin 1 ->
  exists z, runsI ready (mul a b) z /\ fv z = PInf.
Lemma loop_inf mul q : infmul mul -> forall x y, fv x = PInf -> fv y = PInf \/ fv y = Fin 1 ->
  exists z, runsI ready (pow_loop mul x y q) z /\ fv z = PInf.
Proof.
  intros HM. induction q; intros x y Ex Ey; cbn [pow_loop]; destruct (HM x x Ex (or_introl Ex)) as (x' & Rx & Ex').
  - destruct (HM x' y Ex' Ey) as (y' & Ry & Ey'). destruct (IHq x' y' Ex' (or_introl Ey')) as (z & Rz & Ez).
    exists z. split; [eapply runsI_bind; [exact Rx|]; eapply runsI_bind; [exact Ry|]; exact Rz|exact Ez].
  - destruct (IHq x' y Ex' Ey) as (z & Rz & Ez). exists z. split; [eapply runsI_bind; [exact Rx|]; exact Rz|exact Ez].
  - destruct (HM x' y Ex' Ey) as (z & Rz & Ez). exists z. split; [eapply runsI_bind; [exact Rx|]; exact Rz|exact Ez].
Qed.
Lemma aux_inf mul x n : infmul mul -> (0 < n)%Z -> fv x = PInf -> exists z, runsI ready (pow_aux mul x n) z /\ fv z = PInf.
Proof.
  intros HM Hn Ex. unfold pow_aux. rewrite <- Z.div2_spec. pose proof (Zdiv2_odd_eqn n) as E.
  assert (Ey : fv (if Z.odd n then (x : T N) else (one : T N)) = PInf \/ fv (if Z.odd n then (x : T N) else (one : T N)) = Fin 1).
  { destruct (Z.odd n); [left; exact Ex|right; apply (ns_1 _ _ (fnumspec p))]. }
  destruct (Z.div2 n) as [|q|q].
  - destruct (Z.odd n); [|lia]. exists x. split; [apply runsI_ret|exact Ex].
  - apply loop_inf; auto.
  - destruct (Z.odd n); lia.
Qed.
Lemma mul_down_inf : infmul (mul_down (p_ar Q)).
Proof.
  intros a b Ea Eb. assert (E : xmul (fv a) (fv b) = PInf).
  { rewrite Ea. destruct Eb as [-> | ->]; cbn [xmul]; [reflexivity|]. destruct (Rlt_dec 0 1); [reflexivity|lra]. }
  destruct (as_mul_down _ _ _ AS a b) as (z & Rz & Ez); [rewrite E; discriminate|]. rewrite E in Rz. exists z. split; [exact Ez|apply RD_inf, Rz].
Qed.
Lemma mul_up_inf : infmul (mul_up (p_ar Q)).
Proof.
  intros a b Ea Eb. assert (E : xmul (fv a) (fv b) = PInf).
  { rewrite Ea. destruct Eb as [-> | ->]; cbn [xmul]; [reflexivity|]. destruct (Rlt_dec 0 1); [reflexivity|lra]. }
  destruct (as_mul_up _ _ _ AS a b) as (z & Rz & Ez); [rewrite E; discriminate|]. rewrite E in Rz. exists z. split; [exact Ez|apply RU_inf, Rz].
Qed.
Lemma pow_dn_one (x : T N) n : (0 < n)%Z -> fv x = Fin 1 -> exists z, runsI ready (pow_dn Q x n) z /\ fv z = Fin 1.
Proof.
  intros Hn Ex. unfold pow_dn.
  destruct (aux_exact spec (mul_down (p_ar Q)) 1 (Z.to_nat n)) with (x := x) as (z & Rz & Ez); try (lia || exact Ex).
  - intros a b i j Ea Eb _. rewrite !pow1 in *.
    destruct (as_mul_down _ _ _ AS a b) as (z & Rz & Ez); [rewrite Ea, Eb; discriminate|].
    exists z. split; [exact Ez|]. rewrite Ea, Eb in Rz. cbn [xmul] in Rz. rewrite Rmult_1_l in Rz. destruct Rz as [A B].
    pose proof (ns_1 _ _ (fnumspec p)) as E1. specialize (B (n_cst N 1)). rewrite E1 in B. specialize (B (Rle_refl 1)).
    destruct (fv z) as [| |q|]; simpl in A, B; try tauto. f_equal. lra.
  - rewrite Z2Nat.id in Rz by lia. rewrite pow1 in Ez. eauto.
Qed.

Lemma not_neg (a : T N) : ~ xlt (fv a) (Fin 0) -> is_neg a = false.
Proof. intros H. unfold is_neg. destruct (n_lt N a zero) eqn:E; auto. apply (ns_lt _ _ (fnumspec p)) in E. unfold zero in E. rewrite (ns_0 _ _ (fnumspec p)) in E. tauto. Qed.
Lemma pow_run (y : itv N) n (d u : T N) : (0 < n)%Z -> ~ xlt (fv (low y)) (Fin 0) -> ~ xlt (fv (up y)) (Fin 0) ->
  runsI ready (pow_dn Q (low y) n) d -> runsI ready (pow_up Q (up y) n) u -> runsI ready (Arith2.pow Q y n) (mk d u).
Proof.
  intros Hn Hl Hu Rd Ru. unfold pow. rewrite test_false. rewrite (proj2 (Z.eqb_neq n 0)) by lia. rewrite (proj2 (Z.ltb_ge n 0)) by lia.
  unfold pow_pos. apply body_runs. rewrite (not_neg _ Hl), (not_neg _ Hu). apply runsI_mk_args; assumption.
Qed.

(** The loop of root_aux on +inf. *)
Lemma root_step_inf (tk x : T N) n (y : itv N) : (2 <= n)%Z -> fv tk = Fin (IZR n) -> fv x = PInf ->
  fv (low y) = Fin 1 -> fv (up y) = PInf -> runsI ready (root_step Q tk x n y) y.
Proof.
  intros Hn Et Ex El Eu.
  assert (Hy : fvalid y) by (unfold fvalid, valid; rewrite El, Eu; split; [exact Logic.I|split; discriminate]).
  assert (Em : fv (midpt p (low y) (up y)) = PInf).
  { destruct (midpt_inf p (low y) (up y)) as [(r & A & _)|[A|A]]; rewrite ?El, ?Eu; try exact Logic.I; try discriminate; try (intros [K _]; discriminate); try exact A.
    - exfalso. apply fval_fin_iff in A. destruct A as [A _]. revert A. apply inf_is in Eu. rewrite Eu. unfold midpt.
      change (fconv (p_T p) (p_X p) RNE (B754_infinity false)) with (B754_infinity false : flt (p_X p)).
      apply fval_fin_iff in El. destruct El as [Fl _]. destruct (ld_fin p (low y) Fl) as [M _].
      destruct (two_val p) as [F _].
      destruct (fconv (p_T p) (p_X p) RNE (low y)) as [?|?| |? ? ? ?]; try discriminate M;
      destruct (fconv (p_T p) (p_X p) RNE (f_of_Z (p_T p) RNE 2)) as [?|?| |? ? ? ?]; try discriminate F; discriminate.
    - exfalso. revert A. apply inf_is in Eu. rewrite Eu. unfold midpt.
      change (fconv (p_T p) (p_X p) RNE (B754_infinity false)) with (B754_infinity false : flt (p_X p)).
      apply fval_fin_iff in El. destruct El as [Fl _]. destruct (ld_fin p (low y) Fl) as [M _].
      destruct (two_val p) as [F F2].
      destruct (fconv (p_T p) (p_X p) RNE (low y)) as [?|?| |? ? ? ?]; try discriminate M;
      destruct (fconv (p_T p) (p_X p) RNE (f_of_Z (p_T p) RNE 2)) as [s2|?| |s2 ? ? ?]; try discriminate F; try discriminate;
      try (assert (s2 = false) as -> by (eapply B2R_sign_pos; rewrite F2; lra)); try discriminate; simpl in F2; lra. }
  set (y0 := midpt p (low y) (up y)) in *.
  assert (Rm : runsI ready (median Q y) (y0 : T N)) by (apply (runsP_runsI Q); apply median_runs; rewrite El, Eu; exact Logic.I).
  (* numerator *)
  destruct (aux_inf _ (y0 : T N) n mul_down_inf ltac:(lia) Em) as (a1 & Ra1 & Ea1).
  destruct (aux_inf _ (y0 : T N) n mul_up_inf ltac:(lia) Em) as (b1 & Rb1 & Eb1).
  assert (NN : forall t : T N, fv t = PInf -> ~ xlt (fv t) (Fin 0)) by (intros t -> []).
  pose proof (pow_run (mk (y0 : T N) y0) n a1 b1 ltac:(lia) (NN _ Em) (NN _ Em) Ra1 Rb1) as R1.
  destruct (nan_sub a1 x Ea1 (or_introl Ex)) as (a2 & _ & Ra2 & _ & Ea2 & _).
  destruct (nan_sub b1 x Eb1 (or_introl Ex)) as (_ & b2 & _ & Rb2 & _ & Eb2).
  assert (R2 : runsI ready (op_sub_in Q (mk a1 b1) x) (mk a2 b2)).
  { unfold op_sub_in. eapply runsI_bind; [apply pure_runsI, test_in_false; rewrite Ex; discriminate|]. cbv iota beta.
    apply body_runs. apply runsI_mk_args; assumption. }
  (* denominator *)
  destruct (pow_dn_one (low y) (n - 1) ltac:(lia) El) as (a3 & Ra3 & Ea3).
  destruct (aux_inf _ (up y) (n - 1) mul_up_inf ltac:(lia) Eu) as (b3 & Rb3 & Eb3).
  assert (R3 : runsI ready (Arith2.pow Q y (n - 1)) (mk a3 b3)).
  { apply pow_run; auto; [lia|]. rewrite El. simpl. lra. }
  assert (V3 : fvalid (mk a3 b3)) by (unfold fvalid, valid; cbn [low up]; rewrite Ea3, Eb3; split; [exact Logic.I|split; discriminate]).
  destruct (op_mul_ni_ok spec tk (IZR n) (mk a3 b3) Et V3) as (d2 & R4 & E4).
  assert (HN : 2 <= IZR n) by (apply IZR_le; lia).
  assert (M4 : forall t, 1 <= t -> fmem d2 (IZR n * t)).
  { intros t Ht. apply E4. exists t. split; [|reflexivity]. unfold mem. cbn [low up]. rewrite Ea3, Eb3. simpl. tauto. }
  assert (L4 : xlt (Fin 0) (fv (low d2)) /\ xlt (Fin 0) (fv (up d2))).
  { assert (A : xle (Fin 1) (fv (low d2))).
    { destruct E4 as [_ E4]. specialize (E4 (mk (one : T N) (B754_infinity false : flt (p_T p)))).
      assert (K1 : fv (one : T N) = Fin 1) by (apply (ns_1 _ _ (fnumspec p))). rewrite <- K1. apply E4.
      intros r (t & Ht & ->). unfold mem in *. cbn [low up] in *. rewrite Ea3, Eb3 in Ht. rewrite K1. simpl in *.
      split; [nra|exact Logic.I]. }
    split.
    - destruct (fv (low d2)); simpl in *; try tauto; lra.
    - destruct (M4 1 ltac:(lra)) as [_ U]. destruct (fv (up d2)); simpl in *; try tauto; lra. }
  (* quotient *)
  assert (ZI : zero_in Q d2 = false).
  { unfold zero_in. rewrite test_false. assert (is_pos (low d2) = true) as ->; [|reflexivity].
    apply (ns_lt _ _ (fnumspec p)). unfold zero. rewrite (ns_0 _ _ (fnumspec p)). apply L4. }
  destruct (nan_div a2 (up d2) Ea2) as (a5 & _ & Ra5 & _ & Ea5 & _).
  destruct (nan_div b2 (low d2) Eb2) as (_ & b5 & _ & Rb5 & _ & Eb5).
  assert (R5 : runsI ready (op_div Q (mk a2 b2) d2) (mk a5 b5)).
  { unfold op_div, test_input_ii. rewrite !test_false. cbn [orb]. rewrite ZI. unfold div_non_zero. apply body_runs. cbv zeta. cbn [low up].
    rewrite (not_neg b2), (not_neg a2), (not_neg (up d2)); [apply runsI_mk_args; assumption|..].
    - destruct L4 as [_ L4]. destruct (fv (up d2)); simpl in *; try tauto; lra.
    - rewrite Ea2. exact (fun x => x).
    - rewrite Eb2. exact (fun x => x). }
  destruct (nan_sub y0 b5 Em (or_intror Eb5)) as (a6 & _ & Ra6 & _ & Ea6 & _).
  destruct (nan_sub y0 a5 Em (or_intror Ea5)) as (_ & b6 & _ & Rb6 & _ & Eb6).
  assert (R6 : runsI ready (op_sub_ni Q (y0 : T N) (mk a5 b5)) (mk a6 b6)).
  { unfold op_sub_ni. eapply runsI_bind; [apply pure_runsI, test_ni_false; rewrite Em; discriminate|]. cbv iota beta.
    apply body_runs. apply runsI_mk_args; assumption. }
  unfold root_step. eapply runsI_bind; [exact Rm|].
  eapply runsI_bind.
  { apply runsI_args2.
    - eapply runsI_bind; [exact R1|exact R2].
    - eapply runsI_bind; [exact R3|apply (runsP_runsI Q), R4]. }
  cbn [fst snd]. eapply runsI_bind; [exact R5|]. eapply runsI_bind; [exact R6|].
  unfold intersect, test_input_ii. rewrite !test_false. cbn [orb]. cbv zeta. cbn [low up].
  assert (F1 : n_lt N (low y) a6 = false).
  { destruct (n_lt N (low y) a6) eqn:K; auto. apply (ns_lt _ _ (fnumspec p)) in K. rewrite El, Ea6 in K. destruct K. }
  assert (F2 : n_lt N b6 (up y) = false).
  { destruct (n_lt N b6 (up y)) eqn:K; auto. apply (ns_lt _ _ (fnumspec p)) in K. rewrite Eu, Eb6 in K. destruct K. }
  unfold std_max, std_min. rewrite F1, F2.
  assert (n_le N (low y) (up y) = true) as ->. { apply (ns_le _ _ (fnumspec p)). rewrite El, Eu. exact Logic.I. }
  destruct y. apply runsI_ret.
Qed.

Lemma root_aux_inf (x : T N) n : (2 <= n <= 2 ^ prec (p_T p))%Z -> fv x = PInf ->
  forall fuel, (0 < fuel)%nat -> runsI ready (root_aux fuel Q x n) (mk one x).
Proof.
  intros Hn Ex fuel Hf. destruct fuel as [|fuel]; [lia|]. unfold root_aux.
  assert (E1 : fv (one : T N) = Fin 1) by (apply (ns_1 _ _ (fnumspec p))).
  assert (Etk : forall m, fv (f_of_Z (p_T p) m n) = Fin (IZR n)) by (intros m; apply f_of_Z_exact; lia).
  assert (NZ : forall m, f_of_Z (p_T p) m n = f_of_Z (p_T p) RNE n).
  { intros m. apply fval_inj_nz; rewrite !Etk; [reflexivity|].
    intros K. injection K as K. apply eq_IZR in K. lia. }
  apply runsI_bind with (f_of_Z (p_T p) RNE n : T N).
  - intros s Hs. exists s. split; [exact Hs|]. unfold under_mode. cbn. rewrite NZ. reflexivity.
  - cbn [root_loop]. eapply runsI_bind.
    + apply (root_step_inf (f_of_Z (p_T p) RNE n : T N) x n (mk one x)); [lia|apply Etk|exact Ex|exact E1|exact Ex].
    + assert (V : fvalid (mk (one : T N) x)) by (unfold fvalid, valid; cbn [low up]; rewrite E1, Ex; split; [exact Logic.I|split; discriminate]).
      rewrite (proj2 (equal_ok spec _ _ V V)); [apply runsI_ret|]. intros r; reflexivity.
Qed.

(** The upper end, for every positive number, and the lower end, for every
    positive finite number. *)
Lemma rt v n : 0 < v -> (0 < n)%Z -> exists q, 0 <= q /\ q ^ Z.to_nat n = v.
Proof.
  intros Hv Hn. exists (Rpower v (/ INR (Z.to_nat n))). split; [apply Rlt_le, exp_pos|].
  rewrite <- Rpower_pow by apply exp_pos. rewrite Rpower_mult, Rinv_l by (apply not_0_INR; lia). apply Rpower_1; auto.
Qed.
Lemma up_ext (x : T N) n : wide p -> (2 <= n <= 2 ^ prec (p_T p))%Z -> xlt (Fin 0) (fv x) ->
  exists (t : T N) f0, (forall q, 0 <= q -> xle (Fin (q ^ Z.to_nat n)) (fv x) -> xle (Fin q) (fv t)) /\
   forall fuel, (f0 < fuel)%nat -> runsI ready (root_aux_up fuel Q x n) t.
Proof.
  intros W Hn Hx. destruct (fv x) as [| |xv|] eqn:Ex; simpl in Hx; try tauto.
  - destruct (root_aux_up_ok p pr k debug c ord x n xv W Hn Ex Hx) as (t & v & f0 & Et & Ht & Rt).
    exists t, f0. split; [|exact Rt]. intros q Q0 Hq. rewrite Et. simpl in *.
    destruct (rt xv n Hx ltac:(lia)) as (r & R0 & Er). apply Rle_trans with r; [|apply Ht; split; assumption].
    apply (pow_le_inv _ _ (Z.to_nat n)); lia || lra.
  - exists x, 0%nat. split; [intros q _ _; rewrite Ex; exact Logic.I|].
    intros fuel Hf. unfold root_aux_up. apply body_runs.
    assert (n_gt x one = true) as ->.
    { apply (ns_lt _ _ (fnumspec p)). pose proof (ns_1 _ _ (fnumspec p)) as E1. unfold one. rewrite E1, Ex. exact Logic.I. }
    eapply runsI_bind; [apply root_aux_inf; [lia|exact Ex|exact Hf]|]. apply runsI_ret.
Qed.
Lemma dn_ext (x : T N) n xv : wide p -> (2 <= n <= 2 ^ prec (p_T p))%Z -> fv x = Fin xv -> 0 < xv ->
  exists (t : T N) f0, (forall q, 0 <= q -> xv <= q ^ Z.to_nat n -> xle (fv t) (Fin q)) /\
   forall fuel, (f0 < fuel)%nat -> runsI ready (root_aux_dn fuel Q x n) t.
Proof.
  intros W Hn Ex Hx. destruct (Rle_or_lt 1 (xv * max_val (f := p_T p))) as [HM|HM].
  - destruct (root_aux_dn_ok p pr k debug c ord x n xv W Hn Ex Hx HM) as (t & v & f0 & Et & V0 & Ht & Rt).
    exists t, f0. split; [|exact Rt]. intros q Q0 Hq. rewrite Et. simpl.
    destruct (rt xv n Hx ltac:(lia)) as (r & R0 & Er). apply Rle_trans with r; [apply Ht; split; assumption|].
    apply (pow_le_inv _ _ (Z.to_nat n)); lia || lra.
  - assert (E1 : fv (one : T N) = Fin 1) by (apply (ns_1 _ _ (fnumspec p))).
    assert (E0 : fv (zero : T N) = Fin 0) by (apply (ns_0 _ _ (fnumspec p))).
    assert (M1 : 1 <= max_val (f := p_T p)).
    { pose proof (finite_le_max (one : T N)) as K. apply fval_fin_iff in E1. destruct E1 as [_ E1]. rewrite E1, Rabs_R1 in K. exact K. }
    assert (X1 : xv < 1) by nra.
    destruct (as_div_up _ _ _ AS one x) as (d & [D1 D2] & Rd).
    { rewrite E1, Ex. simpl. destruct (Req_EM_T xv 0); [lra|discriminate]. }
    rewrite E1, Ex in D1. simpl in D1. destruct (Req_EM_T xv 0) as [|N0]; [lra|].
    assert (Ed : fv d = PInf).
    { destruct (fv d) as [| |dv|] eqn:Ed; simpl in D1; try tauto. exfalso.
      apply fval_fin_iff in Ed. destruct Ed as [_ Ed]. pose proof (finite_le_max (d : flt (p_T p))) as K. rewrite Ed in K.
      pose proof (Rle_abs dv) as K2. assert (1 / xv <= max_val (f := p_T p)) by lra.
      assert (xv * (1 / xv) <= xv * max_val (f := p_T p)) by (apply Rmult_le_compat_l; lra).
      replace (xv * (1 / xv)) with 1 in H0 by (field; lra). lra. }
    destruct (as_div_down _ _ _ AS one d) as (t & [T1 T2] & Rt).
    { rewrite E1, Ed. simpl. discriminate. }
    rewrite E1, Ed in T1. simpl in T1.
    exists t, 0%nat. split.
    + intros q Q0 _. destruct (fv t); simpl in *; try tauto; lra.
    + intros fuel Hf. unfold root_aux_dn. apply body_runs.
      assert (n_gt x one = false) as ->.
      { destruct (n_gt x one) eqn:K; auto. apply (ns_lt _ _ (fnumspec p)) in K. rewrite E1, Ex in K. simpl in K. lra. }
      assert (n_eq N x one = false) as ->.
      { destruct (n_eq N x one) eqn:K; auto. apply (ns_eq _ _ (fnumspec p)) in K. rewrite E1, Ex in K. destruct K as [K _]. injection K. lra. }
      eapply runsI_bind; [exact Rd|]. eapply runsI_bind; [apply root_aux_inf; [lia|exact Ed|exact Hf]|]. exact Rt.
Qed.
End Inf.

Section Nth.
Context (p : platform) (k : rkind) (debug : bool) (c : ckind) (ord : site -> bool).
Notation N := (fnum p).
Notation P := (fpol p Save k debug c ord).
Notation Q := (fpol p SaveUnprotected k debug c ord).
Notation ready := (fready k).
Notation fv := (@fval (p_T p)).
Context (NE : allows_empty c = false).

Ltac nb := try change (negb true) with false; try change (negb false) with true; cbv iota.

Lemma is_pos_x (a : T N) : is_pos a = true <-> xlt (Fin 0) (fv a).
Proof. unfold is_pos, n_gt, zero. rewrite (ns_lt _ _ (fnumspec p)), (ns_0 _ _ (fnumspec p)). reflexivity. Qed.
Lemma is_zero_x (a : T N) : is_zero a = true <-> fv a = Fin 0.
Proof. unfold is_zero, zero. rewrite (ns_eq _ _ (fnumspec p)), (ns_0 _ _ (fnumspec p)). split; [tauto|intros ->; split; [reflexivity|discriminate]]. Qed.
Lemma neg_x (a : T N) : exists t : T N, fv t = xopp (fv a) /\ pureM (neg a) t.
Proof. destruct (ns_neg _ _ (fnumspec p) a) as (t & E & R). eauto. Qed.

Lemma nth_root_ne dbg (x : itv N) n : wide p -> (1 <= n <= 2 ^ prec (p_T p))%Z -> fvalid x ->
  (Z.even n = true -> xle (Fin 0) (fv (up x))) ->
  exists z f0, encloses (N := N) fval z (real_roots n (fmem x)) /\
    forall fuel, (f0 < fuel)%nat -> runsI ready (nth_root P dbg fuel x n) z.
Proof.
  intros W Hn (Hlu & Hl & Hu) HE.
  assert (TI : test_input_i P x = false) by (apply test_false, NE).
  assert (AS : pureM (assert_ dbg (0 <? n)%Z) tt).
  { intros s. unfold assert_. rewrite (proj2 (Z.ltb_lt 0 n)) by lia. destruct dbg; reflexivity. }
  destruct (Z.eq_dec n 1) as [->|N1].
  { exists x, 0%nat. split.
    - intros t [Ht _]. change (Z.to_nat 1) with 1%nat in Ht. rewrite pow_1 in Ht. exact Ht.
    - intros fuel _. unfold nth_root. rewrite TI. eapply runsI_bind; [apply pure_runsI, AS|].
      apply runsI_ret. }
  assert (Hn2 : (2 <= n <= 2 ^ prec (p_T p))%Z) by lia.
  assert (E0 : fv (zero : T N) = Fin 0) by (apply (ns_0 _ _ (fnumspec p))).
  assert (Odd : Z.odd n = negb (Z.even n)) by (rewrite Z.negb_even; reflexivity).
  assert (NZ : Z.to_nat n <> 0%nat) by lia.
  assert (OPP : forall t, Z.even n = false -> (- t) ^ Z.to_nat n = - t ^ Z.to_nat n).
  { intros t EV. apply pow_neg_odd; [lia|exact EV]. }
  assert (POW0 : 0 ^ Z.to_nat n = 0) by (apply pow_i; lia).
  (* the lower end when the lower bound is negative and the order odd *)
  assert (LOW : xlt (fv (low x)) (Fin 0) -> Z.even n = false -> exists (nl t l : T N) f0,
    pureM (neg (low x)) nl /\ (forall fuel, (f0 < fuel)%nat -> runsI ready (root_aux_up fuel Q nl n) t) /\ pureM (neg t) l /\
    forall r, xle (fv (low x)) (Fin (r ^ Z.to_nat n)) -> xle (fv l) (Fin r)).
  { intros L EV. destruct (neg_x (low x)) as (nl & Enl & Rnl).
    destruct (up_ext p SaveUnprotected k debug c ord NE nl n W Hn2) as (t & f0 & Ht & Rt).
    { rewrite Enl. destruct (fv (low x)); simpl in *; try tauto; lra. }
    destruct (neg_x t) as (l & El & Rl). exists nl, t, l, f0. repeat split; auto.
    intros r Hr. rewrite El. destruct (Rle_or_lt 0 r) as [R0|R0].
    - specialize (Ht 0 (Rle_refl 0)). rewrite POW0, Enl in Ht.
      assert (K : xle (Fin 0) (fv t)). { apply Ht. destruct (fv (low x)); simpl in *; try tauto; lra. }
      destruct (fv t); simpl in *; try tauto; lra.
    - specialize (Ht (- r) ltac:(lra)). rewrite (OPP r EV), Enl in Ht.
      assert (K : xle (Fin (- r)) (fv t)). { apply Ht. destruct (fv (low x)); simpl in *; try tauto; lra. }
      destruct (fv t); simpl in *; try tauto; lra. }
  assert (NEGP : forall t, Z.even n = false -> 0 <= t ^ Z.to_nat n -> 0 <= t).
  { intros t EV Ht. destruct (Rle_or_lt 0 t) as [|T]; auto. exfalso.
    assert (0 < (- t) ^ Z.to_nat n) by (apply pow_lt; lra). rewrite (OPP t EV) in H. lra. }
  unfold nth_root. rewrite TI. unfold fmem, mem, real_roots.
  assert (BODY : exists z f0, encloses (N := N) fval z (fun r => (xle (fv (low x)) (Fin (r ^ Z.to_nat n)) /\ xle (Fin (r ^ Z.to_nat n)) (fv (up x))) /\ (Z.even n = true -> 0 <= r)) /\
   forall fuel, (f0 < fuel)%nat -> runsI ready
      (if negb (is_pos (up x)) then
        if is_zero (up x) then
          if negb (Z.odd n) || is_zero (low x) then ret (mk zero zero)
          else
            let! nl := neg (low x) in
            let! t := root_aux_up fuel Q nl n in
            let! l := neg t in ret (mk l zero)
        else if negb (Z.odd n) then i_empty P
        else
          mk_args (p_ord P (H_arith2, 287%Z))
            (let! nl := neg (low x) in let! t := root_aux_up fuel Q nl n in neg t)
            (let! nu := neg (up x) in let! t := root_aux_dn fuel Q nu n in neg t)
      else
        let! u := root_aux_up fuel Q (up x) n in
        if negb (is_pos (low x)) then
          if negb (Z.odd n) || is_zero (low x) then ret (mk zero u)
          else
            let! nl := neg (low x) in
            let! t := root_aux_up fuel Q nl n in
            let! l := neg t in ret (mk l u)
        else
          let! l := root_aux_dn fuel Q (low x) n in ret (mk l u)) z).
  2:{ destruct BODY as (z & f0 & B1 & B2). exists z, f0. split; [exact B1|]. intros fuel Hf.
      eapply runsI_bind; [apply pure_runsI, AS|]. rewrite (proj2 (Z.eqb_neq n 1) N1). apply B2, Hf. }
  destruct (is_pos (up x)) eqn:PU; nb.
  - apply is_pos_x in PU.
    destruct (up_ext p SaveUnprotected k debug c ord NE (up x) n W Hn2 PU) as (tu & fu & Htu & Ru).
    assert (UP : forall r, xle (Fin (r ^ Z.to_nat n)) (fv (up x)) -> (Z.even n = true -> 0 <= r) -> xle (Fin r) (fv tu)).
    { intros r Hr He. destruct (Rle_or_lt 0 r) as [R0|R0]; [apply Htu; assumption|].
      assert (K : xle (Fin 0) (fv tu)). { apply Htu; [lra|]. rewrite POW0. destruct (fv (up x)); simpl in *; try tauto; lra. }
      destruct (fv tu); simpl in *; try tauto; lra. }
    destruct (is_pos (low x)) eqn:PL; nb.
    + apply is_pos_x in PL. destruct (fv (low x)) as [| |l|] eqn:El; simpl in PL; try tauto; try congruence.
      destruct (dn_ext p SaveUnprotected k debug c ord NE (low x) n l W Hn2 El PL) as (tl & fl & Htl & Rl).
      exists (mk tl tu), (Nat.max fl fu). split.
      * intros r [[A B] He]. unfold mem. cbn [low up]. split; [|apply UP; assumption]. simpl in A. apply Htl; [|exact A].
        destruct (Z.even n) eqn:EV; [auto|]. apply NEGP; [reflexivity|lra].
      * intros fuel Hf. eapply runsI_bind; [apply Ru; lia|]. cbv beta. eapply runsI_bind; [apply Rl; lia|]. apply runsI_ret.
    + destruct (negb (Z.odd n) || is_zero (low x)) eqn:C1.
      * exists (mk zero tu), fu. split.
        -- intros r [[A B] He]. unfold mem. cbn [low up]. rewrite E0. split; [|apply UP; assumption]. simpl.
           rewrite Odd, negb_involutive in C1. destruct (Z.even n) eqn:EV; [auto|]. simpl in C1.
           apply is_zero_x in C1. rewrite C1 in A. simpl in A. apply NEGP; [reflexivity|lra].
        -- intros fuel Hf. eapply runsI_bind; [apply Ru; lia|]. apply runsI_ret.
      * apply orb_false_iff in C1. destruct C1 as [C1 C2]. rewrite Odd, negb_involutive in C1.
        destruct LOW as (nl & t & l & f0 & R1 & R2 & R3 & HL); [|exact C1|].
        { assert (~ xlt (Fin 0) (fv (low x))) by (rewrite <- is_pos_x, PL; discriminate).
          assert (fv (low x) <> Fin 0) by (rewrite <- is_zero_x, C2; discriminate).
          destruct (fv (low x)) as [| |l|]; simpl in *; try tauto; try (destruct (fv (up x)); tauto).
          assert (l <> 0) by congruence. lra. }
        exists (mk l tu), (Nat.max f0 fu). split.
        -- intros r [[A B] He]. unfold mem. cbn [low up]. split; [apply HL, A|apply UP; assumption].
        -- intros fuel Hf. eapply runsI_bind; [apply Ru; lia|]. cbv beta.
           eapply runsI_bind; [apply pure_runsI, R1|]. eapply runsI_bind; [apply R2; lia|].
           eapply runsI_bind; [apply pure_runsI, R3|]. apply runsI_ret.
  - assert (PU' : ~ xlt (Fin 0) (fv (up x))) by (rewrite <- is_pos_x, PU; discriminate).
    destruct (is_zero (up x)) eqn:ZU.
    + apply is_zero_x in ZU.
      destruct (negb (Z.odd n) || is_zero (low x)) eqn:C1.
      * exists (mk zero zero), 0%nat. split; [|intros; apply runsI_ret].
        intros r [[A B] He]. unfold mem. cbn [low up]. rewrite E0. rewrite ZU in B. simpl in B |- *.
        assert (r = 0); [|lra]. destruct (Req_dec r 0) as [|T]; auto. exfalso.
        rewrite Odd, negb_involutive in C1. destruct (Z.even n) eqn:EV.
        -- specialize (He eq_refl). assert (0 < r ^ Z.to_nat n) by (apply pow_lt; lra). lra.
        -- simpl in C1. apply is_zero_x in C1. rewrite C1 in A. simpl in A.
           assert (r ^ Z.to_nat n <> 0) by (apply pow_nonzero; auto). lra.
      * apply orb_false_iff in C1. destruct C1 as [C1 C2]. rewrite Odd, negb_involutive in C1.
        destruct LOW as (nl & t & l & f0 & R1 & R2 & R3 & HL); [|exact C1|].
        { assert (fv (low x) <> Fin 0) by (rewrite <- is_zero_x, C2; discriminate). rewrite ZU in Hlu.
          destruct (fv (low x)) as [| |l|]; simpl in *; try tauto. assert (l <> 0) by congruence. lra. }
        exists (mk l zero), f0. split.
        -- intros r [[A B] He]. unfold mem. cbn [low up]. split; [apply HL, A|]. rewrite E0. rewrite ZU in B. simpl in B |- *.
           destruct (Rle_or_lt r 0) as [|T]; auto. assert (0 < r ^ Z.to_nat n) by (apply pow_lt; lra). lra.
        -- intros fuel Hf. eapply runsI_bind; [apply pure_runsI, R1|]. eapply runsI_bind; [apply R2; lia|].
           eapply runsI_bind; [apply pure_runsI, R3|]. apply runsI_ret.
    + assert (ZU' : fv (up x) <> Fin 0) by (rewrite <- is_zero_x, ZU; discriminate).
      destruct (fv (up x)) as [| |u|] eqn:Eu; simpl in PU'; try tauto; try (exfalso; destruct (fv (low x)); tauto).
      assert (u <> 0) by congruence. assert (u < 0) by lra.
      rewrite Odd, negb_involutive. destruct (Z.even n) eqn:EV; [specialize (HE eq_refl); simpl in HE; lra|].
      destruct LOW as (nl & t & l & f0 & R1 & R2 & R3 & HL); [|reflexivity|].
      { destruct (fv (low x)) as [| |l|]; simpl in *; try tauto; lra. }
      destruct (neg_x (up x)) as (nu & Enu & Rnu). rewrite Eu in Enu. simpl in Enu.
      destruct (dn_ext p SaveUnprotected k debug c ord NE nu n (- u) W Hn2 Enu ltac:(lra)) as (tu & fu & Htu & Ru).
      destruct (neg_x tu) as (ntu & Entu & Rntu).
      exists (mk l ntu), (Nat.max f0 fu). split.
      * intros r [[A B] He]. unfold mem. cbn [low up]. split; [apply HL, A|]. rewrite Entu. simpl in B.
        assert (R0 : r < 0).
        { destruct (Rlt_or_le r 0) as [|T]; auto. assert (0 <= r ^ Z.to_nat n) by (apply pow_le; lra). lra. }
        specialize (Htu (- r) ltac:(lra)). rewrite (OPP r eq_refl) in Htu. specialize (Htu ltac:(lra)).
        destruct (fv tu); simpl in *; try tauto; lra.
      * intros fuel Hf. apply runsI_mk_args.
        -- eapply runsI_bind; [apply pure_runsI, R1|]. eapply runsI_bind; [apply R2; lia|]. apply pure_runsI, R3.
        -- eapply runsI_bind; [apply pure_runsI, Rnu|]. eapply runsI_bind; [apply Ru; lia|]. apply pure_runsI, Rntu.
Qed.
End Nth.

(** * Properties C50, C51: base types without rounding *)

From Coq Require Import Reals ZArith Lra Lia Bool Psatz QArith Qreals.
From Verif Require Import Outcome Base Checking Interval Utility Arith Arith2 FloatNum Spec
  ExactNum SpecExact ExactProof IntProof.
Local Open Scope R_scope.

(** ** C50: exact base types give exact intervals

    For every exact ordered field (any number type [F] whose operations are exact
    with respect to a valuation [v] in the reals), every checking policy, order of
    evaluation and assertion setting. *)
Theorem C50_binary : forall (F : exact_type) (v : ef_T F -> R), exact_field F v ->
  forall (debug : bool) (c : ckind) (ord : site -> bool) (x y : itv (exact_num F)),
  let P := exact_pol (exact_num F) debug c ord in
  v (low x) <= v (up x) -> v (low y) <= v (up y) ->
  gives_exactly v (op_add P x y) (image2 Rplus (xset v x) (xset v y)) /\
  gives_exactly v (op_sub P x y) (image2 Rminus (xset v x) (xset v y)) /\
  gives_exactly v (op_mul P x y) (image2 Rmult (xset v x) (xset v y)) /\
  (~ xset v y 0 -> gives_exactly v (op_div P x y) (image2 Rdiv (xset v x) (xset v y))) /\
  gives_exactly v (u_min P x y) (image2 Rmin (xset v x) (xset v y)) /\
  gives_exactly v (u_max P x y) (image2 Rmax (xset v x) (xset v y)).
Proof.
  intros F v HF debug c ord x y P Hx Hy.
  split; [apply exact_add; auto|]. split; [apply exact_sub; auto|]. split; [apply exact_mul; auto|].
  split; [intros; apply exact_div; auto|]. split; [apply exact_min; auto|apply exact_max; auto].
Qed.
Print Assumptions C50_binary.

Theorem C50_unary : forall (F : exact_type) (v : ef_T F -> R), exact_field F v ->
  forall (debug : bool) (c : ckind) (ord : site -> bool) (x : itv (exact_num F)),
  let P := exact_pol (exact_num F) debug c ord in
  v (low x) <= v (up x) ->
  gives_exactly v (op_neg P x) (image1 Ropp (xset v x)) /\
  gives_exactly v (u_abs P x) (image1 Rabs (xset v x)) /\
  gives_exactly v (square P x) (image1 (fun r => r * r) (xset v x)).
Proof.
  intros F v HF debug c ord x P Hx.
  split; [apply exact_neg; auto|]. split; [apply exact_abs; auto|apply exact_square; auto].
Qed.
Print Assumptions C50_unary.

(** pow(x, n) for every int n but the least one (whose opposite is not an int);
    a negative exponent needs a zero-free interval, and 0^0 is excluded. *)
Theorem C50_pow : forall (F : exact_type) (v : ef_T F -> R), exact_field F v ->
  forall (debug : bool) (c : ckind) (ord : site -> bool) (x : itv (exact_num F)) (n : Z),
  let P := exact_pol (exact_num F) debug c ord in
  v (low x) <= v (up x) ->
  ((0 < n)%Z -> gives_exactly v (pow P x n) (image1 (fun r => r ^ Z.to_nat n) (xset v x))) /\
  (n = 0%Z -> ~ (forall r, xset v x r <-> r = 0) -> gives_exactly v (pow P x n) (point 1)) /\
  ((-2147483648 < n < 0)%Z -> ~ xset v x 0 ->
     gives_exactly v (pow P x n) (image1 (fun r => / r ^ Z.to_nat (- n)) (xset v x))).
Proof.
  intros F v HF debug c ord x n P Hx.
  split; [intros; apply exact_pow_pos; auto|]. split; [intros ->; intros; apply exact_pow_0; auto|].
  intros; apply exact_pow_neg; auto.
Qed.
Print Assumptions C50_pow.

(** Outside the zero-free case there is no infinity to return: with assertions
    enabled, dividing a nonzero interval by one that contains zero stops in a
    failed assertion. *)
Theorem C50_div_zero : forall (F : exact_type) (v : ef_T F -> R), exact_field F v ->
  forall (c : ckind) (ord : site -> bool) (x y : itv (exact_num F)),
  let P := exact_pol (exact_num F) true c ord in
  v (low x) <= v (up x) -> v (low y) <= v (up y) ->
  xset v y 0 -> ~ (v (low y) = 0 /\ v (up y) = 0) -> ~ (v (low x) = 0 /\ v (up x) = 0) ->
  forall mode, op_div P x y mode = (AssertFail, mode).
Proof. intros F v HF c ord x y P. intros. apply (exact_div_zero F v HF); auto. Qed.
Print Assumptions C50_div_zero.

(** Without assertions, an unspecified numeric_limits<T>::infinity() (that is T())
    is used as a bound: the result encloses no quotient at all. *)
Theorem C50_div_zero_release : forall (F : exact_type) (v : ef_T F -> R), exact_field F v ->
  forall (c : ckind) (ord : site -> bool),
  let P := exact_pol (exact_num F) false c ord in
  let i a b := mk (N := exact_num F) (ef_int F a) (ef_int F b) in
  exists z, (forall mode, op_div P (i 1 1)%Z (i 0 2)%Z mode = (Ok z, mode)) /\
    quotients (xset v (i 1 1)%Z) (xset v (i 0 2)%Z) 1 /\ ~ exists r, xset v z r.
Proof.
  intros F v HF c ord P i.
  assert (B : forall a b : Z, ef_lt F (ef_int F a) (ef_int F b) = (a <? b)%Z /\
    ef_le F (ef_int F a) (ef_int F b) = (a <=? b)%Z /\ ef_eq F (ef_int F a) (ef_int F b) = (a =? b)%Z).
  { intros a b. repeat split; apply eq_true_iff_eq.
    - rewrite (xf_lt _ _ HF), !(xf_int _ _ HF), Z.ltb_lt. split; [apply lt_IZR|apply IZR_lt].
    - rewrite (xf_le _ _ HF), !(xf_int _ _ HF), Z.leb_le. split; [apply le_IZR|apply IZR_le].
    - rewrite (xf_eq _ _ HF), !(xf_int _ _ HF), Z.eqb_eq. split; [apply eq_IZR|congruence]. }
  exists (mk (N := exact_num F) (ef_div F (ef_int F 1) (ef_int F 2)) (ef_int F 0)). split.
  - intros mode. unfold op_div, test_input_ii, test_input_i, zero_in, P, i. cbn [low up].
    assert (E : forall a b, (a <=? b)%Z = true -> ck_is_empty (gchecking (exact_num F) false c) (ef_int F a) (ef_int F b) = false).
    { intros a b L. destruct c; simpl; auto; rewrite (proj1 (proj2 (B a b))), L; reflexivity. }
    cbn [p_ck exact_pol]. rewrite !E by reflexivity. cbn [orb].
    unfold is_neg, is_pos, is_zero, n_gt, zero. cbn [exact_num n_lt n_le n_eq n_cst].
    rewrite !(proj1 (B _ _)), !(proj2 (proj2 (B _ _))). cbn [negb andb Z.ltb Z.eqb Z.compare Pos.compare Pos.compare_cont].
    unfold div_positive, is_neg, is_zero, zero. cbn [low up exact_num n_lt n_le n_eq n_cst].
    rewrite !(proj1 (B _ _)), !(proj2 (proj2 (B _ _))). cbn [negb andb Z.ltb Z.eqb Z.compare Pos.compare Pos.compare_cont].
    unfold with_rnd. cbn [p_prot exact_pol].
    assert (D : forall s, div_down (p_ar P) (ef_int F 1) (ef_int F 2) s = (Ok (ef_div F (ef_int F 1) (ef_int F 2)), s)).
    { intros s. apply (exact_div_run F v HF false c ord). rewrite (xf_int _ _ HF). lra. }
    assert (PI : forall s, ck_pos_inf (p_ck P) s = (Ok (ef_int F 0), s)) by (intros s; unfold P; destruct c; reflexivity).
    unfold test_input_i. cbn [low up p_ck exact_pol]. rewrite E by reflexivity.
    unfold mk_args, args2, bind. unfold P in D, PI. cbn [p_ck exact_pol] in PI.
    destruct (p_ord _ _);
      [rewrite D, PI|rewrite PI, D]; reflexivity.
  - split.
    + exists 1, 1. unfold xset, i. cbn [low up]. rewrite !(xf_int _ _ HF). repeat split; lra.
    + intros (r & Hr). unfold xset in Hr. cbn [low up] in Hr.
      rewrite (xf_div _ _ HF), !(xf_int _ _ HF) in Hr by (rewrite (xf_int _ _ HF); lra). lra.
Qed.
Print Assumptions C50_div_zero_release.

(** Rational numbers are such a field; [2/3, 3/4] * [-4, 5] is computed. *)
Example C50_rational : exact_field Q_type Q2R /\
  (let x := mk (N := exact_num Q_type) (2 # 3)%Q (3 # 4)%Q in
   let y := mk (N := exact_num Q_type) (-4 # 1)%Q (5 # 1)%Q in
   Q2R (low x) <= Q2R (up x) /\ Q2R (low y) <= Q2R (up y) /\ xset (F := Q_type) Q2R y 0 /\ ~ xset (F := Q_type) Q2R x 0 /\
   op_mul (exact_pol (exact_num Q_type) true CkStrict (fun _ => true)) x y RNE
     = (Ok (mk (N := exact_num Q_type) (-3 # 1)%Q (15 # 4)%Q), RNE) /\
   pow (exact_pol (exact_num Q_type) true CkStrict (fun _ => true)) x (-2) RNE
     = (Ok (mk (N := exact_num Q_type) (16 # 9)%Q (9 # 4)%Q), RNE)).
Proof.
  split; [exact Q_exact|]. cbv zeta. unfold xset. cbn [low up].
  repeat split; try (vm_compute; reflexivity); unfold Q2R; simpl; try lra.
Qed.

(** ** C51: machine integers *)
Theorem C51_operations : forall (debug : bool) (c : ckind) (ord : site -> bool) (x y : itv int_num),
  let P := exact_pol int_num debug c ord in
  int_itv x -> int_itv y ->
  int_gives (op_add P x y) (image2 Rplus (iset x) (iset y)) /\
  int_gives (op_sub P x y) (image2 Rminus (iset x) (iset y)) /\
  int_gives (op_mul P x y) (image2 Rmult (iset x) (iset y)) /\
  int_gives (op_neg P x) (image1 Ropp (iset x)) /\
  int_gives (square P x) (image1 (fun r => r * r) (iset x)) /\
  int_gives (u_abs P x) (image1 Rabs (iset x)).
Proof.
  intros debug c ord x y P Hx Hy.
  assert (Lx : (low x <= up x)%Z) by apply Hx. assert (Ly : (low y <= up y)%Z) by apply Hy.
  split; [apply int_add; auto|]. split; [apply int_sub; auto|]. split; [apply int_mul; auto|].
  split; [apply int_neg; auto|]. split; [apply int_square; auto|apply int_abs; auto].
Qed.
Print Assumptions C51_operations.

(** Both alternatives occur. *)
Example C51_cases :
  let P := exact_pol int_num true CkStrict (fun _ => true) in
  let x := mk (N := int_num) (-3)%Z 70000%Z in
  int_itv x /\ op_add P x x RNE = (Ok (mk (N := int_num) (-6)%Z 140000%Z), RNE) /\
  op_mul P x x RNE = (UB, RNE).
Proof. cbv zeta. unfold int_itv. cbn [low up]. repeat split; try lia; vm_compute; reflexivity. Qed.

(** Division truncates: for all ints 0 < a < b the quotient [a,a] / [b,b] is
    [0,0], which does not contain a/b. *)
Theorem C51_division_not_enclosing : forall (debug : bool) (c : ckind) (ord : site -> bool) (a b : Z),
  let P := exact_pol int_num debug c ord in
  (0 < a < b)%Z -> (b <= 2147483647)%Z ->
  let x := mk (N := int_num) a a in let y := mk (N := int_num) b b in
  int_itv x /\ int_itv y /\
  exists z, (forall mode, op_div P x y mode = (Ok z, mode)) /\
    iset x (IZR a) /\ iset y (IZR b) /\ ~ iset z (IZR a / IZR b).
Proof.
  intros debug c ord a b P Hab Hb x y.
  split; [unfold int_itv; simpl; lia|]. split; [unfold int_itv; simpl; lia|].
  exists (mk (N := int_num) 0%Z 0%Z). split.
  - intros mode. unfold op_div, test_input_ii, P. rewrite !test1 by (simpl; lia). cbn [orb].
    assert (Z0 : zero_in (exact_pol int_num debug c ord) y = false).
    { unfold zero_in. rewrite test1 by (simpl; lia).
      change (negb (0 <? b)%Z && negb (b <? 0)%Z = false). rewrite (proj2 (Z.ltb_lt 0 b)) by lia. reflexivity. }
    rewrite Z0. unfold div_non_zero, with_rnd. cbn [p_prot exact_pol]. cbv zeta. rewrite !neg_iff.
    unfold x, y. cbn [low up]. rewrite (proj2 (Z.ltb_ge a 0)), (proj2 (Z.ltb_ge b 0)) by lia.
    assert (D : forall s, div_down (p_ar (exact_pol int_num debug c ord)) a b s = (Ok 0%Z, s)).
    { intros s. simpl. unfold ex_div, e_div, bind, under_mode. simpl.
      rewrite (proj2 (Z.eqb_neq b 0)) by lia. rewrite Z.quot_small by lia. reflexivity. }
    pose proof (D : forall s, div_up (p_ar (exact_pol int_num debug c ord)) a b s = (Ok 0%Z, s)) as D'.
    unfold mk_args, args2, bind. destruct (p_ord _ _); rewrite ?D, ?D', ?D; reflexivity.
  - unfold iset. simpl. split; [lra|]. split; [lra|].
    destruct Hab as [H1 H2]. apply IZR_lt in H1, H2.
    assert (0 < IZR a / IZR b) by (apply Rdiv_lt_0_compat; lra). lra.
Qed.
Print Assumptions C51_division_not_enclosing.

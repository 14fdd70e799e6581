(** * Intervals of machine integers *)

From Coq Require Import Reals ZArith Lra Lia Bool Psatz.
From Verif Require Import Outcome Base Checking Interval Utility Arith Arith2 FloatNum Spec ExtR Sem
  ExactNum SpecExact ExactProof.
Local Open Scope R_scope.

Section Int.
Context (debug : bool) (c : ckind) (ord : site -> bool).
Notation N := int_num.
Notation P := (exact_pol N debug c ord).
Notation I := (itv N).

Definition isum (m : M I) (lo hi : Z) : Prop :=
  forall mode, m mode = (if in_int lo && in_int hi then Ok (mk (N := N) lo hi) else UB, mode).

Lemma in_int_iff z : in_int z = true <-> (-2147483648 <= z <= 2147483647)%Z.
Proof. unfold in_int. rewrite andb_true_iff, !Z.leb_le. tauto. Qed.

Lemma iset_inj (lo hi : Z) (z : I) : (lo <= hi)%Z -> (forall r, iset z r <-> IZR lo <= r <= IZR hi) ->
  low z = lo /\ up z = hi.
Proof.
  intros L E. apply IZR_le in L. unfold iset in E.
  pose proof (proj2 (E (IZR lo)) ltac:(lra)) as A. pose proof (proj2 (E (IZR hi)) ltac:(lra)) as B.
  pose proof (proj1 (E (IZR (low z))) ltac:(lra)) as C. pose proof (proj1 (E (IZR (up z))) ltac:(lra)) as D.
  split; apply eq_IZR; lra.
Qed.
Lemma int_conclude (m : M I) (lo hi : Z) (S : R -> Prop) : isum m lo hi -> (lo <= hi)%Z ->
  (forall r, S r <-> IZR lo <= r <= IZR hi) -> int_gives m S.
Proof.
  intros Hm L HS mode. rewrite (Hm mode). destruct (in_int lo && in_int hi) eqn:E.
  - left. exists (mk (N := N) lo hi). split; auto. apply andb_true_iff in E. destruct E as [E1 E2].
    apply in_int_iff in E1, E2. split; [unfold int_itv; simpl; lia|]. intros r. rewrite HS. unfold iset. simpl. tauto.
  - right. split; auto. intros (z & [Z1 Z2] & D).
    destruct (iset_inj lo hi z L) as [<- <-]. { intros r. rewrite D. apply HS. }
    assert (in_int (low z) && in_int (up z) = true); [|congruence].
    apply andb_true_iff. rewrite !in_int_iff. lia.
Qed.

(** Evaluating two bounds, in either order. *)
Definition ib (p : Z) (m : M (T N)) : Prop := forall s, m s = (int_res p, s).
Lemma ib_args o p q (m1 m2 : M (T N)) : ib p m1 -> ib q m2 -> isum (mk_args o m1 m2) p q.
Proof.
  intros H1 H2 s. unfold mk_args, args2, bind. unfold ib, int_res in *.
  destruct o; rewrite ?H1, ?H2; destruct (in_int p), (in_int q); simpl; rewrite ?H1, ?H2; reflexivity.
Qed.
Lemma ib_add a b : ib (a + b) (add_down (p_ar P) a b). Proof. intros s. simpl. unfold int_res. unfold bind, ex_add, e_add, under_mode; simpl. unfold int_res. destruct (in_int (a+b)); reflexivity. Qed.
Lemma ib_sub a b : ib (a - b) (sub_down (p_ar P) a b). Proof. intros s. simpl. unfold bind, ex_sub, e_sub, under_mode; simpl. unfold int_res. destruct (in_int (a-b)); reflexivity. Qed.
Lemma ib_mul a b : ib (a * b) (mul_down (p_ar P) a b). Proof. intros s. simpl. unfold bind, ex_mul, e_mul, under_mode; simpl. unfold int_res. destruct (in_int (a*b)); reflexivity. Qed.
Lemma ib_mul_up a b : ib (a * b) (mul_up (p_ar P) a b). Proof. apply ib_mul. Qed.
Lemma ib_neg (a : T N) : ib (- a) (neg a). Proof. intros s. unfold neg, bind, e_opp, under_mode; simpl. unfold int_res. destruct (in_int (-a)); reflexivity. Qed.

Context (x y : I) (Hx : (low x <= up x)%Z) (Hy : (low y <= up y)%Z).

Lemma test1 (w : I) : (low w <= up w)%Z -> test_input_i P w = false.
Proof.
  intros L. assert (E : negb (low w <=? up w)%Z = false) by (rewrite (proj2 (Z.leb_le _ _) L); reflexivity).
  destruct c; try reflexivity; exact E.
Qed.
Lemma test2 : test_input_ii P x y = false.
Proof. unfold test_input_ii. rewrite !test1; auto. Qed.

Lemma iset_convex (w : I) : convex (iset w).
Proof. intros a b r A B Hr. unfold iset in *. lra. Qed.
Lemma hull_set (S : R -> Prop) lo hi : convex S -> S (IZR lo) -> S (IZR hi) ->
  (forall r, S r -> IZR lo <= r <= IZR hi) -> forall r, S r <-> IZR lo <= r <= IZR hi.
Proof. intros C A B K r. split; auto. intros Hr. apply (C (IZR lo) (IZR hi)); auto. Qed.

Lemma int_add : int_gives (op_add P x y) (image2 Rplus (iset x) (iset y)).
Proof.
  unfold op_add. rewrite test2.
  apply (int_conclude _ (low x + low y) (up x + up y)); [|lia|].
  - apply ib_args; apply ib_add.
  - apply IZR_le in Hx, Hy. apply hull_set.
    + apply add_conn; apply iset_convex.
    + exists (IZR (low x)), (IZR (low y)). rewrite plus_IZR. unfold iset. repeat split; lra.
    + exists (IZR (up x)), (IZR (up y)). rewrite plus_IZR. unfold iset. repeat split; lra.
    + intros r (a & b & A & B & ->). unfold iset in *. rewrite !plus_IZR. lra.
Qed.
Lemma int_sub : int_gives (op_sub P x y) (image2 Rminus (iset x) (iset y)).
Proof.
  unfold op_sub. rewrite test2.
  apply (int_conclude _ (low x - up y) (up x - low y)); [|lia|].
  - apply ib_args; apply ib_sub.
  - apply IZR_le in Hx, Hy. apply hull_set.
    + apply sub_conn; apply iset_convex.
    + exists (IZR (low x)), (IZR (up y)). rewrite minus_IZR. unfold iset. repeat split; lra.
    + exists (IZR (up x)), (IZR (low y)). rewrite minus_IZR. unfold iset. repeat split; lra.
    + intros r (a & b & A & B & ->). unfold iset in *. rewrite !minus_IZR. lra.
Qed.
Lemma int_neg : int_gives (op_neg P x) (image1 Ropp (iset x)).
Proof.
  unfold op_neg. rewrite test1 by auto.
  apply (int_conclude _ (- up x) (- low x)); [|lia|].
  - apply ib_args; apply ib_neg.
  - intros r. rewrite !opp_IZR. unfold iset. split.
    + intros (a & A & ->). lra.
    + intros A. exists (- r). split; lra.
Qed.

(** ** Multiplication *)
Lemma mul_set lo hi :
  (exists p q, (p = low x \/ p = up x) /\ (q = low y \/ q = up y) /\ lo = p * q)%Z ->
  (exists p q, (p = low x \/ p = up x) /\ (q = low y \/ q = up y) /\ hi = p * q)%Z ->
  (lo <= low x * low y <= hi /\ lo <= low x * up y <= hi /\ lo <= up x * low y <= hi /\ lo <= up x * up y <= hi)%Z ->
  forall r, image2 Rmult (iset x) (iset y) r <-> IZR lo <= r <= IZR hi.
Proof.
  intros (p & q & Cp & Cq & E1) (p' & q' & Cp' & Cq' & E2) (B1 & B2 & B3 & B4).
  assert (IN : forall (w : I) t, (low w <= up w)%Z -> t = low w \/ t = up w -> iset w (IZR t)).
  { intros w t L [->| ->]; apply IZR_le in L; unfold iset; lra. }
  apply hull_set.
  - apply mul_conn; apply iset_convex.
  - exists (IZR p), (IZR q). rewrite E1, mult_IZR. repeat split; auto; apply IN; auto.
  - exists (IZR p'), (IZR q'). rewrite E2, mult_IZR. repeat split; auto; apply IN; auto.
  - intros r (a & b & A & B & ->).
    destruct (mul_lo _ _ _ _ a b A B) as [(s & t & Cs & Ct & K) (s' & t' & Cs' & Ct' & K')].
    assert (G : forall s t, corner (IZR (low x)) (IZR (up x)) s -> corner (IZR (low y)) (IZR (up y)) t ->
       IZR lo <= s * t <= IZR hi).
    { intros s1 t1 [->| ->] [->| ->]; rewrite <- mult_IZR; split; apply IZR_le; lia. }
    pose proof (G s t Cs Ct). pose proof (G s' t' Cs' Ct'). lra.
Qed.

Lemma neg_iff (a : T N) : is_neg a = (a <? 0)%Z. Proof. reflexivity. Qed.
Lemma pos_iff (a : T N) : is_pos a = (0 <? a)%Z. Proof. reflexivity. Qed.

(** The M * M case: the minimum and the maximum of two products. *)
Lemma ib_min o p1 p2 (m1 m2 : M (T N)) : (p1 <= 0 /\ p2 <= 0)%Z -> ib p1 m1 -> ib p2 m2 ->
  ib (Z.min p1 p2) (let! p := args2 o m1 m2 in ret (std_min (fst p) (snd p))).
Proof.
  intros S H1 H2 s. unfold bind, args2. unfold ib, int_res in *.
  assert (E : in_int (Z.min p1 p2) = in_int p1 && in_int p2).
  { apply eq_true_iff_eq. rewrite andb_true_iff, !in_int_iff. lia. }
  rewrite E. unfold bind.
  assert (MN : std_min (N := N) p1 p2 = Z.min p1 p2).
  { unfold std_min. simpl. destruct (Z.ltb_spec p2 p1); lia. }
  destruct o; rewrite ?H1, ?H2; destruct (in_int p1), (in_int p2); simpl; rewrite ?H1, ?H2; simpl; rewrite ?MN; reflexivity.
Qed.
Lemma ib_max o p1 p2 (m1 m2 : M (T N)) : (0 <= p1 /\ 0 <= p2)%Z -> ib p1 m1 -> ib p2 m2 ->
  ib (Z.max p1 p2) (let! p := args2 o m1 m2 in ret (std_max (fst p) (snd p))).
Proof.
  intros S H1 H2 s. unfold bind, args2. unfold ib, int_res in *.
  assert (E : in_int (Z.max p1 p2) = in_int p1 && in_int p2).
  { apply eq_true_iff_eq. rewrite andb_true_iff, !in_int_iff. lia. }
  rewrite E. unfold bind.
  assert (MN : std_max (N := N) p1 p2 = Z.max p1 p2).
  { unfold std_max. simpl. destruct (Z.ltb_spec p1 p2); lia. }
  destruct o; rewrite ?H1, ?H2; destruct (in_int p1), (in_int p2); simpl; rewrite ?H1, ?H2; simpl; rewrite ?MN; reflexivity.
Qed.
Lemma isum_zero : isum (ret (mk (N := N) (zero : T N) (zero : T N))) 0 0.
Proof. intros s. reflexivity. Qed.

Lemma int_mul : int_gives (op_mul P x y) (image2 Rmult (iset x) (iset y)).
Proof.
  unfold op_mul. rewrite test2. unfold with_rnd. cbn [p_prot exact_pol]. cbv zeta.
  rewrite !neg_iff, !pos_iff.
  assert (EX : forall lo hi m, isum m lo hi ->
    (exists p q, (p = low x \/ p = up x) /\ (q = low y \/ q = up y) /\ lo = p * q)%Z ->
    (exists p q, (p = low x \/ p = up x) /\ (q = low y \/ q = up y) /\ hi = p * q)%Z ->
    (lo <= low x * low y <= hi /\ lo <= low x * up y <= hi /\ lo <= up x * low y <= hi /\ lo <= up x * up y <= hi)%Z ->
    int_gives m (image2 Rmult (iset x) (iset y))).
  { intros lo hi m Hm E1 E2 B. apply (int_conclude _ lo hi); [exact Hm|lia|]. apply mul_set; auto. }
  revert EX. generalize (image2 Rmult (iset x) (iset y)). intros S EX.
  assert (LIFT : forall a b lo, (a = low x \/ a = up x) -> (b = low y \/ b = up y) -> lo = (a * b)%Z ->
     (exists p q, (p = low x \/ p = up x) /\ (q = low y \/ q = up y) /\ lo = p * q)%Z) by (intros; eauto).
  destruct (Z.ltb_spec (low x) 0); destruct (Z.ltb_spec 0 (up x));
  destruct (Z.ltb_spec (low y) 0); destruct (Z.ltb_spec 0 (up y)); try lia;
  try (eapply EX; [first [apply isum_zero | apply ib_args; [apply ib_mul|apply ib_mul]]
        |eapply LIFT; [| |reflexivity]; tauto|eapply LIFT; [| |reflexivity]; tauto|nia]).
  2-8: (eapply EX; [apply isum_zero|exists (low x), (low y); split; [tauto|]; split; [tauto|nia]
          |exists (low x), (low y); split; [tauto|]; split; [tauto|nia]|nia]).
  eapply EX.
  - apply ib_args.
    + apply ib_min; [|apply ib_mul|apply ib_mul]. nia.
    + apply ib_max; [|apply ib_mul|apply ib_mul]. nia.
  - destruct (Z.min_spec (low x * up y) (up x * low y)) as [[_ ->]|[_ ->]]; eapply LIFT; [| |reflexivity| | |reflexivity]; tauto.
  - destruct (Z.max_spec (low x * low y) (up x * up y)) as [[_ ->]|[_ ->]]; eapply LIFT; [| |reflexivity| | |reflexivity]; tauto.
  - nia.
Qed.

(** ** Square, absolute value *)
Lemma sq_set lo hi : (exists p, (p = low x \/ p = up x) /\ hi = p * p)%Z ->
  ((0 <= low x \/ up x <= 0) /\ (exists p, (p = low x \/ p = up x) /\ lo = p * p) \/ (low x <= 0 <= up x /\ lo = 0))%Z ->
  (lo <= low x * low x <= hi /\ lo <= up x * up x <= hi)%Z ->
  forall r, image1 (fun r => r * r) (iset x) r <-> IZR lo <= r <= IZR hi.
Proof.
  intros (p & Cp & E1) HL (B1 & B2).
  assert (IN : forall t, t = low x \/ t = up x -> iset x (IZR t)).
  { intros t [->| ->]; apply IZR_le in Hx; unfold iset; lra. }
  apply hull_set.
  - apply fun_conn; [reg|apply iset_convex].
  - destruct HL as [(_ & q & Cq & ->)|[Z ->]].
    + exists (IZR q). rewrite mult_IZR. split; auto.
    + exists 0. split; [|lra]. unfold iset. split; apply IZR_le; lia.
  - exists (IZR p). rewrite E1, mult_IZR. split; auto.
  - intros r (a & A & ->). unfold iset in A.
    assert (G1 : IZR (low x) * IZR (low x) <= IZR hi) by (rewrite <- mult_IZR; apply IZR_le; lia).
    assert (G2 : IZR (up x) * IZR (up x) <= IZR hi) by (rewrite <- mult_IZR; apply IZR_le; lia).
    assert (G3 : IZR lo <= IZR (low x) * IZR (low x)) by (rewrite <- mult_IZR; apply IZR_le; lia).
    assert (G4 : IZR lo <= IZR (up x) * IZR (up x)) by (rewrite <- mult_IZR; apply IZR_le; lia).
    split.
    + destruct HL as [([Z|Z] & _)|[_ ->]]; [apply IZR_le in Z; nra|apply IZR_le in Z; nra|nra].
    + destruct (Rle_or_lt 0 a); nra.
Qed.
Lemma int_square : int_itv x -> int_gives (square P x) (image1 (fun r => r * r) (iset x)).
Proof.
  intros RX. unfold square. rewrite test1 by auto. unfold with_rnd. cbn [p_prot exact_pol]. cbv zeta.
  rewrite !neg_iff, !pos_iff.
  destruct (Z.ltb_spec (up x) 0); [|destruct (Z.ltb_spec 0 (low x))].
  - apply (int_conclude _ (up x * up x) (low x * low x)); [apply ib_args; apply ib_mul|nia|].
    apply sq_set; [exists (low x); auto| |nia]. left. split; [lia|]. exists (up x); auto.
  - apply (int_conclude _ (low x * low x) (up x * up x)); [apply ib_args; apply ib_mul|nia|].
    apply sq_set; [exists (up x); auto| |nia]. left. split; [lia|]. exists (low x); auto.
  - set (hi := if (up x <? - low x)%Z then (low x * low x)%Z else (up x * up x)%Z).
    apply (int_conclude _ 0 hi).
    + intros s. change (in_int 0 && in_int hi) with (in_int hi).
      unfold bind at 1. cbn [n_load x_lt int_num]. unfold e_opp, under_mode. cbn [x_opp int_num]. unfold int_res at 1.
      destruct (in_int (- low x)) eqn:E.
      * unfold hi. destruct (up x <? - low x)%Z; unfold bind; rewrite ib_mul_up; unfold int_res; match goal with |- context [in_int (?a * ?a)] => destruct (in_int (a * a)) end; reflexivity.
      * destruct (in_int hi) eqn:EH; auto. exfalso. apply in_int_iff in EH.
        assert (low x = -2147483648)%Z.
        { destruct (Z.eq_dec (low x) (-2147483648)); auto. assert (in_int (- low x) = true); [|congruence].
          apply in_int_iff. destruct RX. lia. }
        unfold hi in EH. destruct (Z.ltb_spec (up x) (- low x)); nia.
    + unfold hi. destruct (up x <? - low x)%Z; nia.
    + apply sq_set.
      * unfold hi. destruct (up x <? - low x)%Z; [exists (low x)|exists (up x)]; auto.
      * right. split; [lia|auto].
      * unfold hi. destruct (Z.ltb_spec (up x) (- low x)); nia.
Qed.
Lemma int_abs : int_itv x -> int_gives (u_abs P x) (image1 Rabs (iset x)).
Proof.
  intros RX. unfold u_abs. rewrite test1 by auto. rewrite neg_iff, pos_iff.
  assert (IX : forall w, (w <= up x)%Z -> (low x <= w)%Z -> iset x (IZR w)).
  { intros w W1 W2. apply IZR_le in W1, W2. unfold iset. lra. }
  destruct (Z.ltb_spec (low x) 0); simpl negb; cbv iota.
  - destruct (Z.ltb_spec 0 (up x)); simpl negb; cbv iota.
    + set (hi := Z.max (- low x) (up x)). apply (int_conclude _ 0 hi).
      * intros s. change (in_int 0 && in_int hi) with (in_int hi). unfold bind. rewrite ib_neg. unfold int_res.
        destruct (in_int (- low x)) eqn:E.
        -- assert (in_int hi = true) as ->.
           { apply in_int_iff. apply in_int_iff in E. destruct RX. unfold hi. lia. }
           unfold ret, std_max, hi. simpl. destruct (Z.ltb_spec (- low x) (up x)); do 3 f_equal; lia.
        -- destruct (in_int hi) eqn:EH; auto. exfalso. apply in_int_iff in EH.
           assert (in_int (- low x) = true); [|congruence]. apply in_int_iff. unfold hi in EH. destruct RX. lia.
      * unfold hi. lia.
      * apply hull_set.
        -- apply fun_conn; [apply Rcontinuity_abs|apply iset_convex].
        -- exists 0. rewrite Rabs_R0. split; auto. apply IX; lia.
        -- unfold hi. destruct (Z.max_spec (- low x) (up x)) as [[_ ->]|[_ ->]].
           ++ exists (IZR (up x)). split; [apply IX; lia|]. rewrite Rabs_pos_eq; auto. apply IZR_le; lia.
           ++ exists (IZR (low x)). split; [apply IX; lia|]. rewrite Rabs_left, opp_IZR; auto. apply IZR_lt; lia.
        -- intros r (a & A & ->). split; [apply Rabs_pos|]. unfold iset in A.
           assert (- IZR (low x) <= IZR hi) by (rewrite <- opp_IZR; apply IZR_le; unfold hi; lia).
           assert (IZR (up x) <= IZR hi) by (apply IZR_le; unfold hi; lia).
           apply Rabs_le. lra.
    + pose proof int_neg as K. intros mode.
      assert (SE : forall r, image1 Ropp (iset x) r <-> image1 Rabs (iset x) r).
      { assert (NG : forall a, iset x a -> Rabs a = - a).
        { intros a A. unfold iset in A. apply Rabs_left1. apply IZR_le in H0. lra. }
        intros r. split; intros (a & A & ->); exists a; split; auto; rewrite NG; auto. }
      destruct (K mode) as [(z & R1 & R2 & R3)|[R1 R2]]; [left|right].
      * exists z. split; [exact R1|]. split; [exact R2|]. intros r. rewrite R3. apply SE.
      * split; auto. intros (z & Z1 & Z2). apply R2. exists z. split; auto. intros r. rewrite Z2. symmetry. apply SE.
  - intros mode. left. exists x. split; [reflexivity|]. split; auto.
    intros r. assert (NG : forall a, iset x a -> Rabs a = a).
    { intros a A. unfold iset in A. apply Rabs_pos_eq. apply IZR_le in H. lra. }
    split.
    + intros A. exists r. rewrite NG; auto.
    + intros (a & A & ->). rewrite NG; auto.
Qed.
End Int.

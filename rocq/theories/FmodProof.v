(** * fmod on intervals of ints with the rounding of test/fmod.cpp *)

From Coq Require Import Reals ZArith Lra Lia Bool Psatz.
From Verif Require Import Outcome Base Checking Interval Utility Arith Arith2 FloatNum Spec ExtR Sem
  ExactNum SpecExact ExactProof SpecInt IntProof IntProgProof ExFmod.
Local Open Scope Z_scope.

Section Fmod.
Context (debug : bool) (c : ckind) (ord : site -> bool).
Notation N := int_num.
Notation P := (fm_pol debug c ord).
Notation I := (itv N).

Lemma quot_floor a b : 0 < b -> (if Z.rem a b <? 0 then Z.quot a b - 1 else Z.quot a b) = a / b.
Proof.
  intros B. pose proof (Z.quot_rem' a b) as E. pose proof (Z.rem_bound_abs a b ltac:(lia)) as H.
  set (q := Z.quot a b) in *. set (r := Z.rem a b) in *. clearbody q r.
  destruct (r <? 0) eqn:L; [apply Z.ltb_lt in L|apply Z.ltb_ge in L].
  - apply (Z.div_unique a b (q - 1) (r + b)); lia.
  - apply (Z.div_unique a b q r); lia.
Qed.
Lemma floor_fits a b : fits a -> 0 < b -> fits (a / b).
Proof.
  unfold fits. intros A B. split.
  - destruct (Z_lt_le_dec a 0).
    + apply Z.div_le_lower_bound; nia.
    + pose proof (Z.div_pos a b ltac:(lia) B). lia.
  - apply Z.div_le_upper_bound; nia.
Qed.
Lemma quot_fits a b : fits a -> 0 < b -> fits (Z.quot a b).
Proof.
  unfold fits. intros A B. pose proof (Z.quot_rem' a b) as E. pose proof (Z.rem_bound_abs a b ltac:(lia)) as H.
  pose proof (Z.rem_sign_mul a b ltac:(lia)) as S.
  set (q := Z.quot a b) in *. set (r := Z.rem a b) in *. clearbody q r.
  split; nia.
Qed.
Lemma fm_div a b s : fits a -> 0 < b -> fm_div_down a b s = (Ok (a / b), s).
Proof.
  intros A B. unfold fm_div_down. rewrite (proj2 (Z.eqb_neq b 0)) by lia.
  rewrite (proj2 (fits_iff _) (quot_fits a b A B)).
  pose proof (quot_floor a b B) as Q. pose proof (floor_fits a b A B) as F.
  destruct (Z.rem a b <? 0).
  - rewrite Q. unfold int_res. rewrite (proj2 (fits_iff _) F). reflexivity.
  - rewrite Q. reflexivity.
Qed.

(** The product of a number and an interval. *)
Definition pl n (y : I) : Z := Z.min (n * low y) (n * up y).
Definition pu n (y : I) : Z := Z.max (n * low y) (n * up y).
Lemma fm_mul (n : Z) (y : I) : low y <= up y -> isum (op_mul_ni (unprotect P) (n : T N) y) (pl n y) (pu n y).
Proof.
  intros Y. unfold op_mul_ni, test_input_ni.
  assert (TT : test_input_i (unprotect P) y = false).
  { exact (test1 debug c ord y Y). }
  intros s. unfold bind at 1 2. 
  assert (K : ck_is_nan (p_ck (unprotect P)) (n : T N) s = (Ok false, s)) by (destruct c; reflexivity).
  rewrite K. rewrite TT.
  change (is_neg (n : T N)) with (n <? 0). change (is_zero (n : T N)) with (n =? 0).
  unfold ret at 1.
  destruct (n <? 0) eqn:L; [apply Z.ltb_lt in L|apply Z.ltb_ge in L].
  - replace (pl n y) with (n * up y) by (unfold pl; nia). replace (pu n y) with (n * low y) by (unfold pu; nia).
    refine (ib_args _ _ _ _ _ _ _ s); [apply (ib_mul debug c ord)|apply (ib_mul_up debug c ord)].
  - destruct (n =? 0) eqn:E; [apply Z.eqb_eq in E; subst n|apply Z.eqb_neq in E].
    + reflexivity.
    + replace (pl n y) with (n * low y) by (unfold pl; nia). replace (pu n y) with (n * up y) by (unfold pu; nia).
      refine (ib_args _ _ _ _ _ _ _ s); [apply (ib_mul debug c ord)|apply (ib_mul_up debug c ord)].
Qed.
Lemma fm_sub (x p : I) : low x <= up x -> low p <= up p ->
  isum (op_sub (unprotect P) x p) (low x - up p) (up x - low p).
Proof.
  intros X Y. unfold op_sub.
  assert (TT : test_input_ii (unprotect P) x p = false) by exact (test2 debug c ord x p X Y).
  rewrite TT. intros s. refine (ib_args _ _ _ _ _ _ _ s); apply (ib_sub debug c ord).
Qed.
Lemma fm_sub_ni (x : T N) (p : I) : low p <= up p ->
  isum (op_sub_ni (unprotect P) x p) (x - up p) (x - low p).
Proof.
  intros Y. unfold op_sub_ni, test_input_ni.
  assert (TT : test_input_i (unprotect P) p = false) by exact (test1 debug c ord p Y).
  intros s. unfold bind at 1 2.
  assert (K : ck_is_nan (p_ck (unprotect P)) x s = (Ok false, s)) by (destruct c; reflexivity).
  rewrite K, TT. unfold ret at 1.
  refine (ib_args _ _ _ _ _ _ _ s); apply (ib_sub debug c ord).
Qed.

(** The four bounds computed. *)
Definition four (x y : I) n : bool :=
  in_int (pl n y) && in_int (pu n y) && (in_int (low x - pu n y) && in_int (up x - pl n y)).
Definition fm_res (x y : I) n : outcome I :=
  if four x y n then Ok (mk (N := N) (low x - pu n y) (up x - pl n y)) else UB.

Lemma pl_pu n y : pl n y <= pu n y. Proof. unfold pl, pu. lia. Qed.

Lemma fm_fmod (x y : I) s : int_itv x -> int_itv y -> 0 < low y ->
  fmod P x y s = (fm_res x y (low x / (if low x <? 0 then low y else up y)), s).
Proof.
  intros X Y L. unfold int_itv in X, Y. unfold fmod.
  assert (TT : test_input_ii P x y = false) by (apply (test2 debug c ord x y); lia).
  rewrite TT. change (is_neg (low x)) with (low x <? 0).
  set (b := if low x <? 0 then low y else up y).
  assert (B : 0 < b) by (unfold b; destruct (low x <? 0); lia).
  change (with_rnd P ?m s) with (m s). cbv beta zeta. unfold bind at 1.
  change (div_down (p_ar P)) with fm_div_down.
  rewrite (fm_div (low x) b s) by (unfold fits; lia).
  set (n := low x / b). change (fm_res x y _) with (fm_res x y n). clearbody n.
  cbv beta iota.
  change ((let! n := int_down (p_ar P) n in
     let! p := op_mul_ni (unprotect P) n y in let! z := op_sub (unprotect P) x p in ctor_back P z) s)
    with ((let! p := op_mul_ni (unprotect P) (n : T N) y in
     let! z := op_sub (unprotect P) x p in ctor_copy z) s).
  unfold bind at 1. rewrite (fm_mul n y ltac:(lia) s). unfold fm_res, four.
  destruct (in_int (pl n y) && in_int (pu n y)); [|reflexivity].
  cbv beta iota. unfold bind. rewrite (fm_sub x (mk (N := N) (pl n y) (pu n y)) ltac:(lia) (pl_pu n y) s). cbn [low up].
  destruct (in_int (low x - pu n y) && in_int (up x - pl n y)); reflexivity.
Qed.
Lemma fm_fmod_in (x : I) (v : T N) s : int_itv x -> fits v -> 0 < v ->
  fmod_in P x v s = (fm_res x (mk (N := N) v v) (low x / v), s).
Proof.
  intros X Y L. unfold int_itv in X. unfold fits in Y. unfold fmod_in, test_input_in.
  assert (TT : test_input_i P x = false) by (apply (test1 debug c ord x); lia).
  assert (K : ck_is_nan (p_ck P) v s = (Ok false, s)) by (destruct c; reflexivity).
  rewrite TT. unfold bind at 1. rewrite K.
  change (with_rnd P ?m s) with (m s). cbv beta zeta. unfold bind at 1.
  change (div_down (p_ar P)) with fm_div_down.
  rewrite (fm_div (low x) v s) by (unfold fits; lia).
  set (n := low x / v). clearbody n.
  assert (KN : ctor_num (unprotect P) v s = (Ok (mk (N := N) v v), s)) by (destruct c; reflexivity).
  cbv beta iota.
  change ((let! n := int_down (p_ar P) n in let! iy := ctor_num (unprotect P) v in
     let! p := op_mul_ni (unprotect P) n iy in let! z := op_sub (unprotect P) x p in ctor_back P z) s)
    with ((let! iy := ctor_num (unprotect P) v in let! p := op_mul_ni (unprotect P) (n : T N) iy in
     let! z := op_sub (unprotect P) x p in ctor_copy z) s).
  unfold bind at 1. rewrite KN. set (y := mk (N := N) v v).
  assert (Ly : low y <= up y) by (simpl; lia). clearbody y.
  unfold bind at 1. rewrite (fm_mul n y Ly s). unfold fm_res, four.
  destruct (in_int (pl n y) && in_int (pu n y)); [|reflexivity].
  cbv beta iota. unfold bind. rewrite (fm_sub x (mk (N := N) (pl n y) (pu n y)) ltac:(lia) (pl_pu n y) s). cbn [low up].
  destruct (in_int (low x - pu n y) && in_int (up x - pl n y)); reflexivity.
Qed.
Lemma fm_fmod_ni (u : T N) (y : I) s : fits u -> int_itv y -> 0 < low y ->
  fmod_ni P u y s = (fm_res (mk (N := N) u u) y (u / (if u <? 0 then low y else up y)), s).
Proof.
  intros X Y L. unfold int_itv in Y. unfold fits in X. unfold fmod_ni, test_input_ni.
  assert (TT : test_input_i P y = false) by (apply (test1 debug c ord y); lia).
  assert (K : ck_is_nan (p_ck P) u s = (Ok false, s)) by (destruct c; reflexivity).
  rewrite TT. unfold bind at 1 2. rewrite K. unfold ret at 1.
  change (is_neg u) with (u <? 0).
  set (b := if u <? 0 then low y else up y).
  assert (B : 0 < b) by (unfold b; destruct (u <? 0); lia).
  change (with_rnd P ?m s) with (m s). cbv beta zeta. unfold bind at 1.
  change (div_down (p_ar P)) with fm_div_down.
  rewrite (fm_div u b s) by (unfold fits; lia).
  set (n := u / b). change (fm_res (mk (N := N) u u) y _) with (fm_res (mk (N := N) u u) y n). clearbody n.
  cbv beta iota.
  change ((let! n := int_down (p_ar P) n in
     let! p := op_mul_ni (unprotect P) n y in let! z := op_sub_ni (unprotect P) u p in ctor_back P z) s)
    with ((let! p := op_mul_ni (unprotect P) (n : T N) y in
     let! z := op_sub_ni (unprotect P) u p in ctor_copy z) s).
  unfold bind at 1. rewrite (fm_mul n y ltac:(lia) s). unfold fm_res, four. cbn [low up].
  destruct (in_int (pl n y) && in_int (pu n y)); [|reflexivity].
  cbv beta iota. unfold bind. rewrite (fm_sub_ni u (mk (N := N) (pl n y) (pu n y)) (pl_pu n y) s). cbn [low up].
  destruct (in_int (u - pu n y) && in_int (u - pl n y)); reflexivity.
Qed.

(** The four bounds fit exactly when no member overflows. *)
Lemma prod_between n (y : I) v : i_mem y v -> pl n y <= n * v <= pu n y.
Proof.
  unfold i_mem, pl, pu. intros H. destruct (Z_lt_le_dec n 0).
  - assert (n * up y <= n * v <= n * low y) by (split; nia). lia.
  - assert (n * low y <= n * v <= n * up y) by (split; nia). lia.
Qed.
Lemma four_iff (x y : I) n : low x <= up x -> low y <= up y ->
  four x y n = true <->
  (forall a v, i_mem x a -> i_mem y v -> fits (n * v) /\ fits (a - n * v)).
Proof.
  intros X Y. unfold four. rewrite !andb_true_iff, !fits_iff. split.
  - intros [[A1 A2] [A3 A4]] a v Ha Hv. pose proof (prod_between n y v Hv) as B.
    unfold fits, i_mem in *. lia.
  - intros H.
    assert (Ex : exists v w, i_mem y v /\ i_mem y w /\ pl n y = n * v /\ pu n y = n * w).
    { unfold pl, pu, i_mem. destruct (Z_lt_le_dec n 0).
      - exists (up y), (low y). repeat split; try lia; nia.
      - exists (low y), (up y). repeat split; try lia; nia. }
    destruct Ex as (v & w & V & W & -> & ->).
    pose proof (H (low x) v ltac:(unfold i_mem; lia) V). pose proof (H (up x) v ltac:(unfold i_mem; lia) V).
    pose proof (H (low x) w ltac:(unfold i_mem; lia) W). tauto.
Qed.

(** The set returned. *)
Lemma fm_set (x y : I) n : low x <= up x -> low y <= up y ->
  forall r, iset (mk (N := N) (low x - pu n y) (up x - pl n y)) r <->
    exists a v, iset x a /\ iset y v /\ r = (a - IZR n * v)%R.
Proof.
  intros X Y r. 
  pose (S := image2 Rminus (iset x) (image1 (fun v => IZR n * v)%R (iset y))).
  assert (E : S r <-> exists a v, iset x a /\ iset y v /\ r = (a - IZR n * v)%R).
  { unfold S, image2, image1. split.
    - intros (a & p & A & (v & V & ->) & ->). eauto.
    - intros (a & v & A & V & ->). exists a, (IZR n * v)%R. eauto 6. }
  rewrite <- E.
  assert (Q : forall p, image1 (fun v => IZR n * v)%R (iset y) p <-> (IZR (pl n y) <= p <= IZR (pu n y))%R).
  { intros p. unfold image1, iset. apply IZR_le in Y.
    assert (K : (pl n y = n * up y /\ pu n y = n * low y /\ n < 0) \/
                (pl n y = n * low y /\ pu n y = n * up y /\ 0 < n) \/ (n = 0 /\ pl n y = 0 /\ pu n y = 0)).
    { unfold pl, pu. apply le_IZR in Y. destruct (Z.lt_trichotomy n 0) as [|[|]]; [left|right; right|right; left]; nia. }
    destruct K as [(-> & -> & L)|[(-> & -> & L)|(-> & -> & ->)]].
    - rewrite !mult_IZR. apply IZR_lt in L. split.
      + intros (v & V & ->). nra.
      + intros H. exists (p / IZR n)%R. split; [|field; lra].
        assert (p = IZR n * (p / IZR n))%R by (field; lra). set (w := (p / IZR n)%R) in *. clearbody w. subst p. split; nra.
    - rewrite !mult_IZR. apply IZR_lt in L. split.
      + intros (v & V & ->). nra.
      + intros H. exists (p / IZR n)%R. split; [|field; lra].
        assert (p = IZR n * (p / IZR n))%R by (field; lra). set (w := (p / IZR n)%R) in *. clearbody w. subst p. split; nra.
    - split.
      + intros (v & V & ->). lra.
      + intros H. exists (IZR (low y)). split; lra. }
  unfold S, image2. unfold iset at 1. cbn [low up]. rewrite !minus_IZR.
  pose proof (pl_pu n y) as W. apply IZR_le in W, X. split.
  - intros H. unfold iset at 1.
    destruct (Rle_dec r (IZR (up x) - IZR (pu n y))).
    + exists (r + IZR (pu n y))%R, (IZR (pu n y)). rewrite Q. repeat split; lra.
    + exists (IZR (up x)), (IZR (up x) - r)%R. rewrite Q. repeat split; lra.
  - intros (a & p & A & B & ->). apply Q in B. unfold iset in A. lra.
Qed.

(** The lower bound is the remainder. *)
Lemma fm_low (x y : I) : 0 < low y <= up y ->
  let b := if low x <? 0 then low y else up y in
  low x - pu (low x / b) y = low x mod b.
Proof.
  intros Y b. assert (B : 0 < b) by (unfold b; destruct (low x <? 0); lia).
  pose proof (Z.div_mod (low x) b ltac:(lia)) as E. rewrite E at 1.
  enough (pu (low x / b) y = b * (low x / b)) by lia.
  unfold pu, b in *. destruct (low x <? 0) eqn:L; [apply Z.ltb_lt in L|apply Z.ltb_ge in L].
  - pose proof (Z.div_lt_upper_bound (low x) (low y) 0 B ltac:(lia)). nia.
  - pose proof (Z.div_pos (low x) (up y) ltac:(lia) B). nia.
Qed.
Lemma fm_no_overflow (x y : I) : int_itv x -> int_itv y -> 0 < low y -> 0 <= low x ->
  forall a v, i_mem x a -> i_mem y v -> fits (low x / up y * v) /\ fits (a - low x / up y * v).
Proof.
  unfold int_itv, i_mem, fits. intros X Y L Lx a v A V.
  pose proof (Z.div_pos (low x) (up y) ltac:(lia) ltac:(lia)).
  pose proof (Z.mul_div_le (low x) (up y) ltac:(lia)). nia.
Qed.
End Fmod.

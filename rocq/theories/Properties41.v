(** * Property C82: width, norm, median and bisect of intervals of ints *)

From Coq Require Import Reals ZArith Lia Bool.
From Verif Require Import Outcome Base Checking Interval Utility FloatNum ExactNum SpecExact IntProof SpecInt IntProgProof.
Local Open Scope Z_scope.

Notation Pint debug c ord := (exact_pol int_num debug c ord).

Section C82.
Context (debug : bool) (c : ckind) (ord : site -> bool) (x : itv int_num) (mode : rmode).
Notation P := (Pint debug c ord).

Lemma itv_test : int_itv x -> test_input_i P x = false.
Proof. intros V. apply test1. unfold int_itv in V. lia. Qed.

(** The exact width, or undefined behaviour when it is not an int. *)
Theorem C82_width : int_itv x ->
  (fits (up x - low x) /\ width P x mode = (Ok (up x - low x), mode)) \/
  (~ fits (up x - low x) /\ width P x mode = (UB, mode)).
Proof.
  intros V. unfold width. rewrite (itv_test V). unfold with_rnd. cbn [p_prot exact_pol].
  change (sub_up (p_ar P) (up x) (low x)) with (sub_down (p_ar P) (up x) (low x)).
  rewrite (ib_sub debug c ord (up x) (low x) mode). unfold int_res. rewrite <- fits_iff.
  destruct (in_int _); [left|right]; (split; [congruence|reflexivity]).
Qed.

(** The greatest magnitude of a member, or undefined behaviour when INT_MIN is a
    member. *)
Theorem C82_norm : int_itv x ->
  (exists v, norm P x mode = (Ok v, mode) /\ (forall a, i_mem x a -> Z.abs a <= v) /\ (exists a, i_mem x a /\ Z.abs a = v) /\
     ~ i_mem x (-2147483648)) \/
  (norm P x mode = (UB, mode) /\ i_mem x (-2147483648)).
Proof.
  intros V. unfold norm. rewrite (itv_test V). unfold bind. rewrite (ib_neg (low x) mode). unfold int_res.
  destruct (in_int (- low x)) eqn:E; [left|right].
  - apply fits_iff in E. exists (std_max (N := int_num) (- low x) (up x)). split; [reflexivity|].
    rewrite smax. unfold int_itv, i_mem, fits in *. split; [intros; lia|]. split; [|lia].
    destruct (Z.le_gt_cases (up x) (- low x)); [exists (low x)|exists (up x)]; lia.
  - split; [reflexivity|]. assert (K : ~ fits (- low x)) by (rewrite <- fits_iff; congruence).
    unfold int_itv, i_mem, fits in *. lia.
Qed.

(** A member next to the middle, or undefined behaviour when the sum of the
    bounds is not an int. *)
Theorem C82_median : int_itv x ->
  (fits (low x + up x) /\ exists v, median P x mode = (Ok v, mode) /\ i_mem x v /\ Z.abs (2 * v - (low x + up x)) <= 1) \/
  (~ fits (low x + up x) /\ median P x mode = (UB, mode)).
Proof.
  intros V. unfold median. rewrite (itv_test V). unfold with_rnd. cbn [p_prot exact_pol].
  change (ar_median (p_ar P) (low x) (up x)) with (let! t := ex_mid int_num (low x) (up x) in e_store t).
  pose proof (ib_add debug c ord (low x) (up x) mode) as A.
  change (add_down (p_ar P) (low x) (up x)) with (let! t := ex_add int_num (low x) (up x) in e_store t) in A.
  rewrite <- fits_iff. unfold int_res in A. destruct (in_int (low x + up x)) eqn:E; [left|right].
  - split; [reflexivity|]. apply fits_iff in E. exists (Z.quot (low x + up x) 2).
    pose proof (Z.quot_rem' (low x + up x) 2) as Q. pose proof (Z.rem_bound_abs (low x + up x) 2 ltac:(lia)) as L.
    split.
    + clear A. unfold bind, ex_mid, ex_add, e_add, e_div, e_store, under_mode. simpl.
      unfold int_res. replace (in_int (low x + up x)) with true by (symmetry; apply fits_iff, E). simpl.
      replace (in_int (Z.quot (low x + up x) 2)) with true; [reflexivity|].
      symmetry. apply fits_iff. unfold fits in *. change (Z.abs 2) with 2 in L. set (q := Z.quot _ 2) in *. set (r := Z.rem _ 2) in *. clearbody q r. lia.
    + unfold i_mem, int_itv in *. change (Z.abs 2) with 2 in L.
      destruct (Z.le_gt_cases 0 (low x + up x)).
      * pose proof (Z.rem_nonneg (low x + up x) 2 ltac:(lia) ltac:(lia)). lia.
      * pose proof (Z.rem_nonpos (low x + up x) 2 ltac:(lia) ltac:(lia)). lia.
  - split; [congruence|]. unfold bind, ex_mid, ex_add, e_add, e_div, e_store, under_mode. simpl.
    unfold int_res. rewrite E. reflexivity.
Qed.

(** The two halves share the median and have the members of x. *)
Theorem C82_bisect : int_itv x ->
  (exists y z, bisect P x mode = (Ok (y, z), mode) /\ int_itv y /\ int_itv z /\ up y = low z /\
     (forall a, i_mem x a <-> i_mem y a \/ i_mem z a) /\ fits (low x + up x)) \/
  (bisect P x mode = (UB, mode) /\ ~ fits (low x + up x)).
Proof.
  intros V. unfold bisect. rewrite (itv_test V). unfold bind.
  destruct (C82_median V) as [(F & v & E & M & _)|(F & E)]; rewrite E; [left|right; auto].
  exists (mk (N := int_num) (low x) v), (mk (N := int_num) v (up x)). split; [reflexivity|].
  unfold int_itv, i_mem in *. cbn. split; [lia|]. split; [lia|]. split; [reflexivity|]. split; [intros a; lia|exact F].
Qed.
End C82.
Print Assumptions C82_width.
Print Assumptions C82_norm.
Print Assumptions C82_median.
Print Assumptions C82_bisect.

Example C82_case : let x := mk (N := int_num) (-7) 4 in
  int_itv x /\
  width (Pint true CkBase (fun _ => true)) x RNE = (Ok 11, RNE) /\
  norm (Pint true CkBase (fun _ => true)) x RNE = (Ok 7, RNE) /\
  median (Pint true CkBase (fun _ => true)) x RNE = (Ok (-1), RNE) /\
  bisect (Pint true CkBase (fun _ => true)) x RNE = (Ok (mk (N := int_num) (-7) (-1), mk (N := int_num) (-1) 4), RNE).
Proof. split; [unfold int_itv; cbn; lia|]. repeat split. Qed.

(** The median of a singleton may overflow. *)
Theorem C82_median_defined_refuted : forall debug c ord mode,
  let x := mk (N := int_num) 1073741824 1073741824 in
  int_itv x /\ median (Pint debug c ord) x mode = (UB, mode).
Proof.
  intros debug c ord mode x. assert (V : int_itv x) by (unfold int_itv; cbn; lia). split; [exact V|].
  destruct (C82_median debug c ord x mode V) as [(F & _)|(_ & E)]; [|exact E].
  unfold fits in F. cbn in F. lia.
Qed.
Print Assumptions C82_median_defined_refuted.
(** Bisection does not always make progress: one half of [0,1] is [0,1]. *)
Theorem C82_bisect_progress_refuted : forall debug c ord mode,
  let x := mk (N := int_num) 0 1 in
  int_itv x /\ bisect (Pint debug c ord) x mode = (Ok (mk (N := int_num) 0 0, x), mode).
Proof.
  intros debug c ord mode x. split; [unfold int_itv; cbn; lia|].
  unfold bisect, median. rewrite (itv_test debug c ord x) by (unfold int_itv; cbn; lia). reflexivity.
Qed.
Print Assumptions C82_bisect_progress_refuted.
(** It does make progress on intervals with at least two ints between the bounds. *)
Theorem C82_bisect_progress_partial : forall debug c ord (x : itv int_num) mode y z,
  int_itv x -> low x + 2 <= up x -> bisect (Pint debug c ord) x mode = (Ok (y, z), mode) ->
  low x < up y < up x /\ low x < low z < up x.
Proof.
  intros debug c ord x mode y z V W R. unfold bisect in R. rewrite (itv_test debug c ord x V) in R. unfold bind in R.
  destruct (C82_median debug c ord x mode V) as [(F & v & E & M & N)|(F & E)]; rewrite E in R; inversion R; subst.
  cbn. lia.
Qed.
Print Assumptions C82_bisect_progress_partial.

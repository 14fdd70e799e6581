(** * Property C81, and more on C28 and C65: not-a-number bounds *)

From Coq Require Import Reals ZArith Lra Lia Bool List Ascii String.
From Flocq Require Import Core BinarySingleNaN.
From Verif Require Import Outcome Base Checking Interval Utility Arith Arith2 FloatNum Spec ExtR Sem CoreArith
  FloatSpec FloatPol Inst Witness Mutate ExIo IoProof Ops SpecUser ExactNum SpecExact IntProof SpecInt IntProgProof
  Properties8 Properties12 Properties20.
Local Open Scope Z_scope.

(** ** C81: programs on intervals of ints *)

Notation Pint debug c ord := (exact_pol int_num debug c ord).

(** Whenever the evaluation of an expression on intervals of ints returns, every
    value the same expression can compute on ints taken in these intervals is in
    the result, and no step of such a computation overflows.  The assertions
    have to be on for expressions with a division by an interval. *)
Theorem C81_int_program : forall debug c ord eo (env : nat -> itv int_num) (rho : nat -> Z) e,
  (forall n, int_itv (env n) /\ i_mem (env n) (rho n)) -> i_numbers e -> (divides e -> debug = true) ->
  forall z mode mode', eval (Pint debug c ord) eo env e mode = (Ok z, mode') ->
  (forall v, i_value rho e v -> i_mem z v /\ int_itv z) /\ ~ i_overflow rho e.
Proof. intros debug c ord eo env rho e He Hn Hd z s s' R. exact (int_program debug c ord eo env rho He e Hn Hd z s s' R). Qed.
Print Assumptions C81_int_program.

(** Division by an interval without zero: the least interval containing the
    truncated quotients, unless the quotient INT_MIN / -1 is among them. *)
Lemma int_div_sum debug c ord (x y : itv int_num) : low x <= up x -> low y <= up y -> ~ i_mem y 0 ->
  exists lo hi, isum (op_div (Pint debug c ord) x y) lo hi /\
    (forall a b, i_mem x a -> i_mem y b -> lo <= Z.quot a b <= hi) /\
    (exists a b, i_mem x a /\ i_mem y b /\ lo = Z.quot a b) /\
    (exists a b, i_mem x a /\ i_mem y b /\ hi = Z.quot a b).
Proof.
  intros Hx Hy H0. unfold op_div.
  assert (Ha : i_mem x (low x)) by (split; lia). assert (Hb : i_mem y (low y)) by (split; lia).
  assert (Ha' : i_mem x (up x)) by (split; lia). assert (Hb' : i_mem y (up y)) by (split; lia).
  rewrite (t2 debug c ord x y _ _ Ha Hb), (zin debug c ord y _ Hb).
  assert (Z0 : (low y <=? 0) && (0 <=? up y) = false).
  { unfold i_mem in H0. destruct (Z.leb_spec (low y) 0), (Z.leb_spec 0 (up y)); try reflexivity. lia. }
  rewrite Z0. unfold div_non_zero, with_rnd. cbn [p_prot exact_pol]. cbv zeta. rewrite !neg_iff.
  assert (D : forall a b, b <> 0 -> ib (Z.quot a b) (div_down (p_ar (Pint debug c ord)) a b)).
  { intros a b Hn s. simpl. unfold bind, ex_div, e_div, under_mode; simpl.
    destruct (Z.eqb_spec b 0); [contradiction|]. unfold int_res. destruct (in_int (Z.quot a b)); reflexivity. }
  destruct (Z.ltb_spec (up y) 0) as [K|K].
  - pose proof (fun a b A B => quot_box_neg (low x) (up x) (low y) (up y) a b A K B) as Q.
    destruct (up x <? 0); [|destruct (low x <? 0)];
      (eexists; eexists; split; [apply ib_args; apply D; lia|]; split; [exact Q|]; split; eauto 6).
  - unfold i_mem in H0. pose proof (fun a b A B => quot_box (low x) (up x) (low y) (up y) a b A ltac:(lia) B) as Q.
    destruct (up x <? 0); [|destruct (low x <? 0)];
      (eexists; eexists; split; [apply ib_args; apply D; lia|]; split; [exact Q|]; split; eauto 6).
Qed.
(** The only quotient of ints that is not an int. *)
Lemma quot_fits a b : fits a -> fits b -> b <> 0 -> ~ fits (Z.quot a b) -> a = -2147483648 /\ b = -1.
Proof.
  unfold fits. intros A B Hb H.
  assert (E : Z.abs (Z.quot a b) * Z.abs b <= Z.abs a).
  { pose proof (Z.quot_rem' a b) as Q. pose proof (Z.rem_bound_abs a b Hb) as L. rewrite <- Z.abs_mul.
    destruct (Z.le_gt_cases 0 a).
    - pose proof (Z.rem_nonneg a b Hb ltac:(lia)). nia.
    - pose proof (Z.rem_nonpos a b Hb ltac:(lia)). nia. }
  assert (b = -1 \/ b = 1 \/ 2 <= Z.abs b) as [->|[->|K]] by lia.
  - change (-1) with (- (1)) in H. rewrite Z.quot_opp_r, Z.quot_1_r in H by lia. lia.
  - rewrite Z.quot_1_r in H. lia.
  - exfalso. nia.
Qed.
Theorem C81_int_division : forall debug c ord (x y : itv int_num), int_itv x -> int_itv y -> ~ i_mem y 0 ->
  forall mode,
  (exists z, op_div (Pint debug c ord) x y mode = (Ok z, mode) /\ int_itv z /\ i_quotients x y z /\
     ~ (i_mem x (-2147483648) /\ i_mem y (-1))) \/
  (op_div (Pint debug c ord) x y mode = (Outcome.UB, mode) /\ i_mem x (-2147483648) /\ i_mem y (-1)).
Proof.
  intros debug c ord x y Vx Vy H0 mode.
  assert (Hx : low x <= up x) by (unfold int_itv in Vx; lia). assert (Hy : low y <= up y) by (unfold int_itv in Vy; lia).
  destruct (int_div_sum debug c ord x y Hx Hy H0) as (lo & hi & S & Q & (a1 & b1 & A1 & B1 & E1) & (a2 & b2 & A2 & B2 & E2)).
  rewrite (S mode). destruct (in_int lo && in_int hi) eqn:F.
  - left. exists (mk (N := int_num) lo hi). apply andb_true_iff in F. rewrite !fits_iff in F. unfold fits in F.
    pose proof (Q _ _ A1 B1). split; [reflexivity|]. split; [unfold int_itv; cbn; lia|]. split.
    + repeat split; cbn; try apply Q; eauto 6.
    + intros [M1 M2]. pose proof (Q _ _ M1 M2) as K. change (Z.quot (-2147483648) (-1)) with 2147483648 in K. lia.
  - right. split; [reflexivity|]. apply andb_false_iff in F.
    assert (G : forall a b, i_mem x a -> i_mem y b -> in_int (Z.quot a b) = false -> i_mem x (-2147483648) /\ i_mem y (-1)).
    { intros a b A B N. destruct (quot_fits a b) as [-> ->]; auto.
      - unfold i_mem, int_itv, fits in *. lia.
      - unfold i_mem, int_itv, fits in *. lia.
      - intros ->. exact (H0 B).
      - intros K. apply fits_iff in K. congruence. }
    destruct F as [F|F]; subst; eauto.
Qed.
Print Assumptions C81_int_division.
Example C81_int_division_case :
  let x := mk (N := int_num) (-7) 9 in let y := mk (N := int_num) (-4) (-2) in
  int_itv x /\ int_itv y /\ ~ i_mem y 0 /\
  op_div (Pint true CkBase (fun _ => true)) x y RNE = (Ok (mk (N := int_num) (-4) 3), RNE).
Proof. unfold int_itv, i_mem. cbn. repeat split; lia. Qed.
Example C81_int_division_overflow :
  op_div (Pint false CkBase (fun _ => true)) (mk (N := int_num) (-2147483648) 0) (mk (N := int_num) (-3) (-1)) RNE
  = (Outcome.UB, RNE).
Proof. reflexivity. Qed.

(** x / (y - 3) + pow(x, 3) * 2 on x = [-5,4], y = [5,9]; with the ints -5 and 6
    the program computes -1 - 250. *)
Definition prog_expr : expr int_num :=
  e_2 (N := int_num) B_add (e_2 B_div (e_var 0) (e_in (N := int_num) B_sub (e_var 1) 3)) (e_in (N := int_num) B_mul (e_1 (U_pow 3) (e_var 0)) 2).
Definition prog_env (n : nat) : itv int_num := match n with O => mk (N := int_num) (-5) 4 | _ => mk (N := int_num) 5 9 end.
Definition prog_rho (n : nat) : Z := match n with O => -5 | _ => 6 end.
Example C81_int_program_case : forall mode,
  (forall n, int_itv (prog_env n) /\ i_mem (prog_env n) (prog_rho n)) /\ i_numbers prog_expr /\
  eval (Pint true CkBase (fun _ => true)) (fun _ => false) prog_env prog_expr mode = (Ok (mk (N := int_num) (-252) 130), mode) /\
  i_value prog_rho prog_expr (-251).
Proof.
  intros mode. split; [|split; [|split]].
  - intros [|n]; unfold int_itv, i_mem; cbn; lia.
  - cbn. unfold fits. lia.
  - reflexivity.
  - assert (F : forall v, -1000 <= v <= 1000 -> fits v) by (intros; unfold fits; lia).
    cbn. exists (-1), (-250). split; [|split; [|split; [reflexivity|apply F; lia]]].
    + exists (-5), 3. split; [reflexivity|]. split; [|split; [split; [lia|reflexivity]|apply F; lia]].
      exists 6. split; [reflexivity|]. split; [reflexivity|apply F; lia].
    + exists (-125). split; [|split; [reflexivity|apply F; lia]].
      exists (-5). split; [reflexivity|]. split; [reflexivity|].
      intros w [->|(k & Hk & ->)]; [apply F; cbn; lia|].
      assert (k = 1 \/ k = 2 \/ k = 3) as [-> | [-> | ->]] by lia; apply F; cbn; lia.
Qed.

(** Without the assertions a division by an interval containing zero returns
    bounds 0 in place of the infinities that int does not have, and values are
    missed: [1,10] / [0,2] is [0,0], and 10 / 1 is not in it. *)
Theorem C81_release_division_refuted : forall c ord mode,
  exists z, op_div (Pint false c ord) (mk (N := int_num) 1 10) (mk (N := int_num) 0 2) mode = (Ok z, mode) /\ ~ i_mem z (Z.quot 10 1).
Proof.
  intros c ord mode. exists (mk (N := int_num) 0 0). split; [|unfold i_mem; cbn; lia].
  unfold op_div, div_positive, with_rnd, mk_args, args2.
  destruct c; cbn -[Z.quot]; destruct (ord _); reflexivity.
Qed.
Print Assumptions C81_release_division_refuted.
(** The certificate is one-way: pow works on magnitudes, so pow([-2,-2], 31)
    overflows although (-2)^31 is an int. *)
Theorem C81_pow_overflow_refuted : forall debug c ord mode,
  pow (Pint debug c ord) (mk (N := int_num) (-2) (-2)) 31 mode = (Outcome.UB, mode) /\ fits ((-2) ^ 31).
Proof.
  intros debug c ord mode. split; [|unfold fits; cbn; lia].
  unfold pow. rewrite (t1 debug c ord (mk (N := int_num) (-2) (-2)) (-2)) by (unfold i_mem; cbn; lia).
  reflexivity.
Qed.
Print Assumptions C81_pow_overflow_refuted.

(** ** C28, C65: assigning bounds that are not numbers

    x.assign(l, u) with a NaN bound: the exception of checking_catch_nan with x
    unchanged, and under every other policy what set_empty does. *)
Theorem C28_assign_nan : forall p k debug c ord (x : itv (fnum p)) (l u : T (fnum p)) mode,
  fval (l : flt (p_T p)) = NaN \/ fval (u : flt (p_T p)) = NaN ->
  let P := fpol p Save k debug c ord in
  m_assign P (NVal l) (NVal u) x mode =
    if catches c then (Throw InvalidNumber, x, mode) else updated x (i_empty P) mode.
Proof.
  intros p k debug c ord x l u mode H P; subst P.
  assert (L : n_le (fnum p) l u = false).
  { apply n_le_false. intros K. destruct (xle_nn _ _ K). destruct H; congruence. }
  rewrite <- (set_empty_updated p k debug c ord ord).
  unfold m_assign, obind at 1, ocomp, bind, ret. cbn [p_ck fpol rd].
  destruct (catches c) eqn:C.
  - destruct H as [H|H]; apply nan_only in H; subst.
    + destruct c; try discriminate C; reflexivity.
    + assert (K : fval (l : flt (p_T p)) = NaN \/ fval (l : flt (p_T p)) <> NaN)
        by (destruct l as [s|[|]| |s m e B]; simpl; (left; reflexivity) || (right; discriminate)).
      destruct K as [K|K].
      * apply nan_only in K. subst. destruct c; try discriminate C; reflexivity.
      * rewrite (is_nan_false _ _ _ _ _ K). destruct c; try discriminate C; reflexivity.
  - assert (Z : forall v s, exists b, ck_is_nan (fchecking p debug c) v s = (Ok b, s))
      by (intros v s; destruct c; try discriminate C; eexists; reflexivity).
    destruct (Z l mode) as ([|] & E); rewrite E; [reflexivity|].
    destruct (Z u mode) as (b & E'); rewrite E', L, orb_true_r. reflexivity.
Qed.
Print Assumptions C28_assign_nan.
Theorem C65_nan : forall p k debug c ord (scan : list ascii -> T (fnum p) * bool * list ascii) t l u rest (o : itv (fnum p)) mode,
  written scan t l u rest -> fval (l : flt (p_T p)) = NaN \/ fval (u : flt (p_T p)) = NaN ->
  let P := fpol p Save k debug c ord in
  exists s', inp s' = rest /\ failed s' = false /\
    read P scan (fresh_stream t) o mode =
      (if catches c then (Throw InvalidNumber, o, mode) else updated o (i_empty P) mode, s').
Proof.
  intros p k debug c ord scan t l u rest o mode W H P; subst P.
  destruct (read_written p k debug c ord scan t l u rest o mode W) as (e & E).
  eexists. split; [|split]; cycle 2.
  - rewrite E, (C28_assign_nan p k debug c ord o l u mode H). reflexivity.
  - reflexivity.
  - reflexivity.
Qed.
Print Assumptions C65_nan.
(** A conversion that reads "n" as NaN, on the text "[n]". *)
Definition scan_nan (t : list ascii) : T (fnum double_sse) * bool * list ascii :=
  match t with
  | ch :: t' => if Ascii.eqb ch "n" then (B754_nan : flt binary64, true, t') else (B754_zero false : flt binary64, false, t)
  | nil => (B754_zero false : flt binary64, false, nil)
  end.
Example C65_nan_case : written scan_nan (list_ascii_of_string "[n]") (B754_nan : flt binary64) (B754_nan : flt binary64) nil /\
  fval (B754_nan : flt binary64) = NaN.
Proof.
  split; [|reflexivity].
  apply (w_one scan_nan nil nil nil (list_ascii_of_string "n]") (B754_nan : flt binary64) nil); try constructor.
  - exists "n"%char, (list_ascii_of_string "]"). split; [reflexivity|]. unfold white. cbn. intuition discriminate.
  - reflexivity.
Qed.

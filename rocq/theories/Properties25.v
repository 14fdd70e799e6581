(** * C70: how much wider than the exact set a result is *)

From Coq Require Import Reals ZArith Lra Lia Bool.
From Flocq Require Import Core BinarySingleNaN.
From Verif Require Import Outcome Base Checking Interval Utility Arith Arith2 FloatNum Spec ExtR
  FloatSpec FloatPol CoreArith Inst Witness CoreCtor Ops OpsProof FloatInt Properties1 Properties2 ExprWidth.
Local Open Scope R_scope.
Notation P_ p k debug c ord := (fpol p Save k debug c ord).

(** One operation: within the range of the format, each bound is off by at most
    one unit in the last place of the exact bound. *)
Definition slack (f : fmt) (r : R) : R := eps f * Rabs r + tiny f.
Theorem C70_binary : forall p k debug c ord o (x y : itv (fnum p)) a b,
  o <> B_hull -> (o = B_div -> ~ fmem y 0) -> fvalid x -> fvalid y ->
  (forall r s t, fmem x r -> fmem y s -> rel2 o r s t -> a <= t <= b) -> Rabs a <= largest (p_T p) -> Rabs b <= largest (p_T p) ->
  exists z, returns (run2 (P_ p k debug c ord) o x y) z /\ fvalid z /\
    (forall r s t, fmem x r -> fmem y s -> rel2 o r s t -> fmem z t) /\
    forall t, fmem z t -> a - slack (p_T p) a <= t <= b + slack (p_T p) b.
Proof.
  intros p k debug c ord o x y a b Ho H0 Vx Vy Hs La Lb.
  destruct (run2_gets p k debug c ord o x y Ho H0 Vx Vy) as (z & R & V & G).
  exists z. split; [exact R|]. split; [exact V|]. split.
  { intros r s t Mr Ms Q. apply (gets_encloses p _ _ _ G). exists r, s. auto. }
  assert (HS : forall t, img2 o (fmem x) (fmem y) t -> a <= t <= b) by (intros t (r & s & A & B & Q); eauto).
  intros t Mt. destruct (exact2 o); cbn [gets] in G; [|exact (tight_close z _ a b G HS La Lb t Mt)].
  pose proof (HS t (proj1 (G t) Mt)). unfold slack. pose proof (eps_pos (p_T p)). pose proof (tiny_pos (p_T p)).
  assert (0 <= eps (p_T p) * Rabs a) by (apply Rmult_le_pos; [lra|apply Rabs_pos]).
  assert (0 <= eps (p_T p) * Rabs b) by (apply Rmult_le_pos; [lra|apply Rabs_pos]). lra.
Qed.
Print Assumptions C70_binary.
Theorem C70_unary : forall p k debug c ord o (x : itv (fnum p)) a b,
  (forall n, o <> U_pow n) -> fvalid x -> (exists r t, fmem x r /\ rel1 o r t) ->
  (forall r t, fmem x r -> rel1 o r t -> a <= t <= b) -> Rabs a <= largest (p_T p) -> Rabs b <= largest (p_T p) ->
  exists z, returns (run1 (P_ p k debug c ord) o x) z /\ fvalid z /\
    (forall r t, fmem x r -> rel1 o r t -> fmem z t) /\
    forall t, fmem z t -> a - slack (p_T p) a <= t <= b + slack (p_T p) b.
Proof.
  intros p k debug c ord o x a b Ho Vx (r0 & t0 & M0 & Q0) Hs La Lb.
  destruct (run1_gets p k debug c ord o x Ho Vx) as (z & R & V & G); [exists t0, r0; auto|].
  exists z. split; [exact R|]. split; [exact V|]. split.
  { intros r t Mr Q. apply (gets_encloses p _ _ _ G). exists r. auto. }
  assert (HS : forall t, img1 o (fmem x) t -> a <= t <= b) by (intros t (r & A & Q); eauto).
  intros t Mt. destruct (exact1 o); cbn [gets] in G; [|exact (tight_close z _ a b G HS La Lb t Mt)].
  pose proof (HS t (proj1 (G t) Mt)). unfold slack. pose proof (eps_pos (p_T p)). pose proof (tiny_pos (p_T p)).
  assert (0 <= eps (p_T p) * Rabs a) by (apply Rmult_le_pos; [lra|apply Rabs_pos]).
  assert (0 <= eps (p_T p) * Rabs b) by (apply Rmult_le_pos; [lra|apply Rabs_pos]). lra.
Qed.
Print Assumptions C70_unary.

(** pow multiplies repeatedly, with one rounding each time: the bounds of the n-th
    power of numbers within -G ... G are off by about 2 (n - 1) G^n units. *)
Theorem C70_pow : forall p k debug c ord (x : itv (fnum p)) n G a b,
  (0 < n)%Z -> fvalid x -> 1 <= G -> (forall r, fmem x r -> Rabs r <= G) ->
  G ^ Z.to_nat n * (1 + 2 * eps (p_T p)) ^ (Z.to_nat n - 1) <= largest (p_T p) ->
  (forall r, fmem x r -> a <= r ^ Z.to_nat n <= b) ->
  exists z, returns (Arith2.pow (P_ p k debug c ord) x n) z /\ fvalid z /\
    (forall r, fmem x r -> fmem z (r ^ Z.to_nat n)) /\
    forall t, fmem z t -> a - G ^ Z.to_nat n * ((1 + 2 * eps (p_T p)) ^ (Z.to_nat n - 1) - 1) <= t <=
      b + G ^ Z.to_nat n * ((1 + 2 * eps (p_T p)) ^ (Z.to_nat n - 1) - 1).
Proof.
  intros p k debug c ord x n G a b Hn V HG HB Hl HS.
  destruct (C10_pow_positive_encloses p k debug c ord x n V Hn) as (z & R & Vz & En & _).
  exists z. split; [exact R|]. split; [exact Vz|]. split; [intros r Mr; apply En; exists r; auto|].
  rewrite pow_is_pos in R by auto. exact (pow_close p k debug c ord x n G a b Hn V HG HB Hl HS z R).
Qed.
Print Assumptions C70_pow.

(** Expressions converge: in a box where the evaluation neither overflows nor
    divides by zero, the width of the result over any smaller box is at most L
    times the width of that box plus K rounding units, where L and K depend on the
    large box only; and the true values are inside. *)
Theorem C70_convergence : forall p k debug c ord eo (X : nat -> itv (fnum p)) e B L K,
  (forall n, fvalid (X n)) -> steady (P_ p k debug c ord) eo X e B L K ->
  forall (env : nat -> itv (fnum p)) d, 0 <= d ->
  (forall n, fvalid (env n) /\ (forall r, fmem (env n) r -> fmem (X n) r)) ->
  (forall n r s, fmem (env n) r -> fmem (env n) s -> Rabs (r - s) <= d) ->
  exists z, returns (eval (P_ p k debug c ord) eo env e) z /\ fvalid z /\
    (forall r s, fmem z r -> fmem z s -> Rabs (r - s) <= L * d + K * eps (p_T p)) /\
    (forall rho t, (forall n, fmem (env n) (rho n)) -> means (N := fnum p) fval e rho t -> fmem z t).
Proof.
  intros p k debug c ord eo X e B L K HX St env d Hd He Hw.
  destruct (eval_width p k debug c ord eo X env d HX He Hd Hw e B L K St) as (z & R & V & W).
  exists z. split; [exact R|]. split; [exact V|]. split; [exact W|]. intros rho t Hr Ht.
  destruct (eval_contains p k debug c ord eo env rho Hr e t (steady_proper p k debug c ord eo X e B L K St) Ht) as (z' & R' & M).
  rewrite (OpsIso.returns_det _ _ _ R R'). exact M.
Qed.
Print Assumptions C70_convergence.

(** x * y / (x + 1) for x in [1,2] and y in [4,5]: factor 6, 43 rounding units. *)
Definition quot : expr (fnum double_sse) := e_2 B_div (e_2 B_mul (e_var 0) (e_var 1)) (e_in B_add (e_var 0) (dbl 1 0)).
Definition quot_box (n : nat) : itv (fnum double_sse) := match n with O => di 1 2 | _ => di 4 5 end.
Lemma di_mem a b r : (Z.abs a <= 1000)%Z -> (Z.abs b <= 1000)%Z -> fmem (di a b) r -> IZR a <= r <= IZR b.
Proof.
  intros Ha Hb [M1 M2]. unfold di in M1, M2. cbn [low up] in M1, M2.
  change (xle (fval (f := binary64) (dbl a 0)) (Fin r)) in M1. change (xle (Fin r) (fval (f := binary64) (dbl b 0))) in M2.
  rewrite dbl_val in M1 by lia. rewrite dbl_val in M2 by lia. simpl in M1, M2. lra.
Qed.
Lemma over_box e a b (Q : R -> Prop) : (forall s, run show (eval Pdef (fun _ => true) quot_box e) s = (Ok (show (di a b)), s)) ->
  (Z.abs a <= 1000)%Z -> (Z.abs b <= 1000)%Z -> (forall t, IZR a <= t <= IZR b -> Q t) -> over Pdef (fun _ => true) quot_box e Q.
Proof.
  intros R Ha Hb HQ. exists (di a b). split; [apply run_show_returns; exact R|]. intros t Ht. apply HQ. apply di_mem; auto.
Qed.
Example C70_case : (forall n, fvalid (quot_box n)) /\ steady Pdef (fun _ => true) quot_box quot 5 6 43 /\
  run show (eval Pdef (fun _ => true) (fun n => match n with O => mk (dbl 3 (-1)) (dbl 1537 (-10)) | _ => mk (dbl 9 (-1)) (dbl 4609 (-10)) end) quot) RNE
  = (Ok (show (mk (dbl 6077485479184863 (-51)) (dbl 6085138011756954 (-51)))), RNE).
Proof.
  split; [intros [|n]; apply di_valid; lia|]. split; [|vm_compute; reflexivity].
  assert (Hx : steady Pdef (fun _ => true) quot_box (e_var 0) 2 1 0).
  { split; [|lra]. apply (over_box _ 1 2); try lia; [intros []; vm_compute; reflexivity|]. intros t Ht. apply Rabs_le. lra. }
  assert (Hy : steady Pdef (fun _ => true) quot_box (e_var 1) 5 1 0).
  { split; [|lra]. apply (over_box _ 4 5); try lia; [intros []; vm_compute; reflexivity|]. intros t Ht. apply Rabs_le. lra. }
  assert (E1 : fval (f := binary64) (dbl 1 0) = Fin 1) by (apply dbl_val; lia).
  split.
  - exists (mk (dbl 6004799503160661 (-52)) (dbl 5 0)). split; [apply run_show_returns; intros []; vm_compute; reflexivity|].
    intros t [A B]. change (xle (fval (f := binary64) (dbl 6004799503160661 (-52))) (Fin t)) in A.
    change (xle (Fin t) (fval (f := binary64) (dbl 5 0))) in B. rewrite dbl_val in B by lia.
    assert (V : fvalid (mk (dbl 1 0) (dbl 6004799503160661 (-52)) : itv (fnum double_sse))) by (apply validb_ok; vm_compute; reflexivity).
    destruct V as [V _]. change (xle (fval (f := binary64) (dbl 1 0)) (fval (f := binary64) (dbl 6004799503160661 (-52)))) in V.
    rewrite E1 in V. pose proof (xle_trans _ _ _ V A) as A'. simpl in A', B. apply Rabs_le. lra.
  - exists 10, 7, 22, 3, 1, 8. split; [|split].
    + split; [apply (over_box _ 4 10); try lia; [intros []; vm_compute; reflexivity|]; intros t Ht; apply Rabs_le; lra|].
      exists 2, 1, 0, 5, 1, 0. split; [exact Hx|]. split; [exact Hy|]. cbn [grow2]. lra.
    + split; [apply (over_box _ 2 3); try lia; [intros []; vm_compute; reflexivity|]; intros t Ht; apply Rabs_le; lra|].
      exists 2, 1, 0, 1. split; [exact Hx|]. split; [exists 1; split; [exact E1|rewrite Rabs_R1; lra]|]. cbn [grow2]. lra.
    + exists 2. split; [lra|]. split; [|lra].
      apply (over_box _ 2 3); try lia; [intros []; vm_compute; reflexivity|]. intros t Ht. rewrite Rabs_right; lra.
Qed.

(** The third power over [1,2]: factor 12, 65 rounding units. *)
Lemma double_eps : eps binary64 = / 4503599627370496.
Proof. unfold eps. simpl. change (Z.pow_pos 2 52) with 4503599627370496%Z. reflexivity. Qed.
Lemma cube_fits : 2 ^ 3 * (1 + 2 * eps binary64) ^ 2 <= largest binary64.
Proof.
  rewrite double_eps. apply Rle_trans with 16; [simpl; lra|].
  assert (V : fval (f := binary64) (dbl 16 0) = Fin 16) by (apply dbl_val; lia).
  pose proof (fin_le_largest binary64 (dbl 16 0) 16 V) as L. rewrite Rabs_right in L by lra. exact L.
Qed.
Example C70_pow_case : steady Pdef (fun _ => true) quot_box (e_1 (U_pow 3) (e_var 0)) 8 12 65 /\
  run show (Arith2.pow Pdef (mk (dbl 3602879701896397 (-52)) (dbl 7205759403792794 (-52))) 3) RNE
  = (Ok (show (mk (dbl 4611686018427388 (-53)) (dbl 4611686018427390 (-50)))), RNE).
Proof.
  split; [|vm_compute; reflexivity].
  split; [apply (over_box _ 1 8); try lia; [intros []; vm_compute; reflexivity|]; intros t Ht; apply Rabs_le; lra|].
  exists 2, 1, 0. split.
  { split; [|lra]. apply (over_box _ 1 2); try lia; [intros []; vm_compute; reflexivity|]. intros t Ht. apply Rabs_le. lra. }
  split; [unfold Arith2.int_max; lia|]. split; [lra|]. change (Z.to_nat 3) with 3%nat. change (3 - 1)%nat with 2%nat.
  split; [exact cube_fits|]. unfold pow_err. change (3 - 1)%nat with 2%nat.
  change (p_T double_sse) with binary64. rewrite double_eps. simpl. lra.
Qed.

(** * C87: the comparisons of test_float.cpp, mul.cpp and pi.cpp, for all arguments *)

From Coq Require Import Reals ZArith Lra Lia Bool.
From Flocq Require Import Core BinarySingleNaN.
From Verif Require Import Outcome Base Checking Interval Utility Arith Arith2 FloatNum Spec ExtR Sem
  FloatSpec FloatPol FloatInt CoreArith CoreDiv CoreMore Inst Witness
  Transc SpecTransc TransReal CoreTransc CoreTrig FloatConst FloatTrans RefLib TransFuel Properties1 Properties2 Properties10.
Local Open Scope R_scope.

(** ** Specification

    The four ways of calling one operation, test_float.cpp: new_binary_bunch. *)
Inductive four_op := O_add | O_sub | O_mul | O_div.
Definition f_II {N} (o : four_op) (P : policy N) (a b : itv N) : M (itv N) :=
  match o with O_add => op_add P a b | O_sub => op_sub P a b | O_mul => op_mul P a b | O_div => op_div P a b end.
Definition f_IT {N} (o : four_op) (P : policy N) (a : itv N) (b : T N) : M (itv N) :=
  match o with O_add => op_add_in P a b | O_sub => op_sub_in P a b | O_mul => op_mul_in P a b | O_div => op_div_in P a b end.
Definition f_TI {N} (o : four_op) (P : policy N) (a : T N) (b : itv N) : M (itv N) :=
  match o with O_add => op_add_ni P a b | O_sub => op_sub_ni P a b | O_mul => op_mul_ni P a b | O_div => op_div_ni P a b end.
Definition f_TT {N} (o : four_op) (P : policy N) (a b : T N) : M (itv N) :=
  match o with O_add => n_add P a b | O_sub => n_sub P a b | O_mul => n_mul P a b | O_div => n_div P a b end.

(** The operation on reals. *)
Definition r_op (o : four_op) (r s : R) : R :=
  match o with O_add => r + s | O_sub => r - s | O_mul => r * s | O_div => r / s end.
(** validate: division only without zero in the divisor. *)
Definition o_valid {p} (o : four_op) (b : itv (fnum p)) : Prop :=
  match o with O_div => ~ fmem b 0 | _ => True end.

(** ** Proofs *)
Section One.
Context (p : platform) (k : rkind) (debug : bool) (c : ckind) (ord : site -> bool).
Notation P := (P_ p k debug c ord).
Notation I := (itv (fnum p)).

Lemma ok_of_valid (z : I) : fvalid z -> ok_interval c z.
Proof. intros V. left. exact V. Qed.
(** A tightest enclosure of a smaller set is below any enclosure of the larger one. *)
Lemma tight_below (z w : I) (S S' : R -> Prop) : fvalid z -> fvalid w -> ftightest z S -> fencloses w S' ->
  (forall r, S r -> S' r) -> subset P z w = true.
Proof.
  intros V W [_ T] E I. destruct (T w) as [L U]; [intros r Hr; apply E, I, Hr|].
  apply (C32_subset p k debug c ord); try (apply ok_of_valid; assumption).
  intros r [A B]. split; eapply xle_trans; eassumption.
Qed.
Lemma tight_same (z w : I) S : ftightest z S -> fsame w z -> ftightest w S.
Proof.
  intros [E T] [L U]. unfold ftightest, tightest, encloses, mem in *. rewrite L, U. split; auto.
Qed.
Lemma valid_same (z w : I) : fvalid z -> fsame w z -> fvalid w.
Proof. intros V [L U]. unfold fvalid, valid in *. rewrite L, U. exact V. Qed.
Lemma pt_valid (v : T (fnum p)) r : fval v = Fin r -> fvalid (mk v v) /\ forall t, fmem (mk v v) t <-> t = r.
Proof.
  intros E. split.
  - unfold fvalid, valid. cbn [low up]. rewrite E. split; [apply Rle_refl|split; discriminate].
  - intros t. unfold fmem, mem. cbn [low up]. rewrite E. unfold xle. lra.
Qed.
Lemma II_tight o (a b : I) : fvalid a -> fvalid b -> o_valid o b ->
  exists z, returns (f_II o P a b) z /\ fvalid z /\ ftightest z (image2 (r_op o) (fmem a) (fmem b)).
Proof.
  intros A B O. destruct o; cbn [f_II r_op].
  - exact (C01_add_tightest p k debug c ord a b A B).
  - exact (C02_sub_tightest p k debug c ord a b A B).
  - exact (C04_mul_tightest p k debug c ord a b A B).
  - cbn [o_valid] in O. destruct (C05_div_encloses_partial p k debug c ord a b A B) as (z & Rz & Vz & _ & Tz).
    { intros D. apply O. apply D. reflexivity. }
    exists z. split; auto. split; auto.
    assert (NL : ~ division_loses a b).
    { unfold division_loses. intros (_ & _ & H). apply O. destruct B as (B1 & _ & _). unfold fmem, mem. split.
      - destruct H as [H|H]; rewrite H in *; [apply Rle_refl|exact B1].
      - destruct H as [H|H]; rewrite H in *; [exact B1|apply Rle_refl]. }
    specialize (Tz NL). destruct Tz as [E M]. split.
    + intros r (x & y & X & Y & ->). apply E. exists x, y. split; [exact X|]. split; [exact Y|]. split; [|reflexivity].
      intros Z. subst y. exact (O Y).
    + intros w W. apply M. intros r (x & y & X & Y & _ & ->). apply W. exists x, y. auto.
Qed.
Lemma IT_tight o (a : I) (v : T (fnum p)) s : fvalid a -> fval v = Fin s -> o_valid o (mk (N := fnum p) v v) ->
  exists z, returns (f_IT o P a v) z /\ fvalid z /\ ftightest z (image2 (r_op o) (fmem a) (fmem (mk v v))).
Proof.
  intros A B O. destruct (pt_valid v s B) as [V V'].
  destruct (II_tight o a (mk v v) A V O) as (z & Rz & Vz & Tz).
  assert (E : exists w, returns (f_IT o P a v) w /\ fsame w z).
  { destruct o; cbn [f_II f_IT] in *.
    - destruct (C07_add p k debug c ord v a s B A) as (z0 & _ & w & R0 & _ & _ & R2 & S2).
      exists w. split; auto.
      destruct (C01_add_tightest p k debug c ord (mk v v) a V A) as (z1 & R1 & _ & T1).
      assert (z1 = z0) by (specialize (R1 RNE); specialize (R0 RNE); congruence). subst z1.
      enough (fsame z0 z) by (unfold fsame, same in *; intuition congruence).
      apply (tightest_unique (N := fnum p) fval z0 z (image2 Rplus (fmem (mk v v)) (fmem a))); auto.
      destruct Tz as [E M]. split.
      + intros r (x & y & X & Y & ->). apply E. exists y, x. split; [exact Y|]. split; [exact X|]. cbn [r_op]. ring.
      + intros u W. apply M. intros r (x & y & X & Y & ->). apply W. exists y, x. split; [exact Y|]. split; [exact X|]. cbn [r_op]. ring.
    - destruct (C07_sub p k debug c ord v a s B A) as (_ & _ & z0 & w & _ & _ & _ & R0 & R2 & S2).
      exists w. split; auto. replace z with z0; auto. specialize (Rz RNE); specialize (R0 RNE). congruence.
    - destruct (C07_mul p k debug c ord v a s B A) as (z0 & _ & w & R0 & _ & _ & R2 & S2).
      exists w. split; auto.
      destruct (C04_mul_tightest p k debug c ord (mk v v) a V A) as (z1 & R1 & _ & T1).
      assert (z1 = z0) by (specialize (R1 RNE); specialize (R0 RNE); congruence). subst z1.
      enough (fsame z0 z) by (unfold fsame, same in *; intuition congruence).
      apply (tightest_unique (N := fnum p) fval z0 z (image2 Rmult (fmem (mk v v)) (fmem a))); auto.
      destruct Tz as [E M]. split.
      + intros r (x & y & X & Y & ->). apply E. exists y, x. split; [exact Y|]. split; [exact X|]. cbn [r_op]. ring.
      + intros u W. apply M. intros r (x & y & X & Y & ->). apply W. exists y, x. split; [exact Y|]. split; [exact X|]. cbn [r_op]. ring.
    - destruct (C07_div p k debug c ord v a s B A) as (_ & _ & H & _).
      destruct H as (z0 & w & R0 & R2 & S2). { intros ->. apply O, V'. reflexivity. }
      exists w. split; auto. replace z with z0; auto. specialize (Rz RNE); specialize (R0 RNE). congruence. }
  destruct E as (w & Rw & Sw). exists w. split; auto. split; [eapply valid_same; eassumption|eapply tight_same; eassumption].
Qed.
Lemma TI_tight o (v : T (fnum p)) (b : I) r : fval v = Fin r -> fvalid b -> o_valid o b ->
  exists z, returns (f_TI o P v b) z /\ fvalid z /\ ftightest z (image2 (r_op o) (fmem (mk v v)) (fmem b)).
Proof.
  intros A B O. destruct (pt_valid v r A) as [V V'].
  destruct (II_tight o (mk v v) b V B O) as (z & Rz & Vz & Tz).
  assert (E : exists w, returns (f_TI o P v b) w /\ fsame w z).
  { destruct o; cbn [f_II f_TI] in *.
    - destruct (C07_add p k debug c ord v b r A B) as (z0 & w & _ & R0 & R2 & S2 & _).
      exists w. split; auto. replace z with z0; auto. specialize (Rz RNE); specialize (R0 RNE). congruence.
    - destruct (C07_sub p k debug c ord v b r A B) as (z0 & w & _ & _ & R0 & R2 & S2 & _).
      exists w. split; auto. replace z with z0; auto. specialize (Rz RNE); specialize (R0 RNE). congruence.
    - destruct (C07_mul p k debug c ord v b r A B) as (z0 & w & _ & R0 & R2 & S2 & _).
      exists w. split; auto. replace z with z0; auto. specialize (Rz RNE); specialize (R0 RNE). congruence.
    - destruct (C07_div p k debug c ord v b r A B) as (H & _).
      destruct H as (z0 & w & R0 & R2 & S2). { intros D. apply O, D. reflexivity. }
      exists w. split; auto. replace z with z0; auto. specialize (Rz RNE); specialize (R0 RNE). congruence. }
  destruct E as (w & Rw & Sw). exists w. split; auto. split; [eapply valid_same; eassumption|eapply tight_same; eassumption].
Qed.
Lemma TT_tight o (u v : T (fnum p)) r s : fval u = Fin r -> fval v = Fin s -> (o = O_div -> s <> 0) ->
  exists z, returns (f_TT o P u v) z /\ fvalid z /\ ftightest z (point (r_op o r s)).
Proof.
  intros A B O. destruct (C52_number_functions_tightest p k debug c ord u v r s A B) as (H1 & H2 & H3 & H4 & _).
  destruct o; auto.
Qed.
End One.

(** test_float.cpp test_binary: numbers give less than one number and one interval,
    and these less than two intervals. *)
Theorem C87_binary_test : forall o p k debug c ord (a b : itv (fnum p)) (u v : T (fnum p)) r s,
  let P := P_ p k debug c ord in
  fvalid a -> fvalid b -> o_valid o b ->
  fval u = Fin r -> fmem a r -> fval v = Fin s -> fmem b s ->
  exists rII rIT rTI rTT, returns (f_II o P a b) rII /\ returns (f_IT o P a v) rIT /\
    returns (f_TI o P u b) rTI /\ returns (f_TT o P u v) rTT /\
    subset P rTT rIT = true /\ subset P rTT rTI = true /\
    subset P rIT rII = true /\ subset P rTI rII = true.
Proof.
  intros o p k debug c ord a b u v r s P A B O Eu Mu Ev Mv.
  destruct (pt_valid p u r Eu) as [Vu Pu]. destruct (pt_valid p v s Ev) as [Vv Pv].
  destruct (II_tight p k debug c ord o a b A B O) as (z1 & R1 & V1 & T1).
  destruct (IT_tight p k debug c ord o a v s A Ev) as (z2 & R2 & V2 & T2).
  { destruct o; auto. cbn [o_valid] in *. intros H. apply Pv in H. subst s. exact (O Mv). }
  destruct (TI_tight p k debug c ord o u b r Eu B O) as (z3 & R3 & V3 & T3).
  destruct (TT_tight p k debug c ord o u v r s Eu Ev) as (z4 & R4 & V4 & T4).
  { intros ->. cbn [o_valid] in O. intros H. subst s. exact (O Mv). }
  exists z1, z2, z3, z4. repeat (split; [assumption|]).
  split; [|split; [|split]].
  - apply (tight_below p k debug c ord z4 z2 _ _ V4 V2 T4 (proj1 T2)). intros t ->. exists r, s. rewrite Pv. auto.
  - apply (tight_below p k debug c ord z4 z3 _ _ V4 V3 T4 (proj1 T3)). intros t ->. exists r, s. rewrite Pu. auto.
  - apply (tight_below p k debug c ord z2 z1 _ _ V2 V1 T2 (proj1 T1)). intros t (x & y & X & Y & ->). exists x, y.
    apply Pv in Y. subst y. auto.
  - apply (tight_below p k debug c ord z3 z1 _ _ V3 V1 T3 (proj1 T1)). intros t (x & y & X & Y & ->). exists x, y.
    apply Pu in X. subst x. auto.
Qed.

Lemma fzero_val p : fval (f := p_T p) (zero : T (fnum p)) = Fin 0.
Proof. exact (ns_0 _ _ (fnumspec p)). Qed.

(** mul.cpp test_square: the upper bounds of square(a) and a * a are equal, the lower
    bounds are equal or the one of the product is negative or zero and the other one zero. *)
Theorem C87_square_test : forall p k debug c ord (a : itv (fnum p)),
  let P := P_ p k debug c ord in
  fvalid a ->
  exists b d, returns (square P a) b /\ returns (op_mul P a a) d /\
    fval (f := p_T p) (up b) = fval (f := p_T p) (up d) /\
    (fval (f := p_T p) (low b) = fval (f := p_T p) (low d) \/
     (xle (fval (f := p_T p) (low d)) (Fin 0) /\ fval (f := p_T p) (low b) = Fin 0)).
Proof.
  intros p k debug c ord a P A.
  destruct (C09_square_tightest p k debug c ord a A) as (b & Rb & Vb & Eb & Tb).
  destruct (C04_mul_tightest p k debug c ord a a A A) as (d & Rd & Vd & Ed & Td).
  exists b, d. split; [exact Rb|]. split; [exact Rd|].
  assert (S1 : xle (fval (f := p_T p) (low d)) (fval (f := p_T p) (low b)) /\ xle (fval (f := p_T p) (up b)) (fval (f := p_T p) (up d))).
  { apply (Tb d). intros t (r & Hr & ->). apply Ed. exists r, r. auto. }
  destruct S1 as [L1 U1].
  assert (PR : forall r s, r * s <= r * r \/ r * s <= s * s).
  { intros r s. destruct (Rle_dec (s * (r - s)) 0); [right; lra|left; nra]. }
  assert (U2 : xle (fval (f := p_T p) (up d)) (fval (f := p_T p) (up b))).
  { refine (proj2 (Td (mk (low d) (up b)) _)). intros t (r & s & Hr & Hs & ->). split; cbn [low up].
    - apply (Ed (r * s)). exists r, s. auto.
    - destruct (PR r s) as [K|K].
      + apply xle_trans with (Fin (r * r)); [exact K|]. apply (Eb (r * r)). exists r. auto.
      + apply xle_trans with (Fin (s * s)); [exact K|]. apply (Eb (s * s)). exists s. auto. }
  split; [apply xle_antisym; assumption|].
  assert (D : fmem a 0 \/ ~ fmem a 0).
  { pose proof (C32_zero_in p k debug c ord a (ok_of_valid p c a A)) as Z.
    destruct (Bool.bool_dec (zero_in (P_ p k debug c ord) a) true) as [E|E]; [left|right]; rewrite <- Z; assumption. }
  destruct D as [Z|Z].
  - right. assert (B0 : fval (f := p_T p) (low b) = Fin 0).
    { apply xle_antisym.
      - replace 0 with (0 * 0) by ring. apply (Eb (0 * 0)). exists 0. auto.
      - rewrite <- (fzero_val p). refine (proj1 (Tb (mk (zero : T (fnum p)) (up b)) _)). intros t (r & Hr & ->). split; cbn [low up].
        + rewrite fzero_val. cbn [xle]. nra.
        + apply (Eb (r * r)). exists r. auto. }
    split; [|exact B0]. rewrite <- B0. exact L1.
  - left. apply xle_antisym; [|exact L1].
    refine (proj1 (Td (mk (low b) (up d)) _)). intros t (r & s & Hr & Hs & ->). split; cbn [low up].
    + assert (K : (0 < r /\ 0 < s) \/ (r < 0 /\ s < 0)).
      { destruct Hr as [Hr1 Hr2], Hs as [Hs1 Hs2].
        assert (NZ : ~ (r <= 0 <= s) /\ ~ (s <= 0 <= r)).
        { split; intros [H1 H2]; apply Z; split; [apply (xle_trans _ (Fin r))|apply (xle_trans _ (Fin s))|apply (xle_trans _ (Fin s))|apply (xle_trans _ (Fin r))]; assumption. }
        destruct (Rle_dec r 0), (Rle_dec s 0); try lra. }
      assert (M : r * r <= r * s \/ s * s <= r * s) by (destruct (Rle_dec (Rabs r) (Rabs s)) as [H|H]; revert H; unfold Rabs; destruct (Rcase_abs r), (Rcase_abs s); nra).
      destruct M as [M|M].
      * apply xle_trans with (Fin (r * r)); [|exact M]. apply (Eb (r * r)). exists r. auto.
      * apply xle_trans with (Fin (s * s)); [|exact M]. apply (Eb (s * s)). exists s. auto.
    + apply (Ed (r * s)). exists r, s. auto.
Qed.

(** mul.cpp test_sqrt: the condition on a is that a contains the magnitudes of its members. *)
Theorem C87_sqrt_test : forall p k debug c ord (a : itv (fnum p)),
  let P := P_ p k debug c ord in
  fvalid a -> (forall r, fmem a r -> fmem a (Rabs r)) ->
  exists s b n, returns (i_sqrt P a) s /\ returns (square P s) b /\ returns (u_abs P a) n /\ subset P n b = true.
Proof.
  intros p k debug c ord a P A M.
  assert (NE : exists r, fmem a r) by exact (valid_mem (N := fnum p) fval a A).
  destruct NE as (r0 & H0).
  destruct (C13_sqrt_tightest p k debug c ord a A) as (s & Rs & Vs & Es & _).
  { exists (Rabs r0). split; [apply M, H0|apply Rabs_pos]. }
  destruct (C09_square_tightest p k debug c ord s Vs) as (b & Rb & Vb & Eb & _).
  destruct (C15_abs_exact p k debug c ord a A) as (n & Rn & Vn & Dn).
  exists s, b, n. repeat (split; [assumption|]).
  apply (C32_subset p k debug c ord); try (apply ok_of_valid; assumption).
  intros t Ht. apply Dn in Ht. destruct Ht as (r & Hr & ->).
  apply Eb. exists (sqrt (Rabs r)). split; [|rewrite sqrt_sqrt; [reflexivity|apply Rabs_pos]].
  apply Es. exists (Rabs r). split; [apply M, Hr|]. split; [apply Rabs_pos|reflexivity].
Qed.
(** In the other order no condition is needed. *)
Theorem C87_square_sqrt : forall p k debug c ord (a : itv (fnum p)),
  let P := P_ p k debug c ord in
  fvalid a ->
  exists q b n, returns (square P a) q /\ returns (i_sqrt P q) b /\ returns (u_abs P a) n /\ subset P n b = true.
Proof.
  intros p k debug c ord a P A.
  destruct (C09_square_tightest p k debug c ord a A) as (q & Rq & Vq & Eq & _).
  assert (NE : exists r, fmem a r) by exact (valid_mem (N := fnum p) fval a A).
  destruct NE as (r0 & H0).
  destruct (C13_sqrt_tightest p k debug c ord q Vq) as (b & Rb & Vb & Eb & _).
  { exists (r0 * r0). split; [apply Eq; exists r0; auto|nra]. }
  destruct (C15_abs_exact p k debug c ord a A) as (n & Rn & Vn & Dn).
  exists q, b, n. repeat (split; [assumption|]).
  apply (C32_subset p k debug c ord); try (apply ok_of_valid; assumption).
  intros t Ht. apply Dn in Ht. destruct Ht as (r & Hr & ->).
  apply Eb. exists (r * r). split; [apply Eq; exists r; auto|]. split; [nra|]. symmetry. apply sqrt_Rsqr_abs.
Qed.
(** The whole of mul.cpp test_sqrt, mul.cpp:69-73, as a program. *)
Definition mt_sqrt {N} (P : policy N) (a : itv N) : M bool :=
  let! s := i_sqrt P a in
  let! b := square P s in
  let! n := u_abs P a in ret (subset P n b).
Theorem C87_sqrt_program : forall p k debug c ord (a : itv (fnum p)),
  fvalid a -> (forall r, fmem a r -> fmem a (Rabs r)) -> returns (mt_sqrt (P_ p k debug c ord) a) true.
Proof.
  intros p k debug c ord a A M mode. destruct (C87_sqrt_test p k debug c ord a A M) as (s & b & n & R1 & R2 & R3 & E).
  unfold mt_sqrt, bind. rewrite (R1 mode), (R2 mode), (R3 mode), E. reflexivity.
Qed.
(** The condition is needed: for [-3,2] the square root ignores the negative part. *)
Theorem C87_sqrt_refuted : exists a : itv (fnum double_sse),
  fvalid a /\ mt_sqrt Pdef a RNE = (Ok false, RNE).
Proof. exists (di (-3) 2). split; [apply di_valid; lia|vm_compute; reflexivity]. Qed.

(** pi.cpp: twice the constant for pi/2 is the one for pi, and twice that is the one for 2 pi. *)
Inductive hardware_constants : forall p, consts (fnum p) -> Prop :=
| hw_float p m0 : p = float_sse \/ p = float_x87 -> hardware_constants p (consts_float p m0)
| hw_double p m0 : p = double_sse \/ p = double_x87 -> hardware_constants p (consts_double p m0)
| hw_long_double p pd m0 : ld_pair p pd -> hardware_constants p (consts_long_double p pd m0).

Lemma hw_kspec p K : hardware_constants p K -> exists pl pu,
  kspec (N := fnum p) fval K pl pu (pl / 2) (pu / 2) (pl * 2) (pu * 2).
Proof.
  intros H. destruct H as [p m0 Hp|p m0 Hp|p pd m0 Hp].
  - exists (dyad mfl (-22)), (dyad mfu (-22)). rewrite <- !dyad_half, <- !dyad_twice. apply float_k, Hp.
  - exists (dyad mdl (-51)), (dyad mdu (-51)). rewrite <- !dyad_half, <- !dyad_twice. apply double_k, Hp.
  - exists (dyad mdl (-51)), (dyad mdu (-51)). rewrite <- !dyad_half, <- !dyad_twice. apply long_k, Hp.
Qed.
Lemma doubles p k debug c ord (two : T (fnum p)) (x w : itv (fnum p)) a b a' b' :
  fval two = Fin 2 -> fval (f := p_T p) (low x) = Fin a -> fval (f := p_T p) (up x) = Fin b -> a <= b ->
  fval (f := p_T p) (low w) = Fin a' -> fval (f := p_T p) (up w) = Fin b' -> a' = a * 2 -> b' = b * 2 ->
  exists z, returns (op_mul_ni (P_ p k debug c ord) two x) z /\ fvalid z /\ fsame z w /\ equal (P_ p k debug c ord) z w = true.
Proof.
  intros E2 Ea Eb L Wa Wb Ha Hb.
  assert (Mx : forall r, fmem x r <-> a <= r <= b) by (intros r; unfold fmem, mem; rewrite Ea, Eb; reflexivity).
  assert (Mw : forall r, fmem w r <-> a' <= r <= b') by (intros r; unfold fmem, mem; rewrite Wa, Wb; reflexivity).
  assert (Vx : fvalid x) by (apply (mem_valid (N := fnum p) fval x a), Mx; lra).
  assert (Vw : fvalid w) by (apply (mem_valid (N := fnum p) fval w a'), Mw; lra).
  destruct (pt_valid p two 2 E2) as [_ Pt].
  destruct (TI_tight p k debug c ord O_mul two x 2 E2 Vx Logic.I) as (z & Rz & Vz & Tz).
  exists z. split; [exact Rz|]. split; [exact Vz|].
  assert (Tw : ftightest w (image2 (r_op O_mul) (fmem (mk two two)) (fmem x))).
  { split.
    - intros t (r & s & Hr & Hs & ->). apply Pt in Hr. apply Mx in Hs. apply Mw. cbn [r_op]. subst. lra.
    - intros u Hu. split.
      + rewrite Wa. apply (Hu a'). exists 2, a. rewrite Pt, Mx. cbn [r_op]. repeat split; lra.
      + rewrite Wb. apply (Hu b'). exists 2, b. rewrite Pt, Mx. cbn [r_op]. repeat split; lra. }
  pose proof (tightest_unique (N := fnum p) fval z w _ Tz Tw) as S. split; [exact S|].
  apply (C32_equal p k debug c ord); try (apply ok_of_valid; assumption).
  destruct S as [S1 S2]. intros r. unfold fmem, mem. rewrite S1, S2. reflexivity.
Qed.
Theorem C87_pi_test : forall p k debug c ord K (two : T (fnum p)),
  let P := P_ p k debug c ord in
  hardware_constants p K -> fval two = Fin 2 ->
  exists zp zh zt z1 z2, returns (i_pi P K) zp /\ returns (i_pi_half P K) zh /\ returns (i_pi_twice P K) zt /\
    returns (op_mul_ni P two zh) z1 /\ equal P z1 zp = true /\ fsame z1 zp /\
    returns (op_mul_ni P two zp) z2 /\ equal P z2 zt = true /\ fsame z2 zt.
Proof.
  intros p k debug c ord K two P HK E2. destruct (hw_kspec p K HK) as (pl & pu & S).
  destruct S as [(a & Ea & Ra) (b & Eb & Rb) (d & Ed & Rd) (e & Ee & Re) (f & Ef & Rf) (g & Eg & Rg) B1 B2 B3 _].
  exists (mk a b), (mk d e), (mk f g).
  destruct (doubles p k debug c ord two (mk d e) (mk a b) (pl / 2) (pu / 2) pl pu E2 Ed Ee) as (z1 & R1 & _ & S1 & Q1); auto; try lra.
  destruct (doubles p k debug c ord two (mk a b) (mk f g) pl pu (pl * 2) (pu * 2) E2 Ea Eb) as (z2 & R2 & _ & S2 & Q2); auto; try lra.
  exists z1, z2. repeat (split; [apply pair_returns; assumption|]).
  repeat (split; [assumption|]). assumption.
Qed.

(** Hypotheses that are met, and calls of the tests. *)
Example C87_case :
  fvalid (di (-1) 2) /\ fvalid (di 3 5) /\ o_valid O_div (di 3 5) /\ fmem (di (-1) 2) 1 /\ fmem (di 3 5) 4 /\
  (forall r, fmem (di (-1) 2) r -> fmem (di (-1) 2) (Rabs r)) /\
  hardware_constants double_sse (consts_double double_sse RUP) /\ fval (f := binary64) (dbl 2 0) = Fin 2 /\
  mt_sqrt Pdef (di (-1) 2) RNE = (Ok true, RNE) /\
  run show (op_div Pdef (di (-1) 2) (di 4 8)) RNE = (Ok (show (mk (dbl (-1) (-2)) (dbl 1 (-1)))), RNE) /\
  run show (op_div_in Pdef (di (-1) 2) (dbl 8 0)) RNE = (Ok (show (mk (dbl (-1) (-3)) (dbl 1 (-2)))), RNE) /\
  run show (n_div Pdef (dbl 2 0) (dbl 8 0)) RNE = (Ok (show (mk (dbl 1 (-2)) (dbl 1 (-2)))), RNE) /\
  run show (square Pdef (di (-2) 3)) RNE = (Ok (show (di 0 9)), RNE) /\
  run show (op_mul Pdef (di (-2) 3) (di (-2) 3)) RNE = (Ok (show (di (-6) 9)), RNE).
Proof.
  assert (D : forall a b r, (-100 <= a)%Z -> (a <= b)%Z -> (b <= 100)%Z -> fmem (di a b) r <-> IZR a <= r <= IZR b).
  { intros a b r La L Lb. unfold fmem, mem. cbn [low up di].
    assert (A : Fin (IZR a) = fval (f := p_T double_sse) (dbl a 0)) by (symmetry; apply dbl_val; lia).
    assert (B : Fin (IZR b) = fval (f := p_T double_sse) (dbl b 0)) by (symmetry; apply dbl_val; lia).
    rewrite <- A, <- B. reflexivity. }
  split; [apply di_valid; lia|]. split; [apply di_valid; lia|].
  split; [cbn [o_valid]; rewrite D by lia; lra|]. split; [rewrite D by lia; lra|]. split; [rewrite D by lia; lra|].
  split; [intros r; rewrite !D by lia; unfold Rabs; destruct (Rcase_abs r); lra|].
  split; [apply hw_double; left; reflexivity|]. split; [apply dbl_val; lia|].
  repeat split; vm_compute; reflexivity.
Qed.

Print Assumptions C87_binary_test.
Print Assumptions C87_square_test.
Print Assumptions C87_sqrt_test.
Print Assumptions C87_sqrt_program.
Print Assumptions C87_square_sqrt.
Print Assumptions C87_sqrt_refuted.
Print Assumptions C87_pi_test.

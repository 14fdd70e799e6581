(** * More on C16, C06 and C31 *)

From Coq Require Import Reals ZArith Lra Lia Bool.
From Flocq Require Import Core BinarySingleNaN.
From Verif Require Import Outcome Base Checking Interval Utility Arith Arith2 FloatNum Spec ExtR Sem
  FloatSpec FloatPol CoreArith CoreDiv CoreMore CoreFun CorePow FloatMed CoreUtil CoreFmod Inst Witness Mutate CoreCtor CoreRoot Narrow RootInf.
Local Open Scope R_scope.

Notation P_ p k debug c ord := (fpol p Save k debug c ord).

(** ** C16: checking policies that do not create empty intervals

    These include the default one.  Infinite bounds and bounds with an
    overflowing reciprocal need no exception then. *)
Theorem C16_nth_root_no_empty_partial : forall p k debug c ord dbg (x : itv (fnum p)) n,
  allows_empty c = false ->
  (2 * prec (p_T p) + 2 <= emax (p_T p))%Z -> (1 <= n <= 2 ^ prec (p_T p))%Z ->
  fvalid x -> (exists t, real_roots n (fmem x) t) ->
  exists z fuel0, fvalid z /\ fencloses z (real_roots n (fmem x)) /\
    forall fuel mode, (fuel0 <= fuel)%nat -> k = Std \/ mode = RUP ->
      exists mode', nth_root (P_ p k debug c ord) dbg fuel x n mode = (Ok z, mode').
Proof.
  intros p k debug c ord dbg x n NE W Hn V (t0 & Ht0).
  destruct (nth_root_ne p k debug c ord NE dbg x n W Hn V) as (z & f0 & E & Rz).
  - intros Ev. destruct Ht0 as [[_ A] B]. specialize (B Ev).
    assert (0 <= t0 ^ Z.to_nat n) by (apply pow_le; exact B). destruct (fval (up x)); simpl in *; try tauto; lra.
  - exists z, (S f0). split; [apply (mem_valid _ _ t0), E, Ht0|]. split; [exact E|].
    intros fuel mode Hf Hk. destruct (Rz fuel ltac:(lia) mode) as (s' & _ & K); [|exists s'; exact K].
    destruct Hk as [->| ->]; [exact Logic.I|]. apply ready_up. reflexivity.
Qed.
Print Assumptions C16_nth_root_no_empty_partial.
(** The round trip, whether or not the power overflows or underflows. *)
Theorem C16_nth_root_of_pow_no_empty_partial : forall p k debug c ord dbg (x w : itv (fnum p)) n,
  allows_empty c = false ->
  (2 * prec (p_T p) + 2 <= emax (p_T p))%Z -> (1 <= n <= 2 ^ prec (p_T p))%Z -> fvalid x ->
  returns (Arith2.pow (P_ p k debug c ord) x n) w ->
  exists z fuel0, fvalid z /\
    (forall r, fmem x r -> if Z.even n then fmem z (Rabs r) else fmem z r) /\
    forall fuel mode, (fuel0 <= fuel)%nat -> k = Std \/ mode = RUP ->
      exists mode', nth_root (P_ p k debug c ord) dbg fuel w n mode = (Ok z, mode').
Proof.
  intros p k debug c ord dbg x w n NE W Hn V Rw.
  destruct (pow_positive_ok (fpolspec p Save k debug c ord) x n ltac:(lia) V) as (w' & Rw' & Ew & _).
  assert (E0 : w' = w). { specialize (Rw RNE). pose proof (Rw' RNE) as K. pose proof (eq_trans (eq_sym K) Rw) as J. injection J. auto. }
  subst w'.
  assert (RR : forall r, fmem x r -> real_roots n (fmem w) (if Z.even n then Rabs r else r)).
  { intros r Hr. assert (K : fmem w (r ^ Z.to_nat n)) by (apply Ew; exists r; auto).
    destruct (Z.even n) eqn:Ev; split; [|intros _; apply Rabs_pos|exact K|intros J; rewrite Ev in J; discriminate J].
    unfold Rabs. destruct (Rcase_abs r); [|exact K]. rewrite pow_even_opp; auto; [|lia].
    rewrite <- Z.negb_even, Ev. reflexivity. }
  destruct (valid_mem _ _ V) as (r0 & Hr0).
  assert (Vw : fvalid w) by (apply (mem_valid _ _ (r0 ^ Z.to_nat n)), Ew; exists r0; auto).
  destruct (C16_nth_root_no_empty_partial p k debug c ord dbg w n NE W Hn Vw) as (z & f0 & Vz & Ez & Rz).
  { eexists. apply (RR r0 Hr0). }
  exists z, f0. split; [exact Vz|]. split; [|exact Rz].
  intros r Hr. specialize (RR r Hr). destruct (Z.even n); apply Ez; exact RR.
Qed.
Print Assumptions C16_nth_root_of_pow_no_empty_partial.
(** Under the defaults: the cube root of [-8,+inf] is [-2,+inf]; the square root
    of [2^-1074, 4], whose reciprocal overflows, is [0,2]. *)
Example C16_no_empty_case : allows_empty CkStrict = false /\
  fvalid (mk (dbl (-8) 0) pinf : itv (fnum double_sse)) /\ fvalid (mk (dbl 1 (-1074)) (dbl 4 0) : itv (fnum double_sse)) /\
  run show (nth_root Pdef true 100 (mk (dbl (-8) 0) pinf) 3) RUP = (Ok (show (mk (dbl (-2) 0) pinf)), RUP) /\
  run show (nth_root Pdef true 100 (mk (dbl 1 (-1074)) (dbl 4 0)) 2) RUP = (Ok (show (di 0 2)), RUP).
Proof.
  split; [reflexivity|]. split; [apply validb_ok; vm_compute; reflexivity|]. split; [apply validb_ok; vm_compute; reflexivity|].
  split; vm_compute; reflexivity.
Qed.

(** ** C06: no quotient at all *)
Theorem C06_zero_divisor : forall p k debug c ord (x y : itv (fnum p)),
  fvalid x -> fdenotes y (point 0) ->
  let P := P_ p k debug c ord in
  (forall t, ~ quotients (fmem x) (fmem y) t) /\
  (if allows_empty c then exists z, returns (division_part1 P x y) (z, false) /\ fempty z
   else throws (division_part1 P x y) EmptyCreated) /\
  gives_empty c (division_part2 P x y false).
Proof.
  intros p k debug c ord x y V D P.
  assert (M0 : fmem y 0) by (apply D; reflexivity).
  assert (L0 : fval (low y) = Fin 0 /\ fval (up y) = Fin 0).
  { assert (Vy : fvalid y) by (eapply mem_valid; exact M0). destruct M0 as [A B].
    pose proof (valid_slim_low _ _ Vy) as S1. pose proof (valid_slim_up _ _ Vy) as S2.
    destruct (fval (low y)) as [| |l|] eqn:El; simpl in A; try tauto.
    - exfalso. destruct (S1 (-1)) as (r & Hr & K). apply D in Hr. unfold point in Hr. lra.
    - destruct (fval (up y)) as [| |u|] eqn:Eu; simpl in B; try tauto.
      + apply D in S1. apply D in S2. unfold point in *. subst. auto.
      + exfalso. destruct (S2 1) as (r & Hr & K). apply D in Hr. unfold point in Hr. lra. }
  destruct L0 as [El Eu].
  split; [|split].
  - intros t (r & s & _ & Hs & K & _). apply D in Hs. apply K, Hs.
  - assert (E : division_part1 P x y = (let! z := i_empty P in ret (z, false))).
    { unfold division_part1.
      assert (test_input_ii P x y = false) as ->.
      { unfold test_input_ii, P. rewrite !(test_i_ordered p Save); [reflexivity|rewrite El, Eu; simpl; lra|apply V]. }
      assert (zero_in P y = true) as ->.
      { apply (proj2 (zero_in_iff (fpolspec p Save k debug c ord) y (mem_valid _ _ 0 M0))). exact M0. }
      rewrite (proj2 (is_zero_fin p _ _ El) eq_refl), (proj2 (is_zero_fin p _ _ Eu) eq_refl). reflexivity. }
    rewrite E. pose proof (i_empty_gives p k debug c ord) as G. unfold gives_empty in G. unfold P. destruct (allows_empty c).
    + destruct G as (z & R & Z). exists z. split; [|exact Z]. intros s. unfold bind. rewrite R. reflexivity.
    + intros s. unfold bind. rewrite G. reflexivity.
  - apply i_empty_gives.
Qed.
Print Assumptions C06_zero_divisor.
Example C06_zero_divisor_case : fvalid (di (-1) 2) /\ fdenotes (di 0 0) (point 0) /\
  run (fun zb => snd zb) (division_part1 Pbase (di (-1) 2) (di 0 0)) RNE = (Ok false, RNE).
Proof.
  split; [apply di_valid; lia|]. split; [|vm_compute; reflexivity].
  intros r. unfold fmem, mem. cbn [di low up]. dval. simpl. unfold point. lra.
Qed.

(** ** C31: types narrower than int *)
Lemma src_narrow_ok p k v : src_ok p k (src_narrow p) v (Fin (IZR v)).
Proof.
  split; [|split].
  - intros m. eexists. split; [reflexivity|]. apply f_of_Z_nn.
  - intros d. eexists. split; [reflexivity|]. apply f_of_Z_dr.
  - intros _. exists (- v)%Z. split; [reflexivity|].
    eexists. split; [reflexivity|]. cbn [xopp]. rewrite <- opp_IZR. apply (f_of_Z_dr (f := p_T p) Up).
Qed.
(** Under both rounding policies, for char, short, bool and their unsigned
    variants: the tightest enclosure of the integer, or of the pair. *)
Theorem C31_narrow_partial : forall p k debug c ord v v',
  (exists z, returns (ctor_src (P_ p k debug c ord) (src_narrow p) v) z /\ fvalid z /\ ftightest z (point (IZR v))) /\
  ((v <= v')%Z -> exists z, returns (ctor_src2 (P_ p k debug c ord) (src_narrow p) v v') z /\ fvalid z /\
    ftightest z (between (Fin (IZR v)) (Fin (IZR v')))) /\
  ((v' < v)%Z -> gives_empty c (ctor_src2 (P_ p k debug c ord) (src_narrow p) v v')).
Proof.
  intros p k debug c ord v v'. pose proof (src_narrow_ok p k v) as S1. pose proof (src_narrow_ok p k v') as S2. split; [|split].
  - destruct (ctor_src_ok p k debug c ord _ _ _ S1) as (z & R & V & TI & _); [eexists; reflexivity|].
    exists z. split; [exact R|]. split; [exact V|]. eapply tightest_ext; [|exact TI].
    intros r. unfold between, point. simpl. lra.
  - intros L. apply ctor_src12_ok; auto; try discriminate. + apply Z.leb_le. exact L. + simpl. apply IZR_le, L.
  - intros L. eapply ctor_src12_empty; eauto. apply Z.leb_gt. exact L.
Qed.
Print Assumptions C31_narrow_partial.
(** interval<double>((unsigned char)200) and interval<double>((short)-32768). *)
Example C31_narrow_case :
  run show (ctor_src Pdef (src_narrow double_sse) 200%Z) RNE = (Ok (show (di 200 200)), RNE) /\
  run show (ctor_src Pdef (src_narrow double_sse) (-32768)%Z) RNE = (Ok (show (di (-32768) (-32768))), RNE).
Proof. split; vm_compute; reflexivity. Qed.

(** Two unsigned bounds: as documented with rounded_arith_std ... *)
Theorem C31_unsigned_pair_partial : forall p debug c ord w v v', (0 <= v < 2 ^ w)%Z -> (0 <= v' < 2 ^ w)%Z ->
  ((v <= v')%Z -> exists z, returns (ctor_src2 (P_ p Std debug c ord) (src_uint p w) v v') z /\ fvalid z /\
    ftightest z (between (Fin (IZR v)) (Fin (IZR v')))) /\
  ((v' < v)%Z -> gives_empty c (ctor_src2 (P_ p Std debug c ord) (src_uint p w) v v')).
Proof.
  intros p debug c ord w v v' H H'.
  assert (S1 : src_ok p Std (src_uint p w) v (Fin (IZR v))) by (apply src_uint_ok; auto).
  assert (S2 : src_ok p Std (src_uint p w) v' (Fin (IZR v'))) by (apply src_uint_ok; auto).
  split; intros L.
  - apply ctor_src12_ok; auto; try discriminate. + apply Z.leb_le. exact L. + simpl. apply IZR_le, L.
  - eapply ctor_src12_empty; eauto. apply Z.leb_gt. exact L.
Qed.
Print Assumptions C31_unsigned_pair_partial.
(** ... and with rounded_arith_opp a positive lower bound becomes v - 2^w. *)
Theorem C31_unsigned_opp_pair_partial : forall p debug c ord w v v', (0 < v <= v')%Z -> (v' < 2 ^ w)%Z ->
  exists z, returns (ctor_src2 (P_ p Opp debug c ord) (src_uint p w) v v') z /\ fvalid z /\
    ftightest z (between (Fin (IZR (v - 2 ^ w))) (Fin (IZR v'))).
Proof.
  intros p debug c ord w v v' H H'.
  destruct (C31_narrow_partial p Opp debug c ord (v - 2 ^ w)%Z v') as (_ & K & _).
  destruct (K ltac:(lia)) as (z & R & V & TI). exists z. split; [|split; assumption].
  intros mode. rewrite <- (R mode). unfold ctor_src2, ctor_src12. cbn [s_le src_uint src_narrow].
  rewrite (proj2 (Z.leb_le v v')), (proj2 (Z.leb_le (v - 2 ^ w)%Z v')) by lia.
  assert (N1 : forall u, is_nan_src (P_ p Opp debug c ord) (src_uint p w) u = is_nan_src (P_ p Opp debug c ord) (src_narrow p) u) by reflexivity.
  assert (N2 : forall u : Z, pureM (is_nan_src (P_ p Opp debug c ord) (src_narrow p) u) false) by (intros u; eapply is_nan_src_ok, src_narrow_ok).
  assert (B : forall A B (m : M A) a (f : A -> M B) s, pureM m a -> bind m f s = f a s).
  { intros A B m a f s Hm. unfold bind. rewrite Hm. reflexivity. }
  rewrite !N1. repeat (rewrite (B _ _ _ _ _ _ (N2 _)); cbv beta iota). cbn [orb negb].
  assert (W : ((- v) mod 2 ^ w)%Z = (- (v - 2 ^ w))%Z) by (symmetry; apply Z.mod_unique with (q := (-1)%Z); lia).
  assert (D : conv_down (p_ar (P_ p Opp debug c ord)) (src_uint p w) v = conv_down (p_ar (P_ p Opp debug c ord)) (src_narrow p) (v - 2 ^ w)%Z).
  { cbn [fpol p_ar farith arith_opp conv_down s_opp src_uint src_narrow]. rewrite W. reflexivity. }
  rewrite D. reflexivity.
Qed.
Print Assumptions C31_unsigned_opp_pair_partial.
(** interval<double>(7u, 9u) under the defaults is [-4294967289, 9]. *)
Example C31_unsigned_pair_case :
  run show (ctor_src2 Pdef (src_uint double_sse 32) 7%Z 9%Z) RNE = (Ok (show (di (-4294967289) 9)), RNE).
Proof. vm_compute; reflexivity. Qed.

(** * C59, C60: the signs of determinants of examples/filter.cpp

    "The function answers 1 or -1 if the determinant is positive or negative (and
    more importantly, the result must be provable), or 0 if the algorithm was
    unable to get a correct sign." (filter.cpp:52-55, and :105-107 for the second
    function.) *)

From Coq Require Import Reals ZArith Lra Lia Bool List Arith.
From Flocq Require Import Core BinarySingleNaN.
From Verif Require Import Outcome Base Checking Interval Utility FloatNum Spec ExtR Sem FloatSpec FloatPol Witness
  Det ExFilter FilterProof FilterProof2.
Import ListNotations.
Local Open Scope R_scope.

(** The real number that is the element of line r and column c. *)
Definition entries {p} (a : list (list (T (fnum p)))) : nat -> nat -> R :=
  fun r c => B2R (nth c (nth r a []) (@zero (fnum p)) : flt (p_T p)).
(** n lines of n finite numbers. *)
Definition finite_square {p} (n : nat) (a : list (list (T (fnum p)))) : Prop :=
  length a = n /\ Forall (fun l => length l = n /\ Forall (fun x : flt (p_T p) => is_finite x = true) l) a.
(** A correct answer about a determinant [d]. *)
Definition right_sign (s : Z) (d : R) : Prop :=
  (s = 1%Z /\ 0 < d) \/ (s = (-1)%Z /\ d < 0) \/ s = 0%Z.

Lemma finite_square_ok p n (a : list (list (T (fnum p)))) : finite_square n a ->
  square n a /\ forall r c, (r < n)%nat -> (c < n)%nat ->
    fval (elt (@zero (fnum p)) a r c : flt (p_T p)) = Fin (entries a r c).
Proof.
  intros (L & F). rewrite Forall_forall in F. split.
  - split; [exact L|]. apply Forall_forall. intros l Hl. apply F, Hl.
  - intros r c Hr Hc. apply fval_fin_iff. split; [|reflexivity]. unfold elt.
    destruct (F (nth r a [])) as (Ll & Fl); [apply nth_In; exact (eq_ind_r (fun m => (r < m)%nat) Hr L)|]. rewrite Forall_forall in Fl.
    apply Fl, nth_In. exact (eq_ind_r (fun m => (c < m)%nat) Hc Ll).
Qed.
(** The determinant of order 2 and 3 *)
Example det_2 (A : nat -> nat -> R) : det 2 A = A 0%nat 0%nat * A 1%nat 1%nat - A 1%nat 0%nat * A 0%nat 1%nat.
Proof. cbn. unfold minor, skip. cbn. ring. Qed.
Lemma det_3 (A : nat -> nat -> R) : det 3 A =
  A 0%nat 0%nat * (A 1%nat 1%nat * A 2%nat 2%nat - A 1%nat 2%nat * A 2%nat 1%nat)
  - A 0%nat 1%nat * (A 1%nat 0%nat * A 2%nat 2%nat - A 1%nat 2%nat * A 2%nat 0%nat)
  + A 0%nat 2%nat * (A 1%nat 0%nat * A 2%nat 1%nat - A 1%nat 1%nat * A 2%nat 0%nat).
Proof. cbn. unfold minor, skip. cbn. ring. Qed.

(** ** C59 *)
(** [raw] is what the memory of the interval matrix holds at first. *)
Theorem C59_algo1_sign : forall p k debug c ord n (a : list (list (T (fnum p)))) raw,
  finite_square n a -> square n raw ->
  exists s, returns (det_sign_algo1 (fpol p Save k debug c ord) a raw) s /\
    right_sign s (det n (entries a)).
Proof.
  intros p k debug c ord n a raw Fa Sr. destruct (finite_square_ok p n a Fa) as (Sa & Ea).
  destruct (algo1_ok (fpolspec p Save k debug c ord) n a raw (@zero (fnum p)) (entries a) Sa Sr Ea) as (s & R & K).
  exists s. split; [exact R|exact K].
Qed.
Print Assumptions C59_algo1_sign.
(** The answer is not always 0: it never is for a triangular matrix whose
    determinant is not zero. *)
Theorem C59_algo1_triangular : forall p k debug c ord n (a : list (list (T (fnum p)))) raw,
  finite_square n a -> square n raw ->
  (forall r c, (c < r)%nat -> entries a r c = 0) -> (forall r, (r < n)%nat -> entries a r r <> 0) ->
  exists s, returns (det_sign_algo1 (fpol p Save k debug c ord) a raw) s /\
    ((s = 1%Z /\ 0 < det n (entries a)) \/ (s = (-1)%Z /\ det n (entries a) < 0)).
Proof.
  intros p k debug c ord n a raw Fa Sr H0 Hd. destruct (finite_square_ok p n a Fa) as (Sa & Ea).
  destruct (algo1_tri (fpolspec p Save k debug c ord) n a raw (@zero (fnum p)) (entries a) Sa Sr Ea H0 Hd) as (s & R & K & Ns).
  exists s. split; [exact R|]. destruct K as [K|[K|K]]; auto. congruence.
Qed.
Print Assumptions C59_algo1_triangular.

Definition mat3 : list (list (T (fnum double_sse))) :=
  [[dbl 3 0; dbl 1 0; dbl 2 0]; [dbl 1 0; dbl 5 0; dbl 9 0]; [dbl 2 0; dbl 6 0; dbl 5 0]].
Definition raw_i (n : nat) : list (itv (fnum double_sse)) := repeat (di 7 9) n.
Definition raw_f (n : nat) : list (list (T (fnum double_sse))) := repeat (repeat (dbl 7 0) n) n.
Lemma raw_square n : square n (repeat (raw_i n) n).
Proof.
  split; [apply repeat_length|]. apply Forall_forall. intros l Hl. apply repeat_spec in Hl. subst l. apply repeat_length.
Qed.
Lemma raw_f_square n : square n (raw_f n).
Proof.
  split; [apply repeat_length|]. apply Forall_forall. intros l Hl. apply repeat_spec in Hl. subst l. apply repeat_length.
Qed.
Ltac fin_square := split; [reflexivity|]; repeat (apply Forall_cons; [split; [reflexivity|];
  repeat (apply Forall_cons; [vm_compute; reflexivity|]); apply Forall_nil|]); apply Forall_nil.
Lemma mat3_square : finite_square 3 mat3.
Proof. fin_square. Qed.
Lemma dbl_real m : (Z.abs m <= 2 ^ 53)%Z -> B2R (dbl m 0 : flt binary64) = IZR m.
Proof. intros Hm. apply (fval_fin_iff (dbl m 0 : flt binary64)), dbl_val. exact Hm. Qed.
Lemma mat3_det : det 3 (entries mat3) = -82.
Proof.
  rewrite det_3. unfold entries. cbn [nth mat3].
  change (p_T double_sse) with binary64. rewrite !dbl_real by lia. lra.
Qed.
Example C59_case : finite_square 3 mat3 /\ square 3 (repeat (raw_i 3) 3) /\ det 3 (entries mat3) < 0 /\
  det_sign_algo1 Pdef mat3 (repeat (raw_i 3) 3) RNE = (Ok (-1)%Z, RNE).
Proof.
  split; [exact mat3_square|]. split; [apply raw_square|]. split; [rewrite mat3_det; lra|]. vm_compute. reflexivity.
Qed.
Definition tri2 : list (list (T (fnum double_sse))) := [[dbl 2 0; dbl 1 0]; [dbl 0 0; dbl (-3) 0]].
Example C59_triangular_case : finite_square 2 tri2 /\
  (forall r c, (c < r)%nat -> entries tri2 r c = 0) /\ (forall r, (r < 2)%nat -> entries tri2 r r <> 0) /\
  det_sign_algo1 Pdef tri2 (repeat (raw_i 2) 2) RUP = (Ok (-1)%Z, RUP).
Proof.
  split; [fin_square|]. split; [|split].
  - assert (Z0 : B2R (@zero (fnum double_sse) : flt binary64) = 0) by (apply fval_fin_iff, (ns_0 _ _ (fnumspec double_sse))).
    intros [|[|r]] [|c] Hc; try lia; unfold entries; cbn [nth tri2]; change (p_T double_sse) with binary64.
    + apply dbl_real. lia.
    + destruct r; exact Z0.
    + destruct r; cbn [nth]; exact Z0.
  - intros [|[|r]] Hr; try lia; unfold entries; cbn [nth tri2]; change (p_T double_sse) with binary64; rewrite dbl_real by lia; lra.
  - vm_compute. reflexivity.
Qed.

(** ** C60 *)
(** The approximate inverse of the decomposition holds neither infinities nor
    NaNs: computing it did not overflow. *)
Definition inverse_finite {p} (a raw : list (list (T (fnum p)))) (mode : rmode) : Prop :=
  forall lu q sig lui,
    algo2_lu (length a) (length a) 0 (a, seq 0 (length a), 1%Z) mode = (Ok (Some (lu, q, sig)), mode) ->
    algo2_inverse (length a) lu q raw mode = (Ok lui, mode) ->
    Forall (Forall (fun x : flt (p_T p) => is_finite x = true)) lui.
(** Partial: when the approximate inverse is finite.  The rounding mode of the
    caller changes the decomposition, hence possibly the answer, never its
    correctness. *)
Theorem C60_algo2_sign_partial : forall p k debug c ord n (a raw : list (list (T (fnum p)))) raw1 raw2 mode,
  finite_square n a -> square n raw -> length raw1 = n -> length raw2 = n -> inverse_finite a raw mode ->
  exists s, det_sign_algo2 (fpol p Save k debug c ord) a raw raw1 raw2 mode = (Ok s, mode) /\
    right_sign s (det n (entries a)).
Proof.
  intros p k debug c ord n a raw raw1 raw2 mode Fa Sr L1 L2 HF. destruct (finite_square_ok p n a Fa) as (Sa & Ea).
  destruct (algo2_ok p k debug c ord n a raw raw1 raw2 (entries a) mode Sa Sr L1 L2 Ea) as (s & R & K); [|eauto].
  rewrite <- (proj1 Sa). intros lu q sig lui E1 E2 r c0 Hr Hc. specialize (HF lu q sig lui E1 E2).
  assert (F : is_finite (elt (@zero (fnum p)) lui r c0 : flt (p_T p)) = true).
  { unfold elt. rewrite Forall_forall in HF. destruct (Nat.ltb_spec r (length lui)) as [Lr|Lr].
    - specialize (HF (nth r lui []) (nth_In _ _ Lr)). rewrite Forall_forall in HF.
      destruct (Nat.ltb_spec c0 (length (nth r lui []))) as [Lc|Lc].
      + apply HF, nth_In, Lc.
      + rewrite (nth_overflow _ _ Lc). apply (fval_fin_iff (@zero (fnum p) : flt (p_T p)) 0), (ns_0 _ _ (fnumspec p)).
    - rewrite (nth_overflow lui [] Lr). replace (nth c0 [] _) with (@zero (fnum p)) by (destruct c0; reflexivity).
      apply (fval_fin_iff (@zero (fnum p) : flt (p_T p)) 0), (ns_0 _ _ (fnumspec p)). }
  rewrite (proj2 (fval_fin_iff (f := p_T p) _ _) (conj F eq_refl)). repeat split; discriminate.
Qed.
Print Assumptions C60_algo2_sign_partial.

Definition all_finite (o : outcome (list (list (T (fnum double_sse))))) : bool :=
  match o with Ok l => forallb (forallb (fun x : flt binary64 => is_finite x)) l | _ => false end.
Lemma mat3_inverse : inverse_finite mat3 (raw_f 3) RNE.
Proof.
  intros lu q sig lui E1 E2.
  assert (K : all_finite (match fst (algo2_lu 3 3 0 (mat3, seq 0 3, 1%Z) RNE) with
     Ok (Some (lu, q, _)) => fst (algo2_inverse 3 lu q (raw_f 3) RNE) | _ => NoFuel end) = true) by (vm_compute; reflexivity).
  change (length mat3) with 3%nat in *. rewrite E1 in K. cbn [fst] in K. rewrite E2 in K. cbn [fst all_finite] in K.
  apply Forall_forall. intros l Hl. apply Forall_forall. intros x Hx.
  rewrite forallb_forall in K. specialize (K l Hl). rewrite forallb_forall in K. exact (K x Hx).
Qed.
Example C60_case : finite_square 3 mat3 /\ inverse_finite mat3 (raw_f 3) RNE /\ det 3 (entries mat3) < 0 /\
  det_sign_algo2 Pdef mat3 (raw_f 3) (raw_i 3) (raw_i 3) RNE = (Ok (-1)%Z, RNE).
Proof.
  split; [exact mat3_square|]. split; [exact mat3_inverse|]. split; [rewrite mat3_det; lra|]. vm_compute. reflexivity.
Qed.

(** The claim of the comment is false for finite matrices in general: the
    decomposition of this one overflows, the norms become NaN, which is not
    >= 1, and the function answers 1 although the determinant is negative. *)
Definition mat_over : list (list (T (fnum double_sse))) :=
  [[dbl 1 0; dbl 1 1023; dbl 1 1023]; [dbl (-1) 0; dbl 1 1023; dbl 1 1023]; [dbl (-1) 0; dbl 1 1023; dbl 1 1022]].
Lemma big_real e : (e = 1022 \/ e = 1023)%Z -> B2R (dbl 1 e : flt binary64) = bpow radix2 e.
Proof.
  intros He. rewrite <- SF2R_B2SF.
  destruct He as [-> | ->].
  - assert (E : B2SF (dbl 1 1022 : flt binary64) = SpecFloat.S754_finite false 4503599627370496 970) by (vm_compute; reflexivity).
    rewrite E. cbn [SF2R]. unfold F2R. cbn [Fnum Fexp cond_Zopp]. change (Z.pos 4503599627370496) with (Zpower radix2 52).
    rewrite (IZR_Zpower radix2 52) by lia. rewrite <- bpow_plus. reflexivity.
  - assert (E : B2SF (dbl 1 1023 : flt binary64) = SpecFloat.S754_finite false 4503599627370496 971) by (vm_compute; reflexivity).
    rewrite E. cbn [SF2R]. unfold F2R. cbn [Fnum Fexp cond_Zopp]. change (Z.pos 4503599627370496) with (Zpower radix2 52).
    rewrite (IZR_Zpower radix2 52) by lia. rewrite <- bpow_plus. reflexivity.
Qed.
Theorem C60_algo2_sign_refuted : finite_square 3 mat_over /\ det 3 (entries mat_over) < 0 /\
  det_sign_algo2 Pdef mat_over (raw_f 3) (raw_i 3) (raw_i 3) RNE = (Ok 1%Z, RNE) /\
  ~ right_sign 1 (det 3 (entries mat_over)).
Proof.
  assert (D : det 3 (entries mat_over) < 0).
  { rewrite det_3. unfold entries. cbn [nth mat_over].
    change (p_T double_sse) with binary64. rewrite !dbl_real by lia. rewrite !big_real by auto.
    change 1023%Z with (1022 + 1)%Z. rewrite bpow_plus. change (bpow radix2 1) with 2.
    pose proof (bpow_gt_0 radix2 1022) as B. set (b := bpow radix2 1022) in *. nra. }
  split; [fin_square|]. split; [exact D|]. split; [vm_compute; reflexivity|].
  intros [(_ & K)|[(K & _)|K]]; try discriminate. lra.
Qed.
Print Assumptions C60_algo2_sign_refuted.

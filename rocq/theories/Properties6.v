(** * Properties C43, C44 and the rest of C07: fmod *)

From Coq Require Import Reals ZArith Lra Lia Bool.
From Flocq Require Import Core BinarySingleNaN.
From Verif Require Import Outcome Base Checking Interval Utility Arith Arith2 FloatNum Spec ExtR Sem
  FloatSpec FloatPol FloatInt CoreArith CoreDiv CoreMore CoreFmod Inst Witness Agree.
Local Open Scope R_scope.

Notation P_ p k debug c ord := (fpol p Save k debug c ord).

Section Fmod.
Context (p : platform) (k : rkind) (debug : bool) (c : ckind) (ord : site -> bool).
Notation P := (P_ p k debug c ord).
Notation spec := (fpolspec p Save k debug c ord).

Lemma div_bounds (x y : itv (fnum p)) l a b : fvalid x -> fvalid y -> fval (low x) = Fin l ->
  fval (low y) = Fin a -> fval (up y) = Fin b -> fmem x l /\ fmem y a /\ fmem y b.
Proof.
  intros (Hx & _) (Hy & _) El Ea Eb. unfold fmem, mem. rewrite El, Ea, Eb in *. simpl in *.
  repeat split; auto; lra.
Qed.

Lemma largest_sub f g : fmt_sub f g -> largest f <= largest g.
Proof.
  intros S. destruct (has_largest f false) as (w & E). 
  pose proof (fin_le_largest g (fconv f g RNE w) (largest f)) as K. rewrite (fconv_widen f g RNE w S) in K.
  specialize (K E). pose proof (Rle_abs (largest f)). lra.
Qed.
Lemma int_hyp_ok l yb : rint_ok p -> 0 < yb ->
  - largest (p_T p) <= l / yb -> - largest (p_R p) <= l / yb ->
  int_hyp (val := (fval : T (fnum p) -> ext)) (P := P) (ready := fready k) l yb
    (fun n => fmt_sub (p_T p) (p_R p) -> Rabs (l / yb) <= IZR (2 ^ prec (p_T p)) -> n = Zfloor (l / yb)).
Proof.
  intros W Pyb LT LR t Dt.
  destruct (dr_finite (p_T p) Dn (l / yb) t Dt LT) as (q & Eq).
  assert (Lq : q <= l / yb) by (destruct Dt as [D _]; rewrite Eq in D; exact D).
  assert (LQ : - largest (p_R p) <= q).
  { destruct W as [S|S].
    - pose proof (largest_sub _ _ S). pose proof (fin_le_largest _ _ _ Eq) as K. apply Rabs_le_inv in K. lra.
    - destruct (has_largest (p_R p) true) as (w & Ew). destruct Dt as [_ D].
      specialize (D (fconv (p_R p) (p_T p) RNE w)). rewrite (fconv_widen _ _ RNE w S), Ew, Eq in D. apply D. exact LR. }
  destruct (int_down_ok p k t q W Eq LQ) as (tn & n & En & Ln & Pn & Fn & Rn & _).
  exists tn, n. split; auto. split; auto. split; [lra|]. split.
  - intros Pl. apply Pn. destruct Dt as [_ D]. specialize (D (B754_zero false)). rewrite Eq in D. apply D.
    simpl. apply Rmult_le_pos; [exact Pl|]. left. apply Rinv_0_lt_compat. auto.
  - intros S B. rewrite (Fn S). apply Rabs_le_inv in B.
    assert (B1 : (- 2 ^ prec (p_T p) <= Zfloor (l / yb))%Z) by (apply Zfloor_lub; rewrite opp_IZR; lra).
    assert (B2 : (Zfloor (l / yb) <= 2 ^ prec (p_T p))%Z) by (apply le_IZR; pose proof (Zfloor_lb (l / yb)); lra).
    apply Zfloor_imp. split.
    + destruct Dt as [_ D]. specialize (D (f_of_Z (p_T p) RNE (Zfloor (l / yb)))).
      change (fval t) with (fval (f := p_T p) t) in D.
      rewrite Eq in D. change (fval (f_of_Z (p_T p) RNE (Zfloor (l / yb)))) with (fval (f := p_T p) (f_of_Z (p_T p) RNE (Zfloor (l / yb)))) in D.
      rewrite f_of_Z_exact in D by lia. apply D. simpl. apply Zfloor_lb.
    + pose proof (Zfloor_ub (l / yb)). rewrite plus_IZR. simpl. lra.
Qed.

Lemma fmod_main (x y : itv (fnum p)) l a b yb : fvalid x -> fvalid y -> rint_ok p ->
  fval (low x) = Fin l -> fval (low y) = Fin a -> fval (up y) = Fin b -> 0 < a ->
  yb = (if Rlt_dec l 0 then a else b) ->
  - largest (p_T p) <= l / yb -> - largest (p_R p) <= l / yb ->
  exists (z : itv (fnum p)) n, returns (fmod P x y) z /\ fvalid z /\
    (forall r s, fmem x r -> fmem y s -> fmem z (r - IZR n * s)) /\
    xle (Fin 0) (fval (low z)) /\ xle (fval (low z)) (Fin (l - IZR n * yb)) /\
    (fmt_sub (p_T p) (p_R p) -> Rabs (l / yb) <= IZR (2 ^ prec (p_T p)) -> n = Zfloor (l / yb)) /\
    (0 <= l < yb -> fsame z x).
Proof.
  intros Hx Hy W El Ea Eb Pa Eyb L1 L2.
  assert (Hab : a <= b) by (destruct Hy as (K & _); rewrite Ea, Eb in K; exact K).
  assert (Pyb : 0 < yb) by (rewrite Eyb; destruct Rlt_dec; lra).
  assert (HI : int_hyp (val := (fval : T (fnum p) -> ext)) (P := P) (ready := fready k) l yb
    (fun n => (fmt_sub (p_T p) (p_R p) -> Rabs (l / yb) <= IZR (2 ^ prec (p_T p)) -> n = Zfloor (l / yb)) /\ IZR n <= l / yb /\ (0 <= l -> 0 <= IZR n))).
  { intros t Dt. destruct (int_hyp_ok l yb W Pyb L1 L2 t Dt) as (tn & n & E1 & E2 & E3 & E4 & E5). exists tn, n. auto 8. }
  destruct (fmod_ok spec x y l a b yb Hx Hy El Ea Eb Pa Eyb _ HI) as (z & n & (Qn & Ln & Pn) & Rz & Vz & Ez & Lz & Uz & Id).
  exists z, n. split; [exact Rz|]. split; [exact Vz|]. split; [|split; [exact Lz|split; [exact Uz|split; [exact Qn|]]]].
  - intros r s Hr Hs. apply Ez. exists r, s. auto.
  - intros [L0 Ly]. apply Id. assert (Q : l / yb < 1) by (apply Rmult_lt_reg_r with yb; auto; unfold Rdiv; rewrite Rmult_assoc, Rinv_l by lra; lra).
    specialize (Pn L0). assert (n < 1)%Z by (apply lt_IZR; lra). assert (0 <= n)%Z by (apply le_IZR; lra). lia.
Qed.
End Fmod.

(** ** C43

    Missing: quotients below minus the largest finite number, see the refutation. *)
Theorem C43_fmod_partial : forall p k debug c ord (x y : itv (fnum p)),
  rint_ok p -> fvalid x -> fvalid y -> xlt (Fin 0) (fval (low y)) -> is_fin (fval (up y)) ->
  (forall r s, fmem x r -> fmem y s -> - largest (p_T p) <= r / s /\ - largest (p_R p) <= r / s) ->
  exists (z : itv (fnum p)) n, returns (fmod (P_ p k debug c ord) x y) z /\ fvalid z /\
    (forall r s, fmem x r -> fmem y s -> fmem z (r - IZR n * s)) /\
    xle (Fin 0) (fval (low z)).
Proof.
  intros p k debug c ord x y W Hx Hy Py (b & Eb) B.
  assert (Ea : exists a, fval (low y) = Fin a /\ 0 < a).
  { destruct Hy as (K & N & _). destruct (fval (low y)); simpl in *; try tauto; eauto. }
  destruct Ea as (a & Ea & Pa).
  assert (El : exists l, fval (low x) = Fin l).
  { destruct (fval (low x)) eqn:E; eauto.
    - destruct Hx as (K & _). rewrite E in K. destruct K.
    - exfalso. destruct (nonempty_mem p x Hx) as (r & [_ Hr]).
      assert (Ma : fmem y a). { destruct Hy as (K & _). unfold fmem, mem. rewrite Ea in *. split; auto. simpl; lra. }
      set (r' := Rmin r (- (largest (p_T p) + 1) * a)).
      assert (Mr : fmem x r').
      { unfold fmem, mem. rewrite E. split; [exact Logic.I|]. eapply xle_trans; [|exact Hr]. apply Rmin_l. }
      destruct (B r' a Mr Ma) as [K _].
      assert (r' / a <= - (largest (p_T p) + 1)); [|lra].
      apply Rmult_le_reg_r with a; auto. unfold Rdiv. rewrite Rmult_assoc, Rinv_l, Rmult_1_r by lra. apply Rmin_r.
    - exfalso. destruct Hx as (_ & K & _). auto. }
  destruct El as (l & El).
  destruct (div_bounds p x y l a b Hx Hy El Ea Eb) as (Ml & Ma & Mb).
  set (yb := if Rlt_dec l 0 then a else b).
  assert (My : fmem y yb) by (unfold yb; destruct Rlt_dec; auto).
  destruct (B l yb Ml My) as [B1 B2].
  destruct (fmod_main p k debug c ord x y l a b yb Hx Hy W El Ea Eb Pa eq_refl B1 B2) as (z & n & R1 & R2 & R3 & R4 & _).
  exists z, n. auto.
Qed.
Print Assumptions C43_fmod_partial.
(** An operand that starts below the modulus is already reduced: the result is
    the operand. *)
Theorem C43_fmod_reduced : forall p k debug c ord (x y : itv (fnum p)),
  rint_ok p -> fvalid x -> fvalid y -> xlt (Fin 0) (fval (low y)) -> is_fin (fval (up y)) ->
  xle (Fin 0) (fval (low x)) -> xlt (fval (low x)) (fval (up y)) ->
  exists z : itv (fnum p), returns (fmod (P_ p k debug c ord) x y) z /\ fsame z x.
Proof.
  intros p k debug c ord x y W Hx Hy Py (b & Eb) Px Lx. rewrite Eb in Lx.
  assert (Ea : exists a, fval (low y) = Fin a /\ 0 < a).
  { destruct Hy as (K & N & _). destruct (fval (low y)); simpl in *; try tauto; eauto. }
  destruct Ea as (a & Ea & Pa).
  assert (El : exists l, fval (low x) = Fin l /\ 0 <= l < b).
  { destruct (fval (low x)); simpl in Px, Lx; try tauto. eexists. split; [reflexivity|lra]. }
  destruct El as (l & El & L0 & Lb). 
  assert (LP : forall f, 0 <= largest f).
  { intros f. destruct (has_largest f false) as (w & Ew). pose proof (fin_le_largest f w _ Ew). pose proof (Rabs_pos (largest f)). lra. }
  pose proof (LP (p_T p)). pose proof (LP (p_R p)).
  assert (0 <= l / b) by (apply Rmult_le_pos; [auto|left; apply Rinv_0_lt_compat; lra]).
  destruct (fmod_main p k debug c ord x y l a b b Hx Hy W El Ea Eb Pa) as (z & n & R1 & _ & _ & _ & _ & _ & Id); try lra.
  - destruct Rlt_dec; [lra|reflexivity].
  - exists z. auto.
Qed.
Print Assumptions C43_fmod_reduced.
(** On two positive numbers the result contains their ordinary remainder, as
    long as the integer quotient is below 2^precision. *)
Theorem C43_fmod_numbers_partial : forall p k debug c ord (x y : itv (fnum p)) l a,
  fmt_sub (p_T p) (p_R p) -> fvalid x -> fvalid y ->
  fdenotes x (point l) -> fdenotes y (point a) -> 0 <= l -> 0 < a -> l / a <= IZR (2 ^ prec (p_T p)) ->
  exists z : itv (fnum p), returns (fmod (P_ p k debug c ord) x y) z /\ fmem z (l - IZR (Zfloor (l / a)) * a).
Proof.
  intros p k debug c ord x y l a S Hx Hy Dx Dy Pl Pa B.
  assert (K : forall (w : itv (fnum p)) r, fvalid w -> fdenotes w (point r) -> fval (low w) = Fin r /\ fval (up w) = Fin r).
  { intros w r (V1 & V2 & V3) D. pose proof (proj2 (D r) eq_refl) as [A1 A2]. unfold fdenotes, denotes, mem, point in D.
    destruct (fval (low w)) as [| |u|] eqn:E1, (fval (up w)) as [| |v|] eqn:E2; simpl in *; try tauto; try congruence.
    - exfalso. assert (r - 1 = r); [|lra]. apply (D (r - 1)). split; auto. lra.
    - exfalso. assert (r - 1 = r); [|lra]. apply (D (r - 1)). split; auto; lra.
    - split; f_equal; apply (D _); simpl; lra.
    - exfalso. assert (r + 1 = r); [|lra]. apply (D (r + 1)). split; auto; lra. }
  destruct (K x l Hx Dx) as [El _]. destruct (K y a Hy Dy) as [Ea Eb].
  assert (Q : 0 <= l / a) by (apply Rmult_le_pos; [lra|left; apply Rinv_0_lt_compat; lra]).
  assert (LP : forall f, 0 <= largest f).
  { intros f. destruct (has_largest f false) as (w & Ew). pose proof (fin_le_largest f w _ Ew). pose proof (Rabs_pos (largest f)). lra. }
  assert (W : rint_ok p) by (left; auto).
  pose proof (LP (p_T p)). pose proof (LP (p_R p)).
  destruct (fmod_main p k debug c ord x y l a a (if Rlt_dec l 0 then a else a) Hx Hy W El Ea Eb Pa eq_refl) as (z & n & R1 & R2 & R3 & _ & _ & R5 & _);
    try (destruct Rlt_dec; lra).
  exists z. split; auto. replace (if Rlt_dec l 0 then a else a) with a in R5 by (destruct Rlt_dec; auto).
  rewrite <- (R5 S) by (rewrite Rabs_right; lra). apply R3; [apply Dx|apply Dy]; reflexivity.
Qed.
Print Assumptions C43_fmod_numbers_partial.

(** ** C44

    Missing: quotients above 2^precision, see the refutation. *)
Theorem C44_fmod_below_modulus_partial : forall p k debug c ord (x y : itv (fnum p)) l,
  fmt_sub (p_T p) (p_R p) -> fvalid x -> fvalid y -> xlt (Fin 0) (fval (low y)) -> is_fin (fval (up y)) ->
  fval (low x) = Fin l -> (forall s, fmem y s -> Rabs (l / s) <= IZR (2 ^ prec (p_T p))) ->
  (forall s, fmem y s -> - largest (p_T p) <= l / s) ->
  exists z : itv (fnum p), returns (fmod (P_ p k debug c ord) x y) z /\ fvalid z /\
    xle (Fin 0) (fval (low z)) /\ xlt (fval (low z)) (fval (up y)).
Proof.
  intros p k debug c ord x y l S Hx Hy Py (b & Eb) El B B'.
  assert (Ea : exists a, fval (low y) = Fin a /\ 0 < a).
  { destruct Hy as (K & N & _). destruct (fval (low y)); simpl in *; try tauto; eauto. }
  destruct Ea as (a & Ea & Pa). assert (W : rint_ok p) by (left; auto).
  assert (Hab : a <= b) by (destruct Hy as (K & _); rewrite Ea, Eb in K; exact K).
  destruct (div_bounds p x y l a b Hx Hy El Ea Eb) as (Ml & Ma & Mb).
  set (yb := if Rlt_dec l 0 then a else b).
  assert (My : fmem y yb) by (unfold yb; destruct Rlt_dec; auto).
  assert (Pyb : 0 < yb <= b) by (unfold yb; destruct Rlt_dec; lra).
  pose proof (B yb My) as B1. pose proof (B' yb My) as B2. pose proof (largest_sub _ _ S) as LS.
  destruct (fmod_main p k debug c ord x y l a b yb Hx Hy W El Ea Eb Pa eq_refl B2 ltac:(lra)) as (z & n & R1 & R2 & _ & R4 & R5 & R6 & _).
  exists z. split; auto. split; auto. split; auto.
  rewrite (R6 S B1) in R5. eapply xle_lt_trans; [exact R5|]. rewrite Eb. simpl.
  pose proof (Zfloor_ub (l / yb)) as U.
  assert (l < (IZR (Zfloor (l / yb)) + 1) * yb); [|lra].
  apply Rmult_lt_reg_r with (/ yb); [apply Rinv_0_lt_compat; lra|]. rewrite Rmult_assoc, Rinv_r, Rmult_1_r by lra. exact U.
Qed.
Print Assumptions C44_fmod_below_modulus_partial.

(** Examples of the documentation, and of the hypotheses. *)
Example C43_case : rint_ok double_sse /\ rint_ok long_double_c99 /\ rint_ok float_x87 /\
  fvalid (di 13 17) /\ fvalid (di 7 8) /\
  (forall r s, fmem (di 13 17) r -> fmem (di 7 8) s -> - largest (p_T double_sse) <= r / s /\ - largest (p_R double_sse) <= r / s) /\
  run show (fmod Pdef (di 13 17) (di 7 8)) RNE = (Ok (show (di 5 10)), RNE) /\
  run show (fmod Pdef (di (-13) (-10)) (di 7 8)) RNE = (Ok (show (di 1 6)), RNE) /\
  xlt (Fin 0) (fval (low (di 7 8))) /\ is_fin (fval (up (di 7 8))) /\ xle (Fin 0) (fval (low (di 3 17))) /\ xlt (fval (low (di 3 17))) (fval (up (di 7 8))) /\
  run show (fmod Pdef (di 3 17) (di 7 8)) RNE = (Ok (show (di 3 17)), RNE).
Proof.
  split; [left; split; cbn; lia|]. split; [right; split; cbn; lia|]. split; [left; split; cbn; lia|].
  split; [apply di_valid; lia|]. split; [apply di_valid; lia|]. split.
  - assert (LP : forall f, 0 <= largest f).
    { intros f. destruct (has_largest f false) as (w & Ew). pose proof (fin_le_largest f w _ Ew). pose proof (Rabs_pos (largest f)). lra. }
    intros r s [R1 R2] [S1 S2]. unfold di in *. cbn [low up] in *. repeat dval_in R1. repeat dval_in S1. simpl in R1, S1.
    assert (0 <= r / s) by (apply Rmult_le_pos; [lra|left; apply Rinv_0_lt_compat; lra]).
    pose proof (LP (p_T double_sse)). pose proof (LP (p_R double_sse)). lra.
  - split; [vm_compute; reflexivity|]. split; [vm_compute; reflexivity|].
    unfold di; cbn [low up]. split; [dval; simpl; lra|]. split; [exists 8; dval; reflexivity|]. split; [dval; simpl; lra|].
    split; [dval; dval; simpl; lra|]. vm_compute; reflexivity.
Qed.

(** When the quotient overflows the result is [+inf,+inf]: no member at all. *)
Theorem C43_refuted : exists (x y z : itv (fnum double_sse)),
  fvalid x /\ fvalid y /\ xlt (Fin 0) (fval (low y)) /\ is_fin (fval (low x)) /\ is_fin (fval (up y)) /\
  returns (fmod Pdef x y) z /\ forall r, ~ fmem z r.
Proof.
  exists (mk (dbl (-1) 1023) (dbl (-1) 1023)), (mk (dbl 1 (-10)) (dbl 1 (-10))), (mk pinf pinf).
  split; [apply validb_ok; vm_compute; reflexivity|]. split; [apply validb_ok; vm_compute; reflexivity|].
  split; [apply (Bltb_fval (B754_zero false) (dbl 1 (-10) : flt binary64)); vm_compute; reflexivity|].
  split; [eexists; apply fval_fin_iff; split; [vm_compute; reflexivity|reflexivity]|].
  split; [eexists; apply fval_fin_iff; split; [vm_compute; reflexivity|reflexivity]|].
  split; [apply run_show_returns; intros []; vm_compute; reflexivity|]. intros r [A _]. exact A.
Qed.
Print Assumptions C43_refuted.
(** x = 2^10 (7*2^52 + 4), y = 7: the lower bound of fmod(x,y) is 4096. *)
Theorem C44_refuted : exists (x y z : itv (fnum double_sse)),
  fvalid x /\ fvalid y /\ xlt (Fin 0) (fval (low y)) /\ is_fin (fval (up x)) /\ is_fin (fval (up y)) /\
  returns (fmod Pdef x y) z /\ xlt (fval (up y)) (fval (low z)).
Proof.
  exists (mk (dbl (7 * 2 ^ 52 + 4) 10) (dbl (7 * 2 ^ 52 + 4) 10)), (di 7 7), (di 4096 4096).
  split; [apply validb_ok; vm_compute; reflexivity|]. split; [apply validb_ok; vm_compute; reflexivity|].
  split; [apply (Bltb_fval (B754_zero false) (dbl 7 0 : flt binary64)); vm_compute; reflexivity|].
  split; [eexists; apply fval_fin_iff; split; [vm_compute; reflexivity|reflexivity]|].
  split; [eexists; apply fval_fin_iff; split; [vm_compute; reflexivity|reflexivity]|].
  split; [|apply (Bltb_fval (dbl 7 0 : flt binary64) (dbl 4096 0 : flt binary64)); vm_compute; reflexivity].
  apply run_show_returns. intros []; vm_compute; reflexivity.
Qed.
Print Assumptions C44_refuted.

(** ** C07: the number overloads *)
Theorem C07_fmod : forall p k debug c ord (v : T (fnum p)) (y : itv (fnum p)) mode,
  fval v <> NaN ->
  fmod_in (P_ p k debug c ord) y v mode = fmod (P_ p k debug c ord) y (mk v v) mode /\
  fmod_ni (P_ p k debug c ord) v y mode = fmod (P_ p k debug c ord) (mk v v) y mode.
Proof.
  intros p k debug c ord v y mode Hv. split; [apply (fmod_in_eq (fpolspec p Save k debug c ord)); auto|].
  destruct (ag_fmod_ni p debug c Save v y) as (o & _ & A). destruct (ag_fmod p debug c Save (mk v v) y) as (o' & _ & A').
  pose proof (A k ord mode) as B. pose proof (A' k ord mode) as B'. rewrite B, B'.
  pose proof (fmod_ni_eq (fpolspec p Save k debug c (fun _ => true)) v y eq_refl Hv mode) as E.
  rewrite (A k (fun _ => true) mode), (A' k (fun _ => true) mode) in E. exact E.
Qed.
Print Assumptions C07_fmod.
Example C07_fmod_case : run show (fmod_ni Pdef (dbl 13 0) (di 7 8)) RNE = (Ok (show (di 5 6)), RNE) /\
  run show (fmod_in Pdef (di 13 17) (dbl 7 0)) RNE = (Ok (show (di 6 10)), RNE).
Proof. split; vm_compute; reflexivity. Qed.
Example C44_case : fmt_sub (p_T double_sse) (p_R double_sse) /\ fvalid (di 13 17) /\ fvalid (di 7 8) /\
  (forall s, fmem (di 7 8) s -> Rabs (13 / s) <= IZR (2 ^ prec (p_T double_sse))) /\
  (forall s, fmem (di 7 8) s -> - largest (p_T double_sse) <= 13 / s).
Proof.
  split; [split; cbn; lia|]. split; [apply di_valid; lia|]. split; [apply di_valid; lia|].
  assert (K : forall s, fmem (di 7 8) s -> 0 <= 13 / s <= 13).
  { intros s [S1 S2]. unfold di in *. cbn [low up] in *. dval_in S1. simpl in S1. split.
    - apply Rmult_le_pos; [lra|left; apply Rinv_0_lt_compat; lra].
    - rewrite <- (Rmult_1_r 13) at 2. apply Rmult_le_compat_l; [lra|]. rewrite <- Rinv_1. apply Rinv_le_contravar; lra. }
  split; intros s Hs; apply K in Hs.
  - rewrite Rabs_right by lra. apply Rle_trans with 13; [lra|]. apply IZR_le. cbn; lia.
  - destruct (has_largest binary64 false) as (w & Ew). pose proof (fin_le_largest binary64 w _ Ew) as Q.
    pose proof (Rabs_pos (largest binary64)). change (p_T double_sse) with binary64. lra.
Qed.

(** * Properties C29, C31: constructors, assignment, conversions *)

From Coq Require Import Reals ZArith Lra Lia Bool.
From Flocq Require Import Core BinarySingleNaN.
From Verif Require Import Outcome Base Checking Interval Utility Arith Arith2 FloatNum Spec ExtR Sem
  FloatSpec FloatPol CoreArith CoreUtil CoreFmod Inst Witness Mutate CoreCtor.
Local Open Scope R_scope.

Notation P_ p k debug c ord := (fpol p Save k debug c ord).

(** ** C29: constructors *)

(** interval() is {0}. *)
Theorem C29_default : forall p,
  exists z : itv (fnum p), returns ctor_default z /\ fvalid z /\ fdenotes z (point 0).
Proof.
  intros p. exists (mk zero zero : itv (fnum p)).
  assert (Z : fval (f := p_T p) (zero (N := fnum p)) = Fin 0) by apply (ns_0 _ _ (fnumspec p)).
  split; [intros mode; reflexivity|]. split.
  - unfold fvalid, valid. cbn [low up]. rewrite Z. split; [simpl; lra|split; discriminate].
  - intros r. unfold mem. cbn [low up]. rewrite Z. simpl. unfold point. lra.
Qed.
Print Assumptions C29_default.

(** interval(v) is {v}. *)
Theorem C29_number : forall p k debug c ord (v : T (fnum p)) r, fval v = Fin r ->
  returns (ctor_num (P_ p k debug c ord) v) (mk v v) /\ fvalid (mk v v) /\ fdenotes (mk v v) (point r).
Proof.
  intros p k debug c ord v r E. assert (V : fval v <> NaN) by (rewrite E; discriminate).
  split; [|split].
  - intros mode. unfold ctor_num, bind. cbn [p_ck fpol]. rewrite is_nan_false by auto. reflexivity.
  - unfold fvalid, valid. cbn [low up]. rewrite E. split; [simpl; lra|split; discriminate].
  - intros t. unfold mem. cbn [low up]. rewrite E. simpl. unfold point. lra.
Qed.
Print Assumptions C29_number.

(** interval(l, u) has bounds l and u when l <= u ... *)
Theorem C29_pair : forall p k debug c ord (l u : T (fnum p)), xle (fval l) (fval u) ->
  returns (ctor_num2 (P_ p k debug c ord) l u) (mk l u).
Proof.
  intros p k debug c ord l u L mode. destruct (xle_nn _ _ L) as [A B].
  unfold ctor_num2, bind. cbn [p_ck fpol]. rewrite !is_nan_false by auto.
  rewrite (proj2 (ns_le _ _ (fnumspec p) l u) L). reflexivity.
Qed.
Print Assumptions C29_pair.
(** ... so that, l and u not being the same infinity, it is the set of reals from l to u. *)
Theorem C29_pair_set : forall p (l u : T (fnum p)),
  fdenotes (mk l u) (between (fval l) (fval u)).
Proof. intros p l u r. unfold mem, between. tauto. Qed.
Print Assumptions C29_pair_set.
(** Otherwise it is empty, or the policy's exception is thrown. *)
Theorem C29_pair_unordered : forall p k debug c ord (l u : T (fnum p)),
  fval l <> NaN -> fval u <> NaN -> ~ xle (fval l) (fval u) ->
  gives_empty c (ctor_num2 (P_ p k debug c ord) l u).
Proof.
  intros p k debug c ord l u A B L. apply (gives_ext p c _ (c_set_empty (P_ p k debug c ord))).
  - intros mode. unfold ctor_num2, bind. cbn [p_ck fpol]. rewrite !is_nan_false by auto.
    rewrite n_le_false by auto. reflexivity.
  - apply c_set_empty_gives.
Qed.
Print Assumptions C29_pair_unordered.
Example C29_case :
  run show (ctor_num2 Pdef (dbl 1 0) (dbl 3 0)) RZR = (Ok (show (di 1 3)), RZR) /\
  run show (ctor_num2 Pdef (dbl 3 0) (dbl 1 0)) RZR = (Throw EmptyCreated, RZR) /\
  run show (ctor_num2 Pbase (dbl 3 0) (dbl 1 0)) RZR = (Ok (show (mk dnan dnan)), RZR) /\
  run show (ctor_num Pdef (dbl 3 0)) RUP = (Ok (show (di 3 3)), RUP) /\
  run show (ctor_default (N := fnum double_sse)) RUP = (Ok (show (di 0 0)), RUP) /\
  xle (fval (f := p_T double_sse) (dbl 1 0)) (fval (f := p_T double_sse) (dbl 3 0)) /\
  ~ xle (fval (f := p_T double_sse) (dbl 3 0)) (fval (f := p_T double_sse) (dbl 1 0)).
Proof.
  repeat match goal with |- _ /\ _ => split; [vm_compute; reflexivity|] end.
  change (p_T double_sse) with binary64. repeat dval. simpl. split; lra.
Qed.

(** From another floating-point type: the tightest interval around the value,
    and around the range of values. *)
Theorem C29_from_float : forall p k debug c ord g (v : flt g) r, fval v = Fin r ->
  exists z, returns (ctor_src (P_ p k debug c ord) (src_float p g) v) z /\ fvalid z /\ ftightest z (point r).
Proof.
  intros p k debug c ord g v r E.
  destruct (ctor_src_ok p k debug c ord (src_float p g) v (fval v)) as (z & R & V & TI & _).
  - apply src_float_ok. rewrite E. discriminate.
  - rewrite E. exists r. reflexivity.
  - exists z. split; [exact R|split; [exact V|]]. eapply tightest_ext; [|exact TI].
    intros t. unfold between, point. rewrite E. simpl. lra.
Qed.
Print Assumptions C29_from_float.
Theorem C29_from_float_pair : forall p k debug c ord g (v w : flt g),
  xle (fval v) (fval w) -> fval v <> PInf -> fval w <> NInf ->
  exists z, returns (ctor_src2 (P_ p k debug c ord) (src_float p g) v w) z /\ fvalid z /\
    ftightest z (between (fval v) (fval w)).
Proof.
  intros p k debug c ord g v w L A B. destruct (xle_nn _ _ L) as [A' B'].
  apply ctor_src12_ok; auto using src_float_ok. cbn [s_le src_float]. apply Bleb_fval. exact L.
Qed.
Print Assumptions C29_from_float_pair.
Theorem C29_from_float_pair_unordered : forall p k debug c ord g (v w : flt g),
  fval v <> NaN -> fval w <> NaN -> ~ xle (fval v) (fval w) ->
  gives_empty c (ctor_src2 (P_ p k debug c ord) (src_float p g) v w).
Proof.
  intros p k debug c ord g v w A B L.
  eapply ctor_src12_empty; eauto using src_float_ok. cbn [s_le src_float].
  apply Bool.not_true_is_false. intros K. apply L, Bleb_fval, K.
Qed.
Print Assumptions C29_from_float_pair_unordered.
(** interval<float>(0.1) and interval<float>(1e300, +oo), the arguments being doubles. *)
Example C29_float_case :
  omap (fun z : itv (fnum float_sse) => (B2SF (low z), B2SF (up z)))
    (fst (ctor_src (fpol float_sse Save Opp true CkStrict (fun _ => true)) (src_float float_sse binary64)
       (dbl 3602879701896397 (-55)) RNE)) =
    Ok (SpecFloat.S754_finite false 13421772 (-27), SpecFloat.S754_finite false 13421773 (-27)) /\
  omap (fun z : itv (fnum float_sse) => (B2SF (low z), B2SF (up z)))
    (fst (ctor_src2 (fpol float_sse Save Opp true CkStrict (fun _ => true)) (src_float float_sse binary64)
       (dbl 1 1000) pinf RNE)) =
    Ok (SpecFloat.S754_finite false 16777215 104, SpecFloat.S754_infinity false).
Proof. split; vm_compute; reflexivity. Qed.

(** Copies are exact; so are conversions from an interval with another policy,
    except that an empty one becomes what the new policy makes of emptiness. *)
Theorem C29_copy : forall p (x : itv (fnum p)), returns (ctor_copy x) x.
Proof. intros p [l u] mode. reflexivity. Qed.
Print Assumptions C29_copy.
Theorem C29_from_policy : forall p k k' debug debug' c c' ord ord' (x : itv (fnum p)),
  fvalid x ->
  returns (ctor_policy (P_ p k debug c ord) (P_ p k' debug' c' ord') x) x.
Proof.
  intros p k k' debug debug' c c' ord ord' x V mode. unfold ctor_policy.
  rewrite (cs_empty _ _ (ps_ck _ _ _ (fpolspec p Save k' debug' c' ord'))) by apply V.
  destruct x. reflexivity.
Qed.
Print Assumptions C29_from_policy.
Theorem C29_from_policy_empty : forall p k k' debug debug' c c' ord ord' (x : itv (fnum p)),
  allows_empty c' = true -> fempty x ->
  gives_empty c (ctor_policy (P_ p k debug c ord) (P_ p k' debug' c' ord') x).
Proof.
  intros p k k' debug debug' c c' ord ord' x A E.
  apply (gives_ext p c _ (c_set_empty (P_ p k debug c ord))); [|apply c_set_empty_gives].
  intros mode. unfold ctor_policy.
  pose proof (proj2 (is_empty_iff p k' debug' c' ord' x A) E) as K. unfold test_input_i in K. rewrite K. reflexivity.
Qed.
Print Assumptions C29_from_policy_empty.
(** From an interval over another base type (platform q), with any policy. *)
Theorem C29_from_interval : forall p q k k' debug debug' c c' ord ord' (x : itv (fnum q)),
  fvalid x ->
  exists z, returns (ctor_itv (P_ p k debug c ord) (src_float p (p_T q)) (P_ q k' debug' c' ord') (fun t => t) x) z /\
    fvalid z /\ ftightest z (fmem x).
Proof.
  intros p q k k' debug debug' c c' ord ord' x V. pose proof V as (A & B & C). destruct (xle_nn _ _ A) as [NA NB].
  destruct (conv_pair_ok p k debug c ord (src_float p (p_T q)) (low x) _ (src_float p (p_T q)) (up x) _
    (src_float_ok p k _ _ NA) (src_float_ok p k _ _ NB) A B C) as (l & u & TI & V' & R & _).
  exists (mk l u). split; [|split; [exact V'|exact TI]].
  intros mode. unfold ctor_itv.
  rewrite (cs_empty _ _ (ps_ck _ _ _ (fpolspec q Save k' debug' c' ord'))) by apply V. apply R.
Qed.
Print Assumptions C29_from_interval.
Theorem C29_from_interval_empty : forall p q k k' debug debug' c c' ord ord' (x : itv (fnum q)),
  allows_empty c' = true -> fempty x ->
  gives_empty c (ctor_itv (P_ p k debug c ord) (src_float p (p_T q)) (P_ q k' debug' c' ord') (fun t => t) x).
Proof.
  intros p q k k' debug debug' c c' ord ord' x A E.
  apply (gives_ext p c _ (c_set_empty (P_ p k debug c ord))); [|apply c_set_empty_gives].
  intros mode. unfold ctor_itv.
  pose proof (proj2 (is_empty_iff q k' debug' c' ord' x A) E) as K. unfold test_input_i in K. rewrite K. reflexivity.
Qed.
Print Assumptions C29_from_interval_empty.
Example C29_interval_case : fvalid (di 1 3) /\ fempty (p := double_sse) (mk dnan dnan) /\
  omap (fun z : itv (fnum float_sse) => (B2SF (low z), B2SF (up z)))
    (fst (ctor_itv (fpol float_sse Save Opp true CkStrict (fun _ => true)) (src_float float_sse binary64) Pbase
       (fun t => t) (mk (dbl 3602879701896397 (-55)) (dbl 3602879701896397 (-55))) RNE)) =
    Ok (SpecFloat.S754_finite false 13421772 (-27), SpecFloat.S754_finite false 13421773 (-27)) /\
  run show (ctor_policy Pdef Pbase (mk dnan dnan)) RNE = (Throw EmptyCreated, RNE) /\
  run show (ctor_policy Pbase Pdef (di 1 3)) RNE = (Ok (show (di 1 3)), RNE).
Proof.
  split; [apply di_valid; lia|]. split; [intros K; exact K|]. repeat split; vm_compute; reflexivity.
Qed.

(** Assignment stores what the constructor would build; if that throws, the
    object keeps its value.  The argument may be a bound of the object itself. *)
Theorem C29_assign_number : forall p k debug c ord (x : itv (fnum p)) (r : nref) mode,
  m_assign_num (P_ p k debug c ord) r x mode = updated x (ctor_num (P_ p k debug c ord) (Interval.rd x r)) mode.
Proof. exact m_assign_num_updated. Qed.
Print Assumptions C29_assign_number.
Theorem C29_assign_converted : forall p k debug c ord (s : source (fnum p)) (v : U s) (x : itv (fnum p)) mode,
  m_assign_src (P_ p k debug c ord) s v x mode = updated x (ctor_src (P_ p k debug c ord) s v) mode.
Proof. exact m_assign_src_updated. Qed.
Print Assumptions C29_assign_converted.
Theorem C29_assign_copy : forall p (x : itv (fnum p)) (r : iref) mode,
  m_copy r x mode = (Ok tt, rdi x r, mode).
Proof. intros p [l u] [[l' u']|] mode; reflexivity. Qed.
Print Assumptions C29_assign_copy.
Theorem C29_assign_policy : forall p k debug c ord (P1 : policy (fnum p)) (r x : itv (fnum p)) mode,
  m_assign_policy (P_ p k debug c ord) P1 r x mode = updated x (ctor_policy (P_ p k debug c ord) P1 r) mode.
Proof. exact m_assign_policy_updated. Qed.
Print Assumptions C29_assign_policy.
Theorem C29_assign_interval : forall p q k debug c ord (P1 : policy (fnum q)) (r : itv (fnum q)) (x : itv (fnum p)) mode,
  m_assign_itv (P_ p k debug c ord) (src_float p (p_T q)) P1 (fun t => t) r x mode =
  updated x (ctor_itv (P_ p k debug c ord) (src_float p (p_T q)) P1 (fun t => t) r) mode.
Proof. intros. apply m_assign_itv_updated. Qed.
Print Assumptions C29_assign_interval.
(** x = x.upper() on [1,3]; assigning an empty interval under the strict policy. *)
Example C29_assign_case :
  (let '(o, z, s) := m_assign_num Pdef NUp (di 1 3) RZR in (o, show z, s)) = (Ok tt, show (di 3 3), RZR) /\
  (let '(o, z, s) := m_assign_policy Pdef Pbase (mk dnan dnan) (di 1 3) RZR in (o, show z, s)) =
    (Throw EmptyCreated, show (di 1 3), RZR).
Proof. split; vm_compute; reflexivity. Qed.

(** ** C31: conversions from integers *)

(** Holds for every signed integer, except the least one with rounded_arith_opp
    (the default), whose negation overflows. *)
Theorem C31_signed_partial : forall p k debug c ord w v,
  (- 2 ^ (w - 1) <= v < 2 ^ (w - 1))%Z -> k = Std \/ v <> (- 2 ^ (w - 1))%Z ->
  exists z, returns (ctor_src (P_ p k debug c ord) (src_sint p w) v) z /\ fvalid z /\ ftightest z (point (IZR v)).
Proof.
  intros p k debug c ord w v _ H.
  destruct (ctor_src_ok p k debug c ord (src_sint p w) v (Fin (IZR v))) as (z & R & V & TI & _).
  - apply src_sint_ok; auto.
  - exists (IZR v). reflexivity.
  - exists z. split; [exact R|split; [exact V|]]. eapply tightest_ext; [|exact TI].
    intros t. unfold between, point. simpl. lra.
Qed.
Print Assumptions C31_signed_partial.
Theorem C31_signed_pair_partial : forall p k debug c ord w v v',
  (- 2 ^ (w - 1) <= v < 2 ^ (w - 1))%Z -> (- 2 ^ (w - 1) <= v' < 2 ^ (w - 1))%Z ->
  k = Std \/ (v <> - 2 ^ (w - 1) /\ v' <> - 2 ^ (w - 1))%Z ->
  ((v <= v')%Z -> exists z, returns (ctor_src2 (P_ p k debug c ord) (src_sint p w) v v') z /\ fvalid z /\
    ftightest z (between (Fin (IZR v)) (Fin (IZR v')))) /\
  ((v' < v)%Z -> gives_empty c (ctor_src2 (P_ p k debug c ord) (src_sint p w) v v')).
Proof.
  intros p k debug c ord w v v' _ _ H.
  assert (S1 : src_ok p k (src_sint p w) v (Fin (IZR v))) by (apply src_sint_ok; tauto).
  assert (S2 : src_ok p k (src_sint p w) v' (Fin (IZR v'))) by (apply src_sint_ok; tauto).
  split; intros L.
  - apply ctor_src12_ok; auto; try discriminate. + apply Z.leb_le. exact L. + simpl. apply IZR_le, L.
  - eapply ctor_src12_empty; eauto. apply Z.leb_gt. exact L.
Qed.
Print Assumptions C31_signed_pair_partial.
(** Exactly representable integers give the exact point. *)
Theorem C31_signed_exact_partial : forall p k debug c ord w v,
  (- 2 ^ (w - 1) <= v < 2 ^ (w - 1))%Z -> k = Std \/ v <> (- 2 ^ (w - 1))%Z -> (Z.abs v <= 2 ^ prec (p_T p))%Z ->
  exists z, returns (ctor_src (P_ p k debug c ord) (src_sint p w) v) z /\ fvalid z /\ fdenotes z (point (IZR v)).
Proof.
  intros p k debug c ord w v R H E.
  destruct (C31_signed_partial p k debug c ord w v R H) as (z & Rz & V & (E1 & T2)). exists z.
  split; [exact Rz|split; [exact V|]]. intros r. split; [|intros ->; apply E1; reflexivity].
  pose proof (f_of_Z_exact (p_T p) RNE v E) as X.
  destruct (T2 (mk (f_of_Z (p_T p) RNE v : T (fnum p)) (f_of_Z (p_T p) RNE v : T (fnum p)))) as [A B].
  { intros t ->. unfold mem. cbn [low up]. rewrite X. simpl. lra. }
  cbn [low up] in A, B. rewrite X in A, B. intros [C D].
  pose proof (xle_trans _ _ _ A C) as F. pose proof (xle_trans _ _ _ D B) as G. simpl in F, G. unfold point. lra.
Qed.
Print Assumptions C31_signed_exact_partial.
(** Unsigned integers: as documented with rounded_arith_std ... *)
Theorem C31_unsigned_partial : forall p debug c ord w v, (0 <= v < 2 ^ w)%Z ->
  exists z, returns (ctor_src (P_ p Std debug c ord) (src_uint p w) v) z /\ fvalid z /\ ftightest z (point (IZR v)).
Proof.
  intros p debug c ord w v H.
  destruct (ctor_src_ok p Std debug c ord (src_uint p w) v (Fin (IZR v))) as (z & R & V & TI & _).
  - apply src_uint_ok; auto.
  - exists (IZR v). reflexivity.
  - exists z. split; [exact R|split; [exact V|]]. eapply tightest_ext; [|exact TI].
    intros t. unfold between, point. simpl. lra.
Qed.
Print Assumptions C31_unsigned_partial.
(** ... but with rounded_arith_opp the lower bound comes from the wrapped
    negation 2^w - v: what is returned encloses v, tightly only on the right. *)
Theorem C31_unsigned_opp_partial : forall p debug c ord w v, (0 < v < 2 ^ w)%Z ->
  exists z, returns (ctor_src (P_ p Opp debug c ord) (src_uint p w) v) z /\ fvalid z /\
    ftightest z (between (Fin (IZR (v - 2 ^ w))) (Fin (IZR v))).
Proof.
  intros p debug c ord w v H.
  assert (W : ((- v) mod 2 ^ w)%Z = (2 ^ w - v)%Z).
  { symmetry. apply Z.mod_unique with (q := (-1)%Z); lia. }
  assert (N1 : pureM (is_nan_src (P_ p Opp debug c ord) (src_uint p w) v) false).
  { intros s. unfold is_nan_src, bind, under_mode. cbn [s_toT src_uint]. apply is_nan_false. apply f_of_Z_nn. }
  assert (NW : (2 ^ w - v <> - 2 ^ (w + 2 - 1))%Z).
  { assert (0 <= 2 ^ (w + 2 - 1))%Z by (apply Z.pow_nonneg; lia). lia. }
  (* the same computation on the signed value v - 2^w, of a wider type *)
  assert (DN : exists t, RD (N := fnum p) fval (Fin (IZR (v - 2 ^ w))) t /\
            runsI (fready Opp) (conv_down (p_ar (P_ p Opp debug c ord)) (src_uint p w) v) t).
  { destruct (conv_down_ok p Opp debug c ord (src_sint p (w + 2)) (v - 2 ^ w)%Z (Fin (IZR (v - 2 ^ w)))) as (t & D & R).
    - apply src_sint_ok. right. assert (2 ^ (w + 2 - 1) = 2 * 2 ^ w)%Z.
      { replace (w + 2 - 1)%Z with (Z.succ w) by lia. apply Z.pow_succ_r. apply Z.nlt_ge. intros Q.
        rewrite Z.pow_neg_r in H by lia. lia. }
      lia.
    - exists t. split; [exact D|]. intros s Hs. destruct (R s Hs) as (s' & Hs' & E). exists s'. split; auto.
      rewrite <- E. cbn [fpol p_ar farith arith_opp conv_down]. unfold bind, under_mode. cbn [s_opp src_uint src_sint].
      rewrite W. assert (Q : (v - 2 ^ w =? - 2 ^ (w + 2 - 1))%Z = false).
      { apply Z.eqb_neq. assert (2 ^ (w + 2 - 1) = 2 * 2 ^ w)%Z.
        { replace (w + 2 - 1)%Z with (Z.succ w) by lia. apply Z.pow_succ_r. apply Z.nlt_ge. intros Q.
          rewrite Z.pow_neg_r in H by lia. lia. }
        lia. }
      rewrite Q. replace (- (v - 2 ^ w))%Z with (2 ^ w - v)%Z by ring. reflexivity. }
  assert (UP : exists t, RU (N := fnum p) fval (Fin (IZR v)) t /\
            runsI (fready Opp) (conv_up (p_ar (P_ p Opp debug c ord)) (src_uint p w) v) t).
  { destruct (conv_up_ok p Std debug c ord (src_uint p w) v (Fin (IZR v))) as (t & D & _).
    - apply src_uint_ok; auto. lia.
    - destruct (conv_up_ok p Opp debug c ord (src_sint p (w + 2)) v (Fin (IZR v))) as (t' & D' & R').
      + apply src_sint_ok. right. assert (0 <= 2 ^ (w + 2 - 1))%Z by (apply Z.pow_nonneg; lia). lia.
      + exists t'. split; [exact D'|]. exact R'. }
  destruct DN as (l & DL & RL), UP as (u & DU & RU').
  assert (L : xle (Fin (IZR (v - 2 ^ w))) (Fin (IZR v))) by (simpl; apply IZR_le; lia).
  assert (TI : ftightest (mk l u : itv (fnum p)) (between (Fin (IZR (v - 2 ^ w))) (Fin (IZR v)))).
  { apply conv_tight; auto; discriminate. }
  exists (mk l u). split; [|split].
  - intros mode. unfold ctor_src, bind at 1. rewrite N1. revert mode.
    apply (with_rnd_runs _ (fready Opp) (fpolspec p Save Opp debug c ord)).
    eapply runsI_bind; [exact RL|]. eapply runsI_bind; [exact RU'|]. apply runsI_ret.
  - eapply tightest_valid; [|exact TI]. apply between_nonempty; auto; discriminate.
  - exact TI.
Qed.
Print Assumptions C31_unsigned_opp_partial.
(** interval<double>(7u) under the default policy is [-4294967289, 7]. *)
Theorem C31_unsigned_refuted :
  ~ (forall v, (0 <= v < 2 ^ 32)%Z -> exists z,
       returns (ctor_src Pdef (src_uint double_sse 32) v) z /\ fvalid z /\ ftightest z (point (IZR v))).
Proof.
  intros H. destruct (H 7%Z ltac:(lia)) as (z & R & V & TI).
  assert (E : returns (ctor_src Pdef (src_uint double_sse 32) 7%Z) (di (-4294967289) 7)).
  { apply run_show_returns; intros []; vm_compute; reflexivity. }
  assert (Q : z = di (-4294967289) 7) by (pose proof (eq_trans (eq_sym (R RNE)) (E RNE)) as K; injection K; auto).
  subst z. destruct TI as (_ & TI). destruct (TI (di 7 7)) as [A _].
  - intros r ->. unfold mem, di. cbn [low up]. change (p_T double_sse) with binary64. repeat dval. simpl. lra.
  - unfold di in A. cbn [low] in A. change (p_T double_sse) with binary64 in A. repeat dval_in A. simpl in A. lra.
Qed.
Print Assumptions C31_unsigned_refuted.
(** interval<double>(INT_MIN) under the default policy negates INT_MIN. *)
Theorem C31_least_refuted :
  ~ (forall v, (- 2 ^ 31 <= v < 2 ^ 31)%Z -> exists z,
       returns (ctor_src Pdef (src_sint double_sse 32) v) z).
Proof.
  intros H. destruct (H (- 2 ^ 31)%Z ltac:(lia)) as (z & R). specialize (R RNE).
  apply (f_equal (fun o => match fst o with Ok _ => true | _ => false end)) in R. vm_compute in R. discriminate.
Qed.
Print Assumptions C31_least_refuted.
(** interval<float>(16777217) is [16777216, 16777218]; interval<double>(-5). *)
Example C31_case :
  omap (fun z : itv (fnum float_sse) => (B2SF (low z), B2SF (up z)))
    (fst (ctor_src (fpol float_sse Save Opp true CkStrict (fun _ => true)) (src_sint float_sse 32) 16777217%Z RNE)) =
    Ok (SpecFloat.S754_finite false 8388608 1, SpecFloat.S754_finite false 8388609 1) /\
  run show (ctor_src Pdef (src_sint double_sse 32) (-5)%Z) RZR = (Ok (show (di (-5) (-5))), RZR) /\
  run show (ctor_src (fpol double_sse Save Std true CkStrict (fun _ => true)) (src_uint double_sse 32) 7%Z) RZR =
    (Ok (show (di 7 7)), RZR) /\
  run show (ctor_src Pdef (src_uint double_sse 32) 7%Z) RZR = (Ok (show (di (-4294967289) 7)), RZR).
Proof. repeat split; vm_compute; reflexivity. Qed.

(** Two arguments of different types: the comparison l <= u is that of C++, so
    with l = -1 and u = 1u it is false, and the constructor makes an empty
    interval (here, throws). *)
Definition le_int_unsigned (l u : Z) : bool := (l mod 2 ^ 32 <=? u)%Z.
Theorem C29_mixed_signs_refuted :
  ~ (forall l u, (- 2 ^ 31 < l < 2 ^ 31)%Z -> (0 <= u < 2 ^ 32)%Z -> (l <= u)%Z -> exists z,
       returns (ctor_src12 Pdef (src_sint double_sse 32) (src_uint double_sse 32) le_int_unsigned l u) z).
Proof.
  intros H. destruct (H (-1)%Z 1%Z ltac:(lia) ltac:(lia) ltac:(lia)) as (z & R).
  specialize (R RNE).
  apply (f_equal (fun o => match fst o with Ok _ => true | _ => false end)) in R. vm_compute in R. discriminate.
Qed.
Print Assumptions C29_mixed_signs_refuted.
(** When the comparison is right (for instance l >= 0), so is the result. *)
Theorem C29_mixed_pair : forall p k debug c ord s1 s2 (le : U s1 -> U s2 -> bool) v w a b,
  src_ok p k s1 v a -> src_ok p k s2 w b -> (le v w = true <-> xle a b) -> a <> PInf -> b <> NInf ->
  (xle a b -> exists z, returns (ctor_src12 (P_ p k debug c ord) s1 s2 le v w) z /\ fvalid z /\ ftightest z (between a b)) /\
  (~ xle a b -> gives_empty c (ctor_src12 (P_ p k debug c ord) s1 s2 le v w)).
Proof.
  intros p k debug c ord s1 s2 le v w a b H1 H2 L A B. split; intros X.
  - apply ctor_src12_ok; auto. apply L, X.
  - eapply ctor_src12_empty; eauto. apply Bool.not_true_is_false. intros Q. apply X, L, Q.
Qed.
Print Assumptions C29_mixed_pair.

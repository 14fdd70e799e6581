(** * More on C32, C34 and C38-C42: infinite and not-a-number operands *)

From Coq Require Import Reals ZArith Lra Lia Bool.
From Flocq Require Import Core BinarySingleNaN.
From Verif Require Import Outcome Base Checking Interval Utility Compare FloatNum Spec SpecCompare ExtR Sem
  CoreArith CompareProof FloatSpec FloatPol FloatMed Inst Witness Properties2 Properties5.
Local Open Scope R_scope.

(** What a checking policy makes of a NaN operand: nothing (checking_no_nan, and
    so checking_strict), comparison_error, or the exception of
    checking_catch_nan. *)
Inductive nan_reaction := Unseen | Reported (e : exn).
Definition on_nan (c : ckind) : nan_reaction :=
  match c with
  | CkNoNan | CkStrict => Unseen
  | CkBase | CkNoEmpty => Reported ComparisonError
  | CkCatchNan | CkNoEmptyCatchNan => Reported InvalidNumber
  end.
(** The NaN is reported or the result is [a]. *)
Definition nan_gives {A} (c : ckind) (m : M A) (a : A) : Prop :=
  match on_nan c with Unseen => returns m a | Reported e => throws m e end.
Definition is_ne (o : rel) : bool := match o with Ne => true | _ => false end.

Section One.
Context (p : platform) (k : rkind) (debug : bool) (c : ckind) (ord : site -> bool).
Notation P := (P_ p k debug c ord).
Notation NS := (fnumspec p).
Notation CS := (ps_ck _ _ _ (fpolspec p Save k debug c ord)).

Lemma bpos_not_cer (x : itv (fnum p)) (v : T (fnum p)) o : fvalid x -> fval v <> NaN ->
  bpos x (mk v v) o = negb (bcer (low x) (up x) v v (opposite o)).
Proof.
  intros Hx Hv. pose proof (valid_low_nn _ _ Hx) as nl. pose proof (valid_up_nn _ _ Hx) as nu.
  assert (LE : forall a b : T (fnum p), fval a <> NaN -> fval b <> NaN -> n_lt (fnum p) a b = negb (n_le (fnum p) b a)).
  { intros a b Ha Hb. destruct (n_le (fnum p) b a) eqn:E; simpl.
    - apply not_true_iff_false. intros K. apply (ns_lt _ _ NS) in K. apply (ns_le _ _ NS) in E. exact (xlt_nle _ _ K E).
    - apply (ns_lt _ _ NS). destruct (xlt_or _ _ Ha Hb) as [|K]; auto. apply (ns_le _ _ NS) in K. congruence. }
  assert (LE' : forall a b : T (fnum p), fval a <> NaN -> fval b <> NaN -> n_le (fnum p) a b = negb (n_lt (fnum p) b a)).
  { intros a b Ha Hb. rewrite (LE b a) by auto. rewrite negb_involutive. reflexivity. }
  assert (EQ : forall a b : T (fnum p), n_ne a b = negb (n_eq (fnum p) a b)) by reflexivity.
  destruct o; cbn [bpos bcer opposite low up]; unfold n_gt, n_ge.
  - apply LE; auto.
  - apply LE'; auto.
  - apply LE; auto.
  - apply LE'; auto.
  - rewrite (LE' (low x) v), (LE' v (up x)) by auto. rewrite negb_orb, andb_comm. reflexivity.
  - rewrite !EQ, negb_andb, orb_comm. reflexivity.
Qed.

(** ** C38, C39: infinite numbers: no wrong answer *)
Theorem C38_infinite_number_sound : forall o (x : itv (fnum p)) (v : T (fnum p)), fvalid x -> fval v <> NaN ->
  exists b b', returns (certainn P o x v) b /\ returns (possiblen P o x v) b' /\
    (b = true -> forall r, fmem x r -> xholds o (Fin r) (fval v)) /\
    (b' = false -> forall r, fmem x r -> ~ xholds o (Fin r) (fval v)).
Proof.
  intros o x v Hx Hv. eexists. eexists. split; [intros s; apply (certainn_run P CS o x v Hx Hv)|].
  split; [intros s; apply (possiblen_run P CS o x v Hx Hv)|]. split.
  - intros E r Hr. apply (bcer_inf NS x v o r Hx Hv Hr), E.
  - rewrite bpos_not_cer by auto. intros E r Hr. apply (bcer_inf NS x v o r Hx Hv Hr). apply negb_false_iff, E.
Qed.
Theorem C39_infinite_number_sound : forall o (x : itv (fnum p)) (v : T (fnum p)), fvalid x -> fval v <> NaN ->
  exists t, returns (tribooln P o x v) t /\
    (t = TTrue -> forall r, fmem x r -> xholds o (Fin r) (fval v)) /\
    (t = TFalse -> forall r, fmem x r -> ~ xholds o (Fin r) (fval v)).
Proof.
  intros o x v Hx Hv. eexists. split; [intros s; apply (tribooln_run P CS o x v Hx Hv)|]. unfold btri. split.
  - destruct (bcer (low x) (up x) v v o) eqn:E; [|destruct (bcer (low x) (up x) v v (opposite o)); discriminate].
    intros _ r Hr. apply (bcer_inf NS x v o r Hx Hv Hr), E.
  - destruct (bcer (low x) (up x) v v o) eqn:E; [discriminate|]. destruct (bcer (low x) (up x) v v (opposite o)) eqn:E'; [|discriminate].
    intros _ r Hr. apply (bcer_inf NS x v o r Hx Hv Hr), E'.
Qed.

(** ** C38-C40: NaN *)
Lemma nan_cmp (a v : T (fnum p)) : fval v = NaN ->
  n_lt (fnum p) a v = false /\ n_lt (fnum p) v a = false /\ n_le (fnum p) a v = false /\ n_le (fnum p) v a = false /\
  n_eq (fnum p) a v = false /\ n_eq (fnum p) v a = false.
Proof.
  intros E. repeat split; apply not_true_iff_false; intros K;
    try (apply (ns_lt _ _ NS) in K); try (apply (ns_le _ _ NS) in K); try (apply (ns_eq _ _ NS) in K);
    rewrite E in K; try (destruct K as [K1 K2]; congruence); destruct (fval a); exact K.
Qed.
Lemma test_nan (x : itv (fnum p)) (v : T (fnum p)) : fvalid x -> fval v = NaN ->
  match on_nan c with
  | Unseen => returns (test_input_in P x v) false
  | Reported ComparisonError => returns (test_input_in P x v) true
  | Reported e => throws (test_input_in P x v) e
  end.
Proof.
  intros Hx E. assert (v = B754_nan) as -> by (destruct v as [?|[|]| |? ? ? ?]; try discriminate E; reflexivity).
  pose proof (test_i_ordered p Save k debug c ord x (proj1 Hx)) as TI. unfold test_input_in, returns, throws.
  destruct c; cbn [on_nan]; intros s; rewrite TI; reflexivity.
Qed.
Lemma guard_nan A (x : itv (fnum p)) (v : T (fnum p)) (e : A) : fvalid x -> fval v = NaN -> nan_gives c (guarded_n P x v e) e.
Proof.
  intros Hx E. pose proof (test_nan x v Hx E) as K. unfold nan_gives, guarded_n, returns, throws in *.
  destruct c; cbn [on_nan] in *; intros s; unfold bind; rewrite K; reflexivity.
Qed.
(** The NaN is reported, or no relation but != is possible, none is certain,
    every answer is indeterminate, and lexicographically only != holds. *)
Theorem C38_nan_number : forall o (x : itv (fnum p)) (v : T (fnum p)), fvalid x -> fval v = NaN ->
  nan_gives c (certainn P o x v) false /\ nan_gives c (possiblen P o x v) (is_ne o).
Proof.
  intros o x v Hx E.
  destruct (nan_cmp (low x) v E) as (A1 & A2 & A3 & A4 & A5 & A6). destruct (nan_cmp (up x) v E) as (B1 & B2 & B3 & B4 & B5 & B6).
  split; destruct o; cbn [certainn possiblen is_ne];
    unfold certainn_lt, certainn_le, certainn_gt, certainn_ge, certainn_eq, certainn_ne,
      possiblen_lt, possiblen_le, possiblen_gt, possiblen_ge, possiblen_eq, possiblen_ne, n_gt, n_ge, n_ne;
    rewrite ?A1, ?A2, ?A3, ?A4, ?A5, ?A6, ?B1, ?B2, ?B3, ?B4, ?B5, ?B6; apply guard_nan; auto.
Qed.
Theorem C39_nan_number : forall o (x : itv (fnum p)) (v : T (fnum p)), fvalid x -> fval v = NaN ->
  nan_gives c (tribooln P o x v) TIndeterminate.
Proof.
  intros o x v Hx E.
  destruct (nan_cmp (low x) v E) as (A1 & A2 & A3 & A4 & A5 & A6). destruct (nan_cmp (up x) v E) as (B1 & B2 & B3 & B4 & B5 & B6).
  destruct o; cbn [tribooln];
    unfold tribooln_lt, tribooln_le, tribooln_gt, tribooln_ge, tribooln_eq, tribooln_ne, n_gt, n_ge, n_ne;
    rewrite ?A1, ?A2, ?A3, ?A4, ?A5, ?A6, ?B1, ?B2, ?B3, ?B4, ?B5, ?B6; apply guard_nan; auto.
Qed.
Theorem C40_nan_number : forall o (x : itv (fnum p)) (v : T (fnum p)), fvalid x -> fval v = NaN ->
  nan_gives c (lexin P o x v) (is_ne o).
Proof.
  intros o x v Hx E.
  destruct (nan_cmp (low x) v E) as (A1 & A2 & A3 & A4 & A5 & A6). destruct (nan_cmp (up x) v E) as (B1 & B2 & B3 & B4 & B5 & B6).
  destruct o; cbn [lexin is_ne];
    unfold lexin_lt, lexin_le, lexin_gt, lexin_ge, lexin_eq, lexin_ne, n_gt, n_ge, n_ne;
    rewrite ?A1, ?A2, ?A3, ?A4, ?A5, ?A6, ?B1, ?B2, ?B3, ?B4, ?B5, ?B6; apply guard_nan; auto.
Qed.
(** Lexicographic comparison with an infinite number: its "singleton" of bounds. *)
Theorem C40_infinite_number : forall o (x : itv (fnum p)) (v : T (fnum p)), fvalid x -> fval v <> NaN ->
  exists b, returns (lexin P o x v) b /\
    (b = true <->
     match o with
     | Lt => lex_lt (fval (low x)) (fval (up x)) (fval v) (fval v)
     | Le => lex_le (fval (low x)) (fval (up x)) (fval v) (fval v)
     | Gt => lex_lt (fval v) (fval v) (fval (low x)) (fval (up x))
     | Ge => lex_le (fval v) (fval v) (fval (low x)) (fval (up x))
     | Eq => fval (low x) = fval v /\ fval (up x) = fval v
     | Ne => ~ (fval (low x) = fval v /\ fval (up x) = fval v)
     end).
Proof.
  intros o x v Hx Hv. pose proof (testn P CS x v Hx Hv) as TT.
  pose proof (valid_low_nn _ _ Hx) as nl. pose proof (valid_up_nn _ _ Hx) as nu. pose proof (proj1 Hx) as LE.
  pose proof (eqb_nn NS (low x) v nl) as EL. pose proof (eqb_nn NS (up x) v nu) as EU.
  pose proof (neb_nn NS (low x) v nl) as NL. pose proof (neb_nn NS (up x) v nu) as NU.
  unfold lex_lt, lex_le.
  destruct o; cbn [lexin]; unfold lexin_lt, lexin_le, lexin_gt, lexin_ge, lexin_eq, lexin_ne, guarded_n, bind;
    (eexists; split; [intros s; rewrite TT; reflexivity|]);
    rewrite ?orb_true_iff, ?andb_true_iff; unfold n_gt, n_ge; rewrite ?EL, ?EU, ?NL, ?NU, ?(ns_lt _ _ NS), ?(ns_le _ _ NS).
  - split; [auto|]. intros [K|[K K']]; auto. exfalso. rewrite <- K in K'. exact (xlt_nle _ _ K' LE).
  - tauto.
  - split; intros [K|[K K']]; auto.
  - split.
    + intros K. destruct (xle_eq_lt _ _ K) as [A|A]; auto. right. split; auto. rewrite A. exact LE.
    + intros [K|[K K']]; [apply xlt_xle, K|]. rewrite K. apply xle_refl, nl.
  - tauto.
  - split; [tauto|]. intros K. destruct (ext_eq_dec (fval (low x)) (fval v)); tauto.
Qed.
End One.

(** Lexicographic comparison of empty intervals throws. *)
Theorem C40_empty_throws : forall p k1 k2 debug c1 c2 ord1 ord2 o (x y : itv (fnum p)),
  ok_interval c1 x -> ok_interval c2 y -> fempty x \/ fempty y ->
  throws (lexi (P_ p k1 debug c1 ord1) o (P_ p k2 debug c2 ord2) x y) ComparisonError.
Proof.
  intros p k1 k2 debug c1 c2 ord1 ord2 o x y Hx Hy E. pose proof (one_empty p k1 k2 debug c1 c2 ord1 ord2 x y Hx Hy E) as K.
  intros s; destruct o; cbn [lexi];
    unfold lexi_lt, lexi_le, lexi_gt, lexi_ge, lexi_eq, lexi_ne, guarded; rewrite K; reflexivity.
Qed.

(** ** C42: the explicit functions on infinite and NaN numbers *)
Section Explicit.
Context (p : platform).
Notation NS := (fnumspec p).
Lemma ext_case a b v r : xle a (Fin r) -> xle (Fin r) b -> v <> NaN ->
  (xlt b v -> xlt (Fin r) v) /\ (xle b v -> xle (Fin r) v) /\ (xlt v a -> xlt v (Fin r)) /\ (xle v a -> xle v (Fin r)) /\
  (a = v -> b = v -> Fin r = v) /\ (~ xlt a v -> ~ xlt (Fin r) v) /\ (~ xle a v -> ~ xle (Fin r) v) /\
  (~ xlt v b -> ~ xlt v (Fin r)) /\ (~ xle v b -> ~ xle v (Fin r)) /\
  (xlt b v \/ xlt v a -> Fin r <> v) /\ (~ (xle a v /\ xle v b) -> Fin r <> v).
Proof.
  intros H H0 H1.
  destruct a as [| |a|], b as [| |b|], v as [| |v|]; simpl in *; try tauto; try congruence; repeat split; intros; try intro;
    repeat match goal with
    | K : Fin _ = Fin _ |- _ => injection K as K
    | K : _ \/ _ |- _ => destruct K
    | K : _ = _ |- _ => discriminate K
    | |- Fin _ = Fin _ => f_equal
    end; try tauto; try lra; try (match goal with K : ~ _ |- _ => apply K; lra end).
Qed.
Theorem C42_infinite_number_sound : forall o (x : itv (fnum p)) (v : T (fnum p)) r, fvalid x -> fval v <> NaN -> fmem x r ->
  (cer_in o x v = true -> xholds o (Fin r) (fval v)) /\ (pos_in o x v = false -> ~ xholds o (Fin r) (fval v)) /\
  (cer_ni o v x = true -> xholds o (fval v) (Fin r)) /\ (pos_ni o v x = false -> ~ xholds o (fval v) (Fin r)).
Proof.
  intros o x v r Hx Hv [R1 R2].
  destruct (ext_case _ _ _ _ R1 R2 Hv) as (C1 & C2 & C3 & C4 & C5 & C6 & C7 & C8 & C9 & C10 & C11).
  pose proof (valid_low_nn _ _ Hx) as nl. pose proof (valid_up_nn _ _ Hx) as nu.
  pose proof (eqb_nn NS (low x) v nl) as E1. pose proof (eqb_nn NS (up x) v nu) as E2.
  pose proof (eqb_nn NS v (low x) Hv) as E3. pose proof (eqb_nn NS v (up x) Hv) as E4.
  pose proof (neb_nn NS (low x) v nl) as F1. pose proof (neb_nn NS (up x) v nu) as F2.
  pose proof (neb_nn NS v (low x) Hv) as F3. pose proof (neb_nn NS v (up x) Hv) as F4.
  destruct o; cbn [cer_in pos_in cer_ni pos_ni xholds];
    unfold cerlt_in, cerle_in, cergt_in, cerge_in, cereq_in, cerne_in, poslt_in, posle_in, posgt_in, posge_in, poseq_in, posne_in,
      cerlt_ni, cerle_ni, cergt_ni, cerge_ni, cereq_ni, cerne_ni, poslt_ni, posle_ni, posgt_ni, posge_ni, poseq_ni, posne_ni, n_gt, n_ge;
    rewrite <- !not_true_iff_false, ?orb_true_iff, ?andb_true_iff, ?E1, ?E2, ?E3, ?E4, ?F1, ?F2, ?F3, ?F4, ?(ns_lt _ _ NS), ?(ns_le _ _ NS);
    clear E1 E2 E3 E4 F1 F2 F3 F4; (split; [|split; [|split]]);
    try solve [exact C1|exact C2|exact C3|exact C4|exact C6|exact C7|exact C8|exact C9].
  - intros [A B]. apply C5; congruence.
  - intros K E. apply C11 in E; [exact E|]. tauto.
  - intros [A B]. symmetry. apply C5; congruence.
  - intros K E. apply C11; [tauto|congruence].
  - intros K. apply C10. tauto.
  - intros K E. apply E, C5; [destruct (ext_eq_dec (fval (low x)) (fval v)) as [A|A]|destruct (ext_eq_dec (fval (up x)) (fval v)) as [A|A]]; try exact A;
      exfalso; apply K; clear - A; intuition congruence.
  - intros K E. apply C10; [tauto|congruence].
  - intros K E. apply E. symmetry. apply C5; [destruct (ext_eq_dec (fval (low x)) (fval v)) as [A|A]|destruct (ext_eq_dec (fval (up x)) (fval v)) as [A|A]]; try exact A;
      exfalso; apply K; clear - A; intuition congruence.
Qed.
(** A NaN: only != is possible, nothing is certain. *)
Theorem C42_nan_number : forall o (x : itv (fnum p)) (v : T (fnum p)), fval v = NaN ->
  cer_in o x v = false /\ cer_ni o v x = false /\ pos_in o x v = is_ne o /\ pos_ni o v x = is_ne o.
Proof.
  intros o x v E.
  destruct (nan_cmp p (low x) v E) as (A1 & A2 & A3 & A4 & A5 & A6). destruct (nan_cmp p (up x) v E) as (B1 & B2 & B3 & B4 & B5 & B6).
  destruct o; cbn [cer_in pos_in cer_ni pos_ni is_ne];
    unfold cerlt_in, cerle_in, cergt_in, cerge_in, cereq_in, cerne_in, poslt_in, posle_in, posgt_in, posge_in, poseq_in, posne_in,
      cerlt_ni, cerle_ni, cergt_ni, cerge_ni, cereq_ni, cerne_ni, poslt_ni, posle_ni, posgt_ni, posge_ni, poseq_ni, posne_ni, n_gt, n_ge, n_ne;
    rewrite ?A1, ?A2, ?A3, ?A4, ?A5, ?A6, ?B1, ?B2, ?B3, ?B4, ?B5, ?B6; repeat split.
Qed.
End Explicit.

(** ** C34: unbounded intervals *)
Lemma midpt_b p (a b : flt (p_T p)) : (exists r, fval a = Fin r) -> b = B754_infinity false -> fval (midpt p a b) = PInf.
Proof.
  intros (r & Ea) ->. unfold midpt. apply fval_fin_iff in Ea. destruct Ea as [Fa _].
  assert (E2 : exists m e B, fconv (p_T p) (p_X p) RNE (f_of_Z (p_T p) RNE 2) = B754_finite false m e B).
  { destruct (two_val p) as [F E]. apply finite_pos; [exact F|]. rewrite E. lra. }
  destruct E2 as (m2 & e2 & B2 & E2). rewrite E2.
  change (fconv (p_T p) (p_X p) RNE (B754_infinity false)) with (B754_infinity false : flt (p_X p)).
  destruct (ld_fin p a Fa) as [M _]. destruct (fconv (p_T p) (p_X p) RNE a) as [?|?| |? ? ? ?]; try discriminate; reflexivity.
Qed.
Lemma midpt_a p (a b : flt (p_T p)) : (exists r, fval b = Fin r) -> a = B754_infinity true -> fval (midpt p a b) = NInf.
Proof.
  intros (r & Ea) ->. unfold midpt. apply fval_fin_iff in Ea. destruct Ea as [Fa _].
  assert (E2 : exists m e B, fconv (p_T p) (p_X p) RNE (f_of_Z (p_T p) RNE 2) = B754_finite false m e B).
  { destruct (two_val p) as [F E]. apply finite_pos; [exact F|]. rewrite E. lra. }
  destruct E2 as (m2 & e2 & B2 & E2). rewrite E2.
  change (fconv (p_T p) (p_X p) RNE (B754_infinity true)) with (B754_infinity true : flt (p_X p)).
  destruct (ld_fin p b Fa) as [M _]. destruct (fconv (p_T p) (p_X p) RNE b) as [?|?| |? ? ? ?]; try discriminate; reflexivity.
Qed.
(** With one infinite bound the median is that bound, with two it is NaN. *)
Theorem C34_median_unbounded : forall p k debug c ord (x : itv (fnum p)), fvalid x ->
  fval (low x) = NInf \/ fval (up x) = PInf ->
  exists m : T (fnum p), returns (median (P_ p k debug c ord) x) m /\
    (fval m = NaN <-> fval (low x) = NInf /\ fval (up x) = PInf) /\
    (fval m = NInf <-> fval (up x) <> PInf) /\ (fval m = PInf <-> fval (low x) <> NInf).
Proof.
  intros p k debug c ord x V H. exists (midpt p (low x) (up x)).
  split; [apply (median_runs p Save k debug c ord x), V|]. destruct V as (V & V1 & V2).
  assert (I1 : fval (low x) = NInf -> low x = (B754_infinity true : flt (p_T p))).
  { intros K. destruct (fval_cases (low x : flt (p_T p))) as [(A & B)|[(A & B)|[(A & B)|(A & B)]]]; congruence. }
  assert (I2 : fval (up x) = PInf -> up x = (B754_infinity false : flt (p_T p))).
  { intros K. destruct (fval_cases (up x : flt (p_T p))) as [(A & B)|[(A & B)|[(A & B)|(A & B)]]]; congruence. }
  destruct (fval (low x)) as [| |l|] eqn:El, (fval (up x)) as [| |u|] eqn:Eu; simpl in V; try tauto; try congruence.
  - rewrite (midpt_a p (low x) (up x)); [|eexists; exact Eu|apply I1; reflexivity].
    clear. repeat split; try discriminate; try tauto; try congruence; intros; destruct H; congruence.
  - rewrite (I1 eq_refl), (I2 eq_refl).
    assert (E : fval (midpt p (B754_infinity true) (B754_infinity false)) = NaN) by reflexivity.
    rewrite E. clear. repeat split; try discriminate; try tauto; try congruence.
  - clear - H. destruct H; discriminate.
  - rewrite (midpt_b p (low x) (up x)); [|eexists; exact El|apply I2; reflexivity].
    clear. repeat split; try discriminate; try tauto; try congruence; intros; destruct H; congruence.
Qed.

(** ** C32: in() with any number *)
Theorem C32_in_infinite : forall p k debug c ord (x : itv (fnum p)) (v : T (fnum p)), fvalid x -> fval v <> NaN ->
  exists b, returns (u_in (P_ p k debug c ord) v x) b /\ (b = true <-> xle (fval (low x)) (fval v) /\ xle (fval v) (fval (up x))).
Proof.
  intros p k debug c ord x v V Hv. exists (n_le (fnum p) (low x) v && n_le (fnum p) v (up x)). split.
  - intros s. unfold u_in, test_input_ni, bind.
    rewrite (cs_nan _ _ (ps_ck _ _ _ (fpolspec p Save k debug c ord)) v Hv).
    rewrite (test_i_ordered p Save k debug c ord x (proj1 V)). reflexivity.
  - rewrite andb_true_iff, !(ns_le _ _ (fnumspec p)). reflexivity.
Qed.
(** A NaN is in no interval; checking_catch_nan reports it. *)
Theorem C32_in_nan : forall p k debug c ord (x : itv (fnum p)) (v : T (fnum p)), ok_interval c x -> fval v = NaN ->
  match c with
  | CkCatchNan | CkNoEmptyCatchNan => throws (u_in (P_ p k debug c ord) v x) InvalidNumber
  | _ => returns (u_in (P_ p k debug c ord) v x) false
  end.
Proof.
  intros p k debug c ord x v V E. destruct (nan_cmp p (low x) v E) as (_ & _ & A & _ & _).
  assert (v = B754_nan) as -> by (destruct v as [?|[|]| |? ? ? ?]; try discriminate E; reflexivity).
  destruct c; intros s; unfold u_in, test_input_ni, bind; try reflexivity.
  - change (ck_is_nan (p_ck (P_ p k debug CkNoNan ord)) B754_nan s) with ((Ok false, s) : outcome bool * rmode). cbv iota beta.
    destruct (test_input_i _ x); [reflexivity|]. cbv iota. change ((Ok (n_le (fnum p) (low x) B754_nan && n_le (fnum p) B754_nan (up x)), s) = (Ok false, s)).
    rewrite A. reflexivity.
  - change (ck_is_nan (p_ck (P_ p k debug CkStrict ord)) B754_nan s) with ((Ok false, s) : outcome bool * rmode). cbv iota beta.
    destruct (test_input_i _ x); [reflexivity|]. cbv iota. change ((Ok (n_le (fnum p) (low x) B754_nan && n_le (fnum p) B754_nan (up x)), s) = (Ok false, s)).
    rewrite A. reflexivity.
Qed.

Print Assumptions C38_infinite_number_sound.
Print Assumptions C39_infinite_number_sound.
Print Assumptions C38_nan_number.
Print Assumptions C39_nan_number.
Print Assumptions C40_nan_number.
Print Assumptions C40_infinite_number.
Print Assumptions C40_empty_throws.
Print Assumptions C42_infinite_number_sound.
Print Assumptions C42_nan_number.
Print Assumptions C34_median_unbounded.
Print Assumptions C32_in_infinite.
Print Assumptions C32_in_nan.

(** [1,+inf] compared with +inf and NaN under the default policy, and with NaN
    under checking_base; median and in on the same interval. *)
Example C38_nan_case : let x : itv (fnum double_sse) := mk (dbl 1 0) pinf in
  let r {A} (m : M A) := run (fun b : A => b) m RNE in
  fvalid x /\ fval (pinf : T (fnum double_sse)) <> NaN /\ fval (dnan : T (fnum double_sse)) = NaN /\
  r (certainn Pdef Le x pinf) = (Ok true, RNE) /\ r (certainn Pdef Lt x pinf) = (Ok false, RNE) /\
  r (possiblen Pdef Gt x pinf) = (Ok false, RNE) /\ r (tribooln Pdef Le x pinf) = (Ok TTrue, RNE) /\
  r (possiblen Pdef Ne x dnan) = (Ok true, RNE) /\ r (certainn Pdef Ne x dnan) = (Ok false, RNE) /\
  r (tribooln Pdef Ne x dnan) = (Ok TIndeterminate, RNE) /\ r (tribooln Pbase Ne x dnan) = (Throw ComparisonError, RNE) /\
  r (lexin Pdef Lt x pinf) = (Ok true, RNE) /\ cer_in Le x pinf = true /\ pos_in Gt x dnan = false /\
  run B2SF (median Pdef x) RNE = (Ok (SpecFloat.S754_infinity false), RNE) /\
  r (u_in Pdef pinf x) = (Ok true, RNE) /\ r (u_in Pdef dnan x) = (Ok false, RNE).
Proof.
  cbv zeta. split; [apply validb_ok; vm_compute; reflexivity|]. split; [discriminate|]. split; [reflexivity|].
  repeat split; vm_compute; reflexivity.
Qed.

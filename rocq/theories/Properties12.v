(** * Properties C53, C55, C56: int operands, numeric_limits, stream output *)

From Coq Require Import Reals ZArith Lra Lia Bool List Ascii String.
From Flocq Require Import Core BinarySingleNaN.
From Verif Require Import Outcome Base Checking Interval Utility Arith Arith2 FloatNum Spec ExtR Sem
  FloatSpec FloatPol CoreArith CoreDiv CoreMore CoreFun CorePow CoreUtil Inst Witness Extras Properties1.
Import ListNotations.
Local Open Scope R_scope.

Notation P_ p k debug c ord := (fpol p Save k debug c ord).

(** ** C53 *)

(** Converting an integer that fits the significand is exact in every mode. *)
Lemma f_of_Z_any f m n : (Z.abs n <= 2 ^ prec f)%Z -> f_of_Z f m n = f_of_Z f RNE n.
Proof.
  intros H. destruct (Z.eq_dec n 0) as [->|Hn]; [reflexivity|].
  apply fval_inj_nz; rewrite !f_of_Z_exact by auto; auto. intros [= K]. apply eq_IZR in K. auto.
Qed.
Lemma to_T_exact p n : (Z.abs n <= 2 ^ prec (p_T p))%Z ->
  pureM (to_T (N := fnum p) n) (f_of_Z (p_T p) RNE n).
Proof. intros H s. unfold to_T, under_mode. cbn. rewrite f_of_Z_any by auto. reflexivity. Qed.
Lemma pure_then {A B} (m : M A) (k : A -> M B) a b : pureM m a -> returns (k a) b -> returns (bind m k) b.
Proof. intros H1 H2. exact (pureM_bind m k a b H1 H2). Qed.

(** The integers that the base type represents exactly: then every operation is
    the tightest enclosure of the exact integer operation. *)
Theorem C53_integers_partial : forall p k debug c ord (x : itv (fnum p)) (n : Z),
  (Z.abs n <= 2 ^ prec (p_T p))%Z -> fvalid x ->
  let P := P_ p k debug c ord in
  let gives m S := exists z, returns m z /\ fvalid z /\ ftightest z S in
  gives (add_xn P x n) (image1 (fun r => r + IZR n) (fmem x)) /\
  gives (add_nx P n x) (image1 (fun r => IZR n + r) (fmem x)) /\
  gives (sub_xn P x n) (image1 (fun r => r - IZR n) (fmem x)) /\
  gives (sub_nx P n x) (image1 (fun r => IZR n - r) (fmem x)) /\
  gives (mul_xn P x n) (image1 (fun r => r * IZR n) (fmem x)) /\
  gives (mul_nx P n x) (image1 (fun r => IZR n * r) (fmem x)) /\
  (n <> 0%Z -> gives (div_xn P x n) (image1 (fun r => r / IZR n) (fmem x))) /\
  (n = 0%Z -> gives_empty c (div_xn P x n)) /\
  (~ fdenotes x (point 0) -> gives (div_nx P n x) (quotients (point (IZR n)) (fmem x))) /\
  (fdenotes x (point 0) -> gives_empty c (div_nx P n x)).
Proof.
  intros p k debug c ord x n Hn Hx P gives.
  pose proof (fpolspec p Save k debug c ord) as H.
  set (v := f_of_Z (p_T p) RNE n : T (fnum p)).
  assert (Ev : fval v = Fin (IZR n)) by (apply f_of_Z_exact; auto).
  assert (TX : forall (f : T (fnum p) -> M (itv (fnum p))) S S', nonempty S ->
     (exists z, runsP P (fready k) (f v) z /\ tightest (N := fnum p) fval z S) ->
     (forall t, S t <-> S' t) -> gives (let! t := to_T (N := fnum p) n in f t) S').
  { intros f S S' NE E EQ. destruct (tight_returns p k debug c ord (f v) S NE E) as (z & R1 & V & T1).
    exists z. split; [|split; auto].
    - eapply pure_then; [apply to_T_exact; auto|exact R1].
    - eapply tightest_ext; [|exact T1]. exact EQ. }
  assert (NE : nonempty (fmem x)) by (apply nonempty_mem; auto).
  assert (GE : forall (f : T (fnum p) -> M (itv (fnum p))), gives_empty c (f v) ->
     gives_empty c (let! t := to_T (N := fnum p) n in f t)).
  { intros f. unfold gives_empty. destruct (allows_empty c).
    - intros (z & R1 & E). exists z. split; auto. eapply pure_then; [apply to_T_exact; auto|exact R1].
    - intros K s. unfold bind. rewrite (to_T_exact p n Hn s). apply K. }
  assert (RF : forall (S : R -> Prop) t, S t <-> S t) by (intros; tauto).
  split; [exact (TX _ _ _ (nonempty_image1 _ _ NE) (op_add_in_ok H x v _ Ev Hx) (RF _))|].
  split; [exact (TX _ _ _ (nonempty_image1 _ _ NE) (op_add_ni_ok H v _ x Ev Hx) (RF _))|].
  split; [exact (TX _ _ _ (nonempty_image1 _ _ NE) (op_sub_in_ok H x v _ Ev Hx) (RF _))|].
  split; [exact (TX _ _ _ (nonempty_image1 _ _ NE) (op_sub_ni_ok H v _ x Ev Hx) (RF _))|].
  split; [exact (TX _ _ _ (nonempty_image1 _ _ NE) (op_mul_in_ok H x v _ Ev Hx) (RF _))|].
  split; [exact (TX _ _ _ (nonempty_image1 _ _ NE) (op_mul_ni_ok H v _ x Ev Hx) (RF _))|].
  split.
  { intros Hz. assert (Nz : IZR n <> 0) by (intros K; apply eq_IZR in K; auto).
    exact (TX _ _ _ (nonempty_image1 _ _ NE) (op_div_in_ok H x v _ Ev Nz Hx) (RF _)). }
  split.
  { intros ->. apply (GE (op_div_in P x)). apply (empty_gives p k debug c ord).
    intros o Ho. exact (op_div_in_zero H x v o Ev Hx Ho). }
  split.
  - intros Nz. assert (NP : nonempty (point (IZR n))) by (exists (IZR n); reflexivity).
    exact (TX (fun t => op_div_ni P t x) _ _ (nonempty_quots p (point (IZR n)) x NP Hx Nz)
      (op_div_ni_ok H v _ x Ev Hx (not_zero_set p x Hx Nz) (fun _ => eq_refl)) (RF _)).
  - intros Z. apply (zero_set p x Hx) in Z. destruct Z as [Z1 Z2].
    apply (GE (fun t => op_div_ni P t x)). apply (empty_gives p k debug c ord).
    intros o Ho. exact (op_div_ni_zero H v _ x o Ev Hx Z1 Z2 Ho).
Qed.
Print Assumptions C53_integers_partial.
(** For double and long double this covers every 32-bit int. *)
Example C53_case : forall n : Z, (- 2 ^ 31 <= n < 2 ^ 31)%Z ->
  (Z.abs n <= 2 ^ prec (p_T double_sse))%Z /\ (Z.abs n <= 2 ^ prec (p_T long_double_x87))%Z /\ fvalid (di 1 3) /\
  run show (sub_nx Pdef (-5) (di 1 3)) RUP = (Ok (show (di (-8) (-6))), RUP) /\
  run show (div_xn Pdef (di 2 3) 0) RNE = (Throw EmptyCreated, RNE).
Proof.
  intros n Hn. split; [cbn; lia|]. split; [cbn; lia|]. split; [apply di_valid; lia|].
  split; vm_compute; reflexivity.
Qed.

(** With float as base type the full statement is false: 0 + 16777217. *)
Theorem C53_float_refuted : exists (x z : itv (fnum float_sse)) (n : Z),
  (- 2 ^ 31 <= n < 2 ^ 31)%Z /\ fvalid x /\ fmem x 0 /\
  add_xn (P_ float_sse Opp true CkStrict (fun _ => true)) x n RNE = (Ok z, RNE) /\
  ~ fmem z (0 + IZR n).
Proof.
  set (P := P_ float_sse Opp true CkStrict (fun _ => true)).
  set (o := f_of_Z binary32 RNE 0 : T (fnum float_sse)).
  set (v := f_of_Z binary32 RNE 16777216 : T (fnum float_sse)).
  assert (Eo : fval (o : flt binary32) = Fin 0) by (apply (f_of_Z_exact binary32); cbn; lia).
  assert (Ev : fval (v : flt binary32) = Fin 16777216) by (apply (f_of_Z_exact binary32); cbn; lia).
  set (x := mk (N := fnum float_sse) o o).
  assert (Hx : fvalid x).
  { unfold fvalid, valid, x. cbn [low up p_T float_sse]. rewrite Eo. split; [simpl; lra|split; discriminate]. }
  destruct (C53_integers_partial float_sse Opp true CkStrict (fun _ => true) x 16777216 ltac:(cbn; lia) Hx)
    as ((z & R1 & _ & T1) & _).
  exists x, z, 16777217%Z. split; [lia|]. split; [exact Hx|].
  split. { unfold fmem, mem, x. cbn [low up p_T float_sse]. rewrite Eo. simpl. lra. }
  split.
  - rewrite <- (R1 RNE). unfold add_xn, bind, to_T, under_mode. cbn [n_of_int fnum].
    assert (E : f_of_Z binary32 RNE 16777217 = f_of_Z binary32 RNE 16777216) by (apply B2SF_inj; vm_compute; reflexivity).
    cbn [p_T float_sse]. rewrite E. reflexivity.
  - intros [_ K]. destruct T1 as [_ T2]. destruct (T2 (mk (N := fnum float_sse) v v)) as [_ U].
    { intros t (r & [Ra Rb] & ->). unfold x in *. cbn [low up p_T float_sse] in *. rewrite Eo in *. simpl in Ra, Rb.
      unfold mem. cbn [low up]. rewrite Ev. simpl. lra. }
    cbn [low up p_T float_sse] in U. rewrite Ev in U. pose proof (xle_trans _ _ _ K U) as L. simpl in L. lra.
Qed.
Print Assumptions C53_float_refuted.

(** ** C55 *)

(** The call returns [z] in every rounding mode, no exception having to leave
    the function. *)
Definition returns_noexcept {A} (m : M A) (z : A) : Prop := forall mode, noexcept m mode = Some (Ok z, mode).
(** std::terminate is called. *)
Definition terminates_program {A} (m : M A) : Prop := forall mode, noexcept m mode = None.

Theorem C55_singletons : forall p k debug c ord (bl : base_limits (fnum p)) a b e d,
  (* the values of std::numeric_limits<T> *)
  fval (bl_min bl) = Fin a -> fval (bl_max bl) = Fin b ->
  fval (bl_epsilon bl) = Fin e -> fval (bl_denorm_min bl) = Fin d ->
  let P := P_ p k debug c ord in
  let is m r := exists z, returns_noexcept m z /\ fvalid z /\ fdenotes z (point r) in
  is (lim_min P bl) a /\ is (lim_max P bl) b /\ is (lim_epsilon P bl) e /\ is (lim_denorm_min P bl) d.
Proof.
  intros p k debug c ord bl a b e d Ha Hb He Hd P is.
  pose proof (fpolspec p Save k debug c ord) as H.
  assert (K : forall (v : T (fnum p)) r, fval v = Fin r -> is (ctor_num2 P v v) r).
  { intros v r E. exists (mk v v). split; [|split].
    - intros mode. unfold noexcept, ctor_num2, bind.
      assert (Nn : fval v <> NaN) by (rewrite E; discriminate).
      rewrite !(cs_nan _ _ (ps_ck _ _ _ H) v Nn).
      assert (n_le (fnum p) v v = true) as ->.
      { apply (ns_le _ _ (ps_num _ _ _ H)). rewrite E. simpl. lra. }
      reflexivity.
    - apply (valid_point v r E).
    - intros t. unfold point. apply (mem_point v r E). }
  split; [apply K; auto|]. split; [apply K; auto|]. split; apply K; auto.
Qed.
Print Assumptions C55_singletons.

Theorem C55_infinity : forall p k debug c ord,
  exists z, returns_noexcept (lim_infinity (P_ p k debug c ord)) z /\ fvalid z /\ forall r, fmem z r.
Proof.
  intros p k debug c ord. pose proof (fpolspec p Save k debug c ord) as H.
  destruct (cs_pos_inf _ _ (ps_ck _ _ _ H) eq_refl) as (u & Eu & Ru).
  destruct (cs_neg_inf _ _ (ps_ck _ _ _ H) eq_refl) as (l & El & Rl).
  exists (mk l u). split; [|split].
  - intros mode. unfold noexcept, lim_infinity, i_whole.
    rewrite (pureM_mk_args (N := fnum p) _ _ _ _ _ Rl Ru mode). reflexivity.
  - unfold fvalid, valid. cbn [low up]. rewrite El, Eu. split; [exact Logic.I|split; discriminate].
  - intros r. unfold fmem, mem. cbn [low up]. rewrite El, Eu. split; exact Logic.I.
Qed.
Print Assumptions C55_infinity.

(** quiet_NaN() is an empty interval when the policy has one; otherwise the
    policy's exception cannot leave the function and the program is terminated. *)
Theorem C55_quiet_NaN : forall p k debug c ord,
  (allows_empty c = true ->
   exists z, returns_noexcept (lim_quiet_NaN (P_ p k debug c ord)) z /\ fempty z) /\
  (allows_empty c = false -> terminates_program (lim_quiet_NaN (P_ p k debug c ord))).
Proof.
  intros p k debug c ord. pose proof (i_empty_gives p k debug c ord) as G. unfold gives_empty in G.
  split; intros A; rewrite A in G.
  - destruct G as (z & R1 & E). exists z. split; auto. intros mode. unfold noexcept, lim_quiet_NaN. rewrite R1. reflexivity.
  - intros mode. unfold noexcept, lim_quiet_NaN. rewrite G. reflexivity.
Qed.
Print Assumptions C55_quiet_NaN.

(** interval<double>. *)
Definition double_limits : base_limits (fnum double_sse) :=
  {| bl_min := dbl 1 (-1022); bl_max := dbl (2 ^ 53 - 1) 971; bl_epsilon := dbl 1 (-52); bl_denorm_min := dbl 1 (-1074) |}.
Example C55_case :
  fval (f := binary64) (bl_min double_limits) = Fin (bpow radix2 (-1022)) /\
  fval (f := binary64) (bl_max double_limits) = Fin (largest binary64) /\
  fval (f := binary64) (bl_epsilon double_limits) = Fin (bpow radix2 (-52)) /\
  fval (f := binary64) (bl_denorm_min double_limits) = Fin (bpow radix2 (-1074)) /\
  run show (lim_max Pdef double_limits) RNE = (Ok (show (mk (dbl (2 ^ 53 - 1) 971) (dbl (2 ^ 53 - 1) 971))), RNE) /\
  run show (lim_infinity Pdef) RNE = (Ok (show (mk ninf pinf)), RNE) /\
  noexcept (lim_quiet_NaN Pdef) RNE = None.
Proof.
  assert (K : forall x m e B, B2SF (x : flt binary64) = B2SF (B754_finite false m e B : flt binary64) ->
     fval (f := binary64) x = Fin (IZR (Z.pos m) * bpow radix2 e)).
  { intros x m e B E. apply B2SF_inj in E. subst x. reflexivity. }
  assert (P2 : IZR (Z.pos 4503599627370496) = bpow radix2 52) by (rewrite <- IZR_Zpower by lia; f_equal).
  split.
  { erewrite (K _ 4503599627370496%positive (-1074)%Z eq_refl); [|vm_compute; reflexivity].
    rewrite P2, <- bpow_plus. reflexivity. }
  split.
  { erewrite (K _ 9007199254740991%positive 971%Z eq_refl); [|vm_compute; reflexivity].
    unfold largest. cbn [emax prec binary64]. change (1024 - 53)%Z with 971%Z.
    change 1024%Z with (53 + 971)%Z. rewrite bpow_plus.
    replace (bpow radix2 53) with (IZR 9007199254740992) by (rewrite <- IZR_Zpower by lia; f_equal).
    f_equal. lra. }
  split.
  { erewrite (K _ 4503599627370496%positive (-104)%Z eq_refl); [|vm_compute; reflexivity].
    rewrite P2, <- bpow_plus. reflexivity. }
  split.
  { erewrite (K _ 1%positive (-1074)%Z eq_refl); [|vm_compute; reflexivity]. f_equal. lra. }
  split; [vm_compute; reflexivity|]. split; [vm_compute; reflexivity|]. reflexivity.
Qed.

(** ** C56 *)
Definition text (s : string) : list ascii := list_ascii_of_string s.

(** What is written, for every number printer. *)
Theorem C56_output : forall p k debug c ord (show : T (fnum p) -> list ascii) (x : itv (fnum p)) (before : list ascii),
  ok_interval c x ->
  (fempty x -> print (P_ p k debug c ord) show x before = before ++ text "[]") /\
  (fvalid x -> print (P_ p k debug c ord) show x before =
     before ++ text "[" ++ show (low x) ++ text "," ++ show (up x) ++ text "]").
Proof.
  intros p k debug c ord show x before Hx. unfold print, u_empty.
  destruct (ok_cases p k debug c ord x Hx) as [[V ->]|[E ->]]; split; intros K.
  - exfalso. apply K, V.
  - reflexivity.
  - reflexivity.
  - exfalso. apply E, K.
Qed.
Print Assumptions C56_output.

Lemma comma_split (a b a' b' : list ascii) : ~ In ","%char a -> ~ In ","%char a' ->
  a ++ ","%char :: b = a' ++ ","%char :: b' -> a = a' /\ b = b'.
Proof.
  revert a'. induction a as [|h a IH]; intros [|h' a'] N1 N2 E; simpl in *.
  - split; congruence.
  - exfalso. apply N2. left. congruence.
  - exfalso. apply N1. left. congruence.
  - injection E as -> E. destruct (IH a' ltac:(tauto) ltac:(tauto) E) as [-> ->]. auto.
Qed.

(** Different intervals print differently, and only the empty ones as []. *)
Theorem C56_injective : forall p k debug c ord (show : T (fnum p) -> list ascii) (x y : itv (fnum p)),
  (forall a b, show a = show b -> fval a = fval b) ->
  (forall a, ~ In ","%char (show a)) ->
  ok_interval c x -> ok_interval c y ->
  print (P_ p k debug c ord) show x [] = print (P_ p k debug c ord) show y [] ->
  (fempty x /\ fempty y) \/ (fvalid x /\ fvalid y /\ fsame x y).
Proof.
  intros p k debug c ord show x y Inj Nc Hx Hy. unfold print, u_empty.
  destruct (ok_cases p k debug c ord x Hx) as [[Vx ->]|[Ex ->]];
  destruct (ok_cases p k debug c ord y Hy) as [[Vy ->]|[Ey ->]]; intros E; simpl in E.
  - right. split; [exact Vx|]. split; [exact Vy|]. injection E as E.
    destruct (comma_split _ _ _ _ (Nc _) (Nc _) E) as [E1 E2].
    apply app_inj_tail in E2. destruct E2 as [E2 _]. split; apply Inj; auto.
  - exfalso. injection E as E. assert (K : In ","%char ["]"%char]).
    { rewrite <- E. apply in_or_app. right. left. reflexivity. }
    destruct K as [K|[]]. discriminate K.
  - exfalso. injection E as E. assert (K : In ","%char ["]"%char]).
    { rewrite E. apply in_or_app. right. left. reflexivity. }
    destruct K as [K|[]]. discriminate K.
  - left. auto.
Qed.
Print Assumptions C56_injective.

(** A printer that meets the hypotheses: sign, binary digits of the significand
    (least significant first), "p", sign and binary digits of the exponent. *)
Fixpoint bits (m : positive) : list ascii :=
  match m with xH => ["1"%char] | xO q => "0"%char :: bits q | xI q => "1"%char :: bits q end.
Definition bits_Z (e : Z) : list ascii :=
  match e with Z0 => ["0"%char] | Zpos m => "+"%char :: bits m | Zneg m => "-"%char :: bits m end.
Definition show_bin {f} (x : flt f) : list ascii :=
  match x with
  | B754_zero _ => ["0"%char]
  | B754_infinity s => (if s then "-"%char else "+"%char) :: text "inf"
  | B754_nan => text "nan"
  | B754_finite s m e _ => (if s then "-"%char else "+"%char) :: bits m ++ "p"%char :: bits_Z e
  end.
Lemma bits_inj m m' : bits m = bits m' -> m = m'.
Proof.
  revert m'. induction m as [q IH|q IH|]; intros [q'|q'|] E; simpl in E; try discriminate; auto.
  - injection E as E. f_equal. auto.
  - injection E as E. destruct q; discriminate.
  - injection E as E. f_equal. auto.
  - injection E as E. destruct q'; discriminate.
Qed.
Lemma bits_Z_inj e e' : bits_Z e = bits_Z e' -> e = e'.
Proof. destruct e, e'; simpl; intros E; try discriminate; auto; injection E as E; apply bits_inj in E; congruence. Qed.
Lemma bits_digit m ch : In ch (bits m) -> ch = "0"%char \/ ch = "1"%char.
Proof. induction m; simpl; intuition. Qed.
Lemma p_split (a b a' b' : list ascii) : ~ In "p"%char a -> ~ In "p"%char a' ->
  a ++ "p"%char :: b = a' ++ "p"%char :: b' -> a = a' /\ b = b'.
Proof.
  revert a'. induction a as [|h a IH]; intros [|h' a'] N1 N2 E; simpl in *.
  - split; congruence.
  - exfalso. apply N2. left. congruence.
  - exfalso. apply N1. left. congruence.
  - injection E as -> E. destruct (IH a' ltac:(tauto) ltac:(tauto) E) as [-> ->]. auto.
Qed.
Lemma no_p m : ~ In "p"%char (bits m).
Proof. intros K. apply bits_digit in K. destruct K; discriminate. Qed.
Lemma bits_first m : exists ch l, bits m = ch :: l /\ (ch = "0"%char \/ ch = "1"%char).
Proof. destruct m; simpl; eexists; eexists; split; eauto. Qed.
Example C56_case :
  (forall f (a b : flt f), show_bin a = show_bin b -> fval a = fval b) /\
  (forall f (a : flt f), ~ In ","%char (show_bin a)) /\
  ok_interval CkBase (di 1 2) /\ ok_interval CkBase (mk dnan dnan) /\
  print Pbase (show_bin (f := binary64)) (mk ninf (dbl 0 0)) [] = text "[-inf,0]" /\
  print Pbase (show_bin (f := binary64)) (mk dnan dnan) [] = text "[]".
Proof.
  split.
  { intros f a b E.
    assert (D : forall s m e, (if s : bool then "-"%char else "+"%char) :: bits m ++ "p"%char :: bits_Z e <> text "nan").
    { intros [|] m e K; discriminate. }
    assert (Di : forall s s' m e, (if s : bool then "-"%char else "+"%char) :: bits m ++ "p"%char :: bits_Z e <>
       (if s' : bool then "-"%char else "+"%char) :: text "inf").
    { intros s s' m e K. injection K as _ K. destruct (bits_first m) as (ch & l & E1 & E2). rewrite E1 in K.
      injection K as K _. destruct E2 as [-> | ->]; discriminate. }
    destruct a as [s|s| |s m e B], b as [s'|s'| |s' m' e' B']; cbn [show_bin] in E; try reflexivity;
      try (destruct s; discriminate E); try (destruct s'; discriminate E).
    - destruct s, s'; try discriminate E; reflexivity.
    - exfalso. symmetry in E. exact (Di _ _ _ _ E).
    - exfalso. exact (Di _ _ _ _ E).
    - injection E as Es E. destruct (p_split _ _ _ _ (no_p m) (no_p m') E) as [Em Ee].
      apply bits_inj in Em. apply bits_Z_inj in Ee. subst. simpl.
      destruct s, s'; try discriminate Es; reflexivity. }
  split.
  { intros f a K. destruct a as [s|[|]| |s m e B]; cbn [show_bin] in K; simpl in K; try (intuition discriminate).
    destruct K as [K|K]; [destruct s; discriminate|]. apply in_app_or in K. destruct K as [K|[K|K]].
    - apply bits_digit in K. destruct K; discriminate.
    - discriminate.
    - destruct e; simpl in K; try (intuition discriminate);
        (destruct K as [K|K]; [discriminate|]; apply bits_digit in K; destruct K; discriminate). }
  split; [left; apply di_valid; lia|].
  split; [right; split; [reflexivity|]; intros K; exact K|].
  split; vm_compute; reflexivity.
Qed.

(** * C61, C62: the searches for zeros of examples/findroot_demo.cpp

    "find zero points of some function by dichotomy" (findroot_demo.cpp:2): the
    search prints narrow intervals that cover every zero of the function in the
    range. *)

From Coq Require Import Reals ZArith Lra Lia Bool List Psatz Classical.
From Flocq Require Import Core BinarySingleNaN.
From Verif Require Import Outcome Base Checking Interval Utility Arith Arith2 Transc SpecTransc FloatNum Spec ExtR Sem
  CoreArith CoreDiv CoreMore CoreFun CorePow CoreUtil CoreTransc FloatSpec FloatPol FloatMed FloatTrans RefLib Inst Witness
  Properties9 Properties10 ExNewton NewtonProof ExFindroot FindrootProof.
From Verif Require OpsIso ExprWidth FloatInt.
Import ListNotations.
Local Open Scope R_scope.

(** [f] returns, for every interval, an interval that contains all values [F]
    takes on its members; [F r t]: the function has the value t at r. *)
Definition computes {p} (f : itv (fnum p) -> M (itv (fnum p))) (F : R -> R -> Prop) : Prop :=
  forall x, fvalid x -> exists v, returns (f x) v /\ forall r t, fmem x r -> F r t -> fmem v t.
Definition computes2 {p} (f : itv (fnum p) -> itv (fnum p) -> M (itv (fnum p))) (F : R -> R -> R -> Prop) : Prop :=
  forall x y, fvalid x -> fvalid y -> exists v, returns (f x y) v /\ forall r s t, fmem x r -> fmem y s -> F r s t -> fmem v t.
(** The same for intervals within a range. *)
Definition within {p} (x y : itv (fnum p)) : Prop := forall r, fmem x r -> fmem y r.
Definition computes_on {p} (range : itv (fnum p)) (f : itv (fnum p) -> M (itv (fnum p))) (F : R -> R -> Prop) : Prop :=
  forall x, fvalid x -> within x range -> exists v, returns (f x) v /\ forall r t, fmem x r -> F r t -> fmem v t.
Definition computes2_on {p} (rx ry : itv (fnum p)) (f : itv (fnum p) -> itv (fnum p) -> M (itv (fnum p))) (F : R -> R -> R -> Prop) : Prop :=
  forall x y, fvalid x -> fvalid y -> within x rx -> within y ry ->
  exists v, returns (f x y) v /\ forall r s t, fmem x r -> fmem y s -> F r s t -> fmem v t.
(** The value returned by a call contains zero. *)
Definition vanishes {p} (P : policy (fnum p)) (m : M (itv (fnum p))) : Prop :=
  exists v, returns m v /\ zero_in P v = true /\ (fvalid v -> fmem v 0).
(** Bounds l and u. *)
Definition has_bounds {p} (x : itv (fnum p)) (l u : R) : Prop :=
  fval (low x : flt (p_T p)) = Fin l /\ fval (up x : flt (p_T p)) = Fin u /\ l <= u.
(** Some element of a list contains r. *)
Definition some_contains {p} (l : list (itv (fnum p))) (r : R) : Prop := Exists (fun x => fmem x r) l.

(** A type double. *)
Definition is_double (p : platform) : Prop := prec (p_T p) = 53%Z /\ emax (p_T p) = 1024%Z.

Lemma bounds_of {p} (x : itv (fnum p)) l u : fvalid x -> fval (low x : flt (p_T p)) = Fin l -> fval (up x : flt (p_T p)) = Fin u -> has_bounds x l u.
Proof.
  intros (A & _) E1 E2. split; [exact E1|]. split; [exact E2|]. change (xle (fval (low x : flt (p_T p))) (fval (up x : flt (p_T p)))) in A.
  rewrite E1, E2 in A. exact A.
Qed.
Lemma rw_lt : rw < / 1000000.
Proof. unfold rw. assert (E : bpow radix2 (-72) = / IZR (2 ^ 72)) by reflexivity. rewrite E. simpl. lra. Qed.

Lemma zero_vanishes p k debug c ord m (v : itv (fnum p)) : returns m v -> zero_in (fpol p Save k debug c ord) v = true ->
  vanishes (fpol p Save k debug c ord) m.
Proof.
  intros R Z. exists v. split; [exact R|]. split; [exact Z|]. intros Vv.
  apply (zero_in_iff (fpolspec p Save k debug c ord) v Vv) in Z. exact Z.
Qed.

(** ** One variable *)
Theorem C61_find_zeros_partial : forall p k debug c ord f F (range : itv (fnum p)) l u,
  is_double p -> computes_on range f F -> has_bounds range l u -> Rabs l <= 2 ^ 32 -> Rabs u <= 2 ^ 32 ->
  exists fuel0 printed,
    (forall fuel, (fuel0 <= fuel)%nat -> returns (find_zeros (fpol p Save k debug c ord) fuel f range) printed) /\
    Forall (fun x => within x range /\ (exists a b, has_bounds x a b /\ b - a < / 1000000) /\
                     vanishes (fpol p Save k debug c ord) (f x)) printed /\
    forall r, fmem range r -> F r 0 -> some_contains printed r.
Proof.
  intros p k debug c ord f F range l u (EP & EE) HF (El & Eu & LU) Bl Bu.
  assert (B : 2 ^ 32 = bpow radix2 32) by (simpl; lra). rewrite B in Bl, Bu.
  destruct (find_zeros_ok p k debug c ord EP EE range f F HF l u El Eu LU Bl Bu) as (fuel0 & res & K1 & K2 & K3).
  exists fuel0, res. split; [exact K1|]. split; [|intros r Mr Fr; exact (K3 r Fr Mr)].
  eapply Forall_impl; [|exact K2]. intros x (Vx & Sx & (a & b & Ea & Eb & W) & v & Rv & Z). split; [exact Sx|]. split; [|exact (zero_vanishes _ _ _ _ _ _ _ Rv Z)].
  exists a, b. split; [exact (bounds_of x a b Vx Ea Eb)|]. pose proof rw_lt. lra.
Qed.
Print Assumptions C61_find_zeros_partial.

Lemma on_range {p} (range : itv (fnum p)) f F : computes f F -> computes_on range f F.
Proof. intros HF x V _. exact (HF x V). Qed.
Lemma on_range2 {p} (rx ry : itv (fnum p)) f F : computes2 f F -> computes2_on rx ry f F.
Proof. intros HF x y V W _ _. exact (HF x y V W). Qed.

(** ** Two variables *)
Definition first {p} (b : line (p := p)) : itv (fnum p) := mk (l1 b) (u1 b).
Definition second {p} (b : line (p := p)) : itv (fnum p) := mk (l2 b) (u2 b).
(** Narrower than the double 5e-3, and v one of its members. *)
Definition narrow_around {p} (x : itv (fnum p)) (v : T (fnum p)) : Prop :=
  exists a b m, has_bounds x a b /\ b - a < 5764607523034235 / 2 ^ 60 /\ fval (v : flt (p_T p)) = Fin m /\ a <= m <= b.
(** The iteration counter, an int, does not overflow. *)
Theorem C61_find_zeros2_partial : forall p k debug c ord f F (rx ry : itv (fnum p)) l u l' u',
  is_double p -> computes2_on rx ry f F -> has_bounds rx l u -> has_bounds ry l' u' ->
  -40 <= l -> u <= 40 -> -40 <= l' -> u' <= 40 ->
  exists fuel0 printed,
    (forall fuel, (fuel0 <= fuel)%nat -> returns (find_zeros2 (fpol p Save k debug c ord) fuel f rx ry) printed) /\
    Forall (fun b => within (first b) rx /\ within (second b) ry /\
                     narrow_around (first b) (m1 b) /\ narrow_around (second b) (m2 b) /\
                     vanishes (fpol p Save k debug c ord) (f (first b) (second b))) printed /\
    forall r s, fmem rx r -> fmem ry s -> F r s 0 -> Exists (fun b => fmem (first b) r /\ fmem (second b) s) printed.
Proof.
  intros p k debug c ord f F rx ry l u l' u' (EP & EE) HF (El & Eu & LU) (El' & Eu' & LU') A1 A2 A3 A4.
  destruct (find_zeros2_ok p k debug c ord EP EE rx ry f F HF l u l' u' El Eu LU El' Eu' LU' A1 A2 A3 A4) as (fuel0 & res & K1 & K2 & K3).
  exists fuel0, res. split; [exact K1|]. split; [|intros r s Mr Ms Fr; exact (K3 r s Fr Mr Ms)].
  assert (NA : forall (x : itv (fnum p)) v, fvalid x -> narrow p x -> inside p v x -> narrow_around x v).
  { intros x v Vx (a & b & Ea & Eb & W) (m & Em & [M1 M2]). exists a, b, m. split; [exact (bounds_of x a b Vx Ea Eb)|].
    change (xle (fval (low x : flt (p_T p))) (Fin m)) in M1. change (xle (Fin m) (fval (up x : flt (p_T p)))) in M2.
    rewrite Ea in M1. rewrite Eb in M2. split; [|split; [exact Em|split; assumption]].
    unfold ep in W. assert (E : bpow radix2 (-60) = / 2 ^ 60) by (change (bpow radix2 (-60)) with (/ IZR (2 ^ 60)); rewrite pow_IZR; reflexivity).
    rewrite E in W. exact W. }
  eapply Forall_impl; [|exact K2]. intros b (V1 & S1 & N1 & I1 & V2 & S2 & N2 & I2 & v & Rv & Z).
  split; [exact S1|]. split; [exact S2|]. split; [apply NA; assumption|]. split; [apply NA; assumption|].
  exact (zero_vanishes _ _ _ _ _ _ _ Rv Z).
Qed.
Print Assumptions C61_find_zeros2_partial.

(** ** The three functions of the program *)
Section Program.
Context (p : platform) (k : rkind) (debug : bool) (c : ckind) (ord : site -> bool) (D : is_double p).
Notation N := (fnum p).
Notation P := (fpol p Save k debug c ord).
Notation I := (itv N).
Notation H := (fpolspec p Save k debug c ord).
Notation fv := (@fval (p_T p)).
Notation V := (valid (N := N) fv).
Notation mem := (mem (N := N) fv).
Lemma lit m : (Z.abs m < 2 ^ 53)%Z -> fv (literal m 0) = Fin (IZR m).
Proof. destruct D as [EP EE]. apply (literal_int p EP EE). Qed.
Lemma tv (z : I) (S : R -> Prop) r : S r -> tightest (N := N) fv z S -> V z.
Proof. intros Sr Tz. exact (mem_valid _ _ r (proj1 Tz r Sr)). Qed.
Lemma nonempty_v (x : I) : V x -> exists r, mem x r.
Proof. intros Hx. exact (valid_mem _ _ Hx). Qed.

(** sqrt(x*x-1) *)
Lemma func1d_2_ok : allows_empty c = true -> computes (func1d_2 P) (fun r t => 0 <= r * r - 1 /\ t = sqrt (r * r - 1)).
Proof.
  intros AE x Hx. destruct (op_mul_ok H x x Hx Hx) as (a & Ra & Ta).
  destruct (nonempty_v x Hx) as (r0 & M0).
  assert (Va : V a) by (apply (tv a _ (r0 * r0)) in Ta; [exact Ta|exists r0, r0; auto]).
  destruct (op_sub_in_ok H a (literal 1 0) 1 (lit 1 ltac:(lia)) Va) as (b & Rb & Tb).
  assert (Vb : V b) by (apply (tv b _ (r0 * r0 - 1)) in Tb; [exact Tb|exists (r0 * r0); split; [apply Ta; exists r0, r0; auto|reflexivity]]).
  assert (Inb : forall r, mem x r -> mem b (r * r - 1)).
  { intros r Mr. apply Tb. exists (r * r). split; [apply Ta; exists r, r; auto|reflexivity]. }
  destruct (classic (xle (Fin 0) (fv (up b)))) as [Q|Q].
  - destruct (sqrt_ok H (fsqrtspec p k) b Vb Q) as (z & Rz & Tz). exists z. split.
    + intros s. unfold func1d_2, bind. rewrite (Ra s), (Rb s). exact (Rz s).
    + intros r t Mr (Nn & ->). apply Tz. exists (r * r - 1). split; [apply Inb, Mr|]. auto.
  - destruct (fempty_action p debug c) as (o & Ho & K). rewrite AE in K. destruct K as (z & -> & Ez). exists z. split.
    + intros s. unfold func1d_2, bind. rewrite (Ra s), (Rb s). apply (sqrt_neg H b); [exact Vb| |exact Ho].
      apply xnle_lt; [exact (xle_nnr _ _ (proj1 Vb))|discriminate|exact Q].
    + intros r t Mr (Nn & _). exfalso. apply Q. destruct (Inb r Mr) as [_ B]. exact (xle_trans (Fin 0) (Fin (r * r - 1)) _ Nn B).
Qed.

(** Where sqrt(x*x-1) vanishes on a narrow interval within [-5,6]. *)
Lemma func1d_2_near (x : I) a b range : allows_empty c = true -> has_bounds range (-5) 6 -> within x range -> has_bounds x a b -> b - a < / 1000000 ->
  vanishes P (func1d_2 P x) -> forall r, mem x r -> Rabs (Rabs r - 1) < 2 / 1000000.
Proof.
  intros AE HR Sx Hx Wx (v & Rv & Zv & Mv).
  assert (Vx : V x).
  { destruct Hx as (E1 & E2 & L). repeat split; try (change (xle (fv (low x)) (fv (up x)))); rewrite ?E1, ?E2; auto; discriminate. }
  destruct (op_mul_ok H x x Vx Vx) as (s & Rs & Ts). destruct (nonempty_v x Vx) as (r0 & M0).
  assert (Vs : V s) by (apply (tv s _ (r0 * r0)) in Ts; [exact Ts|exists r0, r0; auto]).
  destruct (op_sub_in_ok H s (literal 1 0) 1 (lit 1 ltac:(lia)) Vs) as (q & Rq & Tq).
  assert (Vq : V q) by (apply (tv q _ (r0 * r0 - 1)) in Tq; [exact Tq|exists (r0 * r0); split; [apply Ts; exists r0, r0; auto|reflexivity]]).
  (* zero is in x*x-1 *)
  assert (M : mem q 0).
  { destruct (classic (xle (Fin 0) (fv (up q)))) as [Q|Q].
    - destruct (sqrt_ok H (fsqrtspec p k) q Vq Q) as (z & Rz & Tz).
      assert (v = z).
      { apply (OpsIso.returns_det (func1d_2 P x)); [exact Rv|]. intros st. unfold func1d_2, bind. rewrite (Rs st), (Rq st). exact (Rz st). }
      subst v. split; [|exact Q]. apply xnlt_le; [exact (xle_nnl _ _ (proj1 Vq))|discriminate|]. intros L.
      change (xlt (Fin 0) (fv (low q))) in L.
      assert (Hw : exists w : T N, xlt (Fin 0) (fv w) /\ forall t, mem q t -> xle (fv w) (Fin (sqrt t))).
      { destruct (fv (low q)) as [| |be|] eqn:Eb; cbn [xlt] in L; try tauto.
        - destruct (Rle_or_lt be 1) as [B1|B1].
          + exists (low q). rewrite Eb. split; [exact L|]. intros t [Mt _]. change (xle (fv (low q)) (Fin t)) in Mt. rewrite Eb in Mt.
            cbn [xle] in *. apply Rle_trans with (sqrt be); [|apply sqrt_le_1; lra].
            rewrite <- (sqrt_square be) at 1 by lra. apply sqrt_le_1; nra.
          + exists (literal 1 0). rewrite (lit 1) by lia. split; [cbn [xlt]; lra|]. intros t [Mt _]. change (xle (fv (low q)) (Fin t)) in Mt. rewrite Eb in Mt.
            cbn [xle] in *. rewrite <- sqrt_1 at 1. apply sqrt_le_1; lra.
        - destruct Vq as (A & B & _). exact (False_ind _ (B Eb)). }
      destruct Hw as (w & Pw & Lw).
      assert (Vz : V z).
      { destruct (Rle_or_lt 0 (r0 * r0 - 1)) as [Pr|Pr].
        - apply (tv z _ (sqrt (r0 * r0 - 1))) in Tz; [exact Tz|]. exists (r0 * r0 - 1). split; [|auto].
          apply Tq. exists (r0 * r0). split; [apply Ts; exists r0, r0; auto|reflexivity].
        - exfalso. assert (Mq : mem q (r0 * r0 - 1)) by (apply Tq; exists (r0 * r0); split; [apply Ts; exists r0, r0; auto|reflexivity]).
          destruct Mq as [Mq _]. pose proof (xlt_le_trans _ _ _ L Mq) as K. cbn [xlt] in K. lra. }
      destruct (Mv Vz) as [Mz _]. destruct Tz as [_ Tz].
      destruct (Tz (mk w (up z))) as [A _].
      { intros t (u & Mu & Pu & ->). split; [exact (Lw u Mu)|].
        destruct (sqrt_ok H (fsqrtspec p k) q Vq Q) as (z' & Rz' & Tz').
        assert (z = z') as <- by (apply (OpsIso.returns_det (i_sqrt P q)); [exact Rz|exact Rz']).
        apply Tz'. exists u. auto. }
      cbn [low] in A. exact (xlt_nle _ _ (xlt_le_trans _ _ _ Pw A) Mz).
    - exfalso. destruct (fempty_action p debug c) as (o & Ho & K). rewrite AE in K. destruct K as (z & -> & Ez).
      assert (v = z).
      { apply (OpsIso.returns_det (func1d_2 P x)); [exact Rv|]. intros st. unfold func1d_2, bind. rewrite (Rs st), (Rq st).
        apply (sqrt_neg H q); [exact Vq| |exact Ho]. apply xnle_lt; [exact (xle_nnr _ _ (proj1 Vq))|discriminate|exact Q]. }
      subst v. unfold zero_in in Zv. rewrite (proj2 (is_empty_iff p k debug c ord z AE) Ez) in Zv. discriminate Zv. }
  destruct D as [EP EE].
  assert (EU : ExprWidth.eps (p_T p) = / 4503599627370496) by (unfold ExprWidth.eps; rewrite EP; reflexivity).
  assert (LG : 40 <= largest (p_T p)).
  { pose proof (FloatInt.fin_le_largest (p_T p) (literal 40 0 : flt (p_T p)) 40 (lit 40 ltac:(lia))) as K. rewrite Rabs_right in K by lra. exact K. }
  assert (IX : forall r, mem x r -> a <= r <= b).
  { intros r [A B]. destruct Hx as (E1 & E2 & _). change (xle (fv (low x)) (Fin r)) in A. change (xle (Fin r) (fv (up x))) in B. rewrite E1 in A. rewrite E2 in B. auto. }
  assert (B6 : forall r, mem x r -> Rabs r <= 6).
  { intros r Mr. apply Sx in Mr. destruct Mr as [A B]. destruct HR as (E1 & E2 & _). change (xle (fv (low range)) (Fin r)) in A.
    change (xle (Fin r) (fv (up range))) in B. rewrite E1 in A. rewrite E2 in B. cbn [xle] in A, B. apply Rabs_le. lra. }
  assert (Pass : forall m, 0 <= m <= 6 -> (forall r, mem x r -> Rabs r <= m) -> forall r, mem x r -> Rabs (r * r - 1) <= 2 * m / 1000000 + / 1000000000).
  { intros m Hm Bm r Mr.
    assert (WS : forall t t', mem s t -> mem s t' -> Rabs (t - t') <= 2 * m / 1000000 + 2 * (36 + 1) * / 4503599627370496).
    { intros t t' Mt Mt'. pose proof (ExprWidth.tight_width s _ 36 (2 * m / 1000000) Ts) as W. rewrite EU in W. apply W; auto.
      - exists (r0 * r0), r0, r0. auto.
      - intros g (r1 & r2 & A1 & A2 & ->). rewrite Rabs_mult. replace 36 with (6 * 6) by ring. apply Rmult_le_compat; auto; apply Rabs_pos.
      - intros g (r1 & r2 & A1 & A2 & ->). apply Rle_trans with 40; [|exact LG]. rewrite Rabs_mult. apply Rle_trans with (6 * 6); [|lra].
        apply Rmult_le_compat; auto; apply Rabs_pos.
      - intros g g' (r1 & r2 & A1 & A2 & ->) (r3 & r4 & A3 & A4 & ->).
        assert (Df : forall y y', mem x y -> mem x y' -> Rabs (y - y') <= / 1000000) by (intros y y' My My'; apply IX in My; apply IX in My'; apply Rabs_le; lra).
        pose proof (ExprWidth.diff_mul r1 r3 r2 r4 m m _ _ (Bm _ A1) (Bm _ A4) (Df _ _ A1 A3) (Df _ _ A2 A4)) as K. lra. }
    assert (BS : forall t, mem s t -> Rabs (t - 1) <= 38).
    { intros t Mt. assert (Ms : mem s (r0 * r0)) by (apply Ts; exists r0, r0; auto). specialize (WS t _ Mt Ms).
      assert (K0 : Rabs (r0 * r0) <= 36) by (rewrite Rabs_mult; replace 36 with (6 * 6) by ring; apply Rmult_le_compat; auto; apply Rabs_pos).
      apply Rabs_le_inv in WS. apply Rabs_le_inv in K0. apply Rabs_le. lra. }
    pose proof (ExprWidth.tight_width q _ 38 (2 * m / 1000000 + 2 * (36 + 1) * / 4503599627370496) Tq) as W. rewrite EU in W.
    assert (Mq : mem q (r * r - 1)) by (apply Tq; exists (r * r); split; [apply Ts; exists r, r; auto|reflexivity]).
    assert (K : Rabs (r * r - 1 - 0) <= 2 * m / 1000000 + 2 * (36 + 1) * / 4503599627370496 + 2 * (38 + 1) * / 4503599627370496).
    { apply W; auto.
      - exists (r0 * r0 - 1), (r0 * r0). split; [apply Ts; exists r0, r0; auto|reflexivity].
      - intros g (t & Mt & ->). auto.
      - intros g (t & Mt & ->). apply Rle_trans with 40; [|exact LG]. specialize (BS t Mt). lra.
      - intros g g' (t & Mt & ->) (t' & Mt' & ->). replace (t - 1 - (t' - 1)) with (t - t') by ring. auto. }
    rewrite Rminus_0_r in K. lra. }
  assert (B1 : forall r, mem x r -> Rabs r <= 1001 / 1000).
  { intros r Mr. pose proof (Pass 6 ltac:(lra) B6 r Mr) as K. apply Rabs_le_inv in K. apply Rabs_le. split; nra. }
  intros r Mr. pose proof (Pass (1001 / 1000) ltac:(lra) B1 r Mr) as K.
  assert (E : r * r = Rabs r * Rabs r) by (unfold Rabs; destruct (Rcase_abs r); ring). rewrite E in K.
  pose proof (Rabs_pos r). apply Rabs_le_inv in K. apply Rabs_def1; nra.
Qed.

Context (L : libm N) (HL : lib_ok L) (K : consts N) (HK : constants_for p K) (W : rint_ok p) (d : nat) (D2 : (2 <= d)%nat).
Notation RR := (ftransc p k L).
Lemma trig_at f (x : I) : f = Fsin \/ f = Fcos -> V x -> exists z : I, returns (call f K RR d P x) z /\ V z /\ contains_values f x z.
Proof.
  intros Hf Hx. destruct (C47_cos_sin p k debug c ord L K f x HL HK W Hf Hx) as (z & Rz & Vz & Cz).
  exists z. split; [apply Rz; exact D2|]. split; assumption.
Qed.
Lemma a2 {A B} o (a : M A) (b : M B) x y : returns a x -> returns b y -> returns (args2 o a b) (x, y).
Proof. apply args2_returns. Qed.

(** sin(x)/(x*x+1) *)
Lemma func1d_ok : computes (func1d P K RR d) (fun r t => t = sin r / (r * r + 1)).
Proof.
  intros x Hx. destruct (nonempty_v x Hx) as (r0 & M0).
  destruct (trig_at Fsin x (or_introl eq_refl) Hx) as (sn & Rs & Vs & Cs). cbn [call] in Rs.
  destruct (op_mul_ok H x x Hx Hx) as (a & Ra & Ta).
  assert (Va : V a) by (apply (tv a _ (r0 * r0)) in Ta; [exact Ta|exists r0, r0; auto]).
  destruct (op_add_in_ok H a (literal 1 0) 1 (lit 1 ltac:(lia)) Va) as (b & Rb & Tb).
  assert (Inb : forall r, mem x r -> mem b (r * r + 1)).
  { intros r Mr. apply Tb. exists (r * r). split; [apply Ta; exists r, r; auto|reflexivity]. }
  pose proof (mem_valid _ _ _ (Inb r0 M0)) as Vb.
  destruct (op_div_ok H sn b Vs Vb) as (z & Rz & Ez & _).
  { intros [E1 E2]. destruct (Inb r0 M0) as [B1 B2]. change (xle (fv (low b)) (Fin (r0 * r0 + 1))) in B1.
    change (xle (Fin (r0 * r0 + 1)) (fv (up b))) in B2. rewrite E2 in B2. cbn [xle] in B2. nra. }
  { reflexivity. }
  exists z. split.
  - intros s. unfold func1d. unfold bind at 1.
    assert (RA : returns (let! a := op_mul P x x in op_add_in P a (literal 1 0)) b).
    { intros s'. unfold bind. rewrite (Ra s'). exact (Rb s'). }
    rewrite (a2 _ _ _ _ _ Rs RA s). exact (Rz s).
  - intros r t Mr ->. apply Ez. exists (sin r), (r * r + 1). split; [exact (Cs r (sin r) Mr eq_refl)|].
    split; [exact (Inb r Mr)|]. split; [nra|reflexivity].
Qed.

Definition van_iwaarden (x y : R) : R :=
  sin x * cos y - exp (x * y) / 45 * ((x + y) ^ 2 + 100) - cos (sin y) * y / 4.
Lemma func2d_ok : computes2 (func2d P K RR d) (fun r s t => t = van_iwaarden r s).
Proof.
  intros x y Hx Hy. destruct (nonempty_v x Hx) as (r0 & M0). destruct (nonempty_v y Hy) as (s0 & N0).
  destruct (trig_at Fsin x (or_introl eq_refl) Hx) as (sx & Rsx & Vsx & Csx). cbn [call] in Rsx.
  destruct (trig_at Fcos y (or_intror eq_refl) Hy) as (cy & Rcy & Vcy & Ccy). cbn [call] in Rcy.
  destruct (op_mul_ok H sx cy Vsx Vcy) as (a1 & Ra1 & Ta1).
  assert (Ia1 : forall r s, mem x r -> mem y s -> mem a1 (sin r * cos s)).
  { intros r s Mr Ms. apply Ta1. exists (sin r), (cos s). split; [exact (Csx r _ Mr eq_refl)|]. split; [exact (Ccy s _ Ms eq_refl)|reflexivity]. }
  pose proof (mem_valid _ _ _ (Ia1 _ _ M0 N0)) as Va1.
  destruct (op_mul_ok H x y Hx Hy) as (b1 & Rb1 & Tb1).
  assert (Ib1 : forall r s, mem x r -> mem y s -> mem b1 (r * s)) by (intros r s Mr Ms; apply Tb1; exists r, s; auto).
  pose proof (mem_valid _ _ _ (Ib1 _ _ M0 N0)) as Vb1.
  assert (EX : exists b2 : I, returns (t_exp RR P b1) b2 /\ V b2 /\ contains_values Fexp b1 b2).
  { assert (SD : somewhere_defined Fexp b1) by (exists (r0 * s0), (exp (r0 * s0)); split; [exact (Ib1 _ _ M0 N0)|reflexivity]).
    destruct k.
    - destruct (C46_values p debug c ord L K d Fexp b1 HL HK ltac:(discriminate) ltac:(discriminate) ltac:(discriminate) Vb1 SD) as (z & Rz & Vz & Cz).
      exists z. split; [exact Rz|]. split; assumption.
    - destruct (C46_values_opp_partial p debug c ord L K d Fexp b1 HL HK ltac:(auto) Vb1 SD) as (z & Rz & Vz & Cz).
      exists z. split; [exact Rz|]. split; assumption. }
  destruct EX as (b2 & Rb2 & Vb2 & Cb2).
  destruct (op_div_in_ok H b2 (literal 45 0) 45 (lit 45 ltac:(lia)) ltac:(lra) Vb2) as (b3 & Rb3 & Tb3).
  assert (Ib3 : forall r s, mem x r -> mem y s -> mem b3 (exp (r * s) / 45)).
  { intros r s Mr Ms. apply Tb3. exists (exp (r * s)). split; [exact (Cb2 _ _ (Ib1 _ _ Mr Ms) eq_refl)|reflexivity]. }
  pose proof (mem_valid _ _ _ (Ib3 _ _ M0 N0)) as Vb3.
  destruct (op_add_ok H x y Hx Hy) as (c1 & Rc1 & Tc1).
  assert (Ic1 : forall r s, mem x r -> mem y s -> mem c1 (r + s)) by (intros r s Mr Ms; apply Tc1; exists r, s; auto).
  pose proof (mem_valid _ _ _ (Ic1 _ _ M0 N0)) as Vc1.
  destruct (pow_positive_ok H c1 2 ltac:(lia) Vc1) as (c2 & Rc2 & Ec2 & _).
  assert (Ic2 : forall r s, mem x r -> mem y s -> mem c2 ((r + s) ^ 2)).
  { intros r s Mr Ms. apply Ec2. exists (r + s). split; [exact (Ic1 _ _ Mr Ms)|reflexivity]. }
  pose proof (mem_valid _ _ _ (Ic2 _ _ M0 N0)) as Vc2.
  destruct (op_add_in_ok H c2 (literal 100 0) 100 (lit 100 ltac:(lia)) Vc2) as (c3 & Rc3 & Tc3).
  assert (Ic3 : forall r s, mem x r -> mem y s -> mem c3 ((r + s) ^ 2 + 100)).
  { intros r s Mr Ms. apply Tc3. exists ((r + s) ^ 2). split; [exact (Ic2 _ _ Mr Ms)|reflexivity]. }
  pose proof (mem_valid _ _ _ (Ic3 _ _ M0 N0)) as Vc3.
  destruct (op_mul_ok H b3 c3 Vb3 Vc3) as (e1 & Re1 & Te1).
  assert (Ie1 : forall r s, mem x r -> mem y s -> mem e1 (exp (r * s) / 45 * ((r + s) ^ 2 + 100))).
  { intros r s Mr Ms. apply Te1. eexists _, _. split; [exact (Ib3 _ _ Mr Ms)|]. split; [exact (Ic3 _ _ Mr Ms)|reflexivity]. }
  pose proof (mem_valid _ _ _ (Ie1 _ _ M0 N0)) as Ve1.
  destruct (op_sub_ok H a1 e1 Va1 Ve1) as (g1 & Rg1 & Tg1).
  assert (Ig1 : forall r s, mem x r -> mem y s -> mem g1 (sin r * cos s - exp (r * s) / 45 * ((r + s) ^ 2 + 100))).
  { intros r s Mr Ms. apply Tg1. eexists _, _. split; [exact (Ia1 _ _ Mr Ms)|]. split; [exact (Ie1 _ _ Mr Ms)|reflexivity]. }
  pose proof (mem_valid _ _ _ (Ig1 _ _ M0 N0)) as Vg1.
  destruct (trig_at Fsin y (or_introl eq_refl) Hy) as (sy & Rsy & Vsy & Csy). cbn [call] in Rsy.
  destruct (trig_at Fcos sy (or_intror eq_refl) Vsy) as (h1 & Rh1 & Vh1 & Ch1). cbn [call] in Rh1.
  destruct (op_mul_ok H h1 y Vh1 Hy) as (h2 & Rh2 & Th2).
  assert (Ih2 : forall s, mem y s -> mem h2 (cos (sin s) * s)).
  { intros s Ms. apply Th2. eexists _, _. split; [exact (Ch1 _ _ (Csy s _ Ms eq_refl) eq_refl)|]. split; [exact Ms|reflexivity]. }
  pose proof (mem_valid _ _ _ (Ih2 _ N0)) as Vh2.
  destruct (op_div_in_ok H h2 (literal 4 0) 4 (lit 4 ltac:(lia)) ltac:(lra) Vh2) as (h3 & Rh3 & Th3).
  assert (Ih3 : forall s, mem y s -> mem h3 (cos (sin s) * s / 4)).
  { intros s Ms. apply Th3. eexists. split; [exact (Ih2 _ Ms)|reflexivity]. }
  pose proof (mem_valid _ _ _ (Ih3 _ N0)) as Vh3.
  destruct (op_sub_ok H g1 h3 Vg1 Vh3) as (z & Rz & Tz).
  exists z. split.
  - assert (Q1 : returns (let! v := args2 (p_ord P (H_user, 256%Z)) (t_sin K RR d P x) (t_cos K RR d P y) in op_mul P (fst v) (snd v)) a1).
    { intros s. unfold bind. rewrite (a2 _ _ _ _ _ Rsx Rcy s). exact (Ra1 s). }
    assert (Q2 : returns (let! a := op_mul P x y in let! a := t_exp RR P a in op_div_in P a (literal 45 0)) b3).
    { intros s. unfold bind. rewrite (Rb1 s), (Rb2 s). exact (Rb3 s). }
    assert (Q3 : returns (let! a := op_add P x y in let! a := pow P a 2 in op_add_in P a (literal 100 0)) c3).
    { intros s. unfold bind. rewrite (Rc1 s), (Rc2 s). exact (Rc3 s). }
    assert (Q4 : returns (let! v := args2 (p_ord P (H_user, 356%Z))
          (let! a := op_mul P x y in let! a := t_exp RR P a in op_div_in P a (literal 45 0))
          (let! a := op_add P x y in let! a := pow P a 2 in op_add_in P a (literal 100 0)) in op_mul P (fst v) (snd v)) e1).
    { intros s. unfold bind at 1. rewrite (a2 _ _ _ _ _ Q2 Q3 s). exact (Re1 s). }
    assert (Q6 : returns (let! a := t_sin K RR d P y in let! a := t_cos K RR d P a in let! a := op_mul P a y in op_div_in P a (literal 4 0)) h3).
    { intros s. unfold bind. rewrite (Rsy s), (Rh1 s), (Rh2 s). exact (Rh3 s). }
    intros s. unfold func2d. unfold bind at 1.
    match goal with |- context [args2 _ ?A ?B s] => assert (Q5 : returns A g1) end.
    { intros s'. unfold bind at 1. rewrite (a2 _ _ _ _ _ Q1 Q4 s'). exact (Rg1 s'). }
    rewrite (a2 _ _ _ _ _ Q5 Q6 s). exact (Rz s).
  - intros r s t Mr Ms ->. apply Tz. eexists _, _. split; [exact (Ig1 _ _ Mr Ms)|]. split; [exact (Ih3 _ Ms)|reflexivity].
Qed.
End Program.

(** What the three searches of the program print: all multiples of pi in [-11,10],
    1 and -1 in [-5,6], and all zeros of Van Iwaarden's function in the square.
    The functions are enclosed with rounded_transc_opp (k = Opp), as in the
    program, or rounded_transc_std; the math library must honour the rounding
    mode, and the checking policy must allow empty intervals, as checking_base
    does. *)
Theorem C62_program : forall p k debug c ord (L : libm (fnum p)) K d,
  is_double p -> lib_ok L -> constants_for p K -> rint_ok p -> (2 <= d)%nat -> allows_empty c = true ->
  let P := fpol p Save k debug c ord in
  let RR := ftransc p k L in
  (forall range, has_bounds range (-11) 10 -> exists fuel0 printed,
     (forall fuel, (fuel0 <= fuel)%nat -> returns (find_zeros P fuel (func1d P K RR d) range) printed) /\
     Forall (fun x => within x range /\ (exists a b, has_bounds x a b /\ b - a < / 1000000) /\ vanishes P (func1d P K RR d x)) printed /\
     forall r, -11 <= r <= 10 -> sin r / (r * r + 1) = 0 -> some_contains printed r) /\
  (forall range, has_bounds range (-5) 6 -> exists fuel0 printed,
     (forall fuel, (fuel0 <= fuel)%nat -> returns (find_zeros P fuel (func1d_2 P) range) printed) /\
     Forall (fun x => within x range /\ (exists a b, has_bounds x a b /\ b - a < / 1000000) /\
                      forall r, fmem x r -> Rabs (Rabs r - 1) < 2 / 1000000) printed /\
     some_contains printed (-1) /\ some_contains printed 1) /\
  (forall rx ry, has_bounds rx (-20) 20 -> has_bounds ry (-20) 20 -> exists fuel0 printed,
     (forall fuel, (fuel0 <= fuel)%nat -> returns (find_zeros2 P fuel (func2d P K RR d) rx ry) printed) /\
     Forall (fun b => within (first b) rx /\ within (second b) ry /\
                      narrow_around (first b) (m1 b) /\ narrow_around (second b) (m2 b) /\
                      vanishes P (func2d P K RR d (first b) (second b))) printed /\
     forall r s, -20 <= r <= 20 -> -20 <= s <= 20 -> van_iwaarden r s = 0 ->
       Exists (fun b => fmem (first b) r /\ fmem (second b) s) printed).
Proof.
  intros p k debug c ord L K d D HL HK W D2 AE P RR.
  assert (IN : forall (x : itv (fnum p)) l u r, has_bounds x l u -> l <= r <= u -> fmem x r).
  { intros x l u r (E1 & E2 & _) [A B]. split; [exact (eq_ind_r (fun e => xle e (Fin r)) (A : xle (Fin l) (Fin r)) E1)|exact (eq_ind_r (fun e => xle (Fin r) e) (B : xle (Fin r) (Fin u)) E2)]. }
  assert (AB : forall r, -20 <= r <= 20 -> Rabs r <= 2 ^ 32) by (intros r B; apply Rabs_le; lra).
  split; [|split].
  - intros range HB. pose proof (func1d_ok p k debug c ord D L HL K HK W d D2) as HF.
    destruct (C61_find_zeros_partial p k debug c ord _ _ range (-11) 10 D (on_range _ _ _ HF) HB) as (f0 & pr & K1 & K2 & K3);
      [apply AB; lra|apply AB; lra|].
    exists f0, pr. split; [exact K1|]. split; [exact K2|]. intros r Br Z. apply K3; [exact (IN _ _ _ _ HB Br)|]. symmetry. exact Z.
  - intros range HB. pose proof (func1d_2_ok p k debug c ord D AE) as HF.
    destruct (C61_find_zeros_partial p k debug c ord _ _ range (-5) 6 D (on_range _ _ _ HF) HB) as (f0 & pr & K1 & K2 & K3);
      [apply AB; lra|apply AB; lra|].
    exists f0, pr. split; [exact K1|]. split.
    { eapply Forall_impl; [|exact K2]. intros x (S & (a & b & Hx & Wx) & Vx). split; [exact S|]. split; [exists a, b; auto|].
      exact (func1d_2_near p k debug c ord D x a b range AE HB S Hx Wx Vx). }
    split; (apply K3; [apply (IN _ _ _ _ HB); lra|]).
    + replace (-1 * -1 - 1) with 0 by ring. rewrite sqrt_0. lra.
    + replace (1 * 1 - 1) with 0 by ring. rewrite sqrt_0. lra.
  - intros rx ry HBx HBy. pose proof (func2d_ok p k debug c ord D L HL K HK W d D2) as HF.
    destruct (C61_find_zeros2_partial p k debug c ord _ _ rx ry (-20) 20 (-20) 20 D (on_range2 _ _ _ _ HF) HBx HBy) as (f0 & pr & K1 & K2 & K3); try lra.
    exists f0, pr. split; [exact K1|]. split; [exact K2|]. intros r s Br Bs Z.
    apply K3; [exact (IN _ _ _ _ HBx Br)|exact (IN _ _ _ _ HBy Bs)|]. symmetry. exact Z.
Qed.
Print Assumptions C62_program.

(** The program's types, ranges, and a correctly rounded library. *)
Example C61_case : is_double double_sse /\ lib_ok (ref_lib double_sse) /\ constants_for double_sse (consts_double double_sse RNE) /\
  rint_ok double_sse /\ allows_empty CkBase = true /\
  has_bounds (di (-11) 10) (-11) 10 /\ has_bounds (di (-5) 6) (-5) 6 /\ has_bounds (di (-20) 20) (-20) 20 /\
  (sin PI / (PI * PI + 1) = 0 /\ -11 <= PI <= 10) /\ van_iwaarden 0 0 <> 0 /\
  computes (func1d_2 Pbase) (fun r t => 0 <= r * r - 1 /\ t = sqrt (r * r - 1)) /\
  computes2 (func2d Pbase (consts_double double_sse RNE) (ftransc double_sse Opp (ref_lib double_sse)) 2) (fun r s t => t = van_iwaarden r s).
Proof.
  assert (D : is_double double_sse) by (split; reflexivity).
  assert (HK : constants_for double_sse (consts_double double_sse RNE)) by (apply for_double; auto).
  assert (W : rint_ok double_sse) by (left; split; cbn; lia).
  split; [exact D|]. split; [apply ref_lib_ok|]. split; [exact HK|]. split; [exact W|]. split; [reflexivity|].
  assert (B : forall a b, (Z.abs a <= 2 ^ 53)%Z -> (Z.abs b <= 2 ^ 53)%Z -> (a <= b)%Z -> has_bounds (di a b) (IZR a) (IZR b)).
  { intros a b Ha Hb L. split; [exact (dbl_val a Ha)|]. split; [exact (dbl_val b Hb)|]. apply IZR_le. exact L. }
  split; [apply (B (-11)%Z 10%Z); lia|]. split; [apply (B (-5)%Z 6%Z); lia|]. split; [apply (B (-20)%Z 20%Z); lia|].
  split; [split; [rewrite sin_PI; unfold Rdiv; ring|pose proof PI_4; pose proof PI_RGT_0; lra]|].
  split; [unfold van_iwaarden; rewrite !Rmult_0_l, sin_0, cos_0, exp_0; lra|].
  split; [exact (func1d_2_ok double_sse Opp true CkBase (fun _ => true) D eq_refl)|].
  exact (func2d_ok double_sse Opp true CkBase (fun _ => true) D (ref_lib double_sse) (ref_lib_ok double_sse) _ HK W 2 (le_n _)).
Qed.

(** Beyond 2^33 two neighbouring numbers are further apart than 1e-6 and the
    search never ends: x - 2^33 on the interval between 2^33 and the next
    number. *)
Definition stuck : itv (fnum double_sse) := mk (dbl 1 33) (dbl 4503599627370497 (-19)).
Definition stuck_left : itv (fnum double_sse) := mk (dbl 1 33) (dbl 1 33).
Definition shifted (x : itv (fnum double_sse)) : M (itv (fnum double_sse)) := op_sub_in Pdef x (dbl 1 33).
Definition pairs (lr : list (itv (fnum double_sse)) * list (itv (fnum double_sse))) := (map show (fst lr), map show (snd lr)).
Lemma map_show_inj l l' : map show l = map show l' -> l = l'.
Proof.
  revert l'. induction l as [|a l IH]; intros [|b l'] E; try discriminate E; [reflexivity|].
  change (show a :: map show l = show b :: map show l') in E. assert (E1 : show a = show b) by congruence.
  assert (E2 : map show l = map show l') by congruence. f_equal; [apply show_inj; exact E1|apply IH; exact E2].
Qed.
Lemma pairs_run m lr s : run pairs m s = (Ok (pairs lr), s) -> m s = (Ok lr, s).
Proof.
  unfold run. destruct (m s) as [[x|e| | |] s']; intros E; try discriminate E. cbn [omap] in E.
  assert (E1 : pairs x = pairs lr) by congruence. assert (s' = s) by congruence. subst s'. f_equal. f_equal.
  destruct x as [a b], lr as [a' b']. unfold pairs in E1. cbn [fst snd] in E1. injection E1 as A B.
  apply map_show_inj in A, B. congruence.
Qed.
Lemma stuck_step s : find_step Pdef shifted stuck s = (Ok ([stuck_left; stuck], []), s).
Proof. apply pairs_run. destruct s; vm_compute; reflexivity. Qed.
Lemma left_step s : find_step Pdef shifted stuck_left s = (Ok ([], [stuck_left]), s).
Proof. apply pairs_run. destruct s; vm_compute; reflexivity. Qed.
Theorem C61_ends_refuted : exists f (range : itv (fnum double_sse)),
  computes f (fun r t => t = r - 2 ^ 33) /\ has_bounds range (2 ^ 33) (2 ^ 33 + / 2 ^ 19) /\
  forall fuel s, find_zeros Pdef fuel f range s = (NoFuel, s).
Proof.
  exists shifted, stuck.
  assert (E33 : fval (dbl 1 33 : flt binary64) = Fin (2 ^ 33)).
  { apply fval_fin_iff. split; [vm_compute; reflexivity|].
    assert (Q : B2R (dbl 1 33) = F2R (Float radix2 4503599627370496 (-19))) by (vm_compute; reflexivity).
    refine (eq_trans Q _). unfold F2R. simpl. lra. }
  assert (E34 : fval (dbl 4503599627370497 (-19) : flt binary64) = Fin (2 ^ 33 + / 2 ^ 19)).
  { apply fval_fin_iff. split; [vm_compute; reflexivity|].
    assert (Q : B2R (dbl 4503599627370497 (-19)) = F2R (Float radix2 4503599627370497 (-19))) by (vm_compute; reflexivity).
    refine (eq_trans Q _). unfold F2R. simpl. lra. }
  split; [|split; [split; [exact E33|split; [exact E34|]]|]].
  - intros x Hx. destruct (op_sub_in_ok (fpolspec double_sse Save Opp true CkStrict (fun _ => true)) x (dbl 1 33) (2 ^ 33) E33 Hx) as (z & Rz & Tz).
    exists z. split; [exact Rz|]. intros r t Mr ->. apply Tz. exists r. split; [exact Mr|reflexivity].
  - assert (0 < / 2 ^ 19) by (apply Rinv_0_lt_compat; lra). lra.
  - intros fuel s. unfold find_zeros.
    assert (G : forall fuel l out, l = [stuck] \/ l = [stuck_left; stuck] -> find_loop (find_step Pdef shifted) fuel l out s = (NoFuel, s)).
    { clear fuel. induction fuel as [|fuel IH]; intros l out [->| ->]; try reflexivity; cbn [find_loop]; unfold bind.
      - rewrite stuck_step. apply IH. right. reflexivity.
      - rewrite left_step. apply IH. left. reflexivity. }
    apply G. left. reflexivity.
Qed.
Print Assumptions C61_ends_refuted.

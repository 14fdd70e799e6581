(** * int_down and int_up on floating-point numbers *)

From Coq Require Import Reals ZArith Lra Lia Bool.
From Flocq Require Import Core BinarySingleNaN.
From Verif Require Import Outcome Base Checking Interval Utility Arith Arith2 FloatNum Spec ExtR Sem
  FloatSpec FloatPol.
Local Open Scope R_scope.

(** Rounding to an integer. *)
Definition zrnd (d : dir) (q : R) : Z := match d with Dn => Zfloor q | Up => Zceil q end.

Lemma frint_val f d (x : flt f) q : fval x = Fin q -> fval (frint (dmode d) x) = Fin (IZR (zrnd d q)).
Proof.
  intros E. apply fval_fin_iff in E. destruct E as [F E].
  destruct (Bnearbyint_correct (prec f) (emax f) (fmt_PE f) (md (dmode d)) x) as (A & B & _).
  apply fval_fin_iff. unfold frint. rewrite B, A, F. split; auto.
  rewrite E. destruct d; simpl; [change Zfloor with (round_mode mode_DN)|change Zceil with (round_mode mode_UP)];
    apply round_FIX_IZR.
Qed.

Lemma zrnd_ok d q : match d with Dn => IZR (zrnd d q) <= q /\ (0 <= q -> 0 <= IZR (zrnd d q))
  | Up => q <= IZR (zrnd d q) /\ (q <= 0 -> IZR (zrnd d q) <= 0) end.
Proof.
  destruct d; simpl.
  - split; [apply Zfloor_lb|]. intros K. apply IZR_le, Zfloor_lub. auto.
  - split; [apply Zceil_ub|]. intros K. apply IZR_le, Zceil_glb. auto.
Qed.

(** Numbers of value +-largest. *)
Lemma has_largest f (s : bool) : exists t : flt f, fval t = Fin (if s then - largest f else largest f).
Proof.
  pose (t := SF2B _ (binary_overflow_correct (prec f) (emax f) (fmt_P0 f) (fmt_PE f) mode_ZR s) : flt f).
  assert (E : B2SF t = SpecFloat.S754_finite s (Z.to_pos (2 ^ prec f - 1)) (emax f - prec f)).
  { unfold t. rewrite B2SF_SF2B. unfold binary_overflow. destruct s; reflexivity. }
  destruct (overflow_fin t s E) as [A B]. exists t. rewrite (fval_finite t A), B. reflexivity.
Qed.
Lemma fin_le_largest f (t : flt f) q : fval t = Fin q -> Rabs q <= largest f.
Proof. intros E. apply fval_fin_iff in E. destruct E as [_ <-]. apply finite_le_max. Qed.

(** Directed rounding within the finite range. *)
Lemma dr_finite f d q (t : flt f) : dr d (Fin q) t ->
  (match d with Dn => - largest f <= q | Up => q <= largest f end) -> exists q', fval t = Fin q'.
Proof.
  destruct d; simpl; intros [A B] L.
  - destruct (has_largest f true) as (w & Ew). specialize (B w). rewrite Ew in B. specialize (B L).
    destruct (fval t); simpl in *; try tauto. eauto.
  - destruct (has_largest f false) as (w & Ew). specialize (B w). rewrite Ew in B. specialize (B L).
    destruct (fval t); simpl in *; try tauto. eauto.
Qed.

(** The base format and the format of rint are nested. *)
Section Rint.
Context (p : platform).
Notation TT := (flt (p_T p)).
Notation rint m t := (fconv (p_R p) (p_T p) m (frint m (fconv (p_T p) (p_R p) m t))).

Lemma rint_wide d (t : TT) q : fmt_sub (p_T p) (p_R p) -> fval t = Fin q ->
  fval (rint (dmode d) t) = Fin (IZR (zrnd d q)).
Proof.
  intros S E. rewrite <- (frint_val _ d t q E). apply fconv_exact. rewrite (frint_val _ d t q E).
  apply frint_val. rewrite (fconv_widen _ _ _ t S). exact E.
Qed.
Lemma rint_narrow d (t : TT) q : fmt_sub (p_R p) (p_T p) -> fval t = Fin q ->
  (match d with Dn => - largest (p_R p) <= q | Up => q <= largest (p_R p) end) ->
  exists n, fval (rint (dmode d) t) = Fin (IZR n) /\
    match d with Dn => IZR n <= q /\ (0 <= q -> 0 <= IZR n) | Up => q <= IZR n /\ (q <= 0 -> IZR n <= 0) end /\
    match d with
    | Dn => forall z, (Z.abs z <= 2 ^ prec (p_R p))%Z -> IZR z <= q -> (z <= n)%Z
    | Up => forall z, (Z.abs z <= 2 ^ prec (p_R p))%Z -> q <= IZR z -> (n <= z)%Z
    end.
Proof.
  intros S E L.
  assert (D : dr d (Fin q) (fconv (p_T p) (p_R p) (dmode d) t)).
  { rewrite <- E. apply fconv_dr. rewrite E. discriminate. }
  destruct (dr_finite _ d q _ D L) as (q' & E').
  exists (zrnd d q'). rewrite (fconv_widen _ _ _ _ S), (frint_val _ d _ q' E'). split; auto.
  split.
  2:{ destruct d; intros z Hz Lz; destruct D as [_ D0]; specialize (D0 (f_of_Z (p_R p) RNE z));
      change (fval (f_of_Z (p_R p) RNE z)) with (fval (f := p_R p) (f_of_Z (p_R p) RNE z)) in D0;
      rewrite f_of_Z_exact in D0 by lia; rewrite E' in D0; specialize (D0 Lz); cbn [xle] in D0; simpl;
      [apply Zfloor_lub|apply Zceil_glb]; exact D0. }
  destruct d; simpl in *; destruct D as [D D0]; rewrite E' in D, D0; simpl in D;
    specialize (D0 (B754_zero false)); simpl in D0.
  - pose proof (Zfloor_lb q'). split; [lra|]. intros K. apply IZR_le, Zfloor_lub. auto.
  - pose proof (Zceil_ub q'). split; [lra|]. intros K. apply IZR_le, Zceil_glb. auto.
Qed.

(** int_down of both rounding classes. *)
Lemma int_down_ok k (t : T (fnum p)) q : rint_ok p -> fval t = Fin q -> - largest (p_R p) <= q ->
  exists (t' : T (fnum p)) n, fval t' = Fin (IZR n) /\ IZR n <= q /\ (0 <= q -> 0 <= IZR n) /\
    (fmt_sub (p_T p) (p_R p) -> n = Zfloor q) /\
    runsI (fready k) (int_down (farith p k) t) t' /\
    (forall z, (Z.abs z <= 2 ^ prec (p_R p))%Z -> IZR z <= q -> (z <= n)%Z).
Proof.
  intros W E L.
  assert (K : forall d (u : TT) v, fval u = Fin v ->
    (match d with Dn => - largest (p_R p) <= v | Up => v <= largest (p_R p) end) ->
    exists n, fval (rint (dmode d) u) = Fin (IZR n) /\ (fmt_sub (p_T p) (p_R p) -> n = zrnd d v) /\
      match d with Dn => IZR n <= v /\ (0 <= v -> 0 <= IZR n) | Up => v <= IZR n /\ (v <= 0 -> IZR n <= 0) end /\
      match d with
      | Dn => forall z, (Z.abs z <= 2 ^ prec (p_R p))%Z -> IZR z <= v -> (z <= n)%Z
      | Up => forall z, (Z.abs z <= 2 ^ prec (p_R p))%Z -> v <= IZR z -> (n <= z)%Z
      end).
  { intros d u v Eu Lu. destruct W as [S|S].
    - exists (zrnd d v). split; [apply rint_wide; auto|]. split; auto. split; [apply zrnd_ok|].
      destruct d; simpl; intros z _ Lz; [apply Zfloor_lub|apply Zceil_glb]; exact Lz.
    - destruct (Z.eq_dec (prec (p_T p)) (prec (p_R p))) as [Ep|Ep], (Z.eq_dec (emax (p_T p)) (emax (p_R p))) as [Ee|Ee].
      + assert (S' : fmt_sub (p_T p) (p_R p)) by (split; lia).
        exists (zrnd d v). split; [apply rint_wide; auto|]. split; auto. split; [apply zrnd_ok|].
        destruct d; simpl; intros z _ Lz; [apply Zfloor_lub|apply Zceil_glb]; exact Lz.
      + destruct (rint_narrow d u v S Eu Lu) as (n & A & B). exists n. split; auto. split; [|exact B].
        destruct S as [S1 S2]. intros [S3 S4]. lia.
      + destruct (rint_narrow d u v S Eu Lu) as (n & A & B). exists n. split; auto. split; [|exact B].
        destruct S as [S1 S2]. intros [S3 S4]. lia.
      + destruct (rint_narrow d u v S Eu Lu) as (n & A & B). exists n. split; auto. split; [|exact B].
        destruct S as [S1 S2]. intros [S3 S4]. lia. }
  destruct k.
  - destruct (K Dn t q E L) as (n & A & B & [C D] & G).
    exists (rint RDN t), n. split; auto. split; auto. split; auto. split; auto. split; [|exact G].
    intros s _. exists RDN. split; [exact I|reflexivity].
  - destruct (neg_pure p t) as (nt & Ent & Nt). rewrite E in Ent. simpl in Ent.
    destruct (K Up nt (- q) Ent ltac:(lra)) as (n & A & B & [C D] & G).
    destruct (neg_pure p (rint RUP (nt : TT))) as (t' & Et' & Nt'). change (dmode Up) with RUP in A. rewrite A in Et'. simpl in Et'.
    exists t', (- n)%Z. rewrite Et', opp_IZR. split; auto. split; [lra|]. split; [intros K0; assert (IZR n <= 0) by (apply D; lra); lra|]. split.
    + intros S. rewrite (B S). unfold zrnd, Zceil. rewrite Ropp_involutive. lia.
    + split; [|intros z Hz Lz; specialize (G (- z)%Z); rewrite opp_IZR in G; rewrite Z.abs_opp in G; specialize (G Hz ltac:(lra)); lia].
      intros s Hs. exists RUP. split; [reflexivity|]. simpl in Hs. subst s.
      cbn [farith arith_opp int_down]. unfold bind. rewrite (Nt RUP). exact (Nt' RUP).
Qed.

(** Below the range of the format of rint, int_down overflows. *)
Lemma int_down_far k (t : T (fnum p)) q : fval t = Fin q -> q < - largest (p_R p) ->
  runsI (fready k) (int_down (farith p k) t) (B754_infinity true : T (fnum p)).
Proof.
  intros E L.
  assert (D : forall d (u : TT) v, fval u = Fin v -> (match d with Dn => v < - largest (p_R p) | Up => largest (p_R p) < v end) ->
    rint (dmode d) u = B754_infinity (match d with Dn => true | Up => false end)).
  { intros d u v Eu Lu.
    assert (K : dr d (Fin v) (fconv (p_T p) (p_R p) (dmode d) u)) by (rewrite <- Eu; apply fconv_dr; rewrite Eu; discriminate).
    assert (Q : fconv (p_T p) (p_R p) (dmode d) u = B754_infinity (match d with Dn => true | Up => false end)).
    { set (w := fconv (p_T p) (p_R p) (dmode d) u) in *.
      destruct (fval_cases w) as [[C F]|[[C F]|[[C F]|[C F]]]]; destruct d; destruct K as [K _]; rewrite ?C in K; cbn [xle] in K; try tauto; try exact F;
      pose proof (fin_le_largest _ _ _ C) as B; apply Rabs_le_inv in B; lra. }
    rewrite Q. destruct d; reflexivity. }
  destruct k.
  - intros s _. exists RDN. split; [exact I|]. 
    pose proof (D Dn t q E L) as K. cbn [dmode] in K.
    change (int_down (farith p Std) t s) with (Ok (rint RDN t : T (fnum p)), RDN). rewrite K. reflexivity.
  - destruct (neg_pure p t) as (nt & Ent & Nt). rewrite E in Ent. cbn [xopp] in Ent.
    pose proof (D Up nt (- q) Ent ltac:(lra)) as K. cbn [dmode] in K.
    intros s Hs. exists RUP. split; [reflexivity|]. simpl in Hs. subst s.
    cbn [farith arith_opp int_down]. unfold bind. rewrite (Nt RUP).
    change (rc_to_int (control_hw (fnum p)) nt RUP) with (Ok (rint RUP (nt : TT) : T (fnum p)), RUP). rewrite K. reflexivity.
Qed.
End Rint.

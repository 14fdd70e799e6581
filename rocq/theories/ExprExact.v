(** * Exact evaluation *)

From Coq Require Import Reals ZArith Lra Lia Psatz Bool Classical Ranalysis5.
From Flocq Require Import Core BinarySingleNaN.
From Verif Require Import Outcome Base Checking Interval Utility Arith Arith2 FloatNum Spec ExtR Sem
  FloatSpec FloatPol CoreArith CoreDiv CoreMore CoreUtil Inst Witness CoreCtor Ops OpsProof CoreIso OpsIso CorePow CorePowExact ExactFloat
  Properties1 Properties2.
Local Open Scope R_scope.

(** ** Exact interval arithmetic

    The set that an expression denotes when every operation is applied to all
    members of the sets of its operands, without rounding. *)
Section Sets.
Context {p : platform}.
Notation N := (fnum p).
Notation num v := (fun s => fval (f := p_T p) v = Fin s).
Fixpoint exact_set (env : nat -> itv N) (e : expr N) : R -> Prop :=
  match e with
  | e_var n => fmem (env n)
  | e_num v => num v
  | e_1 o e1 => img1 o (exact_set env e1)
  | e_2 o e1 e2 => img2 o (exact_set env e1) (exact_set env e2)
  | e_in o e1 v => img2 o (exact_set env e1) (num v)
  | e_ni o v e1 => img2 o (num v) (exact_set env e1)
  | e_nn o v w => img2 (op_of o) (num v) (num w)
  | e_intersect e1 e2 => fun t => exact_set env e1 t /\ exact_set env e2 t
  | e_widen e1 v => fun t => exists r s, exact_set env e1 r /\ fval (f := p_T p) v = Fin s /\ Rabs (t - r) <= s
  end.
(** A nonempty set whose bounds are numbers of the base type (or infinite). *)
Definition representable (S : R -> Prop) : Prop := nonempty S /\ exists w : itv N, fdenotes w S.
(** The set of every subexpression is representable; divisors do not contain
    zero, and exponents are not negative. *)
Fixpoint exact_nodes (env : nat -> itv N) (e : expr N) : Prop :=
  representable (exact_set env e) /\
  match e with
  | e_var _ | e_num _ => True
  | e_1 o e1 => match o with U_pow n => (0 <= n)%Z | _ => True end /\ exact_nodes env e1
  | e_2 o e1 e2 => (o = B_div -> ~ exact_set env e2 0) /\ exact_nodes env e1 /\ exact_nodes env e2
  | e_in o e1 v => exact_nodes env e1
  | e_ni o v e1 => (o = B_div -> ~ exact_set env e1 0) /\ exact_nodes env e1
  | e_nn o v w => True
  | e_intersect e1 e2 => exact_nodes env e1 /\ exact_nodes env e2
  | e_widen e1 v => exact_nodes env e1
  end.
End Sets.

Section Exact.
Context (p : platform) (k : rkind) (debug : bool) (c : ckind) (ord : site -> bool).
Notation N := (fnum p).
Notation I := (itv N).
Notation P := (fpol p Save k debug c ord).
Notation fv := (@fval (p_T p)).

Lemma tight_denotes (z : I) S : ftightest z S -> representable (p := p) S -> fdenotes z S.
Proof.
  intros [E T] (_ & w & D) r. split; [|apply E]. intros M. apply D. destruct (T w) as [A B]; [intros t Ht; apply D, Ht|].
  destruct M as [M1 M2]. split; eapply xle_trans; eauto.
Qed.
Lemma denotes_ext (z : I) S S' : fdenotes z S -> (forall t, S t <-> S' t) -> fdenotes z S'.
Proof. intros D E r. rewrite <- E. apply D. Qed.
Lemma tight_ext (z : I) S S' : ftightest z S -> (forall t, S t <-> S' t) -> ftightest z S'.
Proof. intros T E. eapply tightest_ext; [|exact T]. intros r. apply E || (symmetry; apply E). Qed.
Lemma denotes_valid (z : I) S : fdenotes z S -> nonempty S -> fvalid z.
Proof. intros D (r & Hr). apply (mem_valid _ _ r). apply D, Hr. Qed.

Lemma run1_exact o (x : I) S : match o with U_pow n => (0 <= n)%Z | _ => True end -> fvalid x -> (forall t, fmem x t <-> S t) ->
  representable (p := p) (img1 o S) -> exists z, returns (run1 P o x) z /\ fdenotes z (img1 o S).
Proof.
  intros Ho V Ex Hr.
  assert (Im : forall t, img1 o (fmem x) t <-> img1 o S t).
  { intros t. split; intros (r & A & B); exists r; split; auto; apply Ex, A. }
  destruct o as [| | | | |n]; cbn [run1].
  - destruct (C03_neg_exact p k debug c ord x V) as (z & R & Vz & D). exists z. split; [exact R|].
    apply (denotes_ext z _ _ D). exact Im.
  - destruct (C15_abs_exact p k debug c ord x V) as (z & R & Vz & D). exists z. split; [exact R|].
    apply (denotes_ext z _ _ D). exact Im.
  - destruct Hr as ((t & r & Sr & P0 & Et) & w). 
    destruct (C13_sqrt_tightest p k debug c ord x V) as (z & R & Vz & D); [exists r; split; [apply Ex, Sr|exact P0]|].
    exists z. split; [exact R|]. apply tight_denotes; [|split; [exists t, r; split; [|split]; auto|exact w]].
    apply (tight_ext z _ _ D). exact Im.
  - destruct (C09_square_tightest p k debug c ord x V) as (z & R & Vz & D). exists z. split; [exact R|].
    apply tight_denotes; [|exact Hr]. apply (tight_ext z _ _ D). exact Im.
  - destruct (C14_inverse_tightest p k debug c ord x V) as (z & R & Vz & D).
    { intros Z. destruct Hr as ((t & r & Sr & Nr & _) & _). apply Nr, Z, Ex, Sr. }
    exists z. split; [exact R|]. apply tight_denotes; [|exact Hr]. apply (tight_ext z _ _ D). exact Im.
  - destruct (Z.eq_dec n 0) as [->|Nn].
    + destruct Hr as ((t & r & Sr & Nr & _) & _).
      destruct (C11_pow_zero_is_one_partial p k debug c ord x V) as (z & R & D); [intros Z; apply Nr, Z, Ex, Sr|].
      exists z. split; [exact R|]. apply (denotes_ext z _ _ D). intros q. split; [intros Hq; exists r; split; [exact Sr|split; [exact Nr|exact Hq]]|].
      intros (r' & _ & _ & Hq). exact Hq.
    + assert (L : (0 < n)%Z) by lia.
      assert (E : forall t, img1 (U_pow n) S t <-> image1 (fun r => r ^ Z.to_nat n) (fmem x) t).
      { intros t. rewrite <- Im. unfold img1, image1. cbn [rel1]. rewrite (proj2 (Z.ltb_lt 0 n)) by lia. tauto. }
      destruct Hr as (Ne & w & Dw).
      destruct (pow_exact (fpolspec p Save k debug c ord) (repr_pow (p_T p)) x n w L V) as (z & R & El & Eu).
      { intros t. rewrite <- E. apply Dw. }
      exists z. split; [exact R|]. intros t. rewrite <- (Dw t). unfold fmem, mem. rewrite El, Eu. tauto.
Qed.
Lemma run2_exact o (x y : I) S S2 : fvalid x -> fvalid y -> (forall t, fmem x t <-> S t) -> (forall t, fmem y t <-> S2 t) ->
  (o = B_div -> ~ S2 0) -> representable (p := p) (img2 o S S2) -> exists z, returns (run2 P o x y) z /\ fdenotes z (img2 o S S2).
Proof.
  intros V W Ex Ey H0 Hr.
  assert (Im : forall t, img2 o (fmem x) (fmem y) t <-> img2 o S S2 t).
  { intros t. split; intros (r & s & A & B & C); exists r, s; (split; [apply Ex, A|split; [apply Ey, B|exact C]]). }
  destruct (nonempty_mem p x V) as (r0 & Hr0).
  destruct o; cbn [run2].
  - destruct (C01_add_tightest p k debug c ord x y V W) as (z & R & _ & T). exists z. split; [exact R|].
    apply tight_denotes; [|exact Hr]. apply (tight_ext z _ _ T). exact Im.
  - destruct (C02_sub_tightest p k debug c ord x y V W) as (z & R & _ & T). exists z. split; [exact R|].
    apply tight_denotes; [|exact Hr]. apply (tight_ext z _ _ T). exact Im.
  - destruct (C04_mul_tightest p k debug c ord x y V W) as (z & R & _ & T). exists z. split; [exact R|].
    apply tight_denotes; [|exact Hr]. apply (tight_ext z _ _ T). exact Im.
  - specialize (H0 eq_refl).
    destruct (C05_div_encloses_partial p k debug c ord x y V W) as (z & R & _ & _ & T).
    { intros Z. apply H0, Ey, Z. reflexivity. }
    exists z. split; [exact R|]. apply tight_denotes; [|exact Hr]. refine (tight_ext z _ _ (T _) Im).
    intros (_ & _ & Y). apply H0, Ey. pose proof W as (Wle & W1 & W2). split.
    + destruct Y as [Y|Y]; [change (xle (fv (low y)) (Fin 0)); rewrite Y; simpl; lra|]. rewrite <- Y. exact Wle.
    + destruct Y as [Y|Y]; [rewrite <- Y; exact Wle|]. change (xle (Fin 0) (fv (up y))). rewrite Y. simpl. lra.
  - destruct (C15_max_exact p k debug c ord x y V W) as (z & R & _ & D). exists z. split; [exact R|]. apply (denotes_ext z _ _ D). exact Im.
  - destruct (C15_min_exact p k debug c ord x y V W) as (z & R & _ & D). exists z. split; [exact R|]. apply (denotes_ext z _ _ D). exact Im.
  - destruct (C32_hull p k debug c ord x y (or_introl V) (or_introl W)) as [(z & R & Vz & [E T]) _]; [exists r0; auto|].
    exists z. split; [exact R|]. apply tight_denotes; [|exact Hr]. split.
    + intros t Ht. apply Im in Ht. destruct Ht as (r & s & A & B & Lt & Ut).
      destruct (E r (or_introl A)) as [A1 A2]. destruct (E s (or_intror B)) as [B1 B2]. split.
      * eapply xle_trans; [|exact (Lt : xle (Fin _) (Fin _))]. unfold Rmin. destruct Rle_dec; auto.
      * eapply xle_trans; [exact (Ut : xle (Fin _) (Fin _))|]. unfold Rmax. destruct Rle_dec; auto.
    + intros w Hw. apply T. intros t Ht. apply Hw. apply Im. destruct (nonempty_mem p y W) as (s0 & Hs0). destruct Ht as [Ht|Ht].
      * exists t, s0. split; [exact Ht|]. split; [exact Hs0|]. split; [apply Rmin_l|apply Rmax_l].
      * exists r0, t. split; [exact Hr0|]. split; [exact Ht|]. split; [apply Rmin_r|apply Rmax_r].
Qed.
Lemma same_denotes (z z' : I) S : fsame z' z -> fdenotes z S -> fdenotes z' S.
Proof. intros [A B] D t. rewrite <- (D t). unfold fmem, mem. rewrite A, B. tauto. Qed.

Lemma eval_exact eo (env : nat -> I) e : exact_nodes env e ->
  exists z, returns (eval P eo env e) z /\ fvalid z /\ forall t, fmem z t <-> exact_set env e t.
Proof.
  assert (Fin_ : forall (m : M I) S, representable (p := p) S -> (exists z, returns m z /\ fdenotes z S) -> exists z, returns m z /\ fvalid z /\ forall t, fmem z t <-> S t).
  { intros m S [Ne _] (z & R & D). exists z. split; [exact R|]. split; [apply (denotes_valid z S D Ne)|exact D]. }
  induction e as [n|v|o e1 IH|o e1 IH1 e2 IH2|o e1 IH v|o v e1 IH|o v w|e1 IH1 e2 IH2|e1 IH v]; cbn [exact_nodes exact_set eval]; intros [Rep W].
  - exists (env n). split; [intros s; reflexivity|]. split; [|tauto]. destruct Rep as [(r & Hr) _]. apply (mem_valid _ _ r). exact Hr.
  - destruct Rep as [(r & Er) Rp]. destruct (num_correct p k debug c ord v r Er) as [(z & R & V & En) _]; [exists r; reflexivity|].
    destruct (point_mem p v r Er) as [Vv Mv].
    assert (Rz : returns (ctor_num P v) (mk v v)).
    { intros mode. unfold ctor_num, bind. cbn [p_ck fpol]. rewrite Mutate.is_nan_false by (rewrite Er; discriminate). reflexivity. }
    exists (mk v v). split; [exact Rz|]. split; [exact Vv|]. intros t. rewrite Mv. unfold point. rewrite Er.
    split; [intros ->; reflexivity|intros Q; injection Q; auto].
  - destruct W as [Ho W]. destruct (IH W) as (x & Rx & Vx & Ex). apply Fin_; [exact Rep|].
    destruct (run1_exact o x _ Ho Vx Ex Rep) as (z & Rz & D). exists z. split; [|exact D]. eapply returns_bind; eauto.
  - destruct W as (Ho & W1 & W2). destruct (IH1 W1) as (x & Rx & Vx & Ex). destruct (IH2 W2) as (y & Ry & Vy & Ey). apply Fin_; [exact Rep|].
    destruct (run2_exact o x y _ _ Vx Vy Ex Ey Ho Rep) as (z & Rz & D). exists z. split; [|exact D].
    eapply returns_bind; [apply returns_args2; eauto|exact Rz].
  - destruct (IH W) as (x & Rx & Vx & Ex). apply Fin_; [exact Rep|]. pose proof Rep as [(t0 & r & s & Hr & Es & Q) _].
    destruct (point_mem p v s Es) as [Vv Mv].
    assert (Ev : forall t, fmem (mk v v : I) t <-> fv v = Fin t).
    { intros t. rewrite Mv. unfold point. rewrite Es. split; [intros ->; reflexivity|intros K; injection K; auto]. }
    destruct (in_like p k debug c ord o v x s Es Vx) as (z & z' & Rz & Rz' & Sz); [exists t0, r, s; split; [apply Ex, Hr|]; split; [reflexivity|exact Q]|].
    exists z'. split; [eapply returns_bind; eauto|]. apply (same_denotes z z' _ Sz). destruct (swaps o) eqn:Sw.
    + assert (Im : forall t, img2 o (fun s => fv v = Fin s) (exact_set env e1) t <-> img2 o (exact_set env e1) (fun s => fv v = Fin s) t).
      { intros t. split; intros (a & b & A & B & K); exists b, a; (split; [exact B|split; [exact A|]]);
          destruct o; try discriminate Sw; simpl in K |- *; rewrite ?(Rmax_comm b), ?(Rmin_comm b); try lra; auto. }
      destruct (run2_exact o (mk v v) x _ _ Vv Vx Ev Ex) as (q & Rq & D).
      { intros ->. discriminate Sw. }
      { destruct Rep as ((a & Ha) & w & Dw). split; [exists a; apply Im, Ha|]. exists w. intros b. rewrite Im. apply Dw. }
      rewrite (returns_det _ _ _ Rz Rq). apply (denotes_ext q _ _ D Im).
    + destruct (run2_exact o x (mk v v) _ _ Vx Vv Ex Ev) as (q & Rq & D).
      { intros -> E0. destruct Q as [Q _]. apply Q. rewrite Es in E0. injection E0; auto. }
      { exact Rep. }
      rewrite (returns_det _ _ _ Rz Rq). exact D.
  - destruct W as [Ho W]. destruct (IH W) as (x & Rx & Vx & Ex). apply Fin_; [exact Rep|]. pose proof Rep as [(t0 & r & s & Es & Hr & Q) _].
    destruct (point_mem p v r Es) as [Vv Mv].
    assert (Ev : forall t, fmem (mk v v : I) t <-> fv v = Fin t).
    { intros t. rewrite Mv. unfold point. rewrite Es. split; [intros ->; reflexivity|intros K; injection K; auto]. }
    destruct (ni_like p k debug c ord o v x r Es Vx) as (z & z' & Rz & Rz' & Sz); [exists t0, r, s; split; [reflexivity|]; split; [apply Ex, Hr|exact Q]|].
    exists z'. split; [eapply returns_bind; eauto|]. apply (same_denotes z z' _ Sz).
    destruct (run2_exact o (mk v v) x _ _ Vv Vx Ev Ex Ho Rep) as (q & Rq & D).
    rewrite (returns_det _ _ _ Rz Rq). exact D.
  - apply Fin_; [exact Rep|]. pose proof Rep as [(t0 & r & s & Ev & Ew & Q) _].
    assert (Im : forall t, img2 (op_of o) (fun s => fv v = Fin s) (fun s => fv w = Fin s) t <-> rel2 (op_of o) r s t).
    { intros t. split.
      - intros (a & b & A & B & K). rewrite Ev in A. rewrite Ew in B. injection A as <-. injection B as <-. exact K.
      - intros K. exists r, s. auto. }
    destruct (C52_number_functions_tightest p k debug c ord v w r s Ev Ew) as (A & B & C & D & _).
    assert (G : forall f (m : M I), (exists z, returns m z /\ fvalid z /\ ftightest z (point (f r s))) ->
       (forall t, rel2 (op_of o) r s t <-> t = f r s) -> exists z, returns m z /\ fdenotes z (img2 (op_of o) (fun s => fv v = Fin s) (fun s => fv w = Fin s))).
    { intros f m (z & R & V & T) Ef. exists z. split; [exact R|]. apply tight_denotes; [|exact Rep]. apply (tight_ext z _ _ T).
      intros t. rewrite Im, Ef. reflexivity. }
    destruct o; cbn [run_nn op_of] in *.
    + apply (G Rplus); [exact A|intros; reflexivity].
    + apply (G Rminus); [exact B|intros; reflexivity].
    + apply (G Rmult); [exact C|intros; reflexivity].
    + destruct Q as [Ns Q]. apply (G Rdiv); [apply D, Ns|]. intros t. split; [intros [_ K]; exact K|intros K; split; [exact Ns|exact K]].
    + destruct (C32_hull_numbers p k debug c ord v w r s Ev Ew) as (z & R & T).
      exists z. split; [exact R|]. apply (denotes_ext z _ _ T). intros t. rewrite Im. reflexivity.
  - destruct W as (W1 & W2). destruct (IH1 W1) as (x & Rx & Vx & Ex). destruct (IH2 W2) as (y & Ry & Vy & Ey). apply Fin_; [exact Rep|].
    pose proof Rep as [(t0 & A & B) _].
    destruct (C32_intersect p k debug c ord x y (or_introl Vx) (or_introl Vy)) as [(z & R & V & D) _]; [exists t0; split; [apply Ex, A|apply Ey, B]|].
    exists z. split; [eapply returns_bind; [apply returns_args2; eauto|exact R]|]. apply (denotes_ext z _ _ D). intros t. rewrite Ex, Ey. tauto.
  - destruct (IH W) as (x & Rx & Vx & Ex). apply Fin_; [exact Rep|]. pose proof Rep as [(t0 & r & s & Hr & Es & Q) _].
    assert (Ps : 0 <= s) by (pose proof (Rabs_pos (t0 - r)); lra).
    destruct (C36_widen_tightest p k debug c ord x v s Vx Es Ps) as (z & R & V & T).
    exists z. split; [eapply returns_bind; eauto|]. apply tight_denotes; [|exact Rep]. apply (tight_ext z _ _ T). intros t. split.
    + intros (a & A & B). exists a, s. split; [apply Ex, A|]. auto.
    + intros (a & b & A & B & K). exists a. split; [apply Ex, A|]. rewrite Es in B. injection B as <-. exact K.
Qed.
End Exact.

(** ** Integer data *)
(** [within env e m]: [e] uses operations that map integers to integers, its
    variables and numbers are integers, and no bound of a subexpression can exceed
    2^prec in absolute value; those of [e] do not exceed [m]. *)
Section Within.
Context {p : platform} (env : nat -> itv (fnum p)).
Notation fv := (@fval (p_T p)).
Definition int_num (v : T (fnum p)) (m : Z) : Prop := (m <= 2 ^ prec (p_T p))%Z /\ exists z, fv v = Fin (IZR z) /\ (Z.abs z <= m)%Z.
Definition mag2 (o : op2) (m1 m2 m : Z) : Prop :=
  match o with
  | B_add | B_sub => (m1 + m2 <= m)%Z
  | B_mul => (m1 * m2 <= m)%Z
  | B_div => False
  | B_max | B_min | B_hull => (m1 <= m)%Z /\ (m2 <= m)%Z
  end.
Fixpoint within (e : expr (fnum p)) (m : Z) : Prop :=
  (m <= 2 ^ prec (p_T p))%Z /\
  match e with
  | e_var n => exists a b, fv (low (env n)) = Fin (IZR a) /\ fv (up (env n)) = Fin (IZR b) /\ (a <= b)%Z /\ (Z.abs a <= m)%Z /\ (Z.abs b <= m)%Z
  | e_num v => int_num v m
  | e_1 U_neg e1 | e_1 U_abs e1 => within e1 m
  | e_1 U_square e1 => exists m1, within e1 m1 /\ (m1 * m1 <= m)%Z
  | e_1 (U_pow n) e1 => exists m1, within e1 m1 /\ (0 < n)%Z /\ (m1 ^ n <= m)%Z
  | e_1 _ _ => False
  | e_2 o e1 e2 => exists m1 m2, within e1 m1 /\ within e2 m2 /\ mag2 o m1 m2 m
  | e_in o e1 v => exists m1 m2, within e1 m1 /\ int_num v m2 /\ mag2 o m1 m2 m
  | e_ni o v e1 => exists m1 m2, int_num v m1 /\ within e1 m2 /\ mag2 o m1 m2 m
  | e_nn o v w => exists m1 m2, int_num v m1 /\ int_num w m2 /\ mag2 (op_of o) m1 m2 m
  | e_intersect _ _ | e_widen _ _ => False
  end.
End Within.

(** A set of reals that is an interval with integer bounds. *)
Definition int_set (S : R -> Prop) (m : Z) : Prop :=
  exists a b, (a <= b)%Z /\ (Z.abs a <= m)%Z /\ (Z.abs b <= m)%Z /\ forall t, S t <-> IZR a <= t <= IZR b.

(** Continuous images. *)
Lemma ivt f a b t : continuity f -> a <= b -> f a <= t <= f b \/ f b <= t <= f a -> exists r, a <= r <= b /\ f r = t.
Proof.
  intros C L Ht. assert (Cg : continuity (fun x => f x - t)) by (apply continuity_minus; [exact C|apply continuity_const; intros ? ?; reflexivity]).
  destruct (IVT_cor (fun x => f x - t) a b Cg L) as (r & Hr & E); [nra|]. exists r. split; [exact Hr|lra].
Qed.
Lemma pow_cont n : continuity (fun r => r ^ n).
Proof. apply derivable_continuous. intros x. apply derivable_pt_pow. Qed.
Lemma lin_cont s : continuity (fun r => r * s).
Proof. apply continuity_mult; [apply derivable_continuous, derivable_id|apply continuity_const; intros ? ?; reflexivity]. Qed.
Lemma lin_onto r0 r1 s t : Rmin (r0 * s) (r1 * s) <= t <= Rmax (r0 * s) (r1 * s) -> exists r, Rmin r0 r1 <= r <= Rmax r0 r1 /\ r * s = t.
Proof.
  intros Ht. assert (L : Rmin r0 r1 <= Rmax r0 r1) by (eapply Rle_trans; [apply Rmin_l|apply Rmax_l]).
  apply (ivt (fun r => r * s) _ _ t (lin_cont s) L). unfold Rmin, Rmax in *. destruct (Rle_dec r0 r1), (Rle_dec (r0 * s) (r1 * s)); lra.
Qed.

Lemma box_onto (a b c d r0 s0 r1 s1 t : R) : a <= r0 <= b -> a <= r1 <= b -> c <= s0 <= d -> c <= s1 <= d -> r0 * s0 <= t <= r1 * s1 ->
  exists r s, a <= r <= b /\ c <= s <= d /\ r * s = t.
Proof.
  intros R0 R1 S0 S1 Ht. destruct (Rle_or_lt t (r1 * s0)) as [L|L].
  - destruct (lin_onto r0 r1 s0 t) as (r & Hr & E).
    { split; [eapply Rle_trans; [apply Rmin_l|lra]|eapply Rle_trans; [|apply Rmax_r]; lra]. }
    exists r, s0. split; [|split; [exact S0|exact E]]. unfold Rmin, Rmax in Hr. destruct Rle_dec; lra.
  - destruct (lin_onto s0 s1 r1 t) as (s & Hs & E).
    { split; [eapply Rle_trans; [apply Rmin_l|lra]|eapply Rle_trans; [|apply Rmax_r]; lra]. }
    exists r1, s. split; [exact R1|]. split; [unfold Rmin, Rmax in Hs; destruct Rle_dec; lra|lra].
Qed.
Lemma lin_bounds r0 r1 r s : r0 <= r <= r1 -> Rmin (r0 * s) (r1 * s) <= r * s <= Rmax (r0 * s) (r1 * s).
Proof.
  intros Hr. assert (K : r0 * s <= r * s <= r1 * s \/ r1 * s <= r * s <= r0 * s).
  { destruct (Rle_or_lt 0 s); [left|right]; split; nra. }
  unfold Rmin, Rmax. destruct Rle_dec; lra.
Qed.
Lemma least4 (w x y z : Z) : exists m, (m = w \/ m = x \/ m = y \/ m = z) /\ (m <= w)%Z /\ (m <= x)%Z /\ (m <= y)%Z /\ (m <= z)%Z.
Proof. exists (Z.min (Z.min w x) (Z.min y z)). lia. Qed.
Lemma greatest4 (w x y z : Z) : exists m, (m = w \/ m = x \/ m = y \/ m = z) /\ (w <= m)%Z /\ (x <= m)%Z /\ (y <= m)%Z /\ (z <= m)%Z.
Proof. exists (Z.max (Z.max w x) (Z.max y z)). lia. Qed.
Lemma box_bounds (a b c d lo hi r s : R) : a <= r <= b -> c <= s <= d ->
  (lo <= a * c /\ lo <= a * d /\ lo <= b * c /\ lo <= b * d) -> (a * c <= hi /\ a * d <= hi /\ b * c <= hi /\ b * d <= hi) -> lo <= r * s <= hi.
Proof.
  intros Hr Hs Hl Hh. pose proof (lin_bounds a b r s Hr) as A. pose proof (lin_bounds c d s a Hs) as B. pose proof (lin_bounds c d s b Hs) as C.
  rewrite (Rmult_comm c a), (Rmult_comm d a), (Rmult_comm s a) in B. rewrite (Rmult_comm c b), (Rmult_comm d b), (Rmult_comm s b) in C. unfold Rmin, Rmax in *.
  destruct (Rle_dec (a * s) (b * s)), (Rle_dec (a * c) (a * d)), (Rle_dec (b * c) (b * d)); lra.
Qed.
Lemma abs_prod (a b m1 m2 m : Z) : (Z.abs a <= m1)%Z -> (Z.abs b <= m2)%Z -> (m1 * m2 <= m)%Z -> (Z.abs (a * b) <= m)%Z.
Proof. intros. rewrite Z.abs_mul. pose proof (Z.abs_nonneg a). pose proof (Z.abs_nonneg b). nia. Qed.

Lemma int_mul S S2 m1 m2 m : int_set S m1 -> int_set S2 m2 -> (m1 * m2 <= m)%Z -> int_set (img2 B_mul S S2) m.
Proof.
  intros (a & b & Lab & A1 & A2 & E) (c & d & Lcd & C1 & C2 & F) Hm.
  destruct (least4 (a * c) (a * d) (b * c) (b * d)) as (lo & Ql & L1 & L2 & L3 & L4).
  destruct (greatest4 (a * c) (a * d) (b * c) (b * d)) as (hi & Qh & G1 & G2 & G3 & G4).
  exists lo, hi. split; [lia|].
  assert (B : forall u v, (u = a \/ u = b) -> (v = c \/ v = d) -> (Z.abs (u * v) <= m)%Z) by (intros u v [->| ->] [->| ->]; apply (abs_prod _ _ m1 m2); auto).
  split; [destruct Ql as [->|[->|[->| ->]]]; apply B; auto|]. split; [destruct Qh as [->|[->|[->| ->]]]; apply B; auto|].
  pose proof (IZR_le _ _ Lab) as Rab. pose proof (IZR_le _ _ Lcd) as Rcd.
  intros t. split.
  - intros (r & s & Hr & Hs & ->). apply E in Hr. apply F in Hs.
    apply (box_bounds (IZR a) (IZR b) (IZR c) (IZR d)); auto; rewrite <- !mult_IZR; repeat split; apply IZR_le; auto.
  - intros Ht.
    assert (K : exists u v u' v', (u = a \/ u = b) /\ (v = c \/ v = d) /\ (u' = a \/ u' = b) /\ (v' = c \/ v' = d) /\ lo = (u * v)%Z /\ hi = (u' * v')%Z).
    { destruct Ql as [->|[->|[->| ->]]], Qh as [->|[->|[->| ->]]]; do 4 eexists; repeat split; eauto. }
    destruct K as (u & v & u' & v' & Hu & Hv & Hu' & Hv' & -> & ->). rewrite !mult_IZR in Ht.
    destruct (box_onto (IZR a) (IZR b) (IZR c) (IZR d) (IZR u) (IZR v) (IZR u') (IZR v') t) as (r & s & Hr & Hs & Q); auto.
    { destruct Hu as [->| ->]; lra. } { destruct Hu' as [->| ->]; lra. } { destruct Hv as [->| ->]; lra. } { destruct Hv' as [->| ->]; lra. }
    exists r, s. split; [apply E, Hr|]. split; [apply F, Hs|symmetry; exact Q].
Qed.
Lemma int_add S S2 m1 m2 m : int_set S m1 -> int_set S2 m2 -> (m1 + m2 <= m)%Z -> int_set (img2 B_add S S2) m.
Proof.
  intros (a & b & Lab & A1 & A2 & E) (c & d & Lcd & C1 & C2 & F) Hm. exists (a + c)%Z, (b + d)%Z. split; [lia|]. split; [lia|]. split; [lia|].
  pose proof (IZR_le _ _ Lab). pose proof (IZR_le _ _ Lcd). intros t. rewrite !plus_IZR. split.
  - intros (r & s & Hr & Hs & ->). apply E in Hr. apply F in Hs. lra.
  - intros Ht. destruct (Rle_or_lt t (IZR b + IZR c)).
    + exists (t - IZR c), (IZR c). split; [apply E; lra|]. split; [apply F; lra|]. simpl. lra.
    + exists (IZR b), (t - IZR b). split; [apply E; lra|]. split; [apply F; lra|]. simpl. lra.
Qed.
Lemma int_neg S m : int_set S m -> int_set (img1 U_neg S) m.
Proof.
  intros (a & b & Lab & A1 & A2 & E). exists (- b)%Z, (- a)%Z. split; [lia|]. split; [lia|]. split; [lia|].
  intros t. rewrite !opp_IZR. split.
  - intros (r & Hr & ->). apply E in Hr. lra.
  - intros Ht. exists (- t). split; [apply E; lra|]. simpl. lra.
Qed.
Lemma int_set_ext S S' m m' : int_set S m -> (m <= m')%Z -> (forall t, S t <-> S' t) -> int_set S' m'.
Proof.
  intros (a & b & L & A & B & E) Hm Q. exists a, b. split; [exact L|]. split; [lia|]. split; [lia|]. intros t. rewrite <- Q. apply E.
Qed.
Lemma int_sub S S2 m1 m2 m : int_set S m1 -> int_set S2 m2 -> (m1 + m2 <= m)%Z -> int_set (img2 B_sub S S2) m.
Proof.
  intros H1 H2 Hm. apply (int_set_ext (img2 B_add S (img1 U_neg S2)) _ m m); [apply (int_add _ _ m1 m2); auto; apply int_neg; auto|lia|].
  intros t. split.
  - intros (r & s & Hr & (q & Hq & ->) & ->). exists r, q. split; [exact Hr|]. split; [exact Hq|]. simpl. lra.
  - intros (r & s & Hr & Hs & ->). exists r, (- s). split; [exact Hr|]. split; [exists s; split; [exact Hs|reflexivity]|]. simpl. lra.
Qed.
Lemma int_max S S2 m1 m2 m : int_set S m1 -> int_set S2 m2 -> (m1 <= m)%Z -> (m2 <= m)%Z -> int_set (img2 B_max S S2) m.
Proof.
  intros (a & b & Lab & A1 & A2 & E) (c & d & Lcd & C1 & C2 & F) Hm Hm'. exists (Z.max a c), (Z.max b d). split; [lia|]. split; [lia|]. split; [lia|].
  pose proof (IZR_le _ _ Lab). pose proof (IZR_le _ _ Lcd).
  assert (X : forall u v, IZR (Z.max u v) = Rmax (IZR u) (IZR v)).
  { intros u v. unfold Rmax. destruct Rle_dec as [L|L]; [apply le_IZR in L|apply Rnot_le_lt, lt_IZR in L]; f_equal; lia. }
  intros t. rewrite !X. split.
  - intros (r & s & Hr & Hs & ->). apply E in Hr. apply F in Hs. unfold Rmax. repeat destruct Rle_dec; lra.
  - intros Ht. destruct (Rle_or_lt (IZR a) t) as [L1|L1]; [|unfold Rmax in Ht; repeat destruct Rle_dec; lra].
    assert (L2 : IZR c <= t) by (unfold Rmax in Ht; repeat destruct Rle_dec; lra).
    exists (Rmin t (IZR b)), (Rmin t (IZR d)). split; [apply E; unfold Rmin; destruct Rle_dec; lra|]. split; [apply F; unfold Rmin; destruct Rle_dec; lra|].
    simpl. unfold Rmin, Rmax in *. repeat destruct Rle_dec; lra.
Qed.
Lemma int_min S S2 m1 m2 m : int_set S m1 -> int_set S2 m2 -> (m1 <= m)%Z -> (m2 <= m)%Z -> int_set (img2 B_min S S2) m.
Proof.
  intros H1 H2 Hm Hm'.
  apply (int_set_ext (img1 U_neg (img2 B_max (img1 U_neg S) (img1 U_neg S2))) _ m m); [apply int_neg, (int_max _ _ m1 m2); auto; apply int_neg; auto|lia|].
  intros t. split.
  - intros (q & (r & s & (r' & Hr & ->) & (s' & Hs & ->) & ->) & ->). exists r', s'. split; [exact Hr|]. split; [exact Hs|]. simpl. unfold Rmin, Rmax. repeat destruct Rle_dec; lra.
  - intros (r & s & Hr & Hs & ->). exists (- Rmin r s). split; [|simpl; lra]. exists (- r), (- s).
    split; [exists r; split; [exact Hr|reflexivity]|]. split; [exists s; split; [exact Hs|reflexivity]|]. simpl. unfold Rmin, Rmax. repeat destruct Rle_dec; lra.
Qed.
Lemma int_hull S S2 m1 m2 m : int_set S m1 -> int_set S2 m2 -> (m1 <= m)%Z -> (m2 <= m)%Z -> int_set (img2 B_hull S S2) m.
Proof.
  intros (a & b & Lab & A1 & A2 & E) (c & d & Lcd & C1 & C2 & F) Hm Hm'. exists (Z.min a c), (Z.max b d). split; [lia|]. split; [lia|]. split; [lia|].
  pose proof (IZR_le _ _ Lab). pose proof (IZR_le _ _ Lcd).
  assert (X : forall u v, IZR (Z.max u v) = Rmax (IZR u) (IZR v)).
  { intros u v. unfold Rmax. destruct Rle_dec as [L|L]; [apply le_IZR in L|apply Rnot_le_lt, lt_IZR in L]; f_equal; lia. }
  assert (Y : forall u v, IZR (Z.min u v) = Rmin (IZR u) (IZR v)).
  { intros u v. unfold Rmin. destruct Rle_dec as [L|L]; [apply le_IZR in L|apply Rnot_le_lt, lt_IZR in L]; f_equal; lia. }
  intros t. rewrite X, Y. split.
  - intros (r & s & Hr & Hs & Ht). apply E in Hr. apply F in Hs. revert Ht. simpl. unfold Rmin, Rmax. repeat destruct Rle_dec; lra.
  - intros Ht. assert (K : (IZR a <= t <= IZR d) \/ (IZR c <= t <= IZR b) \/ (IZR a <= t <= IZR b) \/ (IZR c <= t <= IZR d)).
    { unfold Rmin, Rmax in Ht. repeat destruct Rle_dec; lra. }
    destruct K as [K|[K|[K|K]]].
    + exists (IZR a), (IZR d). split; [apply E; lra|]. split; [apply F; lra|]. simpl. unfold Rmin, Rmax. repeat destruct Rle_dec; lra.
    + exists (IZR b), (IZR c). split; [apply E; lra|]. split; [apply F; lra|]. simpl. unfold Rmin, Rmax. repeat destruct Rle_dec; lra.
    + exists t, (IZR c). split; [apply E; lra|]. split; [apply F; lra|]. simpl. unfold Rmin, Rmax. repeat destruct Rle_dec; lra.
    + exists (IZR a), t. split; [apply E; lra|]. split; [apply F; lra|]. simpl. unfold Rmin, Rmax. repeat destruct Rle_dec; lra.
Qed.

(** Images under a function that is continuous on the line. *)
Lemma int_image f S m m' (g : Z -> Z) : continuity f -> (forall z, f (IZR z) = IZR (g z)) -> int_set S m ->
  (forall a b, (a <= b)%Z -> exists lo hi, (a <= lo <= b)%Z /\ (a <= hi <= b)%Z /\ forall r, IZR a <= r <= IZR b -> IZR (g lo) <= f r <= IZR (g hi)) ->
  (forall a, (Z.abs a <= m)%Z -> (Z.abs (g a) <= m')%Z) -> int_set (fun t => exists r, S r /\ t = f r) m'.
Proof.
  intros C G (a & b & Lab & A1 & A2 & E) X B. destruct (X a b Lab) as (lo & hi & Hlo & Hhi & Bd). exists (g lo), (g hi).
  pose proof (IZR_le _ _ Lab) as Rab.
  assert (Rlo : IZR a <= IZR lo <= IZR b) by (split; apply IZR_le; lia). assert (Rhi : IZR a <= IZR hi <= IZR b) by (split; apply IZR_le; lia).
  split; [apply le_IZR; pose proof (Bd (IZR lo) Rlo); lra|]. split; [apply B; lia|]. split; [apply B; lia|]. intros t. split.
  - intros (r & Hr & ->). apply Bd, E, Hr.
  - intros Ht. rewrite <- !G in Ht. destruct (Rle_or_lt (IZR lo) (IZR hi)) as [L|L].
    + destruct (ivt f (IZR lo) (IZR hi) t C L) as (r & Hr & Q); [left; exact Ht|]. exists r. split; [apply E; lra|auto].
    + destruct (ivt f (IZR hi) (IZR lo) t C) as (r & Hr & Q); [lra|right; exact Ht|]. exists r. split; [apply E; lra|auto].
Qed.
Lemma pow_IZR' z n : IZR z ^ n = IZR (z ^ Z.of_nat n).
Proof. apply pow_IZR. Qed.
(** The extreme points of |r|, for functions of |r| and for increasing ones. *)
Lemma sym_extremes f (g : Z -> Z) : (forall z, f (IZR z) = IZR (g z)) -> (forall r s, Rabs r <= Rabs s -> f r <= f s) ->
  forall a b, (a <= b)%Z -> exists lo hi, (a <= lo <= b)%Z /\ (a <= hi <= b)%Z /\ forall r, IZR a <= r <= IZR b -> IZR (g lo) <= f r <= IZR (g hi).
Proof.
  intros G Mo a b Lab.
  exists (Z.max a (Z.min 0 b)), (if Z_le_dec (Z.abs a) (Z.abs b) then b else a). split; [lia|]. split; [destruct Z_le_dec; lia|].
  intros r Hr. rewrite <- !G. split; apply Mo.
  - destruct (Z_le_dec 0 a) as [P0|P0]; [|destruct (Z_le_dec b 0) as [P1|P1]].
    + replace (Z.max a (Z.min 0 b)) with a by lia. apply IZR_le in P0. rewrite !Rabs_pos_eq; lra.
    + replace (Z.max a (Z.min 0 b)) with b by lia. apply IZR_le in P1. rewrite !Rabs_left1; lra.
    + replace (Z.max a (Z.min 0 b)) with 0%Z by lia. rewrite Rabs_R0. apply Rabs_pos.
  - destruct Z_le_dec as [L|L].
    + assert (K : Rabs (IZR a) <= Rabs (IZR b)) by (rewrite <- !abs_IZR; apply IZR_le; lia).
      revert K. unfold Rabs. destruct (Rcase_abs r), (Rcase_abs (IZR a)), (Rcase_abs (IZR b)); lra.
    + assert (K : Rabs (IZR b) <= Rabs (IZR a)) by (rewrite <- !abs_IZR; apply IZR_le; lia).
      revert K. unfold Rabs. destruct (Rcase_abs r), (Rcase_abs (IZR a)), (Rcase_abs (IZR b)); lra.
Qed.
Lemma int_abs S m : int_set S m -> int_set (img1 U_abs S) m.
Proof.
  intros HS. apply (int_set_ext _ _ m m (int_image Rabs S m m Z.abs Rcontinuity_abs (fun z => eq_sym (abs_IZR z)) HS
    (sym_extremes Rabs Z.abs (fun z => eq_sym (abs_IZR z)) (fun r s L => L)) ltac:(intros; lia))); [lia|]. intros t. reflexivity.
Qed.
Lemma int_pow S m1 m n : int_set S m1 -> (0 < n)%Z -> (m1 ^ n <= m)%Z -> int_set (img1 (U_pow n) S) m.
Proof.
  intros HS Hn Hm. set (q := Z.to_nat n).
  assert (G : forall z, IZR z ^ q = IZR (z ^ n)) by (intros z; rewrite pow_IZR; do 2 f_equal; unfold q; lia).
  assert (K : int_set (fun t => exists r, S r /\ t = r ^ q) m).
  { apply (int_image (fun r => r ^ q) S m1 m (fun z => (z ^ n)%Z) (pow_cont q) G HS).
    - destruct (Z.odd n) eqn:O.
      + intros a b L. exists a, b. split; [lia|]. split; [lia|]. intros r Hr. rewrite <- !G. unfold q. split; apply odd_mono; auto; lra.
      + apply (sym_extremes (fun r => r ^ q) (fun z => (z ^ n)%Z) G). intros r s L. unfold q.
        rewrite (even_abs n r Hn O), (even_abs n s Hn O). apply pow_incr. split; [apply Rabs_pos|exact L].
    - intros a Ha. rewrite Z.abs_pow. eapply Z.le_trans; [|exact Hm]. apply Z.pow_le_mono_l. lia. }
  apply (int_set_ext _ _ m m K); [lia|]. intros t. unfold img1. cbn [rel1]. rewrite (proj2 (Z.ltb_lt 0 n) Hn). reflexivity.
Qed.
Lemma int_square S m1 m : int_set S m1 -> (m1 * m1 <= m)%Z -> int_set (img1 U_square S) m.
Proof.
  intros HS Hm. apply (int_set_ext (img1 (U_pow 2) S) _ m m); [apply (int_pow S m1); auto; [lia|]; rewrite Z.pow_2_r; exact Hm|lia|].
  intros t. split; intros (r & Hr & E); exists r; (split; [exact Hr|]); cbn [rel1] in *; simpl in *; lra.
Qed.

Section Integers.
Context (p : platform) (env : nat -> itv (fnum p)).
Notation N := (fnum p).
Notation fv := (@fval (p_T p)).
Lemma int_num_set (v : T N) m : int_num (p := p) v m -> int_set (fun s => fv v = Fin s) m.
Proof.
  intros (_ & z & E & B). exists z, z. split; [lia|]. split; [exact B|]. split; [exact B|]. intros t. rewrite E. split.
  - intros Q. injection Q as <-. lra.
  - intros Ht. f_equal. lra.
Qed.
Lemma int2 o S S2 m1 m2 m : int_set S m1 -> int_set S2 m2 -> mag2 o m1 m2 m -> int_set (img2 o S S2) m.
Proof.
  intros H1 H2 M. destruct o; cbn [mag2] in M.
  - eapply int_add; eauto.
  - eapply int_sub; eauto.
  - eapply int_mul; eauto.
  - destruct M.
  - eapply int_max; [exact H1|exact H2|apply M|apply M].
  - eapply int_min; [exact H1|exact H2|apply M|apply M].
  - eapply int_hull; [exact H1|exact H2|apply M|apply M].
Qed.
Lemma within_set e : forall m, within env e m -> int_set (exact_set env e) m.
Proof.
  induction e as [n|v|o e1 IH|o e1 IH1 e2 IH2|o e1 IH v|o v e1 IH|o v w|e1 IH1 e2 IH2|e1 IH v]; intros m; cbn [within exact_set]; intros [_ W].
  - destruct W as (a & b & Ea & Eb & L & A & B). exists a, b. split; [exact L|]. split; [exact A|]. split; [exact B|].
    intros t. unfold fmem, mem. change (xle (fv (low (env n))) (Fin t) /\ xle (Fin t) (fv (up (env n))) <-> IZR a <= t <= IZR b). rewrite Ea, Eb. simpl. tauto.
  - apply int_num_set. exact W.
  - destruct o; try contradiction.
    + apply int_neg, IH, W.
    + apply int_abs, IH, W.
    + destruct W as (m1 & W & L). apply (int_square _ m1); auto.
    + destruct W as (m1 & W & L & L2). apply (int_pow _ m1); auto.
  - destruct W as (m1 & m2 & W1 & W2 & Mg). apply (int2 o _ _ m1 m2); auto.
  - destruct W as (m1 & m2 & W1 & W2 & Mg). apply (int2 o _ _ m1 m2); auto. apply int_num_set; auto.
  - destruct W as (m1 & m2 & W1 & W2 & Mg). apply (int2 o _ _ m1 m2); auto. apply int_num_set; auto.
  - destruct W as (m1 & m2 & W1 & W2 & Mg). apply (int2 (op_of o) _ _ m1 m2); auto; apply int_num_set; auto.
  - destruct W.
  - destruct W.
Qed.
Lemma int_repr S m : (m <= 2 ^ prec (p_T p))%Z -> int_set S m -> representable (p := p) S.
Proof.
  intros Hm (a & b & L & A & B & E). split; [exists (IZR a); apply E; pose proof (IZR_le _ _ L); lra|].
  destruct (repr_Z (p_T p) a) as (u & Eu); [lia|]. destruct (repr_Z (p_T p) b) as (w & Ew); [lia|].
  exists (@mk N u w). intros t. rewrite E.
  change (xle (fv u) (Fin t) /\ xle (Fin t) (fv w) <-> IZR a <= t <= IZR b). rewrite Eu, Ew. simpl. tauto.
Qed.
Lemma within_nodes e : forall m, within env e m -> exact_nodes env e.
Proof.
  induction e as [n|v|o e1 IH|o e1 IH1 e2 IH2|o e1 IH v|o v e1 IH|o v w|e1 IH1 e2 IH2|e1 IH v]; intros m W;
    (assert (Rp : representable (p := p) (exact_set env _)) by (apply (int_repr _ m); [apply W|apply within_set; exact W]));
    (split; [exact Rp|]); destruct W as [_ W].
  - exact Logic.I.
  - exact Logic.I.
  - destruct o; try contradiction.
    + split; [exact Logic.I|]. apply (IH m W).
    + split; [exact Logic.I|]. apply (IH m W).
    + destruct W as (m1 & W & L). split; [exact Logic.I|]. apply (IH m1 W).
    + destruct W as (m1 & W & L & L2). split; [lia|]. apply (IH m1 W).
  - destruct W as (m1 & m2 & W1 & W2 & Mg). split; [intros ->; destruct Mg|]. split; [apply (IH1 m1 W1)|apply (IH2 m2 W2)].
  - destruct W as (m1 & m2 & W1 & W2 & Mg). apply (IH m1 W1).
  - destruct W as (m1 & m2 & W1 & W2 & Mg). split; [intros ->; destruct Mg|]. apply (IH m2 W2).
  - exact Logic.I.
  - destruct W.
  - destruct W.
Qed.
End Integers.

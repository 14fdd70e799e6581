(** * Every interval-valued operation, uniformly *)

From Coq Require Import Reals ZArith Lra Lia Bool Classical.
From Flocq Require Import Core BinarySingleNaN.
From Verif Require Import Outcome Base Checking Interval Utility Arith Arith2 FloatNum Spec ExtR Sem
  FloatSpec FloatPol CoreArith CoreUtil Inst Witness CoreCtor Ops Properties1 Properties2.
Local Open Scope R_scope.

Section Ops.
Context (p : platform) (k : rkind) (debug : bool) (c : ckind) (ord : site -> bool).
Notation N := (fnum p).
Notation I := (itv N).
Notation P := (fpol p Save k debug c ord).
Notation spec := (fpolspec p Save k debug c ord).

(** On a nonempty real result the call returns a valid enclosure, otherwise it
    yields emptiness in the way of the policy. *)
Definition correct (m : M I) (S : R -> Prop) : Prop :=
  (nonempty S -> exists z, returns m z /\ fvalid z /\ fencloses z S) /\
  (~ nonempty S -> gives_empty c m).

Lemma correct_ext m (S S' : R -> Prop) : (forall t, S t <-> S' t) -> correct m S -> correct m S'.
Proof.
  intros E [A B]. split.
  - intros (t & Ht). destruct A as (z & R & V & En). + exists t. apply E, Ht.
    + exists z. split; [exact R|split; [exact V|]]. intros s Hs. apply En, E, Hs.
  - intros K. apply B. intros (t & Ht). apply K. exists t. apply E, Ht.
Qed.
Lemma correct_intro m (S : R -> Prop) : (nonempty S -> exists z, returns m z /\ fvalid z /\ fencloses z S) ->
  (~ nonempty S -> gives_empty c m) -> correct m S.
Proof. split; auto. Qed.
(** Always defined. *)
Lemma correct_total m (S : R -> Prop) : nonempty S -> (exists z, returns m z /\ fvalid z /\ fencloses z S) -> correct m S.
Proof. split; auto. intros K. contradiction. Qed.
Lemma tight_encloses (z : I) S : ftightest z S -> fencloses z S.
Proof. intros [E _]. exact E. Qed.
Lemma denotes_encloses (z : I) S : fdenotes z S -> fencloses z S.
Proof. intros D r Hr. apply D, Hr. Qed.

Lemma run1_correct o (x : I) : match o with U_pow n => (int_min < n <= int_max)%Z | _ => True end ->
  fvalid x -> correct (run1 P o x) (img1 o (fmem x)).
Proof.
  intros Ho V. destruct (nonempty_mem p x V) as (r0 & Hr0). destruct o as [| | | | |n]; cbn [run1].
  - apply correct_total; [exists (- r0), r0; split; [exact Hr0|reflexivity]|].
    destruct (C03_neg_exact p k debug c ord x V) as (z & R & Vz & D). exists z. split; [exact R|split; [exact Vz|]].
    intros t (r & Hr & E). apply D. exists r. split; auto.
  - apply correct_total; [exists (Rabs r0), r0; split; [exact Hr0|reflexivity]|].
    destruct (C15_abs_exact p k debug c ord x V) as (z & R & Vz & D). exists z. split; [exact R|split; [exact Vz|]].
    intros t (r & Hr & E). apply D. exists r. split; auto.
  - apply correct_intro; intros K.
    + destruct K as (t & r & Hr & Pr & E).
      destruct (C13_sqrt_tightest p k debug c ord x V (ex_intro _ r (conj Hr Pr))) as (z & R & Vz & D).
      exists z. split; [exact R|split; [exact Vz|]]. intros t' (r' & Hr' & P' & E'). apply (proj1 D). exists r'. auto.
    + apply C13_sqrt_negative_empty; auto. intros r Hr. apply Rnot_le_lt. intros Q. apply K.
      exists (sqrt r), r. split; [exact Hr|split; auto].
  - apply correct_total; [exists (r0 * r0), r0; split; [exact Hr0|reflexivity]|].
    destruct (C09_square_tightest p k debug c ord x V) as (z & R & Vz & D). exists z. split; [exact R|split; [exact Vz|]].
    intros t (r & Hr & E). apply (proj1 D). exists r. split; auto.
  - destruct (classic (fdenotes x (point 0))) as [Z|Z]; apply correct_intro; intros K.
    + destruct K as (t & r & Hr & Nr & E). exfalso. apply Nr. apply Z, Hr.
    + apply C14_inverse_zero_empty; auto.
    + destruct (C14_inverse_tightest p k debug c ord x V Z) as (z & R & Vz & D).
      exists z. split; [exact R|split; [exact Vz|]]. intros t' (r' & Hr' & P' & E'). apply (proj1 D). exists r'. auto.
    + exfalso. apply K. destruct (nonzero_member p x V Z) as (r & Hr & Nr). exists (1 / r), r.
      split; [exact Hr|split; auto].
  - destruct (Z.ltb_spec 0 n) as [L|L]; [|destruct (Z.ltb_spec n 0) as [L'|L']].
    + assert (E : forall r t, rel1 (U_pow n) r t <-> t = r ^ Z.to_nat n).
      { intros r t. simpl. rewrite (proj2 (Z.ltb_lt 0 n)) by lia. tauto. }
      apply correct_total; [exists (r0 ^ Z.to_nat n), r0; split; [exact Hr0|apply E; reflexivity]|].
      destruct (C10_pow_positive_encloses p k debug c ord x n V L) as (z & R & Vz & D & _).
      exists z. split; [exact R|split; [exact Vz|]]. intros t (r & Hr & Q). apply D. exists r. split; [exact Hr|apply E, Q].
    + assert (E : forall r t, rel1 (U_pow n) r t <-> r <> 0 /\ t = / r ^ Z.to_nat (- n)).
      { intros r t. simpl. rewrite (proj2 (Z.ltb_ge 0 n)), (proj2 (Z.ltb_lt n 0)) by lia. tauto. }
      destruct (classic (fdenotes x (point 0))) as [Z|Z]; apply correct_intro; intros K.
      * destruct K as (t & r & Hr & Q). apply E in Q. exfalso. apply (proj1 Q). apply Z, Hr.
      * apply C10_pow_negative_zero_empty; auto. lia.
      * destruct (C10_pow_negative_encloses p k debug c ord x n V Z) as (z & R & Vz & D & _); [lia|].
        exists z. split; [exact R|split; [exact Vz|]]. intros t' (r' & Hr' & Q). apply D. exists r'.
        split; [exact Hr'|apply E, Q].
      * exfalso. apply K. destruct (nonzero_member p x V Z) as (r & Hr & Nr). exists (/ r ^ Z.to_nat (- n)), r.
        split; [exact Hr|apply E; auto].
    + assert (n = 0%Z) by lia. subst n.
      destruct (classic (fdenotes x (point 0))) as [Z|Z]; apply correct_intro; intros K.
      * destruct K as (t & r & Hr & Nr & E). exfalso. apply Nr. apply Z, Hr.
      * apply C11_pow_zero_is_one_refuted; auto.
      * destruct (C11_pow_zero_is_one_partial p k debug c ord x V Z) as (z & R & D).
        exists z. split; [exact R|split; [apply (mem_valid _ _ 1), D; reflexivity|]].
        intros t' (r' & Hr' & P' & E'). apply D. exact E'.
      * exfalso. apply K. destruct (nonzero_member p x V Z) as (r & Hr & Nr). exists 1, r.
        split; [exact Hr|split; [exact Nr|reflexivity]].
Qed.

Lemma run2_correct o (x y : I) : fvalid x -> fvalid y -> correct (run2 P o x y) (img2 o (fmem x) (fmem y)).
Proof.
  intros Vx Vy. destruct (nonempty_mem p x Vx) as (r0 & Hr0). destruct (nonempty_mem p y Vy) as (s0 & Hs0).
  assert (G : forall f (m : M I), (forall r s t, rel2 o r s t <-> t = f r s) ->
     (exists z, returns m z /\ fvalid z /\ fencloses z (image2 f (fmem x) (fmem y))) ->
     correct m (img2 o (fmem x) (fmem y))).
  { intros f m E (z & R & V & En). apply correct_total.
    - exists (f r0 s0), r0, s0. split; [exact Hr0|split; [exact Hs0|apply E; reflexivity]].
    - exists z. split; [exact R|split; [exact V|]]. intros t (r & s & Hr & Hs & Q). apply En. exists r, s.
      split; [exact Hr|split; [exact Hs|apply E, Q]]. }
  destruct o; cbn [run2].
  - apply (G Rplus); [intros; reflexivity|].
    destruct (C01_add_tightest p k debug c ord x y Vx Vy) as (z & R & V & T). eauto using tight_encloses.
  - apply (G Rminus); [intros; reflexivity|].
    destruct (C02_sub_tightest p k debug c ord x y Vx Vy) as (z & R & V & T). eauto using tight_encloses.
  - apply (G Rmult); [intros; reflexivity|].
    destruct (C04_mul_tightest p k debug c ord x y Vx Vy) as (z & R & V & T). eauto using tight_encloses.
  - destruct (classic (fdenotes y (point 0))) as [Z|Z]; apply correct_intro; intros K.
    + destruct K as (t & r & s & Hr & Hs & Ns & E). exfalso. apply Ns. apply Z, Hs.
    + apply C05_div_by_zero_empty; auto.
    + destruct (C05_div_encloses_partial p k debug c ord x y Vx Vy Z) as (z & R & V & E & _).
      exists z. split; [exact R|split; [exact V|]]. intros t (r & s & Hr & Hs & Ns & Q). apply E. exists r, s. auto.
    + exfalso. apply K. destruct (nonzero_member p y Vy Z) as (s & Hs & Ns). exists (r0 / s), r0, s.
      split; [exact Hr0|split; [exact Hs|split; auto]].
  - apply (G Rmax); [intros; reflexivity|].
    destruct (C15_max_exact p k debug c ord x y Vx Vy) as (z & R & V & T). eauto using denotes_encloses.
  - apply (G Rmin); [intros; reflexivity|].
    destruct (C15_min_exact p k debug c ord x y Vx Vy) as (z & R & V & T). eauto using denotes_encloses.
  - apply correct_total.
    + exists r0, r0, s0. split; [exact Hr0|split; [exact Hs0|]]. split; [apply Rmin_l|apply Rmax_l].
    + destruct (C32_hull p k debug c ord x y (or_introl Vx) (or_introl Vy)) as [A _].
      destruct A as (z & R & V & T); [exists r0; auto|].
      exists z. split; [exact R|split; [exact V|]]. intros t (r & s & Hr & Hs & L & U).
      assert (Zr : fmem z r) by (apply (proj1 T); auto). assert (Zs : fmem z s) by (apply (proj1 T); auto).
      destruct Zr as [R1 R2], Zs as [S1 S2]. unfold Rmin, Rmax in L, U.
      split.
      * destruct (Rle_dec r s); [apply (xle_trans _ _ _ R1)|apply (xle_trans _ _ _ S1)]; exact L.
      * destruct (Rle_dec r s); [apply (fun K => xle_trans _ _ _ K S2)|apply (fun K => xle_trans _ _ _ K R2)]; exact U.
Qed.

(** Mixed operands: as the operation on the one-point interval. *)
Lemma point_mem (v : T N) r : fval v = Fin r -> fvalid (mk v v : I) /\ forall t, fmem (mk v v : I) t <-> point r t.
Proof.
  intros E. split.
  - unfold fvalid, valid. cbn [low up]. rewrite E. split; [simpl; lra|split; discriminate].
  - intros t. unfold fmem, mem. cbn [low up]. rewrite E. simpl. unfold point. lra.
Qed.
Lemma same_correct (m m' : M I) S : (exists z z', returns m z /\ returns m' z' /\ fsame z' z) ->
  correct m S -> nonempty S -> correct m' S.
Proof.
  intros (z & z' & R & R' & E) [A _] Ne. apply correct_total; auto.
  destruct (A Ne) as (w & Rw & Vw & En). assert (w = z) by (pose proof (eq_trans (eq_sym (Rw RNE)) (R RNE)) as K; injection K; auto).
  subst w. destruct E as [E1 E2]. exists z'. split; [exact R'|split].
  - unfold fvalid, valid in *. rewrite E1, E2. exact Vw.
  - intros r Hr. apply En in Hr. unfold mem in *. rewrite E1, E2. exact Hr.
Qed.
Lemma returns_not_empty (m : M I) z : returns m z -> gives_empty c m -> fempty z.
Proof.
  intros R G. unfold gives_empty in G. destruct (allows_empty c).
  - destruct G as (w & Rw & E). assert (w = z) by (pose proof (eq_trans (eq_sym (Rw RNE)) (R RNE)) as K; injection K; auto).
    subst. exact E.
  - specialize (R RNE). specialize (G RNE). rewrite R in G. discriminate.
Qed.
Lemma same_correct' (m m' : M I) S : (nonempty S -> exists z z', returns m z /\ returns m' z' /\ fsame z' z) ->
  (~ nonempty S -> gives_empty c m') -> correct m S -> correct m' S.
Proof.
  intros A B C. split; [|exact B]. intros Ne. apply (same_correct m m' S (A Ne) C Ne). exact Ne.
Qed.

Lemma run_ni_correct o (v : T N) (y : I) r : fval v = Fin r -> fvalid y ->
  correct (run_ni P o v y) (img2 o (point r) (fmem y)).
Proof.
  intros E V. destruct (point_mem v r E) as [Vv Mv].
  assert (C0 : correct (run2 P o (mk v v) y) (img2 o (point r) (fmem y))).
  { eapply correct_ext; [|apply run2_correct; auto]. intros t. unfold img2. split; intros (a & b & A & B & D); exists a, b;
      (split; [apply Mv, A|split; [exact B|exact D]]). }
  destruct (nonempty_mem p y V) as (s0 & Hs0).
  assert (NE : forall f, (forall r s t, rel2 o r s t <-> t = f r s) -> nonempty (img2 o (point r) (fmem y))).
  { intros f Ef. exists (f r s0), r, s0. split; [reflexivity|split; [exact Hs0|apply Ef; reflexivity]]. }
  destruct o; cbn [run_ni run2] in *.
  - eapply same_correct; [|exact C0|apply (NE Rplus); intros; reflexivity].
    destruct (C07_add p k debug c ord v y r E V) as (z & z1 & z2 & A & B & D & _). eauto.
  - eapply same_correct; [|exact C0|apply (NE Rminus); intros; reflexivity].
    destruct (C07_sub p k debug c ord v y r E V) as (z & z1 & z2 & w' & A & B & D & _). eauto.
  - eapply same_correct; [|exact C0|apply (NE Rmult); intros; reflexivity].
    destruct (C07_mul p k debug c ord v y r E V) as (z & z1 & z2 & A & B & D & _). eauto.
  - destruct (C07_div p k debug c ord v y r E V) as (D1 & D2 & _).
    eapply same_correct'; [| |exact C0]; intros K.
    + apply D1. intros Z. destruct K as (t & a & b & A & B & Nb & _). apply Nb. apply Z, B.
    + apply D2. apply NNPP. intros Z. apply K. destruct (nonzero_member p y V Z) as (s & Hs & Ns).
      exists (r / s), r, s. split; [reflexivity|split; [exact Hs|split; auto]].
  - eapply same_correct; [|exact C0|apply (NE Rmax); intros; reflexivity].
    destruct (C07_max_min_hull p k debug c ord v y r E V) as ((z & z1 & z2 & A & B & D & _) & _). eauto.
  - eapply same_correct; [|exact C0|apply (NE Rmin); intros; reflexivity].
    destruct (C07_max_min_hull p k debug c ord v y r E V) as (_ & (z & z1 & z2 & A & B & D & _) & _). eauto.
  - eapply same_correct; [|exact C0|].
    + destruct (C07_max_min_hull p k debug c ord v y r E V) as (_ & _ & (z & z1 & z2 & A & B & D & _)). eauto.
    + exists r, r, s0. split; [reflexivity|split; [exact Hs0|split; [apply Rmin_l|apply Rmax_l]]].
Qed.
Lemma run_in_correct o (y : I) (v : T N) r : fval v = Fin r -> fvalid y ->
  correct (run_in P o y v) (img2 o (fmem y) (point r)).
Proof.
  intros E V. destruct (point_mem v r E) as [Vv Mv].
  destruct (nonempty_mem p y V) as (s0 & Hs0).
  (* the C07 theorems compare with (mk v v) on the left for commutative operations *)
  assert (CL : forall o', (forall a b t, rel2 o a b t <-> rel2 o' b a t) ->
     correct (run2 P o' (mk v v) y) (img2 o (fmem y) (point r))).
  { intros o' Eo. eapply correct_ext; [|apply run2_correct; auto]. intros t. unfold img2.
    split; intros (a & b & A & B & D); exists b, a.
    - split; [exact B|split; [apply Mv, A|apply Eo, D]].
    - split; [apply Mv, B|split; [exact A|apply Eo, D]]. }
  assert (CR : correct (run2 P o y (mk v v)) (img2 o (fmem y) (point r))).
  { eapply correct_ext; [|apply run2_correct; auto]. intros t. unfold img2. split; intros (a & b & A & B & D); exists a, b;
      (split; [exact A|split; [apply Mv, B|exact D]]). }
  assert (NE : forall f, (forall r s t, rel2 o r s t <-> t = f r s) -> nonempty (img2 o (fmem y) (point r))).
  { intros f Ef. exists (f s0 r), s0, r. split; [exact Hs0|split; [reflexivity|apply Ef; reflexivity]]. }
  destruct o; cbn [run_in run2] in *.
  - eapply same_correct; [|apply (CL B_add); intros; simpl; split; intros ->; ring|apply (NE Rplus); intros; reflexivity].
    destruct (C07_add p k debug c ord v y r E V) as (z & z1 & z2 & A & _ & _ & B & D). eauto.
  - eapply same_correct; [|exact CR|apply (NE Rminus); intros; reflexivity].
    destruct (C07_sub p k debug c ord v y r E V) as (z & z1 & z2 & w' & _ & _ & _ & A & B & D). eauto.
  - eapply same_correct; [|apply (CL B_mul); intros; simpl; split; intros ->; ring|apply (NE Rmult); intros; reflexivity].
    destruct (C07_mul p k debug c ord v y r E V) as (z & z1 & z2 & A & _ & _ & B & D). eauto.
  - destruct (C07_div p k debug c ord v y r E V) as (_ & _ & D1 & D2).
    eapply same_correct'; [| |exact CR]; intros K.
    + apply D1. destruct K as (t & a & b & A & -> & Nb & _). exact Nb.
    + apply D2. apply NNPP. intros Z. apply K.
      exists (s0 / r), s0, r. split; [exact Hs0|split; [reflexivity|split; auto]].
  - eapply same_correct; [|apply (CL B_max); intros; simpl; rewrite Rmax_comm; tauto|apply (NE Rmax); intros; reflexivity].
    destruct (C07_max_min_hull p k debug c ord v y r E V) as ((z & z1 & z2 & A & _ & _ & B & D) & _). eauto.
  - eapply same_correct; [|apply (CL B_min); intros; simpl; rewrite Rmin_comm; tauto|apply (NE Rmin); intros; reflexivity].
    destruct (C07_max_min_hull p k debug c ord v y r E V) as (_ & (z & z1 & z2 & A & _ & _ & B & D) & _). eauto.
  - eapply same_correct; [|apply (CL B_hull); intros; simpl; rewrite Rmin_comm, Rmax_comm; tauto|].
    + destruct (C07_max_min_hull p k debug c ord v y r E V) as (_ & _ & (z & z1 & z2 & A & _ & _ & B & D)). eauto.
    + exists r, s0, r. split; [exact Hs0|split; [reflexivity|split; [apply Rmin_r|apply Rmax_r]]].
Qed.
Lemma run_nn_correct o (v w : T N) r s : fval v = Fin r -> fval w = Fin s ->
  correct (run_nn P o v w) (rel2 (op_of o) r s).
Proof.
  intros E F. destruct (C52_number_functions_tightest p k debug c ord v w r s E F) as (A & B & C & D & D0).
  assert (G : forall f m, (exists z, returns m z /\ fvalid z /\ ftightest z (point (f r s))) ->
     (forall t, rel2 (op_of o) r s t <-> t = f r s) -> correct m (rel2 (op_of o) r s)).
  { intros f m (z & R & V & T) Ef. apply correct_total; [exists (f r s); apply Ef; reflexivity|].
    exists z. split; [exact R|split; [exact V|]]. intros t Ht. apply (proj1 T). apply Ef, Ht. }
  destruct o; cbn [run_nn op_of] in *.
  - apply (G Rplus); [exact A|intros; reflexivity].
  - apply (G Rminus); [exact B|intros; reflexivity].
  - apply (G Rmult); [exact C|intros; reflexivity].
  - destruct (Req_dec s 0) as [Z|Z]; apply correct_intro; intros K.
    + destruct K as (t & Ns & _). contradiction.
    + apply D0, Z.
    + destruct (D Z) as (z & R & V & T). exists z. split; [exact R|split; [exact V|]].
      intros t (_ & Ht). apply (proj1 T). exact Ht.
    + exfalso. apply K. exists (r / s). split; auto.
  - destruct (C32_hull_numbers p k debug c ord v w r s E F) as (z & R & T).
    assert (Z : rel2 B_hull r s r) by (split; [apply Rmin_l|apply Rmax_l]).
    apply correct_total; [exists r; exact Z|]. exists z. split; [exact R|split].
    + apply (mem_valid _ _ r), T. exact Z.
    + intros t Ht. apply T. exact Ht.
Qed.
Lemma intersect_correct (x y : I) : fvalid x -> fvalid y ->
  correct (intersect P x y) (fun r => fmem x r /\ fmem y r).
Proof.
  intros Vx Vy. destruct (C32_intersect p k debug c ord x y (or_introl Vx) (or_introl Vy)) as [A B].
  apply correct_intro; intros K; [|apply B, K]. destruct (A K) as (z & R & V & D).
  exists z. split; [exact R|split; [exact V|apply denotes_encloses, D]].
Qed.
Lemma widen_correct (x : I) (v : T N) s : fvalid x -> fval v = Fin s -> 0 <= s ->
  correct (widen P x v) (fun t => exists r, fmem x r /\ Rabs (t - r) <= s).
Proof.
  intros V E S. destruct (C36_widen_tightest p k debug c ord x v s V E S) as (z & R & Vz & T).
  apply correct_total.
  - destruct (nonempty_mem p x V) as (r & Hr). exists r, r. split; [exact Hr|]. rewrite Rminus_diag_eq, Rabs_R0; auto.
  - exists z. split; [exact R|split; [exact Vz|exact (proj1 T)]].
Qed.
Lemma num_correct (v : T N) r : fval v = Fin r -> correct (ctor_num P v) (point r).
Proof.
  intros E. destruct (point_mem v r E) as [V Mv].
  apply correct_total; [exists r; reflexivity|]. exists (mk v v). split; [|split; [exact V|]].
  - intros mode. unfold ctor_num, bind. cbn [p_ck fpol]. rewrite Mutate.is_nan_false by (rewrite E; discriminate). reflexivity.
  - intros t Ht. apply Mv, Ht.
Qed.

(** ** Expressions *)
Lemma returns_bind {A B} (m : M A) (f : A -> M B) a b : returns m a -> returns (f a) b -> returns (bind m f) b.
Proof. intros H1 H2 s. unfold bind. rewrite H1. apply H2. Qed.
Lemma returns_args2 {A B} o (m1 : M A) (m2 : M B) a b : returns m1 a -> returns m2 b -> returns (args2 o m1 m2) (a, b).
Proof. intros H1 H2 s. destruct o; simpl; unfold bind, ret; rewrite ?H1, ?H2, ?H1; reflexivity. Qed.

Lemma use m S t : correct m S -> S t -> exists z, returns m z /\ fmem z t.
Proof.
  intros [A _] Ht. destruct A as (z & R & V & E); [exists t; exact Ht|]. exists z. split; [exact R|apply E, Ht].
Qed.
Lemma mem_fvalid (z : I) t : fmem z t -> fvalid z.
Proof. apply mem_valid. Qed.

Lemma eval_contains eo (env : nat -> I) (rho : nat -> R) : (forall n, fmem (env n) (rho n)) ->
  forall (e : expr N) t, proper (N := N) fval e -> means (N := N) fval e rho t ->
  exists z, returns (eval P eo env e) z /\ fmem z t.
Proof.
  intros Henv. induction e as [n|v|o e IH|o e1 IH1 e2 IH2|o e IH v|o v e IH|o v w|e1 IH1 e2 IH2|e IH v];
    intros t Wf Ht; cbn [eval]; simpl in Wf, Ht.
  - subst t. exists (env n). split; [intros s; reflexivity|apply Henv].
  - destruct Wf as (r & Er). assert (r = t) by congruence. subst r.
    exact (use _ _ t (num_correct v t Er) eq_refl).
  - destruct Wf as (Wo & We), Ht as (r & Hr & Hrel). destruct (IH r We Hr) as (x & Rx & Mx).
    destruct (use _ _ t (run1_correct o x Wo (mem_fvalid _ _ Mx))) as (z & Rz & Mz); [exists r; auto|].
    exists z. split; [eapply returns_bind; eauto|exact Mz].
  - destruct Wf as (W1 & W2), Ht as (r & s & Hr & Hs & Hrel).
    destruct (IH1 r W1 Hr) as (x & Rx & Mx). destruct (IH2 s W2 Hs) as (y & Ry & My).
    destruct (use _ _ t (run2_correct o x y (mem_fvalid _ _ Mx) (mem_fvalid _ _ My))) as (z & Rz & Mz); [exists r, s; auto|].
    exists z. split; [eapply returns_bind; [apply returns_args2; eauto|exact Rz]|exact Mz].
  - destruct Wf as (We & Wv), Ht as (r & s & Hr & Hs & Hrel). destruct (IH r We Hr) as (x & Rx & Mx).
    destruct (use _ _ t (run_in_correct o x v s Hs (mem_fvalid _ _ Mx))) as (z & Rz & Mz);
      [exists r, s; split; [exact Mx|split; [reflexivity|exact Hrel]]|].
    exists z. split; [eapply returns_bind; eauto|exact Mz].
  - destruct Wf as (We & Wv), Ht as (r & s & Hr & Hs & Hrel). destruct (IH s We Hs) as (x & Rx & Mx).
    destruct (use _ _ t (run_ni_correct o v x r Hr (mem_fvalid _ _ Mx))) as (z & Rz & Mz);
      [exists r, s; split; [reflexivity|split; [exact Mx|exact Hrel]]|].
    exists z. split; [eapply returns_bind; eauto|exact Mz].
  - destruct Ht as (r & s & Hr & Hs & Hrel). exact (use _ _ t (run_nn_correct o v w r s Hr Hs) Hrel).
  - destruct Wf as (W1 & W2), Ht as (H1 & H2).
    destruct (IH1 t W1 H1) as (x & Rx & Mx). destruct (IH2 t W2 H2) as (y & Ry & My).
    destruct (use _ _ t (intersect_correct x y (mem_fvalid _ _ Mx) (mem_fvalid _ _ My)) (conj Mx My)) as (z & Rz & Mz).
    exists z. split; [eapply returns_bind; [apply returns_args2; eauto|exact Rz]|exact Mz].
  - destruct Wf as (We & s' & Es & Ps), Ht as (r & s & Hr & Hs & Hrel). assert (s' = s) by congruence. subst s'.
    destruct (IH r We Hr) as (x & Rx & Mx).
    destruct (use _ _ t (widen_correct x v s (mem_fvalid _ _ Mx) Hs Ps)) as (z & Rz & Mz); [exists r; auto|].
    exists z. split; [eapply returns_bind; eauto|exact Mz].
Qed.
End Ops.

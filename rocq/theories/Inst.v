(** * From the generic lemmas to statements about floating-point intervals *)

From Coq Require Import Reals ZArith Lra Lia Bool.
From Flocq Require Import Core BinarySingleNaN.
From Verif Require Import Outcome Base Checking Interval Utility Arith Arith2 FloatNum Spec ExtR Sem
  FloatSpec FloatPol CoreArith CoreDiv CoreMore CoreFun CorePow CoreUtil.
Local Open Scope R_scope.

Section Inst.
Context (p : platform) (k : rkind) (debug : bool) (c : ckind) (ord : site -> bool).
Notation N := (fnum p).
Notation P := (fpol p Save k debug c ord).
Notation spec := (fpolspec p Save k debug c ord).

Lemma tight_returns (m : M (itv N)) (S : R -> Prop) : nonempty S ->
  (exists z, runsP P (fready k) m z /\ tightest (N := N) fval z S) ->
  exists z, returns m z /\ fvalid z /\ ftightest z S.
Proof.
  intros Hn (z & R1 & R2). exists z. split; [exact R1|]. split; auto.
  eapply tightest_valid; eauto.
Qed.
Lemma denotes_returns (m : M (itv N)) (S : R -> Prop) : nonempty S ->
  (exists z, runsP P (fready k) m z /\ denotes (N := N) fval z S) ->
  exists z, returns m z /\ fvalid z /\ fdenotes z S.
Proof.
  intros (r & Hr) (z & R1 & R2). exists z. split; [exact R1|]. split; auto.
  apply (mem_valid _ _ r). apply R2; auto.
Qed.

Lemma fempty_action : exists o, empty_action (N := N) fval (fchecking p debug c) o /\
  (if allows_empty c then exists z, o = Ok z /\ fempty z else o = Throw EmptyCreated).
Proof.
  assert (NM : fempty (p := p) (mk (B754_nan : T N) (B754_nan : T N))).
  { intros K. exact K. }
  assert (EA : forall C : checking N, pureM (ck_empty_lower C) (B754_nan : T N) ->
     pureM (ck_empty_upper C) (B754_nan : T N) -> ck_is_empty C (B754_nan : T N) (B754_nan : T N) = true ->
     exists o, empty_action (N := N) fval C o /\ exists z, o = Ok z /\ fempty z).
  { intros C A B D. eexists. split; [apply EA_ret; eauto; simpl; tauto|]. eauto. }
  destruct c; simpl allows_empty; cbv iota; try (apply EA; [intros s; reflexivity|intros s; reflexivity|reflexivity]);
    eexists; (split; [eapply EA_throw; intros s; reflexivity|reflexivity]).
Qed.

Lemma empty_gives (m : M (itv N)) :
  (forall o, empty_out (P := P) (val := (fval : T N -> ext)) o -> forall s, m s = (o, s)) -> gives_empty c m.
Proof.
  intros Hm. destruct fempty_action as (o & Ho & E). unfold gives_empty.
  specialize (Hm o Ho). destruct (allows_empty c).
  - destruct E as (z & -> & Hz). exists z. split; auto.
  - subst o. exact Hm.
Qed.

Lemma nonempty_mem (x : itv N) : fvalid x -> nonempty (fmem x).
Proof. apply valid_mem. Qed.
Lemma nonempty_image1 f (X : R -> Prop) : nonempty X -> nonempty (image1 f X).
Proof. intros (r & Hr). exists (f r), r. auto. Qed.
Lemma nonempty_image2 f (X Y : R -> Prop) : nonempty X -> nonempty Y -> nonempty (image2 f X Y).
Proof. intros (r & Hr) (s & Hs). exists (f r s), r, s. auto. Qed.

(** The set {0}. *)
Lemma zero_set (y : itv N) : fvalid y ->
  fdenotes y (point 0) <-> fval (low y) = Fin 0 /\ fval (up y) = Fin 0.
Proof.
  intros Hy. split.
  - intros D. pose proof (proj2 (D 0) eq_refl) as K0.
    pose proof (fun r => proj1 (D r)) as D1. clear D. unfold mem, point in *.
    destruct Hy as (Y1 & Y2 & Y3).
    destruct (fval (low y)) as [| |l|] eqn:EL, (fval (up y)) as [| |u|] eqn:EU; simpl in *; try tauto.
    + exfalso. assert (-1 = 0); [|lra]. apply D1. split; auto; lra.
    + exfalso. assert (-1 = 0); [|lra]. apply D1. split; auto; lra.
    + split; f_equal; apply D1; lra.
    + exfalso. assert (1 = 0); [|lra]. apply D1. split; auto; lra.
  - intros [A B] r. unfold mem. rewrite A, B. simpl. unfold point. lra.
Qed.
Lemma not_zero_set (y : itv N) : fvalid y -> ~ fdenotes y (point 0) ->
  ~ (fval (low y) = Fin 0 /\ fval (up y) = Fin 0).
Proof. intros Hy K [A B]. apply K, zero_set; auto. Qed.

Lemma nonzero_member (y : itv N) : fvalid y -> ~ fdenotes y (point 0) -> exists s, fmem y s /\ s <> 0.
Proof.
  intros Hy K. apply not_zero_set in K; auto. destruct Hy as (A & B & C). unfold fmem, mem.
  destruct (fval (low y)) as [| |l|] eqn:EL, (fval (up y)) as [| |u|] eqn:EU; simpl in *; try tauto.
  - destruct (Req_dec u 0) as [->|Hu]; [exists (-1)|exists u]; repeat split; auto; lra.
  - exists 1. repeat split; auto; lra.
  - destruct (Req_dec u 0) as [->|Hu]; [|exists u; repeat split; auto; lra].
    destruct (Req_dec l 0) as [->|Hl]; [exfalso; apply K; auto|exists l; repeat split; auto; lra].
  - destruct (Req_dec l 0) as [->|Hl]; [exists 1|exists l]; repeat split; auto; lra.
Qed.
Lemma nonempty_quots (X : R -> Prop) (y : itv N) : nonempty X -> fvalid y -> ~ fdenotes y (point 0) ->
  nonempty (quotients X (fmem y)).
Proof.
  intros (r & Hr) Hy K. destruct (nonzero_member y Hy K) as (s & Hs & Ns).
  exists (r / s), r, s. auto.
Qed.
Lemma tight_mono (z w : itv N) (S S' : R -> Prop) : ftightest z S -> fencloses w S' ->
  (forall r, S r -> S' r) -> forall r, fmem z r -> fmem w r.
Proof.
  intros [_ Tz] Ew Inc r [A B]. destruct (Tz w) as [L U].
  { intros t Ht. apply Ew, Inc, Ht. }
  split; eapply xle_trans; eauto.
Qed.

(** ** Empty inputs *)
Lemma fempty_none (x : itv N) : fempty x -> fno_member x.
Proof. intros E r [A B]. apply E. eapply xle_trans; eauto. Qed.
Lemma is_empty_iff (x : itv N) : allows_empty c = true -> test_input_i P x = true <-> fempty x.
Proof.
  intros A. assert (E : test_input_i P x = negb (Bleb (low x : flt (p_T p)) (up x))).
  { destruct c; simpl in A; try discriminate; reflexivity. }
  rewrite E, negb_true_iff. unfold fempty. pose proof (Bleb_fval (low x : flt (p_T p)) (up x)) as K.
  destruct (Bleb (low x : flt (p_T p)) (up x)); split; intros Q; try congruence; try reflexivity.
  - exfalso. apply Q, K. reflexivity.
  - intros L. apply K in L. discriminate.
Qed.
Lemma ok_cases (x : itv N) : ok_interval c x ->
  (fvalid x /\ test_input_i P x = false) \/ (fempty x /\ test_input_i P x = true).
Proof.
  intros [V|[A E]].
  - left. split; auto. apply (test_valid spec); auto.
  - right. split; auto. apply is_empty_iff; auto.
Qed.
Lemma i_empty_gives : gives_empty c (i_empty P).
Proof. apply empty_gives. intros o Ho s. eapply i_empty_run; eauto. Qed.
End Inst.

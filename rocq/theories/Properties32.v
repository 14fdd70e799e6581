(** * C32 and C41 for operands with two policies *)

From Coq Require Import Reals ZArith Lra Lia Bool.
From Flocq Require Import Core BinarySingleNaN.
From Verif Require Import Outcome Base Checking Interval Utility Compare Mixed FloatNum Spec ExtR Sem
  CoreArith CoreUtil FloatSpec FloatPol Inst Witness Properties2.
Local Open Scope R_scope.

Notation P_ p k debug c ord := (fpol p Save k debug c ord).

Section Two.
Context (p : platform) (k1 k2 : rkind) (debug : bool) (c1 c2 : ckind) (ord1 ord2 : site -> bool).
Notation P1 := (P_ p k1 debug c1 ord1).
Notation P2 := (P_ p k2 debug c2 ord2).

(** The three predicates, for an interval x that is legitimate under the first
    policy and y under the second: relations between two sets of reals, whatever
    the two policies.  So the answer does not depend on them. *)
Theorem C32_mixed : forall x y : itv (fnum p), ok_interval c1 x -> ok_interval c2 y ->
  (proper_subset_2 P1 P2 x y = true <-> (forall r, fmem x r -> fmem y r) /\ (exists r, fmem y r /\ ~ fmem x r)) /\
  (overlap_2 P1 P2 x y = true <-> exists r, fmem x r /\ fmem y r) /\
  (equal_2 P1 P2 x y = true <-> forall r, fmem x r <-> fmem y r).
Proof.
  intros x y Hx Hy.
  destruct (ok_cases p k1 debug c1 ord1 x Hx) as [[Vx Ex]|[Mx Ex]];
  destruct (ok_cases p k2 debug c2 ord2 y Hy) as [[Vy Ey]|[My Ey]].
  - assert (Ey1 : test_input_i P1 y = false) by exact (test_valid (fpolspec p Save k1 debug c1 ord1) y Vy).
    split; [|split].
    + rewrite <- (C32_proper_subset p k1 debug c1 ord1 x y (or_introl Vx) (or_introl Vy)).
      unfold proper_subset_2, proper_subset, u_empty. rewrite Ex, Ey, Ey1. tauto.
    + rewrite <- (C32_overlap p k1 debug c1 ord1 x y (or_introl Vx) (or_introl Vy)).
      unfold overlap_2, overlap, test_input_ii. rewrite Ex, Ey, Ey1. tauto.
    + rewrite <- (C32_equal p k1 debug c1 ord1 x y (or_introl Vx) (or_introl Vy)).
      unfold equal_2, equal, u_empty. rewrite Ex, Ey, Ey1. tauto.
  - pose proof (fempty_none p y My) as N. destruct (nonempty_mem p x Vx) as (r & Hr).
    unfold proper_subset_2, overlap_2, equal_2, u_empty. rewrite Ex, Ey. split; [|split]; (split; [discriminate|]).
    + intros (_ & q & Hq & _). destruct (N q Hq).
    + intros (q & _ & Hq). destruct (N q Hq).
    + intros K. destruct (N r). apply K, Hr.
  - pose proof (fempty_none p x Mx) as N. destruct (nonempty_mem p y Vy) as (r & Hr).
    unfold proper_subset_2, overlap_2, equal_2, u_empty. rewrite Ex, Ey. split; [|split].
    + split; [intros _|auto]. split; [intros q Hq; destruct (N q Hq)|exists r; split; [exact Hr|apply N]].
    + split; [discriminate|]. intros (q & Hq & _). destruct (N q Hq).
    + split; [discriminate|]. intros K. destruct (N r). apply K, Hr.
  - pose proof (fempty_none p x Mx) as N. pose proof (fempty_none p y My) as N'.
    unfold proper_subset_2, overlap_2, equal_2, u_empty. rewrite Ex, Ey. split; [|split].
    + split; [discriminate|]. intros (_ & q & Hq & _). destruct (N' q Hq).
    + split; [discriminate|]. intros (q & Hq & _). destruct (N q Hq).
    + split; [|auto]. intros _ q. split; intros Hq; [destruct (N q Hq)|destruct (N' q Hq)].
Qed.
End Two.
Print Assumptions C32_mixed.

(** The comparison operators of namespace set on two policies. *)
Theorem C41_mixed : forall p k1 k2 debug c1 c2 ord1 ord2 (x y : itv (fnum p)), ok_interval c1 x -> ok_interval c2 y ->
  let P1 := P_ p k1 debug c1 ord1 in let P2 := P_ p k2 debug c2 ord2 in
  (exists b, returns (set_lt_2 P1 P2 x y) b /\ (b = true <-> (forall r, fmem x r -> fmem y r) /\ (exists r, fmem y r /\ ~ fmem x r))) /\
  (exists b, returns (set_gt_2 P1 P2 x y) b /\ (b = true <-> (forall r, fmem y r -> fmem x r) /\ (exists r, fmem x r /\ ~ fmem y r))) /\
  (exists b, returns (set_eq_2 P1 P2 x y) b /\ (b = true <-> forall r, fmem x r <-> fmem y r)) /\
  (exists b, returns (set_ne_2 P1 P2 x y) b /\ (b = true <-> ~ forall r, fmem x r <-> fmem y r)).
Proof.
  intros p k1 k2 debug c1 c2 ord1 ord2 x y Hx Hy P1 P2.
  destruct (C32_mixed p k1 k2 debug c1 c2 ord1 ord2 x y Hx Hy) as (A & _ & _).
  destruct (C32_mixed p k2 k1 debug c2 c1 ord2 ord1 y x Hy Hx) as (B & _ & E).
  assert (S : (forall r, fmem y r <-> fmem x r) <-> (forall r, fmem x r <-> fmem y r)) by (split; intros K r; specialize (K r); tauto).
  rewrite S in E.
  split; [eexists; split; [intros s; reflexivity|exact A]|].
  split; [eexists; split; [intros s; reflexivity|exact B]|].
  split; [eexists; split; [intros s; reflexivity|exact E]|].
  eexists; split; [intros s; reflexivity|]. rewrite negb_true_iff, <- not_true_iff_false. split; intros K K'; apply K, E, K'.
Qed.
Print Assumptions C41_mixed.

(** The accessors and the deprecated synonym of zero_in. *)
Theorem C32_accessors : forall p k debug c ord (x : itv (fnum p)), ok_interval c x ->
  (forall r, fmem x r <-> xle (fval (u_lower x : flt (p_T p))) (Fin r) /\ xle (Fin r) (fval (u_upper x : flt (p_T p)))) /\
  (in_zero (P_ p k debug c ord) x = true <-> fmem x 0).
Proof.
  intros p k debug c ord x Hx. split; [intros r; reflexivity|]. exact (C32_zero_in p k debug c ord x Hx).
Qed.
Print Assumptions C32_accessors.

(** A default interval against an interval that may be empty. *)
Example C32_mixed_case :
  ok_interval CkBase (mk dnan dnan) /\ ok_interval CkStrict (di 1 3) /\
  overlap_2 Pdef Pbase (di 1 3) (mk dnan dnan) = false /\ proper_subset_2 Pbase Pdef (mk dnan dnan) (di 1 3) = true /\
  proper_subset_2 Pdef Pbase (di 1 3) (di 1 4) = true /\ equal_2 Pdef Pbase (di 1 3) (di 1 3) = true.
Proof.
  split; [right; split; [reflexivity|]; unfold fempty; simpl; tauto|].
  split; [left; apply di_valid; lia|].
  repeat (split; [vm_compute; reflexivity|]). vm_compute; reflexivity.
Qed.

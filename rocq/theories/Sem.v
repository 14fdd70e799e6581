(** * Interface between rounding and interval functions

    What the proofs about interval functions need to know about a base type and
    a policy.  These are theorems for the concrete instances (FloatSpec.v,
    ExactNum.v), not assumptions. *)

From Coq Require Import Reals ZArith Lra Bool List.
From Verif Require Import Outcome Base Checking Interval Utility Arith Arith2 FloatNum Spec ExtR.
Import ListNotations.
Local Open Scope R_scope.

(** ** Running computations *)
Section Runs.
Context (ready : rmode -> Prop).

(** [m] returns [a] from every ready state and stays ready. *)
Definition runsI {A} (m : M A) (a : A) : Prop :=
  forall s, ready s -> exists s', ready s' /\ m s = (Ok a, s').
(** [m] returns [a] and never touches the mode. *)
Definition pureM {A} (m : M A) (a : A) : Prop := forall s, m s = (Ok a, s).

Lemma pure_runsI {A} (m : M A) a : pureM m a -> runsI m a.
Proof. intros H s Hs. exists s. split; auto. Qed.
Lemma runsI_ret {A} (a : A) : runsI (ret a) a.
Proof. apply pure_runsI. intros s. reflexivity. Qed.
Lemma runsI_bind {A B} (m : M A) (k : A -> M B) a b :
  runsI m a -> runsI (k a) b -> runsI (bind m k) b.
Proof.
  intros Hm Hk s Hs. destruct (Hm s Hs) as (s1 & Hs1 & E1).
  destruct (Hk s1 Hs1) as (s2 & Hs2 & E2). exists s2. split; auto.
  unfold bind. rewrite E1. auto.
Qed.
Lemma runsI_args2 {A B} o (m1 : M A) (m2 : M B) a b :
  runsI m1 a -> runsI m2 b -> runsI (args2 o m1 m2) (a, b).
Proof.
  intros H1 H2. destruct o; simpl.
  - eapply runsI_bind; eauto. eapply runsI_bind; eauto. apply runsI_ret.
  - eapply runsI_bind; eauto. eapply runsI_bind; eauto. apply runsI_ret.
Qed.
Lemma runsI_mk_args {N : num} o (m1 m2 : M (T N)) a b :
  runsI m1 a -> runsI m2 b -> runsI (mk_args o m1 m2) (mk a b).
Proof.
  intros H1 H2. unfold mk_args. eapply runsI_bind; [apply runsI_args2; eauto|].
  apply runsI_ret.
Qed.
End Runs.

Lemma pureM_ret {A} (a : A) : pureM (ret a) a.
Proof. intros s. reflexivity. Qed.
Lemma pureM_bind {A B} (m : M A) (k : A -> M B) a b :
  pureM m a -> pureM (k a) b -> pureM (bind m k) b.
Proof. intros H1 H2 s. unfold bind. rewrite H1. apply H2. Qed.
Lemma pureM_args2 {A B} o (m1 : M A) (m2 : M B) a b :
  pureM m1 a -> pureM m2 b -> pureM (args2 o m1 m2) (a, b).
Proof.
  intros H1 H2. destruct o; simpl; repeat (eapply pureM_bind; eauto); apply pureM_ret.
Qed.
Lemma pureM_mk_args {N : num} o (m1 m2 : M (T N)) a b :
  pureM m1 a -> pureM m2 b -> pureM (mk_args o m1 m2) (mk a b).
Proof.
  intros H1 H2. eapply pureM_bind; [apply pureM_args2; eauto|]. apply pureM_ret.
Qed.

(** ** Base types *)
Record numspec (N : num) (val : T N -> ext) : Prop := {
  ns_lt : forall a b, n_lt N a b = true <-> xlt (val a) (val b);
  ns_le : forall a b, n_le N a b = true <-> xle (val a) (val b);
  ns_eq : forall a b, n_eq N a b = true <-> (val a = val b /\ val a <> NaN);
  ns_0 : val (n_cst N 0) = Fin 0;
  ns_1 : val (n_cst N 1) = Fin 1;
  ns_2 : val (n_cst N 2) = Fin 2;
  ns_neg : forall a, exists t, val t = xopp (val a) /\ pureM (neg a) t;
  ns_xopp : forall a b, exists nx, pureM (e_opp (n_load N a)) nx /\
     (x_lt N (n_load N b) nx = true <-> xlt (val b) (xopp (val a)))
}.

(** ** Directed arithmetic *)
Section Ar.
Context {N : num} (val : T N -> ext) (ready : rmode -> Prop).

Definition op1_ok (rnd : ext -> T N -> Prop) (f : ext -> ext) (op : T N -> M (T N)) : Prop :=
  forall a, f (val a) <> NaN ->
  exists t, rnd (f (val a)) t /\ runsI ready (op a) t.
Definition op2_ok (rnd : ext -> T N -> Prop) (f : ext -> ext -> ext)
    (op : T N -> T N -> M (T N)) : Prop :=
  forall a b, f (val a) (val b) <> NaN ->
  exists t, rnd (f (val a) (val b)) t /\ runsI ready (op a b) t.

Record arspec (A : arith N) : Prop := {
  as_init : forall s, exists s', ready s' /\ ar_init A s = (Ok tt, s');
  as_add_down : op2_ok (RD val) xadd (add_down A);
  as_add_up : op2_ok (RU val) xadd (add_up A);
  as_sub_down : op2_ok (RD val) xsub (sub_down A);
  as_sub_up : op2_ok (RU val) xsub (sub_up A);
  as_mul_down : op2_ok (RD val) xmul (mul_down A);
  as_mul_up : op2_ok (RU val) xmul (mul_up A);
  as_div_down : op2_ok (RD val) xdiv (div_down A);
  as_div_up : op2_ok (RU val) xdiv (div_up A)
}.
(** Square roots (not available for exact types). *)
Record sqrtspec (A : arith N) : Prop := {
  as_sqrt_down : op1_ok (RD val) xsqrt (sqrt_down A);
  as_sqrt_up : op1_ok (RU val) xsqrt (sqrt_up A)
}.
End Ar.

(** ** Checking *)
Section Ck.
Context {N : num} (val : T N -> ext).

(** What the policy does when the result is empty: it returns an interval with
    no member that it recognises as empty, or it throws. *)
Inductive empty_action (C : checking N) : outcome (itv N) -> Prop :=
| EA_ret l u : pureM (ck_empty_lower C) l -> pureM (ck_empty_upper C) u ->
    ~ xle (val l) (val u) -> ck_is_empty C l u = true ->
    empty_action C (Ok (mk l u))
| EA_throw e : (forall s, ck_empty_lower C s = (Throw e, s)) ->
    (forall s, ck_empty_upper C s = (Throw e, s)) ->
    empty_action C (Throw e).

Record ckspec (C : checking N) : Prop := {
  cs_pos_inf : n_has_inf N = true -> exists t, val t = PInf /\ pureM (ck_pos_inf C) t;
  cs_neg_inf : n_has_inf N = true -> exists t, val t = NInf /\ pureM (ck_neg_inf C) t;
  cs_nan : forall a, val a <> NaN -> pureM (ck_is_nan C a) false;
  cs_empty : forall l u, xle (val l) (val u) -> ck_is_empty C l u = false;
  cs_action : exists o, empty_action C o
}.
End Ck.

(** ** Policies *)
Record polspec {N} (val : T N -> ext) (P : policy N) (ready : rmode -> Prop) : Prop := {
  ps_num : numspec N val;
  ps_ar : arspec val ready (p_ar P);
  ps_ck : ckspec val (p_ck P);
  (* the destructor of save_state restores what its constructor read *)
  ps_restore : p_prot P = Save ->
    forall s, exists m, rc_get (p_ctl P) s = (Ok m, s) /\
                        forall s', rc_set (p_ctl P) m s' = (Ok tt, s)
}.

(** A call of a library function: with a protected policy it may start in any
    mode and leaves it unchanged; otherwise it works in ready states. *)
Definition runsP {N A} (P : policy N) (ready : rmode -> Prop) (m : M A) (a : A) : Prop :=
  match p_prot P with
  | Save => pureM m a
  | _ => runsI ready m a
  end.

Section RunsP.
Context {N : num} (P : policy N) (ready : rmode -> Prop).

Lemma pure_runsP {A} (m : M A) a : pureM m a -> runsP P ready m a.
Proof. intros H. unfold runsP. destruct (p_prot P); auto; apply pure_runsI; auto. Qed.
Lemma runsP_ret {A} (a : A) : runsP P ready (ret a) a.
Proof. apply pure_runsP, pureM_ret. Qed.
Lemma runsP_bind {A B} (m : M A) (k : A -> M B) a b :
  runsP P ready m a -> runsP P ready (k a) b -> runsP P ready (bind m k) b.
Proof.
  unfold runsP. destruct (p_prot P); intros H1 H2.
  - eapply pureM_bind; eauto.
  - eapply runsI_bind; eauto.
  - eapply runsI_bind; eauto.
Qed.
Lemma runsP_args2 {A B} o (m1 : M A) (m2 : M B) a b :
  runsP P ready m1 a -> runsP P ready m2 b -> runsP P ready (args2 o m1 m2) (a, b).
Proof.
  intros H1 H2. destruct o; simpl; repeat (eapply runsP_bind; eauto); apply runsP_ret.
Qed.
Lemma runsP_runsI {A} (m : M A) a : runsP P ready m a -> runsI ready m a.
Proof. unfold runsP. destruct (p_prot P); auto. apply pure_runsI. Qed.

Context {val : T N -> ext} (H : polspec val P ready).

Lemma with_rnd_runs {A} (body : M A) a : runsI ready body a -> runsP P ready (with_rnd P body) a.
Proof.
  intros Hb. unfold runsP, with_rnd. destruct (p_prot P) eqn:E; auto.
  intros s. destruct (ps_restore _ _ _ H E s) as (m & E1 & E2).
  unfold bind. rewrite E1. destruct (as_init _ _ _ (ps_ar _ _ _ H) s) as (s1 & Hr & ->).
  destruct (Hb s1 Hr) as (s2 & Hr2 & ->). rewrite E2. reflexivity.
Qed.
End RunsP.

(** The unprotected policy satisfies the same specification. *)
Lemma polspec_unprotect {N} (val : T N -> ext) (P : policy N) ready :
  polspec val P ready -> polspec val (unprotect P) ready.
Proof.
  intros [H1 H2 H3 H4]. split; auto.
  simpl. destruct (p_prot P); simpl; discriminate.
Qed.
Lemma runsP_unprotect {N A} (P : policy N) ready (m : M A) a :
  runsP (unprotect P) ready m a <-> runsI ready m a.
Proof. unfold runsP. simpl. destruct (p_prot P); simpl; tauto. Qed.

(** Extra power: a protected call may be made in ready states too. *)
Ltac runs := repeat first
  [ apply runsI_ret | apply runsP_ret | eassumption
  | apply runsI_mk_args | apply runsI_args2
  | apply pure_runsI; eassumption ].

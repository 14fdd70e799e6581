(** * C88: addition and subtraction on symbolic intervals (test/add.cpp) *)

From Coq Require Import Reals ZArith Lra Lia Bool Arith.
From Verif Require Import Outcome Base Interval Utility Arith ExAdd AddProof.
Local Open Scope R_scope.

(** ** Specification

    What a formula means: its variables are reals, "up" is any function on reals
    whatsoever, and "down" the mirror image of it. *)
Section Meaning.
Context (rho : nat -> R) (ru : R -> R).
Definition dn (v : R) : R := - ru (- v).
Fixpoint ev (t : term) : R :=
  match t with
  | tvar v => rho v
  | tneg e => - ev e
  | tup e => ru (ev e)
  | tdown e => dn (ev e)
  | tadd a b => ev a + ev b
  | tsub a b => ev a - ev b
  end.
Lemma ev_op f minus a b : ev (t_op f minus a b) = if minus then ev a - ev b else ev a + ev b.
Proof.
  revert minus a b. induction f as [|f IH]; intros minus a b; [destruct minus; reflexivity|].
  cbn [t_op]. destruct minus.
  - destruct b; try reflexivity. rewrite IH. cbn [ev]. ring.
  - destruct a; destruct b; try reflexivity; try (rewrite IH; cbn [ev]; ring).
    destruct (v0 <? v)%nat; [rewrite IH|]; cbn [ev]; ring.
Qed.
Lemma ev_add a b : ev (t_add a b) = ev a + ev b. Proof. apply (ev_op _ false). Qed.
Lemma ev_sub a b : ev (t_sub a b) = ev a - ev b. Proof. apply (ev_op _ true). Qed.
Lemma ev_neg a : ev (t_neg a) = - ev a.
Proof.
  induction a; cbn [t_neg ev]; rewrite ?ev_sub, ?IHa, ?IHa1; unfold dn; try rewrite Ropp_involutive; try ring; reflexivity.
Qed.
End Meaning.

(** The call returns, for both rounding policies, every evaluation order and every
    mode at the call, an interval with these bounds, and leaves the mode RND_M. *)
Definition bounds (call : policy term_num -> M (itv term_num)) (lo hi : (nat -> R) -> (R -> R) -> R) : Prop :=
  forall opp ord mode, exists z, call (term_pol opp ord) mode = (Ok z, RNE) /\
    forall rho ru, ev rho ru (low z) = lo rho ru /\ ev rho ru (up z) = hi rho ru.
(** The same for a compound assignment on the object [a]: the object afterwards. *)
Definition bounds_of_object (call : policy term_num -> MO unit (N := term_num)) (a : itv term_num)
    (lo hi : (nat -> R) -> (R -> R) -> R) : Prop :=
  forall opp ord mode, exists z, call (term_pol opp ord) a mode = (Ok tt, z, RNE) /\
    forall rho ru, ev rho ru (low z) = lo rho ru /\ ev rho ru (up z) = hi rho ru.

Ltac solve_bounds site :=
  cbn [low up];
  intros opp ord mode; destruct opp; destruct (ord (H_arith, site)) eqn:E;
  (eexists; split;
   [cbv -[t_add t_sub t_neg]; rewrite ?E; reflexivity
   |intros rho ru; cbn [low up]; cbn [t_neg ev]; rewrite ?ev_neg, ?ev_sub, ?ev_add, ?ev_neg; unfold dn; split;
    rewrite ?Ropp_involutive; first [reflexivity | ring | f_equal; ring | f_equal; f_equal; ring]]).

Section Calls.
Context (a b : itv term_num) (n : T term_num).
(** Unary minus creates no rounding object and leaves the mode. *)
Theorem C88_neg : forall opp ord mode, exists z, op_neg (term_pol opp ord) a mode = (Ok z, mode) /\
  forall rho ru, ev rho ru (low z) = - ev rho ru (up a) /\ ev rho ru (up z) = - ev rho ru (low a).
Proof.
  intros opp ord mode. exists (mk (N := term_num) (t_neg (up a)) (t_neg (low a))). split.
  - unfold op_neg, mk_args, args2. destruct (p_ord (term_pol opp ord) _); destruct opp; reflexivity.
  - intros rho ru. cbn [low up]. rewrite !ev_neg. auto.
Qed.
Theorem C88_add : bounds (fun P => op_add P a b)
  (fun rho ru => dn ru (ev rho ru (low a) + ev rho ru (low b)))
  (fun rho ru => ru (ev rho ru (up a) + ev rho ru (up b))).
Proof. destruct a as [al au], b as [bl bu]. solve_bounds 121%Z. Qed.
Theorem C88_add_number : bounds (fun P => op_add_in P a n)
  (fun rho ru => dn ru (ev rho ru (low a) + ev rho ru n)) (fun rho ru => ru (ev rho ru (up a) + ev rho ru n)).
Proof. destruct a as [al au], b as [bl bu]. solve_bounds 131%Z. Qed.
Theorem C88_number_add : bounds (fun P => op_add_ni P n a)
  (fun rho ru => dn ru (ev rho ru n + ev rho ru (low a))) (fun rho ru => ru (ev rho ru n + ev rho ru (up a))).
Proof. destruct a as [al au], b as [bl bu]. solve_bounds 131%Z. Qed.
Theorem C88_sub : bounds (fun P => op_sub P a b)
  (fun rho ru => dn ru (ev rho ru (low a) - ev rho ru (up b)))
  (fun rho ru => ru (ev rho ru (up a) - ev rho ru (low b))).
Proof. destruct a as [al au], b as [bl bu]. solve_bounds 146%Z. Qed.
Theorem C88_sub_number : bounds (fun P => op_sub_in P a n)
  (fun rho ru => dn ru (ev rho ru (low a) - ev rho ru n)) (fun rho ru => ru (ev rho ru (up a) - ev rho ru n)).
Proof. destruct a as [al au], b as [bl bu]. solve_bounds 166%Z. Qed.
Theorem C88_number_sub : bounds (fun P => op_sub_ni P n a)
  (fun rho ru => dn ru (ev rho ru n - ev rho ru (up a))) (fun rho ru => ru (ev rho ru n - ev rho ru (low a))).
Proof. destruct a as [al au], b as [bl bu]. solve_bounds 156%Z. Qed.
(** a += b and a += a, where the operand is the object itself. *)
Theorem C88_add_assign : forall r, let y := rdi a r in bounds_of_object (fun P => m_add P r) a
  (fun rho ru => dn ru (ev rho ru (low a) + ev rho ru (low y)))
  (fun rho ru => ru (ev rho ru (up a) + ev rho ru (up y))).
Proof. intros r. destruct a as [al au]. destruct r as [[vl vu]|]; cbn [rdi]; solve_bounds 49%Z. Qed.
Theorem C88_sub_assign : forall r, let y := rdi a r in bounds_of_object (fun P => m_sub P r) a
  (fun rho ru => dn ru (ev rho ru (low a) - ev rho ru (up y)))
  (fun rho ru => ru (ev rho ru (up a) - ev rho ru (low y))).
Proof. intros r. destruct a as [al au]. destruct r as [[vl vu]|]; cbn [rdi]; solve_bounds 73%Z. Qed.
(** a += n and a -= n, where n can be a bound of a. *)
Theorem C88_add_assign_number : forall r, let y := rd a r in bounds_of_object (fun P => m_add_n P r) a
  (fun rho ru => dn ru (ev rho ru (low a) + ev rho ru y)) (fun rho ru => ru (ev rho ru (up a) + ev rho ru y)).
Proof. intros r. destruct a as [al au]. destruct r as [v| |]; cbn [rd]; solve_bounds 61%Z. Qed.
Theorem C88_sub_assign_number : forall r, let y := rd a r in bounds_of_object (fun P => m_sub_n P r) a
  (fun rho ru => dn ru (ev rho ru (low a) - ev rho ru y)) (fun rho ru => ru (ev rho ru (up a) - ev rho ru y)).
Proof. intros r. destruct a as [al au]. destruct r as [v| |]; cbn [rd]; solve_bounds 85%Z. Qed.
End Calls.

Ltac one site S1 S2 := match goal with ord : Outcome.site -> bool, opp : bool |- _ =>
  let E := fresh in destruct (ord (H_arith, site)) eqn:E; destruct opp;
  cbv -[t_add t_sub t_neg]; rewrite ?E; cbn [t_neg]; change (tneg ?x) with (t_neg x) in *;
  repeat (rewrite S1 || rewrite S2) end.

(** The eleven comparisons of the test, for all variables: equal formulas. *)
Theorem C88_test : forall opp ord mode (v0 v1 v2 v3 : nat),
  let P := term_pol opp ord in
  let a := mk (N := term_num) (tvar v0) (tvar v1) in let b := mk (N := term_num) (tvar v2) (tvar v3) in
  let n : T term_num := tvar v2 in
  let I l u := mk (N := term_num) l u in
  let sum := I (tdown (t_add (tvar v0) (tvar v2))) (tup (t_add (tvar v1) (tvar v3))) in
  let sum1 := I (tdown (t_add (tvar v0) (tvar v2))) (tup (t_add (tvar v1) (tvar v2))) in
  let dif := I (tdown (t_sub (tvar v0) (tvar v3))) (tup (t_sub (tvar v1) (tvar v2))) in
  let dif1 := I (tdown (t_sub (tvar v0) (tvar v2))) (tup (t_sub (tvar v1) (tvar v2))) in
  op_neg P a mode = (Ok (I (t_neg (tvar v1)) (t_neg (tvar v0))), mode) /\
  op_add P a b mode = (Ok sum, RNE) /\
  op_add_in P a n mode = (Ok sum1, RNE) /\
  op_add_ni P n a mode = (Ok sum1, RNE) /\
  op_sub P a b mode = (Ok dif, RNE) /\
  op_sub_in P a n mode = (Ok dif1, RNE) /\
  op_sub_ni P n a mode = (Ok (I (tdown (t_sub (tvar v2) (tvar v1))) (tup (t_sub (tvar v2) (tvar v0)))), RNE) /\
  m_add P (IVal b) a mode = (Ok tt, sum, RNE) /\
  m_add_n P (NVal n) a mode = (Ok tt, sum1, RNE) /\
  m_sub P (IVal b) a mode = (Ok tt, dif, RNE) /\
  m_sub_n P (NVal n) a mode = (Ok tt, dif1, RNE) /\
  forall z, equal P z z = true.
Proof.
  assert (R : forall t, t_eq t t = true).
  { induction t; simpl; rewrite ?Nat.eqb_refl, ?IHt, ?IHt1, ?IHt2; reflexivity. }
  assert (S1 : forall i j, t_neg (t_sub (t_neg (tvar i)) (tvar j)) = t_add (tvar i) (tvar j)).
  { intros i j. rewrite t_sub_eq. cbn [t_neg]. rewrite t_sub_eq. apply var_comm. }
  assert (S2 : forall i j, t_neg (t_sub (tvar i) (tvar j)) = t_sub (tvar j) (tvar i)).
  { intros i j. rewrite t_sub_eq. reflexivity. }
  intros opp ord mode v0 v1 v2 v3. cbv zeta.
  split; [unfold op_neg, mk_args, args2; destruct (p_ord (term_pol opp ord) _); destruct opp; reflexivity|].
  split; [one 121%Z S1 S2; rewrite ?(var_comm v2 v0), ?(var_comm v2 v1), ?(var_comm v3 v1); reflexivity|]. split; [one 131%Z S1 S2; rewrite ?(var_comm v2 v0), ?(var_comm v2 v1), ?(var_comm v3 v1); reflexivity|]. split; [one 131%Z S1 S2; rewrite ?(var_comm v2 v0), ?(var_comm v2 v1), ?(var_comm v3 v1); reflexivity|].
  split; [one 146%Z S1 S2; rewrite ?(var_comm v2 v0), ?(var_comm v2 v1), ?(var_comm v3 v1); reflexivity|]. split; [one 166%Z S1 S2; rewrite ?(var_comm v2 v0), ?(var_comm v2 v1), ?(var_comm v3 v1); reflexivity|]. split; [one 156%Z S1 S2; rewrite ?(var_comm v2 v0), ?(var_comm v2 v1), ?(var_comm v3 v1); reflexivity|].
  split; [one 49%Z S1 S2; rewrite ?(var_comm v2 v0), ?(var_comm v2 v1), ?(var_comm v3 v1); reflexivity|]. split; [one 61%Z S1 S2; rewrite ?(var_comm v2 v0), ?(var_comm v2 v1), ?(var_comm v3 v1); reflexivity|]. split; [one 73%Z S1 S2; rewrite ?(var_comm v2 v0), ?(var_comm v2 v1), ?(var_comm v3 v1); reflexivity|]. split; [one 85%Z S1 S2; rewrite ?(var_comm v2 v0), ?(var_comm v2 v1), ?(var_comm v3 v1); reflexivity|].
  intros z. unfold equal. change (u_empty (term_pol opp ord) z) with false. cbn [negb andb].
  change (n_eq term_num) with t_eq. rewrite !R. reflexivity.
Qed.

(** A sum of formulas: the two policies give different formulas with the same meaning. *)
Example C88_case :
  let a := mk (N := term_num) (tup (tvar 0)) (tneg (tsub (tvar 1) (tvar 0))) in
  let b := mk (N := term_num) (tvar 2) (tadd (tvar 0) (tvar 2)) in
  op_add (term_pol true (fun _ => false)) a b RDN
    = (Ok (mk (N := term_num) (tdown (tsub (tvar 2) (tdown (tneg (tvar 0)))))
                              (tup (tsub (tadd (tvar 0) (tvar 2)) (tsub (tvar 1) (tvar 0))))), RNE) /\
  op_add (term_pol false (fun _ => false)) a b RDN
    = (Ok (mk (N := term_num) (tdown (tadd (tup (tvar 0)) (tvar 2)))
                              (tup (tsub (tadd (tvar 0) (tvar 2)) (tsub (tvar 1) (tvar 0))))), RNE).
Proof. split; reflexivity. Qed.

Print Assumptions C88_neg.
Print Assumptions C88_add.
Print Assumptions C88_add_number.
Print Assumptions C88_number_add.
Print Assumptions C88_sub.
Print Assumptions C88_sub_number.
Print Assumptions C88_number_sub.
Print Assumptions C88_add_assign.
Print Assumptions C88_sub_assign.
Print Assumptions C88_add_assign_number.
Print Assumptions C88_sub_assign_number.
Print Assumptions C88_test.

(** * Symbolic intervals (test/add.cpp) *)

From Coq Require Import Reals ZArith Lra Lia Bool Arith.
From Verif Require Import Outcome Base Interval Utility Arith ExAdd.
Local Open Scope R_scope.

(** ** The recursion of operator+ and operator- ends *)
Lemma tsize_pos t : (1 <= tsize t)%nat.
Proof. induction t; simpl; lia. Qed.
Definition weight (minus : bool) a b : nat :=
  2 * (tsize a + tsize b) + (if minus then 0 else match a, b with tvar i, tvar j => if (j <? i)%nat then 1 else 0 | _, _ => 0 end).
Lemma t_op_fuel f g minus a b : (weight minus a b <= f)%nat -> (weight minus a b <= g)%nat ->
  t_op f minus a b = t_op g minus a b.
Proof.
  revert g minus a b. induction f as [|f IH]; intros g minus a b Hf Hg.
  - exfalso. unfold weight in Hf. pose proof (tsize_pos a). lia.
  - destruct g as [|g]; [exfalso; unfold weight in Hg; pose proof (tsize_pos a); lia|].
    assert (W : forall m x y, (tsize x + tsize y < tsize a + tsize b)%nat -> t_op f m x y = t_op g m x y).
    { intros m x y L. apply IH; unfold weight in *; destruct m; try lia;
        destruct x, y; try lia; cbn [tsize] in *; destruct (v0 <? v)%nat; try lia;
        destruct minus; lia. }
    cbn [t_op]. destruct minus.
    + destruct b; auto. apply W. simpl. lia.
    + destruct a; destruct b; try reflexivity; try (apply W; simpl; lia).
      destruct (v0 <? v)%nat eqn:E; auto. apply IH; unfold weight in *; simpl in *;
        rewrite E in *; apply Nat.ltb_lt in E; assert ((v <? v0)%nat = false) by (apply Nat.ltb_ge; lia);
        rewrite H; lia.
Qed.
Lemma fuel_enough minus a b f : (S (2 * (tsize a + tsize b)) <= f)%nat -> t_op f minus a b = if minus then t_sub a b else t_add a b.
Proof.
  intros H. transitivity (t_op (S (2 * (tsize a + tsize b))) minus a b); [|destruct minus; reflexivity].
  apply t_op_fuel; unfold weight; destruct minus; try lia;
    destruct a, b; try lia; destruct (v0 <? v)%nat; lia.
Qed.
(** The functions are the recursive ones of the test. *)
Lemma t_sub_eq a b : t_sub a b = match b with tneg e => t_add a e | _ => tsub a b end.
Proof.
  unfold t_sub. cbn [t_op]. destruct b; auto. rewrite fuel_enough; [reflexivity|simpl; lia].
Qed.
Lemma t_add_eq a b : t_add a b =
  match a, b with
  | tneg e, _ => t_sub b e
  | _, tneg e => t_sub a e
  | tvar i, tvar j => if (j <? i)%nat then t_add b a else tadd a b
  | _, _ => tadd a b
  end.
Proof.
  unfold t_add at 1. cbn [t_op].
  destruct a; destruct b; try reflexivity; try (rewrite fuel_enough; [reflexivity|simpl; lia]).
  destruct (v0 <? v)%nat eqn:E; auto. cbn [tsize].
  rewrite (t_op_fuel (2 * (1 + 1)) (S (2 * (1 + 1))) false (tvar v0) (tvar v)); [reflexivity| |];
    unfold weight; simpl; apply Nat.ltb_lt in E; assert (K : (v <? v0)%nat = false) by (apply Nat.ltb_ge; lia);
    destruct v; try lia; change (S v <=? v0)%nat with (S v <=? v0)%nat; try (rewrite K); lia.
Qed.
Lemma var_comm i j : t_add (tvar i) (tvar j) = t_add (tvar j) (tvar i).
Proof.
  assert (K : forall i j, (j < i)%nat -> t_add (tvar i) (tvar j) = t_add (tvar j) (tvar i)).
  { intros a b L. rewrite (t_add_eq (tvar a)). rewrite (proj2 (Nat.ltb_lt b a)) by lia. reflexivity. }
  destruct (Nat.lt_trichotomy i j) as [H|[->|H]]; [symmetry; apply K, H|reflexivity|apply K, H].
Qed.

(** * test/add.cpp: intervals over symbolic expressions

    A base type whose values are formulas, with its own rounding_control.  The
    heap-allocated immutable trees are terms; operator< is not declared for them
    and is never called. *)

From Coq Require Import ZArith Bool Arith.
From Verif Require Import Outcome Base Interval Utility Arith.

(** add.cpp:21-36 *)
Inductive term :=
| tvar (v : nat) | tneg (e : term) | tup (e : term) | tdown (e : term)
| tadd (e1 e2 : term) | tsub (e1 e2 : term).

Fixpoint tsize (t : term) : nat :=
  match t with
  | tvar _ => 1 | tneg e | tup e | tdown e => S (tsize e)
  | tadd a b | tsub a b => S (tsize a + tsize b)
  end.
(** add.cpp:48-66: operator+ and operator- call each other; [minus] says which one.
    The calls are bounded by the size of the operands (AddProof.v: t_add_eq, t_sub_eq). *)
Fixpoint t_op (fuel : nat) (minus : bool) (a b : term) : term :=
  match fuel with
  | O => if minus then tsub a b else tadd a b
  | S n =>
      if minus then
        match b with tneg e => t_op n false a e | _ => tsub a b end
      else
        match a with
        | tneg e => t_op n true b e
        | _ =>
            match b with
            | tneg e => t_op n true a e
            | _ =>
                match a, b with
                | tvar i, tvar j => if (j <? i)%nat then t_op n false b a else tadd a b
                | _, _ => tadd a b
                end
            end
        end
  end.
Definition t_add (a b : term) : term := t_op (S (2 * (tsize a + tsize b))) false a b.
Definition t_sub (a b : term) : term := t_op (S (2 * (tsize a + tsize b))) true a b.
(** add.cpp:82-92 *)
Fixpoint t_neg (a : term) : term :=
  match a with
  | tneg e => e
  | tup e => tdown (t_neg e)
  | tdown e => tup (t_neg e)
  | tsub e1 e2 => t_sub e2 e1
  | tadd e1 e2 => t_sub (t_neg e1) e2
  | tvar _ => tneg a
  end.
(** add.cpp:94-100 *)
Fixpoint t_eq (a b : term) : bool :=
  match a, b with
  | tvar i, tvar j => (i =? j)%nat
  | tneg x, tneg y | tup x, tup y | tdown x, tdown y => t_eq x y
  | tadd x1 x2, tadd y1 y2 | tsub x1 x2, tsub y1 y2 => t_eq x1 y1 && t_eq x2 y2
  | _, _ => false
  end.

(** The operations the test does not use do not exist: undefined here. *)
Definition term_num : num := {|
  T := term; X := term;
  n_lt := fun _ _ => false;
  n_le := fun _ _ => true;              (* add.cpp:102 *)
  n_eq := t_eq;
  n_cst := fun _ => tvar 0;
  n_of_int := fun _ _ => UB;
  n_load := fun t => t;
  n_store := fun _ t => Ok t;
  x_add := fun _ a b => Ok (t_add a b);
  x_sub := fun _ a b => Ok (t_sub a b);
  x_mul := fun _ _ _ => UB;
  x_div := fun _ _ _ => UB;
  x_opp := fun a => Ok (t_neg a);
  x_lt := fun _ _ => false;
  x_sqrt := fun _ _ => UB;
  n_rint := fun _ _ => UB;
  n_floor := fun _ => UB;
  n_ceil := fun _ => UB;
  n_has_inf := false; n_has_nan := false;
  n_inf := tvar 0; n_nan := tvar 0
|}.

(** add.cpp:108-126.  RND_M is RNE.  The constructor of a rounding object stores RND_M
    in the mode before save_state reads it: [rc_get] does both. *)
Definition term_control : control term_num := {|
  rc_get := fun _ => (Ok RNE, RNE);
  rc_set := set_mode;
  rc_up := set_mode RUP;
  rc_down := set_mode RDN;
  rc_near := fun s => (UB, s);
  rc_to_int := fun _ s => (UB, s);
  rc_force := fun (t : X term_num) s =>
    match s with
    | RUP => (Ok (tup t : T term_num), s)
    | RDN => (Ok (tdown t : T term_num), s)
    | _ => (Throw NumberError, s)       (* throws a string *)
    end
|}.

(** add.cpp:198-207.  pos_inf, neg_inf, nan and the bounds of the empty interval
    call terminate (throw without an exception). *)
Definition term_checking : checking term_num :=
  let stop : M (T term_num) := fun s => (AssertFail, s) in {|
  ck_pos_inf := stop; ck_neg_inf := stop; ck_nan := stop;
  ck_is_nan := fun _ => ret false;
  ck_empty_lower := stop; ck_empty_upper := stop;
  ck_is_empty := fun _ _ => false
|}.

(** add.cpp:209-216, 219-220: I1 (opp = false) and I2. *)
Definition term_pol (opp : bool) (ord : site -> bool) : policy term_num := {|
  p_prot := Save;
  p_ctl := term_control;
  p_ar := if opp then arith_opp term_num term_control else arith_std term_num term_control;
  p_ck := term_checking;
  p_ord := ord
|}.

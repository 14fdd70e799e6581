(** * Client programs: sequences of statements over interval objects

    The objects are numbered.  Every statement is one or two uses of the
    library; a statement that throws is assumed to be caught, so that the next
    one runs on whatever state the exception left behind. *)

From Coq Require Import Reals ZArith List.
From Verif Require Import Outcome Base Checking Interval Utility Arith Arith2 FloatNum Spec Ops.
Import ListNotations.
Local Open Scope R_scope.

(** += -= *= /= *)
Inductive cop := K_add | K_sub | K_mul | K_div.

Section Client.
Context {N : num} (P : policy N) (eo : expr N -> bool).
Notation I := (itv N).
(** The objects and the rounding mode. *)
Definition state : Type := (nat -> I) * rmode.

(** A number argument: a value, or a reference to a bound of some object. *)
Inductive numref := R_val (v : T N) | R_lower (j : nat) | R_upper (j : nat).
(** Its value ... *)
Definition num_of (rho : nat -> I) (r : numref) : T N :=
  match r with R_val v => v | R_lower j => low (rho j) | R_upper j => up (rho j) end.
(** ... and how a member function of object [d] sees it. *)
Definition seen (rho : nat -> I) (d : nat) (r : numref) : nref :=
  match r with
  | R_val v => NVal v
  | R_lower j => if Nat.eqb j d then NLow else NVal (low (rho j))
  | R_upper j => if Nat.eqb j d then NUp else NVal (up (rho j))
  end.
Definition iseen (rho : nat -> I) (d j : nat) : iref := if Nat.eqb j d then IThis else IVal (rho j).

Inductive stmt :=
| S_eval (d : nat) (e : expr N)                    (* d = e; *)
| S_copy (d j : nat)                               (* d = j; *)
| S_op (o : cop) (d j : nat)                       (* d += j; *)
| S_opn (o : cop) (d : nat) (r : numref)           (* d += v; *)
| S_num (d : nat) (r : numref)                     (* d = v; *)
| S_assign (d : nat) (l u : numref)                (* d.assign(l, u); *)
| S_set_empty (d : nat)                            (* d.set_empty(); *)
| S_set_whole (d : nat)                            (* d.set_whole(); *)
| S_bisect (d1 d2 j : nat)                         (* pair p = bisect(j); d1 = p.first; d2 = p.second; *)
| S_fmod (d i j : nat)                             (* d = fmod(i, j); *)
| S_root (d j : nat) (n : Z) (dbg : bool) (fuel : nat).   (* d = nth_root(j, n); *)

Definition upd (rho : nat -> I) (d : nat) (x : I) : nat -> I := fun n => if Nat.eqb n d then x else rho n.
(** A member function called on object [d]. *)
Definition on (d : nat) (m : MO unit (N := N)) (st : state) : outcome unit * state :=
  let '(o, x, s) := m (fst st d) (snd st) in (o, (upd (fst st) d x, s)).
(** A computation whose result is then used. *)
Definition with_result {A} (m : M A) (k : A -> state -> outcome unit * state) (st : state) : outcome unit * state :=
  match m (snd st) with
  | (Ok a, s) => k a (fst st, s)
  | (Throw e, s) => (Throw e, (fst st, s))
  | (AssertFail, s) => (AssertFail, (fst st, s))
  | (UB, s) => (UB, (fst st, s))
  | (NoFuel, s) => (NoFuel, (fst st, s))
  end.

Definition member (o : cop) : iref -> MO unit (N := N) :=
  match o with K_add => m_add P | K_sub => m_sub P | K_mul => m_mul P | K_div => m_div P end.
Definition member_n (o : cop) : nref -> MO unit (N := N) :=
  match o with K_add => m_add_n P | K_sub => m_sub_n P | K_mul => m_mul_n P | K_div => m_div_n P end.

Definition step (c : stmt) (st : state) : outcome unit * state :=
  let rho := fst st in
  match c with
  | S_eval d e => with_result (eval P eo rho e) (fun z => on d (m_copy (IVal z))) st
  | S_copy d j => on d (m_copy (iseen rho d j)) st
  | S_op o d j => on d (member o (iseen rho d j)) st
  | S_opn o d r => on d (member_n o (seen rho d r)) st
  | S_num d r => on d (m_assign_num P (seen rho d r)) st
  | S_assign d l u => on d (m_assign P (seen rho d l) (seen rho d u)) st
  | S_set_empty d => on d (m_set_empty P) st
  | S_set_whole d => on d (m_set_whole P) st
  | S_bisect d1 d2 j => with_result (bisect P (rho j))
      (fun ab st1 => let (_, st2) := on d1 (m_copy (IVal (fst ab))) st1 in on d2 (m_copy (IVal (snd ab))) st2) st
  | S_fmod d i j => with_result (fmod P (rho i) (rho j)) (fun z => on d (m_copy (IVal z))) st
  | S_root d j n dbg fuel => with_result (nth_root P dbg fuel (rho j) n) (fun z => on d (m_copy (IVal z))) st
  end.
(** Exceptions are caught; anything worse ends the program. *)
Fixpoint run_all (l : list stmt) (st : state) : state :=
  match l with
  | [] => st
  | c :: l' =>
      match step c st with
      | (Ok _, st') | (Throw _, st') => run_all l' st'
      | (_, st') => st'
      end
  end.
End Client.
Arguments R_val {N} v. Arguments R_lower {N} j. Arguments R_upper {N} j.
Arguments S_eval {N} d e. Arguments S_copy {N} d j. Arguments S_op {N} o d j. Arguments S_opn {N} o d r.
Arguments S_num {N} d r. Arguments S_assign {N} d l u. Arguments S_set_empty {N} d. Arguments S_set_whole {N} d.
Arguments S_bisect {N} d1 d2 j. Arguments S_fmod {N} d i j. Arguments S_root {N} d j n dbg fuel.

(** * test/det.cpp

    Gaussian elimination with total pivoting on the matrix 1/(i+j+1), written as a
    client program (Program.v) that makes its calls through the protected interval
    type ([b = true]) or through the unprotected one.  The dimension is any
    natural number (8 in the test).  Loops are written with continuations, array
    cells are a function of the indices.  Compound assignment is the operator
    followed by a copy (C08), I(1) and I(i + j + 1) convert small ints exactly
    (C31): both are simplified to the constructor from a number. *)

From Coq Require Import ZArith Bool List Arith.
From Verif Require Import Outcome Base Checking Interval Utility Arith Arith2 FloatNum Spec Program.

Section Det.
Context {p : platform} {A : Type} (b : bool) (size : nat).
Notation N := (fnum p).
Notation I := (itv N).
Notation prog := (prog (p := p) A).
Definition matrix : Type := nat -> nat -> I.
Definition cell (mat : matrix) (i j : nat) (v : I) : matrix :=
  fun a c => if Nat.eqb a i && Nat.eqb c j then v else mat a c.

(** for (int i = from; i < to; i++) body *)
Fixpoint over {S : Type} (l : list nat) (body : nat -> S -> (S -> prog) -> prog) (s : S) (k : S -> prog) : prog :=
  match l with
  | nil => k s
  | i :: l => body i s (fun s => over l body s k)
  end.
Definition from (i : nat) : list nat := seq i (size - i).

(** test/det.cpp:19-21 *)
Definition det_init (mat : matrix) (k : matrix -> prog) : prog :=
  over (from 0) (fun i mat k =>
    over (from 0) (fun j mat k =>
      Call b (CNum p (n_cst N 1)) (fun x =>
      Call b (CNum p (n_cst N (Z.of_nat (i + j + 1)))) (fun y =>
      Call b (CDiv p x y) (fun q => k (cell mat i j q))))) mat k) mat k.

(** test/det.cpp:24-30: the pivot (m, n) and its lower bound v *)
Definition det_pivot (mat : matrix) (i : nat) (k : nat * nat * T N -> prog) : prog :=
  over (from i) (fun a mnv k =>
    over (from i) (fun c mnv k =>
      Call b (CAbs p (mat a c)) (fun t =>
      let w := low t in
      k (if n_gt w (snd mnv) then (a, c, w) else mnv))) mnv k) (i, i, zero) k.

(** test/det.cpp:31-36 *)
Definition det_columns (mat : matrix) (i n : nat) : matrix :=
  if Nat.eqb n i then mat else
  fold_left (fun mat a => let t := mat a n in cell (cell mat a n (mat a i)) a i t) (from 0) mat.
(** test/det.cpp:37-42 (the code exchanges cells of row m with one another) *)
Definition det_rows (mat : matrix) (i m : nat) : matrix :=
  if Nat.eqb m i then mat else
  fold_left (fun mat c => let t := mat m c in cell (cell mat m c (mat m i)) m i t) (from i) mat.

(** test/det.cpp:45-49; c is the copy made on line 44 *)
Definition det_eliminate (mat : matrix) (i : nat) (c : I) (k : matrix -> prog) : prog :=
  over (from (i + 1)) (fun j mat k =>
    Call b (CDiv p (mat j i) c) (fun f =>
    over (from i) (fun l mat k =>
      Call b (CMul p f (mat i l)) (fun t =>
      Call b (CSub p (mat j l) t) (fun d => k (cell mat j l d)))) mat k)) mat k.

(** test/det.cpp:23-51: one step of the outer loop, with what follows it and the
    early return *)
Fixpoint det_steps (l : list nat) (mat : matrix) (k : matrix -> prog) : prog :=
  match l with
  | nil => k mat
  | i :: l =>
    det_pivot mat i (fun mnv =>
      let mat := det_rows (det_columns mat i (snd (fst mnv))) i (fst (fst mnv)) in
      let c := mat i i in
      det_eliminate mat i c (fun mat =>
      Call b (CZeroIn p c) (fun z => if z then k mat else det_steps l mat k)))
  end.

(** test/det.cpp:18-52 *)
Definition det (mat : matrix) (k : matrix -> prog) : prog :=
  det_init mat (fun mat => det_steps (seq 0 (size - 1)) mat k).
End Det.

Section Test.
Context {p : platform} (size : nat).
Notation matrix := (matrix (p := p)).

(** test/det.cpp:78-79: det(mat_op) and det(mat_sp) *)
Definition det_protected (mat : matrix) : prog (p := p) matrix := det true size mat Ret.
(** test/det.cpp:80-81: { rounding rnd; det(mat_ou); } *)
Definition det_scope (mat : matrix) : prog (p := p) matrix := Scope (det false size mat Ret) Ret.

(** test/det.cpp:71-93, with the policies of I_op and I_sp (lines 60-68).  The
    test always uses double, whatever its parameter; here the format is a
    parameter.  The conversions of the matrices to I_op copy the bounds (C29). *)
Definition det_test (Pop Psp : policy (fnum p)) (mat : matrix) : M bool :=
  let! op := exec Pop (det_protected mat) in
  let! sp := exec Psp (det_protected mat) in
  let! ou := exec Pop (det_scope mat) in
  let! su := exec Psp (det_scope mat) in
  ret (forallb (fun i => forallb (fun j =>
    equal Pop (op i j) (sp i j) && equal Pop (sp i j) (ou i j) && equal Pop (ou i j) (su i j))
    (seq 0 size)) (seq 0 size)).
End Test.

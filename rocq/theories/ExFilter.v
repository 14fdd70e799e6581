(** * examples/filter.cpp

    The two functions computing the sign of a determinant.  A matrix is the list
    of its lines; the C++ storage is one block addressed by line and column
    (filter.cpp:42-47), so an index outside of a line is undefined behaviour here
    even where it would stay inside of the block.  The storage obtained from
    malloc is not initialised: the functions below take its contents [raw] as an
    argument.  Subscripts are never negative in these functions, so they are
    natural numbers; int overflow and memory exhaustion are not modelled. *)

From Coq Require Import ZArith Bool List Arith.
From Flocq Require Import Core BinarySingleNaN.
From Verif Require Import Outcome Base Checking Interval Utility Arith Arith2 Compare FloatNum.
Import ListNotations.
Local Open Scope nat_scope.

(** ptr[i] as a value (filter.cpp:33) and as a place stored to (filter.cpp:34) *)
Definition at_ {A} (l : list A) (i : nat) : M A :=
  match nth_error l i with Some v => ret v | None => fail UB end.
Fixpoint put {A} (l : list A) (i : nat) (v : A) : list A :=
  match l, i with
  | [], _ => []
  | _ :: q, O => v :: q
  | a :: q, S i => a :: put q i v
  end.
Definition put_ {A} (l : list A) (i : nat) (v : A) : M (list A) :=
  if i <? length l then ret (put l i v) else fail UB.
(** m[r][c], filter.cpp:46-47 *)
Definition cell {A} (m : list (list A)) (r c : nat) : M A := let! l := at_ m r in at_ l c.
Definition set_cell {A} (m : list (list A)) (r c : nat) (v : A) : M (list (list A)) :=
  let! l := at_ m r in let! l' := put_ l c v in put_ m r l'.
(** for(int j = lo; j < lo + n; j++) body, [a] being what the body modifies *)
Fixpoint for_ {A} (n lo : nat) (body : nat -> A -> M A) (a : A) : M A :=
  match n with
  | O => ret a
  | S n => let! a' := body lo a in for_ n (S lo) body a'
  end.
(** The object after a member function has modified it. *)
Definition after {N} (m : MO (N := N) unit) (x : itv N) : M (itv N) := fun s =>
  let '(o, x', s') := m x s in (omap (fun _ => x') o, s').

(** tmp = p[i]; p[i] = p[k]; p[k] = tmp (filter.cpp:85-87, 130-132) *)
Definition exchange (p : list nat) (i k : nat) : M (list nat) :=
  let! tmp := at_ p i in
  let! v := at_ p k in
  let! p := put_ p i v in
  put_ p k tmp.

(** ** det_sign_algo1 *)
Section Algo1.
Context {N : num} (P : policy N).
Notation I := (itv N).
Notation Pu := (unprotect P).
Notation state := (list (list I) * list nat * Z)%type.

(** filter.cpp:64-69 *)
Definition algo1_load (dim : nat) (a : list (list (T N))) (u : list (list I)) : M (list (list I)) :=
  for_ dim 0 (fun i u =>
    for_ dim 0 (fun j u =>
      let! v := cell a i j in
      let! old := cell u i j in
      let! x := after (m_assign_num Pu (NVal v)) old in
      set_cell u i j x) u) u.
(** filter.cpp:74-81: the pair (pivot, max) *)
Definition algo1_pivot (dim i : nat) (u : list (list I)) (p : list nat) : M (nat * T N) :=
  for_ (dim - i) i (fun j pm =>
    let! r := at_ p j in
    let! v := cell u r i in
    if zero_in Pu v then ret pm
    else
      let! m := norm Pu v in
      if n_gt m (snd pm) then ret (j, m) else ret pm) (i, zero).
(** filter.cpp:95-99, [r1] being p[i] *)
Definition algo1_line (dim i r1 r2 : nat) (u : list (list I)) : M (list (list I)) :=
  let! t := cell u r2 i in
  let! pivot := cell u r1 i in
  let! fact := op_div Pu t pivot in
  for_ (dim - S i) (S i) (fun j u =>
    let! v := cell u r1 j in
    let! m := op_mul Pu fact v in
    let! old := cell u r2 j in
    let! x := after (m_sub Pu (IVal m)) old in
    set_cell u r2 j x) u.
Definition algo1_lines (dim i r1 : nat) (p : list nat) (u : list (list I)) : M (list (list I)) :=
  for_ (dim - S i) (S i) (fun k u => let! r2 := at_ p k in algo1_line dim i r1 r2 u) u.
(** filter.cpp:71-101, one iteration; [None] is the return 0 of line 82 *)
Definition algo1_step (dim i : nat) (st : state) : M (option state) :=
  let '(u, p, sig) := st in
  let! pm := algo1_pivot dim i u p in
  if n_eq N (snd pm) zero then ret None
  else
    let! ps := (if fst pm =? i then ret (p, sig)
                else let! p := exchange p i (fst pm) in ret (p, (- sig)%Z)) in
    let (p, sig) := ps in
    let! r1 := at_ p i in
    let! pivot := cell u r1 i in
    let sig := if cerlt_in pivot zero then (- sig)%Z else sig in
    let! u := algo1_lines dim i r1 p u in
    ret (Some (u, p, sig)).
(** filter.cpp:71-102 *)
Fixpoint algo1_lu (dim n i : nat) (st : state) : M Z :=
  match n with
  | O => ret (snd st)
  | S n =>
      let! o := algo1_step dim i st in
      match o with None => ret 0%Z | Some st' => algo1_lu dim n (S i) st' end
  end.
(** filter.cpp:56-103; p[i] = i is written by line 59 *)
Definition det_sign_algo1 (a : list (list (T N))) (raw : list (list I)) : M Z :=
  let dim := length a in
  let p := seq 0 dim in
  with_rnd P (
    let! u := algo1_load dim a raw in
    algo1_lu dim dim 0 (u, p, 1%Z)).
End Algo1.

(** ** det_sign_algo2

    For a floating-point type.  An expression on the base type is rounded in the
    current mode, in the evaluation format of the platform, and rounded again
    when it is stored. *)
Section Algo2.
Context {p : platform} (P : policy (fnum p)).
Notation N := (fnum p).
Notation I := (itv N).
Notation Pu := (unprotect P).
Notation fstate := (list (list (T N)) * list nat * Z)%type.

(** std::abs *)
Definition f_abs (x : T N) : T N := Babs x.
(** s -= a * b *)
Definition f_sub_mul (s a b : T N) : M (T N) :=
  let! m := e_mul (n_load N a) (n_load N b) in
  let! d := e_sub (n_load N s) m in
  e_store d.
(** a / b stored *)
Definition f_div (a b : T N) : M (T N) :=
  let! q := e_div (n_load N a) (n_load N b) in e_store q.

(** filter.cpp:121-126: the pair (pivot, max) *)
Definition algo2_pivot (dim i : nat) (lu : list (list (T N))) (q : list nat) : M (nat * T N) :=
  let! r := at_ q i in
  let! v := cell lu r i in
  for_ (dim - S i) (S i) (fun j pm =>
    let! r := at_ q j in
    let! v := cell lu r i in
    let m := f_abs v in
    if n_gt m (snd pm) then ret (j, m) else ret pm) (i, f_abs v).
(** filter.cpp:140-145 *)
Definition algo2_lines (dim i r1 : nat) (q : list nat) (pivot : T N) (lu : list (list (T N))) : M (list (list (T N))) :=
  for_ (dim - S i) (S i) (fun k lu =>
    let! r2 := at_ q k in
    let! t := cell lu r2 i in
    let! fact := f_div t pivot in
    let! lu := set_cell lu r2 i fact in
    for_ (dim - S i) (S i) (fun j lu =>
      let! v := cell lu r1 j in
      let! old := cell lu r2 j in
      let! x := f_sub_mul old v fact in
      set_cell lu r2 j x) lu) lu.
(** filter.cpp:118-147, one iteration; [None] is the return 0 of line 127 *)
Definition algo2_step (dim i : nat) (st : fstate) : M (option fstate) :=
  let '(lu, q, sig) := st in
  let! pm := algo2_pivot dim i lu q in
  if n_eq N (snd pm) zero then ret None
  else
    let! qs := (if fst pm =? i then ret (q, sig)
                else let! q := exchange q i (fst pm) in ret (q, (- sig)%Z)) in
    let (q, sig) := qs in
    let! r1 := at_ q i in
    let! pivot := cell lu r1 i in
    let sig := if n_lt N pivot zero then (- sig)%Z else sig in
    let! lu := algo2_lines dim i r1 q pivot lu in
    ret (Some (lu, q, sig)).
Fixpoint algo2_lu (dim n i : nat) (st : fstate) : M (option fstate) :=
  match n with
  | O => ret (Some st)
  | S n =>
      let! o := algo2_step dim i st in
      match o with None => ret None | Some st' => algo2_lu dim n (S i) st' end
  end.
(** filter.cpp:150-164 *)
Definition algo2_inverse (dim : nat) (lu : list (list (T N))) (q : list nat) (lui : list (list (T N))) : M (list (list (T N))) :=
  for_ dim 0 (fun j lui =>
    let! lui := for_ (dim - S j) (S j) (fun i lui =>
      let! r := at_ q i in
      let! v := cell lu r j in
      let! s := neg v in
      let! s := for_ (i - S j) (S j) (fun k s =>
        let! a := cell lu r k in
        let! b := cell lui k j in
        f_sub_mul s a b) s in
      set_cell lui i j s) lui in
    let! r := at_ q j in
    let! d := cell lu r j in
    let! x := f_div one d in
    let! lui := set_cell lui j j x in
    for_ j 0 (fun i' lui =>
      let i := j - S i' in
      let! r := at_ q i in
      let! s := for_ (j - i) (S i) (fun k s =>
        let! a := cell lu r k in
        let! b := cell lui k j in
        f_sub_mul s a b) zero in
      let! d := cell lu r i in
      let! x := f_div s d in
      set_cell lui i j x) lui) lui.

(** filter.cpp:174-183: the line i of PAUi; [l1] is the line p[i] of a *)
Definition algo2_row1 (dim : nat) (l1 : list (T N)) (lui : list (list (T N))) (m1 : list I) : M (list I) :=
  let! m1 := for_ dim 0 (fun j m1 =>
    let! old := at_ m1 j in
    let! x := after (m_assign_src Pu (src_sint p 32) 0%Z) old in
    put_ m1 j x) m1 in
  for_ dim 0 (fun j m1 =>
    let! v := at_ l1 j in
    for_ (dim - j) j (fun k m1 =>
      let! w := cell lui j k in
      let! t := n_mul Pu v w in
      let! old := at_ m1 k in
      let! x := after (m_add Pu (IVal t)) old in
      put_ m1 k x) m1) m1.
(** filter.cpp:184-191: the line i of PAUiLi-I *)
Definition algo2_row2 (dim i : nat) (lui : list (list (T N))) (m1 m2 : list I) : M (list I) :=
  let! m2 := for_ dim 0 (fun j m2 =>
    let! v := at_ m1 j in
    let! old := at_ m2 j in
    let! x := after (m_copy (IVal v)) old in
    put_ m2 j x) m2 in
  let! m2 := for_ (dim - 1) 1 (fun j m2 =>
    let! v := at_ m1 j in
    for_ j 0 (fun k m2 =>
      let! w := cell lui j k in
      let! t := op_mul_in Pu v w in
      let! old := at_ m2 k in
      let! x := after (m_add Pu (IVal t)) old in
      put_ m2 k x) m2) m2 in
  let! old := at_ m2 i in
  let! x := after (m_sub_n Pu (NVal one)) old in
  put_ m2 i x.
(** filter.cpp:192-193 *)
Definition algo2_norm (dim : nat) (m2 : list I) : M (T N) :=
  for_ dim 0 (fun j ss =>
    let! v := at_ m2 j in
    let! t := norm Pu v in
    add_up (p_ar P) ss t) zero.
(** filter.cpp:173-195: false is the return 0 of line 194 *)
Fixpoint algo2_check (dim : nat) (a : list (list (T N))) (q : list nat) (lui : list (list (T N)))
    (n i : nat) (m1 m2 : list I) : M bool :=
  match n with
  | O => ret true
  | S n =>
      let! r := at_ q i in
      let! l1 := at_ a r in
      let! m1 := algo2_row1 dim l1 lui m1 in
      let! m2 := algo2_row2 dim i lui m1 m2 in
      let! ss := algo2_norm dim m2 in
      if n_ge ss one then ret false else algo2_check dim a q lui n (S i) m1 m2
  end.
(** filter.cpp:108-198; [raw_lui], [raw1], [raw2] are the initial contents of
    lui, m1 and m2 *)
Definition det_sign_algo2 (a : list (list (T N))) (raw_lui : list (list (T N))) (raw1 raw2 : list I) : M Z :=
  let dim := length a in
  let! o := algo2_lu dim dim 0 (a, seq 0 dim, 1%Z) in
  match o with
  | None => ret 0%Z
  | Some (lu, q, sig) =>
      let! lui := algo2_inverse dim lu q raw_lui in
      let! b := with_rnd P (algo2_check dim a q lui dim 0 raw1 raw2) in
      ret (if b then sig else 0%Z)
  end.
End Algo2.

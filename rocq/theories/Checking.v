(** * Checking policies (checking.hpp) *)

From Coq Require Import ZArith Bool.
From Verif Require Import Outcome Base.

Section Checking.
Context (N : num).
(** Whether [assert] is compiled in (NDEBUG not defined). *)
Context (debug : bool).

Definition assert_ (b : bool) : M unit :=
  if debug then (if b then ret tt else fail AssertFail) else ret tt.

(** checking.hpp:38-74 *)
Definition checking_base : checking N := {|
  ck_pos_inf := assert_ (n_has_inf N) ;;; ret (n_inf N);
  ck_neg_inf := assert_ (n_has_inf N) ;;; neg (n_inf N);
  ck_nan := assert_ (n_has_nan N) ;;; ret (n_nan N);
  ck_is_nan := fun x => ret (n_has_nan N && n_ne x x);
  ck_empty_lower := ret (if n_has_nan N then n_nan N else one);
  ck_empty_upper := ret (if n_has_nan N then n_nan N else zero);
  ck_is_empty := fun l u => negb (n_le N l u)
|}.

(** checking.hpp:76-99; [e] is what the Exception functor throws. *)
Definition checking_no_empty (e : exn) (c : checking N) : checking N := {|
  ck_pos_inf := ck_pos_inf c;
  ck_neg_inf := ck_neg_inf c;
  ck_nan := assert_ false ;;; ck_nan c;
  ck_is_nan := ck_is_nan c;
  ck_empty_lower := throw e;
  ck_empty_upper := throw e;
  ck_is_empty := fun _ _ => false
|}.

(** checking.hpp:101-108 *)
Definition checking_no_nan (c : checking N) : checking N := {|
  ck_pos_inf := ck_pos_inf c;
  ck_neg_inf := ck_neg_inf c;
  ck_nan := ck_nan c;
  ck_is_nan := fun _ => ret false;
  ck_empty_lower := ck_empty_lower c;
  ck_empty_upper := ck_empty_upper c;
  ck_is_empty := ck_is_empty c
|}.

(** checking.hpp:110-119 *)
Definition checking_catch_nan (e : exn) (c : checking N) : checking N := {|
  ck_pos_inf := ck_pos_inf c;
  ck_neg_inf := ck_neg_inf c;
  ck_nan := ck_nan c;
  ck_is_nan := fun x =>
    let! b := ck_is_nan c x in if b then throw e else ret false;
  ck_empty_lower := ck_empty_lower c;
  ck_empty_upper := ck_empty_upper c;
  ck_is_empty := ck_is_empty c
|}.

(** checking.hpp:121-124 *)
Definition checking_strict : checking N :=
  checking_no_nan (checking_no_empty EmptyCreated checking_base).
End Checking.

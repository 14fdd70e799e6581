(** * Constants and transcendental functions

    constants.hpp, rounded_transc.hpp and transc.hpp.  The mathematical library
    is an oracle: one function per C library function, giving its result in
    each rounding mode. *)

From Coq Require Import ZArith Bool.
From Flocq Require Import Core BinarySingleNaN.
From Verif Require Import Outcome Base Checking Interval Utility Arith Arith2 FloatNum.
Local Open Scope Z_scope.

(** ** constants.hpp *)

(** constants.hpp:27-32: the six function templates, evaluated in the current
    mode. *)
Record consts (N : num) := {
  k_pi_l : M (T N); k_pi_u : M (T N);
  k_half_l : M (T N); k_half_u : M (T N);
  k_twice_l : M (T N); k_twice_u : M (T N)
}.
Arguments k_pi_l {N} c. Arguments k_pi_u {N} c.
Arguments k_half_l {N} c. Arguments k_half_u {N} c.
Arguments k_twice_l {N} c. Arguments k_twice_u {N} c.

(** constants.hpp:27-32: the primary templates return an int, converted to T. *)
Definition consts_generic (N : num) : consts N :=
  let int (z : Z) := under_mode (fun m => n_of_int N m z) in {|
  k_pi_l := int 3; k_pi_u := int 4;
  k_half_l := int 1; k_half_u := int 2;
  k_twice_l := int 6; k_twice_u := int 7
|}.

(** constants.hpp:22-23: [k.0f / (1<<22)], evaluated when the program starts,
    in mode [m0], in the evaluation format, then stored. *)
Definition pi_f (p : platform) (m0 : rmode) (k : Z) : flt (p_T p) :=
  let lit (z : Z) := fconv (p_T p) (p_X p) RNE (f_of_Z (p_T p) RNE z) in
  let int (z : Z) := fconv (p_T p) (p_X p) RNE (f_of_Z (p_T p) m0 z) in
  fconv (p_X p) (p_T p) m0 (fdiv m0 (lit k) (int (Z.shiftl 1 22))).
(** constants.hpp:24-25: [(3373259426.0 + k.0 / (1<<21)) / (1<<30)]. *)
Definition pi_d (p : platform) (m0 : rmode) (k : Z) : flt (p_T p) :=
  let lit (z : Z) := fconv (p_T p) (p_X p) RNE (f_of_Z (p_T p) RNE z) in
  let int (z : Z) := fconv (p_T p) (p_X p) RNE (f_of_Z (p_T p) m0 z) in
  fconv (p_X p) (p_T p) m0
    (fdiv m0 (fadd m0 (lit 3373259426) (fdiv m0 (lit k) (int (Z.shiftl 1 21)))) (int (Z.shiftl 1 30))).

(** constants.hpp:34-39 and 41-46: [l], [l / 2], [l * 2] and the same for [u]. *)
Definition consts_from (p : platform) (l u : flt (p_T p)) : consts (fnum p) :=
  let N := fnum p in
  let half (t : T N) := let! q := e_div (n_load N t) (n_load N (n_cst N 2)) in e_store q in
  let twice (t : T N) := let! q := e_mul (n_load N t) (n_load N (n_cst N 2)) in e_store q in {|
  k_pi_l := ret (l : T N); k_pi_u := ret (u : T N);
  k_half_l := half l; k_half_u := half u;
  k_twice_l := twice l; k_twice_u := twice u
|}.
Definition consts_float (p : platform) (m0 : rmode) : consts (fnum p) :=
  consts_from p (pi_f p m0 13176794) (pi_f p m0 13176795).
Definition consts_double (p : platform) (m0 : rmode) : consts (fnum p) :=
  consts_from p (pi_d p m0 273688) (pi_d p m0 273689).
(** constants.hpp:48-53: the double constants, computed as double ([pd] is the
    platform of double) and converted to long double. *)
Definition consts_long_double (p pd : platform) (m0 : rmode) : consts (fnum p) :=
  let N := fnum p in
  let ld (t : flt (p_T pd)) : M (T N) := under_mode (fun m => Ok (fconv (p_T pd) (p_T p) m t : T N)) in
  let two (m : rmode) := fconv (p_T pd) (p_X pd) RNE (f_of_Z (p_T pd) RNE 2) in
  let half (t : flt (p_T pd)) : M (T N) := under_mode (fun m =>
    Ok (fconv (p_X pd) (p_T p) m (fdiv m (fconv (p_T pd) (p_X pd) RNE t) (two m)) : T N)) in
  let twice (t : flt (p_T pd)) : M (T N) := under_mode (fun m =>
    Ok (fconv (p_X pd) (p_T p) m (fmul m (fconv (p_T pd) (p_X pd) RNE t) (two m)) : T N)) in
  let l := pi_d pd m0 273688 in let u := pi_d pd m0 273689 in {|
  k_pi_l := ld l; k_pi_u := ld u;
  k_half_l := half l; k_half_u := half u;
  k_twice_l := twice l; k_twice_u := twice u
|}.


(** constants.hpp:57-79; the arguments of the constructor are evaluated in an
    unspecified order. *)
Section Consts.
Context {N : num} (P : policy N) (K : consts N).
Definition i_pi : M (itv N) := mk_args (p_ord P (H_constants, 61)) (k_pi_l K) (k_pi_u K).
Definition i_pi_half : M (itv N) := mk_args (p_ord P (H_constants, 69)) (k_half_l K) (k_half_u K).
Definition i_pi_twice : M (itv N) := mk_args (p_ord P (H_constants, 77)) (k_twice_l K) (k_twice_u K).
End Consts.

(** ** rounded_transc.hpp *)

Inductive tfun := Fexp | Flog | Fsin | Fcos | Ftan | Fasin | Facos | Fatan
  | Fsinh | Fcosh | Ftanh | Fasinh | Facosh | Fatanh.

(** The C library: the value of the expression [f(x)] in each mode. *)
Definition libm (N : num) : Type := tfun -> rmode -> T N -> X N.
Definition ex_lib {N} (L : libm N) (f : tfun) (x : T N) : M (X N) :=
  under_mode (fun m => Ok (L f m x)).

(** The members f_down and f_up. *)
Record transc (N : num) := {
  tr_down : tfun -> T N -> M (T N);
  tr_up : tfun -> T N -> M (T N)
}.
Arguments tr_down {N} t f x.
Arguments tr_up {N} t f x.

Section Rounded.
Context (N : num) (C : control N) (L : libm N).

(** rounded_transc.hpp:21-46 *)
Definition transc_exact : transc N := {|
  tr_down := fun f x => let! t := ex_lib L f x in e_store t;
  tr_up := fun f x => let! t := ex_lib L f x in e_store t
|}.
(** rounded_transc.hpp:48-81 *)
Definition transc_std : transc N := {|
  tr_down := fun f x => rc_down C ;;; let! t := ex_lib L f x in rc_force C t;
  tr_up := fun f x => rc_up C ;;; let! t := ex_lib L f x in rc_force C t
|}.
(** rounded_transc.hpp:94-98, 122-123: the functions computed downwards in the
    downward mode. *)
Definition switches (f : tfun) : bool :=
  match f with
  | Fexp | Flog | Fcos | Facos | Fcosh | Fasinh | Fatanh => true
  | Fsin | Ftan | Fasin | Fatan | Fsinh | Ftanh | Facosh => false
  end.
(** rounded_transc.hpp:83-134 *)
Definition transc_opp : transc N := {|
  tr_down := fun f x =>
    if switches f then
      rc_down C ;;; let! t := ex_lib L f x in let! y := rc_force C t in rc_up C ;;; ret y
    else
      (* -force_rounding(-f(x)) *)
      let! t := ex_lib L f x in let! n := e_opp t in let! y := rc_force C n in neg y;
  tr_up := fun f x => let! t := ex_lib L f x in rc_force C t
|}.
End Rounded.
Arguments transc_exact {N} L. Arguments transc_std {N} C L. Arguments transc_opp {N} C L.

(** ** transc.hpp *)

(** A compound assignment performed on a local variable. *)
Definition local {N} (m : MO (N := N) unit) (x : itv N) : M (itv N) := fun s =>
  match m x s with
  | (Ok _, x', s') => (Ok x', s')
  | (Throw e, _, s') => (Throw e, s')
  | (AssertFail, _, s') => (AssertFail, s')
  | (UB, _, s') => (UB, s')
  | (NoFuel, _, s') => (NoFuel, s')
  end.

Section Transc.
Context {N : num} (K : consts N) (R : transc N).
Notation I := (itv N).
Notation mone := (n_cst N (-1)).

Section Pol.
Context (P : policy N).
Notation Pu := (unprotect P).
Notation args l := (mk_args (p_ord P (H_transc, l))).

(** transc.hpp:27-35 *)
Definition t_exp (x : I) : M I :=
  if test_input_i P x then i_empty P else
  with_rnd P (args 34 (tr_down R Fexp (low x)) (tr_up R Fexp (up x))).
(** transc.hpp:37-49 *)
Definition t_log (x : I) : M I :=
  if test_input_i P x || negb (is_pos (up x)) then i_empty P else
  with_rnd P (
    let! l := (if negb (is_pos (low x)) then ck_neg_inf (p_ck P) else tr_down R Flog (low x)) in
    args 48 (ret l) (tr_up R Flog (up x))).
(** transc.hpp:114-130 *)
Definition t_asin (x : I) : M I :=
  if test_input_i P x || n_lt N (up x) mone || n_gt (low x) one then i_empty P else
  with_rnd P (
    let! l := (if n_le N (low x) mone then let! h := k_half_u K in neg h else tr_down R Fasin (low x)) in
    let! u := (if n_ge (up x) one then k_half_u K else tr_up R Fasin (up x)) in
    ret (mk l u)).
(** transc.hpp:132-147 *)
Definition t_acos (x : I) : M I :=
  if test_input_i P x || n_lt N (up x) mone || n_gt (low x) one then i_empty P else
  with_rnd P (
    let! l := (if n_ge (up x) one then ret zero else tr_down R Facos (up x)) in
    let! u := (if n_le N (low x) mone then k_pi_u K else tr_up R Facos (low x)) in
    ret (mk l u)).
(** transc.hpp:149-157 *)
Definition t_atan (x : I) : M I :=
  if test_input_i P x then i_empty P else
  with_rnd P (args 156 (tr_down R Fatan (low x)) (tr_up R Fatan (up x))).
(** transc.hpp:159-167 *)
Definition t_sinh (x : I) : M I :=
  if test_input_i P x then i_empty P else
  with_rnd P (args 166 (tr_down R Fsinh (low x)) (tr_up R Fsinh (up x))).
(** transc.hpp:169-182 *)
Definition t_cosh (x : I) : M I :=
  if test_input_i P x then i_empty P else
  with_rnd P (
    if is_neg (up x) then args 177 (tr_down R Fcosh (up x)) (tr_up R Fcosh (low x))
    else if negb (is_neg (low x)) then args 179 (tr_down R Fcosh (low x)) (tr_up R Fcosh (up x))
    else args 181 (ret one)
      (let! nx := e_opp (n_load N (low x)) in
       tr_up R Fcosh (if x_lt N (n_load N (up x)) nx then low x else up x))).
(** transc.hpp:184-192 *)
Definition t_tanh (x : I) : M I :=
  if test_input_i P x then i_empty P else
  with_rnd P (args 191 (tr_down R Ftanh (low x)) (tr_up R Ftanh (up x))).
(** transc.hpp:194-202 *)
Definition t_asinh (x : I) : M I :=
  if test_input_i P x then i_empty P else
  with_rnd P (args 201 (tr_down R Fasinh (low x)) (tr_up R Fasinh (up x))).
(** transc.hpp:204-213 *)
Definition t_acosh (x : I) : M I :=
  if test_input_i P x || n_lt N (up x) one then i_empty P else
  with_rnd P (
    let! l := (if n_le N (low x) one then ret zero else tr_down R Facosh (low x)) in
    args 212 (ret l) (tr_up R Facosh (up x))).
(** transc.hpp:215-229 *)
Definition t_atanh (x : I) : M I :=
  if test_input_i P x || n_lt N (up x) mone || n_gt (low x) one then i_empty P else
  with_rnd P (
    let! l := (if n_le N (low x) mone then ck_neg_inf (p_ck P) else tr_down R Fatanh (low x)) in
    let! u := (if n_ge (up x) one then ck_pos_inf (p_ck P) else tr_up R Fatanh (up x)) in
    ret (mk l u)).

(** transc.hpp:92-112.  The comparison [tmp.lower() <= -pi_half_d] is made on
    the negated number stored as a T: negation is exact. *)
Definition t_tan (x : I) : M I :=
  if test_input_i P x then i_empty P else
  with_rnd P (
    let! pi := i_pi P K in
    let! tmp := fmod Pu x pi in
    let! h := k_half_l K in
    let! tmp := (if n_ge (low tmp) h then local (m_sub Pu (IVal pi)) tmp else ret tmp) in
    let! nh := neg h in
    if n_le N (low tmp) nh || n_ge (up tmp) h then i_whole P
    else args 111 (tr_down R Ftan (low tmp)) (tr_up R Ftan (up tmp))).
End Pol.

(** transc.hpp:51-78.  [fuel] bounds the recursion, which is unbounded in the
    code.  The recursive call is on the unprotected type. *)
Fixpoint t_cos (fuel : nat) (P : policy N) (x : I) : M I :=
  match fuel with
  | O => fail NoFuel
  | S fuel =>
    if test_input_i P x then i_empty P else
    with_rnd P (
      let Pu := unprotect P in
      let! pi2 := i_pi_twice P K in
      let! tmp := fmod Pu x pi2 in
      let! w := width Pu tmp in
      if n_ge w (low pi2) then ret (mk mone one) else
      let! pu := k_pi_u K in
      if n_ge (low tmp) pu then
        let! pi := i_pi P K in
        let! d := op_sub Pu tmp pi in
        let! r := t_cos fuel Pu d in
        let! r := op_neg Pu r in
        ctor_back P r
      else
        let l := low tmp in
        let u := up tmp in
        let! pl := k_pi_l K in
        if n_le N u pl then
          mk_args (p_ord P (H_transc, 73)) (tr_down R Fcos u) (tr_up R Fcos l)
        else if n_le N u (low pi2) then
          mk_args (p_ord P (H_transc, 75)) (ret mone)
            (let! d := sub_down (p_ar P) (low pi2) u in
             tr_up R Fcos (std_min d l))
        else ret (mk mone one))
  end.
(** transc.hpp:80-90 *)
Definition t_sin (fuel : nat) (P : policy N) (x : I) : M I :=
  if test_input_i P x then i_empty P else
  with_rnd P (
    let Pu := unprotect P in
    let! h := i_pi_half P K in
    let! d := op_sub Pu x h in
    let! r := t_cos fuel Pu d in
    ctor_back P r).
End Transc.

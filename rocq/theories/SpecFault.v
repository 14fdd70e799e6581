(** * Where failures come from

    Vocabulary for doc/interval.htm, "Exception throwing": what it means for a
    computation, a base type and the two policies never to fail in a given way,
    and the list of all the functions of the library. *)

From Coq Require Import ZArith Bool.
From Verif Require Import Outcome Base Checking Interval Utility Arith Arith2 Extras Compare Transc Mixed.

(** A way to fail: a given exception, a failed assertion, undefined behaviour. *)
Inductive fault := Thrown (e : exn) | Asserted | Undefined.

Definition suffers {A} (F : fault) (o : outcome A) : Prop :=
  match F with
  | Thrown e => o = Throw e
  | Asserted => o = AssertFail
  | Undefined => o = UB
  end.

(** Whatever the rounding mode, the computation does not fail that way. *)
Definition never {A} (F : fault) (m : M A) : Prop := forall s, ~ suffers F (fst (m s)).

Section Sources.
Context (F : fault).

(** The operations of the base type the library itself evaluates, outside of
    the policies: unary minus and the conversion of an int. *)
Record base_never (N : num) : Prop := {
  bn_opp : forall a, ~ suffers F (x_opp N a);
  bn_store : forall m a, ~ suffers F (n_store N m a);
  bn_int : forall m z, ~ suffers F (n_of_int N m z)
}.
(** Another number type: its conversion to the base type and its unary minus. *)
Definition source_never {N} (s : source N) : Prop :=
  (forall m v, ~ suffers F (s_toT s m v)) /\ (forall v, ~ suffers F (s_opp s v)).

Record rounding_never {N} (P : policy N) : Prop := {
  rn_get : never F (rc_get (p_ctl P));
  rn_set : forall m, never F (rc_set (p_ctl P) m);
  rn_init : never F (ar_init (p_ar P));
  rn_add_d : forall a b, never F (add_down (p_ar P) a b);
  rn_add_u : forall a b, never F (add_up (p_ar P) a b);
  rn_sub_d : forall a b, never F (sub_down (p_ar P) a b);
  rn_sub_u : forall a b, never F (sub_up (p_ar P) a b);
  rn_mul_d : forall a b, never F (mul_down (p_ar P) a b);
  rn_mul_u : forall a b, never F (mul_up (p_ar P) a b);
  rn_div_d : forall a b, never F (div_down (p_ar P) a b);
  rn_div_u : forall a b, never F (div_up (p_ar P) a b);
  rn_median : forall a b, never F (ar_median (p_ar P) a b);
  rn_sqrt_d : forall a, never F (sqrt_down (p_ar P) a);
  rn_sqrt_u : forall a, never F (sqrt_up (p_ar P) a);
  rn_int_d : forall a, never F (int_down (p_ar P) a);
  rn_int_u : forall a, never F (int_up (p_ar P) a);
  rn_conv_d : forall s v, source_never s -> never F (conv_down (p_ar P) s v);
  rn_conv_u : forall s v, source_never s -> never F (conv_up (p_ar P) s v)
}.

Record checking_never {N} (P : policy N) : Prop := {
  cn_pos_inf : never F (ck_pos_inf (p_ck P));
  cn_neg_inf : never F (ck_neg_inf (p_ck P));
  cn_nan : never F (ck_nan (p_ck P));
  cn_is_nan : forall a, never F (ck_is_nan (p_ck P) a);
  cn_empty_l : never F (ck_empty_lower (p_ck P));
  cn_empty_u : never F (ck_empty_upper (p_ck P))
}.

(** The transcendental members of the rounding policy, and the constants. *)
Definition transc_never {N} (R : transc N) : Prop :=
  forall f a, never F (tr_down R f a) /\ never F (tr_up R f a).
Definition consts_never {N} (K : consts N) : Prop :=
  never F (k_pi_l K) /\ never F (k_pi_u K) /\ never F (k_half_l K) /\ never F (k_half_u K) /\
  never F (k_twice_l K) /\ never F (k_twice_u K).

(** The int argument is one the function accepts: pow negates it, nth_root
    asserts that it is positive and calls pow with it and its predecessor. *)
Definition pow_arg (n : Z) : Prop := F = Undefined -> n <> int_min.
Definition root_arg (debug : bool) (k : Z) : Prop :=
  (F = Undefined -> 0 < k)%Z /\ (F = Asserted -> debug = true -> 0 < k)%Z.
End Sources.

(** ** The functions of the library, comparison operators excepted *)
Section Library.
Context (F : fault) {N : num} (P : policy N) (K : consts N) (R : transc N).
Notation I := (itv N).

(** Member functions that modify the object. *)
Inductive member : MO (N := N) unit -> Prop :=
| M_set l u : member (m_set l u)
| M_set_empty : member (m_set_empty P)
| M_set_whole : member (m_set_whole P)
| M_assign l u : member (m_assign P l u)
| M_assign_num v : member (m_assign_num P v)
| M_assign_src s v : source_never F s -> member (m_assign_src P s v)
| M_copy r : member (m_copy r)
| M_assign_policy P1 r : member (m_assign_policy P P1 r)
| M_assign_itv N1 s (P1 : policy N1) toU r : source_never F s -> member (m_assign_itv P s P1 toU r)
| M_add r : member (m_add P r) | M_add_n r : member (m_add_n P r)
| M_sub r : member (m_sub P r) | M_sub_n r : member (m_sub_n P r)
| M_mul r : member (m_mul P r) | M_mul_n r : member (m_mul_n P r)
| M_div r : member (m_div P r) | M_div_n r : member (m_div_n P r).

Inductive library : forall {A}, M A -> Prop :=
| L_member m o : member m -> library (local m o)
(* interval.hpp: constructors and static members *)
| L_default : library (@ctor_default N)
| L_num v : library (ctor_num P v)
| L_src s v : source_never F s -> library (ctor_src P s v)
| L_src12 s1 s2 le v w : source_never F s1 -> source_never F s2 -> library (ctor_src12 P s1 s2 le v w)
| L_num2 l u : library (ctor_num2 P l u)
| L_copy r : library (@ctor_copy N r)
| L_policy P1 r : library (ctor_policy P P1 r)
| L_itv N1 s (P1 : policy N1) toU r : source_never F s -> library (ctor_itv P s P1 toU r)
| L_empty : library (i_empty P)
| L_whole : library (i_whole P)
| L_i_hull a b : library (i_hull P a b)
(* utility.hpp; empty, zero_in, subset, proper_subset, overlap, singleton and
   equal are functions to bool in the model *)
| L_lower x : library (checked_lower P x)
| L_upper x : library (checked_upper P x)
| L_width x : library (width P x)
| L_median x : library (median P x)
| L_widen x v : library (widen P x v)
| L_in v x : library (u_in P v x)
| L_intersect x y : library (intersect P x y)
| L_hull x y : library (hull P x y)
| L_hull_in x v : library (hull_in P x v)
| L_hull_ni v x : library (hull_ni P v x)
| L_hull_nn v w : library (hull_nn P v w)
| L_bisect x : library (bisect P x)
| L_norm x : library (norm P x)
| L_abs x : library (u_abs P x)
| L_max x y : library (u_max P x y)
| L_max_in x v : library (u_max_in P x v)
| L_max_ni v x : library (u_max_ni P v x)
| L_min x y : library (u_min P x y)
| L_min_in x v : library (u_min_in P x v)
| L_min_ni v x : library (u_min_ni P v x)
(* arith.hpp *)
| L_pos x : library (@op_pos N x)
| L_neg x : library (op_neg P x)
| L_add x y : library (op_add P x y)
| L_add_ni v x : library (op_add_ni P v x)
| L_add_in x v : library (op_add_in P x v)
| L_sub x y : library (op_sub P x y)
| L_sub_ni v x : library (op_sub_ni P v x)
| L_sub_in x v : library (op_sub_in P x v)
| L_mul x y : library (op_mul P x y)
| L_mul_ni v x : library (op_mul_ni P v x)
| L_mul_in x v : library (op_mul_in P x v)
| L_div x y : library (op_div P x y)
| L_div_ni v x : library (op_div_ni P v x)
| L_div_in x v : library (op_div_in P x v)
(* arith2.hpp *)
| L_fmod x y : library (fmod P x y)
| L_fmod_in x v : library (fmod_in P x v)
| L_fmod_ni v x : library (fmod_ni P v x)
| L_part1 x y : library (division_part1 P x y)
| L_part2 x y b : library (division_part2 P x y b)
| L_inverse x : library (multiplicative_inverse P x)
| L_pow x n : pow_arg F n -> library (pow P x n)
| L_sqrt x : library (i_sqrt P x)
| L_square x : library (square P x)
| L_root debug fuel x k : root_arg F debug k -> library (nth_root P debug fuel x k)
(* arith3.hpp *)
| L_nadd v w : library (n_add P v w)
| L_nsub v w : library (n_sub P v w)
| L_nmul v w : library (n_mul P v w)
| L_ndiv v w : library (n_div P v w)
(* limits.hpp, ext/integer.hpp *)
| L_lim_min bl : library (lim_min P bl)
| L_lim_max bl : library (lim_max P bl)
| L_lim_eps bl : library (lim_epsilon P bl)
| L_lim_inf : library (lim_infinity P)
| L_lim_nan : library (lim_quiet_NaN P)
| L_lim_denorm bl : library (lim_denorm_min P bl)
| L_add_xn x n : library (add_xn P x n)
| L_add_nx n x : library (add_nx P n x)
| L_sub_xn x n : library (sub_xn P x n)
| L_sub_nx n x : library (sub_nx P n x)
| L_mul_xn x n : library (mul_xn P x n)
| L_mul_nx n x : library (mul_nx P n x)
| L_div_xn x n : library (div_xn P x n)
| L_div_nx n x : library (div_nx P n x)
(* constants.hpp, transc.hpp *)
| L_pi : library (i_pi P K)
| L_pi_half : library (i_pi_half P K)
| L_pi_twice : library (i_pi_twice P K)
| L_exp x : library (t_exp R P x)
| L_log x : library (t_log R P x)
| L_cos fuel x : library (t_cos K R fuel P x)
| L_sin fuel x : library (t_sin K R fuel P x)
| L_tan x : library (t_tan K R P x)
| L_asin x : library (t_asin K R P x)
| L_acos x : library (t_acos K R P x)
| L_atan x : library (t_atan R P x)
| L_sinh x : library (t_sinh R P x)
| L_cosh x : library (t_cosh R P x)
| L_tanh x : library (t_tanh R P x)
| L_asinh x : library (t_asinh R P x)
| L_acosh x : library (t_acosh R P x)
| L_atanh x : library (t_atanh R P x)
(* compare/set.hpp between intervals; compare/explicit.hpp is made of functions
   to bool in the model *)
| L_set o x y : library (setcmp P o x y)
| L_set_lt P2 x y : library (set_lt_2 P P2 x y)
| L_set_gt P2 x y : library (set_gt_2 P P2 x y)
| L_set_eq P2 x y : library (set_eq_2 P P2 x y)
| L_set_ne P2 x y : library (set_ne_2 P P2 x y).

(** The comparison operators that may complain. *)
Inductive comparison : forall {A}, M A -> Prop :=
| O_default o P2 x y : comparison (def_cmp P o P2 x y)
| O_default_n o x v : comparison (def_cmpn P o x v)
| O_certain o P2 x y : comparison (certain P o P2 x y)
| O_certain_n o x v : comparison (certainn P o x v)
| O_possible o P2 x y : comparison (possible P o P2 x y)
| O_possible_n o x v : comparison (possiblen P o x v)
| O_lexi o P2 x y : comparison (lexi P o P2 x y)
| O_lexi_n o x v : comparison (lexin P o x v)
| O_tribool o P2 x y : comparison (tribool P o P2 x y)
| O_tribool_n o x v : comparison (tribooln P o x v)
| O_set_n o x v : comparison (@setcmpn N o x v).
End Library.

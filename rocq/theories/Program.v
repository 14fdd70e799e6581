(** * Client programs

    Everything a client can ask of the library (except the functions that need
    a recursion budget, treated separately), and arbitrary sequential programs
    making such calls, with branching on results, exception handlers and
    rounding scopes. *)

From Coq Require Import ZArith Bool.
From Verif Require Import Outcome Base Checking Interval Utility Arith Arith2 FloatNum Spec.

Section Program.
Context (p : platform).
Notation N := (fnum p).
Notation I := (itv N).
Notation TT := (T N).

(** One call of the public API, with its arguments and result type. *)
Inductive call : Type -> Type :=
| CDefault : call I
| CNum (v : TT) : call I
| CNum2 (l u : TT) : call I
| CFloat (g : fmt) (v : flt g) : call I
| CFloat2 (g : fmt) (v w : flt g) : call I
| CLower (x : I) : call TT
| CUpper (x : I) : call TT
| CWidth (x : I) : call TT
| CMedian (x : I) : call TT
| CNorm (x : I) : call TT
| CWiden (x : I) (v : TT) : call I
| CEmpty (x : I) : call bool
| CZeroIn (x : I) : call bool
| CIn (v : TT) (x : I) : call bool
| CSubset (x y : I) : call bool
| CProperSubset (x y : I) : call bool
| COverlap (x y : I) : call bool
| CSingleton (x : I) : call bool
| CEqual (x y : I) : call bool
| CIntersect (x y : I) : call I
| CHull (x y : I) : call I
| CHullIN (x : I) (v : TT) : call I
| CHullNI (v : TT) (x : I) : call I
| CHullNN (v w : TT) : call I
| CBisect (x : I) : call (I * I)%type
| CAbs (x : I) : call I
| CMax (x y : I) : call I
| CMaxIN (x : I) (v : TT) : call I
| CMaxNI (v : TT) (x : I) : call I
| CMin (x y : I) : call I
| CMinIN (x : I) (v : TT) : call I
| CMinNI (v : TT) (x : I) : call I
| CNeg (x : I) : call I
| CAdd (x y : I) : call I
| CAddNI (v : TT) (x : I) : call I
| CAddIN (x : I) (v : TT) : call I
| CSub (x y : I) : call I
| CSubNI (v : TT) (x : I) : call I
| CSubIN (x : I) (v : TT) : call I
| CMul (x y : I) : call I
| CMulNI (v : TT) (x : I) : call I
| CMulIN (x : I) (v : TT) : call I
| CDiv (x y : I) : call I
| CDivNI (v : TT) (x : I) : call I
| CDivIN (x : I) (v : TT) : call I
| CFmod (x y : I) : call I
| CFmodIN (x : I) (v : TT) : call I
| CFmodNI (v : TT) (x : I) : call I
| CDivPart1 (x y : I) : call (I * bool)%type
| CDivPart2 (x y : I) (b : bool) : call I
| CInverse (x : I) : call I
| CPow (x : I) (n : Z) (Hn : n <> int_min) : call I
| CSqrt (x : I) : call I
| CSquare (x : I) : call I
| CNAdd (v w : TT) : call I
| CNSub (v w : TT) : call I
| CNMul (v w : TT) : call I
| CNDiv (v w : TT) : call I
| CLt (x y : I) : call bool | CGt (x y : I) : call bool
| CLe (x y : I) : call bool | CGe (x y : I) : call bool
| CEq (x y : I) : call bool | CNe (x y : I) : call bool
| CLtN (x : I) (v : TT) : call bool | CGtN (x : I) (v : TT) : call bool
| CLeN (x : I) (v : TT) : call bool | CGeN (x : I) (v : TT) : call bool
| CEqN (x : I) (v : TT) : call bool | CNeN (x : I) (v : TT) : call bool.

Definition run_call (P : policy N) {A} (c : call A) : M A :=
  match c with
  | CDefault => ctor_default
  | CNum v => ctor_num P v
  | CNum2 l u => ctor_num2 P l u
  | CFloat g v => ctor_src P (src_float p g) v
  | CFloat2 g v w => ctor_src2 P (src_float p g) v w
  | CLower x => checked_lower P x
  | CUpper x => checked_upper P x
  | CWidth x => width P x
  | CMedian x => median P x
  | CNorm x => norm P x
  | CWiden x v => widen P x v
  | CEmpty x => ret (u_empty P x)
  | CZeroIn x => ret (zero_in P x)
  | CIn v x => u_in P v x
  | CSubset x y => ret (subset P x y)
  | CProperSubset x y => ret (proper_subset P x y)
  | COverlap x y => ret (overlap P x y)
  | CSingleton x => ret (singleton P x)
  | CEqual x y => ret (equal P x y)
  | CIntersect x y => intersect P x y
  | CHull x y => hull P x y
  | CHullIN x v => hull_in P x v
  | CHullNI v x => hull_ni P v x
  | CHullNN v w => hull_nn P v w
  | CBisect x => bisect P x
  | CAbs x => u_abs P x
  | CMax x y => u_max P x y
  | CMaxIN x v => u_max_in P x v
  | CMaxNI v x => u_max_ni P v x
  | CMin x y => u_min P x y
  | CMinIN x v => u_min_in P x v
  | CMinNI v x => u_min_ni P v x
  | CNeg x => op_neg P x
  | CAdd x y => op_add P x y
  | CAddNI v x => op_add_ni P v x
  | CAddIN x v => op_add_in P x v
  | CSub x y => op_sub P x y
  | CSubNI v x => op_sub_ni P v x
  | CSubIN x v => op_sub_in P x v
  | CMul x y => op_mul P x y
  | CMulNI v x => op_mul_ni P v x
  | CMulIN x v => op_mul_in P x v
  | CDiv x y => op_div P x y
  | CDivNI v x => op_div_ni P v x
  | CDivIN x v => op_div_in P x v
  | CFmod x y => fmod P x y
  | CFmodIN x v => fmod_in P x v
  | CFmodNI v x => fmod_ni P v x
  | CDivPart1 x y => division_part1 P x y
  | CDivPart2 x y b => division_part2 P x y b
  | CInverse x => multiplicative_inverse P x
  | CPow x n _ => Arith2.pow P x n
  | CSqrt x => i_sqrt P x
  | CSquare x => square P x
  | CNAdd v w => n_add P v w
  | CNSub v w => n_sub P v w
  | CNMul v w => n_mul P v w
  | CNDiv v w => n_div P v w
  | CLt x y => cmp_lt P P x y | CGt x y => cmp_gt P P x y
  | CLe x y => cmp_le P P x y | CGe x y => cmp_ge P P x y
  | CEq x y => cmp_eq P P x y | CNe x y => cmp_ne P P x y
  | CLtN x v => cmpn_lt P x v | CGtN x v => cmpn_gt P x v
  | CLeN x v => cmpn_le P x v | CGeN x v => cmpn_ge P x v
  | CEqN x v => cmpn_eq P x v | CNeN x v => cmpn_ne P x v
  end.

(** Programs.  [Call b c k] makes a call through the protected interval type
    ([b = true]) or through unprotect<interval>::type ([b = false]);
    [Scope m k] is a block { typename I::traits_type::rounding rnd; m } k. *)
Inductive prog : Type -> Type :=
| Ret {A} (a : A) : prog A
| Raise {A} (e : exn) : prog A
| Call {A B} (b : bool) (c : call B) (k : B -> prog A) : prog A
| Scope {A B} (m : prog B) (k : B -> prog A) : prog A
| Try {A B} (m : prog B) (h : exn -> prog B) (k : B -> prog A) : prog A.

Definition catch {A} (m : M A) (h : exn -> M A) : M A := fun s =>
  match m s with
  | (Throw e, s1) => h e s1
  | r => r
  end.

Fixpoint exec (P : policy N) {A} (m : prog A) : M A :=
  match m with
  | Ret a => ret a
  | Raise e => throw e
  | Call b c k => bind (run_call (if b then P else unprotect P) c) (fun x => exec P (k x))
  | Scope m k => bind (with_rnd P (exec P m)) (fun x => exec P (k x))
  | Try m h k => bind (catch (exec P m) (fun e => exec P (h e))) (fun x => exec P (k x))
  end.

(** Unprotected calls occur only inside a scope. *)
Fixpoint scoped (inside : bool) {A} (m : prog A) : Prop :=
  match m with
  | Ret _ | Raise _ => True
  | Call b _ k => (b = true \/ inside = true) /\ forall x, scoped inside (k x)
  | Scope m k => scoped true m /\ forall x, scoped inside (k x)
  | Try m h k => scoped inside m /\ (forall e, scoped inside (h e)) /\ forall x, scoped inside (k x)
  end.

(** The same program using the protected type everywhere, without scopes. *)
Fixpoint exec_protected (P : policy N) {A} (m : prog A) : M A :=
  match m with
  | Ret a => ret a
  | Raise e => throw e
  | Call _ c k => bind (run_call P c) (fun x => exec_protected P (k x))
  | Scope m k => bind (exec_protected P m) (fun x => exec_protected P (k x))
  | Try m h k => bind (catch (exec_protected P m) (fun e => exec_protected P (h e)))
                   (fun x => exec_protected P (k x))
  end.

(** A call of fmod through the unprotected type is tame when the same call
    through the protected type returns a non-empty interval; the other calls
    are always tame. *)
Definition tame (P : policy N) {A} (c : call A) : Prop :=
  match c with
  | CFmod x y => exists z, returns (fmod P x y) z /\ ~ fempty z
  | CFmodIN x v => exists z, returns (fmod_in P x v) z /\ ~ fempty z
  | CFmodNI v x => exists z, returns (fmod_ni P v x) z /\ ~ fempty z
  | _ => True
  end.
(** Every unprotected call reached by the protected execution is tame. *)
Fixpoint tame_prog (P : policy N) {A} (m : prog A) : Prop :=
  match m with
  | Ret _ | Raise _ => True
  | Call b c k => (b = false -> tame P c) /\
      forall x s s', run_call P c s = (Ok x, s') -> tame_prog P (k x)
  | Scope m k => tame_prog P m /\
      forall x s s', exec_protected P m s = (Ok x, s') -> tame_prog P (k x)
  | Try m h k => tame_prog P m /\
      (forall e s s', exec_protected P m s = (Throw e, s') -> tame_prog P (h e)) /\
      forall x s s', catch (exec_protected P m) (fun e => exec_protected P (h e)) s = (Ok x, s') ->
        tame_prog P (k x)
  end.
End Program.
Arguments call {p}. Arguments run_call {p} P {A} c.
Arguments prog {p}. Arguments exec {p} P {A} m. Arguments exec_protected {p} P {A} m.
Arguments scoped {p} inside {A} m.
Arguments tame {p} P {A} c. Arguments tame_prog {p} P {A} m.
Arguments Ret {p A} a. Arguments Raise {p A} e. Arguments Call {p A B} b c k.
Arguments Scope {p A B} m k. Arguments Try {p A B} m h k.

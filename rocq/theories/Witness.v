(** * Concrete double-precision intervals, used by the non-vacuity examples *)

From Coq Require Import Reals ZArith Lra Lia Bool.
From Flocq Require Import Core BinarySingleNaN.
From Verif Require Import Outcome Base Checking Interval Utility Arith Arith2 FloatNum Spec ExtR Sem FloatSpec FloatPol.

(** The double with value m * 2^e (rounded to nearest if not representable). *)
Definition dbl (m e : Z) : T (fnum double_sse) :=
  binary_normalize 53 1024 (fmt_P0 binary64) (fmt_PE binary64) mode_NE m e false.
Definition pinf : T (fnum double_sse) := B754_infinity false.
Definition ninf : T (fnum double_sse) := B754_infinity true.
Definition dnan : T (fnum double_sse) := B754_nan.
(** [a, b] for small integers. *)
Definition di (a b : Z) : itv (fnum double_sse) := mk (dbl a 0) (dbl b 0).

(** interval<double> with all template arguments defaulted, assertions on,
    left-to-right argument evaluation. *)
Definition Pdef : policy (fnum double_sse) := fpol double_sse Save Opp true CkStrict (fun _ => true).
(** The same with checking_base. *)
Definition Pbase : policy (fnum double_sse) := fpol double_sse Save Opp true CkBase (fun _ => true).

(** Bounds without the proofs they carry, for comparison by computation. *)
Definition show (x : itv (fnum double_sse)) : SpecFloat.spec_float * SpecFloat.spec_float :=
  (B2SF (low x), B2SF (up x)).
Definition run {A B} (f : A -> B) (m : M A) (s : rmode) : outcome B * rmode :=
  let (o, s') := m s in (omap f o, s').

(** Decidable validity. *)
Definition validb {p} (x : itv (fnum p)) : bool :=
  Bleb (low x : flt (p_T p)) (up x) &&
  match low x with B754_infinity false => false | _ => true end &&
  match up x with B754_infinity true => false | _ => true end.
Lemma validb_ok {p} (x : itv (fnum p)) : validb x = true -> fvalid x.
Proof.
  unfold validb, fvalid, valid. rewrite !andb_true_iff. intros [[A B] C].
  split; [apply Bleb_fval; auto|].
  destruct x as [l u]. simpl in *. split.
  - destruct l as [s|[|]| |s m e Bd]; simpl in *; congruence.
  - destruct u as [s|[|]| |s m e Bd]; simpl in *; congruence.
Qed.
Lemma dbl_val m : (Z.abs m <= 2 ^ 53)%Z -> fval (dbl m 0 : flt binary64) = Fin (IZR m).
Proof. apply (f_of_Z_exact binary64 RNE m). Qed.
Ltac dval_in H := match type of H with context [@fval ?f (dbl ?m 0)] =>
  let E := fresh in assert (E : @fval f (dbl m 0) = Fin (IZR m)) by (apply dbl_val; lia); rewrite E in H; clear E end.
Ltac dval := match goal with |- context [@fval ?f (dbl ?m 0)] =>
  let E := fresh in assert (E : @fval f (dbl m 0) = Fin (IZR m)) by (apply dbl_val; lia); rewrite E; clear E end.
Lemma di_valid a b : (Z.abs a <= 2 ^ 53)%Z -> (Z.abs b <= 2 ^ 53)%Z -> (a <= b)%Z -> fvalid (di a b).
Proof.
  intros Ha Hb Hab. unfold fvalid, valid, di. cbn [low up]. repeat dval.
  split; [|split; discriminate]. simpl. apply IZR_le; auto.
Qed.

(** Concluding from a computation. *)
Lemma show_inj (x y : itv (fnum double_sse)) : show x = show y -> x = y.
Proof.
  destruct x as [a b], y as [a' b']. unfold show. cbn [low up]. intros E. f_equal; apply B2SF_inj; congruence.
Qed.
Lemma run_show_returns (m : M (itv (fnum double_sse))) z :
  (forall s, run show m s = (Ok (show z), s)) -> returns m z.
Proof.
  intros K s. specialize (K s). unfold run in K. destruct (m s) as [[w|e| | |] s']; try discriminate K.
  assert (E : show w = show z) by (simpl in K; congruence). assert (s' = s) by congruence.
  apply show_inj in E. subst. reflexivity.
Qed.

(** * Properties C08, C18, C20, C21, C22, C30: programs, modes, mutation *)

From Coq Require Import Reals ZArith Lra Lia Bool.
From Flocq Require Import Core BinarySingleNaN.
From Verif Require Import Outcome Base Checking Interval Utility Arith Arith2 FloatNum Spec ExtR Sem
  FloatSpec FloatPol Inst Witness Mirror Agree Program ProgramProof Mutate.

Notation P_ p k debug c ord := (fpol p Save k debug c ord).
Notation rd := Interval.rd.

(** A program run by the examples: in a rounding scope, with the unprotected
    type, 1/(x*x - 2); on the exception raised when the divisor is {0}, x/3. *)
Definition demo (x : itv (fnum double_sse)) : prog (p := double_sse) (itv (fnum double_sse)) :=
  Try (Scope (Call false (CMul _ x x) (fun y => Call false (CSubIN _ y (dbl 2 0)) (fun z =>
         Call false (CDivNI _ (dbl 1 0) z) (fun w => Ret w)))) (fun w => Ret w))
      (fun _ => Call true (CDivIN _ x (dbl 3 0)) (fun w => Ret w))
      (fun w => Ret w).
Lemma demo_scoped x : scoped false (demo x).
Proof. cbn. tauto. Qed.
Lemma demo_tame P x : tame_prog P (demo x).
Proof. cbn [demo tame_prog tame]. repeat split; auto; intros; repeat split; auto. Qed.

(** ** C18: the rounding mode is restored, on return and on exceptions

    For every program making library calls (with branching, exception handlers
    and rounding scopes), every policy, evaluation order and rounding mode.
    Missing for the full property: nth_root, which does leave the mode changed
    (C18_mode_restored_refuted). *)
Theorem C18_mode_restored_partial : forall p k debug c ord A (m : prog (p := p) A) mode,
  scoped false m ->
  exists o, exec (P_ p k debug c ord) m mode = (o, mode) /\
    ((exists a, o = Ok a) \/ (exists e, o = Throw e)).
Proof.
  intros p k debug c ord A m mode S. destruct (prog_det p debug c m false S) as (o & G & H).
  specialize (H k ord mode). exists o. destruct o as [a|e| | |]; try destruct G; eauto.
Qed.
Print Assumptions C18_mode_restored_partial.
(** In particular for every single call. *)
Theorem C18_call_mode_restored_partial : forall p k debug c ord A (cl : call (p := p) A) mode,
  snd (run_call (P_ p k debug c ord) cl mode) = mode.
Proof.
  intros p k debug c ord A cl mode. destruct (ag_call_at p debug c Save cl) as (o & G & H).
  rewrite (H k ord mode). reflexivity.
Qed.
Print Assumptions C18_call_mode_restored_partial.
(** 1/(x*x-2) for x = [2,3] called in mode RDN; an unhandled exception in mode
    RZR; a handled one. *)
Example C18_case : scoped false (demo (di 2 3)) /\
  run show (exec Pdef (demo (di 2 3))) RDN =
    (Ok (show (mk (dbl 5146971002709138 (-55)) (dbl 1 (-1)))), RDN) /\
  run show (exec Pdef (Call true (CDiv _ (di 1 2) (di 0 0)) Ret)) RZR = (Throw EmptyCreated, RZR) /\
  run show (exec Pdef (Try (Call true (CDiv _ (di 1 2) (di 0 0)) Ret)
    (fun _ => Call true (CDivIN _ (di 1 2) (dbl 3 0)) Ret) Ret)) RZR =
    (Ok (show (mk (dbl 6004799503160661 (-54)) (dbl 6004799503160662 (-53)))), RZR).
Proof. split; [apply demo_scoped|]. repeat split; vm_compute; reflexivity. Qed.
(** nth_root([4,4], 2) under the default policy, called in the default mode,
    returns with the mode set to upward. *)
Theorem C18_mode_restored_refuted :
  ~ (forall fuel x k mode o mode', fvalid x -> (0 < k)%Z ->
       nth_root Pdef true fuel x k mode = (o, mode') -> o <> NoFuel -> mode' = mode).
Proof.
  intros H. specialize (H 100%nat (di 4 4) 2%Z RNE).
  assert (E : snd (nth_root Pdef true 100 (di 4 4) 2 RNE) = RUP) by (vm_compute; reflexivity).
  assert (E' : match fst (nth_root Pdef true 100 (di 4 4) 2 RNE) with NoFuel => true | _ => false end = false)
    by (vm_compute; reflexivity).
  destruct (nth_root Pdef true 100 (di 4 4) 2 RNE) as [o mode'] eqn:Q. simpl in E, E'. subst mode'.
  specialize (H o RUP (di_valid 4 4 ltac:(lia) ltac:(lia) ltac:(lia)) ltac:(lia) eq_refl).
  destruct o; try discriminate E'; discriminate H; discriminate.
Qed.
Print Assumptions C18_mode_restored_refuted.

(** ** C20: rounded_arith_std and rounded_arith_opp agree

    Every program gives the same outcome (bit for bit, NaN payloads aside). *)
Theorem C20_std_opp_programs : forall p debug c ord ord' A (m : prog (p := p) A) mode,
  scoped false m ->
  exec (P_ p Std debug c ord) m mode = exec (P_ p Opp debug c ord') m mode.
Proof.
  intros p debug c ord ord' A m mode S. destruct (prog_det p debug c m false S) as (o & G & H).
  rewrite (H Std ord mode), (H Opp ord' mode). reflexivity.
Qed.
Print Assumptions C20_std_opp_programs.

(** The same for each directed operation used directly inside a rounding
    object, for all operands. *)
Definition same_in_scope {A} p debug c (f : policy (fnum p) -> M A) : Prop :=
  exists a, forall k ord mode, with_rnd (P_ p k debug c ord) (f (P_ p k debug c ord)) mode = (Ok a, mode).
Theorem C20_std_opp_operations : forall p debug c (a b : T (fnum p)) g (v : flt g),
  same_in_scope p debug c (fun P => add_down (p_ar P) a b) /\
  same_in_scope p debug c (fun P => add_up (p_ar P) a b) /\
  same_in_scope p debug c (fun P => sub_down (p_ar P) a b) /\
  same_in_scope p debug c (fun P => sub_up (p_ar P) a b) /\
  same_in_scope p debug c (fun P => mul_down (p_ar P) a b) /\
  same_in_scope p debug c (fun P => mul_up (p_ar P) a b) /\
  same_in_scope p debug c (fun P => div_down (p_ar P) a b) /\
  same_in_scope p debug c (fun P => div_up (p_ar P) a b) /\
  same_in_scope p debug c (fun P => ar_median (p_ar P) a b) /\
  same_in_scope p debug c (fun P => sqrt_down (p_ar P) a) /\
  same_in_scope p debug c (fun P => sqrt_up (p_ar P) a) /\
  same_in_scope p debug c (fun P => int_down (p_ar P) a) /\
  same_in_scope p debug c (fun P => int_up (p_ar P) a) /\
  same_in_scope p debug c (fun P => conv_down (p_ar P) (src_float p g) v) /\
  same_in_scope p debug c (fun P => conv_up (p_ar P) (src_float p g) v).
Proof.
  intros p debug c a b g v.
  assert (K : forall f : policy (fnum p) -> M (T (fnum p)), okI p debug c f -> same_in_scope p debug c f).
  { intros f (t & H). exists t. intros k ord mode.
    exact (det_with_rnd p debug c k _ (Ok t) ord I (H k Save ord) mode). }
  repeat split; apply K; first
  [ apply ok_add_down | apply ok_add_up | apply ok_sub_down | apply ok_sub_up
  | apply ok_mul_down | apply ok_mul_up | apply ok_div_down | apply ok_div_up
  | apply ok_median | apply ok_sqrt_down | apply ok_sqrt_up | apply ok_int_down | apply ok_int_up
  | apply ok_conv_down | apply ok_conv_up ].
Qed.
Print Assumptions C20_std_opp_operations.
Example C20_case : scoped false (demo (di 2 3)) /\
  run show (exec (P_ double_sse Std true CkStrict (fun _ => false)) (demo (di 2 3))) RNE =
    (Ok (show (mk (dbl 5146971002709138 (-55)) (dbl 1 (-1)))), RNE) /\
  run B2SF (with_rnd Pdef (add_down (p_ar Pdef) (dbl 1 0) (dbl 1 (-60)))) RNE = (Ok (B2SF (dbl 1 0)), RNE).
Proof. split; [apply demo_scoped|]. split; vm_compute; reflexivity. Qed.

(** ** C21: evaluation order

    [ord] chooses, at every place in the library where C++ leaves the order of
    two argument evaluations open, which goes first. *)
Theorem C21_order_independent : forall p k debug c ord ord' A (m : prog (p := p) A) mode,
  scoped false m ->
  exec (P_ p k debug c ord) m mode = exec (P_ p k debug c ord') m mode.
Proof.
  intros p k debug c ord ord' A m mode S. destruct (prog_det p debug c m false S) as (o & G & H).
  rewrite (H k ord mode), (H k ord' mode). reflexivity.
Qed.
Print Assumptions C21_order_independent.
(** Nor does the outcome depend on the rounding mode at the start. *)
Theorem C21_mode_independent : forall p k debug c ord A (m : prog (p := p) A) mode mode',
  scoped false m ->
  fst (exec (P_ p k debug c ord) m mode) = fst (exec (P_ p k debug c ord) m mode').
Proof.
  intros p k debug c ord A m mode mode' S. destruct (prog_det p debug c m false S) as (o & G & H).
  rewrite (H k ord mode), (H k ord mode'). reflexivity.
Qed.
Print Assumptions C21_mode_independent.
(** The client's own subexpressions may be evaluated in either order: if both
    return, so does either order, with the same two values and the same mode. *)
Theorem C21_subexpressions : forall p k debug c ord A B (m1 : prog (p := p) A) (m2 : prog (p := p) B) a b mode,
  scoped false m1 -> scoped false m2 ->
  exec (P_ p k debug c ord) m1 mode = (Ok a, mode) -> exec (P_ p k debug c ord) m2 mode = (Ok b, mode) ->
  forall first : bool, args2 first (exec (P_ p k debug c ord) m1) (exec (P_ p k debug c ord) m2) mode = (Ok (a, b), mode).
Proof.
  intros p k debug c ord A B m1 m2 a b mode _ _ E1 E2 [|]; unfold args2, bind; rewrite ?E1, ?E2, ?E1; reflexivity.
Qed.
Print Assumptions C21_subexpressions.
Example C21_case :
  run show (exec (P_ double_sse Opp true CkStrict (fun _ => false)) (demo (di 2 3))) RZR =
  run show (exec (P_ double_sse Opp true CkStrict (fun _ => true)) (demo (di 2 3))) RZR /\
  run (fun r => (show (fst r), show (snd r)))
    (args2 false (exec Pdef (demo (di 2 3))) (exec Pdef (Call true (CAdd _ (di 1 2) (di 3 4)) Ret))) RNE =
  (Ok (show (mk (dbl 5146971002709138 (-55)) (dbl 1 (-1))), show (di 4 6)), RNE).
Proof. split; vm_compute; reflexivity. Qed.

(** ** C22: unprotected computation inside a rounding scope

    A program may use unprotect<I>::type wherever a rounding object is alive:
    it behaves as if every call had used the protected type.  Missing: calls of
    fmod whose result is empty (NaN bounds), see the refutation. *)
Theorem C22_unprotected_equals_protected_partial : forall p k debug c ord A (m : prog (p := p) A) mode,
  scoped false m -> tame_prog (P_ p k debug c ord) m ->
  exec (P_ p k debug c ord) m mode = exec_protected (P_ p k debug c ord) m mode.
Proof.
  intros p k debug c ord A m mode S T. destruct (prog_protected p debug c k ord m false S T) as (o & G & H & H').
  rewrite (H mode), (H' mode). reflexivity.
Qed.
Print Assumptions C22_unprotected_equals_protected_partial.
(** fmod([-oo,1],[1,1]) under checking_base: through the unprotected type the
    result is [NaN,+oo], through the protected type it is the empty interval
    [NaN,NaN], because only there the result is converted. *)
Theorem C22_unprotected_equals_protected_refuted :
  ~ (forall p k debug c ord A (m : prog (p := p) A) mode, scoped false m ->
       exec (P_ p k debug c ord) m mode = exec_protected (P_ p k debug c ord) m mode).
Proof.
  intros H.
  set (m := Scope (Call false (CFmod _ (mk ninf (dbl 1 0)) (di 1 1)) Ret) Ret : prog (p := double_sse) _).
  assert (E1 : run show (exec Pbase m) RNE = (Ok (show (mk dnan pinf)), RNE)) by (vm_compute; reflexivity).
  assert (E2 : run show (exec_protected Pbase m) RNE = (Ok (show (mk dnan dnan)), RNE)) by (vm_compute; reflexivity).
  assert (E : exec Pbase m RNE = exec_protected Pbase m RNE).
  { unfold Pbase. apply H. unfold m. cbn [scoped]. auto. }
  unfold run in E1, E2. rewrite E, E2 in E1. discriminate.
Qed.
Print Assumptions C22_unprotected_equals_protected_refuted.
(** The demo program makes unprotected calls; without the scope it would be
    wrong: 1/3 evaluated unprotected in mode RDN is not an enclosure. *)
Example C22_case : scoped false (demo (di 2 3)) /\ tame_prog Pdef (demo (di 2 3)) /\
  run show (exec Pdef (demo (di 2 3))) RDN = run show (exec_protected Pdef (demo (di 2 3))) RDN /\
  run show (exec Pdef (Call false (CDivNI _ (dbl 1 0) (di 3 3)) Ret)) RDN =
    (Ok (show (mk (dbl 6004799503160662 (-54)) (dbl 6004799503160661 (-54)))), RDN).
Proof. split; [apply demo_scoped|]. split; [apply demo_tame|]. split; vm_compute; reflexivity. Qed.

(** ** C08: compound assignment

    [updated x m]: the object holds the result of [m], or its old value if [m]
    throws.  The argument may be *this, or a bound of *this. *)
Theorem C08_compound_interval : forall p k debug c ord ord' (x : itv (fnum p)) (r : iref) mode,
  m_add (P_ p k debug c ord) r x mode = updated x (op_add (P_ p k debug c ord') x (rdi x r)) mode /\
  m_sub (P_ p k debug c ord) r x mode = updated x (op_sub (P_ p k debug c ord') x (rdi x r)) mode /\
  m_mul (P_ p k debug c ord) r x mode = updated x (op_mul (P_ p k debug c ord') x (rdi x r)) mode /\
  m_div (P_ p k debug c ord) r x mode = updated x (op_div (P_ p k debug c ord') x (rdi x r)) mode.
Proof.
  intros. split; [apply m_add_updated|]. split; [apply m_sub_updated|].
  split; [apply m_mul_updated|apply m_div_updated].
Qed.
Print Assumptions C08_compound_interval.
(** Missing for the full property: x += v for an empty x and v = NaN under
    checking_catch_nan (C08_add_number_refuted). *)
Theorem C08_compound_number_partial : forall p k debug c ord ord' (x : itv (fnum p)) (r : nref) mode,
  ((fempty x -> fval (rd x r) <> NaN) ->
   m_add_n (P_ p k debug c ord) r x mode = updated x (op_add_in (P_ p k debug c ord') x (rd x r)) mode) /\
  m_sub_n (P_ p k debug c ord) r x mode = updated x (op_sub_in (P_ p k debug c ord') x (rd x r)) mode /\
  m_mul_n (P_ p k debug c ord) r x mode = updated x (op_mul_in (P_ p k debug c ord') x (rd x r)) mode /\
  m_div_n (P_ p k debug c ord) r x mode = updated x (op_div_in (P_ p k debug c ord') x (rd x r)) mode.
Proof.
  intros. split; [apply m_add_n_updated|]. split; [apply m_sub_n_updated|].
  split; [apply m_mul_n_updated|apply m_div_n_updated].
Qed.
Print Assumptions C08_compound_number_partial.
Definition obs (r : outcome unit * itv (fnum double_sse) * rmode) := let '(o, x, m) := r in (o, show x, m).
(** x -= x on [1,3]; x += x.upper(); x /= [0,0] throws and keeps x. *)
Example C08_case :
  obs (m_sub Pdef IThis (di 1 3) RNE) = (Ok tt, show (di (-2) 2), RNE) /\
  obs (m_add_n Pdef NUp (di 1 3) RNE) = (Ok tt, show (di 4 6), RNE) /\
  obs (m_div Pdef (IVal (di 0 0)) (di 1 3) RNE) = (Throw EmptyCreated, show (di 1 3), RNE).
Proof. repeat split; vm_compute; reflexivity. Qed.
(** With checking_catch_nan, x + NaN throws for an empty x, x += NaN does not. *)
Theorem C08_add_number_refuted :
  ~ (forall p k debug c ord (x : itv (fnum p)) (r : nref) mode, ok_interval c x ->
       m_add_n (P_ p k debug c ord) r x mode = updated x (op_add_in (P_ p k debug c ord) x (rd x r)) mode).
Proof.
  intros H. specialize (H double_sse Opp true CkCatchNan (fun _ => true) (di 1 0) (NVal dnan) RNE).
  assert (K : ok_interval CkCatchNan (di 1 0)).
  { right. split; [reflexivity|]. unfold fempty, di. cbn [low up]. repeat dval. simpl. lra. }
  specialize (H K). apply (f_equal (fun r => fst (fst r))) in H. vm_compute in H. discriminate.
Qed.
Print Assumptions C08_add_number_refuted.

(** ** C30: assign

    Holds unless the second argument refers to x's own lower bound and the first
    does not have that same value. *)
Theorem C30_assign_partial : forall p k debug c ord (x : itv (fnum p)) (l u : nref) mode,
  xle (fval (rd x l)) (fval (rd x u)) -> u <> NLow \/ rd x l = low x ->
  m_assign (P_ p k debug c ord) l u x mode = (Ok tt, mk (rd x l) (rd x u), mode).
Proof. exact m_assign_ok. Qed.
Print Assumptions C30_assign_partial.
(** When the arguments are not ordered (or not numbers), the object becomes what
    the policy makes of an empty interval; if that is an exception the object
    keeps its value.  No aliasing matters here. *)
Theorem C30_assign_unordered : forall p k debug c ord (x : itv (fnum p)) (l u : nref) mode,
  fval (rd x l) <> NaN -> fval (rd x u) <> NaN -> ~ xle (fval (rd x l)) (fval (rd x u)) ->
  m_assign (P_ p k debug c ord) l u x mode = updated x (i_empty (P_ p k debug c ord)) mode.
Proof. exact m_assign_unordered. Qed.
Print Assumptions C30_assign_unordered.
Example C30_case :
  obs (m_assign Pdef (NVal (dbl 1 0)) NUp (di 2 3) RNE) = (Ok tt, show (di 1 3), RNE) /\
  obs (m_assign Pdef NUp (NVal (dbl 5 0)) (di 2 3) RNE) = (Ok tt, show (di 3 5), RNE) /\
  obs (m_assign Pdef (NVal (dbl 5 0)) (NVal (dbl 1 0)) (di 2 3) RNE) = (Throw EmptyCreated, show (di 2 3), RNE).
Proof. repeat split; vm_compute; reflexivity. Qed.
(** x.assign(1, x.lower()) on x = [2,3] gives [1,1], not [1,2]. *)
Theorem C30_assign_refuted :
  ~ (forall p k debug c ord (x : itv (fnum p)) (l u : nref) mode,
       fvalid x -> xle (fval (rd x l)) (fval (rd x u)) ->
       m_assign (P_ p k debug c ord) l u x mode = (Ok tt, mk (rd x l) (rd x u), mode)).
Proof.
  intros H. specialize (H double_sse Opp true CkStrict (fun _ => true) (di 2 3) (NVal (dbl 1 0)) NLow RNE).
  assert (V : fvalid (di 2 3)) by (apply di_valid; lia).
  assert (L : xle (fval (f := binary64) (dbl 1 0)) (fval (f := binary64) (dbl 2 0))) by (repeat dval; simpl; lra).
  specialize (H V L). apply (f_equal (fun r => show (snd (fst r)))) in H. vm_compute in H. discriminate.
Qed.
Print Assumptions C30_assign_refuted.

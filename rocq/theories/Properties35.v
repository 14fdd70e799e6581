(** * Property C78: failures come only from the base type and the policies *)

From Coq Require Import Reals ZArith Lra Lia Bool.
From Flocq Require Import Core BinarySingleNaN.
From Verif Require Import Outcome Base Checking Interval Utility Arith Arith2 Extras Compare Transc Mixed FloatNum
  Spec ExtR Sem FloatTrans Witness SpecFault NoFault.

(** ** C78

    doc/interval.htm, "Exception throwing": an exception the base type and the
    two policies never throw is not thrown by any function of the library; nor
    does the library add a failed assertion or undefined behaviour of its own,
    on the int arguments pow and nth_root accept. *)
Theorem C78_origin : forall F N (P : policy N) (K : consts N) (R : transc N),
  base_never F N -> rounding_never F P -> checking_never F P -> transc_never F R -> consts_never F K ->
  forall A (m : M A), library F P K R m -> never F m.
Proof.
  intros F N P K R HN HP HC HR HK. apply (library_never F K R HN HK HR P). split; assumption.
Qed.
Print Assumptions C78_origin.

(** The comparison operators add one exception, comparison_error. *)
Theorem C78_comparison_partial : forall F N (P : policy N),
  rounding_never F P -> checking_never F P -> F <> Thrown ComparisonError ->
  forall A (m : M A), comparison P m -> never F m.
Proof.
  intros F N P HP HC HF. apply (comparison_never F P); [split|]; assumption.
Qed.
Print Assumptions C78_comparison_partial.

(** ** The floating-point types and the supplied policies *)

(** What the supplied checking policies throw. *)
Definition policy_throws (c : ckind) (e : exn) : Prop :=
  match e, c with
  | EmptyCreated, (CkNoEmpty | CkStrict | CkNoEmptyCatchNan) => True
  | InvalidNumber, (CkCatchNan | CkNoEmptyCatchNan) => True
  | _, _ => False
  end.
Definition policy_fails (debug : bool) (c : ckind) (F : fault) : Prop :=
  match F with
  | Thrown e => policy_throws c e
  | Asserted => debug = true
  | Undefined => False
  end.

Lemma ok_never {A} F (a : A) : ~ suffers F (Ok a).
Proof. destruct F; discriminate. Qed.
Lemma fnum_never F p : base_never F (fnum p).
Proof. constructor; intros; apply ok_never. Qed.
Lemma fpol_rounding_never F p pr k debug c ord : rounding_never F (fpol p pr k debug c ord).
Proof.
  assert (U : forall B (f : rmode -> B), never F (under_mode (fun m => Ok (f m)))) by
    (intros B f s; apply ok_never).
  assert (S : forall m, never F (set_mode m)) by (intros m s; apply (ok_never F tt)).
  constructor; try solve
   [ intros; destruct k; cbn [p_ctl p_ar fpol farith control_hw arith_std arith_opp rc_get rc_set ar_init
       add_down add_up sub_down sub_up mul_down mul_up div_down div_up ar_median sqrt_down sqrt_up int_down
       int_up rc_down rc_up rc_near rc_force rc_to_int];
     first [ intros ?; apply ok_never | idtac ];
     repeat (first [ apply nv_ret | apply S | apply U
       | apply (nv_under F); intros ?; apply ok_never
       | apply (nv_bind F); [|intros ?] | progress unfold ex_add, ex_sub, ex_mul, ex_div, ex_mid, ex_sqrt ]) ].
  all: intros s v [H1 H2]; destruct k;
    cbn [p_ctl p_ar fpol farith control_hw arith_std arith_opp conv_down conv_up rc_down rc_up rc_force];
    unfold ex_conv;
    repeat (first [ apply nv_ret | apply S | apply (nv_under F); intros ?; first [apply H1|apply H2|apply ok_never]
      | apply (nv_bind F); [|intros ?] ]).
Qed.
Lemma fpol_checking_never F p pr k debug c ord : ~ policy_fails debug c F ->
  checking_never F (fpol p pr k debug c ord).
Proof.
  intros H.
  assert (A : forall b : bool, never F (assert_ debug b)).
  { intros b s. unfold assert_. destruct debug; [|destruct F; discriminate].
    destruct b; [destruct F; discriminate|]. destruct F; try discriminate. exfalso. apply H. reflexivity. }
  assert (G : never F (@neg (fnum p) (n_inf (fnum p)))).
  { intros s. apply ok_never. }
  destruct c; constructor; intros;
    cbn [p_ck fpol fchecking checking_base checking_no_nan checking_catch_nan checking_no_empty checking_strict
      ck_pos_inf ck_neg_inf ck_nan ck_is_nan ck_empty_lower ck_empty_upper];
    repeat (first [ apply nv_ret | apply A | apply G | apply (nv_bind F); [|intros ?] | apply nv_if
      | apply nv_throw; intros E; apply H; rewrite E; exact Logic.I ]).
Qed.
Lemma ftransc_never F p k L : transc_never F (ftransc p k L).
Proof.
  intros f a. destruct k; cbn [ftransc transc_std transc_opp tr_down tr_up]; split; try destruct (switches f);
    repeat (first [ apply nv_ret | apply (nv_under F); intros ?; apply ok_never
      | apply (nv_bind F); [|intros ?] | intros ?; apply ok_never ]).
Qed.
Lemma consts_double_never F p m : consts_never F (consts_double p m).
Proof.
  repeat split; repeat (first [ apply nv_ret | apply (nv_under F); intros ?; apply ok_never
    | apply (nv_bind F); [|intros ?] ]).
Qed.

Definition is_throw {A} (e : exn) (o : outcome A) : bool :=
  match o, e with
  | Throw EmptyCreated, EmptyCreated | Throw ComparisonError, ComparisonError => true
  | _, _ => false
  end.
Lemma is_throw_ok {A} e (o : outcome A) : is_throw e o = true -> o = Throw e.
Proof. destruct o as [a|e0| | |], e; try discriminate; destruct e0; try discriminate; reflexivity. Qed.
Lemma empty_thrown : suffers (Thrown EmptyCreated)
  (fst (op_div (fpol double_sse Save Opp false CkStrict (fun _ => true)) (di 1 2) (di 0 0) RNE)).
Proof. apply is_throw_ok. vm_compute. reflexivity. Qed.
Lemma uncertain_thrown : let P := fpol double_sse Save Opp false CkBase (fun _ => true) in
  suffers (Thrown ComparisonError) (fst (def_cmp P Lt P (di 1 3) (di 2 4) RNE)).
Proof. apply is_throw_ok. vm_compute. reflexivity. Qed.

(** Every function on float, double or long double intervals, for every
    rounding and checking policy of the library, every C library: the only
    exceptions are those of the checking policy, and nothing is undefined. *)
Theorem C78_floats : forall F p pr k debug c ord (K : consts (fnum p)) (L : libm (fnum p)),
  consts_never F K -> ~ policy_fails debug c F ->
  forall A (m : M A), library F (fpol p pr k debug c ord) K (ftransc p k L) m -> never F m.
Proof.
  intros F p pr k debug c ord K L HK H. apply C78_origin; auto.
  - apply fnum_never.
  - apply fpol_rounding_never.
  - apply fpol_checking_never; auto.
  - apply ftransc_never.
Qed.
Print Assumptions C78_floats.
(** The default interval<double>: nothing but create_empty_interval, and a
    division by an interval is one of the functions. *)
Example C78_floats_case : forall L,
  let P := fpol double_sse Save Opp false CkStrict (fun _ => true) in
  let K := consts_double double_sse RNE in
  (forall F, consts_never F K) /\
  (forall F, ~ policy_fails false CkStrict F <-> F <> Thrown EmptyCreated) /\
  (forall F x y, library F P K (ftransc double_sse Opp L) (op_div P x y)) /\
  (exists x y, ~ never (Thrown EmptyCreated) (op_div P x y)).
Proof.
  intros L P K. split; [|split; [|split]].
  - intros F. apply consts_double_never.
  - intros F. destruct F as [[]| |]; cbn; split; intros H; try tauto; try discriminate; try congruence;
      try (intros E; discriminate).
  - intros F x y. constructor.
  - exists (di 1 2), (di 0 0). intros H. apply (H RNE). exact empty_thrown.
Qed.

(** "The interval class and all the functions defined around this class never
    throw any exceptions by themselves": not the comparison operators. *)
Theorem C78_comparison_refuted :
  let P := fpol double_sse Save Opp false CkBase (fun _ => true) in
  (forall F, F = Thrown ComparisonError -> base_never F (fnum double_sse) /\ rounding_never F P /\ checking_never F P) /\
  exists x y : itv (fnum double_sse), fvalid x /\ fvalid y /\
    comparison P (def_cmp P Lt P x y) /\ ~ never (Thrown ComparisonError) (def_cmp P Lt P x y).
Proof.
  intros P. split.
  - intros F E. subst F. split; [apply fnum_never|]. split; [apply fpol_rounding_never|apply fpol_checking_never].
    intros H. exact H.
  - exists (di 1 3), (di 2 4). split; [apply di_valid; lia|]. split; [apply di_valid; lia|].
    split; [apply (O_default P Lt)|]. intros H. apply (H RNE). exact uncertain_thrown.
Qed.
Print Assumptions C78_comparison_refuted.

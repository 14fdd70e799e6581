(** * Properties C26, C28: empty intervals and NaN numbers *)

From Coq Require Import Reals ZArith Lra Lia Bool List Classical.
From Flocq Require Import Core BinarySingleNaN.
From Verif Require Import Outcome Base Checking Interval Utility Arith Arith2 FloatNum Spec ExtR Sem
  FloatSpec FloatPol CoreArith CoreUtil CoreFmod Inst Witness Agree Program Mutate CoreCtor Ops OpsProof.
Local Open Scope R_scope.

Notation P_ p k debug c ord := (fpol p Save k debug c ord).

(** ** C26: empty arguments *)
Section Table.
Context {p : platform}.
Notation N := (fnum p).
Notation I := (itv N).

(** The interval arguments and the number arguments of a call. *)
Definition interval_args {A} (cl : call (p := p) A) : list I :=
  match cl with
  | CDefault _ | CNum _ _ | CNum2 _ _ _ | CFloat _ _ _ | CFloat2 _ _ _ _ | CHullNN _ _ _
  | CNAdd _ _ _ | CNSub _ _ _ | CNMul _ _ _ | CNDiv _ _ _ => nil
  | CLower _ x | CUpper _ x | CWidth _ x | CMedian _ x | CNorm _ x | CWiden _ x _ | CEmpty _ x
  | CZeroIn _ x | CIn _ _ x | CSingleton _ x | CHullIN _ x _ | CHullNI _ _ x | CBisect _ x | CAbs _ x
  | CMaxIN _ x _ | CMaxNI _ _ x | CMinIN _ x _ | CMinNI _ _ x | CNeg _ x | CAddNI _ _ x | CAddIN _ x _
  | CSubNI _ _ x | CSubIN _ x _ | CMulNI _ _ x | CMulIN _ x _ | CDivNI _ _ x | CDivIN _ x _
  | CFmodIN _ x _ | CFmodNI _ _ x | CInverse _ x | CPow _ x _ _ | CSqrt _ x | CSquare _ x
  | CLtN _ x _ | CGtN _ x _ | CLeN _ x _ | CGeN _ x _ | CEqN _ x _ | CNeN _ x _ => x :: nil
  | CSubset _ x y | CProperSubset _ x y | COverlap _ x y | CEqual _ x y | CIntersect _ x y | CHull _ x y
  | CMax _ x y | CMin _ x y | CAdd _ x y | CSub _ x y | CMul _ x y | CDiv _ x y | CFmod _ x y
  | CDivPart1 _ x y | CDivPart2 _ x y _
  | CLt _ x y | CGt _ x y | CLe _ x y | CGe _ x y | CEq _ x y | CNe _ x y => x :: y :: nil
  end.
Definition number_args {A} (cl : call (p := p) A) : list (T N) :=
  match cl with
  | CNum _ v | CWiden _ _ v | CIn _ v _ | CHullIN _ _ v | CHullNI _ v _ | CMaxIN _ _ v | CMaxNI _ v _
  | CMinIN _ _ v | CMinNI _ v _ | CAddNI _ v _ | CAddIN _ _ v | CSubNI _ v _ | CSubIN _ _ v
  | CMulNI _ v _ | CMulIN _ _ v | CDivNI _ v _ | CDivIN _ _ v | CFmodIN _ _ v | CFmodNI _ v _
  | CLtN _ _ v | CGtN _ _ v | CLeN _ _ v | CGeN _ _ v | CEqN _ _ v | CNeN _ _ v => v :: nil
  | CNum2 _ v w | CHullNN _ v w | CNAdd _ v w | CNSub _ v w | CNMul _ v w | CNDiv _ v w => v :: w :: nil
  | _ => nil
  end.

(** What a call must do when one of its interval arguments is empty: the
    comparison operators throw, everything else returns a result as follows.
    (division_part2 with b = true is only to be called after division_part1
    set b, which it never does on empty arguments.) *)
Inductive expected (A : Type) := Raises (e : exn) | Gives (ok : A -> Prop) | Unspecified.
Arguments Raises {A} e. Arguments Gives {A} ok. Arguments Unspecified {A}.
Definition on_empty {A} (cl : call (p := p) A) : expected A :=
  match cl in call A return expected A with
  (* bounds, midpoint, magnitude: NaN; width: 0 *)
  | CLower _ _ | CUpper _ _ | CMedian _ _ | CNorm _ _ => Gives (fun t : T N => fval t = NaN)
  | CWidth _ _ => Gives (fun t : T N => fval t = Fin 0)
  (* sets *)
  | CEmpty _ _ => Gives (fun b => b = true)
  | CZeroIn _ _ | CIn _ _ _ | COverlap _ _ _ | CSingleton _ _ => Gives (fun b => b = false)
  | CSubset _ x _ => Gives (fun b => b = true <-> fempty x)
  | CProperSubset _ _ y => Gives (fun b => b = true <-> ~ fempty y)
  | CEqual _ x y => Gives (fun b => b = true <-> fempty x /\ fempty y)
  (* hull ignores it *)
  | CHull _ x y => Gives (fun z => (fempty x -> fempty y -> fempty z) /\ (~ fempty x -> z = x) /\ (~ fempty y -> z = y))
  | CHullIN _ _ v | CHullNI _ v _ => Gives (fun z => z = mk v v)
  | CBisect _ _ => Gives (fun zz => fempty (fst zz) /\ fempty (snd zz))
  | CDivPart1 _ _ _ => Gives (fun zb => fempty (fst zb) /\ snd zb = false)
  | CDivPart2 _ _ _ b => if b then Unspecified else Gives (fun z : I => fempty z)
  (* arithmetic: empty *)
  | CWiden _ _ _ | CIntersect _ _ _ | CAbs _ _ | CMax _ _ _ | CMaxIN _ _ _ | CMaxNI _ _ _
  | CMin _ _ _ | CMinIN _ _ _ | CMinNI _ _ _ | CNeg _ _ | CAdd _ _ _ | CAddNI _ _ _ | CAddIN _ _ _
  | CSub _ _ _ | CSubNI _ _ _ | CSubIN _ _ _ | CMul _ _ _ | CMulNI _ _ _ | CMulIN _ _ _
  | CDiv _ _ _ | CDivNI _ _ _ | CDivIN _ _ _ | CFmod _ _ _ | CFmodIN _ _ _ | CFmodNI _ _ _
  | CInverse _ _ | CPow _ _ _ _ | CSqrt _ _ | CSquare _ _ => Gives (fun z : I => fempty z)
  (* comparisons *)
  | CLt _ _ _ | CGt _ _ _ | CLe _ _ _ | CGe _ _ _ | CEq _ _ _ | CNe _ _ _
  | CLtN _ _ _ | CGtN _ _ _ | CLeN _ _ _ | CGeN _ _ _ | CEqN _ _ _ | CNeN _ _ _ => Raises ComparisonError
  (* no interval argument *)
  | CDefault _ | CNum _ _ | CNum2 _ _ _ | CFloat _ _ _ | CFloat2 _ _ _ _ | CHullNN _ _ _
  | CNAdd _ _ _ | CNSub _ _ _ | CNMul _ _ _ | CNDiv _ _ _ => Unspecified
  end.
Definition meets {A} (m : M A) (e : expected A) : Prop :=
  match e with
  | Raises e => throws m e
  | Gives ok => exists a, returns m a /\ ok a
  | Unspecified => True
  end.
End Table.
Arguments Raises {A} e. Arguments Gives {A} ok. Arguments Unspecified {A}.

Theorem C26_empty_propagates : forall p k debug c ord A (cl : call (p := p) A),
  allows_empty c = true ->
  (exists x, In x (interval_args cl) /\ fempty x) ->
  (forall v, In v (number_args cl) -> fval v <> NaN) ->
  meets (run_call (P_ p k debug c ord) cl) (on_empty cl).
Proof.
  intros p k debug c ord A cl Al (x0 & Hx & Ex) Hv.
  assert (TE : forall x, fempty x -> test_input_i (P_ p k debug c ord) x = true) by (intros; apply is_empty_iff; auto).
  assert (TN : forall x, ~ fempty x -> test_input_i (P_ p k debug c ord) x = false).
  { intros x Nx. apply not_true_is_false. intros Q. apply Nx. apply is_empty_iff in Q; auto. }
  assert (Em : forall P' : policy (fnum p), P' = P_ p k debug c ord -> exists z, returns (i_empty P') z /\ fempty z).
  { intros P' ->. pose proof (i_empty_gives p k debug c ord) as G. unfold gives_empty in G. rewrite Al in G. exact G. }
  assert (Nn : forall s, ck_nan (fchecking p debug c) s = (Ok (n_nan (fnum p)), s)).
  { intros s. clear - Al. destruct c, debug; try discriminate Al; reflexivity. }
  destruct (Em _ eq_refl) as (z & Rz & Ez).
  assert (IN : forall v : T (fnum p), fval v <> NaN -> forall s, ck_is_nan (p_ck (P_ p k debug c ord)) v s = (Ok false, s)).
  { intros v Nv s. apply is_nan_false, Nv. }
  destruct cl; cbn [interval_args number_args In on_empty meets] in *; try exact Logic.I;
    try (destruct Hx as [Hx|[]]; subst x0); try (destruct Hx as []; fail).
  (* one interval *)
  all: try (match goal with |- exists _, _ /\ fempty _ => idtac end;
     exists z; split; [|exact Ez]; intros s; cbn [run_call];
     unfold widen, u_abs, op_neg, multiplicative_inverse, Arith2.pow, i_sqrt, square,
       u_max_in, u_max_ni, u_min_in, u_min_ni, op_add_in, op_add_ni, op_sub_in, op_sub_ni, op_mul_in, op_mul_ni,
       op_div_in, op_div_ni, fmod_in, fmod_ni, test_input_in, test_input_ni, bind; rewrite ?(TE _ Ex);
     try (rewrite IN by (apply Hv; left; reflexivity)); cbn [ret orb]; rewrite ?(TE _ Ex); apply Rz).
  all: try (assert (TT : test_input_ii (P_ p k debug c ord) x y = true)
    by (unfold test_input_ii; destruct Hx as [Hx|[Hx|[]]]; subst x0; rewrite (TE _ Ex), ?orb_true_r; reflexivity)).
  (* two intervals, arithmetic *)
  all: try (match goal with |- exists _, _ /\ fempty _ => idtac end;
     exists z; split; [|exact Ez]; intros s; cbn [run_call];
     unfold intersect, u_max, u_min, op_add, op_sub, op_mul, op_div, fmod; rewrite TT; apply Rz).
  (* bounds and numbers *)
  all: try (exists (n_nan (fnum p)); split; [|reflexivity]; intros s; cbn [run_call];
     unfold checked_lower, checked_upper, median, norm, u_empty; rewrite (TE _ Ex); apply Nn).
  all: try (intros s; cbn [run_call]; unfold cmp_lt, cmp_gt, cmp_le, cmp_ge, cmp_eq, cmp_ne, interval_holder, bind;
    change (ck_is_empty (p_ck (P_ p k debug c ord)) (low y) (up y)) with (test_input_i (P_ p k debug c ord) y);
    (destruct (classic (fempty y)) as [K|K]; [rewrite (TE y K); reflexivity|]);
    rewrite (TN y K); (destruct Hx as [Hx|[Hx|[]]]; subst x0; [|contradiction]); rewrite (TE x Ex); reflexivity).
  all: try (intros s; cbn [run_call]; unfold cmpn_lt, cmpn_gt, cmpn_le, cmpn_ge, cmpn_eq, cmpn_ne, number_holder, bind;
    rewrite IN by (apply Hv; auto); cbn [ret]; rewrite (TE _ Ex); reflexivity).
  - exists zero. split; [|apply (ns_0 _ _ (fnumspec p))]. intros s. cbn [run_call]. unfold width. rewrite (TE _ Ex). reflexivity.
  (* predicates *)
  - exists true. split; [|reflexivity]. intros s. cbn [run_call]. unfold u_empty. rewrite (TE _ Ex). reflexivity.
  - exists false. split; [|reflexivity]. intros s. cbn [run_call]. unfold zero_in. rewrite (TE _ Ex). reflexivity.
  - exists false. split; [|reflexivity]. intros s. cbn [run_call]. unfold u_in, test_input_ni, bind.
    rewrite IN by (apply Hv; auto). rewrite (TE _ Ex). reflexivity.
  - destruct (classic (fempty x)) as [K|K].
    + exists true. split; [|tauto]. intros s. cbn [run_call]. unfold subset, u_empty. rewrite (TE x K). reflexivity.
    + exists false. split; [|split; [discriminate|contradiction]]. intros s. cbn [run_call]. unfold subset, u_empty.
      rewrite (TN x K). destruct Hx as [Hx|[Hx|[]]]; subst x0; [contradiction|]. rewrite (TE y Ex). reflexivity.
  - destruct (classic (fempty y)) as [K|K].
    + exists false. split; [|split; [discriminate|contradiction]]. intros s. cbn [run_call]. unfold proper_subset, u_empty.
      rewrite (TE y K). reflexivity.
    + exists true. split; [|tauto]. intros s. cbn [run_call]. unfold proper_subset, u_empty.
      rewrite (TN y K). destruct Hx as [Hx|[Hx|[]]]; subst x0; [|contradiction]. rewrite (TE x Ex). reflexivity.
  - exists false. split; [|reflexivity]. intros s. cbn [run_call]. unfold overlap. rewrite TT. reflexivity.
  - exists false. split; [|reflexivity]. intros s. cbn [run_call]. unfold singleton, u_empty. rewrite (TE _ Ex). reflexivity.
  - destruct (classic (fempty x)) as [K|K]; destruct (classic (fempty y)) as [K'|K'];
      [exists true|exists false|exists false|exfalso; destruct Hx as [Hx|[Hx|[]]]; subst x0; contradiction];
      (split; [intros s; cbn [run_call]; unfold equal, u_empty; rewrite ?(TE x), ?(TE y), ?(TN x), ?(TN y) by auto;
         reflexivity|split; [try discriminate; auto|tauto]]).
  - destruct (classic (fempty x)) as [K|K]; destruct (classic (fempty y)) as [K'|K'];
      [exists z|exists y|exists x|exfalso; destruct Hx as [Hx|[Hx|[]]]; subst x0; contradiction];
      (split; [intros s; cbn [run_call]; unfold hull; rewrite ?(TE x), ?(TE y), ?(TN x), ?(TN y) by auto;
         try reflexivity; try apply Rz|repeat split; intros; auto; contradiction]).
  - exists (mk v v). split; [|reflexivity]. intros s. cbn [run_call]. unfold hull_in, test_input_n, bind.
    rewrite IN by (apply Hv; auto). rewrite (TE _ Ex). reflexivity.
  - exists (mk v v). split; [|reflexivity]. intros s. cbn [run_call]. unfold hull_ni, test_input_n, bind.
    rewrite IN by (apply Hv; auto). rewrite (TE _ Ex). reflexivity.
  - exists (z, z). split; [|split; exact Ez]. intros s. cbn [run_call]. unfold bisect. rewrite (TE _ Ex).
    apply returns_args2; exact Rz.
  - exists (z, false). split; [|split; [exact Ez|reflexivity]]. intros s. cbn [run_call]. unfold division_part1. rewrite TT.
    unfold bind. rewrite Rz. reflexivity.
  - destruct b; [exact Logic.I|]. exists z. split; [|exact Ez]. intros s. apply Rz.
Qed.
Print Assumptions C26_empty_propagates.
(** nth_root of an empty interval. *)
Theorem C26_nth_root : forall p k debug c ord (x : itv (fnum p)) fuel n, allows_empty c = true -> fempty x ->
  exists z, returns (nth_root (P_ p k debug c ord) debug fuel x n) z /\ fempty z.
Proof.
  intros p k debug c ord x fuel n Al Ex. pose proof (i_empty_gives p k debug c ord) as G.
  unfold gives_empty in G. rewrite Al in G. destruct G as (z & Rz & Ez). exists z. split; [|exact Ez].
  intros s. unfold nth_root. rewrite (proj2 (is_empty_iff p k debug c ord x Al) Ex). apply Rz.
Qed.
Print Assumptions C26_nth_root.
(** An empty interval that is not (NaN, NaN), with an operand that is not empty. *)
Example C26_case :
  fempty (di 3 2) /\ ~ fempty (di 1 2) /\
  run show (op_add Pbase (di 1 2) (di 3 2)) RUP = (Ok (show (mk dnan dnan)), RUP) /\
  run show (hull Pbase (di 1 2) (di 3 2)) RUP = (Ok (show (di 1 2)), RUP) /\
  run B2SF (width Pbase (di 3 2)) RUP = (Ok (B2SF (dbl 0 0)), RUP) /\
  run B2SF (median Pbase (di 3 2)) RUP = (Ok (B2SF dnan), RUP).
Proof.
  split; [|split]; [| |repeat split; vm_compute; reflexivity];
    unfold fempty, di; cbn [low up]; change (p_T double_sse) with binary64; repeat dval; simpl; lra.
Qed.

(** ** C27: checking_no_empty *)

(** What C27 asks of a call whose set of real results is S. *)
Definition never_empty {p} (m : M (itv (fnum p))) (S : R -> Prop) : Prop :=
  (forall mode z mode', m mode = (Ok z, mode') -> fvalid z /\ fencloses z S) /\
  (throws m EmptyCreated <-> forall r, ~ S r).
Lemma never_empty_of {p} c (m : M (itv (fnum p))) S : allows_empty c = false -> correct p c m S -> never_empty m S.
Proof.
  intros A [H1 H2]. unfold gives_empty in H2. rewrite A in H2. split.
  - intros mode z mode' E. destruct (classic (nonempty S)) as [K|K].
    + destruct (H1 K) as (w & R & V & En). pose proof (eq_trans (eq_sym E) (R mode)) as Q. injection Q as -> ->. auto.
    + pose proof (eq_trans (eq_sym E) (H2 K mode)) as Q. discriminate.
  - split.
    + intros Th r Hr. destruct H1 as (w & R & _); [exists r; exact Hr|].
      pose proof (eq_trans (eq_sym (R RNE)) (Th RNE)) as Q. discriminate.
    + intros K. apply H2. intros (r & Hr). exact (K r Hr).
Qed.
Theorem C27_no_empty : forall p k debug c ord (x y : itv (fnum p)) (v w : T (fnum p)) rv rw,
  allows_empty c = false -> fvalid x -> fvalid y -> fval v = Fin rv -> fval w = Fin rw ->
  let P := P_ p k debug c ord in
  (forall o, match o with U_pow n => (int_min < n <= int_max)%Z | _ => True end ->
     never_empty (run1 P o x) (img1 o (fmem x))) /\
  (forall o, never_empty (run2 P o x y) (img2 o (fmem x) (fmem y)) /\
             never_empty (run_in P o x v) (img2 o (fmem x) (point rv)) /\
             never_empty (run_ni P o v x) (img2 o (point rv) (fmem x))) /\
  (forall o, never_empty (run_nn P o v w) (rel2 (op_of o) rv rw)) /\
  never_empty (intersect P x y) (fun r => fmem x r /\ fmem y r) /\
  (0 <= rv -> never_empty (widen P x v) (fun t => exists r, fmem x r /\ Rabs (t - r) <= rv)).
Proof.
  intros p k debug c ord x y v w rv rw A Vx Vy Ev Ew P.
  split; [|split; [|split; [|split]]].
  - intros o Ho. apply (never_empty_of c); auto. apply run1_correct; auto.
  - intros o. split; [|split]; apply (never_empty_of c); auto;
      [apply run2_correct|apply run_in_correct|apply run_ni_correct]; auto.
  - intros o. apply (never_empty_of c); auto. apply run_nn_correct; auto.
  - apply (never_empty_of c); auto. apply intersect_correct; auto.
  - intros Hp. apply (never_empty_of c); auto. apply widen_correct; auto.
Qed.
Print Assumptions C27_no_empty.
Example C27_case :
  fvalid (di (-2) (-1)) /\ fvalid (di 0 0) /\
  run show (i_sqrt Pdef (di (-2) (-1))) RUP = (Throw EmptyCreated, RUP) /\
  run show (op_div Pdef (di (-2) (-1)) (di 0 0)) RUP = (Throw EmptyCreated, RUP) /\
  run show (intersect Pdef (di (-2) (-1)) (di 0 0)) RUP = (Throw EmptyCreated, RUP) /\
  run show (i_sqrt Pdef (di (-2) 4)) RUP = (Ok (show (di 0 2)), RUP).
Proof.
  split; [apply di_valid; lia|]. split; [apply di_valid; lia|]. repeat split; vm_compute; reflexivity.
Qed.

(** ** C28: NaN numbers *)

(** Policies whose is_nan reports a NaN / throws on one / ignores it. *)
Definition detects (c : ckind) : bool := match c with CkBase | CkNoEmpty => true | _ => false end.
Definition catches (c : ckind) : bool := match c with CkCatchNan | CkNoEmptyCatchNan => true | _ => false end.
Definition is_hull (o : op2) : bool := match o with B_hull => true | _ => false end.
Definition is_hull_n (o : opn) : bool := match o with N_hull => true | _ => false end.

Lemma nan_only p (v : T (fnum p)) : fval v = NaN -> v = (B754_nan : flt (p_T p)).
Proof. destruct v as [s|[|]| |s m e B]; simpl; intros E; try discriminate E; reflexivity. Qed.
Lemma detects_true p debug c (v : T (fnum p)) s : detects c = true -> fval v = NaN ->
  ck_is_nan (fchecking p debug c) v s = (Ok true, s).
Proof. intros D E. apply nan_only in E. subst v. destruct c; try discriminate D; reflexivity. Qed.
Lemma catches_throw p debug c (v : T (fnum p)) s : catches c = true -> fval v = NaN ->
  ck_is_nan (fchecking p debug c) v s = (Throw InvalidNumber, s).
Proof. intros D E. apply nan_only in E. subst v. destruct c; try discriminate D; reflexivity. Qed.

(** A policy that reports NaN: the result is empty (or the policy's exception),
    whatever the other operand ... *)
Theorem C28_reported_operators : forall p k debug c ord (x : itv (fnum p)) (v w : T (fnum p)),
  detects c = true -> fval v = NaN ->
  let P := P_ p k debug c ord in
  (forall o, is_hull o = false -> gives_empty c (run_in P o x v) /\ gives_empty c (run_ni P o v x)) /\
  (forall o, is_hull_n o = false -> gives_empty c (run_nn P o v w) /\ gives_empty c (run_nn P o w v)) /\
  gives_empty c (fmod_in P x v) /\ gives_empty c (fmod_ni P v x).
Proof.
  intros p k debug c ord x v w D E P.
  assert (In_ : forall x s, test_input_in P x v s = (Ok true, s)).
  { intros x' s. unfold test_input_in. destruct test_input_i; [reflexivity|]. apply detects_true; auto. }
  assert (Ni_ : forall x s, test_input_ni P v x s = (Ok true, s)).
  { intros x' s. unfold test_input_ni, bind. cbn [p_ck fpol P]. rewrite detects_true by auto. reflexivity. }
  assert (NN1 : forall s, test_input_nn P v w s = (Ok true, s)).
  { intros s. unfold test_input_nn, bind. cbn [p_ck fpol P]. rewrite detects_true by auto. reflexivity. }
  assert (NN2 : forall s, test_input_nn P w v s = (Ok true, s)).
  { intros s. unfold test_input_nn, bind. cbn [p_ck fpol P].
    destruct (classic (fval w = NaN)) as [W|W].
    - rewrite detects_true by auto. reflexivity.
    - rewrite is_nan_false by auto. apply detects_true; auto. }
  assert (G : forall m : M (itv (fnum p)), (forall s, m s = i_empty P s) -> gives_empty c m).
  { intros m H. apply (gives_ext p c _ (i_empty P)); [exact H|apply i_empty_gives]. }
  split; [|split; [|split]].
  - intros o Ho. destruct o; try discriminate Ho; split; apply G; intros s; cbn [run_in run_ni];
      unfold op_add_in, op_add_ni, op_sub_in, op_sub_ni, op_mul_in, op_mul_ni, op_div_in, op_div_ni,
        u_max_in, u_max_ni, u_min_in, u_min_ni, bind; rewrite ?In_, ?Ni_; reflexivity.
  - intros o Ho. destruct o; try discriminate Ho; split; apply G; intros s; cbn [run_nn];
      unfold n_add, n_sub, n_mul, n_div, bind; rewrite ?NN1, ?NN2; reflexivity.
  - apply G. intros s. unfold fmod_in, bind. rewrite In_. reflexivity.
  - apply G. intros s. unfold fmod_ni, bind. rewrite Ni_. reflexivity.
Qed.
Print Assumptions C28_reported_operators.
(** ... hull keeps the other argument ... *)
Theorem C28_reported_hull : forall p k debug c ord (x : itv (fnum p)) (v w : T (fnum p)),
  detects c = true -> fval v = NaN ->
  let P := P_ p k debug c ord in
  (fvalid x -> returns (hull_in P x v) x /\ returns (hull_ni P v x) x) /\
  (allows_empty c = true -> fempty x -> gives_empty c (hull_in P x v) /\ gives_empty c (hull_ni P v x)) /\
  (fval w <> NaN -> returns (hull_nn P v w) (mk w w) /\ returns (hull_nn P w v) (mk w w)) /\
  (fval w = NaN -> gives_empty c (hull_nn P v w)).
Proof.
  intros p k debug c ord x v w D E P.
  assert (B : forall s, ck_is_nan (p_ck P) v s = (Ok true, s)) by (intros; apply detects_true; auto).
  split; [|split; [|split]].
  - intros V. assert (T : test_input_i P x = false) by (apply (test_valid (fpolspec p Save k debug c ord)); auto).
    split; intros s; unfold hull_in, hull_ni, test_input_n, bind; rewrite B, T; reflexivity.
  - intros A Ex. assert (T : test_input_i P x = true) by (apply is_empty_iff; auto).
    split; apply (gives_ext p c _ (i_empty P)); try apply i_empty_gives;
      intros s; unfold hull_in, hull_ni, test_input_n, bind; rewrite B, T; reflexivity.
  - intros W. assert (C : forall s, ck_is_nan (p_ck P) w s = (Ok false, s)) by (intros; apply is_nan_false; auto).
    split; intros s; unfold hull_nn, i_hull, bind; rewrite ?B, ?C, ?B; reflexivity.
  - intros W. assert (C : forall s, ck_is_nan (p_ck P) w s = (Ok true, s)) by (intros; apply detects_true; auto).
    apply (gives_ext p c _ (i_empty P)); try apply i_empty_gives.
    intros s; unfold hull_nn, i_hull, bind; rewrite B, C; reflexivity.
Qed.
Print Assumptions C28_reported_hull.
(** ... and constructing or assigning gives an empty interval. *)
Theorem C28_reported_constructors : forall p k debug c ord (x : itv (fnum p)) (v w : T (fnum p)) g (v' w' : flt g),
  detects c = true -> fval v = NaN -> fval v' = NaN ->
  let P := P_ p k debug c ord in
  gives_empty c (ctor_num P v) /\ gives_empty c (ctor_num2 P v w) /\ gives_empty c (ctor_num2 P w v) /\
  gives_empty c (ctor_src P (src_float p g) v') /\
  gives_empty c (ctor_src2 P (src_float p g) v' w') /\ gives_empty c (ctor_src2 P (src_float p g) w' v') /\
  (forall s, m_assign_num P (NVal v) x s = updated x (ctor_num P v) s) /\
  (forall s, m_assign_src P (src_float p g) v' x s = updated x (ctor_src P (src_float p g) v') s).
Proof.
  intros p k debug c ord x v w g v' w' D E E' P.
  assert (B : forall s, ck_is_nan (p_ck P) v s = (Ok true, s)) by (intros; apply detects_true; auto).
  assert (B' : forall s, is_nan_src P (src_float p g) v' s = (Ok true, s)).
  { intros s. unfold is_nan_src, under_mode, bind. cbn [src_float s_toT U]. apply detects_true; auto.
    destruct v' as [?|[|]| |]; simpl in E'; try discriminate E'. reflexivity. }
  assert (Cases : forall s, ck_is_nan (p_ck P) w s = (Ok true, s) \/ ck_is_nan (p_ck P) w s = (Ok false, s)).
  { intros s. destruct (classic (fval w = NaN)); [left; apply detects_true; auto|right; apply is_nan_false; auto]. }
  assert (Cases' : forall s, is_nan_src P (src_float p g) w' s = (Ok true, s) \/ is_nan_src P (src_float p g) w' s = (Ok false, s)).
  { intros s. unfold is_nan_src, under_mode, bind. cbn [src_float s_toT U].
    destruct (classic (fval (fconv g (p_T p) s w') = NaN)); [left; apply detects_true; auto|right; apply is_nan_false; auto]. }
  assert (G : forall m : M (itv (fnum p)), (forall s, m s = c_set_empty P s) -> gives_empty c m).
  { intros m H. apply (gives_ext p c _ (c_set_empty P)); [exact H|apply c_set_empty_gives]. }
  split; [|split; [|split; [|split; [|split; [|split; [|split]]]]]].
  - apply G. intros s. unfold ctor_num, bind. rewrite B. reflexivity.
  - apply G. intros s. unfold ctor_num2, bind. rewrite B. reflexivity.
  - apply G. intros s. unfold ctor_num2, bind. destruct (Cases s) as [Q|Q]; rewrite Q; [reflexivity|rewrite B; reflexivity].
  - apply G. intros s. unfold ctor_src, bind. rewrite B'. reflexivity.
  - apply G. intros s. unfold ctor_src2, ctor_src12, bind. rewrite B'. reflexivity.
  - apply G. intros s. unfold ctor_src2, ctor_src12, bind. destruct (Cases' s) as [Q|Q]; rewrite Q; [reflexivity|rewrite B'; reflexivity].
  - intros s. apply m_assign_num_updated.
  - intros s. apply m_assign_src_updated.
Qed.
Print Assumptions C28_reported_constructors.

(** A policy that catches NaN: every constructor, assignment and mixed operator
    throws.  Where the interval operand comes first it is tested first, so it
    must not be an empty one. *)
Theorem C28_caught : forall p k debug c ord (x : itv (fnum p)) (v w : T (fnum p)) g (v' w' : flt g),
  catches c = true -> fval v = NaN -> fval v' = NaN ->
  let P := P_ p k debug c ord in
  (forall o, throws (run_ni P o v x) InvalidNumber) /\ throws (fmod_ni P v x) InvalidNumber /\
  (~ (allows_empty c = true /\ fempty x) ->
   (forall o, throws (run_in P o x v) InvalidNumber) /\ throws (fmod_in P x v) InvalidNumber) /\
  (forall o, throws (run_nn P o v w) InvalidNumber /\ throws (run_nn P o w v) InvalidNumber) /\
  throws (ctor_num P v) InvalidNumber /\
  throws (ctor_num2 P v w) InvalidNumber /\ throws (ctor_num2 P w v) InvalidNumber /\
  throws (ctor_src P (src_float p g) v') InvalidNumber /\
  throws (ctor_src2 P (src_float p g) v' w') InvalidNumber /\ throws (ctor_src2 P (src_float p g) w' v') InvalidNumber /\
  (forall s, m_assign_num P (NVal v) x s = (Throw InvalidNumber, x, s)) /\
  (forall s, m_assign_src P (src_float p g) v' x s = (Throw InvalidNumber, x, s)).
Proof.
  intros p k debug c ord x v w g v' w' D E E' P.
  assert (B : forall s, ck_is_nan (p_ck P) v s = (Throw InvalidNumber, s)) by (intros; apply catches_throw; auto).
  assert (B' : forall s, is_nan_src P (src_float p g) v' s = (Throw InvalidNumber, s)).
  { intros s. unfold is_nan_src, under_mode, bind. cbn [src_float s_toT U]. apply catches_throw; auto.
    destruct v' as [?|[|]| |]; simpl in E'; try discriminate E'. reflexivity. }
  assert (Cases : forall s, ck_is_nan (p_ck P) w s = (Throw InvalidNumber, s) \/ ck_is_nan (p_ck P) w s = (Ok false, s)).
  { intros s. destruct (classic (fval w = NaN)); [left; apply catches_throw; auto|right; apply is_nan_false; auto]. }
  assert (Cases' : forall s, is_nan_src P (src_float p g) w' s = (Throw InvalidNumber, s) \/ is_nan_src P (src_float p g) w' s = (Ok false, s)).
  { intros s. unfold is_nan_src, under_mode, bind. cbn [src_float s_toT U].
    destruct (classic (fval (fconv g (p_T p) s w') = NaN)); [left; apply catches_throw; auto|right; apply is_nan_false; auto]. }
  assert (Ni_ : forall x s, test_input_ni P v x s = (Throw InvalidNumber, s)).
  { intros x' s. unfold test_input_ni, bind. rewrite B. reflexivity. }
  assert (NN1 : forall s, test_input_nn P v w s = (Throw InvalidNumber, s)).
  { intros s. unfold test_input_nn, bind. rewrite B. reflexivity. }
  assert (NN2 : forall s, test_input_nn P w v s = (Throw InvalidNumber, s)).
  { intros s. unfold test_input_nn, bind. destruct (Cases s) as [Q|Q]; rewrite Q; [reflexivity|apply B]. }
  split; [|split; [|split; [|split; [|split; [|split; [|split; [|split; [|split; [|split; [|split]]]]]]]]]].
  - intros o s. destruct o; cbn [run_ni]; unfold op_add_ni, op_sub_ni, op_mul_ni, op_div_ni, u_max_ni, u_min_ni, hull_ni,
      test_input_n, bind; rewrite ?Ni_, ?B; reflexivity.
  - intros s. unfold fmod_ni, bind. rewrite Ni_. reflexivity.
  - intros Hx. assert (Tx : test_input_i P x = false).
    { destruct (allows_empty c) eqn:A.
      - apply not_true_is_false. intros Q. apply Hx. split; [reflexivity|]. apply is_empty_iff in Q; auto.
      - clear - A D. destruct c; try discriminate A; reflexivity. }
    assert (In_ : forall s, test_input_in P x v s = (Throw InvalidNumber, s)).
    { intros s. unfold test_input_in. rewrite Tx. apply B. }
    split.
    + intros o s. destruct o; cbn [run_in]; unfold op_add_in, op_add_ni, op_sub_in, op_mul_in, op_mul_ni, op_div_in, u_max_in, u_min_in, hull_in,
        test_input_n, bind; rewrite ?In_, ?Ni_, ?B; reflexivity.
    + intros s. unfold fmod_in, bind. rewrite In_. reflexivity.
  - intros o. split; intros s; destruct o; cbn [run_nn]; unfold n_add, n_sub, n_mul, n_div, hull_nn, i_hull, bind;
      rewrite ?NN1, ?NN2, ?B; try reflexivity.
    destruct (Cases s) as [Q|Q]; rewrite Q; [reflexivity|rewrite B; reflexivity].
  - intros s. unfold ctor_num, bind. rewrite B. reflexivity.
  - intros s. unfold ctor_num2, bind. rewrite B. reflexivity.
  - intros s. unfold ctor_num2, bind. destruct (Cases s) as [Q|Q]; rewrite Q; [reflexivity|rewrite B; reflexivity].
  - intros s. unfold ctor_src, bind. rewrite B'. reflexivity.
  - intros s. unfold ctor_src2, ctor_src12, bind. rewrite B'. reflexivity.
  - intros s. unfold ctor_src2, ctor_src12, bind. destruct (Cases' s) as [Q|Q]; rewrite Q; [reflexivity|rewrite B'; reflexivity].
  - intros s. unfold m_assign_num, obind, ocomp. cbn [Interval.rd]. rewrite B. reflexivity.
  - intros s. unfold m_assign_src, obind, ocomp. rewrite B'. reflexivity.
Qed.
Print Assumptions C28_caught.
(** That restriction is needed: empty - NaN is quietly empty. *)
Theorem C28_caught_after_empty : forall p k debug ord (x : itv (fnum p)) (v : T (fnum p)),
  fempty x ->
  exists z, returns (run_in (P_ p k debug CkCatchNan ord) B_sub x v) z /\ fempty z.
Proof.
  intros p k debug ord x v Ex. destruct (i_empty_gives p k debug CkCatchNan ord) as (z & R & Hz).
  exists z. split; [|exact Hz]. intros s. cbn [run_in]. unfold op_sub_in, test_input_in, bind.
  rewrite (proj2 (is_empty_iff p k debug CkCatchNan ord x eq_refl) Ex). apply R.
Qed.
Print Assumptions C28_caught_after_empty.

(** A number that is not NaN never triggers either: policies that differ only
    in their treatment of NaN cannot be told apart. *)
Theorem C28_not_nan : forall p k debug c c' ord (x : itv (fnum p)) (v w : T (fnum p)) g (v' : flt g) s,
  allows_empty c = allows_empty c' -> fval v <> NaN -> fval w <> NaN -> fval v' <> NaN ->
  let P := P_ p k debug c ord in let P' := P_ p k debug c' ord in
  (forall o, run_in P o x v s = run_in P' o x v s) /\
  (forall o, run_ni P o v x s = run_ni P' o v x s) /\
  (forall o, run_nn P o v w s = run_nn P' o v w s) /\
  ctor_num P v s = ctor_num P' v s /\ ctor_num2 P v w s = ctor_num2 P' v w s /\
  ctor_src P (src_float p g) v' s = ctor_src P' (src_float p g) v' s /\
  m_assign_num P (NVal v) x s = m_assign_num P' (NVal v) x s.
Proof.
  intros p k debug c c' ord x v w g v' s A Hv Hw Hv' P P'.
  assert (H : forall (u : T (fnum p)) s, fval u <> NaN -> ck_is_nan (p_ck P) u s = (Ok false, s)).
  { intros u s' Hu. apply is_nan_false. exact Hu. }
  assert (H' : forall (u : T (fnum p)) s, fval u <> NaN -> ck_is_nan (p_ck P') u s = (Ok false, s)).
  { intros u s' Hu. apply is_nan_false. exact Hu. }
  assert (Te : forall y, test_input_i P y = test_input_i P' y).
  { intros y. destruct c, c'; try discriminate A; reflexivity. }
  assert (Em : i_empty P = i_empty P') by (destruct c, c'; try discriminate A; reflexivity).
  assert (Wh : i_whole P = i_whole P') by (destruct c, c'; try discriminate A; reflexivity).
  assert (PI : ck_pos_inf (p_ck P) = ck_pos_inf (p_ck P')) by (destruct c, c'; try discriminate A; reflexivity).
  assert (NI : ck_neg_inf (p_ck P) = ck_neg_inf (p_ck P')) by (destruct c, c'; try discriminate A; reflexivity).
  assert (Se : c_set_empty P = c_set_empty P') by (destruct c, c'; try discriminate A; reflexivity).
  assert (In_ : test_input_in P x v s = test_input_in P' x v s).
  { unfold test_input_in. rewrite Te. destruct (test_input_i P' x); [reflexivity|rewrite H, H' by auto; reflexivity]. }
  assert (Ni_ : test_input_ni P v x s = test_input_ni P' v x s).
  { unfold test_input_ni, bind. rewrite H, H', Te by auto. reflexivity. }
  assert (Nn_ : test_input_nn P v w s = test_input_nn P' v w s).
  { unfold test_input_nn, bind. rewrite (H v), (H' v) by auto. rewrite (H w), (H' w) by auto. reflexivity. }
  assert (BB : forall (t t' : M bool) (f f' : bool -> M (itv (fnum p))), t s = t' s -> (forall b s, f b s = f' b s) ->
    bind t f s = bind t' f' s).
  { intros t t' f f' Q Qf. unfold bind. rewrite Q. destruct (t' s) as [[b|e| | |] s']; auto. }
  assert (WR : forall m : M (itv (fnum p)), with_rnd P m = with_rnd P' m) by reflexivity.
  split; [|split; [|split; [|split; [|split; [|split]]]]].
  - intros o. destruct o; cbn [run_in]; unfold op_add_in, op_add_ni, op_sub_in, op_mul_in, op_mul_ni, op_div_in, u_max_in, u_min_in;
      try (apply BB; [assumption|]; intros b s'; rewrite Em; destruct b; reflexivity).
    unfold hull_in, test_input_n, bind. rewrite H, H', Te by auto. reflexivity.
  - intros o. destruct o; cbn [run_ni]; unfold op_add_ni, op_sub_ni, op_mul_ni, op_div_ni, u_max_ni, u_min_ni;
      try (apply BB; [assumption|]; intros b s'; rewrite Em; destruct b; reflexivity).
    + apply BB; [assumption|]. intros b s'. unfold zero_in. rewrite Em, Te. destruct b; [reflexivity|].
      unfold div_zero_n, div_negative_n, div_positive_n, div_non_zero_n. rewrite Wh, PI, NI. reflexivity.
    + unfold hull_ni, test_input_n, bind. rewrite H, H', Te by auto. reflexivity.
  - intros o. destruct o; cbn [run_nn]; unfold n_add, n_sub, n_mul, n_div;
      try (apply BB; [assumption|]; intros b s'; rewrite Em; destruct b; reflexivity).
    unfold hull_nn, i_hull, bind. rewrite H, H' by auto. rewrite H, H' by auto. reflexivity.
  - unfold ctor_num, bind. rewrite H, H' by auto. reflexivity.
  - unfold ctor_num2, bind. rewrite H, H' by auto. cbv beta iota zeta. rewrite H, H' by auto. rewrite Se. reflexivity.
  - unfold ctor_src, bind, is_nan_src, under_mode, bind. cbn [src_float s_toT U].
    rewrite H, H' by (rewrite fconv_isnan; exact Hv'). reflexivity.
  - unfold m_assign_num, obind, ocomp. cbn [Interval.rd]. rewrite H, H' by auto. reflexivity.
Qed.
Print Assumptions C28_not_nan.
Example C28_case :
  fval (f := p_T double_sse) dnan = NaN /\
  run show (op_add_in Pbase (di 1 2) dnan) RUP = (Ok (show (mk dnan dnan)), RUP) /\
  run show (hull_in Pbase (di 1 2) dnan) RUP = (Ok (show (di 1 2)), RUP) /\
  (let Pc := fpol double_sse Save Opp true CkCatchNan (fun _ => true) in
   run show (op_add_in Pc (di 1 2) dnan) RUP = (Throw InvalidNumber, RUP) /\
   run show (op_add_in Pc (di 1 2) (dbl 3 0)) RUP = (Ok (show (di 4 5)), RUP)).
Proof. repeat split; vm_compute; reflexivity. Qed.

(** * Property C71: more precision never gives wider results *)

From Coq Require Import Reals ZArith Lra Lia Bool List Classical.
From Flocq Require Import Core BinarySingleNaN.
From Verif Require Import Outcome Base Checking Interval Utility Arith Arith2 FloatNum Spec ExtR Sem
  FloatSpec FloatPol FloatInt CoreArith CoreUtil Inst Witness Mutate CoreCtor Ops OpsProof OpsIso CoreWide OpsWide
  Properties1 Properties2.
Local Open Scope R_scope.

Notation P_ p k debug c ord := (fpol p Save k debug c ord).
Notation inside x x' := (forall r, fmem x r -> fmem x' r).

(** ** C71

    The program is written once and compiled twice: over a coarse format (p') and
    over a finer one (p), which may differ in platform, rounding policy, debug
    build and evaluation order.  [retype cv] is the same expression, its numbers
    converted without change of value; the intervals of the fine program lie inside
    those of the coarse one (for instance are their conversions).  Then the fine
    result lies inside the coarse one. *)
Theorem C71_precision : forall p p' k k' debug debug' c ord ord' eo eo'
    (env : nat -> itv (fnum p)) (env' : nat -> itv (fnum p')) (cv : T (fnum p') -> T (fnum p)) (e : expr (fnum p')),
  fmt_sub (p_T p') (p_T p) -> (forall v, fval (f := p_T p) (cv v) = fval (f := p_T p') v) ->
  (forall n, ok_interval c (env n)) -> (forall n, ok_interval c (env' n)) ->
  (forall n, inside (env n) (env' n)) -> proper (N := fnum p') fval e ->
  forall z, returns (eval (P_ p k debug c ord) eo env (retype cv e)) z ->
  exists z', returns (eval (P_ p' k' debug' c ord') eo' env' e) z' /\ inside z z'.
Proof.
  intros p p' k k' debug debug' c ord ord' eo eo' env env' cv e Fs Hcv O O' S W z R.
  destruct (eval_wide p p' k k' debug debug' c ord ord' Fs cv Hcv eo eo' env env' O O' S e W) as (o & o' & Ro & Ro' & L).
  destruct o as [w|]; [|destruct Ro as [Ro _]; pose proof (eq_trans (eq_sym (R RNE)) (Ro RNE)); discriminate].
  destruct o' as [w'|]; [|destruct L]. destruct Ro as [Ro _], Ro' as [Ro' _].
  rewrite (returns_det _ _ _ R Ro). exists w'. split; [exact Ro'|exact L].
Qed.
Print Assumptions C71_precision.
(** The fine program returns whenever the coarse one does, unless it finds out
    that the set of values is empty. *)
Theorem C71_outcome : forall p p' k k' debug debug' c ord ord' eo eo'
    (env : nat -> itv (fnum p)) (env' : nat -> itv (fnum p')) (cv : T (fnum p') -> T (fnum p)) (e : expr (fnum p')),
  fmt_sub (p_T p') (p_T p) -> (forall v, fval (f := p_T p) (cv v) = fval (f := p_T p') v) ->
  (forall n, ok_interval c (env n)) -> (forall n, ok_interval c (env' n)) ->
  (forall n, inside (env n) (env' n)) -> proper (N := fnum p') fval e ->
  (throws (eval (P_ p' k' debug' c ord') eo' env' e) EmptyCreated ->
   throws (eval (P_ p k debug c ord) eo env (retype cv e)) EmptyCreated) /\
  (forall z', returns (eval (P_ p' k' debug' c ord') eo' env' e) z' ->
    (exists z, returns (eval (P_ p k debug c ord) eo env (retype cv e)) z /\ inside z z') \/
    (allows_empty c = false /\ throws (eval (P_ p k debug c ord) eo env (retype cv e)) EmptyCreated /\
     forall rho t, (forall n, fmem (env n) (rho n)) -> ~ means (N := fnum p) fval (retype cv e) rho t)).
Proof.
  intros p p' k k' debug debug' c ord ord' eo eo' env env' cv e Fs Hcv O O' S W.
  assert (W2 : proper (N := fnum p) fval (retype cv e)).
  { clear - Hcv W. induction e; simpl in *; unfold is_fin in *; rewrite ?Hcv; intuition. }
  destruct (eval_wide p p' k k' debug debug' c ord ord' Fs cv Hcv eo eo' env env' O O' S e W) as (o & o' & Ro & Ro' & L).
  split.
  - intros T. destruct o as [w|]; [|apply Ro]. destruct o' as [w'|]; [|destruct L].
    destruct Ro' as [Ro' _]. pose proof (eq_trans (eq_sym (T RNE)) (Ro' RNE)). discriminate.
  - intros z' R'. destruct o' as [w'|]; [|destruct Ro' as [Ro' _]; pose proof (eq_trans (eq_sym (R' RNE)) (Ro' RNE)); discriminate].
    destruct Ro' as [Ro' _]. rewrite (returns_det _ _ _ R' Ro'). destruct o as [w|].
    + left. exists w. split; [apply Ro|exact L].
    + right. destruct Ro as [Ro Al]. split; [exact Al|]. split; [exact Ro|]. intros rho t Hr Ht.
      destruct (eval_contains p k debug c ord eo env rho Hr (retype cv e) t W2 Ht) as (z & Rz & _).
      pose proof (eq_trans (eq_sym (Ro RNE)) (Rz RNE)). discriminate.
Qed.
Print Assumptions C71_outcome.

(** x / 3 - x for x = [1,1]: on float [-0.66666669, -0.66666663], on double nine
    digits tighter. *)
Definition fl (n : Z) : T (fnum float_sse) := f_of_Z binary32 RNE n.
Definition cvt : T (fnum float_sse) -> T (fnum double_sse) := fconv binary32 binary64 RNE.
Definition third : expr (fnum float_sse) := e_2 B_sub (e_in B_div (e_var 0) (fl 3)) (e_var 0).
Definition ones_f (n : nat) : itv (fnum float_sse) := mk (fl 1) (fl 1).
Definition ones_d (n : nat) : itv (fnum double_sse) := di 1 1.
Definition showf (x : itv (fnum float_sse)) := (B2SF (low x), B2SF (up x)).
Lemma fl_val n : (Z.abs n <= 1000)%Z -> fval (f := binary32) (fl n) = Fin (IZR n).
Proof. intros K. apply (f_of_Z_exact binary32). cbn. lia. Qed.
Example C71_case : fmt_sub (p_T float_sse) (p_T double_sse) /\
  (forall v, fval (f := binary64) (cvt v) = fval (f := binary32) v) /\
  (forall n, ok_interval CkStrict (ones_d n)) /\ (forall n, ok_interval CkStrict (ones_f n)) /\
  (forall n, inside (ones_d n) (ones_f n)) /\ proper (N := fnum float_sse) fval third /\
  run show (eval (P_ double_sse Opp true CkStrict (fun _ => true)) (fun _ => true) ones_d (retype cvt third)) RNE =
    (Ok (show (mk (dbl (-6004799503160662) (-53)) (dbl (-6004799503160661) (-53)))), RNE) /\
  run showf (eval (P_ float_sse Std true CkStrict (fun _ => true)) (fun _ => false) ones_f third) RNE =
    (Ok (SpecFloat.S754_finite true 11184811 (-24), SpecFloat.S754_finite true 11184810 (-24)), RNE).
Proof.
  assert (Fs : fmt_sub (p_T float_sse) (p_T double_sse)) by (split; cbn; lia).
  split; [exact Fs|]. split; [intros v; exact (fconv_widen binary32 binary64 RNE v Fs)|].
  split; [intros n; left; apply di_valid; lia|].
  assert (E1 : fval (f := binary32) (fl 1) = Fin 1) by (apply fl_val; lia).
  split. { intros n. left. unfold fvalid, valid, ones_f. cbn [low up p_T float_sse]. rewrite E1. simpl. repeat split; try discriminate; lra. }
  split. { intros n r [A B]. unfold ones_d, di in A, B. cbn [low up] in A, B.
    change (xle (fval (f := binary64) (dbl 1 0)) (Fin r)) in A. change (xle (Fin r) (fval (f := binary64) (dbl 1 0))) in B.
    rewrite dbl_val in A, B by lia. unfold fmem, mem, ones_f. cbn [low up p_T float_sse]. rewrite E1. simpl in *. lra. }
  split. { cbn [proper third]. split; [|exact Logic.I]. split; [exact Logic.I|]. exists 3. apply fl_val. lia. }
  split; vm_compute; reflexivity.
Qed.

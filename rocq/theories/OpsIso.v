(** * Isotonicity of the operations and of expressions *)

From Coq Require Import Reals ZArith Lra Lia Bool Classical.
From Flocq Require Import Core BinarySingleNaN.
From Verif Require Import Outcome Base Checking Interval Utility Arith Arith2 FloatNum Spec ExtR Sem
  FloatSpec FloatPol CoreArith CoreDiv CoreUtil Inst Witness CoreCtor Ops OpsProof CoreIso Properties1 Properties2.
Local Open Scope R_scope.

Section Iso.
Context (p : platform) (k : rkind) (debug : bool) (c : ckind) (ord : site -> bool).
Notation N := (fnum p).
Notation I := (itv N).
Notation P := (fpol p Save k debug c ord).
Notation spec := (fpolspec p Save k debug c ord).
Notation ok := (ok_interval (p := p) c).

Definition sub (x x' : I) : Prop := forall r, fmem x r -> fmem x' r.

Lemma returns_det {A} (m : M A) a b : returns m a -> returns m b -> a = b.
Proof. intros Ra Rb. pose proof (eq_trans (eq_sym (Ra RNE)) (Rb RNE)) as K. injection K; auto. Qed.
Lemma sub_valid x x' : fvalid x -> sub x x' -> ok x' -> fvalid x'.
Proof. intros V S _. destruct (nonempty_mem p x V) as (r & Hr). apply (mem_fvalid p x' r), S, Hr. Qed.
Lemma tight_sub (z z' : I) S S' : ftightest z S -> fencloses z' S' -> (forall r, S r -> S' r) -> sub z z'.
Proof. intros A B C r Hr. exact (tight_mono p z z' S S' A B C r Hr). Qed.
Lemma denotes_sub (z z' : I) S S' : fdenotes z S -> fdenotes z' S' -> (forall r, S r -> S' r) -> sub z z'.
Proof. intros A B C r Hr. apply B, C, A, Hr. Qed.
Lemma same_sub (z z' w w' : I) : fsame w z -> fsame w' z' -> sub z z' -> sub w w'.
Proof.
  intros [A B] [A' B'] S r Hr. unfold sub, fmem, mem in *. rewrite A, B in Hr. rewrite A', B'. apply S, Hr.
Qed.

(** ** Valid operands *)
Lemma mono1 o x x' z z' : match o with U_pow n => (int_min < n <= int_max)%Z | _ => True end ->
  fvalid x -> fvalid x' -> sub x x' -> nonempty (img1 o (fmem x)) ->
  returns (run1 P o x) z -> returns (run1 P o x') z' -> sub z z'.
Proof.
  intros Ho V V' S Ne R R'. destruct o as [| | | | |n]; cbn [run1] in *.
  - destruct (C03_neg_exact p k debug c ord x V) as (w & Rw & _ & D).
    destruct (C03_neg_exact p k debug c ord x' V') as (w' & Rw' & _ & D').
    rewrite (returns_det _ _ _ R Rw), (returns_det _ _ _ R' Rw'). eapply denotes_sub; [exact D|exact D'|].
    intros t (r & Hr & E). exists r. split; [apply S, Hr|exact E].
  - destruct (C15_abs_exact p k debug c ord x V) as (w & Rw & _ & D).
    destruct (C15_abs_exact p k debug c ord x' V') as (w' & Rw' & _ & D').
    rewrite (returns_det _ _ _ R Rw), (returns_det _ _ _ R' Rw'). eapply denotes_sub; [exact D|exact D'|].
    intros t (r & Hr & E). exists r. split; [apply S, Hr|exact E].
  - destruct Ne as (t & r & Hr & Pr & _).
    destruct (C13_sqrt_tightest p k debug c ord x V (ex_intro _ r (conj Hr Pr))) as (w & Rw & _ & D).
    destruct (C13_sqrt_tightest p k debug c ord x' V' (ex_intro _ r (conj (S r Hr) Pr))) as (w' & Rw' & _ & [D' _]).
    rewrite (returns_det _ _ _ R Rw), (returns_det _ _ _ R' Rw'). eapply tight_sub; [exact D|exact D'|].
    intros t' (q & Hq & E). exists q. split; [apply S, Hq|exact E].
  - destruct (C09_square_tightest p k debug c ord x V) as (w & Rw & _ & D).
    destruct (C09_square_tightest p k debug c ord x' V') as (w' & Rw' & _ & [D' _]).
    rewrite (returns_det _ _ _ R Rw), (returns_det _ _ _ R' Rw'). eapply tight_sub; [exact D|exact D'|].
    intros t (r & Hr & E). exists r. split; [apply S, Hr|exact E].
  - destruct Ne as (t & r & Hr & Nr & _).
    assert (Z : ~ fdenotes x (point 0)) by (intros D; apply Nr, D, Hr).
    assert (Z' : ~ fdenotes x' (point 0)) by (intros D; apply Nr, D, S, Hr).
    destruct (C14_inverse_tightest p k debug c ord x V Z) as (w & Rw & _ & D).
    destruct (C14_inverse_tightest p k debug c ord x' V' Z') as (w' & Rw' & _ & [D' _]).
    rewrite (returns_det _ _ _ R Rw), (returns_det _ _ _ R' Rw'). eapply tight_sub; [exact D|exact D'|].
    intros t' (q & Hq & E). exists q. split; [apply S, Hq|exact E].
  - unfold sub. apply (pow_iso spec x x' n z z'); auto; [lia|].
    destruct (Z.lt_ge_cases 0 n) as [L|L]; [right; exact L|left]. intros Z.
    destruct Ne as (t & r & Hr & Q). simpl in Q. rewrite (proj2 (Z.ltb_ge 0 n)) in Q by lia.
    assert (r <> 0) by (destruct (n <? 0)%Z; tauto). apply (zero_set p x V) in Z. apply H. apply Z, Hr.
Qed.
Lemma mono2 o x x' y y' z z' : fvalid x -> fvalid x' -> fvalid y -> fvalid y' -> sub x x' -> sub y y' ->
  nonempty (img2 o (fmem x) (fmem y)) ->
  returns (run2 P o x y) z -> returns (run2 P o x' y') z' -> sub z z'.
Proof.
  intros V V' W W' S S2 Ne R R'.
  assert (Im : forall f t, image2 f (fmem x) (fmem y) t -> image2 f (fmem x') (fmem y') t).
  { intros f t (a & b & Ha & Hb & E). exists a, b. auto. }
  destruct o; cbn [run2] in *.
  - destruct (C01_add_tightest p k debug c ord x y V W) as (w & Rw & _ & D).
    destruct (C01_add_tightest p k debug c ord x' y' V' W') as (w' & Rw' & _ & [D' _]).
    rewrite (returns_det _ _ _ R Rw), (returns_det _ _ _ R' Rw'). eapply tight_sub; [exact D|exact D'|]; auto.
  - destruct (C02_sub_tightest p k debug c ord x y V W) as (w & Rw & _ & D).
    destruct (C02_sub_tightest p k debug c ord x' y' V' W') as (w' & Rw' & _ & [D' _]).
    rewrite (returns_det _ _ _ R Rw), (returns_det _ _ _ R' Rw'). eapply tight_sub; [exact D|exact D'|]; auto.
  - destruct (C04_mul_tightest p k debug c ord x y V W) as (w & Rw & _ & D).
    destruct (C04_mul_tightest p k debug c ord x' y' V' W') as (w' & Rw' & _ & [D' _]).
    rewrite (returns_det _ _ _ R Rw), (returns_det _ _ _ R' Rw'). eapply tight_sub; [exact D|exact D'|]; auto.
  - unfold sub. apply (op_div_iso spec x x' y y' z z'); auto.
    intros Z. apply (zero_set p y W) in Z. destruct Ne as (t & a & b & _ & Hb & Nb & _). apply Nb, Z, Hb.
  - destruct (C15_max_exact p k debug c ord x y V W) as (w & Rw & _ & D).
    destruct (C15_max_exact p k debug c ord x' y' V' W') as (w' & Rw' & _ & D').
    rewrite (returns_det _ _ _ R Rw), (returns_det _ _ _ R' Rw'). eapply denotes_sub; [exact D|exact D'|]; auto.
  - destruct (C15_min_exact p k debug c ord x y V W) as (w & Rw & _ & D).
    destruct (C15_min_exact p k debug c ord x' y' V' W') as (w' & Rw' & _ & D').
    rewrite (returns_det _ _ _ R Rw), (returns_det _ _ _ R' Rw'). eapply denotes_sub; [exact D|exact D'|]; auto.
  - destruct (nonempty_mem p x V) as (r0 & Hr0).
    destruct (C32_hull p k debug c ord x y (or_introl V) (or_introl W)) as [(w & Rw & _ & D) _]; [exists r0; auto|].
    destruct (C32_hull p k debug c ord x' y' (or_introl V') (or_introl W')) as [(w' & Rw' & _ & [D' _]) _].
    { exists r0. left. apply S, Hr0. }
    rewrite (returns_det _ _ _ R Rw), (returns_det _ _ _ R' Rw'). eapply tight_sub; [exact D|exact D'|]; auto.
    intros r [H|H]; [left; apply S, H|right; apply S2, H].
Qed.
Lemma ni_like o (v : T N) (y : I) r : fval v = Fin r -> fvalid y -> nonempty (img2 o (point r) (fmem y)) ->
  exists z z', returns (run2 P o (mk v v) y) z /\ returns (run_ni P o v y) z' /\ fsame z' z.
Proof.
  intros E V Ne. destruct o; cbn [run2 run_ni].
  - destruct (C07_add p k debug c ord v y r E V) as (z & z1 & z2 & A & B & D & _). eauto.
  - destruct (C07_sub p k debug c ord v y r E V) as (z & z1 & z2 & w' & A & B & D & _). eauto.
  - destruct (C07_mul p k debug c ord v y r E V) as (z & z1 & z2 & A & B & D & _). eauto.
  - destruct (C07_div p k debug c ord v y r E V) as (D1 & _). apply D1. intros Z.
    destruct Ne as (t & a & b & A & B & Nb & _). apply Nb. apply Z, B.
  - destruct (C07_max_min_hull p k debug c ord v y r E V) as ((z & z1 & z2 & A & B & D & _) & _). eauto.
  - destruct (C07_max_min_hull p k debug c ord v y r E V) as (_ & (z & z1 & z2 & A & B & D & _) & _). eauto.
  - destruct (C07_max_min_hull p k debug c ord v y r E V) as (_ & _ & (z & z1 & z2 & A & B & D & _)). eauto.
Qed.
Definition swaps (o : op2) := match o with B_sub | B_div => false | _ => true end.
Lemma in_like o (v : T N) (y : I) r : fval v = Fin r -> fvalid y -> nonempty (img2 o (fmem y) (point r)) ->
  exists z z', returns (if swaps o then run2 P o (mk v v) y else run2 P o y (mk v v)) z /\
    returns (run_in P o y v) z' /\ fsame z' z.
Proof.
  intros E V Ne. destruct o; cbn [run2 run_in swaps].
  - destruct (C07_add p k debug c ord v y r E V) as (z & z1 & z2 & A & _ & _ & B & D). eauto.
  - destruct (C07_sub p k debug c ord v y r E V) as (z & z1 & z2 & w' & _ & _ & _ & A & B & D). eauto.
  - destruct (C07_mul p k debug c ord v y r E V) as (z & z1 & z2 & A & _ & _ & B & D). eauto.
  - destruct (C07_div p k debug c ord v y r E V) as (_ & _ & D1 & _). apply D1.
    destruct Ne as (t & a & b & A & B & Nb & _). unfold point in B. congruence.
  - destruct (C07_max_min_hull p k debug c ord v y r E V) as ((z & z1 & z2 & A & _ & _ & B & D) & _). eauto.
  - destruct (C07_max_min_hull p k debug c ord v y r E V) as (_ & (z & z1 & z2 & A & _ & _ & B & D) & _). eauto.
  - destruct (C07_max_min_hull p k debug c ord v y r E V) as (_ & _ & (z & z1 & z2 & A & _ & _ & B & D)). eauto.
Qed.
Lemma ne_swap o (v : T N) (y : I) r : fval v = Fin r -> swaps o = true -> nonempty (img2 o (fmem y) (point r)) ->
  nonempty (img2 o (fmem (mk v v : I)) (fmem y)).
Proof.
  intros E Sw (t & a & b & A & B & Q). destruct (point_mem p v r E) as [_ Mv].
  exists t, b, a. split; [apply Mv, B|]. split; [exact A|].
  destruct o; try discriminate Sw; simpl in *; rewrite ?(Rmax_comm b), ?(Rmin_comm b); try lra; auto.
Qed.
Lemma mono_ni o (v : T N) (y y' : I) r z z' : fval v = Fin r -> fvalid y -> fvalid y' -> sub y y' ->
  nonempty (img2 o (point r) (fmem y)) ->
  returns (run_ni P o v y) z -> returns (run_ni P o v y') z' -> sub z z'.
Proof.
  intros E V V' S Ne R R'. destruct (point_mem p v r E) as [Vv Mv].
  assert (Ne' : nonempty (img2 o (point r) (fmem y'))).
  { destruct Ne as (t & a & b & A & B & Q). exists t, a, b. auto. }
  assert (Ne2 : nonempty (img2 o (fmem (mk v v : I)) (fmem y))).
  { destruct Ne as (t & a & b & A & B & Q). exists t, a, b. split; [apply Mv, A|auto]. }
  destruct (ni_like o v y r E V Ne) as (w & z1 & Rw & Rz1 & Sa). destruct (ni_like o v y' r E V' Ne') as (w' & z1' & Rw' & Rz1' & Sa').
  rewrite (returns_det _ _ _ R Rz1), (returns_det _ _ _ R' Rz1').
  apply (same_sub w w'); auto. apply (mono2 o (mk v v) (mk v v) y y'); auto. intros q Hq; exact Hq.
Qed.
Lemma mono_in o (v : T N) (y y' : I) r z z' : fval v = Fin r -> fvalid y -> fvalid y' -> sub y y' ->
  nonempty (img2 o (fmem y) (point r)) ->
  returns (run_in P o y v) z -> returns (run_in P o y' v) z' -> sub z z'.
Proof.
  intros E V V' S Ne R R'. destruct (point_mem p v r E) as [Vv Mv].
  assert (Ne' : nonempty (img2 o (fmem y') (point r))).
  { destruct Ne as (t & a & b & A & B & Q). exists t, a, b. auto. }
  destruct (in_like o v y r E V Ne) as (w & z1 & Rw & Rz1 & Sa). destruct (in_like o v y' r E V' Ne') as (w' & z1' & Rw' & Rz1' & Sa').
  rewrite (returns_det _ _ _ R Rz1), (returns_det _ _ _ R' Rz1').
  apply (same_sub w w'); auto. destruct (swaps o) eqn:Sw.
  - apply (mono2 o (mk v v) (mk v v) y y'); auto; [intros q Hq; exact Hq|]. eapply ne_swap; eauto.
  - apply (mono2 o y y' (mk v v) (mk v v)); auto; [intros q Hq; exact Hq|].
    destruct Ne as (t & a & b & A & B & Q). exists t, a, b. split; [exact A|split; [apply Mv, B|exact Q]].
Qed.

(** ** Results: an interval the policy allows, or the exception for emptiness *)
Definition res (m : M I) (o : option I) : Prop :=
  match o with
  | Some z => returns m z /\ ok z
  | None => throws m EmptyCreated /\ allows_empty c = false
  end.
Definition leO (o o' : option I) : Prop :=
  match o, o' with
  | None, _ => True
  | Some z, Some z' => sub z z'
  | Some _, None => False
  end.
Lemma res_det m o o' : res m o -> res m o' -> o = o'.
Proof.
  destruct o as [z|], o' as [z'|]; simpl; intros [R _] [R' _]; auto.
  - f_equal. eapply returns_det; eauto.
  - pose proof (eq_trans (eq_sym (R RNE)) (R' RNE)). discriminate.
  - pose proof (eq_trans (eq_sym (R RNE)) (R' RNE)). discriminate.
Qed.
Lemma gives_res m : gives_empty c m -> exists o, res m o /\ match o with Some z => fempty z | None => True end.
Proof.
  unfold gives_empty. destruct (allows_empty c) eqn:A.
  - intros (z & R & E). exists (Some z). split; [|exact E]. split; auto. right. auto.
  - intros R. exists None. split; [split; auto|exact Logic.I].
Qed.
Lemma correct_res m S : correct p c m S -> exists o, res m o.
Proof.
  intros [A B]. destruct (classic (nonempty S)) as [K|K].
  - destruct (A K) as (z & R & V & _). exists (Some z). split; [exact R|left; exact V].
  - destruct (gives_res m (B K)) as (o & R & _). exists o. exact R.
Qed.
(** Isotonicity from the valid case: an empty result is below everything. *)
Lemma iso_of m m' S S' : correct p c m S -> correct p c m' S' -> (forall r, S r -> S' r) ->
  (forall z z', nonempty S -> returns m z -> returns m' z' -> sub z z') ->
  exists o o', res m o /\ res m' o' /\ leO o o'.
Proof.
  intros [A B] C' Inc Mo. destruct (correct_res m' S' C') as (o' & R').
  destruct (classic (nonempty S)) as [K|K].
  - destruct (A K) as (z & R & V & _). exists (Some z), o'. split; [split; [exact R|left; exact V]|]. split; [exact R'|].
    destruct C' as [A' _]. destruct A' as (z' & Rz' & V' & _); [destruct K as (r & Hr); exists r; auto|].
    rewrite (res_det m' o' (Some z')); auto; [|split; [exact Rz'|left; exact V']]. simpl. eapply Mo; eauto.
  - destruct (gives_res m (B K)) as (o & R & Hz). exists o, o'. split; [exact R|]. split; [exact R'|].
    destruct o as [z|]; [|exact Logic.I]. destruct o' as [z'|]; simpl.
    + intros r Hr. destruct (fempty_none p z Hz r Hr).
    + destruct R as [_ Oz], R' as [_ Al]. destruct Oz as [Vz|[Al' _]]; [|congruence]. apply Hz, Vz.
Qed.
(** An operation that yields empty on an empty argument. *)
Lemma iso_empty m m' o' : allows_empty c = true -> gives_empty c m -> res m' o' ->
  exists o o', res m o /\ res m' o' /\ leO o o'.
Proof.
  intros Al G R'. destruct (gives_res m G) as (o & R & Hz). exists o, o'. split; [exact R|]. split; [exact R'|].
  destruct o as [z|]; [|exact Logic.I]. destruct o' as [z'|]; simpl.
  - intros r Hr. destruct (fempty_none p z Hz r Hr).
  - destruct R' as [_ K]. congruence.
Qed.
Lemma gives_i_empty m : (forall s, m s = i_empty P s) -> gives_empty c m.
Proof. intros E. apply (gives_ext p c _ (i_empty P)); [exact E|apply i_empty_gives]. Qed.

Lemma run1_empty o x : allows_empty c = true -> fempty x -> gives_empty c (run1 P o x).
Proof.
  intros Al Ex. pose proof (proj2 (is_empty_iff p k debug c ord x Al) Ex) as T.
  apply gives_i_empty. intros s. destruct o; cbn [run1];
    unfold op_neg, u_abs, i_sqrt, square, multiplicative_inverse, Arith2.pow; rewrite T; reflexivity.
Qed.
Lemma run2_empty o x y : o <> B_hull -> allows_empty c = true -> fempty x \/ fempty y -> gives_empty c (run2 P o x y).
Proof.
  intros Ho Al Exy.
  assert (T : test_input_ii P x y = true).
  { unfold test_input_ii. destruct Exy as [E|E]; rewrite (proj2 (is_empty_iff p k debug c ord _ Al) E), ?orb_true_r; reflexivity. }
  apply gives_i_empty. intros s. destruct o; cbn [run2]; try congruence;
    unfold op_add, op_sub, op_mul, op_div, u_max, u_min; rewrite T; reflexivity.
Qed.
Lemma run_mixed_empty o x (v : T N) : o <> B_hull -> allows_empty c = true -> fempty x -> fval v <> NaN ->
  gives_empty c (run_in P o x v) /\ gives_empty c (run_ni P o v x).
Proof.
  intros Ho Al Ex Hv. pose proof (proj2 (is_empty_iff p k debug c ord x Al) Ex) as T.
  assert (In_ : forall s, test_input_in P x v s = (Ok true, s)) by (intros s; unfold test_input_in; rewrite T; reflexivity).
  assert (Ni_ : forall s, test_input_ni P v x s = (Ok true, s)).
  { intros s. unfold test_input_ni, bind. cbn [p_ck fpol]. rewrite Mutate.is_nan_false by auto. rewrite T. reflexivity. }
  split; apply gives_i_empty; intros s; destruct o; cbn [run_in run_ni]; try congruence;
    unfold op_add_in, op_add_ni, op_sub_in, op_sub_ni, op_mul_in, op_mul_ni, op_div_in, op_div_ni,
      u_max_in, u_max_ni, u_min_in, u_min_ni, bind; rewrite ?In_, ?Ni_; reflexivity.
Qed.

(** ** Every operation on allowed intervals *)
Lemma iso1 o x x' : match o with U_pow n => (int_min < n <= int_max)%Z | _ => True end ->
  ok x -> ok x' -> sub x x' ->
  exists r r', res (run1 P o x) r /\ res (run1 P o x') r' /\ leO r r'.
Proof.
  intros Ho Ox Ox' S.
  assert (R' : exists r', res (run1 P o x') r').
  { destruct Ox' as [V'|[Al E']]; [eapply correct_res, run1_correct; eauto|].
    destruct (gives_res _ (run1_empty o x' Al E')) as (r & Rr & _). eauto. }
  destruct Ox as [V|[Al E]].
  - pose proof (sub_valid x x' V S Ox') as V'.
    eapply iso_of; [apply run1_correct; auto|apply run1_correct; auto| |].
    + intros t (r & Hr & Q). exists r. split; [apply S, Hr|exact Q].
    + intros z z' Ne Rz Rz'. exact (mono1 o x x' z z' Ho V V' S Ne Rz Rz').
  - destruct R' as (r' & R'). eapply iso_empty; eauto. apply run1_empty; auto.
Qed.
Lemma res_hull x y : ok x -> ok y -> exists r, res (hull P x y) r.
Proof.
  intros Ox Oy. destruct (C32_hull p k debug c ord x y Ox Oy) as [A B].
  destruct (classic (exists r, fmem x r \/ fmem y r)) as [K|K].
  - destruct (A K) as (z & R & V & _). exists (Some z). split; [exact R|left; exact V].
  - destruct (gives_res _ (B K)) as (o & R & _). eauto.
Qed.
Lemma iso_hull x x' y y' : ok x -> ok x' -> ok y -> ok y' -> sub x x' -> sub y y' ->
  exists r r', res (hull P x y) r /\ res (hull P x' y') r' /\ leO r r'.
Proof.
  intros Ox Ox' Oy Oy' S S2.
  destruct (res_hull x' y' Ox' Oy') as (r' & R').
  destruct (C32_hull p k debug c ord x y Ox Oy) as [A B].
  destruct (C32_hull p k debug c ord x' y' Ox' Oy') as [A' B'].
  destruct (classic (exists r, fmem x r \/ fmem y r)) as [K|K].
  - destruct (A K) as (z & R & V & T). destruct A' as (z' & Rz' & V' & [T' _]).
    { destruct K as (r & [H|H]); exists r; [left; apply S, H|right; apply S2, H]. }
    exists (Some z), (Some z'). split; [split; [exact R|left; exact V]|]. split; [split; [exact Rz'|left; exact V']|].
    simpl. eapply tight_sub; [exact T|exact T'|]. intros r [H|H]; [left; apply S, H|right; apply S2, H].
  - destruct (allows_empty c) eqn:Al.
    + eapply iso_empty; eauto.
    + exfalso. apply K. destruct Ox as [V|[Q _]]; [|congruence]. destruct (nonempty_mem p x V) as (r & Hr). eauto.
Qed.
Lemma op2_dec (o : op2) : o = B_hull \/ o <> B_hull.
Proof. destruct o; auto; right; discriminate. Qed.
Lemma iso2 o x x' y y' : ok x -> ok x' -> ok y -> ok y' -> sub x x' -> sub y y' ->
  exists r r', res (run2 P o x y) r /\ res (run2 P o x' y') r' /\ leO r r'.
Proof.
  intros Ox Ox' Oy Oy' S S2. destruct (op2_dec o) as [->|Ho]; [apply iso_hull; auto|].
  assert (R' : exists r', res (run2 P o x' y') r').
  { destruct Ox' as [V'|[Al E']].
    - destruct Oy' as [W'|[Al E']]; [eapply correct_res, run2_correct; eauto|].
      destruct (gives_res _ (run2_empty o x' y' Ho Al (or_intror E'))) as (r & Rr & _). eauto.
    - destruct (gives_res _ (run2_empty o x' y' Ho Al (or_introl E'))) as (r & Rr & _). eauto. }
  destruct R' as (r' & R').
  destruct Ox as [V|[Al E]]; [destruct Oy as [W|[Al E]]|].
  - pose proof (sub_valid x x' V S Ox') as V'. pose proof (sub_valid y y' W S2 Oy') as W'.
    eapply iso_of; [apply run2_correct; auto|apply run2_correct; auto| |].
    + intros t (a & b & A & B & Q). exists a, b. split; [apply S, A|split; [apply S2, B|exact Q]].
    + intros z z' Ne Rz Rz'. exact (mono2 o x x' y y' z z' V V' W W' S S2 Ne Rz Rz').
  - eapply iso_empty; eauto. apply run2_empty; auto.
  - eapply iso_empty; eauto. apply run2_empty; auto.
Qed.
(** hull of an interval and a number is the hull with the one-point interval. *)
Lemma hull_mixed_eq x (v : T N) r : ok x -> fval v = Fin r ->
  (forall s, hull_in P x v s = hull P x (mk v v) s) /\ (forall s, hull_ni P v x s = hull P (mk v v) x s).
Proof.
  intros Ox E. destruct (point_mem p v r E) as [Vv _].
  assert (Tv : test_input_i P (mk v v) = false) by (apply (test_valid spec); auto).
  assert (Nv : forall s, ck_is_nan (p_ck P) v s = (Ok false, s)).
  { intros s. apply Mutate.is_nan_false. rewrite E. discriminate. }
  split; intros s; unfold hull_in, hull_ni, hull, test_input_n, bind; rewrite Nv, Tv;
    destruct (test_input_i P x); reflexivity.
Qed.
Lemma res_ext m m' o : (forall s, m s = m' s) -> res m' o -> res m o.
Proof.
  intros E. destruct o; simpl; intros [R K]; split; auto; intros s; rewrite E; apply R.
Qed.
Lemma iso_ni o (v : T N) (x x' : I) r : fval v = Fin r -> ok x -> ok x' -> sub x x' ->
  exists q q', res (run_ni P o v x) q /\ res (run_ni P o v x') q' /\ leO q q'.
Proof.
  intros E Ox Ox' S. destruct (point_mem p v r E) as [Vv _].
  destruct (op2_dec o) as [->|Ho].
  - destruct (iso_hull (mk v v) (mk v v) x x') as (q & q' & R & R' & L); auto; try (left; exact Vv); [intros t Ht; exact Ht|].
    exists q, q'. split; [|split; [|exact L]]; (eapply res_ext; [|eassumption]); intros s; eapply hull_mixed_eq; eauto.
  - assert (Hv : fval v <> NaN) by (rewrite E; discriminate).
    assert (R' : exists r', res (run_ni P o v x') r').
    { destruct Ox' as [V'|[Al E']]; [eapply correct_res, run_ni_correct; eauto|].
      destruct (gives_res _ (proj2 (run_mixed_empty o x' v Ho Al E' Hv))) as (q & Rr & _). eauto. }
    destruct R' as (r' & R'). destruct Ox as [V|[Al E']].
    + pose proof (sub_valid x x' V S Ox') as V'.
      eapply iso_of; [apply run_ni_correct; eauto|apply run_ni_correct; eauto| |].
      * intros t (a & b & A & B & Q). exists a, b. split; [exact A|split; [apply S, B|exact Q]].
      * intros z z' Ne Rz Rz'. exact (mono_ni o v x x' r z z' E V V' S Ne Rz Rz').
    + eapply iso_empty; eauto. apply run_mixed_empty; auto.
Qed.
Lemma iso_in o (v : T N) (x x' : I) r : fval v = Fin r -> ok x -> ok x' -> sub x x' ->
  exists q q', res (run_in P o x v) q /\ res (run_in P o x' v) q' /\ leO q q'.
Proof.
  intros E Ox Ox' S. destruct (point_mem p v r E) as [Vv _].
  destruct (op2_dec o) as [->|Ho].
  - destruct (iso_hull x x' (mk v v) (mk v v)) as (q & q' & R & R' & L); auto; try (left; exact Vv); [intros t Ht; exact Ht|].
    exists q, q'. split; [|split; [|exact L]]; (eapply res_ext; [|eassumption]); intros s; eapply hull_mixed_eq; eauto.
  - assert (Hv : fval v <> NaN) by (rewrite E; discriminate).
    assert (R' : exists r', res (run_in P o x' v) r').
    { destruct Ox' as [V'|[Al E']]; [eapply correct_res, run_in_correct; eauto|].
      destruct (gives_res _ (proj1 (run_mixed_empty o x' v Ho Al E' Hv))) as (q & Rr & _). eauto. }
    destruct R' as (r' & R'). destruct Ox as [V|[Al E']].
    + pose proof (sub_valid x x' V S Ox') as V'.
      eapply iso_of; [apply run_in_correct; eauto|apply run_in_correct; eauto| |].
      * intros t (a & b & A & B & Q). exists a, b. split; [apply S, A|split; [exact B|exact Q]].
      * intros z z' Ne Rz Rz'. exact (mono_in o v x x' r z z' E V V' S Ne Rz Rz').
    + eapply iso_empty; eauto. apply run_mixed_empty; auto.
Qed.
Lemma intersect_empty x y : allows_empty c = true -> fempty x \/ fempty y -> gives_empty c (intersect P x y).
Proof.
  intros Al Exy.
  assert (T : test_input_ii P x y = true).
  { unfold test_input_ii. destruct Exy as [E|E]; rewrite (proj2 (is_empty_iff p k debug c ord _ Al) E), ?orb_true_r; reflexivity. }
  apply gives_i_empty. intros s. unfold intersect. rewrite T. reflexivity.
Qed.
Lemma iso_intersect x x' y y' : ok x -> ok x' -> ok y -> ok y' -> sub x x' -> sub y y' ->
  exists r r', res (intersect P x y) r /\ res (intersect P x' y') r' /\ leO r r'.
Proof.
  intros Ox Ox' Oy Oy' S S2.
  assert (R' : exists r', res (intersect P x' y') r').
  { destruct Ox' as [V'|[Al E']].
    - destruct Oy' as [W'|[Al E']]; [eapply correct_res, intersect_correct; eauto|].
      destruct (gives_res _ (intersect_empty x' y' Al (or_intror E'))) as (r & Rr & _). eauto.
    - destruct (gives_res _ (intersect_empty x' y' Al (or_introl E'))) as (r & Rr & _). eauto. }
  destruct R' as (r' & R').
  destruct Ox as [V|[Al E]]; [destruct Oy as [W|[Al E]]|].
  - pose proof (sub_valid x x' V S Ox') as V'. pose proof (sub_valid y y' W S2 Oy') as W'.
    eapply iso_of; [apply intersect_correct; auto|apply intersect_correct; auto| |].
    + intros t (A & B). split; [apply S, A|apply S2, B].
    + intros z z' Ne Rz Rz'.
      destruct (proj1 (C32_intersect p k debug c ord x y (or_introl V) (or_introl W)) Ne) as (w & Rw & _ & D).
      destruct (proj1 (C32_intersect p k debug c ord x' y' (or_introl V') (or_introl W'))) as (w' & Rw' & _ & D').
      { destruct Ne as (r & A & B). exists r. split; [apply S, A|apply S2, B]. }
      rewrite (returns_det _ _ _ Rz Rw), (returns_det _ _ _ Rz' Rw'). eapply denotes_sub; [exact D|exact D'|].
      intros r [A B]. split; [apply S, A|apply S2, B].
  - eapply iso_empty; eauto. apply intersect_empty; auto.
  - eapply iso_empty; eauto. apply intersect_empty; auto.
Qed.
Lemma iso_widen x x' (v : T N) s : fval v = Fin s -> 0 <= s -> ok x -> ok x' -> sub x x' ->
  exists r r', res (widen P x v) r /\ res (widen P x' v) r' /\ leO r r'.
Proof.
  intros E Hs Ox Ox' S.
  assert (Em : forall x, allows_empty c = true -> fempty x -> gives_empty c (widen P x v)).
  { intros w Al Ew. apply gives_i_empty. intros q. unfold widen. rewrite (proj2 (is_empty_iff p k debug c ord w Al) Ew). reflexivity. }
  assert (R' : exists r', res (widen P x' v) r').
  { destruct Ox' as [V'|[Al E']]; [eapply correct_res, widen_correct; eauto|].
    destruct (gives_res _ (Em x' Al E')) as (r & Rr & _). eauto. }
  destruct R' as (r' & R'). destruct Ox as [V|[Al Ex]].
  - pose proof (sub_valid x x' V S Ox') as V'.
    eapply iso_of; [apply widen_correct; eauto|apply widen_correct; eauto| |].
    + intros t (r & Hr & Q). exists r. split; [apply S, Hr|exact Q].
    + intros z z' Ne Rz Rz'. destruct (C36_widen_tightest p k debug c ord x v s V E Hs) as (w & Rw & _ & D).
      destruct (C36_widen_tightest p k debug c ord x' v s V' E Hs) as (w' & Rw' & _ & [D' _]).
      rewrite (returns_det _ _ _ Rz Rw), (returns_det _ _ _ Rz' Rw'). eapply tight_sub; [exact D|exact D'|].
      intros t (r & Hr & Q). exists r. split; [apply S, Hr|exact Q].
  - eapply iso_empty; eauto.
Qed.

(** ** Expressions *)
Lemma res_bind m (f : I -> M I) o : res m o -> (forall z, o = Some z -> exists q, res (f z) q) ->
  exists q, res (bind m f) q /\ match o with Some z => res (f z) q | None => q = None end.
Proof.
  destruct o as [z|]; intros [R K] F.
  - destruct (F z eq_refl) as (q & Rq). exists q. split; [|exact Rq].
    destruct q as [w|]; destruct Rq as [Rq Ok]; split; auto.
    + eapply returns_bind; eauto.
    + intros s. unfold bind. rewrite R. apply Rq.
  - exists None. split; [|reflexivity]. split; auto. intros s. unfold bind. rewrite R. reflexivity.
Qed.
Lemma res_bind2 b m1 m2 (f : I -> I -> M I) o1 o2 : res m1 o1 -> res m2 o2 ->
  (forall x y, o1 = Some x -> o2 = Some y -> exists q, res (f x y) q) ->
  exists q, res (bind (args2 b m1 m2) (fun xy => f (fst xy) (snd xy))) q /\
    match o1, o2 with Some x, Some y => res (f x y) q | _, _ => q = None end.
Proof.
  intros R1 R2 F. destruct o1 as [x|], o2 as [y|]; destruct R1 as [R1 K1], R2 as [R2 K2].
  - destruct (F x y eq_refl eq_refl) as (q & Rq). exists q. split; [|exact Rq].
    pose proof (returns_args2 b m1 m2 x y R1 R2) as RR.
    destruct q as [w|]; destruct Rq as [Rq Ok]; split; auto.
    + eapply returns_bind; eauto.
    + intros s. unfold bind. rewrite RR. apply Rq.
  - exists None. split; [|reflexivity]. split; auto. intros s. destruct b; cbn [args2]; unfold bind; rewrite ?R1, ?R2; reflexivity.
  - exists None. split; [|reflexivity]. split; auto. intros s. destruct b; cbn [args2]; unfold bind; rewrite ?R2, ?R1; reflexivity.
  - exists None. split; [|reflexivity]. split; auto. intros s. destruct b; cbn [args2]; unfold bind; rewrite ?R1, ?R2; reflexivity.
Qed.

(** One unary step. *)
Lemma iso_step m m' (f : I -> M I) o o' : res m o -> res m' o' -> leO o o' ->
  (forall x x', ok x -> ok x' -> sub x x' -> exists q q', res (f x) q /\ res (f x') q' /\ leO q q') ->
  exists q q', res (bind m f) q /\ res (bind m' f) q' /\ leO q q'.
Proof.
  intros R R' L F.
  assert (T : forall x, ok x -> exists q, res (f x) q).
  { intros x Ox. destruct (F x x Ox Ox) as (q & _ & Q & _); [intros r Hr; exact Hr|eauto]. }
  destruct (res_bind m f o R) as (q & Rq & Q). { intros z ->. apply T, R. }
  destruct (res_bind m' f o' R') as (q' & Rq' & Q'). { intros z ->. apply T, R'. }
  exists q, q'. split; auto. split; auto.
  destruct o as [z|]; [|subst q; exact Logic.I]. destruct o' as [z'|]; [|contradiction].
  destruct (F z z' (proj2 R) (proj2 R') L) as (w & w' & W & W' & LW).
  rewrite (res_det _ _ _ Q W), (res_det _ _ _ Q' W'). exact LW.
Qed.
Lemma iso_step2 b b' m1 m1' m2 m2' (f : I -> I -> M I) o1 o1' o2 o2' :
  res m1 o1 -> res m1' o1' -> leO o1 o1' -> res m2 o2 -> res m2' o2' -> leO o2 o2' ->
  (forall x x' y y', ok x -> ok x' -> ok y -> ok y' -> sub x x' -> sub y y' ->
     exists q q', res (f x y) q /\ res (f x' y') q' /\ leO q q') ->
  exists q q', res (bind (args2 b m1 m2) (fun xy => f (fst xy) (snd xy))) q /\
               res (bind (args2 b' m1' m2') (fun xy => f (fst xy) (snd xy))) q' /\ leO q q'.
Proof.
  intros R1 R1' L1 R2 R2' L2 F.
  assert (T : forall x y, ok x -> ok y -> exists q, res (f x y) q).
  { intros x y Ox Oy. destruct (F x x y y Ox Ox Oy Oy) as (q & _ & Q & _); try (intros r Hr; exact Hr). eauto. }
  destruct (res_bind2 b m1 m2 f o1 o2 R1 R2) as (q & Rq & Q). { intros x y -> ->. apply T; [apply R1|apply R2]. }
  destruct (res_bind2 b' m1' m2' f o1' o2' R1' R2') as (q' & Rq' & Q'). { intros x y -> ->. apply T; [apply R1'|apply R2']. }
  exists q, q'. split; auto. split; auto.
  destruct o1 as [x|]; [|subst q; exact Logic.I]. destruct o2 as [y|]; [|subst q; exact Logic.I].
  destruct o1' as [x'|]; [|contradiction]. destruct o2' as [y'|]; [|contradiction].
  destruct (F x x' y y' (proj2 R1) (proj2 R1') (proj2 R2) (proj2 R2') L1 L2) as (w & w' & W & W' & LW).
  rewrite (res_det _ _ _ Q W), (res_det _ _ _ Q' W'). exact LW.
Qed.
Lemma iso_const m o : res m o -> exists q q', res m q /\ res m q' /\ leO q q'.
Proof. intros R. exists o, o. split; [exact R|split; [exact R|]]. destruct o; simpl; auto. intros r Hr; exact Hr. Qed.

Lemma eval_iso eo eo' (env env' : nat -> I) : (forall n, ok (env n)) -> (forall n, ok (env' n)) ->
  (forall n, sub (env n) (env' n)) ->
  forall e : expr N, proper (N := N) fval e ->
  exists o o', res (eval P eo env e) o /\ res (eval P eo' env' e) o' /\ leO o o'.
Proof.
  intros Oe Oe' Se. induction e as [n|v|o e IH|o e1 IH1 e2 IH2|o e IH v|o v e IH|o v w|e1 IH1 e2 IH2|e IH v];
    intros W; cbn [eval]; simpl in W.
  - exists (Some (env n)), (Some (env' n)). split; [split; [intros s; reflexivity|apply Oe]|].
    split; [split; [intros s; reflexivity|apply Oe']|]. apply Se.
  - destruct W as (r & E). destruct (correct_res _ _ (num_correct p k debug c ord v r E)) as (o & R). eapply iso_const; eauto.
  - destruct W as (Wo & We), (IH We) as (q & q' & R & R' & L). eapply iso_step; eauto. intros. apply iso1; auto.
  - destruct W as (W1 & W2), (IH1 W1) as (q1 & q1' & R1 & R1' & L1), (IH2 W2) as (q2 & q2' & R2 & R2' & L2).
    eapply iso_step2; eauto. intros. apply iso2; auto.
  - destruct W as (We & r & E), (IH We) as (q & q' & R & R' & L).
    exact (iso_step _ _ (fun x => run_in P o x v) q q' R R' L (fun x x' A B C => iso_in o v x x' r E A B C)).
  - destruct W as (We & r & E), (IH We) as (q & q' & R & R' & L).
    exact (iso_step _ _ (fun x => run_ni P o v x) q q' R R' L (fun x x' A B C => iso_ni o v x x' r E A B C)).
  - destruct W as ((r & E) & (s & F)). destruct (correct_res _ _ (run_nn_correct p k debug c ord o v w r s E F)) as (q & R).
    eapply iso_const; eauto.
  - destruct W as (W1 & W2), (IH1 W1) as (q1 & q1' & R1 & R1' & L1), (IH2 W2) as (q2 & q2' & R2 & R2' & L2).
    eapply iso_step2; eauto. intros. apply iso_intersect; auto.
  - destruct W as (We & s & E & Hs), (IH We) as (q & q' & R & R' & L).
    exact (iso_step _ _ (fun x => widen P x v) q q' R R' L (fun x x' A B C => iso_widen x x' v s E Hs A B C)).
Qed.
Lemma eval_res eo (env : nat -> I) e : (forall n, ok (env n)) -> proper (N := N) fval e ->
  exists o, res (eval P eo env e) o.
Proof.
  intros Oe W. destruct (eval_iso eo eo env env Oe Oe (fun n r Hr => Hr) e W) as (o & _ & R & _). eauto.
Qed.
End Iso.

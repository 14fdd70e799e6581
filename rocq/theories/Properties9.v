(** * Properties C23, C24, C25: expressions and programs of any size *)

From Coq Require Import Reals ZArith Lra Lia Bool List Classical.
From Flocq Require Import Core BinarySingleNaN.
From Verif Require Import Outcome Base Checking Interval Utility Arith Arith2 FloatNum Spec ExtR Sem
  FloatSpec FloatPol FloatInt CoreArith CoreUtil Inst Witness Mutate CoreCtor Ops OpsProof OpsIso Client
  Properties1 Properties2 Properties4 Properties6 Properties8.
Import ListNotations.
Local Open Scope R_scope.

Notation P_ p k debug c ord := (fpol p Save k debug c ord).

(** ** C23

    [proper] restricts number operands to finite ones, exponents to ints above
    INT_MIN and the widening amount to nonnegative ones. *)
Theorem C23_fundamental : forall p k debug c ord eo (env : nat -> itv (fnum p)) (rho : nat -> R) e t,
  (forall n, fmem (env n) (rho n)) -> proper (N := fnum p) fval e -> means (N := fnum p) fval e rho t ->
  exists z, returns (eval (P_ p k debug c ord) eo env e) z /\ fvalid z /\ fmem z t.
Proof.
  intros p k debug c ord eo env rho e t He W Mt.
  destruct (eval_contains p k debug c ord eo env rho He e t W Mt) as (z & R & Hz).
  exists z. split; [exact R|]. split; [exact (mem_fvalid p z t Hz)|exact Hz].
Qed.
Print Assumptions C23_fundamental.
(** sqrt(x * x + 2) / y, with y containing 0. *)
Definition demo_expr : expr (fnum double_sse) :=
  e_2 B_div (e_1 U_sqrt (e_in B_add (e_2 B_mul (e_var 0) (e_var 0)) (dbl 2 0))) (e_var 1).
Definition demo_env (n : nat) : itv (fnum double_sse) := match n with O => di (-1) 3 | _ => di (-1) 2 end.
Definition demo_point (n : nat) : R := match n with O => 2 | _ => 1 end.
Example C23_case : (forall n, fmem (demo_env n) (demo_point n)) /\ proper (N := fnum double_sse) fval demo_expr /\
  means (N := fnum double_sse) fval demo_expr demo_point (sqrt 6).
Proof.
  split; [|split].
  - intros [|n]; unfold fmem, mem, demo_env, demo_point, di; cbn [low up]; repeat dval; simpl; lra.
  - cbn [proper demo_expr]. split; [|exact Logic.I]. split; [exact Logic.I|]. split; [split; exact Logic.I|]. exists 2. dval. reflexivity.
  - assert (E2 : fval (f := binary64) (dbl 2 0) = Fin 2) by (dval; reflexivity).
    cbn [means demo_expr]. exists (sqrt 6), 1. split; [|split; [reflexivity|]].
    + exists 6. split; [|split; [lra|reflexivity]]. exists 4, 2. split; [|split; [exact E2|simpl; lra]].
      exists 2, 2. simpl. repeat split; auto; lra.
    + split; [lra|]. field.
Qed.

(** ** C24

    [inside x x']: every member of x is one of x'.  Empty intervals are allowed
    where the policy allows them.  The two evaluations may order operands
    differently. *)
Notation inside x x' := (forall r, fmem x r -> fmem x' r).
Theorem C24_isotone : forall p k debug c ord eo eo' (env env' : nat -> itv (fnum p)) e,
  (forall n, ok_interval c (env n)) -> (forall n, ok_interval c (env' n)) ->
  (forall n, inside (env n) (env' n)) -> proper (N := fnum p) fval e ->
  forall z, returns (eval (P_ p k debug c ord) eo env e) z ->
  exists z', returns (eval (P_ p k debug c ord) eo' env' e) z' /\ inside z z'.
Proof.
  intros p k debug c ord eo eo' env env' e O O' S W z R.
  destruct (eval_iso p k debug c ord eo eo' env env' O O' S e W) as (o & o' & Ro & Ro' & L).
  destruct o as [w|]; [|destruct Ro as [Ro _]; pose proof (eq_trans (eq_sym (R RNE)) (Ro RNE)); discriminate].
  destruct o' as [w'|]; [|destruct L]. destruct Ro as [Ro _], Ro' as [Ro' _].
  rewrite (returns_det _ _ _ R Ro). exists w'. split; [exact Ro'|exact L].
Qed.
Print Assumptions C24_isotone.
(** An evaluation that throws does so because the set of values became empty;
    then so does no larger one for that reason, but a smaller one still does. *)
Theorem C24_throws_below : forall p k debug c ord eo eo' (env env' : nat -> itv (fnum p)) e,
  (forall n, ok_interval c (env n)) -> (forall n, ok_interval c (env' n)) ->
  (forall n, inside (env n) (env' n)) -> proper (N := fnum p) fval e ->
  throws (eval (P_ p k debug c ord) eo' env' e) EmptyCreated ->
  throws (eval (P_ p k debug c ord) eo env e) EmptyCreated.
Proof.
  intros p k debug c ord eo eo' env env' e O O' S W T.
  destruct (eval_iso p k debug c ord eo eo' env env' O O' S e W) as (o & o' & Ro & Ro' & L).
  destruct o as [w|]; [|apply Ro]. destruct o' as [w'|]; [|destruct L].
  destruct Ro' as [Ro' _]. pose proof (eq_trans (eq_sym (T RNE)) (Ro' RNE)). discriminate.
Qed.
Print Assumptions C24_throws_below.
Definition demo_env' (n : nat) : itv (fnum double_sse) := match n with O => di (-2) 4 | _ => di (-1) 3 end.
Example C24_case : (forall n, ok_interval CkStrict (demo_env n)) /\ (forall n, ok_interval CkStrict (demo_env' n)) /\
  (forall n, inside (demo_env n) (demo_env' n)) /\ proper (N := fnum double_sse) fval demo_expr.
Proof.
  split; [intros [|n]; left; apply di_valid; lia|]. split; [intros [|n]; left; apply di_valid; lia|].
  split; [|apply C23_case]. intros [|n] r; unfold fmem, mem, demo_env, demo_env', di; cbn [low up]; repeat dval; simpl; lra.
Qed.

(** ** C25

    What the statements of a program must not do for the invariant to hold:
    hand over an infinite number (or a NaN the policy does not look for) as an
    operand, assign +inf as a lower or -inf as an upper bound, bisect an
    interval whose midpoint overflows, or leave the ranges in which fmod and
    nth_root are known to work. *)
Section Guard.
Context {p : platform} (k : rkind) (c : ckind).
Notation N := (fnum p).
Definition usable (v : T N) : Prop := is_fin (fval v) \/ (fval v = NaN /\ (detects c || catches c = true)).
Definition guard (s : stmt (N := N)) (st : state (N := N)) : Prop :=
  let rho := fst st in
  match s with
  | S_eval _ e => proper (N := N) fval e
  | S_copy _ _ | S_op _ _ _ | S_set_empty _ | S_set_whole _ => True
  | S_opn _ _ r | S_num _ r => usable (num_of rho r)
  | S_assign d l u =>
      (fval (num_of rho l) <> NaN /\ fval (num_of rho l) <> PInf) /\
      (fval (num_of rho u) <> NaN /\ fval (num_of rho u) <> NInf) /\
      (u = R_lower d -> fval (num_of rho l) <> NInf)
  | S_bisect _ _ j =>
      (allows_empty c = true /\ fempty (rho j)) \/
      exists l u, fval (low (rho j)) = Fin l /\ fval (up (rho j)) = Fin u /\
        Rabs (l + u) < bpow radix2 (emax (p_X p)) - bpow radix2 (emax (p_X p) - prec (p_X p) - 1)
  | S_fmod _ i j =>
      (allows_empty c = true /\ (fempty (rho i) \/ fempty (rho j))) \/
      (rint_ok p /\ xlt (Fin 0) (fval (low (rho j))) /\ is_fin (fval (up (rho j))) /\
       forall r s, fmem (rho i) r -> fmem (rho j) s -> - largest (p_T p) <= r / s /\ - largest (p_R p) <= r / s)
  | S_root _ j n _ _ =>
      (2 * prec (p_T p) + 2 <= emax (p_T p))%Z /\ (1 <= n <= 2 ^ prec (p_T p))%Z /\
      is_fin (fval (low (rho j))) /\ is_fin (fval (up (rho j))) /\
      (~ fmem (rho j) 0 -> forall r, fmem (rho j) r -> 1 <= Rabs r * largest (p_T p)) /\
      (exists t, real_roots n (fmem (rho j)) t) /\ (k = Std \/ snd st = RUP)
  end.
(** Every statement of the run meets its guard when it is reached. *)
Fixpoint guarded (P : policy N) eo (l : list (stmt (N := N))) (st : state) : Prop :=
  match l with
  | [] => True
  | s :: l' =>
      guard s st /\
      match step P eo s st with
      | (Ok _, st') | (Throw _, st') => guarded P eo l' st'
      | _ => True
      end
  end.
End Guard.
Arguments guarded {p} k c P eo l st.

Section Inv.
Context (p : platform) (k : rkind) (debug : bool) (c : ckind) (ord : site -> bool) (eo : expr (fnum p) -> bool).
Notation N := (fnum p).
Notation I := (itv N).
Notation P := (fpol p Save k debug c ord).
Notation ok := (ok_interval (p := p) c).

(** Nothing worse than an exception, and an allowed interval otherwise. *)
Definition safe (m : M I) : Prop := forall s,
  (exists z s', m s = (Ok z, s') /\ ok z) \/ (exists e s', m s = (Throw e, s')).
Lemma res_safe m o : res p c m o -> safe m.
Proof. destruct o as [z|]; intros [R K] s; [left; exists z, s; auto|right; eauto]. Qed.
Lemma gives_safe m : gives_empty c m -> safe m.
Proof. intros G. destruct (gives_res p c m G) as (o & R & _). eapply res_safe; eauto. Qed.
Lemma throws_safe (m : M I) e : throws m e -> safe m.
Proof. intros T s. right. eauto. Qed.
Lemma safe_ext (m m' : M I) : (forall s, m s = m' s) -> safe m' -> safe m.
Proof. intros E S s. rewrite E. apply S. Qed.
Definition okst (st : state (N := N)) : Prop := forall n, ok (fst st n).
Lemma ok_upd rho d x s : (forall n, ok (rho n)) -> ok x -> okst (upd rho d x, s).
Proof. intros O X n. simpl. unfold upd. destruct Nat.eqb; auto. Qed.
(** A statement's outcome. *)
Definition fine (r : outcome unit * state (N := N)) : Prop :=
  match fst r with UB | AssertFail => False | _ => True end /\ okst (snd r).
Lemma copy_on d z st : ok z -> okst st -> fine (on d (m_copy (IVal z)) st).
Proof. intros Z O. split; [exact Logic.I|]. apply ok_upd; [exact O|destruct z; exact Z]. Qed.
Lemma updated_on d (m : I -> rmode -> _) (f : I -> M I) st : (forall x s, m x s = updated x (f x) s) -> okst st ->
  safe (f (fst st d)) -> fine (on d m st).
Proof.
  intros E O S. unfold on. rewrite E. unfold updated.
  destruct (S (snd st)) as [(z & s' & Q & Z)|(e & s' & Q)]; rewrite Q; (split; [exact Logic.I|]); apply ok_upd; auto.
Qed.
Lemma result_fine {A} (m : M A) f st : okst st ->
  (forall s, (exists a s', m s = (Ok a, s') /\ forall st', okst st' -> fine (f a st')) \/ (exists e s', m s = (Throw e, s'))) ->
  fine (with_result m f st).
Proof.
  intros O H. unfold with_result. destruct (H (snd st)) as [(a & s' & Q & F)|(e & s' & Q)]; rewrite Q.
  - apply F. exact O.
  - split; [exact Logic.I|exact O].
Qed.
Lemma num_seen (rho : nat -> I) d r : Interval.rd (rho d) (seen rho d r) = num_of rho r.
Proof.
  destruct r; simpl; auto; destruct Nat.eqb eqn:E; simpl; auto; apply Nat.eqb_eq in E; subst; reflexivity.
Qed.
Lemma itv_seen (rho : nat -> I) d j : rdi (rho d) (iseen rho d j) = rho j.
Proof. unfold iseen. destruct Nat.eqb eqn:E; simpl; auto. apply Nat.eqb_eq in E. subst. reflexivity. Qed.

Definition bin (o : cop) : op2 := match o with K_add => B_add | K_sub => B_sub | K_mul => B_mul | K_div => B_div end.
Lemma run2_safe o x y : ok x -> ok y -> safe (run2 P o x y).
Proof.
  intros Ox Oy. destruct (iso2 p k debug c ord o x x y y Ox Ox Oy Oy) as (q & _ & R & _); try (intros r Hr; exact Hr).
  eapply res_safe; eauto.
Qed.
(** x op= v tests x first. *)
Lemma run_in_first o x (v : T N) : ok x -> usable c v -> (o = B_sub \/ o = B_div) -> safe (run_in P o x v).
Proof.
  intros Ox [(r & E)|[E D]] Ho.
  - destruct (iso_in p k debug c ord o v x x r E Ox Ox) as (q & _ & R & _); [intros t Ht; exact Ht|]. eapply res_safe; eauto.
  - destruct (detects c) eqn:Dc.
    + apply gives_safe. apply (proj1 (C28_reported_operators p k debug c ord x v v Dc E) o). destruct Ho; subst; reflexivity.
    + simpl in D. destruct (test_input_i P x) eqn:T.
      * apply gives_safe. apply (gives_i_empty p k debug c ord). intros s.
        destruct Ho; subst o; cbn [run_in]; unfold op_sub_in, op_div_in, test_input_in, bind; rewrite T; reflexivity.
      * apply (throws_safe _ InvalidNumber). intros s.
        destruct Ho; subst o; cbn [run_in]; unfold op_sub_in, op_div_in, test_input_in, bind; rewrite T;
          cbn [p_ck fpol]; rewrite (catches_throw p debug c v s D E); reflexivity.
Qed.
Lemma run_in_mul x (v : T N) : ok x -> usable c v -> safe (run_in P B_mul x v).
Proof.
  intros Ox [(r & E)|[E D]].
  - destruct (iso_in p k debug c ord B_mul v x x r E Ox Ox) as (q & _ & R & _); [intros t Ht; exact Ht|]. eapply res_safe; eauto.
  - destruct (detects c) eqn:Dc.
    + apply gives_safe. apply (proj1 (C28_reported_operators p k debug c ord x v v Dc E) B_mul). reflexivity.
    + simpl in D. apply (throws_safe _ InvalidNumber). intros s. cbn [run_in].
      unfold op_mul_in, op_mul_ni, test_input_ni, bind. cbn [p_ck fpol]. rewrite (catches_throw p debug c v s D E). reflexivity.
Qed.
(** x += v: the sum, except that an empty x hides a NaN. *)
Lemma add_n_fine d r st : okst st -> usable c (num_of (fst st) r) -> fine (on d (m_add_n P (seen (fst st) d r)) st).
Proof.
  intros O U. set (x := fst st d). set (v := num_of (fst st) r).
  assert (Q : forall s, m_add_n P (seen (fst st) d r) x s =
     updated x (if test_input_i P x then i_empty P else run_in P B_add x v) s).
  { intros s. destruct (test_input_i P x) eqn:T.
    - unfold m_add_n, obind at 1, ocomp at 1. unfold test_input_in. rewrite T.
      change (m_set_empty P x s = updated x (i_empty P) s). apply (set_empty_updated p k debug c).
    - rewrite (m_add_n_updated p k debug c ord ord).
      + unfold x. rewrite num_seen. reflexivity.
      + intros Ex. exfalso. destruct (O d) as [V|[Al _]]; [exact (Ex (proj1 V))|].
        pose proof (proj2 (is_empty_iff p k debug c ord x Al) Ex). congruence. }
  assert (S : safe (if test_input_i P x then i_empty P else run_in P B_add x v)).
  { destruct (test_input_i P x) eqn:T; [apply gives_safe, i_empty_gives|]. destruct U as [(q & E)|[E D]].
    - destruct (iso_in p k debug c ord B_add v x x q E (O d) (O d)) as (w & _ & R & _); [intros t Ht; exact Ht|]. eapply res_safe; eauto.
    - destruct (detects c) eqn:Dc.
      + apply gives_safe. apply (proj1 (C28_reported_operators p k debug c ord x v v Dc E) B_add). reflexivity.
      + simpl in D. apply (throws_safe _ InvalidNumber). intros s. cbn [run_in].
        unfold op_add_in, op_add_ni, test_input_ni, bind. cbn [p_ck fpol]. rewrite (catches_throw p debug c v s D E). reflexivity. }
  unfold on. fold x. rewrite Q. unfold updated.
  destruct (S (snd st)) as [(z & s' & Qz & Z)|(e & s' & Qz)]; rewrite Qz; (split; [exact Logic.I|]); apply ok_upd; auto. apply O.
Qed.
Lemma ctor_num_safe (v : T N) : usable c v -> safe (ctor_num P v).
Proof.
  intros [(r & E)|[E D]].
  - destruct (correct_res p c _ _ (num_correct p k debug c ord v r E)) as (o & R). eapply res_safe; eauto.
  - destruct (detects c) eqn:Dc.
    + apply gives_safe. apply (C28_reported_constructors p k debug c ord (mk v v) v v (p_T p) v v Dc E E).
    + apply (throws_safe _ InvalidNumber). intros s. unfold ctor_num, bind. cbn [p_ck fpol].
      rewrite (catches_throw p debug c v s D E). reflexivity.
Qed.
Lemma whole_fine d st : okst st -> fine (on d (m_set_whole P) st).
Proof.
  intros O. unfold on, m_set_whole, obind, ocomp. cbn [p_ck fpol]. 
  assert (Q : exists l u : T N, (forall s, ck_neg_inf (fchecking p debug c) s = (Ok l, s)) /\
     (forall s, ck_pos_inf (fchecking p debug c) s = (Ok u, s)) /\ fval l = NInf /\ fval u = PInf).
  { destruct (cs_neg_inf _ _ (fckspec p debug c) eq_refl) as (l & El & Ql).
    destruct (cs_pos_inf _ _ (fckspec p debug c) eq_refl) as (u & Eu & Qu). exists l, u. auto. }
  destruct Q as (l & u & Ql & Qu & El & Eu). rewrite Ql. simpl. rewrite Qu. simpl.
  split; [exact Logic.I|]. apply ok_upd; auto. left. unfold fvalid, valid. cbn [low up]. rewrite El, Eu.
  split; [exact Logic.I|split; discriminate].
Qed.
Lemma assign_fine d l u st : okst st -> guard k c (S_assign d l u) st ->
  fine (on d (m_assign P (seen (fst st) d l) (seen (fst st) d u)) st).
Proof.
  intros O ((L1 & L2) & (U1 & U2) & Al). set (rho := fst st). unfold on. fold rho.
  set (x := rho d). destruct (classic (xle (fval (num_of rho l)) (fval (num_of rho u)))) as [K|K].
  - rewrite (m_assign_test p k debug c ord x _ _ _ true); rewrite ?(num_seen rho d); auto.
    2: { apply Bleb_fval. exact K. }
    unfold m_set, obind, store_low, store_up. cbn [negb].
    assert (V : fvalid (mk (num_of rho l) (num_of rho u) : I)).
    { unfold fvalid, valid. cbn [low up]. split; [exact K|]. split; auto. }
    unfold x. rewrite (num_seen rho d l). split; [exact Logic.I|]. apply ok_upd; [exact O|]. left.
    assert (N1 : Interval.rd (mk (num_of rho l) (up (rho d))) (seen rho d u) = num_of rho u \/ u = R_lower d).
    { destruct u as [v|j|j]; simpl; auto; destruct Nat.eqb eqn:E; simpl; auto; apply Nat.eqb_eq in E; subst; auto. }
    destruct N1 as [N1|N1].
    + cbn [low up snd fst]. rewrite N1. exact V.
    + subst u. cbn [seen]. rewrite Nat.eqb_refl. cbn [Interval.rd low up fst snd].
      unfold fvalid, valid. cbn [low up]. split; [|auto]. simpl in L1. destruct (fval (num_of rho l)); simpl; auto; lra.
  - rewrite (m_assign_unordered p k debug c ord x); rewrite ?(num_seen rho d); auto.
    unfold updated. destruct (gives_safe _ (i_empty_gives p k debug c ord) (snd st)) as [(z & s' & Qz & Z)|(e & s' & Qz)];
      rewrite Qz; (split; [exact Logic.I|]); apply ok_upd; auto. apply O.
Qed.
Lemma bisect_safe d1 d2 j st : okst st -> guard k c (S_bisect d1 d2 j) st -> fine (step P eo (S_bisect d1 d2 j) st).
Proof.
  intros O G. cbn [step]. apply result_fine; auto. intros s.
  assert (F : forall a b : I, ok a -> ok b -> forall st', okst st' ->
    fine (let (_, st2) := on d1 (m_copy (IVal a)) st' in on d2 (m_copy (IVal b)) st2)).
  { intros a b Oa Ob st' O'. destruct (copy_on d1 a st' Oa O') as [_ O2].
    destruct (on d1 (m_copy (IVal a)) st') as [q st2]. apply copy_on; auto. }
  assert (G' : (allows_empty c = true /\ fempty (fst st j)) \/
    exists l u, fval (low (fst st j)) = Fin l /\ fval (up (fst st j)) = Fin u /\ l <= u /\
      Rabs (l + u) < bpow radix2 (emax (p_X p)) - bpow radix2 (emax (p_X p) - prec (p_X p) - 1)).
  { destruct (O j) as [V|V]; [|left; exact V]. destruct G as [G|(l & u & El & Eu & B)]; [left; exact G|right].
    exists l, u. destruct V as (V & _). rewrite El, Eu in V. auto. }
  destruct G' as [[Al E]|(l & u & El & Eu & Hlu & B)].
  - pose proof (proj2 (is_empty_iff p k debug c ord _ Al) E) as T.
    pose proof (i_empty_gives p k debug c ord) as GE. unfold gives_empty in GE. rewrite Al in GE. destruct GE as (z & Rz & Ez).
    left. exists (z, z), s. split.
    + unfold bisect. rewrite T. apply returns_args2; exact Rz.
    + apply F; right; auto.
  - destruct (C35_bisect_partial p k debug c ord (fst st j) l u El Eu Hlu B) as (a & b & m & R & Va & Vb & _).
    left. exists (a, b), s. split; [apply R|]. apply F; left; auto.
Qed.
Lemma fmod_fine d i j st : okst st -> guard k c (S_fmod d i j) st -> fine (step P eo (S_fmod d i j) st).
Proof.
  intros O G. cbn [step].
  assert (S : safe (fmod P (fst st i) (fst st j))).
  { assert (Em : allows_empty c = true -> fempty (fst st i) \/ fempty (fst st j) -> safe (fmod P (fst st i) (fst st j))).
    { intros Al E. apply gives_safe, (gives_i_empty p k debug c ord). intros s. unfold fmod, test_input_ii.
      destruct E as [E|E]; rewrite (proj2 (is_empty_iff p k debug c ord _ Al) E), ?orb_true_r; reflexivity. }
    destruct (O i) as [Vi|[Al E]]; [|apply Em; auto]. destruct (O j) as [Vj|[Al E]]; [|apply Em; auto].
    destruct G as [[Al E]|(W & Lj & Uj & B)]; [apply Em; auto|].
    destruct (C43_fmod_partial p k debug c ord _ _ W Vi Vj Lj Uj B) as (z & n & R & Vz & _).
    intros s. left. exists z, s. split; [apply R|left; exact Vz]. }
  apply result_fine; auto. intros s. destruct (S s) as [(z & s' & Q & Z)|Q]; [left|right; exact Q].
  exists z, s'. split; auto. intros st' O'. apply copy_on; auto.
Qed.
Lemma root_fine d j n dbg fuel st : okst st -> guard k c (S_root d j n dbg fuel) st ->
  fine (step P eo (S_root d j n dbg fuel) st).
Proof.
  intros O (W & Hn & Fl & Fu & HM & Ht & Hk). cbn [step]. unfold with_result.
  assert (V : fvalid (fst st j)).
  { destruct Ht as (t & Ht & _). exact (mem_fvalid p (fst st j) _ Ht). }
  destruct (C16_nth_root_encloses_partial p k debug c ord dbg _ n W Hn V Fl Fu HM Ht) as (z & f0 & Vz & _ & Rz).
  destruct (Rz (Nat.max fuel f0) (snd st) ltac:(lia) Hk) as (m' & Q).
  pose proof (C17_budget_irrelevant p k debug c ord dbg (fst st j) n fuel (Nat.max fuel f0) (snd st) ltac:(lia)) as K.
  destruct (nth_root P dbg fuel (fst st j) n (snd st)) as [o s1] eqn:E.
  destruct o as [w|e| | |].
  - specialize (K ltac:(discriminate)). rewrite Q in K. injection K as -> ->. apply copy_on; [left; exact Vz|exact O].
  - specialize (K ltac:(discriminate)). rewrite Q in K. discriminate K.
  - specialize (K ltac:(discriminate)). rewrite Q in K. discriminate K.
  - specialize (K ltac:(discriminate)). rewrite Q in K. discriminate K.
  - split; [exact Logic.I|exact O].
Qed.

Lemma step_fine s st : okst st -> guard k c s st -> fine (step P eo s st).
Proof.
  intros O G. destruct s as [d e|d j|o d j|o d r|d r|d l u|d|d|d1 d2 j|d i j|d j n dbg fuel]; cbn [step] in *.
  - destruct (eval_res p k debug c ord eo (fst st) e O G) as (o & R). apply result_fine; auto. intros s.
    destruct (res_safe _ _ R s) as [(z & s' & Q & Z)|Q]; [left|right; exact Q].
    exists z, s'. split; auto. intros st' O'. apply copy_on; auto.
  - split; [exact Logic.I|]. apply ok_upd; [exact O|].
    pose proof (O j) as Oj. unfold iseen. destruct (Nat.eqb j d) eqn:E; simpl.
    + apply Nat.eqb_eq in E. subst j. destruct (fst st d); exact Oj.
    + destruct (fst st j); exact Oj.
  - apply (updated_on d _ (fun x => run2 P (bin o) x (rdi x (iseen (fst st) d j)))); auto.
    + intros x s. destruct o; cbn [member run2 bin].
      * apply m_add_updated. * apply m_sub_updated. * apply m_mul_updated. * apply m_div_updated.
    + rewrite itv_seen. apply run2_safe; apply O.
  - destruct o; cbn [member_n].
    + apply add_n_fine; auto.
    + apply (updated_on d _ (fun x => run_in P B_sub x (Interval.rd x (seen (fst st) d r)))); auto.
      * intros x s. apply m_sub_n_updated. * rewrite num_seen. apply run_in_first; auto.
    + apply (updated_on d _ (fun x => run_in P B_mul x (Interval.rd x (seen (fst st) d r)))); auto.
      * intros x s. apply m_mul_n_updated. * rewrite num_seen. apply run_in_mul; auto.
    + apply (updated_on d _ (fun x => run_in P B_div x (Interval.rd x (seen (fst st) d r)))); auto.
      * intros x s. apply m_div_n_updated. * rewrite num_seen. apply run_in_first; auto.
  - apply (updated_on d _ (fun x => ctor_num P (Interval.rd x (seen (fst st) d r)))); auto.
    + intros x s. apply m_assign_num_updated.
    + rewrite num_seen. apply ctor_num_safe; auto.
  - apply assign_fine; auto.
  - apply (updated_on d _ (fun _ => i_empty P)); auto.
    + intros x s. apply set_empty_updated.
    + apply gives_safe, i_empty_gives.
  - apply whole_fine; auto.
  - apply (bisect_safe d1 d2 j); auto.
  - apply (fmod_fine d i j); auto.
  - apply (root_fine d j n dbg fuel); auto.
Qed.
Lemma run_fine l : forall st, okst st -> guarded k c P eo l st -> okst (run_all P eo l st).
Proof.
  induction l as [|s l IH]; intros st O G; simpl; auto. destruct G as [G Gl].
  destruct (step_fine s st O G) as [F O']. destruct (step P eo s st) as [o st']. simpl in *.
  destruct o; auto; destruct F.
Qed.
End Inv.

Theorem C25_validity_partial : forall p k debug c ord eo (l : list (stmt (N := fnum p))) st,
  (forall n, ok_interval c (fst st n)) -> guarded k c (P_ p k debug c ord) eo l st ->
  forall n, ok_interval c (fst (run_all (P_ p k debug c ord) eo l st) n).
Proof. intros p k debug c ord eo l st O G. exact (run_fine p k debug c ord eo l st O G). Qed.
Print Assumptions C25_validity_partial.
(** Under a policy without empty intervals every object stays valid: no NaN. *)
Theorem C25_never_nan_partial : forall p k debug c ord eo (l : list (stmt (N := fnum p))) st,
  allows_empty c = false -> (forall n, fvalid (fst st n)) -> guarded k c (P_ p k debug c ord) eo l st ->
  forall n, let x := fst (run_all (P_ p k debug c ord) eo l st) n in
    fvalid x /\ fval (low x) <> NaN /\ fval (up x) <> NaN.
Proof.
  intros p k debug c ord eo l st A V G n x.
  destruct (C25_validity_partial p k debug c ord eo l st (fun m => or_introl (V m)) G n) as [K|[K _]]; [|congruence].
  split; [exact K|]. destruct K as (K & _). apply xle_nn. exact K.
Qed.
Print Assumptions C25_never_nan_partial.
(** No statement of such a run is undefined or fails an assertion. *)
Theorem C25_step_defined : forall p k debug c ord eo (s : stmt (N := fnum p)) st,
  (forall n, ok_interval c (fst st n)) -> guard k c s st ->
  fst (step (P_ p k debug c ord) eo s st) <> UB /\ fst (step (P_ p k debug c ord) eo s st) <> AssertFail.
Proof.
  intros p k debug c ord eo s st O G. destruct (step_fine p k debug c ord eo s st O G) as [F _].
  destruct (fst (step _ eo s st)); try destruct F; split; discriminate.
Qed.
Print Assumptions C25_step_defined.
(** x1 /= x1.lower(); x0 -= x0; x0 += 3; x1.assign(x1.lower(), +inf) ...; x2 = x0 * x0; x2.set_empty()
    (which throws). *)
Definition demo_prog : list (stmt (N := fnum double_sse)) :=
  [S_opn K_div 1 (R_lower 1); S_op K_sub 0 0; S_opn K_add 0 (R_val (dbl 3 0)); S_opn K_mul 0 (R_val dnan);
   S_assign 1 (R_val (dbl 1 0)) (R_val pinf);
   S_eval 2 (e_2 B_mul (e_var 0) (e_var 0)); S_set_empty 2].
Definition demo_state : state (N := fnum double_sse) := (demo_env, RNE).
Lemma guarded_any {p} k c (P : policy (fnum p)) eo l : (forall s st, In s l -> guard k c s st) ->
  forall st, guarded k c P eo l st.
Proof.
  induction l as [|s l IH]; intros H st; [exact Logic.I|]. split; [apply H; left; reflexivity|].
  assert (K : forall st, guarded k c P eo l st) by (apply IH; intros s' st' Hs; apply H; right; exact Hs).
  destruct (step P eo s st) as [[|?| | |] st']; try exact Logic.I; apply K.
Qed.
Example C25_case : (forall n, fvalid (fst demo_state n)) /\
  guarded Opp CkNoEmpty (P_ double_sse Opp true CkNoEmpty (fun _ => true)) (fun _ => true) demo_prog demo_state /\
  let final := fst (run_all (P_ double_sse Opp true CkNoEmpty (fun _ => true)) (fun _ => true) demo_prog demo_state) in
  show (final 0%nat) = show (di (-1) 7) /\ show (final 1%nat) = show (mk (dbl 1 0) pinf) /\
  show (final 2%nat) = show (di (-7) 49).
Proof.
  split; [intros [|n]; apply di_valid; lia|]. split.
  - split.
    + left. cbn [num_of demo_state fst demo_env di low]. exists (-1). dval. reflexivity.
    + assert (K : forall st, guarded Opp CkNoEmpty (P_ double_sse Opp true CkNoEmpty (fun _ => true)) (fun _ => true) (tl demo_prog) st).
      { apply guarded_any. intros s st Hs. cbn [demo_prog tl In] in Hs. destruct Hs as [<-|[<-|[<-|[<-|[<-|[<-|[]]]]]]].
        - exact Logic.I.
        - left. cbn [num_of]. exists 3. dval. reflexivity.
        - right. split; reflexivity.
        - cbn [guard num_of]. assert (E : fval (f := binary64) (dbl 1 0) = Fin 1) by (dval; reflexivity). change (p_T double_sse) with binary64. rewrite E.
          repeat split; discriminate.
        - repeat split.
        - exact Logic.I. }
      destruct (step _ _ _ demo_state) as [[|?| | |] st']; try exact Logic.I; apply K.
  - repeat split; vm_compute; reflexivity.
Qed.

(** The exclusions are needed.  x += inf on [1,2] gives [inf,inf]: no member, not
    empty for the library. *)
Theorem C25_infinite_number_refuted :
  ~ (forall (l : list (stmt (N := fnum double_sse))) st, (forall n, fvalid (fst st n)) ->
       forall n, ok_interval CkStrict (fst (run_all Pdef (fun _ => true) l st) n)).
Proof.
  intros H. specialize (H [S_opn K_add 0 (R_val pinf)] (fun _ => di 1 2, RNE)).
  assert (V : forall n : nat, fvalid ((fun _ => di 1 2) n)) by (intros; apply di_valid; lia).
  specialize (H V 0%nat).
  set (x := fst (run_all Pdef (fun _ => true) [S_opn K_add 0 (R_val pinf)] (fun _ => di 1 2, RNE)) 0%nat) in *.
  assert (E : fst (show x) = SpecFloat.S754_infinity false) by (vm_compute; reflexivity).
  destruct H as [(_ & K & _)|[K _]]; [|discriminate K]. apply K.
  clearbody x. destruct (low x : flt binary64) as [b|[|]| |b m e B] eqn:Q; unfold show in E; rewrite Q in E; try discriminate E.
  reflexivity.
Qed.
Print Assumptions C25_infinite_number_refuted.
(** bisect of the whole line makes NaN bounds. *)
Theorem C25_bisect_refuted :
  ~ (forall (l : list (stmt (N := fnum double_sse))) st, (forall n, fvalid (fst st n)) ->
       (forall s, In s l -> match s with S_opn _ _ _ | S_num _ _ | S_assign _ _ _ | S_fmod _ _ _ | S_root _ _ _ _ _ => False | _ => True end) ->
       forall n, ok_interval CkStrict (fst (run_all Pdef (fun _ => true) l st) n)).
Proof.
  intros H. specialize (H [S_bisect 0 1 2] (fun _ => mk ninf pinf, RNE)).
  assert (V : forall n : nat, fvalid ((fun _ => mk ninf pinf) n)) by (intros; apply validb_ok; vm_compute; reflexivity).
  specialize (H V). assert (Q : forall s : stmt (N := fnum double_sse), In s [S_bisect 0 1 2] ->
    match s with S_opn _ _ _ | S_num _ _ | S_assign _ _ _ | S_fmod _ _ _ | S_root _ _ _ _ _ => False | _ => True end).
  { intros s [<-|[]]. exact Logic.I. }
  specialize (H Q 0%nat).
  set (x := fst (run_all Pdef (fun _ => true) [S_bisect 0 1 2] (fun _ => mk ninf pinf, RNE)) 0%nat) in *.
  assert (E : snd (show x) = SpecFloat.S754_nan) by (vm_compute; reflexivity).
  destruct H as [(K & _ & _)|[K _]]; [|discriminate K]. clearbody x.
  destruct (up x : flt binary64) as [b|[|]| |b m e B] eqn:Qu; unfold show in E; rewrite Qu in E; try discriminate E.
  unfold fvalid, valid in K. destruct (fval (low x)); exact K.
Qed.
Print Assumptions C25_bisect_refuted.

(** * Intervals over exact types *)

From Coq Require Import Reals ZArith Lra Lia Bool Psatz QArith Qreals.
From Verif Require Import Outcome Base Checking Interval Utility Arith Arith2 FloatNum Spec ExtR Sem
  CoreArith CoreDiv CoreMore CoreFun CorePow CoreUtil ExactNum SpecExact.
Local Open Scope R_scope.

(** ** The rounding mode is never touched *)
Definition keeps {A} (m : M A) : Prop := forall s, snd (m s) = s.
Lemma keeps_ret {A} (a : A) : keeps (ret a).
Proof. intros s. reflexivity. Qed.
Lemma keeps_throw {A} e : keeps (throw (A := A) e).
Proof. intros s. reflexivity. Qed.
Lemma keeps_fail {A} o : keeps (fail (A := A) o).
Proof. intros s. reflexivity. Qed.
Lemma keeps_under {A} (f : rmode -> outcome A) : keeps (under_mode f).
Proof. intros s. reflexivity. Qed.
Lemma keeps_bind {A B} (m : M A) (k : A -> M B) : keeps m -> (forall a, keeps (k a)) -> keeps (bind m k).
Proof.
  intros Hm Hk s. unfold bind. specialize (Hm s). destruct (m s) as [o s1]. simpl in Hm. subst s1.
  destruct o; auto. apply Hk.
Qed.
Lemma keeps_args2 {A B} o (m1 : M A) (m2 : M B) : keeps m1 -> keeps m2 -> keeps (args2 o m1 m2).
Proof. intros H1 H2. destruct o; simpl; repeat (apply keeps_bind; auto; intros); apply keeps_ret. Qed.
Lemma keeps_mk_args {N : num} o (m1 m2 : M (T N)) : keeps m1 -> keeps m2 -> keeps (mk_args o m1 m2).
Proof. intros H1 H2. apply keeps_bind; [apply keeps_args2; auto|intros; apply keeps_ret]. Qed.

Section Keeps.
Context {N : num} (debug : bool) (c : ckind) (ord : site -> bool).
Notation P := (exact_pol N debug c ord).

Ltac kp := repeat first
  [ apply keeps_ret | apply keeps_throw | apply keeps_fail | apply keeps_under
  | apply keeps_mk_args | apply keeps_args2 | apply keeps_bind; [|intros]
  | match goal with |- keeps (if ?b then _ else _) => destruct b
                  | |- keeps (match ?b with _ => _ end) => destruct b
                  | |- keeps (let (_, _) := ?b in _) => destruct b end
  | progress (unfold assert_, neg, e_opp, e_store, e_ld, ex_add, ex_sub, ex_mul, ex_div,
      e_add, e_sub, e_mul, e_div, with_rnd; simpl) ].

Lemma k_lower : keeps (ck_empty_lower (p_ck P)). Proof. destruct c; simpl; kp. Qed.
Lemma k_upper : keeps (ck_empty_upper (p_ck P)). Proof. destruct c; simpl; kp. Qed.
Lemma k_nan a : keeps (ck_is_nan (p_ck P) a). Proof. destruct c; simpl; kp. Qed.
Lemma k_pinf : keeps (ck_pos_inf (p_ck P)). Proof. destruct c; simpl; kp. Qed.
Lemma k_ninf : keeps (ck_neg_inf (p_ck P)). Proof. destruct c; simpl; kp. Qed.
Lemma k_empty : keeps (i_empty P).
Proof. apply keeps_mk_args; [apply k_lower|apply k_upper]. Qed.
Lemma k_whole : keeps (i_whole P).
Proof. apply keeps_mk_args; [apply k_ninf|apply k_pinf]. Qed.

Lemma k_rnd {A} (m : M A) : keeps m -> keeps (with_rnd P m).
Proof. intros H. exact H. Qed.

Ltac kq := repeat first
  [ match goal with |- keeps (with_rnd _ _) => apply k_rnd end | apply k_empty | apply k_whole | apply k_pinf | apply k_ninf | apply k_nan | apply k_lower | apply k_upper
  | apply keeps_ret | apply keeps_throw | apply keeps_fail | apply keeps_under
  | apply keeps_mk_args | apply keeps_args2 | apply keeps_bind; [|intros]
  | match goal with |- keeps (if ?b then _ else _) => destruct b
                  | |- keeps (match ?b with _ => _ end) => destruct b
                  | |- keeps (let (_, _) := ?b in _) => destruct b end
  | progress cbn [p_ar exact_pol arith_exact add_down add_up sub_down sub_up mul_down mul_up div_down div_up ar_median p_prot]
  | progress (unfold assert_, neg, e_opp, e_store, e_ld, ex_add, ex_sub, ex_mul, ex_div,
      e_add, e_sub, e_mul, e_div, test_input_ni, test_input_in, ctor_num, c_set_empty; cbv zeta) ].

Lemma k_add x y : keeps (op_add P x y). Proof. unfold op_add. kq. Qed.
Lemma k_sub x y : keeps (op_sub P x y). Proof. unfold op_sub. kq. Qed.
Lemma k_neg x : keeps (op_neg P x). Proof. unfold op_neg. kq. Qed.
Lemma k_mul x y : keeps (op_mul P x y). Proof. unfold op_mul. kq. Qed.
Lemma k_div x y : keeps (op_div P x y).
Proof. unfold op_div, div_zero, div_negative, div_positive, div_non_zero. kq. Qed.
Lemma k_square x : keeps (square P x). Proof. unfold square. kq. Qed.
Lemma k_abs x : keeps (u_abs P x). Proof. unfold u_abs. kq. apply k_neg. Qed.
Lemma k_min x y : keeps (u_min P x y). Proof. unfold u_min. kq. Qed.
Lemma k_max x y : keeps (u_max P x y). Proof. unfold u_max. kq. Qed.
Lemma k_hull x y : keeps (hull P x y). Proof. unfold hull. kq. Qed.
Lemma k_intersect x y : keeps (intersect P x y). Proof. unfold intersect. kq. Qed.
Lemma k_inverse x : keeps (multiplicative_inverse P x). Proof. unfold multiplicative_inverse. kq. Qed.
Lemma k_pow_loop (mul : T N -> T N -> M (T N)) p : (forall a b, keeps (mul a b)) ->
  forall x y, keeps (pow_loop mul x y p).
Proof.
  intros K. induction p; intros x y; cbn [pow_loop]; (apply keeps_bind; [apply K|intros]); auto.
  apply keeps_bind; [apply K|intros]. apply IHp.
Qed.
Lemma k_pow_aux (mul : T N -> T N -> M (T N)) x n : (forall a b, keeps (mul a b)) -> keeps (pow_aux mul x n).
Proof. intros K. unfold pow_aux. destruct (Z.shiftr n 1); try apply keeps_ret. apply k_pow_loop, K. Qed.
Lemma k_pow_pos x n : keeps (pow_pos P x n).
Proof.
  assert (D : forall x n, keeps (pow_dn P x n)) by (intros; apply k_pow_aux; intros; kq).
  assert (U : forall x n, keeps (pow_up P x n)) by (intros; apply k_pow_aux; intros; kq).
  unfold pow_pos. apply k_rnd.
  repeat first [apply D | apply U | kq].
Qed.
Lemma k_pow x n : keeps (pow P x n).
Proof. pose proof k_pow_pos. pose proof k_inverse. unfold pow. kq; auto. Qed.
End Keeps.

(** ** Connected images *)
Definition convex (X : R -> Prop) : Prop := forall a b r, X a -> X b -> a <= r <= b -> X r.

Lemma seg_between (X : R -> Prop) a b t : convex X -> X a -> X b -> 0 <= t <= 1 -> X (a + t * (b - a)).
Proof.
  intros C Ha Hb Ht. destruct (Rle_or_lt a b).
  - apply (C a b); auto. nra.
  - apply (C b a); auto. nra.
Qed.
Lemma conn2 f (X Y : R -> Prop) :
  (forall x1 y1 x2 y2, continuity (fun t => f (x1 + t * (x2 - x1)) (y1 + t * (y2 - y1)))) ->
  convex X -> convex Y -> convex (image2 f X Y).
Proof.
  intros Cf CX CY a b r (x1 & y1 & X1 & Y1 & ->) (x2 & y2 & X2 & Y2 & ->) Hr.
  set (g := fun t => f (x1 + t * (x2 - x1)) (y1 + t * (y2 - y1)) - r).
  assert (Cg : continuity g).
  { unfold g. apply continuity_minus; [apply Cf|apply continuity_const; intros ? ?; reflexivity]. }
  destruct (IVT_cor g 0 1) as (t & Ht & Et); auto; [lra| |].
  { unfold g. replace (x1 + 0 * (x2 - x1)) with x1 by lra. replace (x1 + 1 * (x2 - x1)) with x2 by lra.
    replace (y1 + 0 * (y2 - y1)) with y1 by lra. replace (y1 + 1 * (y2 - y1)) with y2 by lra. nra. }
  exists (x1 + t * (x2 - x1)), (y1 + t * (y2 - y1)).
  split; [apply seg_between; auto|]. split; [apply seg_between; auto|]. unfold g in Et. lra.
Qed.
Lemma mul_conn (X Y : R -> Prop) : convex X -> convex Y -> convex (image2 Rmult X Y).
Proof. apply conn2. intros. reg. Qed.
Lemma add_conn (X Y : R -> Prop) : convex X -> convex Y -> convex (image2 Rplus X Y).
Proof. apply conn2. intros. reg. Qed.
Lemma sub_conn (X Y : R -> Prop) : convex X -> convex Y -> convex (image2 Rminus X Y).
Proof. apply conn2. intros. reg. Qed.
Lemma fun_conn (f : R -> R) (X : R -> Prop) : continuity f -> convex X -> convex (image1 f X).
Proof.
  intros Cf CX a b r (x1 & X1 & ->) (x2 & X2 & ->) Hr.
  set (g := fun t => f (x1 + t * (x2 - x1)) - r).
  assert (Cg : continuity g).
  { unfold g. apply continuity_minus; [|apply continuity_const; intros ? ?; reflexivity].
    apply (continuity_comp (fun t => x1 + t * (x2 - x1)) f); auto. reg. }
  destruct (IVT_cor g 0 1) as (t & Ht & Et); auto; [lra| |].
  { unfold g. replace (x1 + 0 * (x2 - x1)) with x1 by lra. replace (x1 + 1 * (x2 - x1)) with x2 by lra. nra. }
  exists (x1 + t * (x2 - x1)). split; [apply seg_between; auto|]. unfold g in Et. lra.
Qed.

(** Products over a box lie between products of corners. *)
Definition corner (a b r : R) : Prop := r = a \/ r = b.
Lemma mul_lo a b c d r s : a <= r <= b -> c <= s <= d ->
  (exists p q, corner a b p /\ corner c d q /\ p * q <= r * s) /\
  (exists p q, corner a b p /\ corner c d q /\ r * s <= p * q).
Proof.
  intros Hr Hs.
  assert (L : forall a b r s, a <= r <= b -> (exists p, corner a b p /\ p * s <= r * s) /\ (exists p, corner a b p /\ r * s <= p * s)).
  { clear. intros a b r s Hr. unfold corner. destruct (Rle_or_lt 0 s).
    - split; [exists a|exists b]; split; auto; nra.
    - split; [exists b|exists a]; split; auto; nra. }
  destruct (L a b r s Hr) as [(p1 & P1 & Q1) (p2 & P2 & Q2)].
  destruct (L c d s p1 Hs) as [(q1 & U1 & V1) _]. destruct (L c d s p2 Hs) as [_ (q2 & U2 & V2)].
  split; [exists p1, q1|exists p2, q2]; repeat split; auto; lra.
Qed.
(** The least and greatest corner product are attained at corners. *)
Lemma corner_min (f : R -> R -> R) a b c d :
  exists p q, corner a b p /\ corner c d q /\ forall p' q', corner a b p' -> corner c d q' -> f p q <= f p' q'.
Proof.
  unfold corner.
  assert (K : forall g : R -> R, exists q, (q = c \/ q = d) /\ g q <= g c /\ g q <= g d).
  { intros g. destruct (Rle_or_lt (g c) (g d)); [exists c|exists d]; repeat split; auto; lra. }
  destruct (K (f a)) as (q1 & C1 & A1 & B1). destruct (K (f b)) as (q2 & C2 & A2 & B2).
  destruct (Rle_or_lt (f a q1) (f b q2)).
  - exists a, q1. repeat split; auto. intros p' q' [->| ->] [->| ->]; lra.
  - exists b, q2. repeat split; auto. intros p' q' [->| ->] [->| ->]; lra.
Qed.

Section Exact.
Context (F : exact_type) (v : ef_T F -> R) (HF : exact_field F v).
Notation N := (exact_num F).
Definition xval (a : T N) : ext := Fin (v a).

Lemma exact_numspec : numspec N xval.
Proof.
  split; unfold xval; simpl.
  - apply (xf_lt _ _ HF).
  - apply (xf_le _ _ HF).
  - intros a b. rewrite (xf_eq _ _ HF). split; [intros ->; split; congruence|intros [E _]; congruence].
  - rewrite (xf_int _ _ HF); auto.
  - rewrite (xf_int _ _ HF); auto.
  - rewrite (xf_int _ _ HF); auto.
  - intros a. exists (ef_opp F a). rewrite (xf_opp _ _ HF). split; auto. intros s. reflexivity.
  - intros a b. exists (ef_opp F a). split; [intros s; reflexivity|]. rewrite (xf_lt _ _ HF), (xf_opp _ _ HF). tauto.
Qed.

Section Policy.
Context (debug : bool) (c : ckind) (ord : site -> bool).
Notation P := (exact_pol N debug c ord).
Definition anymode (s : rmode) : Prop := True.

Lemma exact_RD e t : e = xval t -> RD (N := N) xval e t.
Proof. intros E. unfold RD. rewrite E. split; [simpl; lra|auto]. Qed.
Lemma exact_RU e t : e = xval t -> RU (N := N) xval e t.
Proof. intros E. unfold RU. rewrite E. split; [simpl; lra|auto]. Qed.

Lemma exact_op2 (rnd : ext -> T N -> Prop) f (op : T N -> T N -> M (T N)) (g : T N -> T N -> T N) :
    (forall e t, e = xval t -> rnd e t) ->
    (forall a b, f (xval a) (xval b) <> NaN -> f (xval a) (xval b) = xval (g a b) /\ pureM (op a b) (g a b)) ->
    op2_ok xval anymode rnd f op.
Proof.
  intros Hr Hop a b Hn. destruct (Hop a b Hn) as [E R]. exists (g a b). split.
  - apply Hr. auto.
  - apply pure_runsI, R.
Qed.
Lemma exact_xdiv a b : xdiv (xval a) (xval b) <> NaN ->
  xdiv (xval a) (xval b) = xval (ef_div F a b) /\ ef_eq F b (ef_int F 0) = false.
Proof.
  unfold xval. simpl. destruct (Req_EM_T (v b) 0) as [E|E]; [congruence|]. intros _.
  rewrite (xf_div _ _ HF) by auto. split; auto.
  destruct (ef_eq F b (ef_int F 0)) eqn:Q; auto. apply (xf_eq _ _ HF) in Q. rewrite (xf_int _ _ HF) in Q. tauto.
Qed.

Lemma exact_arspec : arspec (N := N) xval anymode (p_ar P).
Proof.
  split; simpl.
  - intros s. exists s. split; [exact Logic.I|reflexivity].
  - apply (exact_op2 _ _ _ (ef_add F)); [apply exact_RD|]. intros a b _. unfold xval; simpl; rewrite (xf_add _ _ HF). split; [auto|intros s; reflexivity].
  - apply (exact_op2 _ _ _ (ef_add F)); [apply exact_RU|]. intros a b _. unfold xval; simpl; rewrite (xf_add _ _ HF). split; [auto|intros s; reflexivity].
  - apply (exact_op2 _ _ _ (ef_sub F)); [apply exact_RD|]. intros a b _. unfold xval; simpl; rewrite (xf_sub _ _ HF). split; [auto|intros s; reflexivity].
  - apply (exact_op2 _ _ _ (ef_sub F)); [apply exact_RU|]. intros a b _. unfold xval; simpl; rewrite (xf_sub _ _ HF). split; [auto|intros s; reflexivity].
  - apply (exact_op2 _ _ _ (ef_mul F)); [apply exact_RD|]. intros a b _. unfold xval; simpl; rewrite (xf_mul _ _ HF). split; [auto|intros s; reflexivity].
  - apply (exact_op2 _ _ _ (ef_mul F)); [apply exact_RU|]. intros a b _. unfold xval; simpl; rewrite (xf_mul _ _ HF). split; [auto|intros s; reflexivity].
  - apply (exact_op2 _ _ _ (ef_div F)); [apply exact_RD|]. intros a b Hn. destruct (exact_xdiv a b Hn) as [E Z]. split; auto.
    intros s. unfold ex_div, e_div, bind, under_mode. simpl. rewrite Z. reflexivity.
  - apply (exact_op2 _ _ _ (ef_div F)); [apply exact_RU|]. intros a b Hn. destruct (exact_xdiv a b Hn) as [E Z]. split; auto.
    intros s. unfold ex_div, e_div, bind, under_mode. simpl. rewrite Z. reflexivity.
Qed.

Lemma exact_ckspec : ckspec (N := N) xval (p_ck P).
Proof.
  assert (B1 : forall a : T N, pureM (ck_is_nan (checking_base N debug) a) false) by (intros a s; reflexivity).
  assert (BE : forall l u : T N, xle (xval l) (xval u) -> ck_is_empty (checking_base N debug) l u = false).
  { intros l u K. simpl. rewrite (proj2 (xf_le _ _ HF l u)); auto. }
  assert (L : ~ xle (xval one) (xval zero)).
  { unfold xval, one, zero. simpl. rewrite !(xf_int _ _ HF). lra. }
  assert (EM : ck_is_empty (checking_base N debug) (one : T N) (zero : T N) = true).
  { unfold xval in L. simpl in L. simpl. unfold one, zero. simpl. destruct (ef_le F (ef_int F 1) (ef_int F 0)) eqn:E; auto. apply (xf_le _ _ HF) in E. tauto. }
  assert (CN : forall (C : checking N) e, (forall a : T N, pureM (ck_is_nan C a) false) ->
     forall a : T N, pureM (ck_is_nan (checking_catch_nan N e C) a) false).
  { intros C e HC a. eapply pureM_bind; [apply HC|]. apply pureM_ret. }
  destruct c; (split; [discriminate|discriminate| | | ]);
    try (intros a _; simpl; apply pureM_ret);
    try (intros a _; apply CN; intros; apply pureM_ret);
    try exact BE; try (intros; reflexivity).
  1-3: (eexists; eapply EA_ret; [intros s; reflexivity|intros s; reflexivity|exact L|exact EM]).
  all: eexists; eapply EA_throw; intros s; reflexivity.
Qed.

Lemma exact_polspec : polspec (N := N) xval P anymode.
Proof.
  split; [apply exact_numspec|apply exact_arspec|apply exact_ckspec|discriminate].
Qed.

Lemma mem_xset (x : itv N) r : mem xval x r <-> xset v x r.
Proof. unfold mem, xset, xval. simpl. tauto. Qed.
Lemma xset_valid (x : itv N) : v (low x) <= v (up x) -> valid xval x.
Proof. intros L. unfold valid, xval. simpl. repeat split; auto; discriminate. Qed.
Lemma xset_convex (x : itv N) : convex (xset v x).
Proof. intros a b r Ha Hb Hr. unfold xset in *. lra. Qed.

Lemma run_gives (m : M (itv N)) (S : R -> Prop) : keeps m ->
  (exists z, runsP P anymode m z /\ denotes xval z S) -> gives_exactly v m S.
Proof.
  intros K (z & Rz & D) mode. exists z. specialize (K mode).
  destruct (Rz mode Logic.I) as (s' & _ & E). rewrite E in *. simpl in K. subst s'. split; [reflexivity|].
  intros r. rewrite <- mem_xset. apply D.
Qed.

(** The tightest enclosure of a set with representable extreme elements is the set. *)
Lemma tight_denotes (z : itv N) (S : R -> Prop) a b : tightest xval z S -> convex S ->
  S (v a) -> S (v b) -> (forall r, S r -> v a <= r <= v b) -> denotes xval z S.
Proof.
  intros [E Tz] CS Sa Sb Hb. destruct (Tz (mk (N := N) a b)) as [L U].
  { intros r Hr. split; simpl; apply Hb; auto. }
  simpl in L, U. intros r. split.
  - intros [A B]. simpl in A, B. apply (CS (v a) (v b)); auto. lra.
  - apply E.
Qed.
Lemma same_set (S S' : R -> Prop) m : (forall r, S r <-> S' r) -> gives_exactly v m S -> gives_exactly v m S'.
Proof.
  intros E G mode. destruct (G mode) as (z & R1 & R2). exists z. split; auto. intros r. rewrite R2. apply E.
Qed.
Lemma tight_gives (m : M (itv N)) (S : R -> Prop) a b : keeps m -> convex S ->
  S (v a) -> S (v b) -> (forall r, S r -> v a <= r <= v b) ->
  (exists z, runsP P anymode m z /\ tightest xval z S) -> gives_exactly v m S.
Proof.
  intros K CS Sa Sb Hb (z & Rz & Tz). apply run_gives; auto. exists z. split; auto.
  apply (tight_denotes z S a b); auto.
Qed.
Lemma tight_set (z : itv N) (S S' : R -> Prop) : (forall r, S r <-> S' r) -> tightest xval z S -> tightest xval z S'.
Proof. intros. eapply tightest_ext; eauto. Qed.

Context (x y : itv N) (Hx : v (low x) <= v (up x)) (Hy : v (low y) <= v (up y)).
Notation X := (xset v x).
Notation Y := (xset v y).
Let Vx : valid xval x := xset_valid x Hx.
Let Vy : valid xval y := xset_valid y Hy.

Lemma image2_mem f r : image2 f (mem xval x) (mem xval y) r <-> image2 f X Y r.
Proof. split; intros (a & b & A & B & ->); exists a, b; rewrite ?mem_xset in *; auto. Qed.
Lemma image1_mem f r : image1 f (mem xval x) r <-> image1 f X r.
Proof. split; intros (a & A & ->); exists a; rewrite ?mem_xset in *; auto. Qed.

Lemma lo_in : X (v (low x)). Proof. unfold xset. lra. Qed.
Lemma hi_in : X (v (up x)). Proof. unfold xset. lra. Qed.

Lemma exact_add : gives_exactly v (op_add P x y) (image2 Rplus X Y).
Proof.
  apply (tight_gives _ _ (ef_add F (low x) (low y)) (ef_add F (up x) (up y))).
  - apply k_add.
  - apply add_conn; apply xset_convex.
  - rewrite (xf_add _ _ HF). exists (v (low x)), (v (low y)). unfold xset. repeat split; lra.
  - rewrite (xf_add _ _ HF). exists (v (up x)), (v (up y)). unfold xset. repeat split; lra.
  - intros r (a & b & A & B & ->). unfold xset in *. rewrite !(xf_add _ _ HF). lra.
  - destruct (op_add_ok exact_polspec x y Vx Vy) as (z & Rz & Tz). exists z. split; [exact Rz|].
    eapply tight_set; [|exact Tz]. apply image2_mem.
Qed.

Lemma exact_sub : gives_exactly v (op_sub P x y) (image2 Rminus X Y).
Proof.
  apply (tight_gives _ _ (ef_sub F (low x) (up y)) (ef_sub F (up x) (low y))).
  - apply k_sub.
  - apply sub_conn; apply xset_convex.
  - rewrite (xf_sub _ _ HF). exists (v (low x)), (v (up y)). unfold xset. repeat split; lra.
  - rewrite (xf_sub _ _ HF). exists (v (up x)), (v (low y)). unfold xset. repeat split; lra.
  - intros r (a & b & A & B & ->). unfold xset in *. rewrite !(xf_sub _ _ HF). lra.
  - destruct (op_sub_ok exact_polspec x y Vx Vy) as (z & Rz & Tz). exists z. split; [exact Rz|].
    eapply tight_set; [|exact Tz]. apply image2_mem.
Qed.
Lemma exact_neg : gives_exactly v (op_neg P x) (image1 Ropp X).
Proof.
  destruct (op_neg_ok exact_polspec x Vx) as (z & Rz & D & _). apply run_gives; [apply k_neg|].
  exists z. split; [exact Rz|]. eapply denotes_ext; [|exact D]. apply image1_mem.
Qed.
Lemma corner_rep (w : itv N) p : corner (v (low w)) (v (up w)) p -> exists a, v a = p.
Proof. intros [->| ->]; eauto. Qed.
Lemma corner_in (w : itv N) p : v (low w) <= v (up w) -> corner (v (low w)) (v (up w)) p -> xset v w p.
Proof. intros L [->| ->]; unfold xset; lra. Qed.

(** Products of two sets with representable ends. *)
Lemma mul_ends (w1 w2 : itv N) : v (low w1) <= v (up w1) -> v (low w2) <= v (up w2) ->
  exists a b, image2 Rmult (xset v w1) (xset v w2) (v a) /\ image2 Rmult (xset v w1) (xset v w2) (v b) /\
    forall r, image2 Rmult (xset v w1) (xset v w2) r -> v a <= r <= v b.
Proof.
  intros L1 L2.
  destruct (corner_min Rmult (v (low w1)) (v (up w1)) (v (low w2)) (v (up w2))) as (p1 & q1 & C1 & D1 & M1).
  destruct (corner_min (fun a b => - (a * b)) (v (low w1)) (v (up w1)) (v (low w2)) (v (up w2))) as (p2 & q2 & C2 & D2 & M2).
  destruct (corner_rep _ _ C1) as (cp1 & E1). destruct (corner_rep _ _ D1) as (cq1 & G1).
  destruct (corner_rep _ _ C2) as (cp2 & E2). destruct (corner_rep _ _ D2) as (cq2 & G2).
  exists (ef_mul F cp1 cq1), (ef_mul F cp2 cq2). rewrite !(xf_mul _ _ HF), E1, G1, E2, G2.
  split; [exists p1, q1; repeat split; auto; apply corner_in; auto|].
  split; [exists p2, q2; repeat split; auto; apply corner_in; auto|].
  intros r (a & b & A & B & ->).
  destruct (mul_lo _ _ _ _ a b A B) as [(p & q & Cp & Cq & K) (p' & q' & Cp' & Cq' & K')].
  specialize (M1 p q Cp Cq). specialize (M2 p' q' Cp' Cq'). lra.
Qed.
Lemma exact_mul : gives_exactly v (op_mul P x y) (image2 Rmult X Y).
Proof.
  destruct (mul_ends x y Hx Hy) as (a & b & A & B & K).
  apply (tight_gives _ _ a b); auto.
  - apply k_mul.
  - apply mul_conn; apply xset_convex.
  - destruct (op_mul_ok exact_polspec x y Vx Vy) as (z & Rz & Tz). exists z. split; [exact Rz|].
    eapply tight_set; [|exact Tz]. apply image2_mem.
Qed.

(** The inverses of a zero-free interval. *)
Lemma inv_itv (w : itv N) : v (low w) <= v (up w) -> ~ xset v w 0 ->
  exists iw : itv N, v (low iw) <= v (up iw) /\ forall r, xset v iw r <-> exists s, xset v w s /\ r = / s.
Proof.
  intros Hw NZ. assert (Z : 0 < v (low w) \/ v (up w) < 0).
  { unfold xset in NZ. destruct (Rlt_or_le 0 (v (low w))); auto. right.
    destruct (Rlt_or_le (v (up w)) 0); auto. exfalso. apply NZ. lra. }
  exists (mk (N := N) (ef_div F (ef_int F 1) (up w)) (ef_div F (ef_int F 1) (low w))).
  match goal with |- v (low ?i) <= _ /\ _ => set (iy := i) end.
  assert (E1 : v (low iy) = / v (up w)).
  { unfold iy. simpl. rewrite (xf_div _ _ HF), (xf_int _ _ HF) by lra. unfold Rdiv. lra. }
  assert (E2 : v (up iy) = / v (low w)).
  { unfold iy. simpl. rewrite (xf_div _ _ HF), (xf_int _ _ HF) by lra. unfold Rdiv. lra. }
  assert (INV : forall a b, 0 < a * b -> a <= b -> / b <= / a).
  { intros a b Hab L. destruct (Rlt_or_le 0 a); [apply Rinv_le_contravar; auto|].
    assert (b < 0) by nra. assert (a < 0) by nra.
    apply Ropp_le_cancel. rewrite <- !Rinv_opp. apply Rinv_le_contravar; lra. }
  split.
  { rewrite E1, E2. apply INV; [destruct Z; nra|lra]. }
  intros r. unfold xset. rewrite E1, E2. split.
  - intros Hr. exists (/ r).
    assert (R0 : r <> 0).
    { destruct Z as [Z|Z].
      - pose proof (Rinv_0_lt_compat (v (up w))). lra.
      - pose proof (Rinv_lt_0_compat (v (low w))). lra. }
    split; [|rewrite Rinv_inv; auto].
    assert (S : 0 < r * / v (up w) /\ 0 < r * / v (low w)).
    { destruct Z as [Z|Z].
      - pose proof (Rinv_0_lt_compat (v (up w))). pose proof (Rinv_0_lt_compat (v (low w))). split; nra.
      - pose proof (Rinv_lt_0_compat (v (up w))). pose proof (Rinv_lt_0_compat (v (low w))). split; nra. }
    split.
    + rewrite <- (Rinv_inv (v (low w))). apply INV; [|lra]. lra.
    + rewrite <- (Rinv_inv (v (up w))). apply INV; [|lra]. rewrite Rmult_comm; lra.
  - intros (s & Hs & ->). unfold xset in Hs. split; apply INV; try lra; destruct Z; nra.
Qed.

Lemma exact_div : ~ Y 0 -> gives_exactly v (op_div P x y) (image2 Rdiv X Y).
Proof.
  intros NZ. destruct (inv_itv y Hy NZ) as (iy & Li & IY).
  assert (SE : forall r, image2 Rmult X (xset v iy) r <-> image2 Rdiv X Y r).
  { intros r. split.
    - intros (a & b & A & B & ->). apply IY in B. destruct B as (s & Hs & ->). exists a, s. auto.
    - intros (a & s & A & Hs & ->). exists a, (/ s). repeat split; auto; try apply A; apply IY; exists s; auto. }
  destruct (mul_ends x iy Hx Li) as (a & b & A & B & K).
  apply (tight_gives _ _ a b); try (apply SE; auto).
  - apply k_div.
  - intros r1 r2 r H1 H2 Hr. apply SE. apply SE in H1, H2. revert r1 r2 r H1 H2 Hr. apply mul_conn; apply xset_convex.
  - intros r Hr. apply K, SE, Hr.
  - destruct (op_div_ok exact_polspec x y Vx Vy) as (z & Rz & _ & Tz).
    { unfold xval. intros [Q1 Q2]. injection Q1; injection Q2; intros E1 E2. apply NZ. unfold xset. lra. }
    { intros Q. apply mem_xset in Q. tauto. }
    exists z. split; [exact Rz|]. eapply tight_set; [|apply Tz].
    + intros r. split.
      * intros (p & q & Q1 & Q2 & _ & ->). apply mem_xset in Q1, Q2. exists p, q. auto.
      * intros (p & q & Q1 & Q2 & ->). exists p, q. rewrite !mem_xset. repeat split; auto; try apply Q1; try apply Q2.
        intros ->. tauto.
    + unfold xval. intros (_ & _ & [Q|Q]); injection Q; intros E; apply NZ; unfold xset; lra.
Qed.

(** ** Functions of one interval *)
Lemma ends_gives (m : M (itv N)) (S : R -> Prop) : keeps m -> convex S ->
  (exists z, runsP P anymode m z /\ encloses xval z S /\ S (v (low z)) /\ S (v (up z))) -> gives_exactly v m S.
Proof.
  intros K CS (z & Rz & E & L & U). apply run_gives; auto. exists z. split; auto.
  intros r. split; [|apply E]. intros [A B]. simpl in A, B. apply (CS (v (low z)) (v (up z))); auto.
Qed.

Lemma exact_abs : gives_exactly v (u_abs P x) (image1 Rabs X).
Proof.
  destruct (abs_ok exact_polspec x Vx) as (z & Rz & D). apply run_gives; [apply k_abs|]. exists z. split; [exact Rz|].
  eapply denotes_ext; [|exact D]. apply image1_mem.
Qed.
Lemma exact_min : gives_exactly v (u_min P x y) (image2 Rmin X Y).
Proof.
  destruct (u_min_ok exact_polspec x y Vx Vy) as (z & Rz & D). apply run_gives; [apply k_min|]. exists z. split; [exact Rz|].
  eapply denotes_ext; [|exact D]. apply image2_mem.
Qed.
Lemma exact_max : gives_exactly v (u_max P x y) (image2 Rmax X Y).
Proof.
  destruct (u_max_ok exact_polspec x y Vx Vy) as (z & Rz & D). apply run_gives; [apply k_max|]. exists z. split; [exact Rz|].
  eapply denotes_ext; [|exact D]. apply image2_mem.
Qed.

Lemma exact_square : gives_exactly v (square P x) (image1 (fun r => r * r) X).
Proof.
  assert (C : convex (image1 (fun r => r * r) X)) by (apply fun_conn; [reg|apply xset_convex]).
  assert (LI : image1 (fun r => r * r) X (v (low x) * v (low x))) by (exists (v (low x)); split; auto; apply lo_in).
  assert (UI : image1 (fun r => r * r) X (v (up x) * v (up x))) by (exists (v (up x)); split; auto; apply hi_in).
  assert (G : exists a b, image1 (fun r => r * r) X (v a) /\ image1 (fun r => r * r) X (v b) /\
    forall r, image1 (fun r => r * r) X r -> v a <= r <= v b).
  { assert (U : exists b, image1 (fun r => r * r) X (v b) /\ forall r, image1 (fun r => r * r) X r -> r <= v b).
    { destruct (Rle_or_lt (v (low x) * v (low x)) (v (up x) * v (up x))).
      - exists (ef_mul F (up x) (up x)). rewrite (xf_mul _ _ HF). split; auto.
        intros r (a & A & ->). unfold xset in A. destruct (Rle_or_lt 0 a); nra.
      - exists (ef_mul F (low x) (low x)). rewrite (xf_mul _ _ HF). split; auto.
        intros r (a & A & ->). unfold xset in A. destruct (Rle_or_lt 0 a); nra. }
    destruct U as (b & B1 & B2).
    destruct (Rle_or_lt 0 (v (low x))).
    - exists (ef_mul F (low x) (low x)), b. rewrite (xf_mul _ _ HF). repeat split; auto.
      destruct H0 as (a & A & ->). unfold xset in A. nra.
    - destruct (Rle_or_lt (v (up x)) 0).
      + exists (ef_mul F (up x) (up x)), b. rewrite (xf_mul _ _ HF). repeat split; auto.
        destruct H1 as (a & A & ->). unfold xset in A. nra.
      + exists (ef_int F 0), b. rewrite (xf_int _ _ HF). repeat split; auto.
        * exists 0. unfold xset. split; lra.
        * destruct H1 as (a & A & ->). nra. }
  destruct G as (a & b & A & B & K). apply (tight_gives _ _ a b); auto.
  - apply k_square.
  - destruct (square_ok exact_polspec x Vx) as (z & Rz & Tz). exists z. split; [exact Rz|].
    eapply tight_set; [|exact Tz]. apply image1_mem.
Qed.

(** pow_dn and pow_up are the same function, and exact. *)
Lemma exact_pow_up a n : (0 < n)%Z -> exists z, runsI anymode (pow_up P a n) z /\ v z = v a ^ Z.to_nat n.
Proof.
  intros Hn. apply (pow_aux_up (P := P) (fun t r => v t = r) a (v a) n); auto.
  - intros p q A B <- <-. exists (ef_mul F p q). split; [|apply (xf_mul _ _ HF)].
    apply pure_runsI. intros s. reflexivity.
  - unfold one. simpl. apply (xf_int _ _ HF).
Qed.
Lemma exact_pow_dn a n : (0 < n)%Z -> exists z, runsI anymode (pow_dn P a n) z /\ v z = v a ^ Z.to_nat n.
Proof. apply exact_pow_up. Qed.
Lemma runs_neg (a : T N) : runsI anymode (neg a) (ef_opp F a).
Proof. apply pure_runsI. intros s. reflexivity. Qed.

Notation pows n := (image1 (fun r => r ^ Z.to_nat n) X).
Lemma pow_pos_ends n : (0 < n)%Z -> exists z, runsP P anymode (pow_pos P x n) z /\
  pows n (v (low z)) /\ pows n (v (up z)).
Proof.
  intros Hn. pose proof exact_polspec as HP.
  assert (LI : pows n (v (low x) ^ Z.to_nat n)) by (exists (v (low x)); split; auto; apply lo_in).
  assert (UI : pows n (v (up x) ^ Z.to_nat n)) by (exists (v (up x)); split; auto; apply hi_in).
  unfold pow_pos, runsP. cbn [p_prot exact_pol]. unfold with_rnd. cbn [p_prot exact_pol].
  assert (NG : forall a n, Z.odd n = true -> (0 < n)%Z -> - ((- a) ^ Z.to_nat n) = a ^ Z.to_nat n).
  { intros a m O Hm. rewrite pow_odd_opp by auto. lra. }
  destruct (is_neg_case HP (up x)) as [[-> X2]|[-> X2]]; [discriminate| |].
  - destruct (exact_pow_dn (ef_opp F (up x)) n Hn) as (yl & Ryl & El).
    destruct (exact_pow_up (ef_opp F (low x)) n Hn) as (yu & Ryu & Eu).
    rewrite (xf_opp _ _ HF) in El, Eu.
    destruct (Z.odd n) eqn:O.
    + exists (mk (N := N) (ef_opp F yu) (ef_opp F yl)). split.
      * repeat (eapply runsI_bind; [first [apply runs_neg|eassumption]|]). apply runsI_mk_args; apply runs_neg.
      * cbn [low up]. rewrite !(xf_opp _ _ HF), El, Eu, !NG by auto. auto.
    + exists (mk yl yu). split.
      * repeat (eapply runsI_bind; [first [apply runs_neg|eassumption]|]). apply runsI_ret.
      * cbn [low up]. rewrite El, Eu, !pow_even_opp by auto. auto.
  - destruct (is_neg_case HP (low x)) as [[-> X1]|[-> X1]]; [discriminate| |].
    + destruct (exact_pow_up (ef_opp F (low x)) n Hn) as (t1 & Rt1 & E1).
      destruct (exact_pow_up (up x) n Hn) as (t2 & Rt2 & E2). rewrite (xf_opp _ _ HF) in E1.
      destruct (Z.odd n) eqn:O.
      * exists (mk (N := N) (ef_opp F t1) t2). split.
        -- apply runsI_mk_args; auto. repeat (eapply runsI_bind; [first [apply runs_neg|eassumption]|]). apply runs_neg.
        -- cbn [low up]. rewrite (xf_opp _ _ HF), E1, E2, NG by auto. auto.
      * destruct (exact_pow_up (std_max (ef_opp F (low x) : T N) (up x)) n Hn) as (t & Rt & Et).
        exists (mk zero t). split.
        -- repeat (eapply runsI_bind; [first [apply runs_neg|eassumption]|]). apply runsI_ret.
        -- cbn [low up]. split.
           ++ unfold zero. simpl. rewrite (xf_int _ _ HF). exists 0. split.
              ** unfold xset. unfold xval in X1, X2. simpl in X1, X2. lra.
              ** rewrite pow_i; [auto|lia].
           ++ rewrite Et. unfold std_max. destruct (n_lt N _ _); [auto|].
              rewrite (xf_opp _ _ HF), pow_even_opp by auto. auto.
    + destruct (exact_pow_dn (low x) n Hn) as (yl & Ryl & El).
      destruct (exact_pow_up (up x) n Hn) as (yu & Ryu & Eu).
      exists (mk yl yu). split; [apply runsI_mk_args; auto|]. cbn [low up]. rewrite El, Eu. auto.
Qed.
Lemma runs_det {A} (m : M A) a b : runsP P anymode m a -> runsP P anymode m b -> a = b.
Proof.
  intros H1 H2. destruct (H1 RNE Logic.I) as (? & _ & E1), (H2 RNE Logic.I) as (? & _ & E2). congruence.
Qed.
Lemma pows_conn n : convex (pows n).
Proof. apply fun_conn; [apply derivable_continuous, derivable_pow|apply xset_convex]. Qed.

Lemma exact_pow_pos n : (0 < n)%Z -> gives_exactly v (pow P x n) (pows n).
Proof.
  intros Hn. apply ends_gives; [apply k_pow|apply pows_conn|].
  destruct (pow_positive_ok exact_polspec x n Hn Vx) as (z & Rz & Ez & _).
  destruct (pow_pos_ends n Hn) as (z' & Rz' & L & U).
  assert (E : pow P x n = pow_pos P x n).
  { unfold pow. rewrite (test_valid exact_polspec) by auto.
    rewrite (proj2 (Z.eqb_neq n 0)) by lia. rewrite (proj2 (Z.ltb_ge n 0)) by lia. reflexivity. }
  rewrite <- E in Rz'. pose proof (runs_det _ _ _ Rz Rz') as <-. exists z. split; [exact Rz|]. split; [|auto].
  intros r Hr. apply Ez, image1_mem, Hr.
Qed.
Lemma exact_pow_0 : ~ (forall r, X r <-> r = 0) -> gives_exactly v (pow P x 0) (point 1).
Proof.
  intros NZ. destruct (pow_zero_ok exact_polspec x Vx) as (z & Rz & L & U).
  { intros [A B]. injection A; injection B; intros E1 E2. apply NZ. intros r. unfold xset. rewrite E1, E2. lra. }
  apply run_gives; [apply k_pow|]. exists z. split; auto.
  intros r. unfold mem, point. rewrite L, U. simpl. lra.
Qed.

Lemma exact_pow_neg n : (int_min < n < 0)%Z -> ~ X 0 ->
  gives_exactly v (pow P x n) (image1 (fun r => / r ^ Z.to_nat (- n)) X).
Proof.
  intros Hn NZ.
  assert (E : pow P x n = (let! z := pow_pos P x (- n) in multiplicative_inverse P z)).
  { unfold pow. rewrite (test_valid exact_polspec) by auto.
    rewrite (proj2 (Z.eqb_neq n 0)) by lia. rewrite (proj2 (Z.ltb_lt n 0)) by lia.
    rewrite (proj2 (Z.eqb_neq n int_min)) by lia. reflexivity. }
  destruct (pow_pos_ok exact_polspec x (- n)) as (z & Rz & Ez & _); [lia|exact Vx|].
  destruct (pow_pos_ends (- n)) as (z' & Rz' & L & U); [lia|].
  pose proof (runs_det _ _ _ Rz Rz') as <-.
  assert (D : forall r, xset v z r <-> pows (- n) r).
  { intros r. split.
    - intros K. apply (pows_conn (- n) (v (low z)) (v (up z))); auto.
    - intros K. apply mem_xset. apply Ez, image1_mem, K. }
  assert (NE : exists r, xset v z r) by (exists (v (low x) ^ Z.to_nat (- n)); apply D; exists (v (low x)); split; auto; apply lo_in).
  assert (Lz : v (low z) <= v (up z)) by (destruct NE as (r & Hr); unfold xset in Hr; lra).
  assert (NZz : ~ xset v z 0).
  { intros K. apply D in K. destruct K as (r & Hr & Er). symmetry in Er.
    destruct (Req_dec r 0) as [->|Q]; [tauto|]. apply (pow_nonzero r (Z.to_nat (- n))); auto. }
  destruct (inv_itv z Lz NZz) as (iz & Li & IZ).
  assert (SE : forall r, xset v iz r <-> image1 (fun r => / r ^ Z.to_nat (- n)) X r).
  { intros r. rewrite IZ. split.
    - intros (s & Hs & ->). apply D in Hs. destruct Hs as (t & Ht & ->). exists t. auto.
    - intros (t & Ht & ->). exists (t ^ Z.to_nat (- n)). split; auto. apply D. exists t. auto. }
  apply (same_set (xset v iz)); auto.
  apply (tight_gives _ _ (low iz) (up iz)).
  - apply k_pow.
  - apply xset_convex.
  - unfold xset; lra.
  - unfold xset; lra.
  - intros r Hr. exact Hr.
  - destruct (inverse_ok exact_polspec z) as (w & Rw & Tw).
    + apply xset_valid; auto.
    + unfold xval. intros [Q1 Q2]. injection Q1; injection Q2; intros E1 E2. apply NZz. unfold xset. lra.
    + intros Q. apply mem_xset in Q. tauto.
    + exists w. split.
      * rewrite E. eapply runsP_bind; [exact Rz|exact Rw].
      * eapply tight_set; [|exact Tw]. intros r. rewrite IZ. split.
        -- intros (p & q & -> & Q2 & _ & ->). apply mem_xset in Q2. exists q. split; auto. unfold Rdiv. lra.
        -- intros (q & Q2 & ->). exists 1, q. rewrite mem_xset. split; [reflexivity|]. split; auto.
           split; [intros ->; tauto|]. unfold Rdiv. lra.
Qed.

(** ** Division by an interval that contains zero

    checking::pos_inf() and neg_inf() assert has_infinity. *)
Lemma inf_debug : debug = true -> forall s, ck_pos_inf (p_ck P) s = (AssertFail, s) /\ ck_neg_inf (p_ck P) s = (AssertFail, s).
Proof. intros -> s. destruct c; split; reflexivity. Qed.
Lemma exact_div_run a b s : v b <> 0 -> div_down (p_ar P) a b s = (Ok (ef_div F a b), s) /\ div_up (p_ar P) a b s = (Ok (ef_div F a b), s).
Proof.
  intros Hb. assert (Z : ef_eq F b (ef_int F 0) = false).
  { destruct (ef_eq F b (ef_int F 0)) eqn:Q; auto. apply (xf_eq _ _ HF) in Q. rewrite (xf_int _ _ HF) in Q. tauto. }
  simpl. unfold ex_div, e_div, bind, under_mode. simpl. rewrite Z. split; reflexivity.
Qed.
Lemma assert_args o (m1 m2 : M (T N)) s : m1 s = (AssertFail, s) \/ m2 s = (AssertFail, s) ->
  (m1 s = (AssertFail, s) \/ exists a, m1 s = (Ok a, s)) -> (m2 s = (AssertFail, s) \/ exists a, m2 s = (Ok a, s)) ->
  mk_args o m1 m2 s = (AssertFail, s).
Proof.
  intros H1 H2 H3. unfold mk_args, args2, bind.
  destruct o, H2 as [E2|(a & E2)], H3 as [E3|(b & E3)]; rewrite ?E2, ?E3; cbv beta iota; rewrite ?E2, ?E3; try reflexivity;
    destruct H1 as [H1|H1]; rewrite H1 in *; discriminate.
Qed.
Lemma exact_div_zero : debug = true -> Y 0 -> ~ (v (low y) = 0 /\ v (up y) = 0) -> ~ (v (low x) = 0 /\ v (up x) = 0) ->
  forall s, op_div P x y s = (AssertFail, s).
Proof.
  intros Hd Y0 Hy0 Hx0 s. pose proof exact_polspec as HP. destruct (inf_debug Hd s) as [PI NI].
  unfold op_div. rewrite (test_valid2 HP) by auto.
  rewrite (proj2 (zero_in_iff HP y Vy)) by (apply mem_xset; auto).
  assert (ZX : is_zero (low x) && is_zero (up x) = false).
  { destruct (is_zero (low x)) eqn:Z1; auto. destruct (is_zero (up x)) eqn:Z2; auto.
    apply (is_zero_iff HP) in Z1, Z2. injection Z1; injection Z2; intros. exfalso. apply Hx0; auto. }
  assert (DV : forall a b, v b <> 0 -> (div_down (p_ar P) a b s = (AssertFail, s) \/ exists t, div_down (p_ar P) a b s = (Ok t, s))
     /\ (div_up (p_ar P) a b s = (AssertFail, s) \/ exists t, div_up (p_ar P) a b s = (Ok t, s))).
  { intros a b Hb. destruct (exact_div_run a b s Hb) as [-> ->]. split; right; eauto. }
  destruct (is_zero_case HP (low y)) as [[-> A]|[-> A]]; destruct (is_zero_case HP (up y)) as [[-> B]|[-> B]]; simpl negb; cbv iota.
  - injection A; injection B; intros. exfalso. apply Hy0. auto.
  - assert (v (up y) <> 0) by (intros E; apply B; unfold xval; congruence).
    unfold div_positive. rewrite ZX. unfold with_rnd. cbn [p_prot exact_pol].
    destruct (is_neg (up x)); [|destruct (is_neg (low x))]; apply assert_args; auto; apply DV; auto.
  - assert (v (low y) <> 0) by (intros E; apply A; unfold xval; congruence).
    unfold div_negative. rewrite ZX. unfold with_rnd. cbn [p_prot exact_pol].
    destruct (is_neg (up x)); [|destruct (is_neg (low x))]; apply assert_args; auto; apply DV; auto.
  - unfold div_zero. rewrite ZX. apply assert_args; auto.
Qed.
End Policy.
End Exact.

(** ** Rational numbers *)
Lemma Q_exact : exact_field Q_type Q2R.
Proof.
  assert (LE : forall a b, Qle_bool a b = true <-> Q2R a <= Q2R b).
  { intros a b. rewrite Qle_bool_iff. split; [apply Qle_Rle|apply Rle_Qle]. }
  assert (RED : forall a, Q2R (Qred a) = Q2R a) by (intros; apply Qeq_eqR, Qred_correct).
  split; cbn [ef_T ef_lt ef_le ef_eq ef_int ef_add ef_sub ef_mul ef_div ef_opp Q_type]; intros.
  - rewrite negb_true_iff. specialize (LE b a). destruct (Qle_bool b a).
    + split; [discriminate|]. intros K. assert (Q2R b <= Q2R a) by (apply LE; auto). lra.
    + split; auto. intros _. apply Rnot_le_lt. intros K. apply LE in K. discriminate.
  - apply LE.
  - rewrite Qeq_bool_iff. split; [apply Qeq_eqR|apply eqR_Qeq].
  - unfold Q2R, inject_Z. simpl. lra.
  - rewrite RED. apply Q2R_plus.
  - rewrite RED. apply Q2R_minus.
  - rewrite RED. apply Q2R_mult.
  - rewrite RED. apply Q2R_div. intros K. apply Qeq_eqR in K. apply H. rewrite K. unfold Q2R. simpl. lra.
  - apply Q2R_opp.
Qed.

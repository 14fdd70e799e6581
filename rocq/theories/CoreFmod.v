(** * fmod *)

From Coq Require Import Reals ZArith Lra Lia Psatz Bool.
From Verif Require Import Outcome Base Checking Interval Utility Arith Arith2 FloatNum Spec ExtR Sem CoreArith CoreDiv CoreMore.
Local Open Scope R_scope.

Section Core.
Context {N : num} {val : T N -> ext} {P : policy N} {ready : rmode -> Prop}
        (H : polspec val P ready).
Notation V := (valid val).
Notation tight := (tightest val).
Notation NS := (ps_num _ _ _ H).
Notation AS := (ps_ar _ _ _ H).
Notation CS := (ps_ck _ _ _ H).
Notation Pu := (unprotect P).
Notation HU := (polspec_unprotect val P ready H).

(** Back to the protected policy type. *)
Lemma ctor_back_valid z : V z -> pureM (ctor_back P z) z.
Proof.
  intros Hz s. unfold ctor_back. destruct (p_prot P); [|destruct z; reflexivity|destruct z; reflexivity]. unfold ctor_policy. change (p_ck Pu) with (p_ck P).
  rewrite (cs_empty _ _ CS _ _ (proj1 Hz)). destruct z; reflexivity.
Qed.

(** One integer multiple is subtracted. *)
Definition shifted (n : Z) (X Y : R -> Prop) : R -> Prop := image2 (fun r s => r - IZR n * s) X Y.

Lemma fmod_tail x y l a b yb tn n : V x -> V y ->
  val (low x) = Fin l -> val (low y) = Fin a -> val (up y) = Fin b -> 0 < a ->
  yb = (if Rlt_dec l 0 then a else b) ->
  val tn = Fin (IZR n) -> IZR n <= l / yb -> (0 <= l -> 0 <= IZR n) ->
  exists z, runsI ready (let! p := op_mul_ni Pu tn y in let! z := op_sub Pu x p in ctor_back P z) z /\
    V z /\ encloses val z (shifted n (mem val x) (mem val y)) /\
    xle (Fin 0) (val (low z)) /\ xle (val (low z)) (Fin (l - IZR n * yb)) /\
    (n = 0%Z -> val (low z) = val (low x) /\ val (up z) = val (up x)).
Proof.
  intros Hx Hy El Ea Eb Pa Eyb En Ln Pn.
  destruct (op_mul_ni_ok HU tn (IZR n) y En Hy) as (w & Rw & Tw).
  assert (Hab : a <= b) by (destruct Hy as (K & _); rewrite Ea, Eb in K; exact K).
  assert (Vw : V w).
  { eapply tightest_valid; [|exact Tw]. destruct (valid_mem _ _ Hy) as (s & Hs). exists (IZR n * s), s. auto. }
  destruct (op_sub_ok HU x w Hx Vw) as (z & Rz & Tz).
  apply runsP_unprotect in Rw. apply runsP_unprotect in Rz.
  destruct (valid_mem _ _ Hx) as (r0 & Hr0). destruct (valid_mem _ _ Vw) as (s0 & Hs0).
  assert (Vz : V z).
  { eapply tightest_valid; [|exact Tz]. exists (r0 - s0), r0, s0. auto. }
  exists z. split; [|split; [exact Vz|]].
  { eapply runsI_bind; [exact Rw|]. cbv beta. eapply runsI_bind; [exact Rz|]. cbv beta. apply pure_runsI, ctor_back_valid; auto. }
  assert (Pyb : 0 < yb) by (rewrite Eyb; destruct Rlt_dec; lra).
  assert (Nl : IZR n * yb <= l) by (apply Rmult_le_reg_r with (/ yb); [apply Rinv_0_lt_compat; auto|]; rewrite Rmult_assoc, Rinv_r by lra; unfold Rdiv in Ln; lra).
  assert (MA : mem val y a) by (unfold mem; rewrite Ea, Eb; simpl; lra).
  assert (MB : mem val y b) by (unfold mem; rewrite Ea, Eb; simpl; lra).
  assert (MYB : mem val y yb) by (rewrite Eyb; destruct Rlt_dec; auto).
  assert (UB : forall s, mem val y s -> IZR n * s <= IZR n * yb).
  { intros s [S1 S2]. rewrite Ea in S1. rewrite Eb in S2. simpl in S1, S2.
    destruct (Rlt_dec l 0) as [L|L]; subst yb.
    - assert (IZR n < 0). { destruct (Rlt_or_le (IZR n) 0); auto. exfalso. assert (0 <= IZR n * a) by (apply Rmult_le_pos; lra). lra. }
      nra.
    - apply Rmult_le_compat_l; auto. apply Pn. lra. }
  split; [|].
  { intros t (r & s & Hr & Hs & ->). apply (proj1 Tz). exists r, (IZR n * s). split; auto. split; auto.
    apply (proj1 Tw). exists s. auto. }
  assert (LX : mem val x l). { destruct Hx as (K & _). unfold mem. rewrite El in *. split; auto. simpl; lra. }
  assert (UW : xle (val (up w)) (Fin l)).
  { rewrite <- El. apply (proj2 Tw (mk (low w) (low x))). intros t Ht. split; cbn [low up].
    - apply (proj1 Tw); auto.
    - destruct Ht as (s & Hs & ->). rewrite El. simpl. specialize (UB s Hs). lra. }
  split.
  - rewrite <- (val_zero H). apply (proj2 Tz (mk zero (up z))). intros t Ht. split; cbn [low up].
    + rewrite (val_zero H). destruct Ht as (r & s & [Hr _] & [_ Hs] & ->). simpl.
      rewrite El in Hr. simpl in Hr. pose proof (xle_trans _ _ _ Hs UW) as K. simpl in K. lra.
    + apply (proj1 Tz); auto.
  - split.
    { apply (proj1 Tz). exists l, (IZR n * yb). split; auto. split; auto. apply (proj1 Tw). exists yb. auto. }
    intros E0. destruct (proj2 Tw (mk zero zero)) as [W1 W2].
    { intros t (s & _ & ->). rewrite E0. unfold mem. cbn [low up]. rewrite (val_zero H). cbn [xle]. lra. }
    cbn [low up] in W1, W2. rewrite (val_zero H) in W1, W2.
    assert (Tx : tight x (image2 Rminus (mem val x) (mem val w))).
    { apply (tightest_ext val x (mem val x)); [|apply denotes_tightest; [exact Hx|intros r; tauto]].
      intros t. split.
      - intros M. exists t, (IZR n * a). split; auto. split; [apply (proj1 Tw); exists a; auto|]. rewrite E0. ring.
      - intros (r & s & Hr & [S1 S2] & ->). pose proof (xle_trans _ _ _ W1 S1) as A1. pose proof (xle_trans _ _ _ S2 W2) as A2.
        cbn [xle] in A1, A2. replace (r - s) with r by lra. exact Hr. }
    apply (tightest_unique val z x (image2 Rminus (mem val x) (mem val w))); auto.
Qed.

(** What int_down must do on the rounded quotient. *)
Definition int_hyp (l yb : R) (Q : Z -> Prop) : Prop :=
  forall t, RD val (Fin (l / yb)) t -> exists tn n, val tn = Fin (IZR n) /\
    runsI ready (int_down (p_ar P) t) tn /\ IZR n <= l / yb /\ (0 <= l -> 0 <= IZR n) /\ Q n.

Lemma yb_pick y x0 l a b : val x0 = Fin l -> val (low y) = Fin a -> val (up y) = Fin b ->
  val (if is_neg x0 then low y else up y) = Fin (if Rlt_dec l 0 then a else b).
Proof.
  intros El Ea Eb. destruct (is_neg x0) eqn:E.
  - apply (is_neg_iff H) in E. rewrite El in E. simpl in E. destruct Rlt_dec; [auto|lra].
  - destruct Rlt_dec as [L|L]; auto. assert (is_neg x0 = true); [|congruence]. apply (is_neg_iff H). rewrite El. exact L.
Qed.

Lemma fmod_ok x y l a b yb : V x -> V y ->
  val (low x) = Fin l -> val (low y) = Fin a -> val (up y) = Fin b -> 0 < a ->
  yb = (if Rlt_dec l 0 then a else b) -> forall Q, int_hyp l yb Q ->
  exists z n, Q n /\ runsP P ready (fmod P x y) z /\
    V z /\ encloses val z (shifted n (mem val x) (mem val y)) /\
    xle (Fin 0) (val (low z)) /\ xle (val (low z)) (Fin (l - IZR n * yb)) /\
    (n = 0%Z -> val (low z) = val (low x) /\ val (up z) = val (up x)).
Proof.
  intros Hx Hy El Ea Eb Pa Eyb Q Hi.
  assert (Hab : a <= b) by (destruct Hy as (K & _); rewrite Ea, Eb in K; exact K).
  assert (Pyb : 0 < yb) by (rewrite Eyb; destruct Rlt_dec; lra).
  pose proof (yb_pick y (low x) l a b El Ea Eb) as Eb'. rewrite <- Eyb in Eb'.
  destruct (as_div_down _ _ _ AS (low x) (if is_neg (low x) then low y else up y)) as (q & Dq & Rq).
  { rewrite El, Eb'. simpl. destruct Req_EM_T; [lra|discriminate]. }
  rewrite El, Eb' in Dq. simpl in Dq. destruct Req_EM_T as [K|_] in Dq; [lra|].
  destruct (Hi q Dq) as (tn & n & En & Rn & Ln & Pn & Qn).
  destruct (fmod_tail x y l a b yb tn n Hx Hy El Ea Eb Pa Eyb En Ln Pn) as (z & Rz & K).
  exists z, n. split; [exact Qn|]. split; [|exact K]. unfold fmod. rewrite (test_valid2 H x y Hx Hy). apply (with_rnd_runs P ready H).
  eapply runsI_bind; [exact Rq|]. cbv beta. eapply runsI_bind; [exact Rn|]. exact Rz.
Qed.

(** The number overloads run exactly as the interval version on [v,v]. *)
Lemma with_rnd_ext {A} (b b' : M A) : (forall s, b s = b' s) -> forall s, with_rnd P b s = with_rnd P b' s.
Proof.
  intros E s. unfold with_rnd. destruct (p_prot P); auto. unfold bind.
  destruct (rc_get (p_ctl P) s) as [[m|e| | |] s1]; auto. destruct (ar_init (p_ar P) s1) as [[u|e| | |] s2]; auto. rewrite E. reflexivity.
Qed.
Lemma bind_ext {A B} (m : M A) (k k' : A -> M B) : (forall a s, k a s = k' a s) -> forall s, bind m k s = bind m k' s.
Proof. intros E s. unfold bind. destruct (m s) as [[] ?]; auto. Qed.
Lemma bind_ext_l {A B} (m m' : M A) (k : A -> M B) : (forall s, m s = m' s) -> forall s, bind m k s = bind m' k s.
Proof. intros E s. unfold bind. rewrite E. reflexivity. Qed.
Lemma ctor_num_pure (Q : policy N) v : p_ck Q = p_ck P -> val v <> NaN -> pureM (ctor_num Q v) (mk v v).
Proof. intros E Hv s. unfold ctor_num, bind. rewrite E, (cs_nan _ _ CS v Hv). reflexivity. Qed.
Lemma point_empty v : val v <> NaN -> ck_is_empty (p_ck P) v v = false.
Proof. intros Hv. apply (cs_empty _ _ CS), xle_refl; auto. Qed.

Lemma fmod_in_eq x v : val v <> NaN -> forall s, fmod_in P x v s = fmod P x (mk v v) s.
Proof.
  intros Hv s. unfold fmod_in, fmod, test_input_in, test_input_ii, test_input_i. cbn [low up].
  rewrite (point_empty v Hv), orb_false_r.
  destruct (ck_is_empty (p_ck P) (low x) (up x)); [reflexivity|].
  unfold bind at 1. rewrite (cs_nan _ _ CS v Hv). cbv iota beta.
  apply with_rnd_ext. intros s1. replace (if is_neg (low x) then v else v) with v by (destruct (is_neg (low x)); auto).
  apply bind_ext. intros q s2. apply bind_ext. intros n s3.
  unfold bind at 1. rewrite (ctor_num_pure Pu v eq_refl Hv). reflexivity.
Qed.
(** For the other one the two versions of the subtraction have different sites
    of unspecified evaluation order. *)
Lemma fmod_ni_eq v y : p_ord P (H_arith, 146%Z) = p_ord P (H_arith, 156%Z) ->
  val v <> NaN -> forall s, fmod_ni P v y s = fmod P (mk v v) y s.
Proof.
  intros Eo Hv s. unfold fmod_ni, fmod, test_input_ni, test_input_ii, test_input_i. cbn [low up].
  rewrite (point_empty v Hv), orb_false_l.
  unfold bind at 1. unfold bind at 1. rewrite (cs_nan _ _ CS v Hv). cbv iota beta. unfold ret at 1. cbv iota beta.
  destruct (ck_is_empty (p_ck P) (low y) (up y)); [reflexivity|].
  apply with_rnd_ext. intros s1. apply bind_ext. intros q s2. apply bind_ext. intros n s3. apply bind_ext. intros w s4.
  apply bind_ext_l. intros s5. unfold op_sub_ni, op_sub, test_input_ni, test_input_ii, test_input_i. cbn [low up].
  change (p_ck Pu) with (p_ck P). rewrite (point_empty v Hv), orb_false_l.
  unfold bind at 1. unfold bind at 1. rewrite (cs_nan _ _ CS v Hv). cbv iota beta. unfold ret at 1. cbv iota beta.
  destruct (ck_is_empty (p_ck P) (low w) (up w)); [reflexivity|].
  change (p_ord Pu) with (p_ord P). rewrite Eo. reflexivity.
Qed.
End Core.

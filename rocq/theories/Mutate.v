(** * Member functions that modify the object, related to the operators *)

From Coq Require Import Reals ZArith Lra Lia Bool.
From Flocq Require Import Core BinarySingleNaN.
From Verif Require Import Outcome Base Checking Interval Utility Arith Arith2 FloatNum Spec ExtR Sem
  FloatSpec FloatPol Mirror Agree.

Notation rd := Interval.rd.

Lemma itv_eta {N} (x : itv N) : mk (low x) (up x) = x.
Proof. destruct x; reflexivity. Qed.

Section Mut.
Context (p : platform) (k : rkind) (debug : bool) (c : ckind).
Notation N := (fnum p).
Notation P ord := (fpol p Save k debug c ord).
Implicit Types x y : itv (fnum p).

Lemma set_empty_updated ord ord' x s : m_set_empty (P ord) x s = updated x (i_empty (P ord')) s.
Proof.
  unfold m_set_empty, i_empty, mk_args, updated. cbn [p_ord fpol].
  destruct c, (ord' (H_interval, 297%Z)); reflexivity.
Qed.
Lemma updated_ext x m m' s : (forall s, m s = m' s) -> updated x m s = updated x m' s.
Proof. intros E. unfold updated. rewrite E. reflexivity. Qed.

Lemma store_updated x ord st ord' (lo hi : policy N -> M (T N)) (lo' hi' : policy N -> M (T N)) s
  (b : bool) :
  (exists a, forall ord, detI k (lo (P ord)) (Ok a) /\ detI k (lo' (P ord)) (Ok a)) ->
  (exists a, forall ord, detI k (hi (P ord)) (Ok a) /\ detI k (hi' (P ord)) (Ok a)) ->
  obind (ocomp (fun _ : itv N => with_rnd (P ord) (args2 (p_ord (P ord) st) (lo (P ord)) (hi (P ord)))))
    (fun lu => m_set (NVal (fst lu)) (NVal (snd lu))) x s =
  updated x (with_rnd (P ord') (mk_args b (lo' (P ord')) (hi' (P ord')))) s.
Proof.
  intros (a & Ha) (a' & Ha').
  assert (E1 : detS (with_rnd (P ord) (args2 (p_ord (P ord) st) (lo (P ord)) (hi (P ord)))) (Ok (a, a'))).
  { apply (det_with_rnd p debug c k); [exact I|]. cbn [p_ord fpol]. destruct (ord st); simpl.
    - eapply detI_bind; [apply Ha|]. eapply detI_bind; [apply Ha'|]. apply detS_detI. intros t. reflexivity.
    - eapply detI_bind; [apply Ha'|]. eapply detI_bind; [apply Ha|]. apply detS_detI. intros t. reflexivity. }
  assert (E2 : detS (with_rnd (P ord') (mk_args b (lo' (P ord')) (hi' (P ord')))) (Ok (mk a a'))).
  { apply (det_with_rnd p debug c k); [exact I|]. unfold mk_args.
    eapply detI_bind with (o1 := Ok (a, a')).
    - destruct b; simpl.
      + eapply detI_bind; [apply Ha|]. eapply detI_bind; [apply Ha'|]. apply detS_detI. intros t. reflexivity.
      + eapply detI_bind; [apply Ha'|]. eapply detI_bind; [apply Ha|]. apply detS_detI. intros t. reflexivity.
    - apply detS_detI. intros t. reflexivity. }
  unfold obind, ocomp, updated. rewrite E1, E2. reflexivity.
Qed.
Ltac okat l := let a := fresh in let H := fresh in
  destruct l as (a & H); exists a; intros ?; split; apply H.
Lemma m_add_updated ord ord' x r s :
  m_add (P ord) r x s = updated x (op_add (P ord') x (rdi x r)) s.
Proof.
  unfold m_add, op_add, obind at 1, ocomp at 1, ret.
  change (test_input_ii (P ord') x (rdi x r)) with (test_input_ii (P ord) x (rdi x r)).
  destruct (test_input_ii (P ord) x (rdi x r)); [apply set_empty_updated|].
  apply (store_updated x ord (H_arith, 49%Z) ord' (fun Q => add_down (p_ar Q) (low x) (low (rdi x r)))
    (fun Q => add_up (p_ar Q) (up x) (up (rdi x r))) (fun Q => add_down (p_ar Q) (low x) (low (rdi x r)))
    (fun Q => add_up (p_ar Q) (up x) (up (rdi x r))));
    [okat (ok_add_down p debug c (low x) (low (rdi x r)))|okat (ok_add_up p debug c (up x) (up (rdi x r)))].
Qed.
Lemma m_sub_updated ord ord' x r s :
  m_sub (P ord) r x s = updated x (op_sub (P ord') x (rdi x r)) s.
Proof.
  unfold m_sub, op_sub, obind at 1, ocomp at 1, ret.
  change (test_input_ii (P ord') x (rdi x r)) with (test_input_ii (P ord) x (rdi x r)).
  destruct (test_input_ii (P ord) x (rdi x r)); [apply set_empty_updated|].
  apply (store_updated x ord (H_arith, 73%Z) ord' (fun Q => sub_down (p_ar Q) (low x) (up (rdi x r)))
    (fun Q => sub_up (p_ar Q) (up x) (low (rdi x r))) (fun Q => sub_down (p_ar Q) (low x) (up (rdi x r)))
    (fun Q => sub_up (p_ar Q) (up x) (low (rdi x r))));
    [okat (ok_sub_down p debug c (low x) (up (rdi x r)))|okat (ok_sub_up p debug c (up x) (low (rdi x r)))].
Qed.
Lemma updated_bind_test x (t : M bool) (f : bool -> M (itv N)) (g : bool -> MO unit (N := N)) s :
  (forall b s, g b x s = updated x (f b) s) ->
  obind (ocomp (fun _ => t)) g x s = updated x (bind t f) s.
Proof.
  intros E. unfold obind, ocomp, updated, bind. destruct (t s) as [[b|e| | |] s']; try reflexivity.
  rewrite E. reflexivity.
Qed.
Lemma m_sub_n_updated ord ord' x r s :
  m_sub_n (P ord) r x s = updated x (op_sub_in (P ord') x (rd x r)) s.
Proof.
  unfold m_sub_n, op_sub_in.
  change (test_input_in (P ord') x (rd x r)) with (test_input_in (P ord) x (rd x r)).
  apply (updated_bind_test x (test_input_in (P ord) x (rd x r))). intros [|] s1; [apply set_empty_updated|].
  apply (store_updated x ord (H_arith, 85%Z) ord' (fun Q => sub_down (p_ar Q) (low x) (rd x r))
    (fun Q => sub_up (p_ar Q) (up x) (rd x r)) (fun Q => sub_down (p_ar Q) (low x) (rd x r))
    (fun Q => sub_up (p_ar Q) (up x) (rd x r)));
    [okat (ok_sub_down p debug c (low x) (rd x r))|okat (ok_sub_up p debug c (up x) (rd x r))].
Qed.

(** Addition commutes, signed zeros included. *)
Lemma fadd_comm f m (a b : flt f) : fadd m a b = fadd m b a.
Proof.
  destruct (is_finite a) eqn:Fa; [destruct (is_finite b) eqn:Fb|].
  - pose proof (Bplus_correct (FloatNum.prec f) (emax f) (fmt_P0 f) (fmt_PE f) (md m) a b Fa Fb) as K1.
    pose proof (Bplus_correct (FloatNum.prec f) (emax f) (fmt_P0 f) (fmt_PE f) (md m) b a Fb Fa) as K2.
    rewrite (Rplus_comm (B2R b)) in K2. unfold fadd.
    destruct Rlt_bool.
    + destruct K1 as (A & B & C), K2 as (A' & B' & C'). apply B2R_Bsign_inj; auto; try congruence.
      rewrite C, C'. rewrite orb_comm, andb_comm. reflexivity.
    + destruct K1 as (A & B), K2 as (A' & B'). apply B2SF_inj. rewrite A, A', B. reflexivity.
  - destruct a as [s|s| |s m0 e B], b as [s'|s'| |s' m' e' B']; try discriminate; try reflexivity;
    destruct s; try destruct s'; reflexivity.
  - destruct a as [s|s| |s m0 e B], b as [s'|s'| |s' m' e' B']; try discriminate; try reflexivity;
    destruct s; try destruct s'; reflexivity.
Qed.
Lemma detI_det {A} (m : M A) o o' : detI k m o -> detI k m o' -> o = o'.
Proof.
  intros H1 H2. destruct (H1 RUP) as (s & _ & E1); [destruct k; simpl; auto|].
  destruct (H2 RUP) as (s' & _ & E2); [destruct k; simpl; auto|]. congruence.
Qed.
Lemma std_add_down a b : exists v, (forall k pr ord, detI k (add_down (p_ar (fpol p pr k debug c ord)) a b) (Ok v)) /\
  v = fconv (p_X p) (p_T p) RDN (fadd RDN (fconv (p_T p) (p_X p) RNE a) (fconv (p_T p) (p_X p) RNE b)).
Proof.
  destruct (ok_add_down p debug c a b) as (v & H). exists v. split; [exact H|].
  destruct (H Std Save (fun _ => true) RUP I) as (s & _ & E). injection E as E _. symmetry. exact E.
Qed.
Lemma std_add_up a b : exists v, (forall k pr ord, detI k (add_up (p_ar (fpol p pr k debug c ord)) a b) (Ok v)) /\
  v = fconv (p_X p) (p_T p) RUP (fadd RUP (fconv (p_T p) (p_X p) RNE a) (fconv (p_T p) (p_X p) RNE b)).
Proof.
  destruct (ok_add_up p debug c a b) as (v & H). exists v. split; [exact H|].
  destruct (H Std Save (fun _ => true) RUP I) as (s & _ & E). injection E as E _. symmetry. exact E.
Qed.
Lemma add_down_comm (a b : T N) :
  exists v, forall ord, detI k (add_down (p_ar (P ord)) a b) (Ok v) /\ detI k (add_down (p_ar (P ord)) b a) (Ok v).
Proof.
  destruct (std_add_down a b) as (v & H & E), (std_add_down b a) as (w & H' & E').
  exists v. intros ord. split; [apply H|]. replace v with w; [apply H'|].
  subst. rewrite fadd_comm. reflexivity.
Qed.
Lemma add_up_comm (a b : T N) :
  exists v, forall ord, detI k (add_up (p_ar (P ord)) a b) (Ok v) /\ detI k (add_up (p_ar (P ord)) b a) (Ok v).
Proof.
  destruct (std_add_up a b) as (v & H & E), (std_add_up b a) as (w & H' & E').
  exists v. intros ord. split; [apply H|]. replace v with w; [apply H'|].
  subst. rewrite fadd_comm. reflexivity.
Qed.

(** The tests of the two argument orders agree when the number is not NaN or the
    interval is not empty. *)
Lemma test_orders ord x (v : T N) : (fempty x -> fval v <> NaN) ->
  forall s, test_input_in (P ord) x v s = test_input_ni (P ord) v x s.
Proof.
  intros H s. unfold test_input_in, test_input_ni, bind, ret.
  destruct (test_input_i (P ord) x) eqn:E.
  - rewrite (cs_nan _ _ (fckspec p debug c) v); [reflexivity|]. apply H.
    unfold fempty. intros K. unfold test_input_i in E. cbn [p_ck fpol] in E.
    rewrite (cs_empty _ _ (fckspec p debug c) _ _ K) in E. discriminate.
  - destruct (agreeP_is_nan p debug c v) as (o & G & K). rewrite (K k Save ord s).
    destruct o as [[|]|e| | |]; try destruct G; reflexivity.
Qed.
Lemma m_add_n_updated ord ord' x r s : (fempty x -> fval (rd x r) <> NaN) ->
  m_add_n (P ord) r x s = updated x (op_add_in (P ord') x (rd x r)) s.
Proof.
  intros H. unfold m_add_n, op_add_in, op_add_ni.
  transitivity (updated x (bind (test_input_in (P ord) x (rd x r)) (fun b : bool => if b then i_empty (P ord')
     else with_rnd (P ord') (mk_args (p_ord (P ord') (H_arith, 131%Z)) (add_down (p_ar (P ord')) (rd x r) (low x)) (add_up (p_ar (P ord')) (rd x r) (up x))))) s).
  - apply (updated_bind_test x (test_input_in (P ord) x (rd x r))). intros [|] s1; [apply set_empty_updated|].
    apply (store_updated x ord (H_arith, 61%Z) ord' (fun Q => add_down (p_ar Q) (low x) (rd x r))
      (fun Q => add_up (p_ar Q) (up x) (rd x r)) (fun Q => add_down (p_ar Q) (rd x r) (low x))
      (fun Q => add_up (p_ar Q) (rd x r) (up x)));
    [apply add_down_comm|apply add_up_comm].
  - apply updated_ext. intros s1. unfold bind at 1.
    rewrite (test_orders ord x (rd x r) H). reflexivity.
Qed.

Lemma m_via_updated (f : itv N -> M (itv N)) x s : m_via f x s = updated x (f x) s.
Proof.
  unfold m_via, obind, ocomp, updated. destruct (f x s) as [[z|e| | |] s']; try reflexivity.
  destruct z; reflexivity.
Qed.
Lemma det_eq {A} (f : policy N -> M A) ord ord' s : agree p debug c f -> f (P ord) s = f (P ord') s.
Proof. intros (o & G & H). rewrite (H k Save ord s), (H k Save ord' s). reflexivity. Qed.
Lemma m_mul_updated ord ord' x r s : m_mul (P ord) r x s = updated x (op_mul (P ord') x (rdi x r)) s.
Proof.
  unfold m_mul. rewrite m_via_updated. apply updated_ext. intros s1.
  apply (det_eq (fun Q => op_mul Q x (rdi x r))), ag_mul.
Qed.
Lemma m_mul_n_updated ord ord' x r s : m_mul_n (P ord) r x s = updated x (op_mul_in (P ord') x (rd x r)) s.
Proof.
  unfold m_mul_n. rewrite m_via_updated. apply updated_ext. intros s1.
  apply (det_eq (fun Q => op_mul_ni Q (rd x r) x)), ag_mul_ni.
Qed.
Lemma m_div_updated ord ord' x r s : m_div (P ord) r x s = updated x (op_div (P ord') x (rdi x r)) s.
Proof.
  unfold m_div. rewrite m_via_updated. apply updated_ext. intros s1.
  apply (det_eq (fun Q => op_div Q x (rdi x r))), ag_div.
Qed.
Lemma m_div_n_updated ord ord' x r s : m_div_n (P ord) r x s = updated x (op_div_in (P ord') x (rd x r)) s.
Proof.
  unfold m_div_n. rewrite m_via_updated. apply updated_ext. intros s1.
  apply (det_eq (fun Q => op_div_in Q x (rd x r))), ag_div_in.
Qed.

Lemma is_nan_false (v : T N) s : fval v <> NaN -> ck_is_nan (fchecking p debug c) v s = (Ok false, s).
Proof. intros H. apply (cs_nan _ _ (fckspec p debug c) v H). Qed.
Lemma n_le_false (a b : T N) : ~ xle (fval a) (fval b) -> n_le N a b = false.
Proof.
  intros H. change (n_le N a b) with (Bleb (a : flt (p_T p)) b).
  destruct (Bleb (a : flt (p_T p)) b) eqn:E; auto. apply Bleb_fval in E. contradiction.
Qed.
Lemma xle_nn a b : xle a b -> a <> NaN /\ b <> NaN.
Proof. destruct a, b; simpl; intros; try tauto; split; discriminate. Qed.
Lemma m_assign_test ord (x : itv N) l u s (le : bool) : fval (rd x l) <> NaN -> fval (rd x u) <> NaN ->
  n_le N (rd x l) (rd x u) = le ->
  m_assign (P ord) l u x s = (if negb le then m_set_empty (P ord) x s else m_set l u x s).
Proof.
  intros A B E. unfold m_assign, obind at 1, ocomp, bind, ret. cbn [p_ck fpol].
  rewrite (is_nan_false _ _ A). rewrite (is_nan_false _ _ B). rewrite E. destruct le; reflexivity.
Qed.
Lemma m_assign_ok ord (x : itv N) l u s : xle (fval (rd x l)) (fval (rd x u)) -> u <> NLow \/ rd x l = low x ->
  m_assign (P ord) l u x s = (Ok tt, mk (rd x l) (rd x u), s).
Proof.
  intros H K. destruct (xle_nn _ _ H) as [A B].
  rewrite (m_assign_test ord x l u s true A B); [|apply Bleb_fval; exact H].
  unfold m_set, obind, store_low, store_up. simpl. destruct u; simpl; try reflexivity.
  destruct K as [K|K]; [congruence|]. rewrite K. reflexivity.
Qed.
Lemma m_assign_unordered ord (x : itv N) l u s : fval (rd x l) <> NaN -> fval (rd x u) <> NaN ->
  ~ xle (fval (rd x l)) (fval (rd x u)) ->
  m_assign (P ord) l u x s = updated x (i_empty (P ord)) s.
Proof.
  intros A B H. rewrite (m_assign_test ord x l u s false A B); [|apply n_le_false; exact H].
  apply set_empty_updated.
Qed.
End Mut.

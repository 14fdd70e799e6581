(** * Proofs about examples/filter.cpp: the first function *)

From Coq Require Import Reals ZArith Lra Lia Bool List Arith.
From Verif Require Import Outcome Base Checking Interval Utility Arith Arith2 Compare FloatNum Spec ExtR Sem
  CoreArith CoreDiv CoreMore CoreFmod CoreUtil ExFilter Det.
Import ListNotations.
Local Open Scope R_scope.

(** A matrix of n lines of n elements. *)
Definition square {A} (n : nat) (m : list (list A)) : Prop :=
  length m = n /\ Forall (fun l => length l = n) m.
(** Element of line r and column c. *)
Definition elt {A} (d : A) (m : list (list A)) (r c : nat) : A := nth c (nth r m []) d.

(** ** Arrays *)
Section Arrays.
Context {A : Type} (d : A).
Lemma put_length (l : list A) i v : length (put l i v) = length l.
Proof. revert i. induction l as [|a l IH]; intros [|i]; cbn; auto. Qed.
Lemma nth_put (l : list A) i v j : (i < length l)%nat -> nth j (put l i v) d = if j =? i then v else nth j l d.
Proof.
  revert i j. induction l as [|a l IH]; intros [|i] [|j]; cbn; intros L; try lia; auto. apply IH. lia.
Qed.
Lemma at_pure (l : list A) i : (i < length l)%nat -> pureM (at_ l i) (nth i l d).
Proof. intros L s. unfold at_. rewrite (nth_error_nth' l d L). reflexivity. Qed.
Lemma put_pure (l : list A) i v : (i < length l)%nat -> pureM (put_ l i v) (put l i v).
Proof. intros L s. unfold put_. destruct (Nat.ltb_spec i (length l)); [reflexivity|lia]. Qed.
End Arrays.

Section Cells.
Context {A : Type} (d : A).
Lemma square_row n (m : list (list A)) r : square n m -> (r < n)%nat -> length (nth r m []) = n.
Proof. intros (L & F) Hr. rewrite Forall_forall in F. apply F, nth_In. lia. Qed.
Lemma cell_pure n (m : list (list A)) r c : square n m -> (r < n)%nat -> (c < n)%nat -> pureM (cell m r c) (elt d m r c).
Proof.
  intros S Hr Hc. unfold cell, elt. eapply pureM_bind; [apply (at_pure []); rewrite (proj1 S); exact Hr|].
  apply at_pure. rewrite (square_row n m r); auto.
Qed.
Lemma set_cell_pure n (m : list (list A)) r c v : square n m -> (r < n)%nat -> (c < n)%nat ->
  exists m', pureM (set_cell m r c v) m' /\ square n m' /\
    forall r' c', elt d m' r' c' = if (r' =? r) && (c' =? c) then v else elt d m r' c'.
Proof.
  intros S Hr Hc. pose proof (square_row n m r S Hr) as L. pose proof (proj1 S) as L'.
  exists (put m r (put (nth r m []) c v)). split; [|split].
  - unfold set_cell. eapply pureM_bind; [apply (at_pure []); lia|].
    eapply pureM_bind; [apply put_pure; lia|]. apply put_pure. lia.
  - split; [rewrite put_length; exact L'|]. apply Forall_forall. intros l Hl.
    apply (In_nth _ _ []) in Hl. destruct Hl as (j & Hj & <-). rewrite put_length in Hj.
    rewrite nth_put by lia. destruct (Nat.eqb_spec j r); [rewrite put_length; exact L|]. apply square_row; auto. lia.
  - intros r' c'. unfold elt. rewrite nth_put by lia. destruct (Nat.eqb_spec r' r) as [->|]; cbn [andb]; [|reflexivity].
    apply nth_put. lia.
Qed.
End Cells.

(** A loop keeps an invariant. *)
Lemma for_inv {A} (ready : rmode -> Prop) (Q : nat -> A -> Prop) (body : nat -> A -> M A) n : forall lo a,
  Q lo a ->
  (forall j a, (lo <= j < lo + n)%nat -> Q j a -> exists a', runsI ready (body j a) a' /\ Q (S j) a') ->
  exists a', runsI ready (for_ n lo body a) a' /\ Q (lo + n)%nat a'.
Proof.
  induction n as [|n IH]; intros lo a H0 HS.
  - exists a. split; [apply runsI_ret|]. rewrite Nat.add_0_r. exact H0.
  - destruct (HS lo a) as (a1 & R1 & Q1); [lia|exact H0|].
    destruct (IH (S lo) a1 Q1) as (a2 & R2 & Q2).
    { intros j b Hj Hb. apply HS; [lia|exact Hb]. }
    exists a2. split; [|replace (lo + S n)%nat with (S lo + n)%nat by lia; exact Q2].
    cbn [for_]. eapply runsI_bind; eauto.
Qed.

(** ** Exchanging two elements of the permutation *)
Definition tau (i k j : nat) : nat := if j =? i then k else if j =? k then i else j.
Lemma exchange_pure (p : list nat) i k : (i < length p)%nat -> (k < length p)%nat -> i <> k ->
  exists p', pureM (exchange p i k) p' /\ length p' = length p /\
    forall j, (j < length p)%nat -> nth j p' O = nth (tau i k j) p O.
Proof.
  intros Hi Hk N. eexists. split; [|split].
  - unfold exchange. eapply pureM_bind; [apply (at_pure O); exact Hi|].
    eapply pureM_bind; [apply (at_pure O); exact Hk|].
    eapply pureM_bind; [apply put_pure; exact Hi|]. apply put_pure. rewrite put_length. exact Hk.
  - rewrite !put_length. reflexivity.
  - intros j Hj. rewrite nth_put by (rewrite put_length; exact Hk). rewrite nth_put by exact Hi. unfold tau.
    destruct (Nat.eqb_spec j k), (Nat.eqb_spec j i); subst; try reflexivity; congruence.
Qed.
Lemma tau_lt i k j n : (i < n)%nat -> (k < n)%nat -> (j < n)%nat -> (tau i k j < n)%nat.
Proof. unfold tau. destruct (Nat.eqb_spec j i), (Nat.eqb_spec j k); lia. Qed.
Lemma tau_inj i k j j' : tau i k j = tau i k j' -> j = j'.
Proof.
  unfold tau. destruct (Nat.eqb_spec j i), (Nat.eqb_spec j k), (Nat.eqb_spec j' i), (Nat.eqb_spec j' k); lia.
Qed.
(** Distinct elements below n. *)
Definition perm (n : nat) (p : list nat) : Prop :=
  length p = n /\ (forall j, (j < n)%nat -> (nth j p O < n)%nat) /\
  (forall j j', (j < n)%nat -> (j' < n)%nat -> nth j p O = nth j' p O -> j = j').
Lemma perm_seq n : perm n (seq 0 n).
Proof.
  split; [apply seq_length|]. split; intros j; [|intros j']; intros; rewrite !seq_nth in * by lia; lia.
Qed.
Lemma perm_exchange n p i k : perm n p -> (i < n)%nat -> (k < n)%nat -> i <> k ->
  exists p', pureM (exchange p i k) p' /\ perm n p' /\ forall j, (j < n)%nat -> nth j p' O = nth (tau i k j) p O.
Proof.
  intros (L & B & D) Hi Hk N. destruct (exchange_pure p i k) as (p' & R & L' & E); [lia|lia|exact N|].
  rewrite L in *. exists p'. split; [exact R|]. split; [|exact E]. split; [exact L'|].
  split; intros j; [|intros j']; intros.
  - rewrite E by lia. apply B, tau_lt; auto.
  - rewrite !E in * by lia. apply D in H1; try (apply tau_lt; auto). eapply tau_inj; eauto.
Qed.

(** Rows and columns from i on. *)
Definition shift (i : nat) (S : mat) : mat := fun r c => S (i + r)%nat (i + c)%nat.
(** Elimination of column i with the line i. *)
Definition elim (i : nat) (S : mat) : mat := fun r c => S r c - S r i / S i i * S i c.
Lemma det_elim n i S : S i i <> 0 -> det (Datatypes.S n) (shift i S) = S i i * det n (shift (Datatypes.S i) (elim i S)).
Proof.
  intros H. rewrite det_schur by (unfold shift; rewrite Nat.add_0_r; exact H).
  unfold shift at 1. rewrite !Nat.add_0_r. f_equal. apply det_ext. intros r c _ _. unfold schur, shift, elim.
  rewrite !Nat.add_0_r. replace (i + Datatypes.S r)%nat with (Datatypes.S i + r)%nat by lia.
  replace (i + Datatypes.S c)%nat with (Datatypes.S i + c)%nat by lia. reflexivity.
Qed.
Lemma det_tau n i k S : (i <= k < i + n)%nat -> i <> k ->
  det n (shift i (fun r => S (tau i k r))) = - det n (shift i S).
Proof.
  intros Hk N. rewrite <- (det_swap n 0 (k - i) (shift i S)) by lia. apply det_ext. intros r c _ _.
  unfold shift, swap_rows, tau. f_equal.
  destruct (Nat.eqb_spec (i + r) i); [destruct (Nat.eqb_spec r 0); lia|].
  destruct (Nat.eqb_spec r 0); [lia|]. destruct (Nat.eqb_spec (i + r) k), (Nat.eqb_spec r (k - i)); lia.
Qed.

Section Core.
Context {N : num} {val : T N -> ext} {P : policy N} {ready : rmode -> Prop}
        (H : polspec val P ready).
Notation V := (valid val).
Notation Pu := (unprotect P).
Notation HU := (polspec_unprotect val P ready H).
Notation NS := (ps_num _ _ _ H).
Notation I := (itv N).
Implicit Types x y z : I.
Notation runs := (runsI ready).

Definition iz : I := mk zero zero.
Notation ic := (elt iz).

(** ** Assignment operators *)
Lemma set_runs (f : I -> M (T N * T N)) x l u : runs (f x) (l, u) ->
  runs (after (obind (ocomp f) (fun lu => m_set (NVal (fst lu)) (NVal (snd lu)))) x) (mk l u).
Proof.
  intros R s Hs. destruct (R s Hs) as (s' & Hs' & E). exists s'. split; [exact Hs'|].
  unfold after, obind, ocomp. rewrite E. reflexivity.
Qed.
Lemma mk_args_inv o (m1 m2 : M (T N)) z : runs (mk_args o m1 m2) z -> runs (args2 o m1 m2) (low z, up z).
Proof.
  intros R s Hs. destruct (R s Hs) as (s' & Hs' & E). unfold mk_args, bind in E.
  destruct (args2 o m1 m2 s) as [[[l u]|e| | |] s1]; try discriminate. cbn in E. injection E as <- <-. eauto.
Qed.
Lemma with_rnd_Pu {A} (b : M A) a : runs b a -> runs (with_rnd Pu b) a.
Proof. intros R. apply (runsP_unprotect P ready), (with_rnd_runs Pu ready HU). exact R. Qed.

Lemma m_sub_of_case x y z : V x -> V y ->
  runs (mk_args (p_ord P (H_arith, 73%Z)) (sub_down (p_ar P) (low x) (up y)) (sub_up (p_ar P) (up x) (low y))) z ->
  runs (after (m_sub Pu (IVal y)) x) z.
Proof.
  intros Hx Hy R.
  assert (E : after (m_sub Pu (IVal y)) x = after (obind (ocomp (fun o => with_rnd Pu (args2 (p_ord P (H_arith, 73%Z))
      (sub_down (p_ar P) (low o) (up y)) (sub_up (p_ar P) (up o) (low y))))) (fun lu => m_set (NVal (fst lu)) (NVal (snd lu)))) x).
  { unfold m_sub, after, obind at 1, ocomp at 1, ret. cbn [rdi]. rewrite (test_valid2 HU) by auto. reflexivity. }
  rewrite E. destruct z as [l u]. apply set_runs. cbv beta. apply with_rnd_Pu, (mk_args_inv _ _ _ (mk l u)). exact R.
Qed.
Lemma m_sub_runs x y : V x -> V y -> exists z, runs (after (m_sub Pu (IVal y)) x) z /\ V z /\
  forall a b, mem val x a -> mem val y b -> mem val z (a - b).
Proof.
  intros Hx Hy. destruct (sub_case HU (p_ord P (H_arith, 73%Z)) x y Hx Hy) as (z & R & Tz).
  exists z. split; [apply m_sub_of_case; auto|split].
  - eapply tightest_valid; [|exact Tz]. destruct (valid_mem _ _ Hx) as (a & Ha). destruct (valid_mem _ _ Hy) as (b & Hb).
    exists (a - b), a, b. auto.
  - intros a b Ha Hb. apply (proj1 Tz). exists a, b. auto.
Qed.
Lemma m_assign_num_runs v x : val v <> NaN -> pureM (after (m_assign_num Pu (NVal v)) x) (mk v v).
Proof.
  intros Hv s. unfold after, m_assign_num, obind, ocomp. cbn [rd].
  assert (E : ck_is_nan (p_ck Pu) v s = (Ok false, s)) by (apply (cs_nan _ _ (ps_ck _ _ _ HU)); exact Hv).
  rewrite E. reflexivity.
Qed.
Lemma op_mul_runs x y : V x -> V y -> exists z, runs (op_mul Pu x y) z /\ V z /\
  forall a b, mem val x a -> mem val y b -> mem val z (a * b).
Proof.
  intros Hx Hy. destruct (op_mul_ok HU x y Hx Hy) as (z & R & Tz). apply runsP_unprotect in R.
  exists z. split; [exact R|]. split.
  - eapply tightest_valid; [|exact Tz]. destruct (valid_mem _ _ Hx) as (a & Ha). destruct (valid_mem _ _ Hy) as (b & Hb).
    exists (a * b), a, b. auto.
  - intros a b Ha Hb. apply (proj1 Tz). exists a, b. auto.
Qed.
Lemma op_div_runs x y : V x -> V y -> ~ mem val y 0 -> exists z, runs (op_div Pu x y) z /\ V z /\
  forall a b, mem val x a -> mem val y b -> mem val z (a / b).
Proof.
  intros Hx Hy Nz. destruct (op_div_ok HU x y Hx Hy) as (z & R & E & _).
  { intros (A & B). apply Nz. unfold mem. rewrite A, B. simpl. lra. }
  { tauto. }
  apply runsP_unprotect in R. exists z. split; [exact R|].
  assert (K : forall a b, mem val x a -> mem val y b -> mem val z (a / b)).
  { intros a b Ha Hb. apply E. exists a, b. repeat (split; auto). intros ->. auto. }
  split; [|exact K]. destruct (valid_mem _ _ Hx) as (a & Ha). destruct (valid_mem _ _ Hy) as (b & Hb).
  apply (mem_valid val z (a / b)). auto.
Qed.

(** ** The matrix of intervals *)
Definition good (n : nat) (u : list (list I)) : Prop :=
  square n u /\ forall r c, (r < n)%nat -> (c < n)%nat -> V (ic u r c).
Lemma set_good n u r c x : good n u -> (r < n)%nat -> (c < n)%nat -> V x ->
  exists u', pureM (set_cell u r c x) u' /\ good n u' /\
    forall r' c', ic u' r' c' = if (r' =? r) && (c' =? c) then x else ic u r' c'.
Proof.
  intros (S & G) Hr Hc Hx. destruct (set_cell_pure iz n u r c x S Hr Hc) as (u' & R & S' & E).
  exists u'. split; [exact R|]. split; [|exact E]. split; [exact S'|].
  intros r' c' H1 H2. rewrite E. destruct ((r' =? r) && (c' =? c)); auto.
Qed.

(** Loading *)
Lemma load_ok n (a : list (list (T N))) raw (d : T N) (A : mat) : square n a -> square n raw ->
  (forall r c, (r < n)%nat -> (c < n)%nat -> val (elt d a r c) = Fin (A r c)) ->
  exists u, runs (algo1_load P n a raw) u /\ good n u /\
    forall r c, (r < n)%nat -> (c < n)%nat -> ic u r c = mk (elt d a r c) (elt d a r c).
Proof.
  intros Sa Sr HA. unfold algo1_load.
  set (Q := fun (k : nat) (u : list (list I)) => square n u /\ forall r c, (r < k)%nat -> (c < n)%nat -> ic u r c = mk (elt d a r c) (elt d a r c)).
  destruct (for_inv ready Q (fun i u => for_ n 0 (fun j u =>
      let! v := cell a i j in let! old := cell u i j in
      let! x := after (m_assign_num Pu (NVal v)) old in set_cell u i j x) u) n 0 raw) as (u & R & Sq & E).
  - split; [exact Sr|]. intros; lia.
  - intros i u (Hi0 & Hi) (Sq & E).
    set (Q' := fun (k : nat) (v : list (list I)) => square n v /\ forall r c, (r < S i)%nat -> (c < n)%nat ->
       (r < i \/ c < k)%nat -> ic v r c = mk (elt d a r c) (elt d a r c)).
    destruct (for_inv ready Q' (fun j u => let! v := cell a i j in let! old := cell u i j in
      let! x := after (m_assign_num Pu (NVal v)) old in set_cell u i j x) n 0 u) as (u' & R' & S' & E').
    + split; [exact Sq|]. intros r c Hr Hc [K|K]; [apply E; lia|lia].
    + intros j v (_ & Hj) (Sv & Ev).
      destruct (set_cell_pure iz n v i j (mk (elt d a i j) (elt d a i j)) Sv ltac:(lia) ltac:(lia)) as (v' & Rv & Sv' & Ev').
      exists v'. split.
      * eapply runsI_bind; [apply pure_runsI, (cell_pure d n); auto; lia|].
        eapply runsI_bind; [apply pure_runsI, (cell_pure iz n); auto; lia|].
        eapply runsI_bind; [apply pure_runsI, m_assign_num_runs; rewrite HA by lia; discriminate|].
        apply pure_runsI. exact Rv.
      * split; [exact Sv'|]. intros r c Hr Hc K. rewrite Ev'.
        destruct (Nat.eqb_spec r i) as [->|]; [destruct (Nat.eqb_spec c j) as [->|]|]; cbn [andb]; auto; apply Ev; lia.
    + exists u'. split; [exact R'|]. split; [exact S'|]. intros r c Hr Hc. apply E'; lia.
  - exists u. split; [exact R|]. split; [split; [exact Sq|]|exact E].
    intros r c Hr Hc. rewrite E by lia. apply (valid_point _ (A r c)). apply HA; auto.
Qed.

(** Searching a pivot *)
Lemma norm_pos x t : V x -> ~ mem val x 0 -> is_ub (val t) (image1 Rabs (mem val x)) -> xlt (Fin 0) (val t).
Proof.
  intros Hx Nz U. destruct (valid_mem _ _ Hx) as (a & Ha).
  assert (K : xle (Fin (Rabs a)) (val t)) by (apply U; exists a; auto).
  eapply xlt_le_trans; [|exact K]. cbn [xlt]. apply Rabs_pos_lt. intros ->. auto.
Qed.
Lemma pivot_ok n i u p : good n u -> perm n p -> (i < n)%nat ->
  exists j m, runs (algo1_pivot P n i u p) (j, m) /\ (i <= j < n)%nat /\ val m <> NaN /\
    (val m <> Fin 0 -> ~ mem val (ic u (nth j p O) i) 0) /\
    (val m = Fin 0 -> forall k, (i <= k < n)%nat -> mem val (ic u (nth k p O) i) 0).
Proof.
  intros (Sq & G) (Lp & Bp & _) Hi. unfold algo1_pivot.
  set (Q := fun (k : nat) (jm : nat * T N) => (i <= fst jm < n)%nat /\ xle (Fin 0) (val (snd jm)) /\
     (val (snd jm) <> Fin 0 -> ~ mem val (ic u (nth (fst jm) p O) i) 0) /\
     (val (snd jm) = Fin 0 -> forall l, (i <= l < k)%nat -> mem val (ic u (nth l p O) i) 0)).
  destruct (for_inv ready Q (fun j pm =>
    let! r := at_ p j in let! v := cell u r i in
    if zero_in Pu v then ret pm
    else let! m := norm Pu v in if n_gt m (snd pm) then ret (j, m) else ret pm) (n - i) i (i, zero)) as ((j & m) & R & Q1).
  - split; [cbn; lia|]. cbn [snd]. unfold zero. rewrite (ns_0 _ _ NS). cbn [xle].
    split; [lra|]. split; [congruence|]. intros _ l Hl. lia.
  - intros j (j0 & m) Hj (B & Z0 & K1 & K2). cbn [fst snd] in *.
    assert (Hr : (nth j p O < n)%nat) by (apply Bp; lia).
    pose proof (G _ _ Hr Hi) as Vv. set (v := ic u (nth j p O) i) in *.
    assert (R0 : forall b (f : nat -> I -> M (nat * T N)), runs (f (nth j p O) v) b ->
       runs (let! r := at_ p j in let! v := cell u r i in f r v) b).
    { intros b f Rf. eapply runsI_bind; [apply pure_runsI, (at_pure O); lia|].
      eapply runsI_bind; [apply pure_runsI, (cell_pure iz n); auto|]. exact Rf. }
    destruct (zero_in Pu v) eqn:Ez.
    + exists (j0, m). split; [apply R0; rewrite Ez; apply runsI_ret|]. split; [exact B|]. split; [exact Z0|].
      split; [exact K1|]. cbn [fst snd]. intros E l Hl. destruct (Nat.eq_dec l j) as [->|].
      * apply (zero_in_iff HU); auto.
      * apply K2; auto. lia.
    + assert (Nz : ~ mem val v 0) by (rewrite <- (zero_in_iff HU) by auto; congruence).
      destruct (norm_ok HU v Vv) as (t & Rt & U & _). apply runsP_unprotect in Rt.
      pose proof (norm_pos v t Vv Nz U) as Tp.
      destruct (n_gt t m) eqn:Eg.
      * exists (j, t). split.
        { apply R0. rewrite Ez. eapply runsI_bind; [exact Rt|]. cbn [snd]. rewrite Eg. apply runsI_ret. }
        split; [cbn; lia|]. cbn [fst snd]. split; [apply xlt_xle; exact Tp|]. split; [auto|].
        intros E. rewrite E in Tp. cbn in Tp. lra.
      * exists (j0, m). split.
        { apply R0. rewrite Ez. eapply runsI_bind; [exact Rt|]. cbn [snd]. rewrite Eg. apply runsI_ret. }
        split; [exact B|]. split; [exact Z0|]. split; [exact K1|]. cbn [snd].
        intros E. exfalso. assert (n_gt t m = true); [|congruence]. apply (ns_lt _ _ NS). rewrite E. exact Tp.
  - exists j, m. replace (i + (n - i))%nat with n in Q1 by lia. destruct Q1 as (B & Z0 & K1 & K2).
    split; [exact R|]. split; [exact B|]. split; [apply (xle_nnr _ _ Z0)|]. auto.
Qed.

(** Eliminating in one line: [X] holds reals of the matrix before. *)
Lemma line_ok n i r1 r2 u (X : mat) : good n u -> (i < n)%nat -> (r1 < n)%nat -> (r2 < n)%nat -> r1 <> r2 ->
  ~ mem val (ic u r1 i) 0 ->
  (forall c, (i <= c < n)%nat -> mem val (ic u r1 c) (X r1 c) /\ mem val (ic u r2 c) (X r2 c)) ->
  exists u', runs (algo1_line P n i r1 r2 u) u' /\ good n u' /\
    (forall r c, r <> r2 -> ic u' r c = ic u r c) /\
    (forall c, (i < c < n)%nat -> mem val (ic u' r2 c) (X r2 c - X r2 i / X r1 i * X r1 c)).
Proof.
  intros Gu Hi H1 H2 Nr Nz HX. unfold algo1_line.
  pose proof (proj2 Gu _ _ H1 Hi) as V1. pose proof (proj2 Gu _ _ H2 Hi) as V2.
  destruct (op_div_runs _ _ V2 V1 Nz) as (f & Rf & Vf & Ef).
  assert (Mf : mem val f (X r2 i / X r1 i)) by (apply Ef; apply HX; lia).
  set (Q := fun (k : nat) (w : list (list I)) => good n w /\ (forall r c, r <> r2 -> ic w r c = ic u r c) /\
     (forall c, (k <= c)%nat -> ic w r2 c = ic u r2 c) /\
     (forall c, (i < c < k)%nat -> mem val (ic w r2 c) (X r2 c - X r2 i / X r1 i * X r1 c))).
  destruct (for_inv ready Q (fun j u =>
      let! v := cell u r1 j in let! m := op_mul Pu f v in let! old := cell u r2 j in
      let! x := after (m_sub Pu (IVal m)) old in set_cell u r2 j x) (n - S i) (S i) u) as (u' & R & Q1).
  - split; [exact Gu|]. split; [auto|]. split; [auto|]. intros; lia.
  - intros j w Hj (Gw & E1 & E2 & E3).
    assert (Hj' : (j < n)%nat) by lia.
    pose proof (proj2 Gw _ _ H1 Hj') as Va. pose proof (proj2 Gw _ _ H2 Hj') as Vb.
    destruct (op_mul_runs f _ Vf Va) as (m & Rm & Vm & Em).
    destruct (m_sub_runs _ m Vb Vm) as (z & Rz & Vz & Ez).
    destruct (set_good n w r2 j z Gw H2 Hj' Vz) as (w' & Rw & Gw' & Ew).
    exists w'. split.
    + eapply runsI_bind; [apply pure_runsI, (cell_pure iz n); auto; apply Gw|].
      eapply runsI_bind; [exact Rm|].
      eapply runsI_bind; [apply pure_runsI, (cell_pure iz n); auto; apply Gw|].
      eapply runsI_bind; [exact Rz|]. apply pure_runsI. exact Rw.
    + split; [exact Gw'|]. split; [|split].
      * intros r c Hr. rewrite Ew. destruct (Nat.eqb_spec r r2); [congruence|]. cbn [andb]. auto.
      * intros c Hc. rewrite Ew. destruct (Nat.eqb_spec c j); [lia|]. rewrite andb_false_r. apply E2. lia.
      * intros c Hc. rewrite Ew, Nat.eqb_refl. destruct (Nat.eqb_spec c j) as [->|]; cbn [andb]; [|apply E3; lia].
        apply Ez; [rewrite E2 by lia; apply HX; lia|]. apply Em; [exact Mf|]. rewrite E1 by auto. apply HX. lia.
  - replace (S i + (n - S i))%nat with n in Q1 by lia. destruct Q1 as (Gu' & E1 & _ & E3).
    exists u'. split.
    + eapply runsI_bind; [apply pure_runsI, (cell_pure iz n); auto; apply Gu|].
      eapply runsI_bind; [apply pure_runsI, (cell_pure iz n); auto; apply Gu|].
      eapply runsI_bind; [exact Rf|]. exact R.
    + auto.
Qed.
(** Eliminating in all of the lines *)
Lemma lines_ok n i u p (S : mat) : good n u -> perm n p -> (i < n)%nat ->
  ~ mem val (ic u (nth i p O) i) 0 ->
  (forall k c, (i <= k < n)%nat -> (i <= c < n)%nat -> mem val (ic u (nth k p O) c) (S k c)) ->
  exists u', runs (algo1_lines P n i (nth i p O) p u) u' /\ good n u' /\
    (forall k c, (i < k < n)%nat -> (i < c < n)%nat -> mem val (ic u' (nth k p O) c) (elim i S k c)).
Proof.
  intros Gu (Lp & Bp & Dp) Hi Nz HS. unfold algo1_lines.
  set (Q := fun (k : nat) (w : list (list I)) => good n w /\
     (forall c, ic w (nth i p O) c = ic u (nth i p O) c) /\
     (forall l c, (k <= l < n)%nat -> (i <= c < n)%nat -> mem val (ic w (nth l p O) c) (S l c)) /\
     (forall l c, (i < l < k)%nat -> (i < c < n)%nat -> mem val (ic w (nth l p O) c) (elim i S l c))).
  destruct (for_inv ready Q (fun k u => let! r2 := at_ p k in algo1_line P n i (nth i p O) r2 u) (n - Datatypes.S i) (Datatypes.S i) u)
    as (u' & R & Q1).
  - split; [exact Gu|]. split; [auto|]. split; [intros; apply HS; lia|]. intros; lia.
  - intros k w Hk (Gw & E1 & E2 & E3).
    assert (Hd : nth i p O <> nth k p O) by (intros E; apply Dp in E; lia).
    set (X := fun r c => if r =? nth i p O then S i c else S k c).
    destruct (line_ok n i (nth i p O) (nth k p O) w X Gw Hi) as (w' & Rw & Gw' & F1 & F2).
    { apply Bp; lia. }
    { apply Bp; lia. }
    { exact Hd. }
    { rewrite E1. exact Nz. }
    { intros c Hc. unfold X. rewrite Nat.eqb_refl. destruct (Nat.eqb_spec (nth k p O) (nth i p O)); [congruence|].
      split; [rewrite E1; apply HS; lia|apply E2; lia]. }
    exists w'. split; [eapply runsI_bind; [apply pure_runsI, (at_pure O); lia|exact Rw]|].
    split; [exact Gw'|]. split; [|split].
    + intros c. rewrite F1 by auto. apply E1.
    + intros l c Hl Hc. rewrite F1; [apply E2; lia|]. intros E. apply Dp in E; lia.
    + intros l c Hl Hc. destruct (Nat.eq_dec l k) as [->|].
      * specialize (F2 c Hc). unfold X in F2. rewrite Nat.eqb_refl in F2.
        destruct (Nat.eqb_spec (nth k p O) (nth i p O)); [congruence|]. exact F2.
      * rewrite F1; [apply E3; lia|]. intros E. apply Dp in E; lia.
  - replace (Datatypes.S i + (n - Datatypes.S i))%nat with n in Q1 by lia. destruct Q1 as (Gu' & _ & _ & E3). exists u'. auto.
Qed.

(** What is known before the iteration i: up to a positive factor and to the sign
    [sig], the determinant is the one of a matrix enclosed by the elements that
    remain. *)
Definition inv (n : nat) (D : R) (i : nat) (st : list (list I) * list nat * Z) : Prop :=
  let '(u, p, sig) := st in
  good n u /\ perm n p /\ (sig = 1 \/ sig = -1)%Z /\
  exists (S : mat) (g : R), 0 < g /\ D = IZR sig * g * det (n - i) (shift i S) /\
    forall k c, (i <= k < n)%nat -> (i <= c < n)%nat -> mem val (ic u (nth k p O) c) (S k c).

Lemma step_ok n D i st : (i < n)%nat -> inv n D i st ->
  exists o, runs (algo1_step P n i st) o /\
    match o with None => True | Some st' => inv n D (S i) st' end.
Proof.
  destruct st as [[u p] sig]. intros Hi (Gu & Pp & Hs & S & g & Hg & HD & HS).
  destruct (pivot_ok n i u p Gu Pp Hi) as (j & m & Rm & Bj & Nm & K1 & K2).
  unfold algo1_step.
  destruct (n_eq N m zero) eqn:Em.
  { exists None. split; [|exact Logic.I]. eapply runsI_bind; [exact Rm|]. cbn [snd]. rewrite Em. apply runsI_ret. }
  assert (Hm : val m <> Fin 0).
  { intros E. assert (n_eq N m zero = true); [|congruence]. apply (ns_eq _ _ NS). unfold zero. rewrite (ns_0 _ _ NS). auto. }
  specialize (K1 Hm). clear K2.
  (* the exchange *)
  assert (exists p' sig' S', runs (if j =? i then ret (p, sig) else let! p := exchange p i j in ret (p, (- sig)%Z)) (p', sig') /\
    perm n p' /\ (sig' = 1 \/ sig' = -1)%Z /\ ~ mem val (ic u (nth i p' O) i) 0 /\
    D = IZR sig' * g * det (n - i) (shift i S') /\
    forall k c, (i <= k < n)%nat -> (i <= c < n)%nat -> mem val (ic u (nth k p' O) c) (S' k c)) as
    (p' & sig' & S' & Rp & Pp' & Hs' & Nz & HD' & HS').
  { destruct (Nat.eqb_spec j i) as [->|Nj].
    - exists p, sig, S. split; [apply runsI_ret|]. auto 10.
    - destruct (perm_exchange n p i j Pp Hi ltac:(lia) ltac:(lia)) as (p' & Rp & Pp' & Ep).
      exists p', (- sig)%Z, (fun r => S (tau i j r)). split.
      { eapply runsI_bind; [apply pure_runsI; exact Rp|]. apply runsI_ret. }
      split; [exact Pp'|]. split; [lia|]. split; [|split].
      + rewrite Ep by lia. unfold tau. rewrite Nat.eqb_refl. exact K1.
      + rewrite det_tau by lia. rewrite opp_IZR, HD. ring.
      + intros k c Hk Hc. rewrite Ep by lia. apply HS; [|exact Hc]. unfold tau. destruct (Nat.eqb_spec k i), (Nat.eqb_spec k j); lia. }
  assert (Hr1 : (nth i p' O < n)%nat) by (apply Pp'; exact Hi).
  pose proof (proj2 Gu _ _ Hr1 Hi) as Vp.
  set (v := ic u (nth i p' O) i) in *.
  assert (Ma : mem val v (S' i i)) by (apply HS'; lia).
  assert (Na : S' i i <> 0) by (intros E; rewrite E in Ma; auto).
  destruct (lines_ok n i u p' S' Gu Pp' Hi Nz HS') as (u' & Ru & Gu' & HS'').
  exists (Some (u', p', if cerlt_in v zero then (- sig')%Z else sig')). split.
  - eapply runsI_bind; [exact Rm|]. cbn [fst snd]. rewrite Em.
    eapply runsI_bind; [exact Rp|]. cbv beta iota.
    eapply runsI_bind; [apply pure_runsI, (at_pure O); rewrite (proj1 Pp'); exact Hi|].
    eapply runsI_bind; [apply pure_runsI, (cell_pure iz n); auto; apply Gu|]. cbv zeta. fold v.
    eapply runsI_bind; [exact Ru|]. apply runsI_ret.
  - split; [exact Gu'|]. split; [exact Pp'|]. split; [destruct (cerlt_in v zero); lia|].
    exists (elim i S'), (g * Rabs (S' i i)). split; [apply Rmult_lt_0_compat; [exact Hg|apply Rabs_pos_lt; exact Na]|].
    split; [|intros k c Hk Hc; apply HS''; lia].
    replace (n - i)%nat with (Datatypes.S (n - Datatypes.S i)) in HD' by lia.
    rewrite det_elim in HD' by exact Na. rewrite HD'.
    destruct (cerlt_in v zero) eqn:Ec.
    + apply (ns_lt _ _ NS) in Ec. unfold zero in Ec. rewrite (ns_0 _ _ NS) in Ec.
      assert (S' i i < 0) by (apply (xle_lt_trans _ _ _ (proj2 Ma) Ec)).
      rewrite Rabs_left by lra. rewrite opp_IZR. ring.
    + assert (Hu : xle (Fin 0) (val (up v))).
      { apply xnlt_le; [discriminate|apply (xle_nnr _ _ (proj2 Ma))|]. intros K.
        assert (cerlt_in v zero = true); [|congruence]. apply (ns_lt _ _ NS). unfold zero. rewrite (ns_0 _ _ NS). exact K. }
      assert (0 < S' i i).
      { destruct (Rlt_or_le 0 (S' i i)) as [K|K]; [exact K|]. exfalso. apply Nz. split; [|exact Hu].
        eapply xle_trans; [apply (proj1 Ma)|]. cbn [xle]. exact K. }
      rewrite Rabs_pos_eq by lra. ring.
Qed.

(** The answer [s] is right about the sign of [D]. *)
Definition sign_ok (s : Z) (D : R) : Prop := (s = 1%Z /\ 0 < D) \/ (s = (-1)%Z /\ D < 0) \/ s = 0%Z.

Lemma lu_ok n D : forall m i st, (i + m = n)%nat -> inv n D i st ->
  exists s, runs (algo1_lu P n m i st) s /\ sign_ok s D.
Proof.
  induction m as [|m IH]; intros i [[u p] sig] Hi Hinv.
  - exists sig. split; [apply runsI_ret|]. destruct Hinv as (_ & _ & Hs & S & g & Hg & HD & _).
    replace (n - i)%nat with O in HD by lia. cbn [det] in HD. rewrite Rmult_1_r in HD. subst D.
    destruct Hs as [->| ->]; [left|right; left]; split; auto; lra.
  - destruct (step_ok n D i (u, p, sig) ltac:(lia) Hinv) as (o & Ro & Ho). cbn [algo1_lu]. destruct o as [st'|].
    + destruct (IH (S i) st' ltac:(lia) Ho) as (s & Rs & Ks). exists s. split; [|exact Ks].
      eapply runsI_bind; [exact Ro|]. exact Rs.
    + exists 0%Z. split; [eapply runsI_bind; [exact Ro|]; apply runsI_ret|]. right. right. reflexivity.
Qed.

Lemma load_inv n (a : list (list (T N))) (raw : list (list I)) (d : T N) (A : mat) u :
  (forall r c, (r < n)%nat -> (c < n)%nat -> val (elt d a r c) = Fin (A r c)) -> good n u ->
  (forall r c, (r < n)%nat -> (c < n)%nat -> ic u r c = mk (elt d a r c) (elt d a r c)) ->
  inv n (det n A) 0 (u, seq 0 n, 1%Z).
Proof.
  intros HA Gu Eu. split; [exact Gu|]. split; [apply perm_seq|]. split; [auto|]. exists A, 1. split; [lra|]. split.
  - rewrite Nat.sub_0_r, !Rmult_1_l. reflexivity.
  - intros k c Hk Hc. rewrite seq_nth by lia. rewrite Eu by (cbn; lia). unfold mem. cbn [low up plus].
    rewrite HA by lia. cbn [xle]. lra.
Qed.
Lemma algo1_ok n (a : list (list (T N))) raw (d : T N) (A : mat) : square n a -> square n raw ->
  (forall r c, (r < n)%nat -> (c < n)%nat -> val (elt d a r c) = Fin (A r c)) ->
  exists s, runsP P ready (det_sign_algo1 P a raw) s /\ sign_ok s (det n A).
Proof.
  intros Sa Sr HA. destruct (load_ok n a raw d A Sa Sr HA) as (u & Ru & Gu & Eu).
  destruct (lu_ok n (det n A) n 0 (u, seq 0 n, 1%Z)) as (s & Rs & Ks); [lia|apply (load_inv n a raw d A); auto|].
  exists s. split; [|exact Ks]. unfold det_sign_algo1. rewrite (proj1 Sa).
  apply (with_rnd_runs P ready H). eapply runsI_bind; [exact Ru|]. exact Rs.
Qed.

(** ** Upper triangular matrices are decided *)
Definition exact (x : I) (r : R) : Prop := val (low x) = Fin r /\ val (up x) = Fin r.
Lemma exact_mem x r : exact x r -> mem val x r.
Proof. intros (A & B). unfold mem. rewrite A, B. cbn [xle]. lra. Qed.
Lemma exact_only x r s : exact x r -> mem val x s -> s = r.
Proof. intros (A & B) (C & D). rewrite A in C. rewrite B in D. cbn [xle] in *. lra. Qed.
Lemma exact_valid x r : exact x r -> V x.
Proof. intros E. apply (mem_valid val x r), exact_mem, E. Qed.
Lemma tight_exact z (S : R -> Prop) x r : tightest val z S -> (forall s, S s <-> s = r) -> exact x r -> exact z r.
Proof.
  intros (E & T) HS Hx. assert (Mz : mem val z r) by (apply E, HS; reflexivity).
  destruct (T x) as (A & B). { intros s Hs. apply HS in Hs. subst s. apply exact_mem; exact Hx. }
  destruct Hx as (X1 & X2). rewrite X1 in A. rewrite X2 in B. destruct Mz as (C & D).
  split; apply xle_antisym; auto.
Qed.
Lemma runs_det {A} (m : M A) a b : runs m a -> runs m b -> a = b.
Proof.
  intros Ra Rb. destruct (as_init _ _ _ (ps_ar _ _ _ H) RNE) as (s & Hs & _).
  destruct (Ra s Hs) as (s1 & _ & E1). destruct (Rb s Hs) as (s2 & _ & E2). congruence.
Qed.
Definition tri (n : nat) (A : mat) (i : nat) (st : list (list I) * list nat * Z) : Prop :=
  let '(u, p, _) := st in
  good n u /\ length p = n /\ (forall k, (k < n)%nat -> nth k p O = k) /\
  forall k c, (i <= k < n)%nat -> (i <= c < n)%nat -> exact (ic u k c) (A k c).

Lemma tri_pivot n A i u p sig : (i < n)%nat -> tri n A i (u, p, sig) ->
  (forall r c, (c < r)%nat -> A r c = 0) -> A i i <> 0 ->
  exists m, runs (algo1_pivot P n i u p) (i, m) /\ n_eq N m zero = false.
Proof.
  intros Hi ((Sq & G) & Lp & Ep & X) H0 Na. unfold algo1_pivot.
  set (Q := fun (k : nat) (jm : nat * T N) => fst jm = i /\ ((k <= i)%nat -> snd jm = zero) /\
    ((i < k)%nat -> xlt (Fin 0) (val (snd jm)))).
  destruct (for_inv ready Q (fun j pm =>
    let! r := at_ p j in let! v := cell u r i in
    if zero_in Pu v then ret pm
    else let! m := norm Pu v in if n_gt m (snd pm) then ret (j, m) else ret pm) (n - i) i (i, zero)) as ((j & m) & R & Q1).
  - split; [reflexivity|]. split; [reflexivity|]. intros; lia.
  - intros j (j0 & m) Hj (E & Z0 & K). cbn [fst snd] in *. subst j0.
    assert (R0 : forall b (f : nat -> I -> M (nat * T N)), runs (f j (ic u j i)) b ->
       runs (let! r := at_ p j in let! v := cell u r i in f r v) b).
    { intros b f Rf. eapply runsI_bind; [apply pure_runsI, (at_pure O); lia|]. rewrite Ep by lia.
      eapply runsI_bind; [apply pure_runsI, (cell_pure iz n); auto; lia|]. exact Rf. }
    assert (Xj : exact (ic u j i) (A j i)) by (apply X; lia).
    pose proof (exact_valid _ _ Xj) as Vj.
    destruct (Nat.eq_dec j i) as [->|Nj].
    + assert (Ez : zero_in Pu (ic u i i) = false).
      { destruct (zero_in Pu (ic u i i)) eqn:Ez; [|reflexivity]. apply (zero_in_iff HU) in Ez; auto.
        apply (exact_only _ _ _ Xj) in Ez. congruence. }
      destruct (norm_ok HU _ Vj) as (t & Rt & U & _). apply runsP_unprotect in Rt.
      assert (Tp : xlt (Fin 0) (val t)).
      { apply (norm_pos _ t Vj); [|exact U]. rewrite <- (zero_in_iff HU) by auto. congruence. }
      exists (i, t). split.
      * apply R0. rewrite Ez. eapply runsI_bind; [exact Rt|]. cbn [snd]. rewrite (Z0 (le_n i)).
        assert (Eg : n_gt t zero = true) by (apply (ns_lt _ _ NS); unfold zero; rewrite (ns_0 _ _ NS); exact Tp).
        rewrite Eg. apply runsI_ret.
      * split; [reflexivity|]. split; [lia|]. auto.
    + assert (Ez : zero_in Pu (ic u j i) = true).
      { apply (zero_in_iff HU); auto. rewrite <- (H0 j i) by lia. apply exact_mem. exact Xj. }
      exists (i, m). split; [apply R0; rewrite Ez; apply runsI_ret|].
      split; [reflexivity|]. split; [lia|]. intros _. apply K. lia.
  - replace (i + (n - i))%nat with n in Q1 by lia. destruct Q1 as (E & _ & K). cbn [fst snd] in *. subst j.
    exists m. split; [exact R|]. specialize (K Hi). destruct (n_eq N m zero) eqn:Em; [|reflexivity].
    apply (ns_eq _ _ NS) in Em. unfold zero in Em. rewrite (ns_0 _ _ NS) in Em. rewrite (proj1 Em) in K. cbn in K. lra.
Qed.
Lemma tri_line n A i r2 u p sig : (i < r2 < n)%nat -> tri n A i (u, p, sig) ->
  A r2 i = 0 -> A i i <> 0 ->
  exists u', runs (algo1_line P n i i r2 u) u' /\ tri n A i (u', p, sig).
Proof.
  intros Hr (Gu & Lp & Ep & X) H0 Na. unfold algo1_line.
  assert (X1 : exact (ic u i i) (A i i)) by (apply X; lia).
  assert (X2 : exact (ic u r2 i) 0) by (rewrite <- H0; apply X; lia).
  pose proof (exact_valid _ _ X1) as V1. pose proof (exact_valid _ _ X2) as V2.
  assert (Nz : ~ mem val (ic u i i) 0) by (intros K; apply (exact_only _ _ _ X1) in K; congruence).
  assert (exists f, runs (op_div Pu (ic u r2 i) (ic u i i)) f /\ exact f 0) as (f & Rf & Xf).
  { destruct (op_div_ok HU _ _ V2 V1) as (f & Rf & _ & Tf).
    { intros (B & C). apply Nz. unfold mem. rewrite B, C. cbn. lra. }
    { tauto. }
    apply runsP_unprotect in Rf. exists f. split; [exact Rf|].
    eapply tight_exact; [apply Tf| |exact X2].
    - intros (K & _). rewrite (proj1 X2) in K. cbn in K. lra.
    - intros s. split.
      + intros (a & b & Ha & Hb & _ & ->). apply (exact_only _ _ _ X2) in Ha. subst a. unfold Rdiv. ring.
      + intros ->. exists 0, (A i i). split; [apply exact_mem; exact X2|]. split; [apply exact_mem; exact X1|]. split; [exact Na|].
        field. exact Na. }
  pose proof (exact_valid _ _ Xf) as Vf.
  set (Q := fun (k : nat) (w : list (list I)) => tri n A i (w, p, sig)).
  destruct (for_inv ready Q (fun j u =>
      let! v := cell u i j in let! m := op_mul Pu f v in let! old := cell u r2 j in
      let! x := after (m_sub Pu (IVal m)) old in set_cell u r2 j x) (n - S i) (S i) u) as (u' & R & Q1).
  - split; auto.
  - intros j w Hj (Gw & _ & _ & Xw).
    assert (Xa : exact (ic w i j) (A i j)) by (apply Xw; lia).
    assert (Xb : exact (ic w r2 j) (A r2 j)) by (apply Xw; lia).
    pose proof (exact_valid _ _ Xa) as Va. pose proof (exact_valid _ _ Xb) as Vb.
    assert (exists m, runs (op_mul Pu f (ic w i j)) m /\ exact m 0) as (m & Rm & Xm).
    { destruct (op_mul_ok HU _ _ Vf Va) as (m & Rm & Tm). apply runsP_unprotect in Rm. exists m. split; [exact Rm|].
      eapply tight_exact; [exact Tm| |exact Xf]. intros s. split.
      - intros (a & b & Ha & Hb & ->). apply (exact_only _ _ _ Xf) in Ha. subst a. ring.
      - intros ->. exists 0, (A i j). split; [apply exact_mem; exact Xf|]. split; [apply exact_mem; exact Xa|]. ring. }
    pose proof (exact_valid _ _ Xm) as Vm.
    assert (exists z, runs (after (m_sub Pu (IVal m)) (ic w r2 j)) z /\ exact z (A r2 j)) as (z & Rz & Xz).
    { destruct (sub_case HU (p_ord P (H_arith, 73%Z)) _ m Vb Vm) as (z & Rz & Tz). exists z. split.
      - apply m_sub_of_case; auto.
      - eapply tight_exact; [exact Tz| |exact Xb]. intros s. split.
        + intros (a & b & Ha & Hb & ->). apply (exact_only _ _ _ Xb) in Ha. apply (exact_only _ _ _ Xm) in Hb. subst. ring.
        + intros ->. exists (A r2 j), 0. split; [apply exact_mem; exact Xb|]. split; [apply exact_mem; exact Xm|]. ring. }
    destruct (set_good n w r2 j z Gw ltac:(lia) ltac:(lia) (exact_valid _ _ Xz)) as (w' & Rw & Gw' & Ew).
    exists w'. split.
    + eapply runsI_bind; [apply pure_runsI, (cell_pure iz n); auto; [apply Gw|lia|lia]|].
      eapply runsI_bind; [exact Rm|].
      eapply runsI_bind; [apply pure_runsI, (cell_pure iz n); auto; [apply Gw|lia|lia]|].
      eapply runsI_bind; [exact Rz|]. apply pure_runsI. exact Rw.
    + split; [exact Gw'|]. split; [exact Lp|]. split; [exact Ep|]. intros k c Hk Hc. rewrite Ew.
      destruct (Nat.eqb_spec k r2) as [->|]; [destruct (Nat.eqb_spec c j) as [->|]|]; cbn [andb]; auto.
  - exists u'. split; [|exact Q1].
    eapply runsI_bind; [apply pure_runsI, (cell_pure iz n); auto; [apply Gu|lia|lia]|].
    eapply runsI_bind; [apply pure_runsI, (cell_pure iz n); auto; [apply Gu|lia|lia]|].
    eapply runsI_bind; [exact Rf|]. exact R.
Qed.
Lemma tri_step n A i st : (i < n)%nat -> tri n A i st ->
  (forall r c, (c < r)%nat -> A r c = 0) -> A i i <> 0 ->
  exists st', runs (algo1_step P n i st) (Some st') /\ tri n A (S i) st'.
Proof.
  destruct st as [[u p] sig]. intros Hi Ht H0 Na.
  destruct (tri_pivot n A i u p sig Hi Ht H0 Na) as (m & Rm & Em).
  destruct Ht as (Gu & Lp & Ep & X). unfold algo1_step.
  set (sig' := if cerlt_in (ic u i i) zero then (- sig)%Z else sig).
  destruct (for_inv ready (fun _ w => tri n A i (w, p, sig)) (fun k u => let! r2 := at_ p k in algo1_line P n i i r2 u) (n - S i) (S i) u)
    as (u' & Ru & (Gu' & _ & _ & X')).
  { split; auto. }
  { intros k w Hk Hw. destruct (tri_line n A i k w p sig ltac:(lia) Hw (H0 k i ltac:(lia)) Na) as (w' & Rw & Tw).
    exists w'. split; [|exact Tw]. eapply runsI_bind; [apply pure_runsI, (at_pure O); lia|]. rewrite Ep by lia. exact Rw. }
  exists (u', p, sig'). split.
  - eapply runsI_bind; [exact Rm|]. cbn [fst snd]. rewrite Em, Nat.eqb_refl.
    eapply runsI_bind; [apply runsI_ret|]. cbv beta iota.
    eapply runsI_bind; [apply pure_runsI, (at_pure O); lia|]. rewrite Ep by lia.
    eapply runsI_bind; [apply pure_runsI, (cell_pure iz n); auto; apply Gu|]. cbv zeta. fold sig'.
    eapply runsI_bind; [exact Ru|]. apply runsI_ret.
  - split; [exact Gu'|]. split; [exact Lp|]. split; [exact Ep|]. intros k c Hk Hc. apply X'; lia.
Qed.
Lemma tri_lu n D A : (forall r c, (c < r)%nat -> A r c = 0) -> (forall r, (r < n)%nat -> A r r <> 0) ->
  forall m i st, (i + m = n)%nat -> inv n D i st -> tri n A i st ->
  exists s, runs (algo1_lu P n m i st) s /\ sign_ok s D /\ s <> 0%Z.
Proof.
  intros H0 Hd. induction m as [|m IH]; intros i st Hi Hinv Ht.
  - destruct (lu_ok n D 0 i st Hi Hinv) as (s & Rs & Ks). exists s. split; [exact Rs|]. split; [exact Ks|].
    destruct st as [[u p] sig]. assert (E : s = sig) by (apply (runs_det _ _ _ Rs), runsI_ret). subst s.
    destruct Hinv as (_ & _ & Hs & _). lia.
  - destruct (tri_step n A i st ltac:(lia) Ht H0) as (st' & R' & T'); [apply Hd; lia|].
    destruct (step_ok n D i st ltac:(lia) Hinv) as (o & Ro & Ho).
    assert (E : o = Some st') by (apply (runs_det _ _ _ Ro), R'). subst o.
    destruct (IH (S i) st' ltac:(lia) Ho T') as (s & Rs & Ks). exists s. split; [|exact Ks].
    cbn [algo1_lu]. eapply runsI_bind; [exact R'|]. exact Rs.
Qed.
Lemma algo1_tri n (a : list (list (T N))) raw (d : T N) (A : mat) : square n a -> square n raw ->
  (forall r c, (r < n)%nat -> (c < n)%nat -> val (elt d a r c) = Fin (A r c)) ->
  (forall r c, (c < r)%nat -> A r c = 0) -> (forall r, (r < n)%nat -> A r r <> 0) ->
  exists s, runsP P ready (det_sign_algo1 P a raw) s /\ sign_ok s (det n A) /\ s <> 0%Z.
Proof.
  intros Sa Sr HA H0 Hd. destruct (load_ok n a raw d A Sa Sr HA) as (u & Ru & Gu & Eu).
  destruct (tri_lu n (det n A) A H0 Hd n 0 (u, seq 0 n, 1%Z)) as (s & Rs & Ks); [lia| | |].
  { apply (load_inv n a raw d A); auto. }
  { split; [exact Gu|]. split; [apply seq_length|]. split; [intros k Hk; rewrite seq_nth by lia; reflexivity|].
    intros k c Hk Hc. rewrite Eu by lia. split; apply HA; lia. }
  exists s. split; [|exact Ks]. unfold det_sign_algo1. rewrite (proj1 Sa).
  apply (with_rnd_runs P ready H). eapply runsI_bind; [exact Ru|]. exact Rs.
Qed.
End Core.

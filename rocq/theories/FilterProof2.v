(** * Proofs about examples/filter.cpp: the second function *)

From Coq Require Import Reals ZArith Lra Lia Bool List Arith.
From Flocq Require Import Core BinarySingleNaN.
From Verif Require Import Outcome Base Checking Interval Utility Arith Arith2 Compare FloatNum Spec ExtR Sem
  FloatSpec FloatPol CoreArith CoreDiv CoreMore CoreFmod CoreUtil CoreCtor Inst ExFilter Det FilterProof.
Import ListNotations.
Local Open Scope R_scope.

(** ** The sign of a rounded number *)
Lemma rounds_sign f m r (t : flt f) : rounds (f := f) m r t ->
  (0 <= r -> fval t <> NaN -> xle (Fin 0) (fval t)) /\ (r <= 0 -> fval t <> NaN -> xle (fval t) (Fin 0)).
Proof.
  unfold rounds. case Rlt_bool_spec; intros Hb.
  - intros (Ft & Et). assert (fval t = Fin (rnd f m r)) as -> by (apply fval_fin_iff; auto). cbn [xle].
    split; intros Hr _.
    + rewrite <- (round_0 radix2 (SpecFloat.fexp (prec f) (emax f)) (round_mode m)). apply round_le; auto; try apply valid_rnd_round_mode.
      apply fexp_correct, fmt_P0.
    + rewrite <- (round_0 radix2 (SpecFloat.fexp (prec f) (emax f)) (round_mode m)). apply round_le; auto; try apply valid_rnd_round_mode.
      apply fexp_correct, fmt_P0.
  - intros (s & Hs & E).
    assert (Nr : r <> 0).
    { intros ->. rewrite round_0 in Hb by apply valid_rnd_round_mode. rewrite Rabs_R0 in Hb.
      pose proof (bpow_gt_0 radix2 (emax f)). lra. }
    assert (K : if s then xle (fval t) (Fin 0) else xle (Fin 0) (fval t)).
    { unfold binary_overflow in E. destruct (overflow_to_inf m s).
      - destruct t as [s'|s'| |s' mt et Bt]; try discriminate. cbn in E. injection E as ->. destruct s; cbn; auto.
      - destruct t as [s'|s'| |s' mt et Bt]; try discriminate. cbn in E. injection E as -> _ _.
        assert (F : is_finite (B754_finite s mt et Bt) = true) by reflexivity.
        pose proof (sgn_B2R (B754_finite s mt et Bt) F) as G. cbn [fval Bsign] in *. unfold sgn_ok in G. destruct s; cbn [xle]; exact G. }
    unfold sgn_ok in Hs. destruct s; split; intros Hr _; auto; exfalso; lra.
Qed.

Lemma fdiv_nan f m (a : flt f) : fdiv m a B754_nan = B754_nan.
Proof. destruct a; reflexivity. Qed.
Lemma fdiv_inf f m (a : flt f) b : is_finite a = true -> exists s, fdiv m a (B754_infinity b) = B754_zero s.
Proof. destruct a; try discriminate; eexists; reflexivity. Qed.
Lemma fdiv_zero f m (a : flt f) b : is_finite a = true -> B2R a <> 0 -> exists s, fdiv m a (B754_zero b) = B754_infinity s.
Proof. destruct a; try discriminate; cbn [B2R]; intros; try lra; eexists; reflexivity. Qed.

Section P2.
Context {p : platform}.
Notation N := (fnum p).
Notation TT := (flt (p_T p)).
Notation I := (itv N).
Notation fv := (fval : T N -> ext).
Notation z0 := (@zero N).

Lemma conv_sign m (x : flt (p_X p)) : fval (fconv (p_X p) (p_T p) m x) <> NaN ->
  (xle (Fin 0) (fval x) -> xle (Fin 0) (fval (fconv (p_X p) (p_T p) m x))) /\
  (xle (fval x) (Fin 0) -> xle (fval (fconv (p_X p) (p_T p) m x)) (Fin 0)).
Proof.
  destruct (fval_cases x) as [[E F]|[[E F]|[[E F]|[E F]]]]; rewrite E.
  - subst x. cbn. tauto.
  - subst x. cbn. tauto.
  - subst x. cbn. tauto.
  - intros Nn. pose proof (fconv_rounds (p_X p) (p_T p) m x F) as K. apply rounds_sign in K. cbn [xle]. split; intros; apply K; auto.
Qed.
(** 1 / d has the sign of d when it is finite and not zero. *)
Lemma inv_sign (d t : T N) m r : f_div one d m = (Ok t, m) -> fv t = Fin r -> r <> 0 ->
  (n_lt N d zero = true <-> r < 0).
Proof.
  intros E Et Nr. unfold f_div, bind, e_div, e_store, under_mode in E. cbn [x_div n_store n_load fnum] in E. injection E as E.
  set (ld := fconv (p_T p) (p_X p) RNE) in *.
  assert (E1 : fval (ld (one : T N)) = Fin 1) by (unfold ld; rewrite fval_ld; apply (ns_1 _ _ (fnumspec p))).
  pose proof (fval_ld p d) as Ed. fold ld in Ed.
  assert (ND : fval (d : TT) <> NaN).
  { intros K. rewrite K in Ed. destruct (fval_cases (ld d)) as [[A F]|[[A F]|[[A F]|[A F]]]]; try congruence.
    rewrite F, fdiv_nan in E. rewrite <- E in Et. discriminate. }
  assert (LT : n_lt N d zero = true <-> xlt (fv d) (Fin 0)).
  { rewrite (ns_lt _ _ (fnumspec p)). unfold zero. rewrite (ns_0 _ _ (fnumspec p)). reflexivity. }
  rewrite LT. clear LT.
  destruct (fval_cases (ld d)) as [[A F]|[[A F]|[[A F]|[A F]]]].
  - congruence.
  - exfalso. apply fval_fin_iff in E1. rewrite F in E. destruct (fdiv_inf _ m (ld (one : T N)) true (proj1 E1)) as (s & Es).
    change (fconv (p_X p) (p_T p) m (fdiv m (ld (one : T N)) (B754_infinity true)) = t) in E. rewrite Es in E. rewrite <- E in Et. injection Et as <-. apply Nr. reflexivity.
  - exfalso. apply fval_fin_iff in E1. rewrite F in E. destruct (fdiv_inf _ m (ld (one : T N)) false (proj1 E1)) as (s & Es).
    change (fconv (p_X p) (p_T p) m (fdiv m (ld (one : T N)) (B754_infinity false)) = t) in E. rewrite Es in E. rewrite <- E in Et. injection Et as <-. apply Nr. reflexivity.
  - rewrite A in Ed. rewrite <- Ed. cbn [xlt]. apply fval_fin_iff in E1. destruct E1 as (F1 & R1).
    destruct (Req_dec (B2R (ld d)) 0) as [Z|NZ].
    + exfalso. destruct (ld d) as [s|s| |s mt et Bt]; try discriminate.
      * destruct (fdiv_zero _ m (ld (one : T N)) s F1 ltac:(lra)) as (s' & Es).
        change (fconv (p_X p) (p_T p) m (fdiv m (ld (one : T N)) (B754_zero s)) = t) in E. rewrite Es in E. rewrite <- E in Et.
        destruct s'; discriminate.
      * cbn in Z. apply eq_0_F2R in Z. destruct s; discriminate.
    + pose proof (fdiv_rounds (md m) _ _ F1 F NZ) as K. rewrite R1 in K.
      apply rounds_sign in K. destruct K as (K1 & K2).
      set (q := fdiv m (ld (one : T N)) (ld d)) in *. change (Bdiv (md m) (ld (one : T N)) (ld d)) with q in *.
      change (fconv (p_X p) (p_T p) m q = t) in E.
      assert (Nq : fval q <> NaN).
      { intros C. destruct (fval_cases q) as [[B G]|[[B G]|[[B G]|[B G]]]]; try congruence. rewrite G in E. rewrite <- E in Et. discriminate. }
      assert (Nc : fval (fconv (p_X p) (p_T p) m q) <> NaN) by (rewrite E; change (fv t <> NaN); rewrite Et; discriminate).
      destruct (conv_sign m q Nc) as (C1 & C2). rewrite E in C1, C2. change (fval t) with (fv t) in C1, C2. rewrite Et in C1, C2. cbn [xle] in C1, C2.
      destruct (Rdichotomy _ _ NZ) as [L|L].
      * assert (1 / B2R (ld d) < 0) by (unfold Rdiv; rewrite Rmult_1_l; apply Rinv_lt_0_compat; exact L).
        assert (r <= 0) by (apply C2, K2; auto; lra). split; intros; lra.
      * assert (0 < 1 / B2R (ld d)) by (unfold Rdiv; rewrite Rmult_1_l; apply Rinv_0_lt_compat; exact L).
        assert (0 <= r) by (apply C1, K1; auto; lra). split; intros; lra.
Qed.

(** ** The floating-point decomposition: any rounding errors *)
Section LU.
Context (md0 : rmode).
Notation runs := (runsI (eq md0)).
Notation fc := (elt z0).

Lemma sub_mul_runs (s a b : T N) : exists t, runs (f_sub_mul s a b) t.
Proof. eexists. intros m <-. exists md0. split; reflexivity. Qed.
Lemma f_div_runs (a b : T N) : exists t, runs (f_div a b) t /\ f_div a b md0 = (Ok t, md0).
Proof. eexists. split; [|reflexivity]. intros m <-. exists md0. split; reflexivity. Qed.
Lemma neg_runs (a : T N) : exists t, runs (neg a) t.
Proof. eexists. intros m <-. exists md0. split; reflexivity. Qed.

Lemma pivot2_ok n i (lu : list (list (T N))) q : square n lu -> perm n q -> (i < n)%nat ->
  exists j m, runs (algo2_pivot n i lu q) (j, m) /\ (i <= j < n)%nat.
Proof.
  intros Sq (Lq & Bq & _) Hi. unfold algo2_pivot.
  assert (RC : forall j, (i <= j < n)%nat -> forall {B} b (f : nat -> T N -> M B), runs (f (nth j q O) (fc lu (nth j q O) i)) b ->
     runs (let! r := at_ q j in let! v := cell lu r i in f r v) b).
  { intros j Hj B b f Rf. eapply runsI_bind; [apply pure_runsI, (at_pure O); lia|].
    eapply runsI_bind; [apply pure_runsI, (cell_pure z0 n); auto; apply Bq; lia|]. exact Rf. }
  destruct (for_inv (eq md0) (fun _ (jm : nat * T N) => (i <= fst jm < n)%nat) (fun j pm =>
    let! r := at_ q j in let! v := cell lu r i in let m := f_abs v in
    if n_gt m (snd pm) then ret (j, m) else ret pm) (n - S i) (S i) (i, f_abs (fc lu (nth i q O) i))) as ((j & m) & R & B).
  - cbn. lia.
  - intros j (j0 & m) Hj B. cbn [fst snd] in *.
    exists (if n_gt (f_abs (fc lu (nth j q O) i)) m then (j, f_abs (fc lu (nth j q O) i)) else (j0, m)). split.
    + apply RC; [lia|]. cbv zeta. cbn [snd]. destruct n_gt; apply runsI_ret.
    + destruct n_gt; cbn; lia.
  - exists j, m. split; [|exact B]. apply RC; [lia|]. exact R.
Qed.
(** The lines before i and the line i are left alone. *)
Lemma lines2_ok n i (lu : list (list (T N))) q pivot : square n lu -> perm n q -> (i < n)%nat ->
  exists lu', runs (algo2_lines n i (nth i q O) q pivot lu) lu' /\ square n lu' /\
    forall k c, (k <= i)%nat -> fc lu' (nth k q O) c = fc lu (nth k q O) c.
Proof.
  intros Sq (Lq & Bq & Dq) Hi. unfold algo2_lines.
  set (Q := fun (_ : nat) (w : list (list (T N))) => square n w /\ forall k c, (k <= i)%nat -> fc w (nth k q O) c = fc lu (nth k q O) c).
  apply (for_inv (eq md0) Q).
  - split; auto.
  - intros k w Hk (Sw & Ew).
    assert (H1 : (nth i q O < n)%nat) by (apply Bq; lia). assert (H2 : (nth k q O < n)%nat) by (apply Bq; lia).
    destruct (f_div_runs (fc w (nth k q O) i) pivot) as (fact & Rf & _).
    assert (ST : forall w c x, Q O w -> (c < n)%nat -> exists w', pureM (set_cell w (nth k q O) c x) w' /\ Q O w').
    { intros w1 c x (Sw1 & Ew1) Hc. destruct (set_cell_pure z0 n w1 (nth k q O) c x Sw1 H2 Hc) as (w' & Rw & Sw' & E').
      exists w'. split; [exact Rw|]. split; [exact Sw'|]. intros l c' Hl. rewrite E'.
      destruct (Nat.eqb_spec (nth l q O) (nth k q O)) as [E|]; [apply Dq in E; lia|]. cbn [andb]. auto. }
    destruct (ST w i fact) as (w1 & Rw1 & Qw1); [split; auto|exact Hi|].
    destruct (for_inv (eq md0) Q (fun j lu =>
      let! v := cell lu (nth i q O) j in let! old := cell lu (nth k q O) j in
      let! x := f_sub_mul old v fact in set_cell lu (nth k q O) j x) (n - S i) (S i) w1) as (w2 & Rw2 & Qw2).
    + exact Qw1.
    + intros j v Hj (Sv & Ev).
      destruct (sub_mul_runs (fc v (nth k q O) j) (fc v (nth i q O) j) fact) as (x & Rx).
      destruct (ST v j x) as (v' & Rv & Qv); [split; auto|lia|].
      exists v'. split; [|exact Qv].
      eapply runsI_bind; [apply pure_runsI, (cell_pure z0 n); auto; lia|].
      eapply runsI_bind; [apply pure_runsI, (cell_pure z0 n); auto; lia|].
      eapply runsI_bind; [exact Rx|]. apply pure_runsI. exact Rv.
    + exists w2. split; [|exact Qw2].
      eapply runsI_bind; [apply pure_runsI, (at_pure O); lia|].
      eapply runsI_bind; [apply pure_runsI, (cell_pure z0 n); auto|].
      eapply runsI_bind; [exact Rf|]. eapply runsI_bind; [apply pure_runsI; exact Rw1|]. exact Rw2.
Qed.

(** Product of the signs of the first i pivots *)
Fixpoint signs (lu : list (list (T N))) (q : list nat) (i : nat) : Z :=
  match i with
  | O => 1%Z
  | S i => (signs lu q i * (if n_lt N (fc lu (nth i q O) i) zero then -1 else 1))%Z
  end.
Lemma signs_ext lu q lu' q' i : (forall k, (k < i)%nat -> fc lu (nth k q O) k = fc lu' (nth k q' O) k) -> signs lu q i = signs lu' q' i.
Proof. induction i as [|i IH]; intros E; [reflexivity|]. cbn [signs]. rewrite IH, (E i); auto. Qed.
Definition unit (e : Z) : Prop := (e = 1 \/ e = -1)%Z.
Definition linv (n : nat) (A : mat) (i : nat) (st : list (list (T N)) * list nat * Z) : Prop :=
  let '(lu, q, sig) := st in
  square n lu /\ perm n q /\ exists e, unit e /\
    det n (fun r => A (nth r q O)) = IZR e * det n A /\ sig = (e * signs lu q i)%Z.

Lemma step2_ok n A i st : (i < n)%nat -> linv n A i st ->
  exists o, runs (algo2_step n i st) o /\ match o with None => True | Some st' => linv n A (S i) st' end.
Proof.
  destruct st as [[lu q] sig]. intros Hi (Sq & Pq & e & He & HD & Hs).
  destruct (pivot2_ok n i lu q Sq Pq Hi) as (j & m & Rm & Bj).
  unfold algo2_step.
  destruct (n_eq N m zero) eqn:Em.
  { exists None. split; [|exact Logic.I]. eapply runsI_bind; [exact Rm|]. cbn [snd]. rewrite Em. apply runsI_ret. }
  assert (exists q' sig', runs (if j =? i then ret (q, sig) else let! q := exchange q i j in ret (q, (- sig)%Z)) (q', sig') /\
    linv n A i (lu, q', sig')) as (q' & sig' & Rq & (_ & Pq' & e' & He' & HD' & Hs')).
  { destruct (Nat.eqb_spec j i) as [->|Nj].
    - exists q, sig. split; [apply runsI_ret|]. split; [exact Sq|]. split; [exact Pq|]. eauto.
    - destruct (perm_exchange n q i j Pq Hi ltac:(lia) ltac:(lia)) as (q' & Rq & Pq' & Eq).
      exists q', (- sig)%Z. split; [eapply runsI_bind; [apply pure_runsI; exact Rq|]; apply runsI_ret|].
      split; [exact Sq|]. split; [exact Pq'|]. exists (- e)%Z. split; [unfold unit in *; lia|]. split.
      + rewrite (det_ext n _ (swap_rows i j (fun r => A (nth r q O)))).
        * rewrite det_swap by lia. rewrite HD, opp_IZR. ring.
        * intros r c Hr _. rewrite Eq by exact Hr. unfold swap_rows, tau.
          destruct (Nat.eqb_spec r i); [reflexivity|]. destruct (Nat.eqb_spec r j); reflexivity.
      + rewrite Hs. rewrite (signs_ext lu q' lu q i); [ring|]. intros k Hk. rewrite Eq by lia. unfold tau.
        destruct (Nat.eqb_spec k i), (Nat.eqb_spec k j); try lia. reflexivity. }
  assert (Hr1 : (nth i q' O < n)%nat) by (apply Pq'; exact Hi).
  destruct (lines2_ok n i lu q' (fc lu (nth i q' O) i) Sq Pq' Hi) as (lu' & Rl & Sl & El).
  exists (Some (lu', q', if n_lt N (fc lu (nth i q' O) i) zero then (- sig')%Z else sig')). split.
  - eapply runsI_bind; [exact Rm|]. cbn [fst snd]. rewrite Em.
    eapply runsI_bind; [exact Rq|]. cbv beta iota.
    eapply runsI_bind; [apply pure_runsI, (at_pure O); rewrite (proj1 Pq'); exact Hi|].
    eapply runsI_bind; [apply pure_runsI, (cell_pure z0 n); auto|]. cbv zeta.
    eapply runsI_bind; [exact Rl|]. apply runsI_ret.
  - split; [exact Sl|]. split; [exact Pq'|]. exists e'. split; [exact He'|]. split; [exact HD'|].
    cbn [signs]. rewrite El by lia. rewrite (signs_ext lu' q' lu q' i) by (intros; apply El; lia).
    rewrite Hs'. destruct n_lt; ring.
Qed.
Lemma lu2_ok n A : forall m i st, (i + m = n)%nat -> linv n A i st ->
  exists o, runs (algo2_lu n m i st) o /\ match o with None => True | Some st' => linv n A n st' end.
Proof.
  induction m as [|m IH]; intros i st Hi Hl.
  - exists (Some st). split; [apply runsI_ret|]. replace i with n in Hl by lia. exact Hl.
  - destruct (step2_ok n A i st ltac:(lia) Hl) as (o & Ro & Ho). cbn [algo2_lu]. destruct o as [st'|].
    + destruct (IH (S i) st' ltac:(lia) Ho) as (o & Ro' & Ho'). exists o. split; [|exact Ho'].
      eapply runsI_bind; [exact Ro|]. exact Ro'.
    + exists None. split; [eapply runsI_bind; [exact Ro|]; apply runsI_ret|exact Logic.I].
Qed.
(** The diagonal of lui holds the inverses of the pivots. *)
Lemma inverse_ok n (lu raw : list (list (T N))) q : square n lu -> perm n q -> square n raw ->
  exists lui, runs (algo2_inverse n lu q raw) lui /\ square n lui /\
    forall j, (j < n)%nat -> f_div one (fc lu (nth j q O) j) md0 = (Ok (fc lui j j), md0).
Proof.
  intros Sq (Lq & Bq & _) Sr. unfold algo2_inverse.
  set (Q := fun (k : nat) (w : list (list (T N))) => square n w /\
    forall j, (j < k)%nat -> f_div one (fc lu (nth j q O) j) md0 = (Ok (fc w j j), md0)).
  assert (ST : forall k w r c x, Q k w -> (r < n)%nat -> (c < n)%nat -> (r = c -> (k <= c)%nat) ->
     exists w', pureM (set_cell w r c x) w' /\ Q k w' /\ forall r' c', fc w' r' c' = if (r' =? r) && (c' =? c) then x else fc w r' c').
  { intros k w r c x (Sw & Ew) Hr Hc Hk. destruct (set_cell_pure z0 n w r c x Sw Hr Hc) as (w' & Rw & Sw' & E').
    exists w'. split; [exact Rw|]. split; [|exact E']. split; [exact Sw'|]. intros j Hj. rewrite E'.
    destruct (Nat.eqb_spec j r), (Nat.eqb_spec j c); cbn [andb]; try (apply Ew; exact Hj). lia. }
  assert (SUM : forall w r j lo cnt s, square n w -> (r < n)%nat -> (j < n)%nat -> (lo + cnt <= n)%nat ->
     exists t, runs (for_ cnt lo (fun k s => let! a := cell lu r k in let! b := cell w k j in f_sub_mul s a b) s) t).
  { intros w r j lo cnt s Sw Hr Hj Hc.
    destruct (for_inv (eq md0) (fun _ (_ : T N) => True) (fun k s => let! a := cell lu r k in let! b := cell w k j in f_sub_mul s a b) cnt lo s) as (t & Rt & _); auto.
    { intros k s0 Hk _. destruct (sub_mul_runs s0 (fc lu r k) (fc w k j)) as (t & Rt). exists t. split; [|exact Logic.I].
      eapply runsI_bind; [apply pure_runsI, (cell_pure z0 n); auto; lia|].
      eapply runsI_bind; [apply pure_runsI, (cell_pure z0 n); auto; lia|]. exact Rt. }
    eauto. }
  apply (for_inv (eq md0) Q).
  - split; [exact Sr|]. intros; lia.
  - intros j w (_ & Hj) Qw.
    assert (Hqj : (nth j q O < n)%nat) by (apply Bq; lia).
    (* under the diagonal *)
    destruct (for_inv (eq md0) (fun _ => Q j) (fun i lui =>
      let! r := at_ q i in let! v := cell lu r j in let! s := neg v in
      let! s := for_ (i - S j) (S j) (fun k s =>
        let! a := cell lu r k in let! b := cell lui k j in f_sub_mul s a b) s in
      set_cell lui i j s) (n - S j) (S j) w) as (w1 & R1 & Q1); [exact Qw| |].
    { intros i v Hi Qv. assert (Hqi : (nth i q O < n)%nat) by (apply Bq; lia).
      destruct (neg_runs (fc lu (nth i q O) j)) as (s & Rs).
      destruct (SUM v (nth i q O) j (S j) (i - S j)%nat s) as (t & Rt); [apply Qv|exact Hqi|lia|lia|].
      destruct (ST j v i j t Qv ltac:(lia) ltac:(lia) ltac:(lia)) as (v' & Rv & Qv' & _).
      exists v'. split; [|exact Qv'].
      eapply runsI_bind; [apply pure_runsI, (at_pure O); lia|].
      eapply runsI_bind; [apply pure_runsI, (cell_pure z0 n); auto; lia|].
      eapply runsI_bind; [exact Rs|]. eapply runsI_bind; [exact Rt|]. apply pure_runsI. exact Rv. }
    (* the diagonal *)
    destruct (f_div_runs one (fc lu (nth j q O) j)) as (x & Rx & Ex).
    destruct (ST j w1 j j x Q1 ltac:(lia) ltac:(lia) ltac:(lia)) as (w2 & R2 & Q2 & E2).
    assert (Q2' : Q (S j) w2).
    { split; [apply Q2|]. intros l Hl. destruct (Nat.eq_dec l j) as [->|]; [|apply Q2; lia]. rewrite E2, Nat.eqb_refl. exact Ex. }
    (* above the diagonal *)
    destruct (for_inv (eq md0) (fun _ => Q (S j)) (fun i' lui =>
      let i := (j - S i')%nat in
      let! r := at_ q i in
      let! s := for_ (j - i) (S i) (fun k s =>
        let! a := cell lu r k in let! b := cell lui k j in f_sub_mul s a b) zero in
      let! d := cell lu r i in let! x := f_div s d in set_cell lui i j x) j 0 w2) as (w3 & R3 & Q3); [exact Q2'| |].
    { intros i' v Hi Qv. cbv zeta. set (i := (j - S i')%nat).
      assert (Hi' : (i < j)%nat) by (unfold i; lia). assert (Hqi : (nth i q O < n)%nat) by (apply Bq; lia).
      destruct (SUM v (nth i q O) j (S i) (j - i)%nat zero) as (t & Rt); [apply Qv|exact Hqi|lia|lia|].
      destruct (f_div_runs t (fc lu (nth i q O) i)) as (y & Ry & _).
      destruct (ST (S j) v i j y Qv ltac:(lia) ltac:(lia) ltac:(lia)) as (v' & Rv & Qv' & _).
      exists v'. split; [|exact Qv'].
      eapply runsI_bind; [apply pure_runsI, (at_pure O); lia|].
      eapply runsI_bind; [exact Rt|].
      eapply runsI_bind; [apply pure_runsI, (cell_pure z0 n); auto; lia|].
      eapply runsI_bind; [exact Ry|]. apply pure_runsI. exact Rv. }
    exists w3. split; [|exact Q3].
    eapply runsI_bind; [exact R1|].
    eapply runsI_bind; [apply pure_runsI, (at_pure O); lia|].
    eapply runsI_bind; [apply pure_runsI, (cell_pure z0 n); auto|].
    eapply runsI_bind; [exact Rx|]. eapply runsI_bind; [apply pure_runsI; exact R2|]. exact R3.
Qed.
End LU.
End P2.

(** ** The check *)
Section Check.
Context (p : platform) (k : rkind) (debug : bool) (c : ckind) (ord : site -> bool).
Notation N := (fnum p).
Notation I := (itv N).
Notation P := (fpol p Save k debug c ord).
Notation H := (fpolspec p Save k debug c ord).
Notation Pu := (unprotect P).
Notation HU := (polspec_unprotect (fval : T N -> ext) P (fready k) H).
Notation NS := (fnumspec p).
Notation runs := (runsI (fready k)).
Notation fv := (fval : T N -> ext).
Notation z0 := (@zero N).
Notation iz0 := (@iz N).
Notation mem := (fmem (p := p)).
Implicit Types x y z : I.

Lemma mem_v x r : mem x r -> fvalid x.
Proof. apply (mem_valid fv). Qed.

Lemma m_add_runs x y a b : mem x a -> mem y b ->
  exists z, runs (after (m_add Pu (IVal y)) x) z /\ mem z (a + b).
Proof.
  intros Ha Hb. pose proof (mem_v _ _ Ha) as Hx. pose proof (mem_v _ _ Hb) as Hy.
  destruct (add_case HU (p_ord P (H_arith, 49%Z)) x y Hx Hy) as (z & R & Tz). exists z. split.
  - assert (E : after (m_add Pu (IVal y)) x = after (obind (ocomp (fun o => with_rnd Pu (args2 (p_ord P (H_arith, 49%Z))
      (add_down (p_ar P) (low o) (low y)) (add_up (p_ar P) (up o) (up y))))) (fun lu => m_set (NVal (fst lu)) (NVal (snd lu)))) x).
    { unfold m_add, after, obind at 1, ocomp at 1, ret. cbn [rdi]. rewrite (test_valid2 HU) by auto. reflexivity. }
    rewrite E. destruct z as [l u]. apply set_runs. cbv beta.
    apply (with_rnd_Pu H), (mk_args_inv _ _ _ (mk l u)). exact R.
  - apply (proj1 Tz). exists a, b. auto.
Qed.
Lemma one_val : fv one = Fin 1.
Proof. apply (ns_1 _ _ NS). Qed.
Lemma m_sub_1_runs x a : mem x a -> exists z, runs (after (m_sub_n Pu (NVal one)) x) z /\ mem z (a - 1).
Proof.
  intros Ha. pose proof (mem_v _ _ Ha) as Hx.
  assert (H1 : mem (mk one one : I) 1) by (split; cbn [low up]; rewrite one_val; cbn; lra).
  destruct (sub_case HU (p_ord P (H_arith, 85%Z)) x (mk one one) Hx (mem_v _ _ H1)) as (z & R & Tz). exists z. split.
  - intros s Hs. cbn [low up] in R.
    assert (E : after (m_sub_n Pu (NVal one)) x s = after (obind (ocomp (fun o => with_rnd Pu (args2 (p_ord P (H_arith, 85%Z))
      (sub_down (p_ar P) (low o) one) (sub_up (p_ar P) (up o) one)))) (fun lu => m_set (NVal (fst lu)) (NVal (snd lu)))) x s).
    { unfold m_sub_n, after. unfold obind at 1, ocomp at 1. cbn [rd].
      assert (ET : test_input_in Pu x one s = (Ok false, s)).
      { apply (test_in HU); [rewrite one_val; discriminate|exact Hx]. }
      cbv beta. cbn [Interval.rd]. rewrite ET. reflexivity. }
    rewrite E. clear E. revert s Hs. change (runs (after (obind (ocomp (fun o => with_rnd Pu (args2 (p_ord P (H_arith, 85%Z))
      (sub_down (p_ar P) (low o) one) (sub_up (p_ar P) (up o) one)))) (fun lu => m_set (NVal (fst lu)) (NVal (snd lu)))) x) z).
    destruct z as [l u]. apply set_runs. cbv beta.
    apply (with_rnd_Pu H), (mk_args_inv _ _ _ (mk l u)). exact R.
  - apply (proj1 Tz). exists a, 1. auto.
Qed.
Lemma m_assign_0_runs x : exists z, runs (after (m_assign_src Pu (src_sint p 32) 0%Z) x) z /\ mem z 0.
Proof.
  assert (S0 : src_ok p k (src_sint p 32) 0%Z (Fin (IZR 0))) by (apply src_sint_ok; right; discriminate).
  destruct (conv_down_ok p k debug c ord _ _ _ S0) as (l & Dl & Rl). destruct (conv_up_ok p k debug c ord _ _ _ S0) as (u & Du & Ru).
  exists (mk l u). split.
  - assert (RR : runs (with_rnd Pu (let! l := conv_down (p_ar Pu) (src_sint p 32) 0%Z in
      let! u := conv_up (p_ar Pu) (src_sint p 32) 0%Z in ret (l, u))) (l, u)).
    { apply (with_rnd_Pu H). eapply runsI_bind; [exact Rl|]. eapply runsI_bind; [exact Ru|]. apply runsI_ret. }
    intros s Hs. destruct (RR s Hs) as (s3 & Hs3 & E3). exists s3. split; [exact Hs3|].
    unfold after, m_assign_src, obind, ocomp.
    change (is_nan_src Pu (src_sint p 32) 0%Z s) with (is_nan_src P (src_sint p 32) 0%Z s).
    rewrite (is_nan_src_ok p k debug c ord _ _ _ S0). cbv iota beta. rewrite E3. reflexivity.
  - split; cbn [low up]; [apply Dl|apply Du].
Qed.

(** The upper part of lui, and its lower part with ones on the diagonal *)
Definition upper (L : mat) : mat := fun l c => if (l <=? c)%nat then L l c else 0.
Definition lower (L : mat) : mat := fun l c => if (l =? c)%nat then 1 else if (c <? l)%nat then L l c else 0.
(** An array of n intervals that contain X *)
Definition vec (n : nat) (m : list I) (X : nat -> R) : Prop :=
  length m = n /\ forall c, (c < n)%nat -> mem (nth c m iz0) (X c).
Lemma vec_ext n m X Y : vec n m X -> (forall c, (c < n)%nat -> X c = Y c) -> vec n m Y.
Proof. intros (L & E) K. split; [exact L|]. intros c0 Hc. rewrite <- K by exact Hc. auto. Qed.
Lemma vec_put n m X j x r : vec n m X -> (j < n)%nat -> mem x r ->
  pureM (put_ m j x) (put m j x) /\ vec n (put m j x) (fun l => if l =? j then r else X l).
Proof.
  intros (L & E) Hj Hx. split; [apply put_pure; lia|]. split; [rewrite put_length; exact L|].
  intros c0 Hc. rewrite nth_put by lia. destruct (Nat.eqb_spec c0 j); auto.
Qed.

Lemma row1_ok n (l1 : list (T N)) (lui : list (list (T N))) m1 (A : nat -> R) (L : mat) :
  length l1 = n -> square n lui -> length m1 = n ->
  (forall j, (j < n)%nat -> fv (nth j l1 z0) = Fin (A j)) ->
  (forall r c, (r < n)%nat -> (c < n)%nat -> fv (elt z0 lui r c) = Fin (L r c)) ->
  exists m, runs (algo2_row1 P n l1 lui m1) m /\ vec n m (fun c => sum n (fun l => A l * upper L l c)).
Proof.
  intros L1 Sq Lm HA HL. unfold algo2_row1.
  (* zeros *)
  set (Q := fun (j : nat) (m : list I) => length m = n /\ forall c, (c < j)%nat -> mem (nth c m iz0) 0).
  destruct (for_inv (fready k) Q (fun j m1 =>
    let! old := at_ m1 j in
    let! x := after (m_assign_src Pu (src_sint p 32) 0%Z) old in
    put_ m1 j x) n 0 m1) as (m2 & R2 & Lm2 & E2).
  - split; [exact Lm|]. intros; lia.
  - intros j m (_ & Hj) (Lj & Ej). destruct (m_assign_0_runs (nth j m iz0)) as (z & Rz & Mz).
    exists (put m j z). split.
    + eapply runsI_bind; [apply pure_runsI, (at_pure iz0); lia|]. eapply runsI_bind; [exact Rz|].
      apply pure_runsI, put_pure. lia.
    + split; [rewrite put_length; exact Lj|]. intros c0 Hc. rewrite nth_put by lia.
      destruct (Nat.eqb_spec c0 j); [exact Mz|apply Ej; lia].
  - set (X := fun j c => sum j (fun l => A l * upper L l c)).
    destruct (for_inv (fready k) (fun j m => vec n m (X j)) (fun j m1 =>
      let! v := at_ l1 j in
      for_ (n - j) j (fun k m1 =>
        let! w := cell lui j k in
        let! t := n_mul Pu v w in
        let! old := at_ m1 k in
        let! x := after (m_add Pu (IVal t)) old in
        put_ m1 k x) m1) n 0 m2) as (m3 & R3 & V3).
    + split; [exact Lm2|]. intros c0 Hc. apply E2. exact Hc.
    + intros j m (_ & Hj) Vm.
      destruct (for_inv (fready k) (fun c m => vec n m (fun l => if (l <? c)%nat then X (S j) l else X j l)) (fun k m1 =>
        let! w := cell lui j k in
        let! t := n_mul Pu (nth j l1 z0) w in
        let! old := at_ m1 k in
        let! x := after (m_add Pu (IVal t)) old in
        put_ m1 k x) (n - j) j m) as (m4 & R4 & V4).
      * eapply vec_ext; [exact Vm|]. intros c0 Hc. cbv beta. destruct (Nat.ltb_spec c0 j); [|reflexivity].
        unfold X. cbn [sum]. unfold upper at 3. destruct (Nat.leb_spec j c0); [lia|]. ring.
      * intros c0 w Hc Vw. assert (Hc' : (c0 < n)%nat) by lia.
        destruct (n_mul_ok HU (nth j l1 z0) (elt z0 lui j c0) (A j) (L j c0) (HA j Hj) (HL j c0 Hj Hc')) as (t & Rt & Tt).
        apply runsP_unprotect in Rt.
        assert (Mt : mem t (A j * L j c0)) by (apply (proj1 Tt); reflexivity).
        pose proof (proj2 Vw c0 Hc') as Mo. cbv beta in Mo. rewrite Nat.ltb_irrefl in Mo.
        destruct (m_add_runs _ _ _ _ Mo Mt) as (z & Rz & Mz).
        destruct (vec_put n w _ c0 z _ Vw Hc' Mz) as (Rp & Vp).
        exists (put w c0 z). split.
        { eapply runsI_bind; [apply pure_runsI, (cell_pure z0 n); auto|].
          eapply runsI_bind; [exact Rt|].
          eapply runsI_bind; [apply pure_runsI, (at_pure iz0); rewrite (proj1 Vw); lia|].
          eapply runsI_bind; [exact Rz|]. apply pure_runsI. exact Rp. }
        eapply vec_ext; [exact Vp|]. intros l Hl. cbv beta. destruct (Nat.eqb_spec l c0) as [->|Nl].
        { destruct (Nat.ltb_spec c0 (S c0)); [|lia]. unfold X. cbn [sum]. unfold upper at 3.
          destruct (Nat.leb_spec j c0); [reflexivity|lia]. }
        destruct (Nat.ltb_spec l c0), (Nat.ltb_spec l (S c0)); try lia; reflexivity.
      * exists m4. split; [eapply runsI_bind; [apply pure_runsI, (at_pure z0); lia|exact R4]|].
        eapply vec_ext; [exact V4|]. intros c0 Hc. cbv beta. destruct (Nat.ltb_spec c0 (j + (n - j))); [reflexivity|lia].
    + exists m3. split; [eapply runsI_bind; [exact R2|exact R3]|exact V3].
Qed.
Lemma row2_ok n i (lui : list (list (T N))) m1 m2 (Y : nat -> R) (L : mat) :
  (i < n)%nat -> square n lui -> vec n m1 Y -> length m2 = n ->
  (forall r c, (r < n)%nat -> (c < n)%nat -> fv (elt z0 lui r c) = Fin (L r c)) ->
  exists m, runs (algo2_row2 P n i lui m1 m2) m /\
    vec n m (fun c => sum n (fun l => Y l * lower L l c) - if (i =? c)%nat then 1 else 0).
Proof.
  intros Hi Sq V1 Lm HL. unfold algo2_row2.
  set (Q := fun (j : nat) (m : list I) => length m = n /\ forall c, (c < j)%nat -> mem (nth c m iz0) (Y c)).
  destruct (for_inv (fready k) Q (fun j m2 =>
    let! v := at_ m1 j in let! old := at_ m2 j in let! x := after (m_copy (IVal v)) old in put_ m2 j x) n 0 m2) as (m3 & R3 & L3 & E3).
  { split; [exact Lm|]. intros; lia. }
  { intros j m (_ & Hj) (Lj & Ej). exists (put m j (nth j m1 iz0)). split.
    - eapply runsI_bind; [apply pure_runsI, (at_pure iz0); rewrite (proj1 V1); lia|].
      eapply runsI_bind; [apply pure_runsI, (at_pure iz0); lia|].
      eapply runsI_bind; [|apply pure_runsI, put_pure; lia].
      apply pure_runsI. intros s. unfold after, m_copy. destruct (nth j m1 iz0). reflexivity.
    - split; [rewrite put_length; exact Lj|]. intros c0 Hc. rewrite nth_put by lia.
      destruct (Nat.eqb_spec c0 j) as [->|]; [apply V1; lia|apply Ej; lia]. }
  set (g := fun c l => if (c <? l)%nat then Y l * L l c else 0).
  set (X := fun j c => Y c + sum j (g c)).
  destruct (for_inv (fready k) (fun j m => vec n m (X j)) (fun j m2 =>
    let! v := at_ m1 j in
    for_ j 0 (fun k m2 =>
      let! w := cell lui j k in
      let! t := op_mul_in Pu v w in
      let! old := at_ m2 k in
      let! x := after (m_add Pu (IVal t)) old in
      put_ m2 k x) m2) (n - 1) 1 m3) as (m4 & R4 & V4).
  { split; [exact L3|]. intros c0 Hc. unfold X. cbn [sum]. unfold g. destruct (Nat.ltb_spec c0 0); [lia|].
    replace (Y c0 + (0 + 0)) with (Y c0) by ring. apply E3. exact Hc. }
  { intros j m Hj Vm.
    destruct (for_inv (fready k) (fun c m => vec n m (fun l => if (l <? c)%nat then X (S j) l else X j l)) (fun k m2 =>
      let! w := cell lui j k in
      let! t := op_mul_in Pu (nth j m1 iz0) w in
      let! old := at_ m2 k in
      let! x := after (m_add Pu (IVal t)) old in
      put_ m2 k x) j 0 m) as (m5 & R5 & V5).
    - eapply vec_ext; [exact Vm|]. intros c0 Hc. cbv beta. destruct (Nat.ltb_spec c0 0); [lia|reflexivity].
    - intros c0 w Hc Vw. assert (Hc' : (c0 < n)%nat) by lia. assert (Hj' : (j < n)%nat) by lia.
      pose proof (proj2 V1 j Hj') as My.
      destruct (op_mul_in_ok HU (nth j m1 iz0) (elt z0 lui j c0) (L j c0) (HL j c0 Hj' Hc') (mem_v _ _ My)) as (t & Rt & Tt).
      apply runsP_unprotect in Rt.
      assert (Mt : mem t (Y j * L j c0)) by (apply (proj1 Tt); exists (Y j); auto).
      pose proof (proj2 Vw c0 Hc') as Mo. cbv beta in Mo. rewrite Nat.ltb_irrefl in Mo.
      destruct (m_add_runs _ _ _ _ Mo Mt) as (z & Rz & Mz).
      destruct (vec_put n w _ c0 z _ Vw Hc' Mz) as (Rp & Vp).
      exists (put w c0 z). split.
      { eapply runsI_bind; [apply pure_runsI, (cell_pure z0 n); auto|].
        eapply runsI_bind; [exact Rt|].
        eapply runsI_bind; [apply pure_runsI, (at_pure iz0); rewrite (proj1 Vw); lia|].
        eapply runsI_bind; [exact Rz|]. apply pure_runsI. exact Rp. }
      eapply vec_ext; [exact Vp|]. intros l Hl. cbv beta. destruct (Nat.eqb_spec l c0) as [->|Nl].
      { destruct (Nat.ltb_spec c0 (S c0)); [|lia]. unfold X. cbn [sum]. unfold g at 3.
        destruct (Nat.ltb_spec c0 j); [ring|lia]. }
      destruct (Nat.ltb_spec l c0), (Nat.ltb_spec l (S c0)); try lia; reflexivity.
    - exists m5. split; [eapply runsI_bind; [apply pure_runsI, (at_pure iz0); rewrite (proj1 V1); lia|exact R5]|].
      eapply vec_ext; [exact V5|]. intros c0 Hc. cbv beta. destruct (Nat.ltb_spec c0 (0 + j)); [reflexivity|].
      unfold X. cbn [sum]. unfold g at 3. destruct (Nat.ltb_spec c0 j); [lia|]. ring. }
  replace (1 + (n - 1))%nat with n in V4 by lia.
  destruct (m_sub_1_runs _ _ (proj2 V4 i Hi)) as (z & Rz & Mz).
  destruct (vec_put n m4 _ i z _ V4 Hi Mz) as (Rp & Vp).
  exists (put m4 i z). split.
  { eapply runsI_bind; [exact R3|]. eapply runsI_bind; [exact R4|].
    eapply runsI_bind; [apply pure_runsI, (at_pure iz0); rewrite (proj1 V4); lia|].
    eapply runsI_bind; [exact Rz|]. apply pure_runsI. exact Rp. }
  eapply vec_ext; [exact Vp|]. intros c0 Hc. cbv beta.
  assert (E : X n c0 = sum n (fun l => Y l * lower L l c0)).
  { rewrite (sum_except n c0 (fun l => Y l * lower L l c0) Hc). unfold lower at 1. rewrite Nat.eqb_refl. unfold X.
    rewrite Rmult_1_r. f_equal. apply sum_ext. intros l Hl. unfold g, lower.
    destruct (Nat.eqb_spec l c0) as [->|]; [rewrite Nat.ltb_irrefl; reflexivity|]. destruct (c0 <? l); ring. }
  rewrite (Nat.eqb_sym i c0). destruct (Nat.eqb_spec c0 i) as [->|]; rewrite <- E; ring.
Qed.
Lemma norm2_ok n m (X : nat -> R) : vec n m X ->
  exists ss, runs (algo2_norm P n m) ss /\ fv ss <> NaN /\ xle (Fin (sum n (fun j => Rabs (X j)))) (fv ss).
Proof.
  intros V. unfold algo2_norm.
  destruct (for_inv (fready k) (fun j ss => fv ss <> NaN /\ xle (Fin (sum j (fun j => Rabs (X j)))) (fv ss)) (fun j ss =>
    let! v := at_ m j in let! t := norm Pu v in add_up (p_ar P) ss t) n 0 (zero : T N)) as (ss & R & K).
  - unfold zero. rewrite (ns_0 _ _ NS : fv _ = _). cbn. split; [discriminate|lra].
  - intros j ss (_ & Hj) (Nn & Hs). pose proof (proj2 V j Hj) as Mj.
    destruct (norm_ok HU _ (mem_v _ _ Mj)) as (t & Rt & U & _). apply runsP_unprotect in Rt.
    assert (Ut : xle (Fin (Rabs (X j))) (fv t)) by (apply U; exists (X j); auto).
    destruct (as_add_up _ _ _ (ps_ar _ _ _ H) ss t) as (r & Dr & Rr).
    { destruct (fv ss), (fv t); cbn in *; try contradiction; discriminate. }
    exists r. split.
    + eapply runsI_bind; [apply pure_runsI, (at_pure iz0); rewrite (proj1 V); exact Hj|].
      eapply runsI_bind; [exact Rt|]. exact Rr.
    + assert (Q : xle (Fin (sum (S j) (fun j => Rabs (X j)))) (fv r)).
      { apply (xle_trans _ (xadd (fv ss) (fv t))); [|apply Dr]. cbn [sum].
        destruct (fv ss), (fv t); cbn in *; try contradiction; auto; lra. }
      split; [apply (xle_nnr _ _ Q)|exact Q].
  - exists ss. split; [exact R|exact K].
Qed.
Lemma check_ok n (a : list (list (T N))) q (lui : list (list (T N))) (A L : mat) :
  square n a -> perm n q -> square n lui ->
  (forall r c, (r < n)%nat -> (c < n)%nat -> fv (elt z0 a r c) = Fin (A r c)) ->
  (forall r c, (r < n)%nat -> (c < n)%nat -> fv (elt z0 lui r c) = Fin (L r c)) ->
  forall m i m1 m2, (i + m = n)%nat -> length m1 = n -> length m2 = n ->
  exists b, runs (algo2_check P n a q lui m i m1 m2) b /\
    (b = true -> forall r, (i <= r < n)%nat ->
       sum n (fun c => Rabs (mmul n (mmul n (fun r => A (nth r q O)) (upper L)) (lower L) r c - if (r =? c)%nat then 1 else 0)) < 1).
Proof.
  intros Sa (Lq & Bq & _) Sl HA HL. induction m as [|m IH]; intros i m1 m2 Hi L1 L2.
  - exists true. split; [apply runsI_ret|]. intros; lia.
  - assert (Hi' : (i < n)%nat) by lia. pose proof (Bq i Hi') as Hr.
    destruct (row1_ok n (nth (nth i q O) a []) lui m1 (fun j => A (nth i q O) j) L) as (m1' & R1 & V1); auto.
    { apply square_row; auto. }
    { intros j Hj. apply HA; auto. }
    destruct (row2_ok n i lui m1' m2 _ L Hi' Sl V1 L2 HL) as (m2' & R2 & V2).
    destruct (norm2_ok n m2' _ V2) as (ss & R3 & Nn & Hs).
    assert (RP : forall (B : Type) b (f : nat -> list (T N) -> M B), runs (f (nth i q O) (nth (nth i q O) a [])) b ->
       runs (let! r := at_ q i in let! l1 := at_ a r in f r l1) b).
    { intros B b f Rf. eapply runsI_bind; [apply pure_runsI, (at_pure O); lia|].
      eapply runsI_bind; [apply pure_runsI, (at_pure []); rewrite (proj1 Sa); exact Hr|]. exact Rf. }
    cbn [algo2_check]. destruct (n_ge ss one) eqn:Eg.
    + exists false. split; [|discriminate]. apply RP. eapply runsI_bind; [exact R1|]. eapply runsI_bind; [exact R2|].
      eapply runsI_bind; [exact R3|]. rewrite Eg. apply runsI_ret.
    + destruct (IH (S i) m1' m2' ltac:(lia) (proj1 V1) (proj1 V2)) as (b & Rb & Kb). exists b. split.
      * apply RP. eapply runsI_bind; [exact R1|]. eapply runsI_bind; [exact R2|].
        eapply runsI_bind; [exact R3|]. rewrite Eg. exact Rb.
      * intros Eb r Hr'. destruct (Nat.eq_dec r i) as [->|]; [|apply Kb; auto; lia].
        assert (LT : ~ xle (Fin 1) (fv ss)).
        { intros K. assert (n_ge ss one = true); [|congruence]. apply (ns_le _ _ NS). rewrite one_val. exact K. }
        apply Rnot_le_lt. intros K. apply LT. eapply xle_trans; [|exact Hs]. cbn [xle]. exact K.
Qed.

(** ** The theorem *)
Lemma signs_prod (lu lui : list (list (T N))) q (L : mat) md n : forall i, (i <= n)%nat ->
  (forall j, (j < n)%nat -> f_div one (elt z0 lu (nth j q O) j) md = (Ok (elt z0 lui j j), md)) ->
  (forall j, (j < n)%nat -> fv (elt z0 lui j j) = Fin (L j j)) ->
  prod i (fun j => L j j) <> 0 ->
  (signs lu q i = 1%Z /\ 0 < prod i (fun j => L j j)) \/ (signs lu q i = (-1)%Z /\ prod i (fun j => L j j) < 0).
Proof.
  induction i as [|i IH]; intros Hi HD HL Np; cbn [prod signs] in *; [left; split; [reflexivity|lra]|].
  assert (N1 : prod i (fun j => L j j) <> 0) by (intros E; rewrite E in Np; apply Np; ring).
  assert (N2 : L i i <> 0) by (intros E; rewrite E in Np; apply Np; ring).
  pose proof (inv_sign _ _ _ _ (HD i Hi) (HL i Hi) N2) as K.
  destruct (IH ltac:(lia) HD HL N1) as [(E & S)|(E & S)]; rewrite E;
    destruct (n_lt N (elt z0 lu (nth i q O) i) z0).
  - right. split; [reflexivity|]. assert (L i i < 0) by (apply K; reflexivity). nra.
  - left. split; [reflexivity|]. assert (~ L i i < 0) by (intros Q; apply K in Q; discriminate). nra.
  - left. split; [reflexivity|]. assert (L i i < 0) by (apply K; reflexivity). nra.
  - right. split; [reflexivity|]. assert (~ L i i < 0) by (intros Q; apply K in Q; discriminate). nra.
Qed.
Lemma runs_at {A} md (m : M A) a : runsI (eq md) m a -> m md = (Ok a, md).
Proof. intros R. destruct (R md eq_refl) as (s & <- & E). exact E. Qed.

Lemma algo2_ok n (a raw : list (list (T N))) raw1 raw2 (A : mat) md :
  square n a -> square n raw -> length raw1 = n -> length raw2 = n ->
  (forall r c, (r < n)%nat -> (c < n)%nat -> fv (elt z0 a r c) = Fin (A r c)) ->
  (forall lu q sig lui, algo2_lu n n 0 (a, seq 0 n, 1%Z) md = (Ok (Some (lu, q, sig)), md) ->
     algo2_inverse n lu q raw md = (Ok lui, md) ->
     forall r c, (r < n)%nat -> (c < n)%nat -> fv (elt z0 lui r c) <> NaN /\ fv (elt z0 lui r c) <> PInf /\ fv (elt z0 lui r c) <> NInf) ->
  exists s, det_sign_algo2 P a raw raw1 raw2 md = (Ok s, md) /\ sign_ok s (det n A).
Proof.
  intros Sa Sr L1 L2 HA HF. unfold det_sign_algo2. rewrite (proj1 Sa). cbv zeta.
  destruct (lu2_ok md n A n 0 (a, seq 0 n, 1%Z)) as (o & Ro & Ho); [lia| |].
  { split; [exact Sa|]. split; [apply perm_seq|]. exists 1%Z. split; [left; reflexivity|]. split; [|reflexivity].
    rewrite Rmult_1_l. apply det_ext. intros r c0 Hr _. rewrite seq_nth by exact Hr. reflexivity. }
  apply runs_at in Ro. unfold bind at 1. rewrite Ro.
  destruct o as [[[lu q] sig]|]; [|exists 0%Z; split; [reflexivity|right; right; reflexivity]].
  destruct Ho as (Slu & Pq & e & He & HD & Hs).
  destruct (inverse_ok md n lu raw q Slu Pq Sr) as (lui & Ri & Sl & Ed).
  apply runs_at in Ri. unfold bind at 1. rewrite Ri.
  set (L := fun r c => B2R (elt z0 lui r c : flt (p_T p))).
  assert (HL : forall r c, (r < n)%nat -> (c < n)%nat -> fv (elt z0 lui r c) = Fin (L r c)).
  { intros r c0 Hr Hc. destruct (HF lu q sig lui Ro Ri r c0 Hr Hc) as (F1 & F2 & F3). unfold L.
    destruct (fval_cases (elt z0 lui r c0 : flt (p_T p))) as [[E _]|[[E _]|[[E _]|[E _]]]]; congruence. }
  destruct (check_ok n a q lui A L Sa Pq Sl HA HL n 0 raw1 raw2 ltac:(lia) L1 L2) as (b & Rb & Kb).
  pose proof (with_rnd_runs P (fready k) H _ _ Rb) as Rw. change (pureM (with_rnd P (algo2_check P n a q lui n 0 raw1 raw2)) b) in Rw. unfold bind. rewrite Rw.
  exists (if b then sig else 0%Z). split; [reflexivity|].
  destruct b; [|right; right; reflexivity]. specialize (Kb eq_refl).
  assert (D0 : 0 < det n (mmul n (mmul n (fun r => A (nth r q O)) (upper L)) (lower L))).
  { apply det_near_id. intros i Hi. apply Kb. lia. }
  rewrite det_mul_lower in D0.
  2:{ intros i j Hij. unfold lower. destruct (Nat.eqb_spec i j); [lia|]. destruct (Nat.ltb_spec j i); [lia|reflexivity]. }
  rewrite prod_1 in D0 by (intros i _; unfold lower; rewrite Nat.eqb_refl; reflexivity).
  rewrite det_mul_upper in D0.
  2:{ intros i j Hij. unfold upper. destruct (Nat.leb_spec i j); [lia|reflexivity]. }
  rewrite (prod_ext n (fun i => upper L i i) (fun i => L i i)) in D0 by (intros i _; unfold upper; rewrite Nat.leb_refl; reflexivity).
  rewrite HD in D0. rewrite Rmult_1_l in D0.
  assert (Np : prod n (fun j => L j j) <> 0) by (intros E; rewrite E in D0; lra).
  rewrite Hs. unfold sign_ok.
  destruct (signs_prod lu lui q L md n n ltac:(lia) Ed (fun j Hj => HL j j Hj Hj) Np) as [(E & S)|(E & S)]; rewrite E;
    destruct He as [-> | ->]; cbn [Z.mul Z.opp Pos.mul].
  - left. split; [reflexivity|]. nra.
  - right. left. split; [reflexivity|]. nra.
  - right. left. split; [reflexivity|]. nra.
  - left. split; [reflexivity|]. nra.
Qed.
End Check.

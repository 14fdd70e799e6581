(** * A finer number type never gives wider results: pow and division

    Two policies, over a fine type N and a coarse type N' every number of which
    is also one of N: the same operation on arguments inside the coarse ones
    gives a result inside the coarse one. *)

From Coq Require Import Reals ZArith Lra Lia Psatz Bool.
From Verif Require Import Outcome Base Checking Interval Utility Arith Arith2 FloatNum Spec ExtR Sem
  CoreArith CoreDiv CoreMore CoreFun CorePow CoreIso.
Local Open Scope R_scope.

Section Aux.
Context {N : num} {val : T N -> ext}.
Lemma pow_nz (w v : itv N) k : valid val w -> ~ (val (low w) = Fin 0 /\ val (up w) = Fin 0) ->
  encloses val v (image1 (fun r => r ^ k) (mem val w)) ->
  valid val v /\ ~ (val (low v) = Fin 0 /\ val (up v) = Fin 0).
Proof.
  intros Hx Hz Ev.
  assert (exists r, mem val w r /\ r <> 0) as (r & Hr & Hr').
  { clear Ev v. destruct Hx as (A & B & C). unfold mem.
    destruct (val (low w)) as [| |l|], (val (up w)) as [| |u|]; simpl in *; try tauto.
    - destruct (Req_dec u 0) as [->|Hu]; [exists (-1)|exists u]; repeat split; auto; lra.
    - exists 1. repeat split; auto; lra.
    - destruct (Req_dec u 0) as [->|Hu]; [|exists u; repeat split; auto; lra].
      destruct (Req_dec l 0) as [->|Hl]; [exfalso; apply Hz; auto|exists l; repeat split; auto; lra].
    - destruct (Req_dec l 0) as [->|Hl]; [exists 1|exists l]; repeat split; auto; lra. }
  assert (Mv : mem val v (r ^ k)) by (apply Ev; exists r; auto).
  split; [eapply mem_valid; eauto|]. intros [E1 E2]. destruct Mv as [M1 M2]. rewrite E1 in M1. rewrite E2 in M2.
  pose proof (pow_nonzero r k Hr'). simpl in *. lra.
Qed.
End Aux.

Section Wide.
Context {N N' : num} {val : T N -> ext} {val' : T N' -> ext} {P : policy N} {P' : policy N'}
        {ready ready' : rmode -> Prop} (H : polspec val P ready) (H' : polspec val' P' ready')
        (W : forall t' : T N', exists t : T N, val t = val' t').
Notation V := (valid val).
Notation V' := (valid val').
Notation AS := (ps_ar _ _ _ H).
Notation AS' := (ps_ar _ _ _ H').

Lemma RD_wide e e' t t' : RD val e t -> RD val' e' t' -> xle e' e -> xle (val' t') (val t).
Proof.
  intros [_ B] [A _] L. destruct (W t') as (s & Es). rewrite <- Es in *. apply B. eapply xle_trans; eauto.
Qed.
Lemma RU_wide e e' t t' : RU val e t -> RU val' e' t' -> xle e e' -> xle (val t) (val' t').
Proof.
  intros [_ B] [A _] L. destruct (W t') as (s & Es). rewrite <- Es in *. apply B. eapply xle_trans; eauto.
Qed.
Lemma tight_wide (z : itv N) (z' : itv N') S S' : tightest val z S -> encloses val' z' S' ->
  (forall r, S r -> S' r) -> forall r, mem val z r -> mem val' z' r.
Proof.
  intros [_ T] E Inc r [M1 M2]. destruct (W (low z')) as (l & El), (W (up z')) as (u & Eu).
  destruct (T (mk l u)) as [T1 T2].
  { intros t St. destruct (E t (Inc t St)) as [A B]. unfold mem. cbn [low up]. rewrite El, Eu. auto. }
  cbn [low up] in *. rewrite El in T1. rewrite Eu in T2. split; eapply xle_trans; eauto.
Qed.

(** Two runs of the power loop, related throughout. *)
Section Rel.
Context (mul : T N -> T N -> M (T N)) (mul' : T N' -> T N' -> M (T N')) (Q : T N -> T N' -> Prop).
Context (HQ : forall x x' y y', Q x x' -> Q y y' ->
  exists z z', runsI ready (mul x y) z /\ runsI ready' (mul' x' y') z' /\ Q z z').
Lemma pow_loop_wide p : forall x x' y y', Q x x' -> Q y y' ->
  exists z z', runsI ready (pow_loop mul x y p) z /\ runsI ready' (pow_loop mul' x' y' p) z' /\ Q z z'.
Proof.
  induction p; intros x x' y y' Hx Hy; cbn [pow_loop];
  destruct (HQ x x' x x' Hx Hx) as (a & a' & Ra & Ra' & Ha).
  - destruct (HQ a a' y y' Ha Hy) as (b & b' & Rb & Rb' & Hb).
    destruct (IHp a a' b b' Ha Hb) as (z & z' & Rz & Rz' & Hz). exists z, z'.
    split; [|split; auto]; eapply runsI_bind; eauto; eapply runsI_bind; eauto.
  - destruct (IHp a a' y y' Ha Hy) as (z & z' & Rz & Rz' & Hz). exists z, z'.
    split; [|split; auto]; eapply runsI_bind; eauto.
  - destruct (HQ a a' y y' Ha Hy) as (z & z' & Rz & Rz' & Hz). exists z, z'.
    split; [|split; auto]; eapply runsI_bind; eauto.
Qed.
Lemma pow_aux_wide x x' n : Q x x' -> Q one one ->
  exists z z', runsI ready (pow_aux mul x n) z /\ runsI ready' (pow_aux mul' x' n) z' /\ Q z z'.
Proof.
  intros Hx H1. unfold pow_aux.
  assert (Hy : Q (if Z.odd n then x else one) (if Z.odd n then x' else one)) by (destruct (Z.odd n); auto).
  destruct (Z.shiftr n 1) as [|p|p].
  - do 2 eexists. split; [apply runsI_ret|split; [apply runsI_ret|exact Hy]].
  - apply pow_loop_wide; auto.
  - do 2 eexists. split; [apply runsI_ret|split; [apply runsI_ret|exact Hy]].
Qed.
End Rel.

Definition Wd (x : T N) (x' : T N') := exists a a', val x = Fin a /\ val' x' = Fin a' /\ 0 <= a' <= a.
Lemma Wd_mul x x' y y' : Wd x x' -> Wd y y' ->
  exists z z', runsI ready (mul_down (p_ar P) x y) z /\ runsI ready' (mul_down (p_ar P') x' y') z' /\ Wd z z'.
Proof.
  intros (a & a' & Ea & Ea' & Ha) (b & b' & Eb & Eb' & Hb).
  destruct (as_mul_down _ _ _ AS x y) as (z & Dz & Rz); [rewrite Ea, Eb; discriminate|].
  destruct (as_mul_down _ _ _ AS' x' y') as (z' & Dz' & Rz'); [rewrite Ea', Eb'; discriminate|].
  exists z, z'. split; auto. split; auto.
  rewrite Ea, Eb in Dz. rewrite Ea', Eb' in Dz'. simpl in Dz, Dz'.
  pose proof (Rmult_le_both a' a b' b Ha Hb) as K.
  pose proof (RD_wide _ _ _ _ Dz Dz') as L. simpl in L. specialize (L (proj2 K)).
  assert (Z0 : xle (Fin 0) (val' z')) by (apply (RD_ge0 H' _ _ Dz'); simpl; lra).
  destruct Dz as [Z1 _], Dz' as [Z1' _]. unfold Wd.
  destruct (val z) as [| |c|], (val' z') as [| |c'|]; simpl in *; try tauto. exists c, c'. auto.
Qed.
Definition Ws (x : T N) (x' : T N') := exists a a', val x = Fin a /\ val' x' = Fin a' /\ 0 <= a <= a' /\ a' <= 1.
Lemma Ws_mul x x' y y' : Ws x x' -> Ws y y' ->
  exists z z', runsI ready (mul_up (p_ar P) x y) z /\ runsI ready' (mul_up (p_ar P') x' y') z' /\ Ws z z'.
Proof.
  intros (a & a' & Ea & Ea' & Ha & Ha1) (b & b' & Eb & Eb' & Hb & Hb1).
  destruct (as_mul_up _ _ _ AS x y) as (z & Dz & Rz); [rewrite Ea, Eb; discriminate|].
  destruct (as_mul_up _ _ _ AS' x' y') as (z' & Dz' & Rz'); [rewrite Ea', Eb'; discriminate|].
  exists z, z'. split; auto. split; auto.
  rewrite Ea, Eb in Dz. rewrite Ea', Eb' in Dz'. simpl in Dz, Dz'.
  pose proof (Rmult_le_both a a' b b' Ha Hb) as K.
  pose proof (RU_wide _ _ _ _ Dz Dz') as L. simpl in L. specialize (L (proj2 K)).
  assert (Z1 : xle (val' z') (Fin 1)) by (apply (RU_le1 H' _ _ Dz'); simpl; nra).
  destruct Dz as [Z2 _]. unfold Ws.
  destruct (val z) as [| |c|], (val' z') as [| |c'|]; simpl in *; try tauto. exists c, c'. repeat split; auto. lra.
Qed.
Definition Wb (x : T N) (x' : T N') := xle (Fin 1) (val x) /\ xle (val x) (val' x').
Lemma Wb_mul x x' y y' : Wb x x' -> Wb y y' ->
  exists z z', runsI ready (mul_up (p_ar P) x y) z /\ runsI ready' (mul_up (p_ar P') x' y') z' /\ Wb z z'.
Proof.
  intros (X1 & XL) (Y1 & YL).
  assert (N1 : xmul (val x) (val y) <> NaN).
  { destruct (val x), (val y); simpl in *; xcase; try tauto; try discriminate; lra. }
  assert (N2 : xmul (val' x') (val' y') <> NaN).
  { pose proof (xle_trans _ _ _ X1 XL) as X1'. pose proof (xle_trans _ _ _ Y1 YL) as Y1'.
    clear - X1' Y1'. destruct (val' x'), (val' y'); simpl in *; xcase; try tauto; try discriminate; lra. }
  destruct (as_mul_up _ _ _ AS x y N1) as (z & Dz & Rz).
  destruct (as_mul_up _ _ _ AS' x' y' N2) as (z' & Dz' & Rz').
  exists z, z'. split; auto. split; auto. split.
  - eapply xle_trans; [|apply (proj1 Dz)].
    destruct (val x), (val y); simpl in *; xcase; try tauto; try lra. nra.
  - apply (RU_wide _ _ _ _ Dz Dz'). apply xmul_mono; auto; (eapply xle_trans; [|eassumption]); simpl; lra.
Qed.

Notation DN := (DNv (val := val) (P := P) (ready := ready)).
Notation UP := (UPv (val := val) (P := P) (ready := ready)).
Notation DN' := (DNv (val := val') (P := P') (ready := ready')).
Notation UP' := (UPv (val := val') (P := P') (ready := ready')).
Lemma DN_wide n a a' w w' : DN n (Fin a) w -> DN' n (Fin a') w' -> 0 <= a' <= a -> xle w' w.
Proof.
  intros (t & z & E & R & <-) (t' & z' & E' & R' & <-) L.
  destruct (pow_aux_wide (mul_down (p_ar P)) (mul_down (p_ar P')) Wd Wd_mul t t' n)
    as (y & y' & Ry & Ry' & (c & c' & Ec & Ec' & Hc)).
  - exists a, a'. auto.
  - exists 1, 1. rewrite (val_one H), (val_one H'). repeat split; lra.
  - rewrite (runsI_det H _ _ _ R Ry), (runsI_det H' _ _ _ R' Ry'), Ec, Ec'. simpl. lra.
Qed.
Lemma UP_wide n e e' w w' : (0 < n)%Z -> UP n e w -> UP' n e' w' -> xle (Fin 0) e -> xle e e' -> xle w w'.
Proof.
  intros Hn (t & z & E & R & <-) (t' & z' & E' & R' & <-) L0 L. subst e e'.
  assert (B1 : big (val := val') one 1). { split; [|split; [lra|]]; rewrite (val_one H'); simpl; lra. }
  destruct (xle_total (val' t') (Fin 1)) as [K|K]; [eapply xle_nnr; eauto|discriminate| |].
  - destruct (pow_aux_wide (mul_up (p_ar P)) (mul_up (p_ar P')) Ws Ws_mul t t' n)
      as (y & y' & Ry & Ry' & (c & c' & Ec & Ec' & Hc & _)).
    + unfold Ws. destruct (val t) as [| |a|], (val' t') as [| |a'|]; simpl in *; try tauto. exists a, a'. auto.
    + exists 1, 1. rewrite (val_one H), (val_one H'). repeat split; lra.
    + rewrite (runsI_det H _ _ _ R Ry), (runsI_det H' _ _ _ R' Ry'), Ec, Ec'. simpl. lra.
  - destruct (xle_total (val t) (Fin 1)) as [K'|K']; [eapply xle_nnr; eauto|discriminate| |].
    + destruct (val t) as [| |a|] eqn:Et; simpl in L0, K'; try tauto.
      destruct (pow_aux_up (small (val := val)) t a n (mul_up_small H) Hn) as (y & Ry & c & Ec & _ & Hc1).
      { exists a. repeat split; auto; lra. } { exists 1. split; [apply (val_one H)|lra]. }
      destruct (pow_aux_up (big (val := val')) t' 1 n (mul_up_big H') Hn) as (y' & Ry' & Y1 & _ & _); auto.
      { split; auto. split; [lra|auto]. }
      rewrite (runsI_det H _ _ _ R Ry), (runsI_det H' _ _ _ R' Ry'), Ec.
      eapply xle_trans; [|exact Y1]. simpl. lra.
    + destruct (pow_aux_wide (mul_up (p_ar P)) (mul_up (p_ar P')) Wb Wb_mul t t' n) as (y & y' & Ry & Ry' & (_ & Hc)).
      * split; auto.
      * split; [rewrite (val_one H); simpl; lra|rewrite (val_one H), (val_one H'); simpl; lra].
      * rewrite (runsI_det H _ _ _ R Ry), (runsI_det H' _ _ _ R' Ry'). auto.
Qed.

Lemma pow_bounds_wide n l u l' u' a b a' b' : (0 < n)%Z ->
  xle l u -> l <> PInf -> u <> NInf -> xle l' u' -> l' <> PInf -> u' <> NInf ->
  xle l' l -> xle u u' -> pow_bounds (val := val) (P := P) (ready := ready) n l u a b ->
  pow_bounds (val := val') (P := P') (ready := ready') n l' u' a' b' -> xle a' a /\ xle b b'.
Proof.
  intros Hn Lx X1 X2 Lx' X1' X2' Ll Lu B B'.
  destruct B as [a b U D Up|a b U L O Ua Ub|m b U L O Ml Mu Mc Ub|a b L Da Ub].
  - (* x < 0 *)
    destruct (fin_of_neg u U X2) as (ru & -> & Hru). simpl xopp in D.
    destruct (DNv_pos H n _ _ Hn D ltac:(lra)) as (ca & -> & Hca & _).
    assert (Pl : xle (Fin 0) (xopp l)) by (apply xopp_pos; eapply xlt_neg; eauto).
    assert (Lo : xle (xopp l) (xopp l')) by (apply xle_opp; auto).
    pose proof (UPv_pos H n _ _ Hn Up Pl) as Pb.
    destruct B' as [a' b' U' D' Up'|a' b' U' L' O' Ua' Ub'|m' b' U' L' O' Ml' Mu' Mc' Ub'|a' b' L' Da' Ub'].
    + destruct (fin_of_neg u' U' X2') as (ru' & -> & Hru'). simpl xopp in D'. simpl in Lu.
      pose proof (DN_wide n _ _ _ _ D D' ltac:(lra)) as M1.
      pose proof (UP_wide n _ _ _ _ Hn Up Up' Pl Lo) as M2.
      destruct (Z.odd n); split; try (apply xle_opp); assumption.
    + pose proof (UP_wide n _ _ _ _ Hn Up Ua' Pl Lo) as M2. rewrite O'. split; [apply xle_opp; auto|].
      pose proof (UPv_pos H' n _ _ Hn Ub' U') as P2. eapply xle_trans; [|exact P2]. simpl. lra.
    + pose proof (UP_wide n _ _ _ _ Hn Up Ub' Pl (xle_trans _ _ _ Lo Ml')) as M2. rewrite O'. split; auto.
    + exfalso. apply (not_neg_pos (Fin ru) l'); auto. eapply xle_trans; eauto.
  - (* mixed, odd *)
    pose proof (UPv_pos H n _ _ Hn Ua (xopp_pos _ L)) as Pa.
    pose proof (UPv_pos H n _ _ Hn Ub U) as Pb.
    destruct B' as [a' b' U' D' Up'|a' b' U' L' O' Ua' Ub'|m' b' U' L' O' Ml' Mu' Mc' Ub'|a' b' L' Da' Ub'].
    + exfalso. apply (not_neg_pos u' u); auto.
    + split; [apply xle_opp, (UP_wide n (xopp l) (xopp l') a a' Hn); auto using xopp_pos, xle_opp|].
      apply (UP_wide n u u' b b' Hn); auto.
    + congruence.
    + exfalso. apply (not_neg_pos l l'); auto.
  - (* mixed, even *)
    assert (Pm : xle (Fin 0) m) by (eapply xle_trans; [exact U|exact Mu]).
    destruct B' as [a' b' U' D' Up'|a' b' U' L' O' Ua' Ub'|m' b' U' L' O' Ml' Mu' Mc' Ub'|a' b' L' Da' Ub'].
    + exfalso. apply (not_neg_pos u' u); auto.
    + congruence.
    + split; [simpl; lra|]. apply (UP_wide n m m' b b' Hn); auto.
      destruct Mc as [->| ->]; [|exact (xle_trans _ _ _ Lu Mu')].
      eapply xle_trans; [|exact Ml']. apply xle_opp. auto.
    + exfalso. apply (not_neg_pos l l'); auto.
  - (* x >= 0 *)
    destruct (fin_of_pos l L X1) as (rl & -> & Hrl).
    destruct (DNv_pos H n _ _ Hn Da Hrl) as (ca & -> & Hca & _).
    assert (U : xle (Fin 0) u) by (eapply xle_trans; eauto).
    destruct B' as [a' b' U' D' Up'|a' b' U' L' O' Ua' Ub'|m' b' U' L' O' Ml' Mu' Mc' Ub'|a' b' L' Da' Ub'].
    + exfalso. apply (not_neg_pos u' u); auto.
    + split; [|apply (UP_wide n u u' b b' Hn); auto].
      eapply xle_trans; [apply xopp_neg, (UPv_pos H' n _ _ Hn Ua' (xopp_pos _ L'))|simpl; lra].
    + split; [simpl; lra|]. apply (UP_wide n u m' b b' Hn); auto. exact (xle_trans _ _ _ Lu Mu').
    + destruct (fin_of_pos l' L' X1') as (rl' & -> & Hrl'). simpl in Ll.
      split; [apply (DN_wide n rl rl'); auto; lra|apply (UP_wide n u u' b b' Hn); auto].
Qed.

Lemma incl_wide (x : itv N) (x' : itv N') : V x -> (forall r, mem val x r -> mem val' x' r) ->
  xle (val' (low x')) (val (low x)) /\ xle (val (up x)) (val' (up x')).
Proof.
  intros Vx I. split.
  - apply (wlim_lb (mem val x)); [apply slim_wlim, valid_slim_low; auto|]. intros r Hr. apply I, Hr.
  - apply (wlim_ub (mem val x)); [apply slim_wlim, valid_slim_up; auto|]. intros r Hr. apply I, Hr.
Qed.
Lemma wide_incl (x : itv N) (x' : itv N') : xle (val' (low x')) (val (low x)) -> xle (val (up x)) (val' (up x')) ->
  forall r, mem val x r -> mem val' x' r.
Proof. intros A B r [C D]. split; eapply xle_trans; eauto. Qed.

Lemma pow_pos_wide x x' n z z' : (0 < n)%Z -> V x -> V' x' -> (forall r, mem val x r -> mem val' x' r) ->
  runsP P ready (pow_pos P x n) z -> runsP P' ready' (pow_pos P' x' n) z' ->
  forall r, mem val z r -> mem val' z' r.
Proof.
  intros Hn Vx Vx' I Rz Rz'. destruct (incl_wide x x' Vx I) as [L U].
  destruct Vx as (A1 & A2 & A3) eqn:EV, Vx' as (B1 & B2 & B3) eqn:EV'. 
  apply wide_incl;
    apply (pow_bounds_wide n (val (low x)) (val (up x)) (val' (low x')) (val' (up x')) (val (low z)) (val (up z)) (val' (low z')) (val' (up z')));
    auto; apply pow_pos_char; auto; split; auto.
Qed.

(** pow for every exponent (of which the negation is representable). *)
Lemma pow_wide x x' n z z' : (int_min < n)%Z -> V x -> V' x' -> (forall r, mem val x r -> mem val' x' r) ->
  n_has_inf N = true -> n_has_inf N' = true -> (~ (val (low x) = Fin 0 /\ val (up x) = Fin 0) \/ (0 < n)%Z) ->
  runsP P ready (pow P x n) z -> runsP P' ready' (pow P' x' n) z' ->
  forall r, mem val z r -> mem val' z' r.
Proof.
  intros Hm Vx Vx' I HI HI' Hz Rz Rz'. destruct (incl_wide x x' Vx I) as [L U].
  assert (Hz' : ~ (val' (low x') = Fin 0 /\ val' (up x') = Fin 0) \/ (0 < n)%Z).
  { destruct Hz as [Hz|Hz]; [left|right; exact Hz]. intros [E1 E2]. apply Hz. rewrite E1 in L. rewrite E2 in U.
    destruct Vx as (A & B & C).
    destruct (val (low x)) as [| |l|], (val (up x)) as [| |u|]; simpl in *; try tauto. split; f_equal; lra. }
  destruct (Z.lt_trichotomy n 0) as [Hn|[->|Hn]].
  - destruct Hz as [Hz|Hz]; [|lia]. destruct Hz' as [Hz'|Hz']; [|lia].
    unfold pow in Rz, Rz'. rewrite (test_valid H) in Rz by auto. rewrite (test_valid H') in Rz' by auto.
    rewrite (proj2 (Z.eqb_neq n 0)), (proj2 (Z.ltb_lt n 0)), (proj2 (Z.eqb_neq n int_min)) in Rz, Rz' by lia.
    destruct (pow_pos_ok H x (-n)) as (y & Ry & Ey & _); auto; [lia|].
    destruct (pow_pos_ok H' x' (-n)) as (y' & Ry' & Ey' & _); auto; [lia|].
    destruct (pow_nz x y _ Vx Hz Ey) as [Vy Zy]. destruct (pow_nz x' y' _ Vx' Hz' Ey') as [Vy' Zy'].
    destruct (inverse_ok H y) as (w & Rw & Tw); auto. destruct (inverse_ok H' y') as (w' & Rw' & [Ew' _]); auto.
    pose proof (runsP_det H _ _ _ Rz (runsP_bind _ _ _ _ _ _ Ry Rw)) as ->.
    pose proof (runsP_det H' _ _ _ Rz' (runsP_bind _ _ _ _ _ _ Ry' Rw')) as ->.
    pose proof (pow_pos_wide x x' (-n) y y' ltac:(lia) Vx Vx' I Ry Ry') as Iy.
    apply (tight_wide w w' _ _ Tw Ew'). intros t (a & b & Ha & Hb & Nb & E). exists a, b. auto.
  - destruct Hz as [Hz|Hz]; [|lia]. destruct Hz' as [Hz'|Hz']; [|lia].
    destruct (pow_zero_ok H x Vx Hz) as (y & Ry & E1 & E2). destruct (pow_zero_ok H' x' Vx' Hz') as (y' & Ry' & E1' & E2').
    rewrite (runsP_det H _ _ _ Rz Ry), (runsP_det H' _ _ _ Rz' Ry'). apply wide_incl; rewrite ?E1, ?E2, ?E1', ?E2'; simpl; lra.
  - unfold pow in Rz, Rz'. rewrite (test_valid H) in Rz by auto. rewrite (test_valid H') in Rz' by auto.
    rewrite (proj2 (Z.eqb_neq n 0)), (proj2 (Z.ltb_ge n 0)) in Rz, Rz' by lia.
    exact (pow_pos_wide x x' n z z' Hn Vx Vx' I Rz Rz').
Qed.

Lemma op_div_wide x x' y y' z z' : n_has_inf N = true -> n_has_inf N' = true -> V x -> V' x' -> V y -> V' y' ->
  (forall r, mem val x r -> mem val' x' r) -> (forall r, mem val y r -> mem val' y' r) ->
  ~ (val (low y) = Fin 0 /\ val (up y) = Fin 0) ->
  runsP P ready (op_div P x y) z -> runsP P' ready' (op_div P' x' y') z' ->
  forall r, mem val z r -> mem val' z' r.
Proof.
  intros HI HI' Vx Vx' Vy Vy' Ix Iy Hz Rz Rz'.
  destruct (incl_wide x x' Vx Ix) as [Lx Ux]. destruct (incl_wide y y' Vy Iy) as [Ly Uy].
  assert (Hz' : ~ (val' (low y') = Fin 0 /\ val' (up y') = Fin 0)).
  { intros [E1 E2]. apply Hz. rewrite E1 in Ly. rewrite E2 in Uy. destruct Vy as (A & B & C).
    destruct (val (low y)) as [| |l|], (val (up y)) as [| |u|]; simpl in *; try tauto. split; f_equal; lra. }
  destruct (op_div_ok H x y Vx Vy Hz (fun _ => HI)) as (w & Rw & Ew & Tw).
  destruct (op_div_ok H' x' y' Vx' Vy' Hz' (fun _ => HI')) as (w' & Rw' & Ew' & _).
  rewrite (runsP_det H _ _ _ Rz Rw), (runsP_det H' _ _ _ Rz' Rw').
  assert (D : {xlt (val (low x)) (Fin 0) /\ val (up x) = Fin 0 /\ (val (low y) = Fin 0 \/ val (up y) = Fin 0)} +
    {~ (xlt (val (low x)) (Fin 0) /\ val (up x) = Fin 0 /\ (val (low y) = Fin 0 \/ val (up y) = Fin 0))}).
  { assert (DF : forall e, {e = Fin 0} + {e <> Fin 0}).
    { intros [| |r|]; try (right; discriminate). destruct (Req_EM_T r 0) as [->|K]; [left; auto|right; congruence]. }
    destruct (DF (val (up x))); [|right; tauto].
    destruct (DF (val (low y))); [|destruct (DF (val (up y))); [|right; tauto]];
    (destruct (val (low x)) as [| |l|]; simpl; [right; tauto|left; tauto| |right; tauto]);
    (destruct (Rlt_dec l 0); [left; tauto|right; tauto]). }
  destruct D as [(Xl & Xu & Yz)|D].
  - destruct (op_div_whole H' x' y') as (v & Rv & F1 & F2); auto.
    + eapply xlt_neg; eauto.
    + rewrite <- Xu. auto.
    + apply Iy. destruct Vy as (A & B & C). unfold mem. destruct Yz as [E|E]; rewrite E in *;
        [split; [simpl; lra|auto]|split; [auto|simpl; lra]].
    + rewrite (runsP_det H' _ _ _ Rw' Rv). intros r _. split; rewrite ?F1, ?F2; exact I.
  - apply (tight_wide w w' _ _ (Tw D) Ew'). intros t (a & b & Ha & Hb & Nb & E). exists a, b. auto.
Qed.
End Wide.

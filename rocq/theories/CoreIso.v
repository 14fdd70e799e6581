(** * Inclusion isotonicity of the operations that are not tightest: pow, division *)

From Coq Require Import Reals ZArith Lra Lia Psatz Bool.
From Verif Require Import Outcome Base Checking Interval Utility Arith Arith2 FloatNum Spec ExtR Sem
  CoreArith CoreDiv CoreMore CoreFun CorePow.
Local Open Scope R_scope.

Section Core.
Context {N : num} {val : T N -> ext} {P : policy N} {ready : rmode -> Prop}
        (H : polspec val P ready).
Notation V := (valid val).
Notation tight := (tightest val).
Notation NS := (ps_num _ _ _ H).
Notation AS := (ps_ar _ _ _ H).
Notation CS := (ps_ck _ _ _ H).
Notation val_zero := (val_zero H).
Notation val_one := (val_one H).
Notation via_rnd := (via_rnd H).

Lemma runsI_det {A} (m : M A) a b : runsI ready m a -> runsI ready m b -> a = b.
Proof.
  intros Ra Rb. destruct (as_init _ _ _ AS RUP) as (s & Hs & _).
  destruct (Ra s Hs) as (? & _ & E1), (Rb s Hs) as (? & _ & E2). congruence.
Qed.
Lemma runsP_det {A} (m : M A) a b : runsP P ready m a -> runsP P ready m b -> a = b.
Proof. intros Ra Rb. apply (runsI_det m); eapply runsP_runsI; eauto. Qed.

Lemma RD_mono e e' t t' : RD val e t -> RD val e' t' -> xle e e' -> xle (val t) (val t').
Proof. intros [A _] [_ B] L. apply B. eapply xle_trans; eauto. Qed.
Lemma RU_mono e e' t t' : RU val e t -> RU val e' t' -> xle e e' -> xle (val t) (val t').
Proof. intros [_ A] [B _] L. apply A. eapply xle_trans; eauto. Qed.

(** Two runs of the power loop, related throughout. *)
Section Rel.
Context (mul : T N -> T N -> M (T N)) (Q : T N -> T N -> Prop).
Context (HQ : forall x x' y y', Q x x' -> Q y y' ->
  exists z z', runsI ready (mul x y) z /\ runsI ready (mul x' y') z' /\ Q z z').
Lemma pow_loop_rel p : forall x x' y y', Q x x' -> Q y y' ->
  exists z z', runsI ready (pow_loop mul x y p) z /\ runsI ready (pow_loop mul x' y' p) z' /\ Q z z'.
Proof.
  induction p; intros x x' y y' Hx Hy; cbn [pow_loop];
  destruct (HQ x x' x x' Hx Hx) as (a & a' & Ra & Ra' & Ha).
  - destruct (HQ a a' y y' Ha Hy) as (b & b' & Rb & Rb' & Hb).
    destruct (IHp a a' b b' Ha Hb) as (z & z' & Rz & Rz' & Hz). exists z, z'.
    split; [|split; auto]; eapply runsI_bind; eauto; eapply runsI_bind; eauto.
  - destruct (IHp a a' y y' Ha Hy) as (z & z' & Rz & Rz' & Hz). exists z, z'.
    split; [|split; auto]; eapply runsI_bind; eauto.
  - destruct (HQ a a' y y' Ha Hy) as (z & z' & Rz & Rz' & Hz). exists z, z'.
    split; [|split; auto]; eapply runsI_bind; eauto.
Qed.
Lemma pow_aux_rel x x' n : Q x x' -> Q one one ->
  exists z z', runsI ready (pow_aux mul x n) z /\ runsI ready (pow_aux mul x' n) z' /\ Q z z'.
Proof.
  intros Hx H1. unfold pow_aux.
  assert (Hy : Q (if Z.odd n then x else one) (if Z.odd n then x' else one)) by (destruct (Z.odd n); auto).
  destruct (Z.shiftr n 1) as [|p|p].
  - do 2 eexists. split; [apply runsI_ret|split; [apply runsI_ret|exact Hy]].
  - apply pow_loop_rel; auto.
  - do 2 eexists. split; [apply runsI_ret|split; [apply runsI_ret|exact Hy]].
Qed.
End Rel.

Lemma xmul_mono a a' b b' : xle (Fin 0) a -> xle a a' -> xle (Fin 0) b -> xle b b' ->
  xmul a b <> NaN -> xmul a' b' <> NaN -> xle (xmul a b) (xmul a' b').
Proof.
  intros A0 A B0 B Na Nb.
  destruct a as [| |a|], a' as [| |a'|], b as [| |b|], b' as [| |b'|]; simpl in *; xcase; try tauto; try lra; try nra;
    try congruence.
Qed.

Definition Qd (x x' : T N) := exists a a', val x = Fin a /\ val x' = Fin a' /\ 0 <= a <= a'.
Lemma Qd_mul x x' y y' : Qd x x' -> Qd y y' ->
  exists z z', runsI ready (mul_down (p_ar P) x y) z /\ runsI ready (mul_down (p_ar P) x' y') z' /\ Qd z z'.
Proof.
  intros (a & a' & Ea & Ea' & Ha) (b & b' & Eb & Eb' & Hb).
  destruct (as_mul_down _ _ _ AS x y) as (z & Dz & Rz); [rewrite Ea, Eb; discriminate|].
  destruct (as_mul_down _ _ _ AS x' y') as (z' & Dz' & Rz'); [rewrite Ea', Eb'; discriminate|].
  exists z, z'. split; auto. split; auto.
  rewrite Ea, Eb in Dz. rewrite Ea', Eb' in Dz'. simpl in Dz, Dz'.
  pose proof (Rmult_le_both a a' b b' Ha Hb) as K.
  pose proof (RD_mono _ _ _ _ Dz Dz') as L. simpl in L. specialize (L (proj2 K)).
  assert (Z0 : xle (Fin 0) (val z)) by (apply (RD_ge0 H _ _ Dz); simpl; lra).
  destruct Dz as [Z1 _], Dz' as [Z1' _]. unfold Qd.
  destruct (val z) as [| |c|], (val z') as [| |c'|]; simpl in *; try tauto. exists c, c'. auto.
Qed.
Definition Qs (x x' : T N) := exists a a', val x = Fin a /\ val x' = Fin a' /\ 0 <= a <= a' /\ a' <= 1.
Lemma Qs_mul x x' y y' : Qs x x' -> Qs y y' ->
  exists z z', runsI ready (mul_up (p_ar P) x y) z /\ runsI ready (mul_up (p_ar P) x' y') z' /\ Qs z z'.
Proof.
  intros (a & a' & Ea & Ea' & Ha & Ha1) (b & b' & Eb & Eb' & Hb & Hb1).
  destruct (as_mul_up _ _ _ AS x y) as (z & Dz & Rz); [rewrite Ea, Eb; discriminate|].
  destruct (as_mul_up _ _ _ AS x' y') as (z' & Dz' & Rz'); [rewrite Ea', Eb'; discriminate|].
  exists z, z'. split; auto. split; auto.
  rewrite Ea, Eb in Dz. rewrite Ea', Eb' in Dz'. simpl in Dz, Dz'.
  pose proof (Rmult_le_both a a' b b' Ha Hb) as K.
  pose proof (RU_mono _ _ _ _ Dz Dz') as L. simpl in L. specialize (L (proj2 K)).
  assert (Z1 : xle (val z') (Fin 1)) by (apply (RU_le1 H _ _ Dz'); simpl; nra).
  destruct Dz as [Z2 _]. unfold Qs.
  destruct (val z) as [| |c|], (val z') as [| |c'|]; simpl in *; try tauto. exists c, c'. repeat split; auto. lra.
Qed.
Definition Qb (x x' : T N) := xle (Fin 1) (val x) /\ xle (val x) (val x').
Lemma Qb_mul x x' y y' : Qb x x' -> Qb y y' ->
  exists z z', runsI ready (mul_up (p_ar P) x y) z /\ runsI ready (mul_up (p_ar P) x' y') z' /\ Qb z z'.
Proof.
  intros (X1 & XL) (Y1 & YL).
  assert (N1 : xmul (val x) (val y) <> NaN).
  { destruct (val x), (val y); simpl in *; xcase; try tauto; try discriminate; lra. }
  assert (N2 : xmul (val x') (val y') <> NaN).
  { pose proof (xle_trans _ _ _ X1 XL) as X1'. pose proof (xle_trans _ _ _ Y1 YL) as Y1'.
    clear - X1' Y1'. destruct (val x'), (val y'); simpl in *; xcase; try tauto; try discriminate; lra. }
  destruct (as_mul_up _ _ _ AS x y N1) as (z & Dz & Rz).
  destruct (as_mul_up _ _ _ AS x' y' N2) as (z' & Dz' & Rz').
  exists z, z'. split; auto. split; auto. split.
  - eapply xle_trans; [|apply (proj1 Dz)].
    destruct (val x), (val y); simpl in *; xcase; try tauto; try lra. nra.
  - apply (RU_mono _ _ _ _ Dz Dz'). apply xmul_mono; auto; (eapply xle_trans; [|eassumption]); simpl; lra.
Qed.

(** ** Monotone bounds of powers *)
Definition DNv (n : Z) (e w : ext) := exists t z, val t = e /\ runsI ready (pow_dn P t n) z /\ val z = w.
Definition UPv (n : Z) (e w : ext) := exists t z, val t = e /\ runsI ready (pow_up P t n) z /\ val z = w.

Lemma DNv_mono n a a' w w' : DNv n (Fin a) w -> DNv n (Fin a') w' -> 0 <= a <= a' -> xle w w'.
Proof.
  intros (t & z & E & R & <-) (t' & z' & E' & R' & <-) L.
  destruct (pow_aux_rel (mul_down (p_ar P)) Qd Qd_mul t t' n) as (y & y' & Ry & Ry' & (c & c' & Ec & Ec' & Hc)).
  - exists a, a'. auto.
  - exists 1, 1. rewrite !val_one. repeat split; lra.
  - rewrite (runsI_det _ _ _ R Ry), (runsI_det _ _ _ R' Ry'), Ec, Ec'. simpl. lra.
Qed.
Lemma DNv_pos n a w : (0 < n)%Z -> DNv n (Fin a) w -> 0 <= a -> exists c, w = Fin c /\ 0 <= c <= a ^ Z.to_nat n.
Proof.
  intros Hn (t & z & E & R & <-) L. destruct (pow_dn_ok H t a n Hn E L) as (y & c & Ry & Ec & Hc).
  rewrite (runsI_det _ _ _ R Ry). eauto.
Qed.
Lemma UPv_pos n e w : (0 < n)%Z -> UPv n e w -> xle (Fin 0) e -> xle (Fin 0) w.
Proof.
  intros Hn (t & z & E & R & <-) L. rewrite <- E in L. destruct (pow_up_ok H t n Hn L) as (y & Ry & Y0 & _).
  rewrite (runsI_det _ _ _ R Ry). auto.
Qed.
Lemma UPv_mono n e e' w w' : (0 < n)%Z -> UPv n e w -> UPv n e' w' -> xle (Fin 0) e -> xle e e' -> xle w w'.
Proof.
  intros Hn (t & z & E & R & <-) (t' & z' & E' & R' & <-) L0 L. subst e e'.
  assert (B1 : big (val := val) one 1). { split; [|split; [lra|]]; rewrite val_one; simpl; lra. }
  destruct (xle_total (val t') (Fin 1)) as [K|K]; [eapply xle_nnr; eauto|discriminate| |].
  - destruct (pow_aux_rel (mul_up (p_ar P)) Qs Qs_mul t t' n) as (y & y' & Ry & Ry' & (c & c' & Ec & Ec' & Hc & _)).
    + unfold Qs. destruct (val t) as [| |a|], (val t') as [| |a'|]; simpl in *; try tauto. exists a, a'. auto.
    + exists 1, 1. rewrite !val_one. repeat split; lra.
    + rewrite (runsI_det _ _ _ R Ry), (runsI_det _ _ _ R' Ry'), Ec, Ec'. simpl. lra.
  - destruct (xle_total (val t) (Fin 1)) as [K'|K']; [eapply xle_nnr; eauto|discriminate| |].
    + destruct (val t) as [| |a|] eqn:Et; simpl in L0, K'; try tauto.
      destruct (pow_aux_up (small (val := val)) t a n (mul_up_small H) Hn) as (y & Ry & c & Ec & _ & Hc1).
      { exists a. repeat split; auto; lra. } { exists 1. split; [apply val_one|lra]. }
      destruct (pow_aux_up (big (val := val)) t' 1 n (mul_up_big H) Hn) as (y' & Ry' & Y1 & _ & _); auto.
      { split; auto. split; [lra|auto]. }
      rewrite (runsI_det _ _ _ R Ry), (runsI_det _ _ _ R' Ry'), Ec.
      eapply xle_trans; [|exact Y1]. simpl. lra.
    + destruct (pow_aux_rel (mul_up (p_ar P)) Qb Qb_mul t t' n) as (y & y' & Ry & Ry' & (_ & Hc)).
      * split; auto.
      * split; [rewrite val_one; simpl; lra|apply xle_refl; rewrite val_one; discriminate].
      * rewrite (runsI_det _ _ _ R Ry), (runsI_det _ _ _ R' Ry'). auto.
Qed.

(** ** What pow computes for a positive exponent *)
Inductive pow_bounds (n : Z) (l u : ext) : ext -> ext -> Prop :=
| PB_neg a b : xlt u (Fin 0) -> DNv n (xopp u) a -> UPv n (xopp l) b ->
    pow_bounds n l u (if Z.odd n then xopp b else a) (if Z.odd n then xopp a else b)
| PB_mixed_odd a b : xle (Fin 0) u -> xlt l (Fin 0) -> Z.odd n = true ->
    UPv n (xopp l) a -> UPv n u b -> pow_bounds n l u (xopp a) b
| PB_mixed_even m b : xle (Fin 0) u -> xlt l (Fin 0) -> Z.odd n = false ->
    xle (xopp l) m -> xle u m -> (m = xopp l \/ m = u) -> UPv n m b -> pow_bounds n l u (Fin 0) b
| PB_pos a b : xle (Fin 0) l -> DNv n l a -> UPv n u b -> pow_bounds n l u a b.

Lemma pow_pos_char x n z : (0 < n)%Z -> V x -> runsP P ready (pow_pos P x n) z ->
  pow_bounds n (val (low x)) (val (up x)) (val (low z)) (val (up z)).
Proof.
  intros Hn Hx Rz.
  assert (exists z', runsP P ready (pow_pos P x n) z' /\
    pow_bounds n (val (low x)) (val (up x)) (val (low z')) (val (up z'))) as (z' & Rz' & B).
  2:{ rewrite (runsP_det _ _ _ Rz Rz'). exact B. }
  clear z Rz. unfold pow_pos. apply via_rnd.
  pose proof (vlow_nn x Hx) as NX1. pose proof (vup_nn x Hx) as NX2.
  destruct (is_neg_case H (up x)) as [[-> X2]|[-> X2]]; auto.
  - destruct (neg_ok H (up x)) as (nu & Enu & Rnu). destruct (neg_ok H (low x)) as (nl & Enl & Rnl).
    assert (exists u, val (up x) = Fin u /\ u < 0) as (u & Eu & Hu).
    { destruct Hx as (_ & _ & K). destruct (val (up x)) as [| |u|]; simpl in *; try tauto. eauto. }
    pose proof Enu as Enu'. rewrite Eu in Enu'. simpl in Enu'.
    destruct (pow_dn_ok H nu (-u) n Hn Enu') as (yl & c & Ryl & Ec & Hc); [lra|].
    destruct (pow_up_ok H nl n Hn) as (yu & Ryu & Y0 & Hyu).
    { rewrite Enl. destruct Hx as (K & K' & _). rewrite Eu in K. destruct (val (low x)); simpl in *; try tauto; lra. }
    assert (B : pow_bounds n (val (low x)) (val (up x)) (if Z.odd n then xopp (val yu) else val yl)
                 (if Z.odd n then xopp (val yl) else val yu)).
    { apply PB_neg; auto; [exists nu, yl|exists nl, yu]; auto. }
    destruct (Z.odd n) eqn:O.
    + destruct (neg_ok H yu) as (a & Ea & Ra). destruct (neg_ok H yl) as (b & Eb & Rb).
      exists (mk a b). split; [|cbn [low up]; rewrite Ea, Eb; exact B].
      repeat (eapply runsI_bind; [first [eassumption|apply pure_runsI; eassumption]|]).
      apply runsI_mk_args; apply pure_runsI; auto.
    + exists (mk yl yu). split; [|exact B].
      repeat (eapply runsI_bind; [first [eassumption|apply pure_runsI; eassumption]|]). apply runsI_ret.
  - destruct (is_neg_case H (low x)) as [[-> X1]|[-> X1]]; auto.
    + destruct (neg_ok H (low x)) as (nl & Enl & Rnl).
      assert (NL0 : xle (Fin 0) (val nl)).
      { rewrite Enl. destruct (val (low x)); simpl in *; try tauto; lra. }
      destruct (Z.odd n) eqn:O.
      * destruct (pow_up_ok H nl n Hn NL0) as (t1 & Rt1 & T10 & Ht1).
        destruct (pow_up_ok H (up x) n Hn X2) as (t2 & Rt2 & T20 & Ht2).
        destruct (neg_ok H t1) as (a & Ea & Ra).
        exists (mk a t2). split.
        { apply runsI_mk_args; auto.
          repeat (eapply runsI_bind; [first [eassumption|apply pure_runsI; eassumption]|]).
          apply pure_runsI; auto. }
        cbn [low up]. rewrite Ea. apply PB_mixed_odd; auto; [exists nl, t1|exists (up x), t2]; auto.
      * assert (MX : xle (Fin 0) (val (std_max nl (up x))) /\ xle (val nl) (val (std_max nl (up x)))
                     /\ xle (val (up x)) (val (std_max nl (up x))) /\
                     (std_max nl (up x) = nl \/ std_max nl (up x) = up x)).
        { unfold std_max. assert (val nl <> NaN) by (eapply xle_nnr; eauto).
          destruct (lt_case H nl (up x)) as [[-> L]|[-> L]]; auto.
          - split; auto. split; [apply xlt_xle; auto|]. split; [apply xle_refl; auto|auto].
          - split; auto. split; auto. apply xle_refl; auto. }
        destruct MX as (M0 & M1 & M2 & M3).
        destruct (pow_up_ok H _ n Hn M0) as (t1 & Rt1 & T10 & Ht1).
        exists (mk zero t1). split.
        { repeat (eapply runsI_bind; [first [eassumption|apply pure_runsI; eassumption]|]). apply runsI_ret. }
        cbn [low up]. rewrite val_zero. apply (PB_mixed_even n _ _ (val (std_max nl (up x)))); auto.
        -- rewrite <- Enl. auto.
        -- rewrite <- Enl. destruct M3 as [->| ->]; auto.
        -- exists (std_max nl (up x)), t1. auto.
    + assert (exists l, val (low x) = Fin l /\ 0 <= l) as (l & El & Hl).
      { destruct Hx as (_ & K & _). destruct (val (low x)) as [| |u|]; simpl in *; try tauto. eauto. }
      destruct (pow_dn_ok H (low x) l n Hn El Hl) as (yl & c & Ryl & Ec & Hc).
      destruct (pow_up_ok H (up x) n Hn X2) as (yu & Ryu & Y0 & Hyu).
      exists (mk yl yu). split; [runs|]. apply PB_pos; auto; [exists (low x), yl|exists (up x), yu]; auto.
Qed.

Lemma xopp_pos e : xlt e (Fin 0) -> xle (Fin 0) (xopp e).
Proof. destruct e; simpl; try tauto; lra. Qed.
Lemma xopp_neg e : xle (Fin 0) e -> xle (xopp e) (Fin 0).
Proof. destruct e; simpl; try tauto; lra. Qed.
Lemma xlt_neg e e' : xle e' e -> xlt e (Fin 0) -> xlt e' (Fin 0).
Proof. destruct e, e'; simpl; try tauto; lra. Qed.
Lemma not_neg_pos e e' : xlt e (Fin 0) -> xle (Fin 0) e' -> xle e' e -> False.
Proof. destruct e, e'; simpl; try tauto; lra. Qed.
Lemma fin_of_neg e : xlt e (Fin 0) -> e <> NInf -> exists r, e = Fin r /\ r < 0.
Proof. destruct e; simpl; try tauto; eauto. Qed.
Lemma fin_of_pos e : xle (Fin 0) e -> e <> PInf -> exists r, e = Fin r /\ 0 <= r.
Proof. destruct e; simpl; try tauto; eauto. Qed.

Lemma pow_bounds_iso n l u l' u' a b a' b' : (0 < n)%Z ->
  xle l u -> l <> PInf -> u <> NInf -> xle l' u' -> l' <> PInf -> u' <> NInf ->
  xle l' l -> xle u u' -> pow_bounds n l u a b -> pow_bounds n l' u' a' b' -> xle a' a /\ xle b b'.
Proof.
  intros Hn Lx X1 X2 Lx' X1' X2' Ll Lu B B'.
  destruct B as [a b U D Up|a b U L O Ua Ub|m b U L O Ml Mu Mc Ub|a b L Da Ub].
  - (* x < 0 *)
    destruct (fin_of_neg u U X2) as (ru & -> & Hru). simpl xopp in D.
    destruct (DNv_pos n _ _ Hn D ltac:(lra)) as (ca & -> & Hca & _).
    assert (Pl : xle (Fin 0) (xopp l)) by (apply xopp_pos; eapply xlt_neg; eauto).
    assert (Lo : xle (xopp l) (xopp l')) by (apply xle_opp; auto).
    pose proof (UPv_pos n _ _ Hn Up Pl) as Pb.
    destruct B' as [a' b' U' D' Up'|a' b' U' L' O' Ua' Ub'|m' b' U' L' O' Ml' Mu' Mc' Ub'|a' b' L' Da' Ub'].
    + destruct (fin_of_neg u' U' X2') as (ru' & -> & Hru'). simpl xopp in D'. simpl in Lu.
      pose proof (DNv_mono n _ _ _ _ D' D ltac:(lra)) as M1.
      pose proof (UPv_mono n _ _ _ _ Hn Up Up' Pl Lo) as M2.
      destruct (Z.odd n); split; try (apply xle_opp); assumption.
    + pose proof (UPv_mono n _ _ _ _ Hn Up Ua' Pl Lo) as M2. rewrite O'. split; [apply xle_opp; auto|].
      pose proof (UPv_pos n _ _ Hn Ub' U') as P2. eapply xle_trans; [|exact P2]. simpl. lra.
    + pose proof (UPv_mono n _ _ _ _ Hn Up Ub' Pl (xle_trans _ _ _ Lo Ml')) as M2. rewrite O'. split; auto.
    + exfalso. apply (not_neg_pos (Fin ru) l'); auto. eapply xle_trans; eauto.
  - (* mixed, odd *)
    pose proof (UPv_pos n _ _ Hn Ua (xopp_pos _ L)) as Pa.
    pose proof (UPv_pos n _ _ Hn Ub U) as Pb.
    destruct B' as [a' b' U' D' Up'|a' b' U' L' O' Ua' Ub'|m' b' U' L' O' Ml' Mu' Mc' Ub'|a' b' L' Da' Ub'].
    + exfalso. apply (not_neg_pos u' u); auto.
    + split; [apply xle_opp, (UPv_mono n (xopp l) (xopp l') a a' Hn); auto using xopp_pos, xle_opp|].
      apply (UPv_mono n u u' b b' Hn); auto.
    + congruence.
    + exfalso. apply (not_neg_pos l l'); auto.
  - (* mixed, even *)
    assert (Pm : xle (Fin 0) m) by (eapply xle_trans; [exact U|exact Mu]).
    destruct B' as [a' b' U' D' Up'|a' b' U' L' O' Ua' Ub'|m' b' U' L' O' Ml' Mu' Mc' Ub'|a' b' L' Da' Ub'].
    + exfalso. apply (not_neg_pos u' u); auto.
    + congruence.
    + split; [simpl; lra|]. apply (UPv_mono n m m' b b' Hn); auto.
      destruct Mc as [->| ->]; [|exact (xle_trans _ _ _ Lu Mu')].
      eapply xle_trans; [|exact Ml']. apply xle_opp. auto.
    + exfalso. apply (not_neg_pos l l'); auto.
  - (* x >= 0 *)
    destruct (fin_of_pos l L X1) as (rl & -> & Hrl).
    destruct (DNv_pos n _ _ Hn Da Hrl) as (ca & -> & Hca & _).
    assert (U : xle (Fin 0) u) by (eapply xle_trans; eauto).
    destruct B' as [a' b' U' D' Up'|a' b' U' L' O' Ua' Ub'|m' b' U' L' O' Ml' Mu' Mc' Ub'|a' b' L' Da' Ub'].
    + exfalso. apply (not_neg_pos u' u); auto.
    + split; [|apply (UPv_mono n u u' b b' Hn); auto].
      eapply xle_trans; [apply xopp_neg, (UPv_pos n _ _ Hn Ua' (xopp_pos _ L'))|simpl; lra].
    + split; [simpl; lra|]. apply (UPv_mono n u m' b b' Hn); auto. exact (xle_trans _ _ _ Lu Mu').
    + destruct (fin_of_pos l' L' X1') as (rl' & -> & Hrl'). simpl in Ll.
      split; [apply (DNv_mono n rl' rl); auto; lra|apply (UPv_mono n u u' b b' Hn); auto].
Qed.

(** Inclusion of intervals through their bounds. *)
Lemma incl_bounds x x' : V x -> (forall r, mem val x r -> mem val x' r) ->
  xle (val (low x')) (val (low x)) /\ xle (val (up x)) (val (up x')).
Proof.
  intros Vx I. split.
  - apply (wlim_lb (mem val x)); [apply slim_wlim, valid_slim_low; auto|]. intros r Hr. apply I, Hr.
  - apply (wlim_ub (mem val x)); [apply slim_wlim, valid_slim_up; auto|]. intros r Hr. apply I, Hr.
Qed.
Lemma bounds_incl (x x' : itv N) : xle (val (low x')) (val (low x)) -> xle (val (up x)) (val (up x')) ->
  forall r, mem val x r -> mem val x' r.
Proof. intros A B r [C D]. split; eapply xle_trans; eauto. Qed.

Lemma pow_pos_iso x x' n z z' : (0 < n)%Z -> V x -> V x' -> (forall r, mem val x r -> mem val x' r) ->
  runsP P ready (pow_pos P x n) z -> runsP P ready (pow_pos P x' n) z' ->
  forall r, mem val z r -> mem val z' r.
Proof.
  intros Hn Vx Vx' I Rz Rz'. destruct (incl_bounds x x' Vx I) as [L U].
  destruct Vx as (A1 & A2 & A3) eqn:EV, Vx' as (B1 & B2 & B3) eqn:EV'. 
  apply bounds_incl;
    apply (pow_bounds_iso n (val (low x)) (val (up x)) (val (low x')) (val (up x')) (val (low z)) (val (up z)) (val (low z')) (val (up z')));
    auto; apply pow_pos_char; auto; split; auto.
Qed.

(** pow for every exponent (of which the negation is representable). *)
Lemma pow_iso x x' n z z' : (int_min < n)%Z -> V x -> V x' -> (forall r, mem val x r -> mem val x' r) ->
  (n_has_inf N = true) -> (~ (val (low x) = Fin 0 /\ val (up x) = Fin 0) \/ (0 < n)%Z) ->
  runsP P ready (pow P x n) z -> runsP P ready (pow P x' n) z' ->
  forall r, mem val z r -> mem val z' r.
Proof.
  intros Hm Vx Vx' I HI Hz Rz Rz'. destruct (incl_bounds x x' Vx I) as [L U].
  assert (Hz' : ~ (val (low x') = Fin 0 /\ val (up x') = Fin 0) \/ (0 < n)%Z).
  { destruct Hz as [Hz|Hz]; [left|right; exact Hz]. intros [E1 E2]. apply Hz. rewrite E1 in L. rewrite E2 in U.
    destruct Vx as (A & B & C).
    destruct (val (low x)) as [| |l|], (val (up x)) as [| |u|]; simpl in *; try tauto. split; f_equal; lra. }
  destruct (Z.lt_trichotomy n 0) as [Hn|[->|Hn]].
  - destruct Hz as [Hz|Hz]; [|lia]. destruct Hz' as [Hz'|Hz']; [|lia].
    unfold pow in Rz, Rz'. rewrite (test_valid H) in Rz by auto. rewrite (test_valid H) in Rz' by auto.
    rewrite (proj2 (Z.eqb_neq n 0)), (proj2 (Z.ltb_lt n 0)), (proj2 (Z.eqb_neq n int_min)) in Rz, Rz' by lia.
    destruct (pow_pos_ok H x (-n)) as (y & Ry & Ey & _); auto; [lia|].
    destruct (pow_pos_ok H x' (-n)) as (y' & Ry' & Ey' & _); auto; [lia|].
    assert (Nz : forall w, V w -> ~ (val (low w) = Fin 0 /\ val (up w) = Fin 0) -> exists r, mem val w r /\ r <> 0).
    { clear. intros x Hx Hz. destruct Hx as (A & B & C). unfold mem.
      destruct (val (low x)) as [| |l|], (val (up x)) as [| |u|]; simpl in *; try tauto.
      - destruct (Req_dec u 0) as [->|Hu]; [exists (-1)|exists u]; repeat split; auto; lra.
      - exists 1. repeat split; auto; lra.
      - destruct (Req_dec u 0) as [->|Hu]; [|exists u; repeat split; auto; lra].
        destruct (Req_dec l 0) as [->|Hl]; [exfalso; apply Hz; auto|exists l; repeat split; auto; lra].
      - destruct (Req_dec l 0) as [->|Hl]; [exists 1|exists l]; repeat split; auto; lra. }
    assert (K : forall w v, V w -> ~ (val (low w) = Fin 0 /\ val (up w) = Fin 0) ->
       encloses val v (image1 (fun r => r ^ Z.to_nat (-n)) (mem val w)) ->
       V v /\ ~ (val (low v) = Fin 0 /\ val (up v) = Fin 0)).
    { intros w v Hw Hwz Ev. destruct (Nz w Hw Hwz) as (r & Hr & Hr').
      assert (Mv : mem val v (r ^ Z.to_nat (-n))) by (apply Ev; exists r; auto).
      split; [eapply mem_valid; eauto|]. intros [E1 E2]. destruct Mv as [M1 M2]. rewrite E1 in M1. rewrite E2 in M2.
      pose proof (pow_nonzero r (Z.to_nat (-n)) Hr'). simpl in *. lra. }
    destruct (K x y Vx Hz Ey) as [Vy Zy]. destruct (K x' y' Vx' Hz' Ey') as [Vy' Zy'].
    destruct (inverse_ok H y) as (w & Rw & Tw); auto. destruct (inverse_ok H y') as (w' & Rw' & [Ew' _]); auto.
    pose proof (runsP_det _ _ _ Rz (runsP_bind _ _ _ _ _ _ Ry Rw)) as ->.
    pose proof (runsP_det _ _ _ Rz' (runsP_bind _ _ _ _ _ _ Ry' Rw')) as ->.
    pose proof (pow_pos_iso x x' (-n) y y' ltac:(lia) Vx Vx' I Ry Ry') as Iy.
    destruct Tw as [_ Tw]. destruct (Tw w') as [T1 T2].
    { intros t (a & b & Ha & Hb & Nb & E). apply Ew'. exists a, b. auto. }
    apply bounds_incl; auto.
  - destruct Hz as [Hz|Hz]; [|lia]. destruct Hz' as [Hz'|Hz']; [|lia].
    destruct (pow_zero_ok H x Vx Hz) as (y & Ry & E1 & E2). destruct (pow_zero_ok H x' Vx' Hz') as (y' & Ry' & E1' & E2').
    rewrite (runsP_det _ _ _ Rz Ry), (runsP_det _ _ _ Rz' Ry'). apply bounds_incl; rewrite ?E1, ?E2, ?E1', ?E2'; simpl; lra.
  - unfold pow in Rz, Rz'. rewrite (test_valid H) in Rz by auto. rewrite (test_valid H) in Rz' by auto.
    rewrite (proj2 (Z.eqb_neq n 0)), (proj2 (Z.ltb_ge n 0)) in Rz, Rz' by lia.
    exact (pow_pos_iso x x' n z z' Hn Vx Vx' I Rz Rz').
Qed.

(** ** Division: when a zero-bounded numerator loses tightness the result is the whole line *)
Lemma op_div_whole x y : n_has_inf N = true -> V x -> V y ->
  xlt (val (low x)) (Fin 0) -> xle (Fin 0) (val (up x)) -> mem val y 0 ->
  ~ (val (low y) = Fin 0 /\ val (up y) = Fin 0) ->
  exists z, runsP P ready (op_div P x y) z /\ val (low z) = NInf /\ val (up z) = PInf.
Proof.
  intros HI Hx Hy Xl Xu M0 Hz. unfold op_div. rewrite (test_valid2 H) by auto.
  rewrite (proj2 (zero_in_iff H y Hy) M0).
  assert (ZX : is_zero (low x) = false).
  { destruct (is_zero_case H (low x)) as [[_ E]|[E _]]; auto. rewrite E in Xl. simpl in Xl. lra. }
  assert (NU : is_neg (up x) = false).
  { destruct (is_neg_case H (up x) (vup_nn x Hx)) as [[_ E]|[E _]]; auto. exfalso. exact (xlt_nle _ _ E Xu). }
  assert (NL : is_neg (low x) = true) by (apply (is_neg_iff H); auto).
  destruct (cs_neg_inf _ _ CS HI) as (ni & Eni & Rni). destruct (cs_pos_inf _ _ CS HI) as (pi & Epi & Rpi).
  destruct (is_zero_case H (low y)) as [[-> A]|[-> A]];
  destruct (is_zero_case H (up y)) as [[-> B]|[-> B]]; simpl; try tauto.
  - unfold div_positive. rewrite ZX. cbn [andb]. apply via_rnd. rewrite NU, NL. exists (mk ni pi). split; [runs|auto].
  - unfold div_negative. rewrite ZX. cbn [andb]. apply via_rnd. rewrite NU, NL. exists (mk ni pi). split; [runs|auto].
  - unfold div_zero. rewrite ZX. cbn [andb]. destruct (i_whole_runs H HI) as (z & Rz & F1 & F2).
    exists z. split; [apply pure_runsP; auto|auto].
Qed.
Lemma op_div_iso x x' y y' z z' : n_has_inf N = true -> V x -> V x' -> V y -> V y' ->
  (forall r, mem val x r -> mem val x' r) -> (forall r, mem val y r -> mem val y' r) ->
  ~ (val (low y) = Fin 0 /\ val (up y) = Fin 0) ->
  runsP P ready (op_div P x y) z -> runsP P ready (op_div P x' y') z' ->
  forall r, mem val z r -> mem val z' r.
Proof.
  intros HI Vx Vx' Vy Vy' Ix Iy Hz Rz Rz'.
  destruct (incl_bounds x x' Vx Ix) as [Lx Ux]. destruct (incl_bounds y y' Vy Iy) as [Ly Uy].
  assert (Hz' : ~ (val (low y') = Fin 0 /\ val (up y') = Fin 0)).
  { intros [E1 E2]. apply Hz. rewrite E1 in Ly. rewrite E2 in Uy. destruct Vy as (A & B & C).
    destruct (val (low y)) as [| |l|], (val (up y)) as [| |u|]; simpl in *; try tauto. split; f_equal; lra. }
  destruct (op_div_ok H x y Vx Vy Hz (fun _ => HI)) as (w & Rw & Ew & Tw).
  destruct (op_div_ok H x' y' Vx' Vy' Hz' (fun _ => HI)) as (w' & Rw' & Ew' & _).
  rewrite (runsP_det _ _ _ Rz Rw), (runsP_det _ _ _ Rz' Rw').
  assert (D : {xlt (val (low x)) (Fin 0) /\ val (up x) = Fin 0 /\ (val (low y) = Fin 0 \/ val (up y) = Fin 0)} +
    {~ (xlt (val (low x)) (Fin 0) /\ val (up x) = Fin 0 /\ (val (low y) = Fin 0 \/ val (up y) = Fin 0))}).
  { assert (DF : forall e, {e = Fin 0} + {e <> Fin 0}).
    { intros [| |r|]; try (right; discriminate). destruct (Req_EM_T r 0) as [->|K]; [left; auto|right; congruence]. }
    destruct (DF (val (up x))); [|right; tauto].
    destruct (DF (val (low y))); [|destruct (DF (val (up y))); [|right; tauto]];
    (destruct (val (low x)) as [| |l|]; simpl; [right; tauto|left; tauto| |right; tauto]);
    (destruct (Rlt_dec l 0); [left; tauto|right; tauto]). }
  destruct D as [(Xl & Xu & Yz)|D].
  - destruct (op_div_whole x' y') as (v & Rv & F1 & F2); auto.
    + eapply xlt_neg; eauto.
    + rewrite <- Xu. auto.
    + apply Iy. destruct Vy as (A & B & C). unfold mem. destruct Yz as [E|E]; rewrite E in *;
        [split; [simpl; lra|auto]|split; [auto|simpl; lra]].
    + rewrite (runsP_det _ _ _ Rw' Rv). intros r _. split; rewrite ?F1, ?F2; exact I.
  - destruct (Tw D) as [_ T]. destruct (T w') as [T1 T2].
    { intros t (a & b & Ha & Hb & Nb & E). apply Ew'. exists a, b. auto. }
    apply bounds_incl; auto.
Qed.
End Core.

(** * pow returns the exact interval when its bounds are representable *)

From Coq Require Import Reals ZArith Lra Lia Psatz Bool List.
From Verif Require Import Outcome Base Checking Interval Utility Arith Arith2 FloatNum Spec ExtR Sem
  CoreArith CoreDiv CoreMore CoreFun CorePow.
Local Open Scope R_scope.

Section Core.
Context {N : num} {val : T N -> ext} {P : policy N} {ready : rmode -> Prop}
        (H : polspec val P ready).
Notation V := (valid val).
Notation AS := (ps_ar _ _ _ H).
Notation via_rnd := (via_rnd H).
Definition repr (r : R) : Prop := exists t : T N, val t = Fin r.
(** Powers between a number and a representable power are representable. *)
Context (Hrep : forall r n k, repr r -> repr (r ^ n) -> (1 <= k <= n)%nat -> repr (r ^ k)).

Lemma RD_repr r t : RD val (Fin r) t -> repr r -> val t = Fin r.
Proof.
  intros [A B] (u & E). specialize (B u). rewrite E in B. specialize (B (Rle_refl r)).
  destruct (val t); simpl in A, B; try tauto. f_equal. lra.
Qed.
Lemma RU_repr r t : RU val (Fin r) t -> repr r -> val t = Fin r.
Proof.
  intros [A B] (u & E). specialize (B u). rewrite E in B. specialize (B (Rle_refl r)).
  destruct (val t); simpl in A, B; try tauto. f_equal. lra.
Qed.

Section Loop.
Context (mul : T N -> T N -> M (T N)) (a : R) (n : nat).
Context (Hmul : forall x y i j, val x = Fin (a ^ i) -> val y = Fin (a ^ j) -> (1 <= i + j <= n)%nat ->
  exists z, runsI ready (mul x y) z /\ val z = Fin (a ^ (i + j))).
Lemma loop_exact p : forall x y i j, (1 <= i)%nat -> val x = Fin (a ^ i) -> val y = Fin (a ^ j) -> (i * (2 * Pos.to_nat p) + j <= n)%nat ->
  exists z, runsI ready (pow_loop mul x y p) z /\ val z = Fin (a ^ (i * (2 * Pos.to_nat p) + j)).
Proof.
  induction p; intros x y i j Hi Ex Ey Hn; cbn [pow_loop];
  try (pose proof (Pos2Nat.is_pos p) as Pp); rewrite ?Pos2Nat.inj_xO, ?Pos2Nat.inj_xI in Hn |- *; try (change (Pos.to_nat 1) with 1%nat in Hn |- *);
  (destruct (Hmul x x i i Ex Ex) as (x' & Rx & Ex'); [nia|]).
  - destruct (Hmul x' y (i + i) j Ex' Ey) as (y' & Ry & Ey'); [nia|].
    destruct (IHp x' y' (i + i)%nat (i + i + j)%nat ltac:(lia) Ex' Ey') as (z & Rz & Ez); [nia|].
    exists z. split; [eapply runsI_bind; eauto; eapply runsI_bind; eauto|]. rewrite Ez. do 2 f_equal. nia.
  - destruct (IHp x' y (i + i)%nat j ltac:(lia) Ex' Ey) as (z & Rz & Ez); [nia|].
    exists z. split; [eapply runsI_bind; eauto|]. rewrite Ez. do 2 f_equal. nia.
  - destruct (Hmul x' y (i + i) j Ex' Ey) as (z & Rz & Ez); [lia|].
    exists z. split; [eapply runsI_bind; eauto|]. rewrite Ez. do 2 f_equal. lia.
Qed.
Lemma aux_exact x : (0 < n)%nat -> val x = Fin a -> exists z, runsI ready (pow_aux mul x (Z.of_nat n)) z /\ val z = Fin (a ^ n).
Proof.
  intros Hn Ex. unfold pow_aux. rewrite <- Z.div2_spec. pose proof (Zdiv2_odd_eqn (Z.of_nat n)) as E.
  set (j := if Z.odd (Z.of_nat n) then 1%nat else 0%nat).
  assert (Ey : val (if Z.odd (Z.of_nat n) then x else one) = Fin (a ^ j)).
  { unfold j. destruct Z.odd; [rewrite pow_1; exact Ex|]. rewrite (val_one H). reflexivity. }
  assert (Ej : Z.of_nat j = if Z.odd (Z.of_nat n) then 1%Z else 0%Z) by (unfold j; destruct Z.odd; reflexivity).
  destruct (Z.div2 (Z.of_nat n)) as [|p|p].
  - eexists. split; [apply runsI_ret|]. rewrite Ey. do 2 f_equal. lia.
  - destruct (loop_exact p x _ 1 j ltac:(lia) (eq_trans Ex (f_equal Fin (eq_sym (pow_1 a)))) Ey) as (z & Rz & Ez); [lia|].
    exists z. split; [exact Rz|]. rewrite Ez. do 2 f_equal. lia.
  - exfalso. destruct (Z.odd (Z.of_nat n)); lia.
Qed.
End Loop.
Lemma pow_dn_exact x a n : (0 < n)%Z -> val x = Fin a -> repr (a ^ Z.to_nat n) ->
  exists z, runsI ready (pow_dn P x n) z /\ val z = Fin (a ^ Z.to_nat n).
Proof.
  intros Hn Ex Hr. unfold pow_dn. pose proof (aux_exact (mul_down (p_ar P)) a (Z.to_nat n)) as A. rewrite Z2Nat.id in A by lia. apply A; clear A; [|lia|exact Ex].
  intros u v i j Eu Ev Hij. destruct (as_mul_down _ _ _ AS u v) as (z & Rz & Ez); [rewrite Eu, Ev; discriminate|].
  exists z. split; [exact Ez|]. rewrite Eu, Ev in Rz. cbn [xmul] in Rz. rewrite <- pow_add in Rz. apply (RD_repr _ _ Rz).
  apply (Hrep a (Z.to_nat n)); auto. exists x; exact Ex.
Qed.
Lemma pow_up_exact x a n : (0 < n)%Z -> val x = Fin a -> repr (a ^ Z.to_nat n) ->
  exists z, runsI ready (pow_up P x n) z /\ val z = Fin (a ^ Z.to_nat n).
Proof.
  intros Hn Ex Hr. unfold pow_up. pose proof (aux_exact (mul_up (p_ar P)) a (Z.to_nat n)) as A. rewrite Z2Nat.id in A by lia. apply A; clear A; [|lia|exact Ex].
  intros u v i j Eu Ev Hij. destruct (as_mul_up _ _ _ AS u v) as (z & Rz & Ez); [rewrite Eu, Ev; discriminate|].
  exists z. split; [exact Ez|]. rewrite Eu, Ev in Rz. cbn [xmul] in Rz. rewrite <- pow_add in Rz. apply (RU_repr _ _ Rz).
  apply (Hrep a (Z.to_nat n)); auto. exists x; exact Ex.
Qed.
(** An infinite argument has an infinite power. *)
Lemma pow_up_inf x n : (0 < n)%Z -> val x = PInf -> exists z, runsI ready (pow_up P x n) z /\ val z = PInf.
Proof.
  intros Hn Ex. destruct (pow_up_ok H x n Hn) as (z & Rz & Z0 & Hz); [rewrite Ex; exact Logic.I|].
  exists z. split; [exact Rz|]. rewrite Ex in Hz. destruct (val z) as [| |c|] eqn:Ec; try reflexivity; try (exfalso; exact Z0).
  exfalso. simpl in Z0. specialize (Hz (1 + c) ltac:(lra) Logic.I). simpl in Hz.
  assert (1 + c <= (1 + c) ^ Z.to_nat n); [|lra]. rewrite <- (pow_1 (1 + c)) at 1. apply Rle_pow; [lra|lia].
Qed.

(** Bounds of an interval that denotes a set. *)
Lemma up_max w S m : denotes val w S -> S m -> (forall s, S s -> s <= m) -> val (up w) = Fin m.
Proof.
  intros D Sm Mx. destruct (proj2 (D m) Sm) as [L U]. destruct (val (up w)) as [| |c|] eqn:Eu; simpl in U; try tauto.
  - f_equal. apply Rle_antisym; [|exact U]. apply Mx, D. split; [|rewrite Eu; simpl; lra]. eapply xle_trans; [exact L|]. exact U.
  - exfalso. assert (m + 1 <= m); [|lra]. apply Mx, D. split; [|rewrite Eu; exact Logic.I]. eapply xle_trans; [exact L|]. simpl. lra.
Qed.
Lemma low_min w S m : denotes val w S -> S m -> (forall s, S s -> m <= s) -> val (low w) = Fin m.
Proof.
  intros D Sm Mx. destruct (proj2 (D m) Sm) as [L U]. destruct (val (low w)) as [| |c|] eqn:Eu; simpl in L; try tauto.
  - exfalso. assert (m <= m - 1); [|lra]. apply Mx, D. split; [rewrite Eu; exact Logic.I|]. eapply xle_trans; [|exact U]. simpl. lra.
  - f_equal. apply Rle_antisym; [exact L|]. apply Mx, D. split; [rewrite Eu; simpl; lra|]. eapply xle_trans; [|exact U]. exact L.
Qed.
Lemma up_inf w S : denotes val w S -> (forall b, exists s, S s /\ b < s) -> val (up w) = PInf.
Proof.
  intros D Un. destruct (Un 0) as (s & Ss & _). destruct (proj2 (D s) Ss) as [_ U]. destruct (val (up w)) as [| |c|] eqn:Eu; simpl in U; try tauto.
  exfalso. destruct (Un c) as (q & Sq & Hq). apply D in Sq. destruct Sq as [_ U']. rewrite Eu in U'. simpl in U'. lra.
Qed.
Lemma low_inf w S : denotes val w S -> (forall b, exists s, S s /\ s < b) -> val (low w) = NInf.
Proof.
  intros D Un. destruct (Un 0) as (s & Ss & _). destruct (proj2 (D s) Ss) as [U _]. destruct (val (low w)) as [| |c|] eqn:Eu; simpl in U; try tauto.
  exfalso. destruct (Un c) as (q & Sq & Hq). apply D in Sq. destruct Sq as [U' _]. rewrite Eu in U'. simpl in U'. lra.
Qed.

(** The power of a bound. *)
Definition xpw (n : nat) (e : ext) : ext := match e with Fin a => Fin (a ^ n) | _ => e end.
Lemma pow_up_x x n : (0 < n)%Z -> xle (Fin 0) (val x) -> (forall a, val x = Fin a -> repr (a ^ Z.to_nat n)) ->
  exists z, runsI ready (pow_up P x n) z /\ val z = xpw (Z.to_nat n) (val x).
Proof.
  intros Hn H0 Hr. destruct (val x) as [| |a|] eqn:Ex; simpl in H0; try tauto.
  - apply pow_up_exact; auto.
  - apply pow_up_inf; auto.
Qed.
Lemma grows n b : (0 < n)%nat -> b < (1 + Rabs b) ^ n.
Proof.
  intros Hn. assert (1 + Rabs b <= (1 + Rabs b) ^ n).
  { rewrite <- (pow_1 (1 + Rabs b)) at 1. apply Rle_pow; [pose proof (Rabs_pos b); lra|lia]. }
  pose proof (Rle_abs b). lra.
Qed.
Lemma odd_mono n r s : (0 < n)%Z -> Z.odd n = true -> r <= s -> r ^ Z.to_nat n <= s ^ Z.to_nat n.
Proof.
  intros Hn O L. destruct (Rle_or_lt 0 r); [apply pow_incr_0; lra|].
  replace r with (- - r) by lra. rewrite (pow_odd_opp (- r) n O Hn). destruct (Rle_or_lt 0 s) as [Ls|Ls].
  - pose proof (pow_le (- r) (Z.to_nat n) ltac:(lra)). pose proof (pow_le s (Z.to_nat n) Ls). lra.
  - replace s with (- - s) by lra. rewrite (pow_odd_opp (- s) n O Hn). pose proof (pow_incr_0 (- s) (- r) (Z.to_nat n)). lra.
Qed.
Notation powers n x := (image1 (fun r => r ^ Z.to_nat n) (mem val x)).
Lemma repr_opp r : repr (- r) -> repr r.
Proof. intros (t & E). destruct (neg_ok H t) as (u & Eu & _). exists u. rewrite Eu, E. simpl. f_equal. lra. Qed.

Lemma up_mem x u : V x -> val (up x) = Fin u -> mem val x u.
Proof. intros (A & B & C) E. rewrite E in A. split; rewrite ?E; simpl; [exact A|lra]. Qed.
Lemma low_mem x l : V x -> val (low x) = Fin l -> mem val x l.
Proof. intros (A & B & C) E. rewrite E in A. split; rewrite ?E; simpl; [lra|exact A]. Qed.
Lemma up_grow x b : V x -> val (up x) = PInf -> exists r, mem val x r /\ b <= r.
Proof.
  intros (A & B & C) E. rewrite E in *. destruct (val (low x)) as [| |l|] eqn:El; simpl in A; try tauto.
  - exists b. split; [split; rewrite ?El, ?E; exact Logic.I|lra].
  - exists (Rmax l b). split; [split; rewrite ?El, ?E; simpl; auto; apply Rmax_l|apply Rmax_r].
Qed.
Lemma low_grow x b : V x -> val (low x) = NInf -> exists r, mem val x r /\ r <= b.
Proof.
  intros (A & B & C) E. rewrite E in *. destruct (val (up x)) as [| |l|] eqn:El; simpl in A; try tauto.
  - exists (Rmin l b). split; [split; rewrite ?El, ?E; simpl; auto; apply Rmin_l|apply Rmin_r].
  - exists b. split; [split; rewrite ?El, ?E; exact Logic.I|lra].
Qed.

(** The bounds of the powers, by sign. *)
Lemma odd_bounds x n w : (0 < n)%Z -> Z.odd n = true -> V x -> denotes val w (powers n x) ->
  val (low w) = xpw (Z.to_nat n) (val (low x)) /\ val (up w) = xpw (Z.to_nat n) (val (up x)).
Proof.
  intros Hn O Hx D. pose proof Hx as (Hle & Hl & Hu). split.
  - destruct (val (low x)) as [| |l|] eqn:E; try (simpl in Hle; tauto).
    + apply (low_inf w _ D). intros b. destruct (low_grow x (- (1 + Rabs b)) Hx E) as (r & Mr & Lr).
      exists (r ^ Z.to_nat n). split; [exists r; auto|]. pose proof (odd_mono n _ _ Hn O Lr) as K. rewrite (pow_odd_opp _ n O Hn) in K.
      pose proof (grows (Z.to_nat n) (- b) ltac:(lia)) as G. rewrite Rabs_Ropp in G. lra.
    + apply (low_min w _ (l ^ Z.to_nat n) D); [exists l; split; [apply low_mem; auto|reflexivity]|].
      intros s (r & [R1 _] & ->). rewrite E in R1. apply odd_mono; auto.
  - destruct (val (up x)) as [| |u|] eqn:E; try (destruct (val (low x)); simpl in Hle; tauto).
    + apply (up_max w _ (u ^ Z.to_nat n) D); [exists u; split; [apply up_mem; auto|reflexivity]|].
      intros s (r & [_ R1] & ->). rewrite E in R1. apply odd_mono; auto.
    + apply (up_inf w _ D). intros b. destruct (up_grow x (1 + Rabs b) Hx E) as (r & Mr & Lr).
      exists (r ^ Z.to_nat n). split; [exists r; auto|]. pose proof (odd_mono n _ _ Hn O Lr) as K.
      pose proof (grows (Z.to_nat n) b ltac:(lia)). lra.
Qed.
Lemma pos_bounds x n w : (0 < n)%Z -> xle (Fin 0) (val (low x)) -> V x -> denotes val w (powers n x) ->
  val (low w) = xpw (Z.to_nat n) (val (low x)) /\ val (up w) = xpw (Z.to_nat n) (val (up x)).
Proof.
  intros Hn H0 Hx D. pose proof Hx as (Hle & Hl & Hu). destruct (val (low x)) as [| |l|] eqn:El; try (simpl in H0; tauto). simpl in H0. split.
  - apply (low_min w _ (l ^ Z.to_nat n) D); [exists l; split; [apply low_mem; auto|reflexivity]|].
    intros s (r & [R1 _] & ->). rewrite El in R1. simpl in R1. apply pow_incr_0. lra.
  - destruct (val (up x)) as [| |u|] eqn:E; try (simpl in Hle; tauto).
    + apply (up_max w _ (u ^ Z.to_nat n) D); [exists u; split; [apply up_mem; auto|reflexivity]|].
      intros s (r & [R0 R1] & ->). rewrite E in R1. rewrite El in R0. simpl in R0, R1. apply pow_incr_0. lra.
    + apply (up_inf w _ D). intros b. destruct (up_grow x (1 + Rabs b) Hx E) as (r & Mr & Lr).
      exists (r ^ Z.to_nat n). split; [exists r; auto|]. pose proof (grows (Z.to_nat n) b ltac:(lia)).
      pose proof (pow_incr_0 (1 + Rabs b) r (Z.to_nat n)). pose proof (Rabs_pos b). lra.
Qed.
(** Even powers of an interval and of its opposite are the same. *)
Lemma neg_powers x y n : (0 < n)%Z -> Z.odd n = false -> val (low y) = xopp (val (up x)) -> val (up y) = xopp (val (low x)) ->
  forall t, powers n y t <-> powers n x t.
Proof.
  intros Hn O A B t.
  assert (M : forall r, mem val y r <-> mem val x (- r)).
  { intros r. unfold mem. rewrite A, B. destruct (val (low x)), (val (up x)); simpl; split; intros []; split; try tauto; lra. }
  split; intros (r & Mr & ->).
  - exists (- r). split; [apply M, Mr|]. symmetry. apply pow_even_opp; auto.
  - exists (- r). split; [apply M; rewrite Ropp_involutive; exact Mr|]. symmetry. apply pow_even_opp; auto.
Qed.

Lemma even_abs n r : (0 < n)%Z -> Z.odd n = false -> r ^ Z.to_nat n = Rabs r ^ Z.to_nat n.
Proof. intros Hn O. unfold Rabs. destruct (Rcase_abs r); auto. symmetry. apply pow_even_opp; auto. Qed.
Lemma repr_bound w n e : (val w = xpw n e) -> forall a, e = Fin a -> repr (a ^ n).
Proof. intros E a ->. exists w. exact E. Qed.

Lemma pow_pos_exact x n w : (0 < n)%Z -> V x -> denotes val w (powers n x) ->
  exists z, runsP P ready (pow_pos P x n) z /\ val (low z) = val (low w) /\ val (up z) = val (up w).
Proof.
  intros Hn Hx D. unfold pow_pos. apply via_rnd.
  pose proof (vlow_nn x Hx) as NX1. pose proof (vup_nn x Hx) as NX2.
  destruct (is_neg_case H (up x)) as [[-> X2]|[-> X2]]; auto.
  - destruct (neg_ok H (up x)) as (nu & Enu & Rnu). destruct (neg_ok H (low x)) as (nl & Enl & Rnl).
    assert (exists u, val (up x) = Fin u /\ u < 0) as (u & Eu & Hu).
    { destruct Hx as (_ & _ & K). destruct (val (up x)) as [| |u|]; simpl in *; try tauto. eauto. }
    rewrite Eu in Enu. simpl in Enu.
    assert (NL0 : xle (Fin 0) (val nl)).
    { rewrite Enl. destruct Hx as (K & K' & _). rewrite Eu in K. destruct (val (low x)); simpl in *; try tauto; lra. }
    destruct (Z.odd n) eqn:O.
    + destruct (odd_bounds x n w Hn O Hx D) as [Bl Bu]. rewrite Eu in Bu. simpl in Bu.
      destruct (pow_dn_exact nu (- u) n Hn Enu) as (yl & Ryl & Eyl).
      { rewrite (pow_odd_opp u n O Hn). apply repr_opp. rewrite Ropp_involutive. exists (up w). exact Bu. }
      destruct (pow_up_x nl n Hn NL0) as (yu & Ryu & Eyu).
      { intros a Ea. rewrite Enl in Ea. destruct (val (low x)) as [| |l|] eqn:El; try discriminate. simpl in Ea, Bl.
        injection Ea as <-. rewrite (pow_odd_opp l n O Hn). apply repr_opp. rewrite Ropp_involutive. exists (low w). exact Bl. }
      destruct (neg_ok H yu) as (a & Ea & Ra). destruct (neg_ok H yl) as (b & Eb & Rb).
      exists (mk a b). split.
      { repeat (eapply runsI_bind; [first [eassumption|apply pure_runsI; eassumption]|]).
        apply runsI_mk_args; apply pure_runsI; auto. }
      cbn [low up]. rewrite Ea, Eb, Eyu, Eyl, Enl, Bl, Bu, (pow_odd_opp u n O Hn). split; [|simpl; f_equal; lra].
      destruct (val (low x)) as [| |l|]; simpl; try reflexivity. f_equal. rewrite (pow_odd_opp l n O Hn). lra.
    + assert (Ne : forall t, powers n (mk nu nl) t <-> powers n x t) by (apply neg_powers; auto; cbn [low up]; rewrite ?Enu, ?Enl, ?Eu; reflexivity).
      assert (Vn : V (mk nu nl)).
      { destruct Hx as (K1 & K2 & K3). split; [|split]; cbn [low up]; rewrite ?Enu, ?Enl; try discriminate.
        - rewrite Eu in K1. destruct (val (low x)); simpl in *; try tauto; lra.
        - destruct (val (low x)); simpl; congruence. }
      destruct (pos_bounds (mk nu nl) n w Hn) as [Bl Bu]; auto.
      { cbn [low]. rewrite Enu. simpl. lra. }
      { intros t. rewrite (D t), Ne. tauto. }
      cbn [low up] in Bl, Bu.
      destruct (pow_dn_exact nu (- u) n Hn Enu) as (yl & Ryl & Eyl); [exists (low w); rewrite Bl, Enu; reflexivity|].
      destruct (pow_up_x nl n Hn NL0 (repr_bound _ _ _ Bu)) as (yu & Ryu & Eyu).
      exists (mk yl yu). split.
      { repeat (eapply runsI_bind; [first [eassumption|apply pure_runsI; eassumption]|]). apply runsI_ret. }
      cbn [low up]. rewrite Eyl, Eyu, Bl, Bu, Enu. split; reflexivity.
  - destruct (is_neg_case H (low x)) as [[-> X1]|[-> X1]]; auto.
    + destruct (neg_ok H (low x)) as (nl & Enl & Rnl).
      assert (NL0 : xle (Fin 0) (val nl)).
      { rewrite Enl. destruct (val (low x)); simpl in *; try tauto; lra. }
      destruct (Z.odd n) eqn:O.
      * destruct (odd_bounds x n w Hn O Hx D) as [Bl Bu].
        destruct (pow_up_x nl n Hn NL0) as (t1 & Rt1 & Et1).
        { intros a Ea. rewrite Enl in Ea. destruct (val (low x)) as [| |l|] eqn:El; try discriminate. simpl in Ea, Bl.
          injection Ea as <-. rewrite (pow_odd_opp l n O Hn). apply repr_opp. rewrite Ropp_involutive. exists (low w). exact Bl. }
        destruct (pow_up_x (up x) n Hn X2 (repr_bound _ _ _ Bu)) as (t2 & Rt2 & Et2).
        destruct (neg_ok H t1) as (a & Ea & Ra).
        exists (mk a t2). split.
        { apply runsI_mk_args; auto.
          repeat (eapply runsI_bind; [first [eassumption|apply pure_runsI; eassumption]|]).
          apply pure_runsI; auto. }
        cbn [low up]. rewrite Ea, Et1, Et2, Enl, Bl, Bu. split; [|reflexivity].
        destruct (val (low x)) as [| |l|]; simpl; try reflexivity. f_equal. rewrite (pow_odd_opp l n O Hn). lra.
      * remember (std_max nl (up x)) as mx eqn:Dmx.
        assert (MX : xle (Fin 0) (val mx) /\ (forall r, mem val x r -> xle (Fin (Rabs r)) (val mx)) /\ (val mx = val nl \/ val mx = val (up x))).
        { assert (MX : xle (Fin 0) (val mx) /\ xle (val nl) (val mx) /\ xle (val (up x)) (val mx) /\ (val mx = val nl \/ val mx = val (up x))).
          { rewrite Dmx; unfold std_max. assert (val nl <> NaN) by (eapply xle_nnr; eauto).
            destruct (lt_case H nl (up x)) as [[-> L]|[-> L]]; auto.
            - split; auto. split; [apply xlt_xle; auto|]. split; [apply xle_refl; auto|auto].
            - split; auto. split; [apply xle_refl; auto|auto]. }
          destruct MX as (M0 & M1 & M2 & M3). split; [exact M0|]. split; [|exact M3]. intros r [R1 R2]. unfold Rabs. destruct (Rcase_abs r).
          - eapply xle_trans; [|exact M1]. rewrite Enl. apply (xle_opp _ (Fin r)). auto.
          - eapply xle_trans; [|exact M2]. auto. }
        destruct MX as (M0 & MA & M3). 
        assert (Z0 : mem val x 0) by (split; [apply xlt_xle; exact X1|exact X2]).
        assert (N0 : forall r, 0 <= r ^ Z.to_nat n) by (intros r; rewrite (even_abs n r Hn O); apply pow_le, Rabs_pos).
        assert (Bl : val (low w) = Fin 0).
        { apply (low_min w _ 0 D); [exists 0; split; [exact Z0|]; symmetry; apply pow_ne_zero; lia|]. intros s (r & _ & ->). apply N0. }
        assert (Bu : val (up w) = xpw (Z.to_nat n) (val mx)).
        { destruct (val mx) as [| |m|] eqn:Em; try (simpl in M0; tauto).
          - simpl in M0. apply (up_max w _ (m ^ Z.to_nat n) D).
            + destruct M3 as [M3|M3].
              * rewrite Enl in M3. destruct (val (low x)) as [| |l|] eqn:El; try discriminate. simpl in M3. injection M3 as ->.
                exists l. split; [apply low_mem; auto|]. apply pow_even_opp; auto.
              * exists m. split; [apply up_mem; auto|reflexivity].
            + intros s (r & Mr & ->). rewrite (even_abs n r Hn O). apply MA in Mr. simpl in Mr. apply pow_incr_0. split; [apply Rabs_pos|exact Mr].
          - apply (up_inf w _ D). intros b.
            assert (exists r, mem val x r /\ 1 + Rabs b <= Rabs r) as (r & Mr & Lr).
            { destruct M3 as [M3|M3].
              - rewrite Enl in M3. destruct (low_grow x (- (1 + Rabs b)) Hx) as (r & Mr & Lr); [destruct (val (low x)); try discriminate; reflexivity|].
                exists r. split; [exact Mr|]. pose proof (Rabs_pos b). unfold Rabs at 2. destruct (Rcase_abs r); lra.
              - destruct (up_grow x (1 + Rabs b) Hx (eq_sym M3)) as (r & Mr & Lr).
                exists r. split; [exact Mr|]. pose proof (Rle_abs r). lra. }
            exists (r ^ Z.to_nat n). split; [exists r; auto|]. rewrite (even_abs n r Hn O). pose proof (grows (Z.to_nat n) b ltac:(lia)).
            pose proof (pow_incr_0 (1 + Rabs b) (Rabs r) (Z.to_nat n)). pose proof (Rabs_pos b). lra. }
        destruct (pow_up_x mx n Hn M0 (repr_bound _ _ _ Bu)) as (t1 & Rt1 & Et1).
        exists (mk zero t1). split.
        { rewrite Dmx in Rt1. repeat (eapply runsI_bind; [first [eassumption|apply pure_runsI; eassumption]|]). apply runsI_ret. }
        cbn [low up]. rewrite (val_zero H), Bl, Et1, Bu. split; reflexivity.
    + destruct (pos_bounds x n w Hn X1 Hx D) as [Bl Bu].
      assert (exists l, val (low x) = Fin l /\ 0 <= l) as (l & El & Hl).
      { destruct Hx as (_ & K & _). destruct (val (low x)) as [| |u|]; simpl in *; try tauto. eauto. }
      destruct (pow_dn_exact (low x) l n Hn El) as (yl & Ryl & Eyl); [exists (low w); rewrite Bl, El; reflexivity|].
      destruct (pow_up_x (up x) n Hn X2 (repr_bound _ _ _ Bu)) as (yu & Ryu & Eyu).
      exists (mk yl yu). split; [runs|]. cbn [low up]. rewrite Eyl, Eyu, Bl, Bu, El. split; reflexivity.
Qed.
Lemma pow_exact x n w : (0 < n)%Z -> V x -> denotes val w (powers n x) ->
  exists z, runsP P ready (pow P x n) z /\ val (low z) = val (low w) /\ val (up z) = val (up w).
Proof.
  intros Hn Hx D. unfold pow. rewrite (test_valid H) by auto.
  rewrite (proj2 (Z.eqb_neq n 0)) by lia. rewrite (proj2 (Z.ltb_ge n 0)) by lia.
  apply pow_pos_exact; auto.
Qed.
End Core.

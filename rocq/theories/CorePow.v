(** * pow, from the rounding interface *)

From Coq Require Import Reals ZArith Lra Lia Psatz Bool List.
From Verif Require Import Outcome Base Checking Interval Utility Arith Arith2 FloatNum Spec ExtR Sem
  CoreArith CoreDiv CoreMore CoreFun.
Local Open Scope R_scope.

Lemma pow_pos_2 a p : a ^ (2 * Pos.to_nat p) = (a * a) ^ Pos.to_nat p.
Proof. rewrite pow_mult. f_equal. simpl. lra. Qed.
Lemma pow_xO a b p : (a * a) ^ (2 * Pos.to_nat p) * b = a ^ (2 * Pos.to_nat (xO p)) * b.
Proof.
  rewrite Pos2Nat.inj_xO, (pow_mult a 2). replace (a ^ 2) with (a * a) by (simpl; lra). auto.
Qed.
Lemma pow_xI a b p : (a * a) ^ (2 * Pos.to_nat p) * ((a * a) * b) = a ^ (2 * Pos.to_nat (xI p)) * b.
Proof.
  rewrite Pos2Nat.inj_xI. replace (2 * S (2 * Pos.to_nat p))%nat with (2 * (2 * Pos.to_nat p) + 2)%nat by lia.
  rewrite pow_add, (pow_mult a 2). replace (a ^ 2) with (a * a) by (simpl; lra). lra.
Qed.
Lemma pow_incr_0 a b n : 0 <= a <= b -> 0 <= a ^ n <= b ^ n.
Proof. intros [A B]. split; [apply pow_le; auto|apply pow_incr; auto]. Qed.
Lemma Rmult_le_both a b c d : 0 <= a <= b -> 0 <= c <= d -> 0 <= a * c <= b * d.
Proof. intros. nra. Qed.

Section Core.
Context {N : num} {val : T N -> ext} {P : policy N} {ready : rmode -> Prop}
        (H : polspec val P ready).
Notation V := (valid val).
Notation tight := (tightest val).
Notation NS := (ps_num _ _ _ H).
Notation AS := (ps_ar _ _ _ H).
Notation CS := (ps_ck _ _ _ H).
Notation val_zero := (val_zero H).
Notation val_one := (val_one H).
Notation via_rnd := (via_rnd H).
Notation is_empty_out o := (empty_out (P := P) (val := val) o).

(** Rounding keeps zero and one apart. *)
Lemma RD_ge0 e t : RD val e t -> xle (Fin 0) e -> xle (Fin 0) (val t).
Proof. intros [_ A] B. rewrite <- val_zero. apply A. rewrite val_zero. auto. Qed.
Lemma RU_le1 e t : RU val e t -> xle e (Fin 1) -> xle (val t) (Fin 1).
Proof. intros [_ A] B. rewrite <- val_one. apply A. rewrite val_one. auto. Qed.

(** ** Lower powers: nonnegative finite numbers, below the exact power *)
Definition dn_inv (x : T N) (A : R) : Prop := exists a, val x = Fin a /\ 0 <= a <= A.

Lemma mul_down_inv x y A B : dn_inv x A -> dn_inv y B ->
  exists z, runsI ready (mul_down (p_ar P) x y) z /\ dn_inv z (A * B).
Proof.
  intros (a & Ea & Ha) (b & Eb & Hb).
  destruct (as_mul_down _ _ _ AS x y) as (z & Rz & Ez).
  { rewrite Ea, Eb. simpl. discriminate. }
  exists z. split; auto. rewrite Ea, Eb in Rz. simpl in Rz.
  assert (Z0 : xle (Fin 0) (val z)) by (apply (RD_ge0 _ _ Rz); simpl; nra).
  destruct Rz as [Z1 _]. unfold dn_inv.
  destruct (val z) as [| |c|]; simpl in *; try tauto. exists c. split; auto.
  pose proof (Rmult_le_both a A b B Ha Hb). split; lra.
Qed.

Lemma pow_loop_dn p : forall x y A B, dn_inv x A -> dn_inv y B ->
  exists z, runsI ready (pow_loop (mul_down (p_ar P)) x y p) z /\ dn_inv z (A ^ (2 * Pos.to_nat p) * B).
Proof.
  induction p; intros x y A B Hx Hy; cbn [pow_loop];
  destruct (mul_down_inv x x A A Hx Hx) as (x' & Rx & Hx').
  - destruct (mul_down_inv x' y _ _ Hx' Hy) as (y' & Ry & Hy').
    destruct (IHp x' y' _ _ Hx' Hy') as (z & Rz & Hz).
    exists z. split.
    + eapply runsI_bind; eauto. eapply runsI_bind; eauto.
    + rewrite pow_xI in Hz. auto.
  - destruct (IHp x' y _ _ Hx' Hy) as (z & Rz & Hz).
    exists z. split; [eapply runsI_bind; eauto|]. rewrite pow_xO in Hz. auto.
  - destruct (mul_down_inv x' y _ _ Hx' Hy) as (z & Rz & Hz).
    exists z. split; [eapply runsI_bind; eauto|].
    replace (A ^ (2 * Pos.to_nat 1)) with (A * A) by (simpl; lra). auto.
Qed.

(** pwr = 2 * (pwr >> 1) + (pwr & 1) *)
Lemma pow_split a (n : Z) : (0 < n)%Z ->
  a ^ Z.to_nat n = match Z.shiftr n 1 with
                   | Zpos p => a ^ (2 * Pos.to_nat p) * (if Z.odd n then a else 1)
                   | _ => if Z.odd n then a else 1
                   end.
Proof.
  intros Hn. rewrite <- Z.div2_spec. pose proof (Zdiv2_odd_eqn n) as E.
  destruct (Z.div2 n) as [|p|p] eqn:ED.
  - destruct (Z.odd n); simpl in *; [subst n; simpl; lra|lia].
  - destruct (Z.odd n); rewrite E.
    + replace (Z.to_nat (2 * Z.pos p + 1)) with (2 * Pos.to_nat p + 1)%nat by lia.
      rewrite pow_add, pow_1. auto.
    + replace (Z.to_nat (2 * Z.pos p + 0)) with (2 * Pos.to_nat p)%nat by lia. lra.
  - destruct (Z.odd n); lia.
Qed.

Lemma pow_dn_ok x a n : (0 < n)%Z -> val x = Fin a -> 0 <= a ->
  exists z c, runsI ready (pow_dn P x n) z /\ val z = Fin c /\ 0 <= c <= a ^ Z.to_nat n.
Proof.
  intros Hn Ex Ha. rewrite (pow_split a n Hn). unfold pow_dn, pow_aux.
  assert (Hx : dn_inv x a) by (exists a; split; auto; lra).
  assert (Hy : dn_inv (if Z.odd n then x else one) (if Z.odd n then a else 1)).
  { destruct (Z.odd n); auto. exists 1. split; [apply val_one|lra]. }
  destruct (Z.shiftr n 1) as [|p|p].
  - exists (if Z.odd n then x else one). destruct Hy as (c & Ec & Hc). exists c.
    split; [apply runsI_ret|auto].
  - destruct (pow_loop_dn p x _ _ _ Hx Hy) as (z & Rz & c & Ec & Hc). exists z, c. auto.
  - exists (if Z.odd n then x else one). destruct Hy as (c & Ec & Hc). exists c.
    split; [apply runsI_ret|auto].
Qed.

(** ** Upper powers.  One side of 1 is never left, so 0 * infinity cannot occur. *)
Definition small (x : T N) (A : R) : Prop := exists a, val x = Fin a /\ 0 <= A <= a /\ a <= 1.
Definition big (x : T N) (A : R) : Prop := xle (Fin 1) (val x) /\ 0 <= A /\ xle (Fin A) (val x).

Lemma mul_up_small x y A B : small x A -> small y B ->
  exists z, runsI ready (mul_up (p_ar P) x y) z /\ small z (A * B).
Proof.
  intros (a & Ea & Ha & Ha1) (b & Eb & Hb & Hb1).
  destruct (as_mul_up _ _ _ AS x y) as (z & Rz & Ez).
  { rewrite Ea, Eb. simpl. discriminate. }
  exists z. split; auto. rewrite Ea, Eb in Rz. simpl in Rz.
  assert (Z1 : xle (val z) (Fin 1)) by (apply (RU_le1 _ _ Rz); simpl; nra).
  destruct Rz as [Z2 _]. unfold small.
  destruct (val z) as [| |c|]; simpl in *; try tauto. exists c. split; auto.
  pose proof (Rmult_le_both A a B b Ha Hb). split; lra.
Qed.
Lemma mul_up_big x y A B : big x A -> big y B ->
  exists z, runsI ready (mul_up (p_ar P) x y) z /\ big z (A * B).
Proof.
  intros (X1 & A0 & XA) (Y1 & B0 & YB).
  destruct (as_mul_up _ _ _ AS x y) as (z & Rz & Ez).
  { destruct (val x), (val y); simpl in *; xcase; try tauto; try discriminate; lra. }
  exists z. split; auto. destruct Rz as [Z1 _]. unfold big.
  assert (M1 : xle (Fin 1) (xmul (val x) (val y))).
  { destruct (val x), (val y); simpl in *; xcase; try tauto; try lra. nra. }
  assert (M2 : xle (Fin (A * B)) (xmul (val x) (val y))).
  { destruct (val x), (val y); simpl in *; xcase; try tauto; try lra. nra. }
  split; [eapply xle_trans; eauto|]. split; [nra|eapply xle_trans; eauto].
Qed.

Lemma pow_loop_up (K : T N -> R -> Prop)
  (HK : forall x y A B, K x A -> K y B -> exists z, runsI ready (mul_up (p_ar P) x y) z /\ K z (A * B)) p :
  forall x y A B, K x A -> K y B ->
  exists z, runsI ready (pow_loop (mul_up (p_ar P)) x y p) z /\ K z (A ^ (2 * Pos.to_nat p) * B).
Proof.
  induction p; intros x y A B Hx Hy; cbn [pow_loop];
  destruct (HK x x A A Hx Hx) as (x' & Rx & Hx').
  - destruct (HK x' y _ _ Hx' Hy) as (y' & Ry & Hy').
    destruct (IHp x' y' _ _ Hx' Hy') as (z & Rz & Hz).
    exists z. split.
    + eapply runsI_bind; eauto. eapply runsI_bind; eauto.
    + rewrite pow_xI in Hz. auto.
  - destruct (IHp x' y _ _ Hx' Hy) as (z & Rz & Hz).
    exists z. split; [eapply runsI_bind; eauto|]. rewrite pow_xO in Hz. auto.
  - destruct (HK x' y _ _ Hx' Hy) as (z & Rz & Hz).
    exists z. split; [eapply runsI_bind; eauto|].
    replace (A ^ (2 * Pos.to_nat 1)) with (A * A) by (simpl; lra). auto.
Qed.

Lemma pow_aux_up (K : T N -> R -> Prop) x A n :
  (forall x y A B, K x A -> K y B -> exists z, runsI ready (mul_up (p_ar P) x y) z /\ K z (A * B)) ->
  (0 < n)%Z -> K x A -> K one 1 ->
  exists z, runsI ready (pow_up P x n) z /\ K z (A ^ Z.to_nat n).
Proof.
  intros HK Hn Hx H1. rewrite (pow_split A n Hn). unfold pow_up, pow_aux.
  assert (Hy : K (if Z.odd n then x else one) (if Z.odd n then A else 1)) by (destruct (Z.odd n); auto).
  destruct (Z.shiftr n 1) as [|p|p].
  - eexists. split; [apply runsI_ret|auto].
  - destruct (pow_loop_up K HK p x _ _ _ Hx Hy) as (z & Rz & Hz). exists z. auto.
  - eexists. split; [apply runsI_ret|auto].
Qed.

(** One result covers every power below. *)
Lemma pow_up_ok x n : (0 < n)%Z -> xle (Fin 0) (val x) ->
  exists z, runsI ready (pow_up P x n) z /\ xle (Fin 0) (val z) /\
    forall A, 0 <= A -> xle (Fin A) (val x) -> xle (Fin (A ^ Z.to_nat n)) (val z).
Proof.
  intros Hn Hx. destruct (xle_total (val x) (Fin 1)) as [L|L].
  { eapply xle_nnr; eauto. } { discriminate. }
  - destruct (val x) as [| |a|] eqn:Ex; simpl in Hx, L; try tauto.
    destruct (pow_aux_up small x a n mul_up_small Hn) as (z & Rz & c & Ec & Hc & Hc1).
    + exists a. auto with real.
    + exists 1. split; [apply val_one|lra].
    + exists z. split; auto. rewrite Ec. split; [simpl; lra|].
      intros A HA HA'. simpl in *. pose proof (pow_incr_0 A a (Z.to_nat n)). lra.
  - assert (B1 : big one 1). { split; [|split; [lra|]]; rewrite val_one; simpl; lra. }
    assert (U : exists z, runsI ready (pow_up P x n) z /\ xle (Fin 0) (val z)).
    { destruct (pow_aux_up big x 1 n mul_up_big Hn) as (z & Rz & Z1 & _ & _); auto.
      - split; auto. split; [lra|auto].
      - exists z. split; auto. eapply xle_trans; [|exact Z1]. simpl. lra. }
    destruct U as (z & Rz & Z0). exists z. split; auto. split; auto.
    intros A HA HA'.
    destruct (pow_aux_up big x A n mul_up_big Hn) as (z' & Rz' & _ & _ & Z2); auto.
    + split; auto.
    + destruct (as_init _ _ _ AS RUP) as (s & Hs & _).
      destruct (Rz s Hs) as (? & _ & E1), (Rz' s Hs) as (? & _ & E2). congruence.
Qed.

Lemma mul_up_zero x y : val x = Fin 0 -> (exists b, val y = Fin b) ->
  exists z, runsI ready (mul_up (p_ar P) x y) z /\ val z = Fin 0.
Proof.
  intros Ex (b & Eb). destruct (as_mul_up _ _ _ AS x y) as (z & Rz & Ez).
  { rewrite Ex, Eb. discriminate. }
  exists z. split; auto. rewrite Ex, Eb in Rz. simpl in Rz. rewrite Rmult_0_l in Rz.
  apply xle_antisym; [|apply Rz]. rewrite <- val_zero. apply Rz. rewrite val_zero. simpl; lra.
Qed.
Lemma pow_loop_zero p : forall x y, val x = Fin 0 -> (exists b, val y = Fin b) ->
  exists z, runsI ready (pow_loop (mul_up (p_ar P)) x y p) z /\ val z = Fin 0.
Proof.
  induction p; intros x y Hx Hy; cbn [pow_loop];
  destruct (mul_up_zero x x Hx) as (x' & Rx & Hx'); eauto;
  destruct (mul_up_zero x' y Hx' Hy) as (y' & Ry & Hy').
  - destruct (IHp x' y' Hx') as (z & Rz & Hz); eauto.
    exists z. split; auto. eapply runsI_bind; eauto. eapply runsI_bind; eauto.
  - destruct (IHp x' y Hx') as (z & Rz & Hz); eauto.
    exists z. split; auto. eapply runsI_bind; eauto.
  - exists y'. split; auto. eapply runsI_bind; eauto.
Qed.
Lemma pow_up_zero x n : (0 < n)%Z -> val x = Fin 0 ->
  exists z, runsI ready (pow_up P x n) z /\ val z = Fin 0.
Proof.
  intros Hn Hx. unfold pow_up, pow_aux. rewrite <- Z.div2_spec.
  pose proof (Zdiv2_odd_eqn n) as E. destruct (Z.div2 n) as [|p|p].
  - exists x. destruct (Z.odd n); [|lia]. split; auto. apply runsI_ret.
  - apply pow_loop_zero; auto. destruct (Z.odd n); eauto. exists 1. apply val_one.
  - destruct (Z.odd n); lia.
Qed.

Lemma neg_ok a : exists t, val t = xopp (val a) /\ pureM (neg a) t.
Proof. apply (ns_neg _ _ NS). Qed.

Lemma pow_odd_opp r n : Z.odd n = true -> (0 < n)%Z -> (-r) ^ Z.to_nat n = - r ^ Z.to_nat n.
Proof.
  intros O Hn. rewrite (pow_split (-r) n Hn), (pow_split r n Hn), O.
  destruct (Z.shiftr n 1); try lra. rewrite !(pow_mult _ 2).
  replace ((-r)^2) with (r^2) by (simpl; lra). lra.
Qed.
Lemma pow_even_opp r n : Z.odd n = false -> (0 < n)%Z -> (-r) ^ Z.to_nat n = r ^ Z.to_nat n.
Proof.
  intros O Hn. rewrite (pow_split (-r) n Hn), (pow_split r n Hn), O.
  destruct (Z.shiftr n 1); try lra. rewrite !(pow_mult _ 2).
  replace ((-r)^2) with (r^2) by (simpl; lra). lra.
Qed.

Notation powers n x := (image1 (fun r => r ^ Z.to_nat n) (mem val x)).

Lemma pow_pos_ok x n : (0 < n)%Z -> V x ->
  exists z, runsP P ready (pow_pos P x n) z /\ encloses val z (powers n x) /\
    (Z.odd n = false -> xle (Fin 0) (val (low z))).
Proof.
  intros Hn Hx. unfold pow_pos. apply via_rnd.
  pose proof (vlow_nn x Hx) as NX1. pose proof (vup_nn x Hx) as NX2.
  destruct (is_neg_case H (up x)) as [[-> X2]|[-> X2]]; auto.
  - destruct (neg_ok (up x)) as (nu & Enu & Rnu). destruct (neg_ok (low x)) as (nl & Enl & Rnl).
    assert (exists u, val (up x) = Fin u /\ u < 0) as (u & Eu & Hu).
    { destruct Hx as (_ & _ & K). destruct (val (up x)) as [| |u|]; simpl in *; try tauto. eauto. }
    rewrite Eu in Enu. simpl in Enu.
    destruct (pow_dn_ok nu (-u) n Hn Enu) as (yl & c & Ryl & Ec & Hc); [lra|].
    destruct (pow_up_ok nl n Hn) as (yu & Ryu & Y0 & Hyu).
    { rewrite Enl. destruct Hx as (K & K' & _). rewrite Eu in K. destruct (val (low x)); simpl in *; try tauto; lra. }
    assert (EN : forall r, mem val x r -> xle (val yl) (Fin ((-r) ^ Z.to_nat n)) /\ xle (Fin ((-r) ^ Z.to_nat n)) (val yu)).
    { intros r [R1 R2]. rewrite Eu in R2. simpl in R2. split.
      - rewrite Ec. simpl. pose proof (pow_incr_0 (-u) (-r) (Z.to_nat n)). lra.
      - apply Hyu; [lra|]. rewrite Enl. apply (xle_opp _ (Fin r)). auto. }
    destruct (Z.odd n) eqn:O.
    + destruct (neg_ok yu) as (a & Ea & Ra). destruct (neg_ok yl) as (b & Eb & Rb).
      exists (mk a b). split.
      { repeat (eapply runsI_bind; [first [eassumption|apply pure_runsI; eassumption]|]).
        apply runsI_mk_args; apply pure_runsI; auto. }
      split; [|discriminate].
      intros t (r & Hr & ->). destruct (EN r Hr) as [A B].
      rewrite (pow_odd_opp r n O Hn) in A, B.
      split; simpl low; simpl up; rewrite ?Ea, ?Eb.
      * apply xle_opp in B. simpl in B. rewrite Ropp_involutive in B. exact B.
      * apply xle_opp in A. simpl xopp in A. rewrite Ropp_involutive in A. exact A.
    + exists (mk yl yu). split.
      { repeat (eapply runsI_bind; [first [eassumption|apply pure_runsI; eassumption]|]). apply runsI_ret. }
      split; [|intros _; cbn [low]; rewrite Ec; apply Hc].
      intros t (r & Hr & ->). destruct (EN r Hr) as [A B].
      rewrite (pow_even_opp r n O Hn) in A, B. split; auto.
  - destruct (is_neg_case H (low x)) as [[-> X1]|[-> X1]]; auto.
    + destruct (neg_ok (low x)) as (nl & Enl & Rnl).
      assert (NL0 : xle (Fin 0) (val nl)).
      { rewrite Enl. destruct (val (low x)); simpl in *; try tauto; lra. }
      destruct (Z.odd n) eqn:O.
      * destruct (pow_up_ok nl n Hn NL0) as (t1 & Rt1 & T10 & Ht1).
        destruct (pow_up_ok (up x) n Hn X2) as (t2 & Rt2 & T20 & Ht2).
        destruct (neg_ok t1) as (a & Ea & Ra).
        exists (mk a t2). split.
        { apply runsI_mk_args; auto.
          repeat (eapply runsI_bind; [first [eassumption|apply pure_runsI; eassumption]|]).
          apply pure_runsI; auto. }
        split; [|discriminate].
        intros t (r & [R1 R2] & ->). split; simpl low; simpl up; rewrite ?Ea.
        -- destruct (Rle_or_lt 0 r).
           ++ apply xle_trans with (Fin 0).
              ** destruct (val t1); simpl in *; try tauto; lra.
              ** simpl. apply pow_le; auto.
           ++ assert (K : xle (Fin ((-r) ^ Z.to_nat n)) (val t1)).
              { apply Ht1; [lra|]. rewrite Enl. apply (xle_opp _ (Fin r)). auto. }
              apply xle_opp in K. rewrite (pow_odd_opp r n O Hn) in K. simpl in K.
              rewrite Ropp_involutive in K. exact K.
        -- destruct (Rle_or_lt 0 r); [apply Ht2; auto|].
           apply xle_trans with (Fin 0); auto. simpl.
           replace r with (- (- r)) by lra. rewrite (pow_odd_opp (-r) n O Hn).
           pose proof (pow_le (-r) (Z.to_nat n)). lra.
      * assert (MX : xle (Fin 0) (val (std_max nl (up x))) /\ xle (val nl) (val (std_max nl (up x)))
                     /\ xle (val (up x)) (val (std_max nl (up x)))).
        { unfold std_max. assert (val nl <> NaN) by (eapply xle_nnr; eauto).
          destruct (lt_case H nl (up x)) as [[-> L]|[-> L]]; auto.
          - split; auto. split; [apply xlt_xle; auto|apply xle_refl; auto].
          - split; auto. split; auto. apply xle_refl; auto. }
        destruct MX as (M0 & M1 & M2).
        destruct (pow_up_ok _ n Hn M0) as (t1 & Rt1 & T10 & Ht1).
        exists (mk zero t1). split.
        { repeat (eapply runsI_bind; [first [eassumption|apply pure_runsI; eassumption]|]). apply runsI_ret. }
        split; [|intros _; cbn [low]; rewrite val_zero; simpl; lra].
        intros t (r & [R1 R2] & ->).
        assert (K0 : 0 <= r ^ Z.to_nat n /\ r ^ Z.to_nat n = Rabs r ^ Z.to_nat n).
        { unfold Rabs. destruct (Rcase_abs r).
          - rewrite (pow_even_opp r n O Hn). split; auto.
            rewrite <- (pow_even_opp r n O Hn). apply pow_le; lra.
          - split; auto. apply pow_le; lra. }
        split; simpl low; simpl up; rewrite ?val_zero; [simpl; apply K0|].
        rewrite (proj2 K0). apply Ht1; [apply Rabs_pos|].
        unfold Rabs. destruct (Rcase_abs r).
        -- eapply xle_trans; [|exact M1]. rewrite Enl. apply (xle_opp _ (Fin r)). auto.
        -- eapply xle_trans; [|exact M2]. auto.
    + assert (exists l, val (low x) = Fin l /\ 0 <= l) as (l & El & Hl).
      { destruct Hx as (_ & K & _). destruct (val (low x)) as [| |u|]; simpl in *; try tauto. eauto. }
      destruct (pow_dn_ok (low x) l n Hn El Hl) as (yl & c & Ryl & Ec & Hc).
      destruct (pow_up_ok (up x) n Hn X2) as (yu & Ryu & Y0 & Hyu).
      exists (mk yl yu). split; [runs|]. split; [|intros _; cbn [low]; rewrite Ec; apply Hc].
      intros t (r & [R1 R2] & ->). rewrite El in R1. simpl in R1. split; simpl low; simpl up.
      * rewrite Ec. simpl. pose proof (pow_incr_0 l r (Z.to_nat n)). lra.
      * apply Hyu; auto. lra.
Qed.

(** ** The whole function *)
Lemma pow_positive_ok x n : (0 < n)%Z -> V x ->
  exists z, runsP P ready (pow P x n) z /\ encloses val z (powers n x) /\
    (Z.odd n = false -> xle (Fin 0) (val (low z))).
Proof.
  intros Hn Hx. unfold pow. rewrite (test_valid H) by auto.
  rewrite (proj2 (Z.eqb_neq n 0)) by lia. rewrite (proj2 (Z.ltb_ge n 0)) by lia.
  apply pow_pos_ok; auto.
Qed.

Lemma pow_zero_ok x : V x -> ~ (val (low x) = Fin 0 /\ val (up x) = Fin 0) ->
  exists z, runsP P ready (pow P x 0) z /\ val (low z) = Fin 1 /\ val (up z) = Fin 1.
Proof.
  intros Hx Hz. unfold pow. rewrite (test_valid H) by auto. simpl.
  destruct (zeros_case H x Hx) as [(-> & Z1 & Z2)|(-> & _)]; [tauto|].
  exists (mk one one). split; [|split; apply val_one].
  apply pure_runsP. unfold ctor_num. eapply pureM_bind; [apply (cs_nan _ _ CS)|].
  - rewrite val_one; discriminate.
  - apply pureM_ret.
Qed.
Lemma pow_zero_zero x o : V x -> val (low x) = Fin 0 -> val (up x) = Fin 0 -> is_empty_out o ->
  forall s, pow P x 0 s = (o, s).
Proof.
  intros Hx E1 E2 Ho s. unfold pow. rewrite (test_valid H) by auto. simpl.
  destruct (zeros_case H x Hx) as [(-> & Z1 & Z2)|(_ & K)]; [|tauto].
  eapply i_empty_run; eauto.
Qed.

(** 1 / r^|n| over the nonzero members. *)
Definition inv_powers (n : Z) (X : R -> Prop) : R -> Prop :=
  fun t => exists r, X r /\ r <> 0 /\ t = / r ^ Z.to_nat (- n).

Lemma pow_negative_ok x n : (int_min < n < 0)%Z -> V x ->
  ~ (val (low x) = Fin 0 /\ val (up x) = Fin 0) -> n_has_inf N = true ->
  exists z, runsP P ready (pow P x n) z /\ encloses val z (inv_powers n (mem val x)) /\
    (Z.odd n = false -> xle (Fin 0) (val (low z))).
Proof.
  intros Hn Hx Hz HI. unfold pow. rewrite (test_valid H) by auto.
  rewrite (proj2 (Z.eqb_neq n 0)) by lia. rewrite (proj2 (Z.ltb_lt n 0)) by lia.
  rewrite (proj2 (Z.eqb_neq n int_min)) by lia.
  destruct (pow_pos_ok x (-n)) as (z & Rz & Ez & Oz); auto; [lia|].
  assert (exists r, mem val x r /\ r <> 0) as (r & Hr & Hr').
  { destruct Hx as (A & B & C). unfold mem.
    destruct (val (low x)) as [| |l|], (val (up x)) as [| |u|]; simpl in *; try tauto.
    - destruct (Req_dec u 0) as [->|Hu]; [exists (-1)|exists u]; repeat split; auto; lra.
    - exists 1. repeat split; auto; lra.
    - destruct (Req_dec u 0) as [->|Hu]; [|exists u; repeat split; auto; lra].
      destruct (Req_dec l 0) as [->|Hl]; [exfalso; apply Hz; auto|exists l; repeat split; auto; lra].
    - destruct (Req_dec l 0) as [->|Hl]; [exists 1|exists l]; repeat split; auto; lra. }
  assert (Mz : mem val z (r ^ Z.to_nat (-n))) by (apply Ez; exists r; auto).
  pose proof (pow_nonzero r (Z.to_nat (-n)) Hr') as NZ.
  destruct (inverse_ok H z) as (w & Rw & [Ew Tw]); auto.
  - eapply mem_valid; eauto.
  - intros [E1 E2]. destruct Mz as [M1 M2]. rewrite E1 in M1. rewrite E2 in M2. simpl in *. lra.
  - exists w. split; [eapply runsP_bind; eauto|]. split.
    2:{ intros O. rewrite <- Z.odd_opp in O. specialize (Oz O).
        destruct (cs_pos_inf _ _ CS HI) as (pi & Ep & _).
        destruct (Tw (mk zero pi)) as [K _]; [|cbn [low] in K; rewrite val_zero in K; exact K].
        intros t (a & b & -> & [Hb _] & Nb & ->). split; cbn [low up]; rewrite ?val_zero, ?Ep; simpl; auto.
        pose proof (xle_trans _ _ _ Oz Hb) as B0. simpl in B0.
        apply Rlt_le, Rdiv_lt_0_compat; lra. }
    intros t (q & Hq & Hq' & ->). apply Ew. exists 1, (q ^ Z.to_nat (-n)).
    split; [reflexivity|]. split; [apply Ez; exists q; auto|]. split; [apply pow_nonzero; auto|].
    field. apply pow_nonzero; auto.
Qed.

Lemma pow_negative_zero x n o : (int_min < n < 0)%Z -> V x ->
  val (low x) = Fin 0 -> val (up x) = Fin 0 -> is_empty_out o -> p_prot P = Save ->
  forall s, pow P x n s = (o, s).
Proof.
  intros Hn Hx E1 E2 Ho HP s. unfold pow. rewrite (test_valid H) by auto.
  rewrite (proj2 (Z.eqb_neq n 0)) by lia. rewrite (proj2 (Z.ltb_lt n 0)) by lia.
  rewrite (proj2 (Z.eqb_neq n int_min)) by lia.
  assert (exists z, runsP P ready (pow_pos P x (-n)) z /\ val (low z) = Fin 0 /\ val (up z) = Fin 0) as (z & Rz & F1 & F2).
  { unfold pow_pos. apply via_rnd.
    destruct (is_neg_case H (up x)) as [[_ K]|[-> _]]; rewrite ?E2 in *; try discriminate; simpl in *; [lra|].
    destruct (is_neg_case H (low x)) as [[_ K]|[-> _]]; rewrite ?E1 in *; try discriminate; simpl in *; [lra|].
    destruct (pow_dn_ok (low x) 0 (-n)) as (yl & c & Ryl & Ec & Hc); auto; [lia|lra|].
    rewrite pow_i in Hc by lia.
    destruct (pow_up_zero (up x) (-n)) as (yu & Ryu & Eu); auto; [lia|].
    exists (mk yl yu). split; [runs|]. split; auto. simpl. rewrite Ec. f_equal. lra. }
  unfold runsP in Rz. rewrite HP in Rz. unfold bind. rewrite Rz.
  apply (inverse_zero H); auto. split; rewrite F1, F2; simpl; [lra|split; discriminate].
Qed.
End Core.

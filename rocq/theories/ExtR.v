(** * Lemmas on extended reals and real sets *)

From Coq Require Import Reals ZArith Lra Psatz.
From Verif Require Import Outcome Base Interval FloatNum Spec.
Local Open Scope R_scope.

Ltac xred := cbn [xle xlt xopp xadd xsub xmul xdiv xsqrt] in *.
Ltac xcase :=
  repeat (match goal with
  | H : context [Rlt_dec ?a ?b] |- _ => destruct (Rlt_dec a b)
  | |- context [Rlt_dec ?a ?b] => destruct (Rlt_dec a b)
  | H : context [Rle_dec ?a ?b] |- _ => destruct (Rle_dec a b)
  | |- context [Rle_dec ?a ?b] => destruct (Rle_dec a b)
  | H : context [Req_EM_T ?a ?b] |- _ => destruct (Req_EM_T a b)
  | |- context [Req_EM_T ?a ?b] => destruct (Req_EM_T a b)
  end; xred).
Ltac xs := solve [ exact I | assumption | discriminate | contradiction | congruence
                 | lra | tauto ].

Lemma xle_refl a : a <> NaN -> xle a a.
Proof. destruct a; simpl; try xs; intros; lra. Qed.
Lemma xle_trans a b c : xle a b -> xle b c -> xle a c.
Proof. destruct a, b, c; simpl; try tauto; lra. Qed.
Lemma xle_antisym a b : xle a b -> xle b a -> a = b.
Proof. destruct a, b; simpl; try tauto; intros; f_equal; lra. Qed.
Lemma xle_NaN_l a : xle NaN a -> False.
Proof. destruct a; simpl; tauto. Qed.
Lemma xle_NaN_r a : xle a NaN -> False.
Proof. destruct a; simpl; tauto. Qed.
Lemma xle_nnl a b : xle a b -> a <> NaN.
Proof. destruct a; simpl; congruence || tauto. Qed.
Lemma xle_nnr a b : xle a b -> b <> NaN.
Proof. destruct a, b; simpl; congruence || tauto. Qed.
Lemma xlt_xle a b : xlt a b -> xle a b.
Proof. destruct a, b; simpl; try tauto; lra. Qed.
Lemma xlt_nle a b : xlt a b -> ~ xle b a.
Proof. destruct a, b; simpl; try tauto; lra. Qed.
Lemma xnle_lt a b : a <> NaN -> b <> NaN -> ~ xle b a -> xlt a b.
Proof. destruct a, b; simpl; try tauto; try congruence; intros; lra. Qed.
Lemma xnlt_le a b : a <> NaN -> b <> NaN -> ~ xlt b a -> xle a b.
Proof. destruct a, b; simpl; try tauto; try congruence; intros; lra. Qed.
Lemma xle_total a b : a <> NaN -> b <> NaN -> xle a b \/ xle b a.
Proof. destruct a, b; simpl; try tauto; try congruence; intros; lra. Qed.
Lemma xle_lt_trans a b c : xle a b -> xlt b c -> xlt a c.
Proof. destruct a, b, c; simpl; try tauto; lra. Qed.
Lemma xlt_le_trans a b c : xlt a b -> xle b c -> xlt a c.
Proof. destruct a, b, c; simpl; try tauto; lra. Qed.
Lemma xlt_irrefl a : ~ xlt a a.
Proof. destruct a; simpl; try tauto; lra. Qed.
Lemma xopp_involutive a : xopp (xopp a) = a.
Proof. destruct a; simpl; auto. f_equal; lra. Qed.
Lemma xle_opp a b : xle a b -> xle (xopp b) (xopp a).
Proof. destruct a, b; simpl; try tauto; lra. Qed.
Lemma xle_opp_iff a b : xle (xopp a) (xopp b) <-> xle b a.
Proof. split; intros H; [rewrite <- (xopp_involutive a), <- (xopp_involutive b)|]; apply xle_opp; auto. Qed.
Lemma xopp_NaN a : xopp a = NaN <-> a = NaN.
Proof. destruct a; simpl; split; congruence. Qed.

(** ** Bounds of sets of reals *)
Definition is_lb (e : ext) (S : R -> Prop) := forall r, S r -> xle e (Fin r).
Definition is_ub (e : ext) (S : R -> Prop) := forall r, S r -> xle (Fin r) e.

(** A limit of [S] that is attained if finite. *)
Definition slim (S : R -> Prop) (c : ext) : Prop :=
  match c with
  | NaN => False
  | Fin a => S a
  | PInf => forall M, exists r, S r /\ M <= r
  | NInf => forall M, exists r, S r /\ r <= M
  end.
(** A limit of [S]. *)
Definition wlim (S : R -> Prop) (c : ext) : Prop :=
  match c with
  | NaN => False
  | Fin a => forall eps, 0 < eps -> exists r, S r /\ Rabs (r - a) < eps
  | PInf => forall M, exists r, S r /\ M <= r
  | NInf => forall M, exists r, S r /\ r <= M
  end.

Lemma slim_wlim S c : slim S c -> wlim S c.
Proof.
  destruct c; simpl; auto. intros H eps He. exists r. split; auto.
  rewrite Rminus_diag_eq, Rabs_R0; auto.
Qed.

Lemma wlim_lb S e f : wlim S e -> is_lb f S -> xle f e.
Proof.
  intros W L. destruct e as [| | a |]; simpl in W; try tauto.
  - destruct f as [| | v |]; simpl; auto.
    + destruct (W 0) as (r & Hr & _). apply L in Hr. simpl in Hr. auto.
    + destruct (W (v - 1)) as (r & Hr & Hl). apply L in Hr. simpl in Hr. lra.
    + destruct (W 0) as (r & Hr & _). apply L in Hr. simpl in Hr. auto.
  - destruct f as [| | v |]; simpl; auto.
    + destruct (W 1) as (r & Hr & _); [lra|]. apply L in Hr. simpl in Hr. auto.
    + destruct (Rle_or_lt v a); auto. exfalso.
      destruct (W (v - a)) as (r & Hr & Hl); [lra|]. apply L in Hr. simpl in Hr.
      apply Rabs_def2 in Hl. lra.
    + destruct (W 1) as (r & Hr & _); [lra|]. apply L in Hr. simpl in Hr. auto.
  - destruct (W 0) as (r & Hr & _). apply L in Hr.
    destruct f; simpl in *; auto.
Qed.

Lemma wlim_ub S e f : wlim S e -> is_ub f S -> xle e f.
Proof.
  intros W L. destruct e as [| | a |]; simpl in W; try tauto.
  - destruct (W 0) as (r & Hr & _). apply L in Hr.
    destruct f; simpl in *; auto.
  - destruct f as [| | v |]; simpl; auto.
    + destruct (W 1) as (r & Hr & _); [lra|]. apply L in Hr. simpl in Hr. auto.
    + destruct (W 1) as (r & Hr & _); [lra|]. apply L in Hr. simpl in Hr. auto.
    + destruct (Rle_or_lt a v); auto. exfalso.
      destruct (W (a - v)) as (r & Hr & Hl); [lra|]. apply L in Hr. simpl in Hr.
      apply Rabs_def2 in Hl. lra.
  - destruct f as [| | v |]; simpl; auto.
    + destruct (W 0) as (r & Hr & _). apply L in Hr. simpl in Hr. auto.
    + destruct (W 0) as (r & Hr & _). apply L in Hr. simpl in Hr. auto.
    + destruct (W (v + 1)) as (r & Hr & Hl). apply L in Hr. simpl in Hr. lra.
Qed.

Lemma slim_add X Y a b : slim X a -> slim Y b -> xadd a b <> NaN ->
  slim (image2 Rplus X Y) (xadd a b).
Proof.
  destruct a as [| |a|], b as [| |b|]; simpl; try tauto; intros HX HY Hn.
  - intros M. destruct (HY 0) as (s & Hs & Hs'). destruct (HX M) as (r & Hr & Hr').
    exists (r + s). split; [exists r, s; auto|lra].
  - intros M. destruct (HX (M - b)) as (r & Hr & Hr').
    exists (r + b). split; [exists r, b; auto|lra].
  - intros M. destruct (HY (M - a)) as (s & Hs & Hs').
    exists (a + s). split; [exists a, s; auto|lra].
  - exists a, b; auto.
  - intros M. destruct (HY (M - a)) as (s & Hs & Hs').
    exists (a + s). split; [exists a, s; auto|lra].
  - intros M. destruct (HX (M - b)) as (r & Hr & Hr').
    exists (r + b). split; [exists r, b; auto|lra].
  - intros M. destruct (HY 0) as (s & Hs & Hs'). destruct (HX M) as (r & Hr & Hr').
    exists (r + s). split; [exists r, s; auto|lra].
Qed.

Lemma slim_opp X a : slim X a -> slim (image1 Ropp X) (xopp a).
Proof.
  destruct a as [| |a|]; simpl; auto; intros H.
  - intros M. destruct (H (-M)) as (r & Hr & Hr'). exists (-r).
    split; [exists r; auto|lra].
  - exists a; auto.
  - intros M. destruct (H (-M)) as (r & Hr & Hr'). exists (-r).
    split; [exists r; auto|lra].
Qed.

Lemma slim_ext (X Y : R -> Prop) a : (forall r, X r -> Y r) -> slim X a -> slim Y a.
Proof.
  destruct a; simpl; auto; intros H W.
  - intros M. destruct (W M) as (q & ? & ?); eauto.
  - intros M. destruct (W M) as (q & ? & ?); eauto.
Qed.
Lemma wlim_ext (X Y : R -> Prop) a : (forall r, X r -> Y r) -> wlim X a -> wlim Y a.
Proof.
  destruct a; simpl; auto; intros H W.
  - intros M. destruct (W M) as (q & ? & ?); eauto.
  - intros M HM. destruct (W M HM) as (q & ? & ?); eauto.
  - intros M. destruct (W M) as (q & ? & ?); eauto.
Qed.

(** Unbounded times something of constant sign. *)
Lemma slim_mul_pinf_pos X b M : slim X PInf -> 0 < b -> exists r, X r /\ M <= r * b.
Proof.
  intros H Hb. destruct (H (M / b)) as (r & Hr & Hr'). exists r. split; auto.
  apply Rmult_le_compat_r with (r := b) in Hr'; [|lra].
  unfold Rdiv in Hr'. rewrite Rmult_assoc, Rinv_l, Rmult_1_r in Hr'; lra.
Qed.

Lemma image1_opp_opp X r : image1 Ropp (image1 Ropp X) r <-> X r.
Proof.
  split.
  - intros (q & (p & Hp & ->) & ->). replace (- - p) with p by lra. auto.
  - intros H. exists (-r). split; [exists r; auto|lra].
Qed.

Lemma slim_mul X Y a b : slim X a -> slim Y b -> xmul a b <> NaN ->
  slim (image2 Rmult X Y) (xmul a b).
Proof.
  (* it is enough to treat nonnegative infinities *)
  assert (PP : forall X Y, slim X PInf -> slim Y PInf -> slim (image2 Rmult X Y) PInf).
  { intros X0 Y0 HX HY M. simpl in HX, HY.
    destruct (HY 1) as (s & Hs & Hs'). destruct (HX (Rmax M 0)) as (r & Hr & Hr').
    exists (r * s). split; [exists r, s; auto|].
    pose proof (Rmax_l M 0). pose proof (Rmax_r M 0). nra. }
  assert (PF : forall (X Y : R -> Prop) b, slim X PInf -> Y b -> 0 < b -> slim (image2 Rmult X Y) PInf).
  { intros X0 Y0 b0 HX HY Hb M. destruct (slim_mul_pinf_pos X0 b0 M HX Hb) as (r & Hr & Hr').
    exists (r * b0). split; [exists r, b0; auto|auto]. }
  assert (CO : forall X Y c, slim (image2 Rmult X Y) c -> slim (image2 Rmult Y X) c).
  { intros X0 Y0 c. apply slim_ext. intros t (r & s & ? & ? & ->). exists s, r.
    repeat split; auto. lra. }
  assert (NL : forall X Y c, slim (image2 Rmult (image1 Ropp X) Y) (xopp c) -> slim (image2 Rmult X Y) c).
  { intros X0 Y0 c H. apply slim_opp in H. rewrite xopp_involutive in H.
    revert H. apply slim_ext. intros t (q & (r & s & (r' & Hr' & ->) & Hs & ->) & ->).
    exists r', s. repeat split; auto. lra. }
  destruct a as [| |a|], b as [| |b|]; cbn [xmul]; try tauto; intros HX HY Hn.
  - apply NL, CO, NL. simpl. apply PP; apply (slim_opp _ NInf); auto.
  - apply (slim_opp _ NInf) in HX. simpl in HX, HY. revert Hn. xcase; intros Hn; try tauto.
    + apply NL. simpl. eapply PF; eauto.
    + apply NL, CO, NL. apply CO. eapply (PF _ _ (-b)); [auto| exists b; auto | lra].
  - apply NL. simpl. apply PP; [apply (slim_opp _ NInf)|]; auto.
  - apply (slim_opp _ NInf) in HY. simpl in HX, HY. revert Hn. xcase; intros Hn; try tauto.
    + apply CO, NL. simpl. eapply PF; eauto.
    + apply CO, NL, CO, NL. apply CO. eapply (PF _ _ (-a)); [auto| exists a; auto | lra].
  - simpl in *. exists a, b. auto.
  - simpl in HX. revert Hn. xcase; intros Hn; try tauto.
    + apply CO. eapply PF; eauto.
    + apply NL, CO. eapply (PF _ _ (-a)); [auto| exists a; auto | lra].
  - apply CO, NL. simpl. apply PP; [apply (slim_opp _ NInf)|]; auto.
  - simpl in HY. revert Hn. xcase; intros Hn; try tauto.
    + eapply PF; eauto.
    + apply CO, NL, CO. eapply (PF _ _ (-b)); [auto| exists b; auto | lra].
  - apply PP; auto.
Qed.

Lemma Rdiv_le_abs a M : 0 < M -> Rabs (a / M) = Rabs a / M.
Proof.
  intros H. unfold Rdiv. rewrite Rabs_mult, Rabs_inv, (Rabs_pos_eq M); lra.
Qed.

(** Limits of quotients. *)
Lemma wlim_div X Y a b : slim X a -> slim Y b -> xdiv a b <> NaN ->
  wlim (quotients X Y) (xdiv a b).
Proof.
  assert (FI : forall a (Y : R -> Prop), X a -> (forall M, exists s, Y s /\ M <= Rabs s) -> wlim (quotients X Y) (Fin 0)).
  { intros a0 Y0 HX HY eps He. destruct (HY ((Rabs a0 + 1) / eps)) as (s & Hs & Hs').
    assert (0 < (Rabs a0 + 1) / eps).
    { apply Rdiv_lt_0_compat; auto. pose proof (Rabs_pos a0). lra. }
    assert (s <> 0). { intros ->. rewrite Rabs_R0 in Hs'. lra. }
    exists (a0 / s). split; [exists a0, s; auto|].
    rewrite Rminus_0_r. unfold Rdiv. rewrite Rabs_mult, Rabs_inv.
    apply (Rmult_lt_reg_r (Rabs s)); [lra|].
    rewrite Rmult_assoc, Rinv_l, Rmult_1_r by lra.
    apply Rmult_le_compat_l with (r := eps) in Hs'; [|lra].
    unfold Rdiv in Hs'. rewrite (Rmult_comm _ (/ eps)), <- Rmult_assoc, Rinv_r, Rmult_1_l in Hs' by lra.
    lra. }
  destruct a as [| |a|], b as [| |b|]; cbn [xdiv]; try tauto; intros HX HY Hn.
  - revert Hn. simpl in HX, HY. xcase; intros Hn; try tauto.
    + intros M. destruct (HX (M * b)) as (q & Hq & Hq'). exists (q / b).
      split; [exists q, b; repeat split; auto; lra|].
      apply (Rmult_le_reg_r b); [lra|]. unfold Rdiv. rewrite Rmult_assoc, Rinv_l; lra.
    + intros M. destruct (HX (M * b)) as (q & Hq & Hq'). exists (q / b).
      split; [exists q, b; repeat split; auto; lra|].
      replace (q / b) with ((-q) / (-b)) by (field; lra).
      apply (Rmult_le_reg_r (-b)); [lra|]. unfold Rdiv. rewrite Rmult_assoc, Rinv_l; lra.
  - simpl in HX, HY. eapply FI; eauto. intros M. destruct (HY (- Rmax M 0)) as (s & Hs & Hs').
    exists s; split; auto. pose proof (Rmax_l M 0). pose proof (Rmax_r M 0).
    rewrite Rabs_left1; lra.
  - simpl in HX, HY. revert Hn. destruct (Req_EM_T b 0); [tauto|]. intros _.
    apply slim_wlim. simpl. exists a, b; auto.
  - simpl in HX, HY. eapply FI; eauto. intros M. destruct (HY (Rmax M 0)) as (s & Hs & Hs').
    exists s; split; auto. pose proof (Rmax_l M 0). pose proof (Rmax_r M 0).
    rewrite Rabs_pos_eq; lra.
  - revert Hn. simpl in HX, HY. xcase; intros Hn; try tauto.
    + intros M. destruct (HX (M * b)) as (q & Hq & Hq'). exists (q / b).
      split; [exists q, b; repeat split; auto; lra|].
      apply (Rmult_le_reg_r b); [lra|]. unfold Rdiv. rewrite Rmult_assoc, Rinv_l; lra.
    + intros M. destruct (HX (M * b)) as (q & Hq & Hq'). exists (q / b).
      split; [exists q, b; repeat split; auto; lra|].
      replace (q / b) with ((-q) / (-b)) by (field; lra).
      apply (Rmult_le_reg_r (-b)); [lra|]. unfold Rdiv. rewrite Rmult_assoc, Rinv_l; lra.
Qed.

(** ** Members of valid intervals *)
Section Mem.
Context {N : num} (val : T N -> ext).

Lemma mem_valid x r : mem val x r -> valid val x.
Proof.
  intros [H1 H2]. split; [eapply xle_trans; eauto|].
  split; intros E; rewrite E in *; simpl in *; auto.
Qed.

Lemma valid_mem x : valid val x -> exists r, mem val x r.
Proof.
  intros (H & H1 & H2). unfold mem.
  destruct (val (low x)) as [| |l|], (val (up x)) as [| |u|]; simpl in *; try tauto.
  - exists u; split; auto; lra.
  - exists 0; auto.
  - exists l; split; lra.
  - exists l; split; auto; lra.
Qed.

Lemma valid_iff x : valid val x <-> exists r, mem val x r.
Proof. split; [apply valid_mem|]. intros (r & H). eapply mem_valid; eauto. Qed.

Lemma valid_slim_low x : valid val x -> slim (mem val x) (val (low x)).
Proof.
  intros (H & H1 & H2). unfold mem.
  destruct (val (low x)) as [| |l|], (val (up x)) as [| |u|]; simpl in *; try tauto.
  - intros M. exists (Rmin M u). repeat split; auto. apply Rmin_r. apply Rmin_l.
  - intros M. exists M. repeat split; auto; lra.
  - split; lra.
  - split; auto; lra.
Qed.

Lemma valid_slim_up x : valid val x -> slim (mem val x) (val (up x)).
Proof.
  intros (H & H1 & H2). unfold mem.
  destruct (val (low x)) as [| |l|], (val (up x)) as [| |u|]; simpl in *; try tauto.
  - split; auto; lra.
  - intros M. exists M. repeat split; auto; lra.
  - split; lra.
  - intros M. exists (Rmax M l). repeat split; auto. apply Rmax_r. apply Rmax_l.
Qed.

Lemma valid_low_nn x : valid val x -> val (low x) <> NaN.
Proof. intros (H & _). eapply xle_nnl; eauto. Qed.
Lemma valid_up_nn x : valid val x -> val (up x) <> NaN.
Proof. intros (H & _). eapply xle_nnr; eauto. Qed.

(** The main introduction rule for tightness. *)
Lemma tightest_intro z (S : R -> Prop) e1 e2 :
  is_lb e1 S -> wlim S e1 -> is_ub e2 S -> wlim S e2 ->
  RD val e1 (low z) -> RU val e2 (up z) -> tightest val z S.
Proof.
  intros L1 W1 U2 W2 [D1 D2] [E1 E2]. split.
  - intros r Hr. split; [apply L1 in Hr|apply U2 in Hr]; eapply xle_trans; eauto.
  - intros w Hw. split.
    + apply D2. eapply wlim_lb; eauto. intros r Hr. apply (Hw r Hr).
    + apply E2. eapply wlim_ub; eauto. intros r Hr. apply (Hw r Hr).
Qed.

Lemma encloses_valid z S : nonempty S -> encloses val z S -> valid val z.
Proof. intros (r & Hr) H. eapply mem_valid, H, Hr. Qed.

Lemma tightest_valid z S : nonempty S -> tightest val z S -> valid val z.
Proof. intros Hn [H _]. eapply encloses_valid; eauto. Qed.

Lemma tightest_unique z z' S : tightest val z S -> tightest val z' S -> same val z z'.
Proof.
  intros [H1 H2] [H1' H2']. destruct (H2 z' H1'), (H2' z H1).
  split; apply xle_antisym; auto.
Qed.

Lemma tightest_ext z (S S' : R -> Prop) : (forall r, S r <-> S' r) -> tightest val z S -> tightest val z S'.
Proof.
  intros E [H1 H2]. split.
  - intros r Hr. apply H1, E, Hr.
  - intros w Hw. apply H2. intros r Hr. apply Hw, E, Hr.
Qed.

Lemma RD_val t : val t <> NaN -> RD val (val t) t.
Proof. intros H. split; auto. apply xle_refl; auto. Qed.
Lemma RU_val t : val t <> NaN -> RU val (val t) t.
Proof. intros H. split; auto. apply xle_refl; auto. Qed.

Lemma denotes_tightest z S : valid val z -> denotes val z S -> tightest val z S.
Proof.
  intros V H. apply tightest_intro with (val (low z)) (val (up z)).
  - intros r Hr. apply H in Hr. apply Hr.
  - eapply wlim_ext, slim_wlim, valid_slim_low; auto. intros r Hr. apply H; auto.
  - intros r Hr. apply H in Hr. apply Hr.
  - eapply wlim_ext, slim_wlim, valid_slim_up; auto. intros r Hr. apply H; auto.
  - apply RD_val, valid_low_nn; auto.
  - apply RU_val, valid_up_nn; auto.
Qed.
End Mem.

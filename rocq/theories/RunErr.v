(** * Running error analysis of expressions

    A certificate assigns to every node of an expression the exact value t and a
    radius E, where the radius covers the propagated error D of the operands and
    one rounding.  The interval that the library computes lies within E of t. *)

From Coq Require Import Reals ZArith Lra Lia Psatz Bool Classical.
From Flocq Require Import Core BinarySingleNaN.
From Verif Require Import Outcome Base Checking Interval Utility Arith Arith2 FloatNum Spec ExtR Sem
  FloatSpec FloatPol FloatInt CoreArith Inst Witness CoreCtor Ops OpsProof OpsIso Transc SpecTransc TransReal CoreTransc
  FloatTrans RefLib Properties1 Properties2 Properties10 ExprT ExprWidth Properties21 Properties25 TrigAcc.
Local Open Scope R_scope.

(** ** Certificates *)

(** A value within D of t, rounded once, is within E of t and does not overflow. *)
Definition rounded (f : fmt) (t D E : R) : Prop :=
  Rabs t + D <= largest f /\ D + (eps f * (Rabs t + D) + tiny f) <= E.
(** The error of the argument reduction of sin, cos and tan at arguments of
    magnitude at most m. *)
Definition reduction (f : fmt) (m : R) : R := 256 * eps f * (1 + m).

Section Certificate.
Context (p : platform).
Notation N := (fnum p).
Notation F := (p_T p).
Notation u := (eps (p_T p)).
(** Each variable is an interval around [rho n], of radius [d n]. *)
Context (rho d : nat -> R).

Definition call_cert (f : tfun) (t1 E1 t E : R) : Prop :=
  match f with
  | Fsin => t = sin t1 /\ E1 + reduction F (Rabs t1 + E1) <= E
  | Fcos => t = cos t1 /\ E1 + reduction F (Rabs t1 + E1) <= E
  | Ftan => exists D, graph Ftan t1 t /\
      (forall s, Rabs (s - t1) <= E1 + reduction F (Rabs t1 + E1) -> cos s <> 0 /\ Rabs (tan s - t) <= D) /\
      D + u * (1 + Rabs t + D) <= E
  | _ => exists D, graph f t1 t /\ (forall r w, Rabs (r - t1) <= E1 -> graph f r w -> Rabs (w - t) <= D) /\ rounded F t D E
  end.
Definition op2_cert (o : op2) (t1 E1 t2 E2 t E : R) : Prop :=
  o <> B_hull /\ (o = B_div -> E2 < Rabs t2) /\
  exists D, rel2 o t1 t2 t /\
    (forall r s w, Rabs (r - t1) <= E1 -> Rabs (s - t2) <= E2 -> rel2 o r s w -> Rabs (w - t) <= D) /\ rounded F t D E.
Definition op1_cert (o : op1) (t1 E1 t E : R) : Prop :=
  exists D, rel1 o t1 t /\ (forall r w, Rabs (r - t1) <= E1 -> rel1 o r w -> Rabs (w - t) <= D) /\
    match o with
    | U_pow n => (0 < n <= int_max)%Z /\ exists G, 1 <= G /\ Rabs t1 + E1 <= G /\
        G ^ Z.to_nat n * (1 + 2 * u) ^ (Z.to_nat n - 1) <= largest F /\
        D + G ^ Z.to_nat n * ((1 + 2 * u) ^ (Z.to_nat n - 1) - 1) <= E
    | _ => rounded F t D E
    end.

(** The value of e is t and the result lies within E of it. *)
Fixpoint cert (e : texpr N) (t E : R) : Prop :=
  match e with
  | x_var n => t = rho n /\ d n <= E
  | x_num v => fval v = Fin t /\ 0 <= E
  | x_1 o e1 => exists t1 E1, cert e1 t1 E1 /\ op1_cert o t1 E1 t E
  | x_2 o e1 e2 => exists t1 E1 t2 E2, cert e1 t1 E1 /\ cert e2 t2 E2 /\ op2_cert o t1 E1 t2 E2 t E
  | x_in o e1 v => exists t1 E1 t2, cert e1 t1 E1 /\ fval v = Fin t2 /\ op2_cert o t1 E1 t2 0 t E
  | x_ni o v e1 => exists t1 t2 E2, fval v = Fin t1 /\ cert e1 t2 E2 /\ op2_cert o t1 0 t2 E2 t E
  | x_nn o v w => o <> N_hull /\ exists t1 t2, fval v = Fin t1 /\ fval w = Fin t2 /\ op2_cert (op_of o) t1 0 t2 0 t E
  | x_intersect e1 e2 => exists E1 E2, cert e1 t E1 /\ cert e2 t E2 /\ Rmin E1 E2 <= E
  | x_widen e1 v => exists E1 s, cert e1 t E1 /\ fval v = Fin s /\ 0 <= s /\ rounded F t (E1 + s) E
  | x_call f e1 => exists t1 E1, cert e1 t1 E1 /\ call_cert f t1 E1 t E
  end.
End Certificate.

Lemma sin_lipschitz a b : Rabs (sin a - sin b) <= Rabs (a - b).
Proof.
  rewrite <- (Rtrigo1.cos_shift a), <- (Rtrigo1.cos_shift b). eapply Rle_trans; [apply cos_lipschitz|].
  replace (PI / 2 - a - (PI / 2 - b)) with (- (a - b)) by ring. rewrite Rabs_Ropp. lra.
Qed.

(** ** Certificates hold *)
Section Proof.
Context (p : platform) (k : rkind) (debug : bool) (c : ckind) (ord : site -> bool).
Notation N := (fnum p).
Notation I := (itv N).
Notation P := (fpol p Save k debug c ord).
Notation F := (p_T p).
Notation fv := (@fval (p_T p)).
Notation u := (eps (p_T p)).
Context (K : consts N) (RR : transc N) (fuel : nat).
Hypothesis H_tight : forall f (x : I), f <> Fsin -> f <> Fcos -> f <> Ftan -> fvalid x -> somewhere_defined f x ->
  exists z : I, returns (call f K RR fuel P x) z /\ ftightest z (fvalues f x).
Hypothesis H_sc : forall f (x : I), f = Fsin \/ f = Fcos -> fvalid x ->
  exists z : I, returns (call f K RR fuel P x) z /\ contains_values f x z /\
    forall t, fmem z t -> exists r v, fmem x r /\ graph f r v /\ Rabs (t - v) <= 256 * u * (1 + Rabs r).
Hypothesis H_tan : forall x : I, fvalid x ->
  (forall r j, fmem x r -> 256 * u * (1 + Rabs r) < Rabs (r - (PI / 2 + IZR j * PI))) ->
  exists z : I, returns (call Ftan K RR fuel P x) z /\ contains_values Ftan x z /\
    forall t, fmem z t -> exists r s v, fmem x r /\ Rabs (s - r) <= 256 * u * (1 + Rabs r) /\
      graph Ftan s v /\ Rabs (t - v) <= u * (1 + Rabs v).

Definition near (z : I) (t E : R) : Prop := fmem z t /\ forall w, fmem z w -> Rabs (w - t) <= E.
Lemma near_mono z t E E' : E <= E' -> near z t E -> near z t E'.
Proof. intros H [A B]. split; [exact A|]. intros w M. specialize (B w M). lra. Qed.

Lemma gets_near ex (z : I) S t D E : gets p ex z S -> S t -> (forall w, S w -> Rabs (w - t) <= D) -> rounded F t D E -> near z t E.
Proof.
  intros G St HD [L1 L2]. pose proof (gets_encloses p _ _ _ G) as En. split; [apply En, St|]. intros w Mw.
  assert (D0 : 0 <= D) by (pose proof (HD t St) as Q; rewrite Rminus_diag_eq, Rabs_R0 in Q by reflexivity; exact Q).
  pose proof (eps_pos F) as U0. pose proof (tiny_pos F) as T0. pose proof (Rabs_pos t) as A0.
  assert (0 <= u * (Rabs t + D)) by (apply Rmult_le_pos; lra).
  destruct ex; cbn [gets] in G.
  - apply G in Mw. specialize (HD w Mw). lra.
  - assert (Ra : Rabs (t - D) <= Rabs t + D).
    { unfold Rminus. eapply Rle_trans; [apply Rabs_triang|]. rewrite Rabs_Ropp, (Rabs_pos_eq D) by exact D0. lra. }
    assert (Rb : Rabs (t + D) <= Rabs t + D).
    { eapply Rle_trans; [apply Rabs_triang|]. rewrite (Rabs_pos_eq D) by exact D0. lra. }
    pose proof (tight_close z S (t - D) (t + D) G) as Q.
    assert (HS : forall s, S s -> t - D <= s <= t + D) by (intros s Hs; apply HD, Rabs_le_inv in Hs; lra).
    specialize (Q HS ltac:(lra) ltac:(lra) w Mw).
    apply (Rmult_le_compat_l u) in Ra; [|lra]. apply (Rmult_le_compat_l u) in Rb; [|lra]. apply Rabs_le. lra.
Qed.

Lemma near_E (z : I) t E : near z t E -> 0 <= E.
Proof. intros [M H]. specialize (H t M). rewrite Rminus_diag_eq, Rabs_R0 in H by reflexivity. exact H. Qed.
Lemma near_valid (z : I) t E : near z t E -> fvalid z.
Proof. intros [M _]. exact (mem_fvalid p z t M). Qed.

(** *** One operation *)
Lemma op1_near o (x : I) t1 E1 t E : near x t1 E1 -> op1_cert p o t1 E1 t E -> exists z, returns (run1 P o x) z /\ near z t E.
Proof.
  intros Hx (D & Q & HD & Ho). pose proof (near_valid _ _ _ Hx) as V. destruct Hx as [Mt Hx].
  assert (Hp : (exists n, o = U_pow n) \/ (forall n, o <> U_pow n)) by (destruct o; try (right; intros m; discriminate); left; eauto).
  destruct Hp as [(n & ->)|Np].
  - destruct Ho as ((Hn & _) & G & G1 & HG & Hl & HE). cbn [rel1] in Q, HD.
    assert (Hb : (0 <? n)%Z = true) by (apply Z.ltb_lt; exact Hn). rewrite Hb in Q, HD. subst t.
    destruct (C70_pow p k debug c ord x n G (t1 ^ Z.to_nat n - D) (t1 ^ Z.to_nat n + D) Hn V G1) as (z & Rz & Vz & Cz & Bz).
    + intros r Mr. specialize (Hx r Mr). pose proof (Rabs_triang_inv r t1). lra.
    + exact Hl.
    + intros r Mr. pose proof (HD r _ (Hx r Mr) eq_refl) as B. apply Rabs_le_inv in B. lra.
    + exists z. split; [exact Rz|]. split; [exact (Cz t1 Mt)|]. intros w Mw. specialize (Bz w Mw). apply Rabs_le. lra.
  - destruct (run1_gets p k debug c ord o x Np V) as (z & Rz & Vz & G); [exists t, t1; auto|].
    exists z. split; [exact Rz|]. apply (gets_near _ _ _ t D E G); [exists t1; auto| |destruct o; try exact Ho; destruct (Np n eq_refl)].
    intros w (r & Mr & Qr). exact (HD r w (Hx r Mr) Qr).
Qed.

(** The interval of the mixed operations. *)
Lemma in_gets o (x : I) (v : T N) s : fv v = Fin s -> o <> B_hull -> (o = B_div -> s <> 0) -> fvalid x ->
  exists z, returns (run_in P o x v) z /\ gets p (exact2 o) z (img2 o (fmem x) (point s)).
Proof.
  intros E Nh Nd Vx. destruct (point_mem p v s E) as [Vv Mv]. destruct (nonempty_mem p x Vx) as (r0 & Mr0).
  assert (Ne : nonempty (img2 o (fmem x) (point s))).
  { assert (Q : exists t, rel2 o r0 s t) by (destruct o; cbn [rel2] in *; eauto; try congruence; exists (r0 / s); split; auto).
    destruct Q as (t & Q). exists t, r0, s. split; [exact Mr0|]. split; [reflexivity|exact Q]. }
  destruct (in_like p k debug c ord o v x s E Vx Ne) as (z & z' & Rz & Rz' & Sz). exists z'. split; [exact Rz'|].
  destruct (swaps o) eqn:Sw.
  - destruct (run2_gets p k debug c ord o (mk v v) x) as (q & Rq & Vq & G); auto; [intros ->; discriminate Sw|].
    rewrite (returns_det _ _ _ Rz Rq) in Sz. apply (gets_same p _ q _ _ Sz). apply (gets_ext p _ q _ _ G). intros t.
    split; intros (a & b & A & B' & Q); exists b, a; (split; [try exact B'; apply Mv, B'|split; [try exact A; apply Mv, A|]]);
      destruct o; try discriminate Sw; simpl in Q |- *; rewrite ?(Rmax_comm b), ?(Rmin_comm b); try lra; auto.
  - destruct (run2_gets p k debug c ord o x (mk v v)) as (q & Rq & Vq & G); auto; [intros -> M0; apply Mv in M0; apply (Nd eq_refl); symmetry; exact M0|].
    rewrite (returns_det _ _ _ Rz Rq) in Sz. apply (gets_same p _ q _ _ Sz). apply (gets_ext p _ q _ _ G). intros t.
    split; intros (a & b & A & B' & Q); exists a, b; (split; [exact A|split; [apply Mv, B'|exact Q]]).
Qed.
Lemma ni_gets o (x : I) (v : T N) s : fv v = Fin s -> o <> B_hull -> (o = B_div -> ~ fmem x 0) -> fvalid x ->
  exists z, returns (run_ni P o v x) z /\ gets p (exact2 o) z (img2 o (point s) (fmem x)).
Proof.
  intros E Nh Nd Vx. destruct (point_mem p v s E) as [Vv Mv]. destruct (nonempty_mem p x Vx) as (r0 & Mr0).
  assert (Ne : nonempty (img2 o (point s) (fmem x))).
  { assert (Q : exists t, rel2 o s r0 t).
    { destruct o; cbn [rel2] in *; eauto; try congruence; exists (s / r0); split; auto. intros ->. exact (Nd eq_refl Mr0). }
    destruct Q as (t & Q). exists t, s, r0. split; [reflexivity|]. split; [exact Mr0|exact Q]. }
  destruct (ni_like p k debug c ord o v x s E Vx Ne) as (z & z' & Rz & Rz' & Sz). exists z'. split; [exact Rz'|].
  destruct (run2_gets p k debug c ord o (mk v v) x) as (q & Rq & Vq & G); auto. rewrite (returns_det _ _ _ Rz Rq) in Sz.
  apply (gets_same p _ q _ _ Sz). apply (gets_ext p _ q _ _ G). intros t.
  split; intros (a & b & A & B' & Q); exists a, b; (split; [apply Mv, A|split; [exact B'|exact Q]]).
Qed.
Lemma nn_gets o (v w : T N) r s : fv v = Fin r -> fv w = Fin s -> o <> N_hull -> (o = N_div -> s <> 0) ->
  exists z, returns (run_nn P o v w) z /\ gets p false z (img2 (op_of o) (point r) (point s)).
Proof.
  intros Ea Eb Nh Nd. destruct (C52_number_functions_tightest p k debug c ord v w r s Ea Eb) as (A & B' & C & D & _).
  assert (W : forall (z : I) t, ftightest z (point t) -> rel2 (op_of o) r s t -> (forall t', rel2 (op_of o) r s t' -> t' = t) ->
    ftightest z (img2 (op_of o) (point r) (point s))).
  { intros z t T Q Un. apply (tightest_ext _ z (point t)); [|exact T]. intros x. split.
    - intros ->. exists r, s. split; [reflexivity|split; [reflexivity|exact Q]].
    - intros (a & b & -> & -> & Q'). apply Un in Q'. exact Q'. }
  destruct o; cbn [run_nn op_of gets] in *.
  - destruct A as (z & Rz & _ & T). exists z. split; [exact Rz|]. apply (W z (r + s)); auto. reflexivity.
  - destruct B' as (z & Rz & _ & T). exists z. split; [exact Rz|]. apply (W z (r - s)); auto. reflexivity.
  - destruct C as (z & Rz & _ & T). exists z. split; [exact Rz|]. apply (W z (r * s)); auto. reflexivity.
  - destruct (D (Nd eq_refl)) as (z & Rz & _ & T). exists z. split; [exact Rz|].
    apply (W z (r / s)); auto; [split; auto|]. intros t' [_ H]. exact H.
  - congruence.
Qed.
Lemma op2_gets_near o X Y (z : I) t1 E1 t2 E2 t E ex : gets p ex z (img2 o X Y) -> X t1 -> Y t2 ->
  (forall r, X r -> Rabs (r - t1) <= E1) -> (forall r, Y r -> Rabs (r - t2) <= E2) -> op2_cert p o t1 E1 t2 E2 t E -> near z t E.
Proof.
  intros G X1 Y2 HX HY (_ & _ & D & Q & HD & Rd). apply (gets_near _ _ _ t D E G); [exists t1, t2; auto| |exact Rd].
  intros w (r & s & Xr & Ys & Qw). apply (HD r s w); auto.
Qed.
Lemma away0 (x : I) t E : near x t E -> E < Rabs t -> ~ fmem x 0.
Proof. intros [_ H] L M. apply H in M. rewrite Rminus_0_l, Rabs_Ropp in M. lra. Qed.

(** *** One function call *)
Lemma call_near f (x : I) t1 E1 t E : near x t1 E1 -> call_cert p f t1 E1 t E -> exists z, returns (call f K RR fuel P x) z /\ near z t E.
Proof.
  intros Hx C. pose proof (near_valid _ _ _ Hx) as V. pose proof (near_E _ _ _ Hx) as E0. destruct Hx as [Mt Hx].
  pose proof (eps_pos F) as U0.
  assert (Red : forall r, fmem x r -> 256 * u * (1 + Rabs r) <= reduction F (Rabs t1 + E1)).
  { intros r Mr. specialize (Hx r Mr). pose proof (Rabs_triang_inv r t1). unfold reduction. apply Rmult_le_compat_l; lra. }
  assert (SC : f = Fsin \/ f = Fcos -> graph f t1 t -> (forall r v, graph f r v -> Rabs (v - t) <= Rabs (r - t1)) ->
    E1 + reduction F (Rabs t1 + E1) <= E -> exists z, returns (call f K RR fuel P x) z /\ near z t E).
  { intros Hf G Lip HE. destruct (H_sc f x Hf V) as (z & Rz & Cz & Az). exists z. split; [exact Rz|]. split; [exact (Cz t1 t Mt G)|].
    intros w Mw. destruct (Az w Mw) as (r & v & Mr & Gv & Bv). specialize (Red r Mr). specialize (Lip r v Gv). specialize (Hx r Mr).
    replace (w - t) with ((w - v) + (v - t)) by ring. eapply Rle_trans; [apply Rabs_triang|]. lra. }
  assert (TT : f <> Fsin -> f <> Fcos -> f <> Ftan ->
    (exists D, graph f t1 t /\ (forall r w, Rabs (r - t1) <= E1 -> graph f r w -> Rabs (w - t) <= D) /\ rounded F t D E) ->
    exists z, returns (call f K RR fuel P x) z /\ near z t E).
  { intros F1 F2 F3 (D & G & HD & Rd). destruct (H_tight f x F1 F2 F3 V) as (z & Rz & T); [exists t1, t; auto|].
    exists z. split; [exact Rz|]. apply (gets_near false z (fvalues f x) t D E T); [exists t1; auto| |exact Rd].
    intros w (r & Mr & Gw). exact (HD r w (Hx r Mr) Gw). }
  destruct f; cbn [call_cert] in C; try (apply TT; [discriminate|discriminate|discriminate|exact C]).
  - destruct C as [-> HE]. apply SC; auto; [reflexivity|]. intros r v ->. apply sin_lipschitz.
  - destruct C as [-> HE]. apply SC; auto; [reflexivity|]. intros r v ->. apply cos_lipschitz.
  - destruct C as (D & (C1 & Et) & HD & HE). change (t = tan t1) in Et. subst t.
    destruct (H_tan x V) as (z & Rz & Cz & Az).
    { intros r j Mr. apply Rnot_le_lt. intros Q. specialize (Red r Mr). specialize (Hx r Mr).
      destruct (HD (PI / 2 + IZR j * PI)) as [N0 _].
      - replace (PI / 2 + IZR j * PI - t1) with ((r - t1) - (r - (PI / 2 + IZR j * PI))) by ring.
        unfold Rminus at 1. eapply Rle_trans; [apply Rabs_triang|]. rewrite Rabs_Ropp. lra.
      - apply N0. apply cos_eq_0_1. exists j. ring. }
    exists z. split; [exact Rz|].
    split; [apply (Cz t1); [exact Mt|split; [exact C1|reflexivity]]|].
    intros w Mw. destruct (Az w Mw) as (r & s & v & Mr & Bs & [Cs ->] & Bw). specialize (Red r Mr). specialize (Hx r Mr).
    destruct (HD s) as [_ B].
    + replace (s - t1) with ((s - r) + (r - t1)) by ring. eapply Rle_trans; [apply Rabs_triang|]. lra.
    + unfold tan in B at 1. pose proof (Rabs_triang_inv (sin s / cos s) (tan t1)) as Ti.
      assert (Bv : u * (1 + Rabs (sin s / cos s)) <= u * (1 + Rabs (tan t1) + D)) by (apply Rmult_le_compat_l; lra).
      replace (w - tan t1) with ((w - sin s / cos s) + (sin s / cos s - tan t1)) by ring.
      eapply Rle_trans; [apply Rabs_triang|]. lra.
Qed.

(** *** Expressions *)
Context (rho d : nat -> R) (eo : texpr N -> bool) (env : nat -> I).
Hypothesis Henv : forall n, fmem (env n) (rho n) /\ forall r, fmem (env n) r -> Rabs (r - rho n) <= d n.

Lemma cert_correct e : forall t E, cert p rho d e t E -> exists z, returns (teval P K RR fuel eo env e) z /\ near z t E.
Proof.
  induction e as [n|v|o e IH|o e1 IH1 e2 IH2|o e IH v|o v e IH|o v w|e1 IH1 e2 IH2|e IH v|f e IH]; intros t E C; cbn [teval cert] in *.
  - destruct C as [-> HE]. exists (env n). split; [intros s; reflexivity|]. destruct (Henv n) as [A B].
    split; [exact A|]. intros w Mw. specialize (B w Mw). lra.
  - destruct C as [Ev HE]. destruct (point_mem p v t Ev) as [Vv Mv]. exists (mk v v). split.
    { intros mode. unfold ctor_num, bind. cbn [p_ck fpol]. rewrite Mutate.is_nan_false by (rewrite Ev; discriminate). reflexivity. }
    split; [apply Mv; reflexivity|]. intros w Mw. apply Mv in Mw. unfold point in Mw. subst w. rewrite Rminus_diag_eq, Rabs_R0 by reflexivity. exact HE.
  - destruct C as (t1 & E1 & C1 & C). destruct (IH t1 E1 C1) as (x & Rx & Nx). destruct (op1_near o x t1 E1 t E Nx C) as (z & Rz & Nz).
    exists z. split; [eapply returns_bind; eauto|exact Nz].
  - destruct C as (t1 & E1 & t2 & E2 & C1 & C2 & C). destruct (IH1 t1 E1 C1) as (x & Rx & Nx). destruct (IH2 t2 E2 C2) as (y & Ry & Ny).
    pose proof C as (Nh & Nd & _).
    destruct (run2_gets p k debug c ord o x y) as (z & Rz & Vz & G); auto; [|eapply near_valid; eauto|eapply near_valid; eauto|].
    { intros ->. apply (away0 y t2 E2 Ny). apply Nd. reflexivity. }
    exists z. split; [eapply returns_bind; [apply returns_args2; eauto|exact Rz]|].
    apply (op2_gets_near o _ _ z t1 E1 t2 E2 t E _ G); [apply Nx|apply Ny|apply Nx|apply Ny|exact C].
  - destruct C as (t1 & E1 & t2 & C1 & Ev & C). destruct (IH t1 E1 C1) as (x & Rx & Nx). pose proof C as (Nh & Nd & _).
    destruct (in_gets o x v t2 Ev Nh) as (z & Rz & G); [|eapply near_valid; eauto|].
    { intros -> ->. specialize (Nd eq_refl). rewrite Rabs_R0 in Nd. lra. }
    exists z. split; [eapply returns_bind; eauto|].
    apply (op2_gets_near o _ _ z t1 E1 t2 0 t E _ G); [apply Nx|reflexivity|apply Nx| |exact C].
    intros r Hr. unfold point in Hr. subst r. rewrite Rminus_diag_eq, Rabs_R0 by reflexivity. lra.
  - destruct C as (t1 & t2 & E2 & Ev & C2 & C). destruct (IH t2 E2 C2) as (x & Rx & Nx). pose proof C as (Nh & Nd & _).
    destruct (ni_gets o x v t1 Ev Nh) as (z & Rz & G); [|eapply near_valid; eauto|].
    { intros ->. apply (away0 x t2 E2 Nx). apply Nd. reflexivity. }
    exists z. split; [eapply returns_bind; eauto|].
    apply (op2_gets_near o _ _ z t1 0 t2 E2 t E _ G); [reflexivity|apply Nx| |apply Nx|exact C].
    intros r Hr. unfold point in Hr. subst r. rewrite Rminus_diag_eq, Rabs_R0 by reflexivity. lra.
  - destruct C as (Nh & t1 & t2 & E1 & E2 & C). pose proof C as (Nh' & Nd & _).
    destruct (nn_gets o v w t1 t2 E1 E2 Nh) as (z & Rz & G).
    { intros -> ->. specialize (Nd eq_refl). rewrite Rabs_R0 in Nd. lra. }
    exists z. split; [exact Rz|].
    apply (op2_gets_near (op_of o) _ _ z t1 0 t2 0 t E _ G); [reflexivity|reflexivity| | |exact C];
      (intros r Hr; unfold point in Hr; subst r; rewrite Rminus_diag_eq, Rabs_R0 by reflexivity; lra).
  - destruct C as (E1 & E2 & C1 & C2 & HE). destruct (IH1 t E1 C1) as (x & Rx & Nx). destruct (IH2 t E2 C2) as (y & Ry & Ny).
    destruct (proj1 (C32_intersect p k debug c ord x y (or_introl (near_valid _ _ _ Nx)) (or_introl (near_valid _ _ _ Ny)))) as (z & Rz & _ & D); [exists t; split; [apply Nx|apply Ny]|].
    exists z. split; [eapply returns_bind; [apply returns_args2; eauto|exact Rz]|]. split; [apply D; split; [apply Nx|apply Ny]|].
    intros w Mw. apply D in Mw. destruct Mw as [Wx Wy]. apply Nx in Wx. apply Ny in Wy. unfold Rmin in HE. destruct (Rle_dec E1 E2); lra.
  - destruct C as (E1 & s & C1 & Ev & Ps & Rd). destruct (IH t E1 C1) as (x & Rx & Nx).
    destruct (C36_widen_tightest p k debug c ord x v s (near_valid _ _ _ Nx) Ev Ps) as (z & Rz & _ & T).
    exists z. split; [eapply returns_bind; eauto|]. apply (gets_near false z _ t (E1 + s) E T); [exists t; split; [apply Nx|]| |exact Rd].
    + rewrite Rminus_diag_eq, Rabs_R0 by reflexivity. exact Ps.
    + intros w (q & Mq & Bq). apply Nx in Mq. replace (w - t) with ((w - q) + (q - t)) by ring. eapply Rle_trans; [apply Rabs_triang|]. lra.
  - destruct C as (t1 & E1 & C1 & C). destruct (IH t1 E1 C1) as (x & Rx & Nx). destruct (call_near f x t1 E1 t E Nx C) as (z & Rz & Nz).
    exists z. split; [eapply returns_bind; eauto|exact Nz].
Qed.
End Proof.

(** * How wide results are *)

From Coq Require Import Reals ZArith Lra Lia Psatz Bool Classical.
From Flocq Require Import Core BinarySingleNaN.
From Verif Require Import Outcome Base Checking Interval Utility Arith Arith2 FloatNum Spec ExtR Sem
  FloatSpec FloatPol FloatMed FloatInt CoreArith CoreDiv CorePow CoreMore CoreUtil Inst Witness CoreCtor Ops OpsProof CoreIso OpsIso NewtonProof RefLib ExprExact
  Properties1 Properties2.
Local Open Scope R_scope.

(** ** One rounding *)
(** The distance between 1 and the next number, and the smallest positive number. *)
Definition eps (f : fmt) : R := bpow radix2 (1 - prec f).
Definition tiny (f : fmt) : R := bpow radix2 (SpecFloat.emin (prec f) (emax f)).
Lemma eps_pos f : 0 < eps f. Proof. apply bpow_gt_0. Qed.
Lemma tiny_pos f : 0 < tiny f. Proof. apply bpow_gt_0. Qed.
Lemma tiny_le_eps f : tiny f <= eps f.
Proof.
  unfold tiny, eps. apply bpow_le. unfold SpecFloat.emin. pose proof (fmt_prec_gt_0 f) as A. pose proof (fmt_PE f) as B.
  unfold Prec_gt_0, Prec_lt_emax in *. lia.
Qed.

#[local] Instance valid_exp_w (f : fmt) : Valid_exp (fexpf f).
Proof. apply FLT_exp_valid. apply fmt_prec_gt_0. Qed.
Lemma rnd_largest f m r : Rabs r <= largest f -> Rabs (rnd f m r) <= largest f.
Proof.
  assert (G : forall s : bool, generic_format radix2 (fexpf f) (if s then - largest f else largest f)).
  { intros s. destruct (has_largest f s) as (t & E). apply fval_fin_iff in E. destruct E as [_ <-]. apply generic_format_B2R. }
  intros L. apply Rabs_le_inv in L. apply Rabs_le. split.
  - rewrite <- (rnd_gen f m _ (G true)). apply round_le; [apply valid_exp_w|apply valid_rnd_round_mode|lra].
  - rewrite <- (rnd_gen f m _ (G false)). apply round_le; [apply valid_exp_w|apply valid_rnd_round_mode|lra].
Qed.
Lemma round_close f d r : Rabs r <= largest f ->
  exists (t : flt f) q, fval t = Fin q /\ Rabs (q - r) <= eps f * Rabs r + tiny f /\ match d with Dn => q <= r | Up => r <= q end.
Proof.
  intros L. exists (f_of_R f (dmode d) r), (rnd f (md (dmode d)) r).
  pose proof (rnd_largest f (md (dmode d)) r L) as L'.
  assert (Lx : largest f < bpow radix2 (emax f)) by (unfold largest; pose proof (bpow_gt_0 radix2 (emax f - prec f)); lra).
  split; [|split].
  - pose proof (f_of_R_rounds f (dmode d) r) as K. unfold rounds in K.
    rewrite (rnd_gen _ _ (rnd f (md (dmode d)) r)) in K by (apply generic_format_round; [apply valid_exp_w|apply valid_rnd_round_mode]).
    rewrite Rlt_bool_true in K by lra. apply fval_fin_iff. exact K.
  - apply err_bound.
  - destruct d; [apply (round_DN_pt radix2 (fexpf f) r)|apply (round_UP_pt radix2 (fexpf f) r)].
Qed.

(** ** The tightest interval around a bounded set *)
Section Tight.
Context {p : platform}.
Notation N := (fnum p).
Notation I := (itv N).
Notation F := (p_T p).
Notation fv := (@fval (p_T p)).

Lemma tight_close (z : I) S a b : ftightest z S -> (forall s, S s -> a <= s <= b) -> Rabs a <= largest F -> Rabs b <= largest F ->
  forall r, fmem z r -> a - (eps F * Rabs a + tiny F) <= r <= b + (eps F * Rabs b + tiny F).
Proof.
  intros [E T] HS La Lb r [Ml Mu].
  destruct (round_close F Dn a La) as (t & q & Et & Ct & Dt). destruct (round_close F Up b Lb) as (u & v & Eu & Cu & Du).
  destruct (T (@mk N t u)) as [A B].
  { intros s Hs. apply HS in Hs. split; simpl; [rewrite Et|rewrite Eu]; simpl; lra. }
  pose proof (xle_trans _ _ _ A Ml) as A'. pose proof (xle_trans _ _ _ Mu B) as B'. simpl in A', B'.
  rewrite Et in A'. rewrite Eu in B'. simpl in A', B'. apply Rabs_le_inv in Ct. apply Rabs_le_inv in Cu. lra.
Qed.
(** A bounded nonempty set has a least and a greatest bound. *)
Lemma extent (S : R -> Prop) B D : nonempty S -> (forall s, S s -> Rabs s <= B) -> (forall s s', S s -> S s' -> Rabs (s - s') <= D) ->
  exists a b, (forall s, S s -> a <= s <= b) /\ Rabs a <= B /\ Rabs b <= B /\ b - a <= D.
Proof.
  intros (s0 & H0) HB HD.
  destruct (completeness S) as (b & Ub & Lb); [exists B; intros s Hs; apply HB, Rabs_le_inv in Hs; lra|exists s0; exact H0|].
  destruct (completeness (fun s => S (- s))) as (a & Ua & La).
  { exists B. intros s Hs. apply HB, Rabs_le_inv in Hs; lra. }
  { exists (- s0). rewrite Ropp_involutive. exact H0. }
  assert (A : forall s, S s -> - a <= s) by (intros s Hs; assert (- s <= a) by (apply Ua; rewrite Ropp_involutive; exact Hs); lra).
  assert (Bs : forall s, S s -> s <= b) by (intros s Hs; apply Ub, Hs).
  exists (- a), b. split; [intros s Hs; split; auto|].
  pose proof (A _ H0). pose proof (Bs _ H0).
  assert (b <= B) by (apply Lb; intros s Hs; apply HB, Rabs_le_inv in Hs; lra).
  assert (a <= B) by (apply La; intros s Hs; apply HB, Rabs_le_inv in Hs; lra).
  pose proof (HB _ H0) as K0. apply Rabs_le_inv in K0.
  split; [apply Rabs_le; lra|]. split; [apply Rabs_le; lra|].
  assert (b <= D - a).
  { apply Lb. intros s Hs. assert (a <= D - s); [|lra]. apply La. intros s' Hs'. specialize (HD _ _ Hs Hs'). apply Rabs_le_inv in HD. lra. }
  lra.
Qed.
Lemma tight_width (z : I) S B D : ftightest z S -> nonempty S -> (forall s, S s -> Rabs s <= B) -> (forall s, S s -> Rabs s <= largest F) ->
  (forall s s', S s -> S s' -> Rabs (s - s') <= D) ->
  forall r s, fmem z r -> fmem z s -> Rabs (r - s) <= D + 2 * (B + 1) * eps F.
Proof.
  intros T Ne HB HL HD.
  destruct (extent S (Rmin B (largest F)) D Ne) as (a & b & HS & Ba & Bb & W); [intros s Hs; apply Rmin_glb; auto|exact HD|].
  pose proof (Rmin_l B (largest F)). pose proof (Rmin_r B (largest F)).
  intros r s Mr Ms.
  pose proof (tight_close z S a b T HS ltac:(lra) ltac:(lra) r Mr) as Kr.
  pose proof (tight_close z S a b T HS ltac:(lra) ltac:(lra) s Ms) as Ks.
  pose proof (eps_pos F). pose proof (tiny_le_eps F).
  assert (eps F * Rabs a <= eps F * B) by (apply Rmult_le_compat_l; lra).
  assert (eps F * Rabs b <= eps F * B) by (apply Rmult_le_compat_l; lra).
  apply Rabs_le. lra.
Qed.
(** Bounded in members, bounded by the format. *)
Lemma member_largest (z : I) B r : (forall t, fmem z t -> Rabs t <= B) -> fmem z r -> Rabs r <= largest F.
Proof.
  intros HB [Ml Mu].
  assert (El : exists a, fv (low z) = Fin a).
  { destruct (fv (low z)) eqn:E; cbn [xle] in Ml; try tauto; [|eauto].
    exfalso. assert (M : fmem z (Rmin r (- B - 1))).
    { split; [change (xle (fv (low z)) (Fin (Rmin r (-B-1)))); rewrite E; exact Logic.I|]. eapply xle_trans; [|exact Mu]. simpl. apply Rmin_l. }
    apply HB in M. apply Rabs_le_inv in M. pose proof (Rmin_r r (- B - 1)). pose proof (Rmin_l r (-B-1)). lra. }
  assert (Eu : exists b, fv (up z) = Fin b).
  { destruct (fv (up z)) eqn:E; cbn [xle] in Mu; try tauto; [eauto|].
    exfalso. assert (M : fmem z (Rmax r (B + 1))).
    { split; [eapply xle_trans; [exact Ml|]; simpl; apply Rmax_l|]. change (xle (Fin (Rmax r (B+1))) (fv (up z))); rewrite E; exact Logic.I. }
    apply HB in M. apply Rabs_le_inv in M. pose proof (Rmax_r r (B + 1)). lra. }
  destruct El as (a & Ea), Eu as (b & Eb). change (xle (fv (low z)) (Fin r)) in Ml. change (xle (Fin r) (fv (up z))) in Mu.
  rewrite Ea in Ml. rewrite Eb in Mu. simpl in Ml, Mu.
  pose proof (fin_le_largest F _ _ Ea) as A. pose proof (fin_le_largest F _ _ Eb) as B'. apply Rabs_le_inv in A. apply Rabs_le_inv in B'.
  apply Rabs_le. lra.
Qed.
End Tight.

(** ** Powers: one rounding per multiplication *)
(** The error of the n-th power of a number within -G ... G: about 2 (n - 1) G^n units. *)
Definition pow_err (f : fmt) (G : R) (n : nat) : R := G ^ n * ((1 + 2 * eps f) ^ (n - 1) - 1).
(** Powers on a bounded range change at most n * G^(n-1) times as fast as the argument. *)
Lemma pow_lip G r s n : 0 <= G -> Rabs r <= G -> Rabs s <= G -> Rabs (r ^ n - s ^ n) <= INR n * G ^ (n - 1) * Rabs (r - s).
Proof.
  intros HG Hr Hs. induction n as [|n IH].
  - simpl. rewrite Rminus_diag_eq, Rabs_R0 by reflexivity. lra.
  - replace (S n - 1)%nat with n by lia. rewrite S_INR. rewrite <- !tech_pow_Rmult. replace (r * r ^ n - s * s ^ n) with (r * (r ^ n - s ^ n) + (r - s) * s ^ n) by ring.
    eapply Rle_trans; [apply Rabs_triang|]. rewrite !Rabs_mult. pose proof (Rabs_pos (r - s)) as A0. pose proof (Rabs_pos (r ^ n - s ^ n)) as A1.
    assert (S1 : Rabs (s ^ n) <= G ^ n) by (rewrite <- RPow_abs; apply pow_incr; split; [apply Rabs_pos|exact Hs]).
    assert (T1 : Rabs r * Rabs (r ^ n - s ^ n) <= INR n * G ^ n * Rabs (r - s)).
    { destruct n as [|m]; [simpl; rewrite Rminus_diag_eq, Rabs_R0 by reflexivity; lra|].
      replace (S m - 1)%nat with m in IH by lia. replace (INR (S m) * G ^ S m * Rabs (r - s)) with (G * (INR (S m) * G ^ m * Rabs (r - s))) by (rewrite <- tech_pow_Rmult; ring).
      apply Rmult_le_compat; auto; apply Rabs_pos. }
    assert (T2 : Rabs (r - s) * Rabs (s ^ n) <= Rabs (r - s) * G ^ n) by (apply Rmult_le_compat_l; auto).
    lra.
Qed.
Section PowErr.
Context (p : platform) (k : rkind) (debug : bool) (c : ckind) (ord : site -> bool).
Notation N := (fnum p).
Notation I := (itv N).
Notation F := (p_T p).
Notation P := (fpol p Save k debug c ord).
Notation spec := (fpolspec p Save k debug c ord).
Notation fv := (@fval (p_T p)).
Notation u := (eps (p_T p)).
Notation ready := (fready k).


Lemma RD_close v t : 0 <= v <= largest F -> RD (N := N) fv (Fin v) t -> exists q, fv t = Fin q /\ 0 <= q <= v /\ v - q <= u * v + tiny F.
Proof.
  intros Hv [A B]. destruct (round_close F Dn v) as (t' & q' & E' & C' & D').
  { rewrite Rabs_right; lra. }
  rewrite (Rabs_right v) in C' by lra. pose proof (B t') as B'. rewrite E' in B'. specialize (B' D').
  assert (Z : exists z : flt F, fval z = Fin 0) by (exists (B754_zero false); reflexivity).
  destruct Z as (z0 & Z0). pose proof (B z0) as Bz. rewrite Z0 in Bz. specialize (Bz (proj1 Hv)).
  destruct (fval t) as [| |q|]; simpl in *; try tauto. exists q. split; auto. apply Rabs_le_inv in C'. split; lra.
Qed.
Lemma RU_close v t : 0 <= v <= largest F -> RU (N := N) fv (Fin v) t -> exists q, fv t = Fin q /\ v <= q /\ q - v <= u * v + tiny F.
Proof.
  intros Hv [A B]. destruct (round_close F Up v) as (t' & q' & E' & C' & D').
  { rewrite Rabs_right; lra. }
  rewrite (Rabs_right v) in C' by lra. pose proof (B t') as B'. rewrite E' in B'. specialize (B' D').
  destruct (fval t) as [| |q|]; simpl in *; try tauto. exists q. split; auto. apply Rabs_le_inv in C'. split; lra.
Qed.

Section Run.
Context (a G : R) (n : nat) (Ha : 0 <= a <= G) (HG : 1 <= G) (Hn : G ^ n * (1 + 2 * u) ^ (n - 1) <= largest F).
Definition near (x : T N) (m : nat) : Prop := exists q, fv x = Fin q /\ 0 <= q /\ Rabs (q - a ^ m) <= pow_err F G m.

Lemma grow_pos m : 1 <= (1 + 2 * u) ^ m.
Proof. apply pow_R1_Rle. pose proof (eps_pos F). lra. Qed.
Lemma G_pos m : 1 <= G ^ m. Proof. apply pow_R1_Rle, HG. Qed.
Lemma a_le m : 0 <= a ^ m <= G ^ m. Proof. split; [apply pow_le; lra|apply pow_incr; lra]. Qed.
Lemma near_le x m q : fv x = Fin q -> near x m -> 0 <= q <= G ^ m * (1 + 2 * u) ^ (m - 1).
Proof.
  intros E (q' & E' & P0 & C). rewrite E in E'. injection E' as <-. split; [exact P0|].
  apply Rabs_le_inv in C. unfold pow_err in C. pose proof (a_le m). lra.
Qed.
Lemma le_n m : (m <= n)%nat -> G ^ m * (1 + 2 * u) ^ (m - 1) <= largest F.
Proof.
  intros L. eapply Rle_trans; [|exact Hn]. apply Rmult_le_compat.
  - pose proof (G_pos m); lra.
  - pose proof (grow_pos (m - 1)); lra.
  - apply Rle_pow; auto.
  - apply Rle_pow; [pose proof (eps_pos F); lra|lia].
Qed.
(** The exact product of two approximations, and its distance from the power. *)
Lemma prod_close m l q r : (1 <= m)%nat -> (1 <= l)%nat -> 0 <= q <= G ^ m * (1 + 2 * u) ^ (m - 1) -> 0 <= r <= G ^ l * (1 + 2 * u) ^ (l - 1) ->
  Rabs (q - a ^ m) <= pow_err F G m -> Rabs (r - a ^ l) <= pow_err F G l ->
  0 <= q * r <= G ^ (m + l) * (1 + 2 * u) ^ (m + l - 2) /\
  Rabs (q * r - a ^ (m + l)) <= G ^ (m + l) * ((1 + 2 * u) ^ (m + l - 2) - 1).
Proof.
  intros Hm Hl Hq Hr Cq Cr. replace (m + l - 2)%nat with (m - 1 + (l - 1))%nat by lia. rewrite !pow_add. unfold pow_err in *.
  pose proof (a_le m) as Am. pose proof (a_le l) as Al. pose proof (G_pos m) as Gm. pose proof (G_pos l) as Gl.
  pose proof (grow_pos (m - 1)) as Um. pose proof (grow_pos (l - 1)) as Ul.
  set (g := G ^ m) in *. set (h := G ^ l) in *. set (s := (1 + 2 * u) ^ (m - 1)) in *. set (t := (1 + 2 * u) ^ (l - 1)) in *.
  set (b := a ^ m) in *. set (d := a ^ l) in *. split.
  - split; [apply Rmult_le_pos; lra|]. replace (g * h * (s * t)) with ((g * s) * (h * t)) by ring. apply Rmult_le_compat; lra.
  - replace (q * r - b * d) with ((q - b) * r + b * (r - d)) by ring.
    eapply Rle_trans; [apply Rabs_triang|]. rewrite !Rabs_mult, (Rabs_right r), (Rabs_right b) by lra.
    assert (Rabs (q - b) * r <= g * (s - 1) * (h * t)).
    { apply Rmult_le_compat; try lra. apply Rabs_pos. }
    assert (b * Rabs (r - d) <= g * (h * (t - 1))).
    { apply Rmult_le_compat; try lra. apply Rabs_pos. }
    replace (g * h * (s * t - 1)) with (g * (s - 1) * (h * t) + g * (h * (t - 1))) by ring. lra.
Qed.
Lemma round_room m l v : (1 <= m)%nat -> (1 <= l)%nat -> 0 <= v <= G ^ (m + l) * (1 + 2 * u) ^ (m + l - 2) ->
  u * v + tiny F <= G ^ (m + l) * (1 + 2 * u) ^ (m + l - 2) * (2 * u).
Proof.
  intros Hm Hl Hv. pose proof (eps_pos F). pose proof (tiny_le_eps F). pose proof (G_pos (m + l)). pose proof (grow_pos (m + l - 2)).
  set (W := G ^ (m + l) * (1 + 2 * u) ^ (m + l - 2)) in *. assert (1 <= W) by (unfold W; nra).
  assert (u * v <= u * W) by (apply Rmult_le_compat_l; lra). nra.
Qed.
Lemma pow_err_step m l : (1 <= m)%nat -> (1 <= l)%nat ->
  pow_err F G (m + l) = G ^ (m + l) * ((1 + 2 * u) ^ (m + l - 2) - 1) + G ^ (m + l) * (1 + 2 * u) ^ (m + l - 2) * (2 * u).
Proof. intros. unfold pow_err. replace (m + l - 1)%nat with (S (m + l - 2)) by lia. simpl. ring. Qed.

Lemma near_mul d (x y : T N) m l : near x m -> near y l -> (m + l <= n)%nat ->
  exists z, runsI ready (match d with Dn => mul_down (p_ar P) x y | Up => mul_up (p_ar P) x y end) z /\ near z (m + l).
Proof.
  intros Nx Ny L. pose proof Nx as (q & Eq & Pq & Cq). pose proof Ny as (r & Er & Pr & Cr).
  pose proof (near_le x m q Eq Nx) as Lq. pose proof (near_le y l r Er Ny) as Lr.
  assert (X : xmul (fv x) (fv y) <> NaN) by (rewrite Eq, Er; discriminate).
  assert (One : forall w i s, fv w = Fin s -> near w i -> i = O -> s = 1).
  { intros w i s E (s' & E' & _ & C) ->. rewrite E in E'. injection E' as <-. unfold pow_err in C. simpl in C.
    replace (1 * (1 - 1)) with 0 in C by ring. apply Rabs_le_inv in C. lra. }
  assert (Z : exists z, runsI ready (match d with Dn => mul_down (p_ar P) x y | Up => mul_up (p_ar P) x y end) z /\
     match d with Dn => RD (N := N) fv (Fin (q * r)) z | Up => RU (N := N) fv (Fin (q * r)) z end).
  { destruct d; [destruct (as_mul_down _ _ _ (ps_ar _ _ _ spec) x y X) as (z & Dz & Rz)|destruct (as_mul_up _ _ _ (ps_ar _ _ _ spec) x y X) as (z & Dz & Rz)];
      rewrite Eq, Er in Dz; exists z; auto. }
  destruct Z as (z & Rz & Dz). exists z. split; [exact Rz|].
  (* a factor that is exactly 1 *)
  assert (Ex : forall w i s, fv w = Fin s -> near w i -> q * r = s -> i = (m + l)%nat -> near z (m + l)).
  { intros w i s E (s' & E' & Ps & C) Es ->. rewrite E in E'. injection E' as <-. exists s. split; [|split; auto].
    destruct d; destruct Dz as [D1 D2]; pose proof (D2 w) as D3; rewrite E in D3; rewrite Es in *;
      specialize (D3 ltac:(simpl; lra)); destruct (fv z) as [| |t|]; simpl in *; try tauto; f_equal; lra. }
  destruct m as [|m'].
  { apply (Ex y l r Er Ny); [rewrite (One x _ q Eq Nx eq_refl); ring|lia]. }
  destruct l as [|l'].
  { apply (Ex x (S m') q Eq Nx); [rewrite (One y _ r Er Ny eq_refl); ring|lia]. }
  clear Ex One. set (m := S m') in *. set (l := S l') in *. assert (1 <= m)%nat by (unfold m; lia). assert (1 <= l)%nat by (unfold l; lia).
  destruct (prod_close m l q r) as [Pp Cp]; auto. pose proof (round_room m l _ ltac:(auto) ltac:(auto) Pp) as Rm.
  assert (Lg : q * r <= largest F).
  { eapply Rle_trans; [apply Pp|]. eapply Rle_trans; [|apply (le_n (m + l) L)]. apply Rmult_le_compat_l; [pose proof (G_pos (m + l)); lra|].
    apply Rle_pow; [pose proof (eps_pos F); lra|lia]. }
  unfold near. rewrite pow_err_step by auto. apply Rabs_le_inv in Cp. destruct d.
  - destruct (RD_close _ _ (conj (proj1 Pp) Lg) Dz) as (t & Et & Pt & Ct). exists t. split; [exact Et|]. split; [lra|]. apply Rabs_le. lra.
  - destruct (RU_close _ _ (conj (proj1 Pp) Lg) Dz) as (t & Et & Pt & Ct). exists t. split; [exact Et|]. split; [lra|]. apply Rabs_le. lra.
Qed.

Lemma near_loop d q : forall x y m l, near x m -> near y l -> (m * (2 * Pos.to_nat q) + l <= n)%nat ->
  exists z, runsI ready (pow_loop (fun x y => match d with Dn => mul_down (p_ar P) x y | Up => mul_up (p_ar P) x y end) x y q) z /\
    near z (m * (2 * Pos.to_nat q) + l).
Proof.
  induction q; intros x y m l Hx Hy L; cbn [pow_loop].
  - rewrite Pos2Nat.inj_xI in *. destruct (near_mul d x x m m Hx Hx) as (x' & Rx & Hx'); [nia|].
    destruct (near_mul d x' y (m + m) l Hx' Hy) as (y' & Ry & Hy'); [nia|].
    destruct (IHq x' y' _ _ Hx' Hy') as (z & Rz & Hz); [nia|].
    exists z. split; [eapply runsI_bind; eauto; eapply runsI_bind; eauto|].
    replace (m * (2 * S (2 * Pos.to_nat q)) + l)%nat with ((m + m) * (2 * Pos.to_nat q) + (m + m + l))%nat by nia. exact Hz.
  - rewrite Pos2Nat.inj_xO in *. pose proof (Pos2Nat.is_pos q). destruct (near_mul d x x m m Hx Hx) as (x' & Rx & Hx'); [nia|].
    destruct (IHq x' y _ _ Hx' Hy) as (z & Rz & Hz); [nia|].
    exists z. split; [eapply runsI_bind; eauto|].
    replace (m * (2 * (2 * Pos.to_nat q)) + l)%nat with ((m + m) * (2 * Pos.to_nat q) + l)%nat by nia. exact Hz.
  - change (Pos.to_nat 1) with 1%nat in *. destruct (near_mul d x x m m Hx Hx) as (x' & Rx & Hx'); [nia|].
    destruct (near_mul d x' y (m + m) l Hx' Hy) as (z & Rz & Hz); [nia|].
    exists z. split; [eapply runsI_bind; eauto|]. replace (m * (2 * 1) + l)%nat with (m + m + l)%nat by nia. exact Hz.
Qed.
End Run.

Lemma pow_near d (x : T N) a G n : (0 < n)%Z -> fv x = Fin a -> 0 <= a <= G -> 1 <= G ->
  G ^ Z.to_nat n * (1 + 2 * u) ^ (Z.to_nat n - 1) <= largest F ->
  exists z q, runsI ready (match d with Dn => pow_dn P x n | Up => pow_up P x n end) z /\ fv z = Fin q /\
    Rabs (q - a ^ Z.to_nat n) <= pow_err F G (Z.to_nat n).
Proof.
  intros Hn E Ha HG Hl.
  assert (Nx : near a G x 1).
  { exists a. split; [exact E|]. split; [lra|]. unfold pow_err. simpl. replace (a - a * 1) with 0 by ring.
    rewrite Rabs_R0. nra. }
  assert (N1 : near a G (one : T N) 0).
  { exists 1. split; [exact (val_one spec)|]. split; [lra|]. unfold pow_err. simpl. replace (1 - 1) with 0 by ring. rewrite Rabs_R0. lra. }
  assert (Ny : near a G (if Z.odd n then x else one) (if Z.odd n then 1 else 0)%nat) by (destruct (Z.odd n); auto).
  assert (K : exists z, runsI ready (match d with Dn => pow_dn P x n | Up => pow_up P x n end) z /\ near a G z (Z.to_nat n)).
  2:{ destruct K as (z & R & (q & Eq & _ & C)). exists z, q. auto. }
  pose proof (Zdiv2_odd_eqn n) as D. rewrite <- Zdiv2_div2 in D || idtac.
  assert (Q : forall mul : T N -> T N -> M (T N), mul = (fun x y => match d with Dn => mul_down (p_ar P) x y | Up => mul_up (p_ar P) x y end) ->
    exists z, runsI ready (pow_aux mul x n) z /\ near a G z (Z.to_nat n)).
  { intros mul ->. unfold pow_aux. rewrite <- Z.div2_spec. destruct (Z.div2 n) as [|q|q] eqn:ED.
    - exists (if Z.odd n then x else one). split; [apply runsI_ret|]. destruct (Z.odd n); simpl in D; [|lia].
      replace (Z.to_nat n) with 1%nat by lia. exact Ny.
    - destruct (near_loop a G (Z.to_nat n) Ha HG Hl d q x _ 1 _ Nx Ny) as (z & Rz & Hz).
      + destruct (Z.odd n); lia.
      + exists z. split; [exact Rz|]. replace (Z.to_nat n) with (1 * (2 * Pos.to_nat q) + (if Z.odd n then 1 else 0))%nat; [exact Hz|].
        destruct (Z.odd n); lia.
    - destruct (Z.odd n); lia. }
  destruct d; apply Q; reflexivity.
Qed.

(** The bounds that pow returns. *)
Lemma pow_close (x : I) n G lo hi : (0 < n)%Z -> fvalid x -> 1 <= G -> (forall r, fmem x r -> Rabs r <= G) ->
  G ^ Z.to_nat n * (1 + 2 * u) ^ (Z.to_nat n - 1) <= largest F ->
  (forall r, fmem x r -> lo <= r ^ Z.to_nat n <= hi) ->
  forall z, returns (pow_pos P x n) z -> forall t, fmem z t -> lo - pow_err F G (Z.to_nat n) <= t <= hi + pow_err F G (Z.to_nat n).
Proof.
  intros Hn V HG HB Hl HS z Rz t [M1 M2].
  assert (Rz' : runsP P ready (pow_pos P x n) z).
  { destruct (pow_pos_ok spec x n Hn V) as (w & Rw & _). 
    assert (w = z) as <-; [|exact Rw]. apply (returns_det (pow_pos P x n)); auto. }
  pose proof (pow_pos_char spec x n z Hn V Rz') as B.
  (* both bounds of x are finite *)
  assert (Fl : exists l, fv (low x) = Fin l).
  { destruct (nonempty_mem p x V) as (r & Mr). pose proof (member_largest x G r HB Mr). destruct V as (V1 & V2 & V3).
    destruct (fv (low x)) as [| |l|] eqn:E; try (exfalso; congruence); eauto; exfalso.
    - destruct V1.
    - assert (Mx : fmem x (Rmin r (- G - 1))).
      { split; [change (xle (fv (low x)) (Fin (Rmin r (- G - 1)))); rewrite E; exact Logic.I|].
        destruct Mr as [_ Mr]. eapply xle_trans; [|exact Mr]. simpl. apply Rmin_l. }
      apply HB, Rabs_le_inv in Mx. pose proof (Rmin_r r (- G - 1)). lra. }
  assert (Fu : exists l, fv (up x) = Fin l).
  { destruct (nonempty_mem p x V) as (r & Mr). destruct V as (V1 & V2 & V3).
    destruct (fv (up x)) as [| |l|] eqn:E; try (exfalso; congruence); eauto; exfalso.
    - destruct (fv (low x)); simpl in V1; tauto.
    - assert (Mx : fmem x (Rmax r (G + 1))).
      { split; [|change (xle (Fin (Rmax r (G + 1))) (fv (up x))); rewrite E; exact Logic.I].
        destruct Mr as [Mr _]. eapply xle_trans; [exact Mr|]. simpl. apply Rmax_l. }
      apply HB, Rabs_le_inv in Mx. pose proof (Rmax_r r (G + 1)). lra. }
  destruct Fl as (l & El), Fu as (h & Eh).
  assert (Llh : l <= h). { destruct V as (V1 & _). change (xle (fv (low x)) (fv (up x))) in V1. rewrite El, Eh in V1. exact V1. }
  assert (Ml : fmem x l). { split; [change (xle (fv (low x)) (Fin l)); rewrite El; simpl; lra|change (xle (Fin l) (fv (up x))); rewrite Eh; simpl; lra]. }
  assert (Mh : fmem x h). { split; [change (xle (fv (low x)) (Fin h)); rewrite El; simpl; lra|change (xle (Fin h) (fv (up x))); rewrite Eh; simpl; lra]. }
  assert (M0 : l <= 0 <= h -> fmem x 0).
  { intros L0. split; [change (xle (fv (low x)) (Fin 0)); rewrite El; simpl; lra|change (xle (Fin 0) (fv (up x))); rewrite Eh; simpl; lra]. }
  pose proof (HS l Ml) as Sl. pose proof (HS h Mh) as Sh. pose proof (HB l Ml) as Bl. pose proof (HB h Mh) as Bh.
  apply Rabs_le_inv in Bl. apply Rabs_le_inv in Bh.
  change (xle (fv (low z)) (Fin t)) in M1. change (xle (Fin t) (fv (up z))) in M2.
  change (pow_bounds (N := N) (val := fv) (P := P) (ready := ready) n (fv (low x)) (fv (up x)) (fv (low z)) (fv (up z))) in B.
  rewrite El, Eh in B.
  assert (DN : forall e w, DNv (N := N) (val := fv) (P := P) (ready := ready) n (Fin e) w -> 0 <= e <= G ->
     exists q, w = Fin q /\ Rabs (q - e ^ Z.to_nat n) <= pow_err F G (Z.to_nat n)).
  { intros e w (s & y & Es & Rs & <-) He. destruct (pow_near Dn s e G n Hn Es He HG Hl) as (y' & q & Ry & Ey & C).
    rewrite (runsI_det spec _ _ _ Rs Ry). eauto. }
  assert (UP : forall e w, UPv (N := N) (val := fv) (P := P) (ready := ready) n (Fin e) w -> 0 <= e <= G ->
     exists q, w = Fin q /\ Rabs (q - e ^ Z.to_nat n) <= pow_err F G (Z.to_nat n)).
  { intros e w (s & y & Es & Rs & <-) He. destruct (pow_near Up s e G n Hn Es He HG Hl) as (y' & q & Ry & Ey & C).
    rewrite (runsI_det spec _ _ _ Rs Ry). eauto. }
  assert (Op : forall e, (- e) ^ Z.to_nat n = if Z.odd n then - e ^ Z.to_nat n else e ^ Z.to_nat n).
  { intros e. destruct (Z.odd n) eqn:O; [apply pow_odd_opp|apply pow_even_opp]; auto. }
  inversion B as [a b U D Up' E1 E2|a b U L O Ua Ub E1 E2|m b U L O Lm Um Cm Ub E1 E2|a b L Da Ub E1 E2]; clear B.
  - simpl in U. simpl xopp in D, Up'. destruct (DN _ _ D ltac:(lra)) as (qa & -> & Ca). destruct (UP _ _ Up' ltac:(lra)) as (qb & -> & Cb).
    rewrite Op in Ca, Cb. apply Rabs_le_inv in Ca. apply Rabs_le_inv in Cb.
    destruct (Z.odd n); rewrite <- E1 in M1; rewrite <- E2 in M2; simpl in M1, M2; lra.
  - simpl in U, L. simpl xopp in Ua. destruct (UP _ _ Ua ltac:(lra)) as (qa & -> & Ca). destruct (UP _ _ Ub ltac:(lra)) as (qb & Eb & Cb).
    rewrite Op, O in Ca. apply Rabs_le_inv in Ca. apply Rabs_le_inv in Cb. rewrite <- E1 in M1. rewrite Eb in M2. simpl in M1, M2. lra.
  - simpl in U, L. pose proof (HS 0 (M0 ltac:(lra))) as S0. rewrite pow_i in S0 by lia.
    assert (0 <= pow_err F G (Z.to_nat n)).
    { unfold pow_err. apply Rmult_le_pos; [pose proof (G_pos G HG (Z.to_nat n)); lra|pose proof (grow_pos (Z.to_nat n - 1)); lra]. }
    destruct Cm as [->| ->].
    + simpl xopp in Ub. destruct (UP _ _ Ub ltac:(lra)) as (qb & Eb & Cb). rewrite Op, O in Cb. apply Rabs_le_inv in Cb.
      rewrite <- E1 in M1. rewrite Eb in M2. simpl in M1, M2. lra.
    + destruct (UP _ _ Ub ltac:(lra)) as (qb & Eb & Cb). apply Rabs_le_inv in Cb.
      rewrite <- E1 in M1. rewrite Eb in M2. simpl in M1, M2. lra.
  - simpl in L. destruct (DN _ _ Da ltac:(lra)) as (qa & Ea & Ca). destruct (UP _ _ Ub ltac:(lra)) as (qb & Eb & Cb).
    apply Rabs_le_inv in Ca. apply Rabs_le_inv in Cb. rewrite Ea in M1. rewrite Eb in M2. simpl in M1, M2. lra.
Qed.
Lemma pow_is_pos (x : I) n : (0 < n)%Z -> fvalid x -> Arith2.pow P x n = pow_pos P x n.
Proof.
  intros Hn V. unfold Arith2.pow. rewrite (test_valid spec x V).
  replace (n =? 0)%Z with false by (symmetry; apply Z.eqb_neq; lia). replace (n <? 0)%Z with false by (symmetry; apply Z.ltb_ge; lia). reflexivity.
Qed.
Lemma pow_width (x : I) n G D : (0 < n)%Z -> fvalid x -> 1 <= G -> (forall r, fmem x r -> Rabs r <= G) ->
  G ^ Z.to_nat n * (1 + 2 * u) ^ (Z.to_nat n - 1) <= largest F ->
  (forall r s, fmem x r -> fmem x s -> Rabs (r - s) <= D) ->
  exists z, returns (Arith2.pow P x n) z /\ fvalid z /\ 
    forall r s, fmem z r -> fmem z s -> Rabs (r - s) <= INR (Z.to_nat n) * G ^ (Z.to_nat n - 1) * D + 2 * pow_err F G (Z.to_nat n).
Proof.
  intros Hn V HG HB Hl HD. destruct (C10_pow_positive_encloses p k debug c ord x n V Hn) as (z & R & Vz & _).
  exists z. split; [exact R|]. split; [exact Vz|]. rewrite (pow_is_pos x n Hn V) in R.
  destruct (nonempty_mem p x V) as (r0 & M0).
  destruct (extent (fun t => exists r, fmem x r /\ t = r ^ Z.to_nat n) (G ^ Z.to_nat n) (INR (Z.to_nat n) * G ^ (Z.to_nat n - 1) * D)) as (a & b & HS & _ & _ & W).
  - exists (r0 ^ Z.to_nat n), r0. auto.
  - intros s (r & Mr & ->). rewrite <- RPow_abs. apply pow_incr. split; [apply Rabs_pos|auto].
  - intros s s' (r & Mr & ->) (r' & Mr' & ->). eapply Rle_trans; [apply (pow_lip G); auto; lra|].
    apply Rmult_le_compat_l; auto. apply Rmult_le_pos; [apply pos_INR|apply pow_le; lra].
  - intros r s Mr Ms. pose proof (pow_close x n G a b Hn V HG HB Hl (fun r Hr => HS _ (ex_intro _ r (conj Hr eq_refl))) z R) as C.
    pose proof (C r Mr). pose proof (C s Ms). apply Rabs_le. lra.
Qed.
End PowErr.

(** ** Expressions *)
Section Steady.
Context {p : platform} (P : policy (fnum p)) (eo : expr (fnum p) -> bool) (X : nat -> itv (fnum p)).
Notation N := (fnum p).
Notation I := (itv N).
Notation fv := (@fval (p_T p)).

(** The library evaluates [e] over the box X to an interval with these members. *)
Definition over (e : expr N) (Q : R -> Prop) : Prop := exists z, returns (eval P eo X e) z /\ forall t, fmem z t -> Q t.
Definition number (v : T N) (Q : R -> Prop) : Prop := exists s, fv v = Fin s /\ Q s.

(** Binary operations: how the bound, the factor and the rounding error of the
    result follow from those of the operands; [away g] says that the second
    operand stays at least g away from zero. *)
Definition grow2 (o : op2) (away : R -> Prop) (B1 L1 K1 B2 L2 K2 B L K : R) : Prop :=
  match o with
  | B_add | B_sub => L1 + L2 <= L /\ K1 + K2 + 2 * (B + 1) <= K
  | B_mul => B1 * L2 + B2 * L1 <= L /\ B1 * K2 + B2 * K1 + 2 * (B + 1) <= K
  | B_div => exists g, 0 < g /\ away g /\ (L1 + B * L2) / g <= L /\ (K1 + B * K2) / g + 2 * (B + 1) <= K
  | B_max | B_min => L1 <= L /\ L2 <= L /\ K1 <= K /\ K2 <= K
  | B_hull => False
  end.
(** [steady e B L K]: over the box, the values of [e] stay within -B ... B, change
    at most L times as fast as the variables, and collect at most K units of
    rounding error.  Divisors, and arguments of square roots, stay away from zero;
    powers have positive exponents and stay within the range of the format. *)
Fixpoint steady (e : expr N) (B L K : R) : Prop :=
  over e (fun t => Rabs t <= B) /\
  match e with
  | e_var _ => 1 <= L /\ 0 <= K
  | e_num v => number v (fun _ => True) /\ 0 <= L /\ 0 <= K
  | e_1 o e1 => exists B1 L1 K1, steady e1 B1 L1 K1 /\
      match o with
      | U_neg | U_abs => L1 <= L /\ K1 <= K
      | U_square => 2 * B1 * L1 <= L /\ 2 * B1 * K1 + 2 * (B + 1) <= K
      | U_sqrt => exists g, 0 < g /\ over e1 (fun t => g * g <= t) /\ L1 / (2 * g) <= L /\ K1 / (2 * g) + 2 * (B + 1) <= K
      | U_inverse => exists g, 0 < g /\ over e1 (fun t => g <= Rabs t) /\ B * L1 / g <= L /\ B * K1 / g + 2 * (B + 1) <= K
      | U_pow n => (0 < n <= Arith2.int_max)%Z /\ 1 <= B1 /\ B1 ^ Z.to_nat n * (1 + 2 * eps (p_T p)) ^ (Z.to_nat n - 1) <= largest (p_T p) /\
          INR (Z.to_nat n) * B1 ^ (Z.to_nat n - 1) * L1 <= L /\
          INR (Z.to_nat n) * B1 ^ (Z.to_nat n - 1) * K1 + 2 * (pow_err (p_T p) B1 (Z.to_nat n) / eps (p_T p)) <= K
      end
  | e_2 o e1 e2 => exists B1 L1 K1 B2 L2 K2, steady e1 B1 L1 K1 /\ steady e2 B2 L2 K2 /\
      grow2 o (fun g => over e2 (fun t => g <= Rabs t)) B1 L1 K1 B2 L2 K2 B L K
  | e_in o e1 v => exists B1 L1 K1 B2, steady e1 B1 L1 K1 /\ number v (fun s => Rabs s <= B2) /\
      grow2 o (fun g => number v (fun s => g <= Rabs s)) B1 L1 K1 B2 0 0 B L K
  | e_ni o v e1 => exists B1 B2 L2 K2, number v (fun s => Rabs s <= B1) /\ steady e1 B2 L2 K2 /\
      grow2 o (fun g => over e1 (fun t => g <= Rabs t)) B1 0 0 B2 L2 K2 B L K
  | e_nn o v w => number v (fun _ => True) /\ number w (fun s => o = N_div -> s <> 0) /\ o <> N_hull /\ 0 <= L /\ 2 * (B + 1) <= K
  | e_intersect _ _ | e_widen _ _ => False
  end.
End Steady.

(** ** One operation on two values *)
Definition exact1 (o : op1) : bool := match o with U_neg | U_abs => true | _ => false end.
Definition exact2 (o : op2) : bool := match o with B_max | B_min => true | _ => false end.
Lemma scale a b x : a <= b -> 0 <= x -> a * x <= b * x.
Proof. intros. apply Rmult_le_compat_r; auto. Qed.
Lemma diff_mul r r' s s' a b w1 w2 : Rabs r <= a -> Rabs s' <= b -> Rabs (r - r') <= w1 -> Rabs (s - s') <= w2 ->
  Rabs (r * s - r' * s') <= a * w2 + b * w1.
Proof.
  intros Ha Hb H1 H2. replace (r * s - r' * s') with (r * (s - s') + s' * (r - r')) by ring.
  eapply Rle_trans; [apply Rabs_triang|]. rewrite !Rabs_mult.
  apply Rplus_le_compat; apply Rmult_le_compat; auto using Rabs_pos.
Qed.
Lemma diff_div r r' s s' b g w1 w2 : 0 < g -> g <= Rabs s -> s <> 0 -> s' <> 0 -> Rabs (r' / s') <= b ->
  Rabs (r - r') <= w1 -> Rabs (s - s') <= w2 -> Rabs (r / s - r' / s') <= (w1 + b * w2) / g.
Proof.
  intros Pg Hg Ns Ns' Hb H1 H2. replace (r / s - r' / s') with (((r - r') - r' / s' * (s - s')) / s) by (field; auto).
  assert (Hn : Rabs ((r - r') - r' / s' * (s - s')) <= w1 + b * w2).
  { eapply Rle_trans; [apply Rabs_triang|]. rewrite Rabs_Ropp, Rabs_mult. apply Rplus_le_compat; [exact H1|].
    apply Rmult_le_compat; auto using Rabs_pos. }
  unfold Rdiv at 1. rewrite Rabs_mult, Rabs_inv. unfold Rdiv. apply Rmult_le_compat; auto using Rabs_pos.
  - apply Rlt_le, Rinv_0_lt_compat. lra.
  - apply Rinv_le; auto.
Qed.
Lemma div_lin a b g d u : 0 < g -> (a * d + b * u) / g = a / g * d + b / g * u.
Proof. intros. field. lra. Qed.

Lemma diam2 o (away : R -> Prop) B1 L1 K1 B2 L2 K2 B L K r r' s s' t t' d u :
  grow2 o away B1 L1 K1 B2 L2 K2 B L K -> (forall g, away g -> g <= Rabs s /\ g <= Rabs s') ->
  Rabs r <= B1 -> Rabs r' <= B1 -> Rabs s <= B2 -> Rabs s' <= B2 -> 0 <= d -> 0 < u ->
  Rabs (r - r') <= L1 * d + K1 * u -> Rabs (s - s') <= L2 * d + K2 * u -> rel2 o r s t -> rel2 o r' s' t' -> Rabs t' <= B ->
  Rabs (t - t') <= L * d + K * u - (if exact2 o then 0 else 2 * (B + 1) * u).
Proof.
  intros G Aw Hr Hr' Hs Hs' Hd Hu W1 W2 Q Q' Hb. destruct o; cbn [grow2 rel2 exact2] in *.
  - subst. destruct G as [G1 G2]. apply (scale _ _ d) in G1; auto. apply (scale _ _ u) in G2; [|lra].
    apply Rabs_le_inv in W1. apply Rabs_le_inv in W2. apply Rabs_le. lra.
  - subst. destruct G as [G1 G2]. apply (scale _ _ d) in G1; auto. apply (scale _ _ u) in G2; [|lra].
    apply Rabs_le_inv in W1. apply Rabs_le_inv in W2. apply Rabs_le. lra.
  - subst. destruct G as [G1 G2]. apply (scale _ _ d) in G1; auto. apply (scale _ _ u) in G2; [|lra].
    pose proof (diff_mul r r' s s' B1 B2 _ _ Hr Hs' W1 W2). lra.
  - destruct Q as [Ns ->], Q' as [Ns' ->]. destruct G as (g & Pg & Ag & G1 & G2). destruct (Aw g Ag) as [Gs Gs'].
    pose proof (diff_div r r' s s' B g _ _ Pg Gs Ns Ns' Hb W1 W2) as K0.
    apply (scale _ _ d) in G1; auto. apply (scale _ _ u) in G2; [|lra].
    replace (L1 * d + K1 * u + B * (L2 * d + K2 * u)) with ((L1 + B * L2) * d + (K1 + B * K2) * u) in K0 by ring.
    rewrite div_lin in K0 by exact Pg. lra.
  - subst. destruct G as (G1 & G2 & G3 & G4). apply (scale _ _ d) in G1; auto. apply (scale _ _ d) in G2; auto.
    apply (scale _ _ u) in G3; [|lra]. apply (scale _ _ u) in G4; [|lra].
    apply Rabs_le_inv in W1. apply Rabs_le_inv in W2. apply Rabs_le. unfold Rmax. destruct Rle_dec, Rle_dec; lra.
  - subst. destruct G as (G1 & G2 & G3 & G4). apply (scale _ _ d) in G1; auto. apply (scale _ _ d) in G2; auto.
    apply (scale _ _ u) in G3; [|lra]. apply (scale _ _ u) in G4; [|lra].
    apply Rabs_le_inv in W1. apply Rabs_le_inv in W2. apply Rabs_le. unfold Rmin. destruct Rle_dec, Rle_dec; lra.
  - destruct G.
Qed.
Lemma diff_sqrt r r' g w : 0 < g -> g * g <= r -> g * g <= r' -> Rabs (r - r') <= w -> Rabs (sqrt r - sqrt r') <= w / (2 * g).
Proof.
  intros Pg Hr Hr' W.
  assert (A : forall q, g * g <= q -> g <= sqrt q).
  { intros q Hq. rewrite <- (sqrt_square g) by lra. apply sqrt_le_1_alt. exact Hq. }
  pose proof (A r Hr). pose proof (A r' Hr'). assert (0 <= g * g) by nra.
  assert (E : Rabs (r - r') = Rabs (sqrt r - sqrt r') * (sqrt r + sqrt r')).
  { rewrite <- (Rabs_right (sqrt r + sqrt r')) by lra. rewrite <- Rabs_mult. f_equal.
    rewrite <- (sqrt_sqrt r) at 1 by lra. rewrite <- (sqrt_sqrt r') at 1 by lra. ring. }
  apply Rmult_le_reg_r with (2 * g); [lra|]. unfold Rdiv. rewrite Rmult_assoc, Rinv_l, Rmult_1_r by lra.
  pose proof (Rabs_pos (sqrt r - sqrt r')). assert (Rabs (sqrt r - sqrt r') * (2 * g) <= Rabs (sqrt r - sqrt r') * (sqrt r + sqrt r')); [|lra].
  apply Rmult_le_compat_l; lra.
Qed.

(** ** The theorem by induction *)
Section Width.
Context (p : platform) (k : rkind) (debug : bool) (c : ckind) (ord : site -> bool).
Notation N := (fnum p).
Notation I := (itv N).
Notation P := (fpol p Save k debug c ord).
Notation fv := (@fval (p_T p)).
Notation u := (eps (p_T p)).

Definition gets (ex : bool) (z : I) (S : R -> Prop) : Prop := if ex then fdenotes z S else ftightest z S.
Lemma gets_encloses ex z S : gets ex z S -> fencloses z S.
Proof. destruct ex; [intros D t Ht; apply D, Ht|intros [E _]; exact E]. Qed.
Lemma gets_width ex z S B D : gets ex z S -> nonempty S -> (forall t, fmem z t -> Rabs t <= B) -> (forall s, fmem z s -> Rabs s <= largest (p_T p)) ->
  (forall s s', S s -> S s' -> Rabs (s - s') <= D - (if ex then 0 else 2 * (B + 1) * u)) ->
  forall r s, fmem z r -> fmem z s -> Rabs (r - s) <= D.
Proof.
  intros G Ne HB HL HD r s Mr Ms. pose proof (gets_encloses _ _ _ G) as En. destruct ex.
  - specialize (HD r s). rewrite Rminus_0_r in HD. apply HD; apply G; auto.
  - pose proof (tight_width z S B _ G Ne (fun t Ht => HB t (En t Ht)) (fun t Ht => HL t (En t Ht)) HD r s Mr Ms). lra.
Qed.
Lemma run1_gets o (x : I) : (forall n, o <> U_pow n) -> fvalid x -> nonempty (img1 o (fmem x)) ->
  exists z, returns (run1 P o x) z /\ fvalid z /\ gets (exact1 o) z (img1 o (fmem x)).
Proof.
  intros Ho V Ne. destruct o as [| | | | |n]; cbn [run1 exact1 gets]; [| | | | |destruct (Ho n eq_refl)].
  - destruct (C03_neg_exact p k debug c ord x V) as (z & R & Vz & D). exists z. split; [exact R|split; [exact Vz|exact D]].
  - destruct (C15_abs_exact p k debug c ord x V) as (z & R & Vz & D). exists z. split; [exact R|split; [exact Vz|exact D]].
  - destruct Ne as (t & r & Mr & Hr & _). destruct (C13_sqrt_tightest p k debug c ord x V) as (z & R & Vz & D); [exists r; auto|].
    exists z. split; [exact R|split; [exact Vz|exact D]].
  - destruct (C09_square_tightest p k debug c ord x V) as (z & R & Vz & D). exists z. split; [exact R|split; [exact Vz|exact D]].
  - destruct Ne as (t & r & Mr & Hr & _). destruct (C14_inverse_tightest p k debug c ord x V) as (z & R & Vz & D); [intros Z; apply Hr, Z, Mr|].
    exists z. split; [exact R|split; [exact Vz|exact D]].
Qed.
Lemma run2_gets o (x y : I) : o <> B_hull -> (o = B_div -> ~ fmem y 0) -> fvalid x -> fvalid y ->
  exists z, returns (run2 P o x y) z /\ fvalid z /\ gets (exact2 o) z (img2 o (fmem x) (fmem y)).
Proof.
  intros Ho H0 V W. destruct o; cbn [run2 exact2 gets]; [| | | | | |destruct (Ho eq_refl)].
  - destruct (C01_add_tightest p k debug c ord x y V W) as (z & R & Vz & D). exists z. split; [exact R|split; [exact Vz|exact D]].
  - destruct (C02_sub_tightest p k debug c ord x y V W) as (z & R & Vz & D). exists z. split; [exact R|split; [exact Vz|exact D]].
  - destruct (C04_mul_tightest p k debug c ord x y V W) as (z & R & Vz & D). exists z. split; [exact R|split; [exact Vz|exact D]].
  - specialize (H0 eq_refl).
    destruct (C05_div_encloses_partial p k debug c ord x y V W) as (z & R & Vz & _ & T).
    { intros Z. apply H0, Z. reflexivity. }
    exists z. split; [exact R|split; [exact Vz|]]. apply T.
    intros (_ & _ & Y). apply H0. pose proof W as (Wle & W1 & W2). split.
    + destruct Y as [Y|Y]; [change (xle (fv (low y)) (Fin 0)); rewrite Y; simpl; lra|]. rewrite <- Y. exact Wle.
    + destruct Y as [Y|Y]; [rewrite <- Y; exact Wle|]. change (xle (Fin 0) (fv (up y))). rewrite Y. simpl. lra.
  - destruct (C15_max_exact p k debug c ord x y V W) as (z & R & Vz & D). exists z. split; [exact R|split; [exact Vz|exact D]].
  - destruct (C15_min_exact p k debug c ord x y V W) as (z & R & Vz & D). exists z. split; [exact R|split; [exact Vz|exact D]].
Qed.
Lemma gets_ext ex z S S' : gets ex z S -> (forall t, S t <-> S' t) -> gets ex z S'.
Proof. destruct ex; cbn [gets]; [apply denotes_ext|apply tight_ext]. Qed.
Lemma gets_same ex (z z' : I) S : fsame z' z -> gets ex z S -> gets ex z' S.
Proof.
  intros Sa. destruct ex; cbn [gets]; [apply same_denotes; exact Sa|]. destruct Sa as [A B]. intros [E T]. split.
  - intros t Ht. destruct (E t Ht) as [M1 M2]. split; [rewrite A|rewrite B]; auto.
  - intros w Hw. rewrite A, B. apply T, Hw.
Qed.
Lemma same_valid (z z' : I) : fsame z' z -> fvalid z -> fvalid z'.
Proof. intros [A B] (V1 & V2 & V3). unfold fvalid, valid. rewrite A, B. auto. Qed.

Lemma steady_proper eo X e : forall B L K, steady P eo X e B L K -> proper (N := N) fval e.
Proof.
  induction e as [n|v|o e1 IH|o e1 IH1 e2 IH2|o e1 IH v|o v e1 IH|o v w|e1 IH1 e2 IH2|e1 IH v]; intros B L K [_ S]; cbn [proper].
  - exact Logic.I.
  - destruct S as ((s & E & _) & _). exists s. exact E.
  - destruct S as (B1 & L1 & K1 & S1 & S2). split; [|eapply IH; eauto]. destruct o; auto. destruct S2 as [S2 _]. unfold Arith2.int_min. lia.
  - destruct S as (B1 & L1 & K1 & B2 & L2 & K2 & S1 & S2 & _). split; [eapply IH1|eapply IH2]; eauto.
  - destruct S as (B1 & L1 & K1 & B2 & S1 & (s & E & _) & _). split; [eapply IH; eauto|]. exists s. exact E.
  - destruct S as (B1 & B2 & L2 & K2 & (s & E & _) & S1 & _). split; [eapply IH; eauto|]. exists s. exact E.
  - destruct S as ((s & E & _) & (s' & E' & _) & _). split; [exists s; exact E|exists s'; exact E'].
  - destruct S.
  - destruct S.
Qed.

Section Box.
Context (eo : expr N -> bool) (X env : nat -> I) (d : R).
Context (HX : forall n, fvalid (X n)) (He : forall n, fvalid (env n) /\ (forall r, fmem (env n) r -> fmem (X n) r)).
Context (Hd : 0 <= d) (Hw : forall n r s, fmem (env n) r -> fmem (env n) s -> Rabs (r - s) <= d).

Lemma over_env e Q z : proper (N := N) fval e -> over P eo X e Q -> returns (eval P eo env e) z -> fvalid z -> forall t, fmem z t -> Q t.
Proof.
  intros Pr (zX & RX & HQ) Rz Vz t Mt. apply HQ.
  destruct (eval_iso p k debug c ord eo eo env X (fun n => or_introl (proj1 (He n))) (fun n => or_introl (HX n)) (fun n => proj2 (He n)) e Pr)
    as (o & o' & Ro & Ro' & L).
  assert (Eo : o = Some z) by (apply (res_det p c (eval P eo env e)); [exact Ro|split; [exact Rz|left; exact Vz]]).
  subst o. destruct o' as [zo|]; [|destruct L]. destruct Ro' as [Rzo _]. rewrite (returns_det _ _ _ RX Rzo). apply L. exact Mt.
Qed.

(** The result [z] of [e], as far as [gets] describes it, is as narrow as its set. *)
Lemma node_width e B D ex z S : proper (N := N) fval e -> over P eo X e (fun t => Rabs t <= B) -> returns (eval P eo env e) z -> fvalid z ->
  gets ex z S -> nonempty S ->
  (forall s s', S s -> S s' -> Rabs s' <= B -> Rabs (s - s') <= D - (if ex then 0 else 2 * (B + 1) * u)) ->
  exists z, returns (eval P eo env e) z /\ fvalid z /\ forall r s, fmem z r -> fmem z s -> Rabs (r - s) <= D.
Proof.
  intros Pr Ov R V G Ne HD. exists z. split; [exact R|split; [exact V|]].
  pose proof (over_env e _ z Pr Ov R V) as HB.
  apply (gets_width ex z S B D G Ne HB (fun s Hs => member_largest z B s HB Hs)).
  intros s s' Hs Hs'. apply HD; auto. apply HB. apply (gets_encloses _ _ _ G). exact Hs'.
Qed.
Lemma eval_width e : forall B L K, steady P eo X e B L K ->
  exists z, returns (eval P eo env e) z /\ fvalid z /\ forall r s, fmem z r -> fmem z s -> Rabs (r - s) <= L * d + K * u.
Proof.
  pose proof (eps_pos (p_T p)) as U0.
  induction e as [n|v|o e1 IH|o e1 IH1 e2 IH2|o e1 IH v|o v e1 IH|o v w|e1 IH1 e2 IH2|e1 IH v]; intros B L K St;
    pose proof (steady_proper eo X _ B L K St) as Pr; destruct St as [Ov St].
  - exists (env n). split; [intros s; reflexivity|]. split; [apply He|]. intros r s Mr Ms. destruct St as [S1 S2].
    apply (scale _ _ d) in S1; auto. apply (scale _ _ u) in S2; [|lra]. pose proof (Hw n r s Mr Ms). lra.
  - destruct St as ((s & E & _) & S1 & S2). destruct (point_mem p v s E) as [Vv Mv].
    assert (Rz : returns (ctor_num P v) (mk v v)).
    { intros mode. unfold ctor_num, bind. cbn [p_ck fpol]. rewrite Mutate.is_nan_false by (rewrite E; discriminate). reflexivity. }
    exists (mk v v). split; [exact Rz|]. split; [exact Vv|]. intros r r' Mr Mr'. apply Mv in Mr. apply Mv in Mr'. unfold point in *. subst.
    rewrite Rminus_diag_eq, Rabs_R0 by reflexivity. apply (scale _ _ d) in S1; auto. apply (scale _ _ u) in S2; [|lra]. lra.
  - destruct St as (B1 & L1 & K1 & S1 & S2). pose proof (steady_proper eo X e1 _ _ _ S1) as Pr1. destruct (IH _ _ _ S1) as (x & Rx & Vx & Wx).
    assert (Ov1 : forall t, fmem x t -> Rabs t <= B1).
    { intros t Mt. destruct e1; destruct S1 as [O1 _]; exact (over_env _ _ x Pr1 O1 Rx Vx t Mt). }
    assert (Hp : (exists n, o = U_pow n) \/ (forall n, o <> U_pow n)) by (destruct o; try (right; intros m; discriminate); left; eauto).
    destruct Hp as [(n & ->)|Np].
    { destruct S2 as (Hn & HB1 & Hl & G1 & G2).
      destruct (pow_width p k debug c ord x n B1 _ (proj1 Hn) Vx HB1 Ov1 Hl Wx) as (z & Rz & Vz & Wz).
      exists z. split; [eapply returns_bind; eauto|]. split; [exact Vz|]. intros r s Mr Ms. specialize (Wz r s Mr Ms).
      apply (scale _ _ d) in G1; auto. apply (scale _ _ u) in G2; [|lra].
      replace ((INR (Z.to_nat n) * B1 ^ (Z.to_nat n - 1) * K1 + 2 * (pow_err (p_T p) B1 (Z.to_nat n) / u)) * u)
        with (INR (Z.to_nat n) * B1 ^ (Z.to_nat n - 1) * K1 * u + 2 * pow_err (p_T p) B1 (Z.to_nat n)) in G2 by (field; lra). lra. }
    assert (Ne : nonempty (img1 o (fmem x))).
    { destruct (nonempty_mem p x Vx) as (r & Mr). destruct o.
      - exists (- r), r. split; [exact Mr|reflexivity].
      - exists (Rabs r), r. split; [exact Mr|reflexivity].
      - destruct S2 as (g & Pg & Og & _). pose proof (over_env e1 _ x Pr1 Og Rx Vx r Mr) as Hr. cbv beta in Hr.
        exists (sqrt r), r. split; [exact Mr|]. split; [nra|reflexivity].
      - exists (r * r), r. split; [exact Mr|reflexivity].
      - destruct S2 as (g & Pg & Og & _). pose proof (over_env e1 _ x Pr1 Og Rx Vx r Mr) as Hr. cbv beta in Hr.
        exists (1 / r), r. split; [exact Mr|]. split; [intros ->; rewrite Rabs_R0 in Hr; lra|reflexivity].
      - destruct (Np n eq_refl). }
    destruct (run1_gets o x Np Vx Ne) as (z & Rz & Vz & G).
    apply (node_width (e_1 o e1) B _ (exact1 o) z (img1 o (fmem x)) Pr Ov); [eapply returns_bind; eauto|exact Vz|exact G|exact Ne|].
    intros t t' (r & Mr & Q) (r' & Mr' & Q') Bt'. pose proof (Wx _ _ Mr Mr') as W1. pose proof (Ov1 _ Mr) as Br. pose proof (Ov1 _ Mr') as Br'.
    destruct o; cbn [rel1 exact1] in *.
    + subst. destruct S2 as [G1 G2]. apply (scale _ _ d) in G1; auto. apply (scale _ _ u) in G2; [|lra].
      apply Rabs_le_inv in W1. apply Rabs_le. lra.
    + subst. destruct S2 as [G1 G2]. apply (scale _ _ d) in G1; auto. apply (scale _ _ u) in G2; [|lra].
      pose proof (Rabs_triang_inv2 r r'). lra.
    + destruct Q as [_ ->], Q' as [_ ->]. destruct S2 as (g & Pg & Og & G1 & G2).
      pose proof (diff_sqrt r r' g _ Pg (over_env e1 _ x Pr1 Og Rx Vx r Mr) (over_env e1 _ x Pr1 Og Rx Vx r' Mr') W1) as K0.
      apply (scale _ _ d) in G1; auto. apply (scale _ _ u) in G2; [|lra]. rewrite div_lin in K0 by lra. lra.
    + subst. destruct S2 as [G1 G2]. apply (scale _ _ d) in G1; auto. apply (scale _ _ u) in G2; [|lra].
      pose proof (diff_mul r r' r r' B1 B1 _ _ Br Br' W1 W1). lra.
    + destruct Q as [Nr ->], Q' as [Nr' ->]. destruct S2 as (g & Pg & Og & G1 & G2).
      assert (Z0 : Rabs (1 - 1) <= 0) by (rewrite Rminus_diag_eq, Rabs_R0 by reflexivity; lra).
      pose proof (diff_div 1 1 r r' B g 0 _ Pg (over_env e1 _ x Pr1 Og Rx Vx r Mr) Nr Nr' Bt' Z0 W1) as K0.
      apply (scale _ _ d) in G1; auto. apply (scale _ _ u) in G2; [|lra].
      replace (0 + B * (L1 * d + K1 * u)) with (B * L1 * d + B * K1 * u) in K0 by ring. rewrite div_lin in K0 by exact Pg. lra.
    + destruct (Np n eq_refl).
  - destruct St as (B1 & L1 & K1 & B2 & L2 & K2 & S1 & S2 & G2).
    pose proof (steady_proper eo X e1 _ _ _ S1) as Pr1. pose proof (steady_proper eo X e2 _ _ _ S2) as Pr2.
    destruct (IH1 _ _ _ S1) as (x & Rx & Vx & Wx). destruct (IH2 _ _ _ S2) as (y & Ry & Vy & Wy).
    assert (Ov1 : forall t, fmem x t -> Rabs t <= B1).
    { intros t Mt. destruct e1; destruct S1 as [O1 _]; exact (over_env _ _ x Pr1 O1 Rx Vx t Mt). }
    assert (Ov2 : forall t, fmem y t -> Rabs t <= B2).
    { intros t Mt. destruct e2; destruct S2 as [O1 _]; exact (over_env _ _ y Pr2 O1 Ry Vy t Mt). }
    destruct (run2_gets o x y) as (z & Rz & Vz & G); auto.
    { intros ->. exact G2. }
    { intros -> M0. destruct G2 as (g & Pg & Og & _). pose proof (over_env e2 _ y Pr2 Og Ry Vy 0 M0) as Q. cbv beta in Q. rewrite Rabs_R0 in Q. lra. }
    destruct (nonempty_mem p z Vz) as (t0 & _). destruct (nonempty_mem p x Vx) as (r0 & Mr0). destruct (nonempty_mem p y Vy) as (s0 & Ms0).
    apply (node_width (e_2 o e1 e2) B _ (exact2 o) z (img2 o (fmem x) (fmem y)) Pr Ov); [eapply returns_bind; [apply returns_args2; eauto|exact Rz]|exact Vz|exact G| |].
    { assert (Q : exists t, rel2 o r0 s0 t).
      { destruct o; cbn [rel2 grow2] in *; eauto; [|destruct G2]. exists (r0 / s0). split; [|reflexivity]. intros ->.
        destruct G2 as (g & Pg & Og & _). pose proof (over_env e2 _ y Pr2 Og Ry Vy 0 Ms0) as Q. cbv beta in Q. rewrite Rabs_R0 in Q. lra. }
      destruct Q as (t & Q). exists t, r0, s0. auto. }
    intros t t' (r & s & Mr & Ms & Q) (r' & s' & Mr' & Ms' & Q') Bt'.
    apply (diam2 o _ B1 L1 K1 B2 L2 K2 B L K r r' s s' t t' d u G2); auto.
    intros g Og. split; apply (over_env e2 _ y Pr2 Og Ry Vy); auto.
  - destruct St as (B1 & L1 & K1 & B2 & S1 & (s & E & Bs) & G2). pose proof (steady_proper eo X e1 _ _ _ S1) as Pr1.
    destruct (IH _ _ _ S1) as (x & Rx & Vx & Wx).
    assert (Ov1 : forall t, fmem x t -> Rabs t <= B1).
    { intros t Mt. destruct e1; destruct S1 as [O1 _]; exact (over_env _ _ x Pr1 O1 Rx Vx t Mt). }
    destruct (point_mem p v s E) as [Vv Mv]. destruct (nonempty_mem p x Vx) as (r0 & Mr0).
    assert (Nd : o = B_div -> s <> 0).
    { intros -> ->. destruct G2 as (g & Pg & (s1 & E1 & A1) & _). rewrite E in E1. injection E1 as <-. rewrite Rabs_R0 in A1. lra. }
    assert (Nh : o <> B_hull) by (intros ->; exact G2).
    assert (Ne : nonempty (img2 o (fmem x) (point s))).
    { assert (Q : exists t, rel2 o r0 s t) by (destruct o; cbn [rel2 grow2] in *; eauto; try (exfalso; exact G2); exists (r0 / s); split; auto).
      destruct Q as (t & Q). exists t, r0, s. split; [exact Mr0|]. split; [reflexivity|exact Q]. }
    destruct (in_like p k debug c ord o v x s E Vx Ne) as (z & z' & Rz & Rz' & Sz).
    assert (G : gets (exact2 o) z' (img2 o (fmem x) (point s)) /\ fvalid z').
    { destruct (swaps o) eqn:Sw.
      - destruct (run2_gets o (mk v v) x) as (q & Rq & Vq & G); auto; [intros ->; discriminate Sw|].
        rewrite (returns_det _ _ _ Rz Rq) in Sz. split; [|apply (same_valid q); auto].
        apply (gets_same _ q _ _ Sz). apply (gets_ext _ q _ _ G). intros t.
        split; intros (a & b & A & B' & Q); exists b, a; (split; [try exact B'; apply Mv, B'|split; [try exact A; apply Mv, A|]]);
          destruct o; try discriminate Sw; simpl in Q |- *; rewrite ?(Rmax_comm b), ?(Rmin_comm b); try lra; auto.
      - destruct (run2_gets o x (mk v v)) as (q & Rq & Vq & G); auto; [intros -> M0; apply Mv in M0; apply (Nd eq_refl); symmetry; exact M0|].
        rewrite (returns_det _ _ _ Rz Rq) in Sz. split; [|apply (same_valid q); auto].
        apply (gets_same _ q _ _ Sz). apply (gets_ext _ q _ _ G). intros t.
        split; intros (a & b & A & B' & Q); exists a, b; (split; [exact A|split; [apply Mv, B'|exact Q]]). }
    destruct G as [G Vz'].
    apply (node_width (e_in o e1 v) B _ (exact2 o) z' (img2 o (fmem x) (point s)) Pr Ov); [eapply returns_bind; eauto|exact Vz'|exact G|exact Ne|].
    intros t t' (r & q & Mr & Eq & Q) (r' & q' & Mr' & Eq' & Q') Bt'. unfold point in *. subst q q'.
    apply (diam2 o _ B1 L1 K1 B2 0 0 B L K r r' s s t t' d u G2); auto.
    + intros g (s1 & E1 & A1). rewrite E in E1. injection E1 as <-. auto.
    + rewrite Rminus_diag_eq, Rabs_R0 by reflexivity. lra.
  - destruct St as (B1 & B2 & L2 & K2 & (s & E & Bs) & S1 & G2). pose proof (steady_proper eo X e1 _ _ _ S1) as Pr1.
    destruct (IH _ _ _ S1) as (x & Rx & Vx & Wx).
    assert (Ov1 : forall t, fmem x t -> Rabs t <= B2).
    { intros t Mt. destruct e1; destruct S1 as [O1 _]; exact (over_env _ _ x Pr1 O1 Rx Vx t Mt). }
    destruct (point_mem p v s E) as [Vv Mv]. destruct (nonempty_mem p x Vx) as (r0 & Mr0).
    assert (Nd : o = B_div -> ~ fmem x 0).
    { intros -> M0. destruct G2 as (g & Pg & Og & _). pose proof (over_env e1 _ x Pr1 Og Rx Vx 0 M0) as Q. cbv beta in Q. rewrite Rabs_R0 in Q. lra. }
    assert (Nh : o <> B_hull) by (intros ->; exact G2).
    assert (Ne : nonempty (img2 o (point s) (fmem x))).
    { assert (Q : exists t, rel2 o s r0 t).
      { destruct o; cbn [rel2 grow2] in *; eauto; try (exfalso; exact G2); exists (s / r0); split; auto. intros ->. exact (Nd eq_refl Mr0). }
      destruct Q as (t & Q). exists t, s, r0. split; [reflexivity|]. split; [exact Mr0|exact Q]. }
    destruct (ni_like p k debug c ord o v x s E Vx Ne) as (z & z' & Rz & Rz' & Sz).
    destruct (run2_gets o (mk v v) x) as (q & Rq & Vq & G); auto. rewrite (returns_det _ _ _ Rz Rq) in Sz.
    apply (node_width (e_ni o v e1) B _ (exact2 o) z' (img2 o (point s) (fmem x)) Pr Ov); [eapply returns_bind; eauto|apply (same_valid q); auto| |exact Ne|].
    { apply (gets_same _ q _ _ Sz). apply (gets_ext _ q _ _ G). intros t.
      split; intros (a & b & A & B' & Q); exists a, b; (split; [apply Mv, A|split; [exact B'|exact Q]]). }
    intros t t' (a & r & Ea & Mr & Q) (a' & r' & Ea' & Mr' & Q') Bt'. unfold point in *. subst a a'.
    apply (diam2 o _ B1 0 0 B2 L2 K2 B L K s s r r' t t' d u G2); auto.
    + intros g Og. split; apply (over_env e1 _ x Pr1 Og Rx Vx); auto.
    + rewrite Rminus_diag_eq, Rabs_R0 by reflexivity. lra.
  - destruct St as ((a & Ea & _) & (b & Eb & Nb) & Nh & S1 & S2).
    destruct (C52_number_functions_tightest p k debug c ord v w a b Ea Eb) as (A & B' & C & D & _).
    assert (G : exists z t, returns (run_nn P o v w) z /\ fvalid z /\ ftightest z (point t)).
    { destruct o; cbn [run_nn].
      - destruct A as (z & A). exists z, (a + b). exact A.
      - destruct B' as (z & A'). exists z, (a - b). exact A'.
      - destruct C as (z & A'). exists z, (a * b). exact A'.
      - destruct (D (Nb eq_refl)) as (z & A'). exists z, (a / b). exact A'.
      - destruct (Nh eq_refl). }
    destruct G as (z & t & Rz & Vz & T).
    apply (node_width (e_nn o v w) B _ false z (point t) Pr Ov Rz Vz T); [exists t; reflexivity|].
    intros s s' Es Es' _. unfold point in *. subst. rewrite Rminus_diag_eq, Rabs_R0 by reflexivity.
    apply (scale _ _ d) in S1; auto. apply (scale _ _ u) in S2; [|lra]. lra.
  - destruct St.
  - destruct St.
Qed.
End Box.
End Width.

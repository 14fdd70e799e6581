(** * The Newton iterations of examples/newton-raphson.cpp: one step *)

From Coq Require Import Reals ZArith Lra Lia Bool List Psatz Classical.
From Flocq Require Import Core BinarySingleNaN.
From Verif Require Import Outcome Base Checking Interval Utility Arith Arith2 FloatNum Spec ExtR Sem
  CoreArith CoreDiv CoreMore CoreFun CoreUtil CoreFmod FloatSpec FloatPol FloatMed Inst ExNewton NewtonReal.
Import ListNotations.
Local Open Scope R_scope.

(** ** Rounding errors *)
#[local] Instance valid_exp_n (f : fmt) : Valid_exp (fexpf f).
Proof. apply FLT_exp_valid. apply fmt_prec_gt_0. Qed.

Lemma err_bound f m r : Rabs (rnd f m r - r) <= bpow radix2 (1 - prec f) * Rabs r + bpow radix2 (SpecFloat.emin (prec f) (emax f)).
Proof.
  pose proof (bpow_gt_0 radix2 (SpecFloat.emin (prec f) (emax f))) as B0.
  destruct (Req_dec r 0) as [->|N].
  { rewrite round_0 by apply valid_rnd_round_mode. replace (0 - 0) with 0 by ring. rewrite Rabs_R0. lra. }
  eapply Rle_trans; [apply error_le_ulp; [apply valid_exp_n|apply valid_rnd_round_mode]|].
  rewrite ulp_neq_0 by exact N. unfold cexp, SpecFloat.fexp.
  pose proof (bpow_mag_le radix2 r N) as L.
  destruct (Z.max_spec (mag radix2 r - prec f) (SpecFloat.emin (prec f) (emax f))) as [[_ ->]|[_ ->]].
  - pose proof (bpow_gt_0 radix2 (1 - prec f)). pose proof (Rabs_pos r). nra.
  - replace (mag radix2 r - prec f)%Z with ((1 - prec f) + (mag radix2 r - 1))%Z by lia. rewrite bpow_plus.
    pose proof (bpow_gt_0 radix2 (1 - prec f)). nra.
Qed.

(** Every finite number is a multiple of the least positive one. *)
Lemma on_grid f (t : flt f) : exists z, B2R t * bpow radix2 (- SpecFloat.emin (prec f) (emax f)) = IZR z.
Proof.
  pose proof (generic_format_B2R _ _ t) as G.
  apply (FLT_format_generic radix2 (SpecFloat.emin (prec f) (emax f)) (prec f)) in G.
  destruct G as [[m e] H1 _ H3]. simpl in *. rewrite H1. unfold F2R. simpl.
  exists (m * 2 ^ (e - SpecFloat.emin (prec f) (emax f)))%Z. rewrite mult_IZR. change 2%Z with (radix_val radix2).
  rewrite IZR_Zpower by lia. rewrite Rmult_assoc, <- bpow_plus. f_equal. 
Qed.

Section Newton.
Context (p : platform) (pr : protection) (k : rkind) (debug : bool) (c : ckind) (ord : site -> bool).
Context (EP : prec (p_T p) = 53%Z) (EE : emax (p_T p) = 1024%Z) (NSv : pr <> Save).
Notation N := (fnum p).
Notation Q := (fpol p pr k debug c ord).
Notation I := (itv N).
Notation H := (fpolspec p pr k debug c ord).
Notation fv := (@fval (p_T p)).
Notation V := (valid (N := N) fv).
Notation mem := (mem (N := N) fv).
Notation runs := (runsI (fready k)).

Lemma runsP_I {A} (m : M A) a : runsP Q (fready k) m a -> runs m a.
Proof. apply runsP_runsI. Qed.

(** ** Representable constants *)
Lemma literal_val m e : (Z.abs m < 2 ^ 53)%Z -> (-1074 <= e <= 0)%Z ->
  fv (literal m e) = Fin (IZR m * bpow radix2 e).
Proof.
  intros Hm He. pose proof (normalize_rounds (f := p_T p) mode_NE m e false) as K.
  unfold rounds in K. unfold literal.
  assert (G : generic_format radix2 (fexpf (p_T p)) (F2R (Float radix2 m e))).
  { apply generic_format_FLT. exists (Float radix2 m e); simpl; auto.
    - rewrite EP. exact Hm.
    - unfold SpecFloat.emin. rewrite EP, EE. lia. }
  rewrite (rnd_gen _ _ _ G) in K. rewrite Rlt_bool_true in K.
  - destruct K as [F E]. apply fval_fin_iff. split; [exact F|]. rewrite E. reflexivity.
  - rewrite EE. unfold F2R. cbn [Fnum Fexp]. rewrite Rabs_mult, (Rabs_pos_eq (bpow radix2 e)) by apply bpow_ge_0.
    rewrite <- abs_IZR. apply Rle_lt_trans with (IZR (2 ^ 53) * bpow radix2 0).
    + apply Rmult_le_compat; [apply IZR_le; lia|apply bpow_ge_0|apply IZR_le; lia|apply bpow_le; lia].
    + change (IZR (2 ^ 53)) with (IZR (Zpower radix2 53)). rewrite IZR_Zpower by lia. rewrite <- bpow_plus. apply bpow_lt. lia.
Qed.
Lemma literal_int m : (Z.abs m < 2 ^ 53)%Z -> fv (literal m 0) = Fin (IZR m).
Proof. intros Hm. rewrite literal_val by lia. simpl. f_equal. ring. Qed.

Definition mw : R := 7737125245533627 * bpow radix2 (-86).
Lemma mw_val : fv max_width = Fin mw.
Proof. apply literal_val; lia. Qed.
Lemma mw_gt : bpow radix2 (-34) < mw.
Proof.
  unfold mw. replace (-86)%Z with (-34 + -52)%Z by lia. rewrite bpow_plus.
  pose proof (bpow_gt_0 radix2 (-34)). assert (1 < 7737125245533627 * bpow radix2 (-52)); [|nra].
  simpl. lra.
Qed.

(** ** Consequences of tightness: the result stays in any box with representable
    bounds that the exact result stays in. *)
Definition ge (z : I) (a : R) : Prop := xle (Fin a) (fv (low z)).
Definition le (z : I) (b : R) : Prop := xle (fv (up z)) (Fin b).
Lemma ge_mem z a r : ge z a -> mem z r -> a <= r.
Proof. intros G [A _]. exact (xle_trans _ _ _ G A). Qed.
Lemma le_mem z b r : le z b -> mem z r -> r <= b.
Proof. intros G [_ A]. exact (xle_trans _ _ _ A G). Qed.
Lemma mem_ge (z : I) a : V z -> (forall r, mem z r -> a <= r) -> ge z a.
Proof.
  intros Hz K. unfold ge. pose proof (slim_wlim _ _ (valid_slim_low (N := N) fv z Hz)) as W.
  eapply wlim_lb; [exact W|]. intros r Hr. apply K. exact Hr.
Qed.
Lemma mem_le (z : I) a : V z -> (forall r, mem z r -> r <= a) -> le z a.
Proof.
  intros Hz K. unfold le. pose proof (slim_wlim _ _ (valid_slim_up (N := N) fv z Hz)) as W.
  eapply wlim_ub; [exact W|]. intros r Hr. apply K. exact Hr.
Qed.

Lemma tight_ge (z : I) S m e : tightest (N := N) fv z S -> (Z.abs m < 2 ^ 53)%Z -> (-1074 <= e <= 0)%Z ->
  (forall r, S r -> IZR m * bpow radix2 e <= r) -> ge z (IZR m * bpow radix2 e).
Proof.
  intros [_ Tz] Hm He K.
  destruct (Tz (mk (literal m e : T N) (n_inf N))) as [A _].
  - intros r Hr. split; cbn [low up].
    + rewrite literal_val by assumption. simpl. auto.
    + exact Logic.I.
  - cbn [low] in A. rewrite literal_val in A by assumption. exact A.
Qed.
Lemma tight_le (z : I) S m e : tightest (N := N) fv z S -> (Z.abs m < 2 ^ 53)%Z -> (-1074 <= e <= 0)%Z ->
  (forall r, S r -> r <= IZR m * bpow radix2 e) -> le z (IZR m * bpow radix2 e).
Proof.
  intros [_ Tz] Hm He K.
  destruct (Tz (mk (B754_infinity true : T N) (literal m e : T N))) as [_ A].
  - intros r Hr. split; cbn [low up].
    + exact Logic.I.
    + rewrite literal_val by assumption. simpl. auto.
  - cbn [up] in A. rewrite literal_val in A by assumption. exact A.
Qed.

(** ** f *)

(** Away from zero, by a power of two. *)
Definition away (e : Z) (z : I) : Prop := ge z (bpow radix2 e) \/ le z (- bpow radix2 e).
Lemma away_nz e z : away e z -> ~ mem z 0.
Proof.
  intros [A|A] B; [apply (ge_mem _ _ _ A) in B|apply (le_mem _ _ _ A) in B];
    pose proof (bpow_gt_0 radix2 e); lra.
Qed.
Lemma one_bpow e : bpow radix2 e = IZR 1 * bpow radix2 e. Proof. simpl. ring. Qed.
Lemma mone_bpow e : - bpow radix2 e = IZR (-1) * bpow radix2 e. Proof. simpl. ring. Qed.

Lemma away_mul x y z e f : (-1074 <= e + f <= 0)%Z -> tightest (N := N) fv z (image2 Rmult (mem x) (mem y)) ->
  away e x -> away f y -> away (e + f) z.
Proof.
  intros R T. pose proof (bpow_gt_0 radix2 e) as E0. pose proof (bpow_gt_0 radix2 f) as F0.
  unfold away. rewrite bpow_plus. 
  assert (P1 : bpow radix2 e * bpow radix2 f = IZR 1 * bpow radix2 (e + f)) by (rewrite bpow_plus; simpl; ring).
  assert (P2 : - (bpow radix2 e * bpow radix2 f) = IZR (-1) * bpow radix2 (e + f)) by (rewrite bpow_plus; simpl; ring).
  intros [A|A] [B|B].
  - left. rewrite P1. eapply tight_ge; [exact T|lia|lia|]. rewrite <- P1.
    intros r (a & b & Ha & Hb & ->). pose proof (ge_mem _ _ _ A Ha). pose proof (ge_mem _ _ _ B Hb). nra.
  - right. rewrite P2. eapply tight_le; [exact T|lia|lia|]. rewrite <- P2.
    intros r (a & b & Ha & Hb & ->). pose proof (ge_mem _ _ _ A Ha). pose proof (le_mem _ _ _ B Hb). nra.
  - right. rewrite P2. eapply tight_le; [exact T|lia|lia|]. rewrite <- P2.
    intros r (a & b & Ha & Hb & ->). pose proof (le_mem _ _ _ A Ha). pose proof (ge_mem _ _ _ B Hb). nra.
  - left. rewrite P1. eapply tight_ge; [exact T|lia|lia|]. rewrite <- P1.
    intros r (a & b & Ha & Hb & ->). pose proof (le_mem _ _ _ A Ha). pose proof (le_mem _ _ _ B Hb). nra.
Qed.

(** Some member of [x] is near [i]. *)
Definition near (x : I) (i : R) : Prop := exists r, mem x r /\ i - bpow radix2 (-8) <= r <= i + bpow radix2 (-8).
Lemma mem_convex (x : I) a b r : mem x a -> mem x b -> a <= r <= b -> mem x r.
Proof.
  intros [A _] [_ B] R. split; [eapply xle_trans; [exact A|]|eapply xle_trans; [|exact B]]; simpl; lra.
Qed.
Lemma far_away (x z : I) i : V x -> ~ near x i -> tightest (N := N) fv z (image1 (fun r => r - i) (mem x)) -> away (-8) z.
Proof.
  intros Hx F T. pose proof (bpow_gt_0 radix2 (-8)) as B0.
  assert (K : forall r, mem x r -> i + bpow radix2 (-8) < r \/ r < i - bpow radix2 (-8)).
  { intros r Hr. destruct (Rlt_or_le (i + bpow radix2 (-8)) r); [auto|].
    destruct (Rlt_or_le r (i - bpow radix2 (-8))); [auto|]. exfalso. apply F. exists r. split; [exact Hr|lra]. }
  destruct (valid_mem _ _ Hx) as (r0 & R0). destruct (K r0 R0) as [K0|K0].
  - left. rewrite one_bpow. eapply tight_ge; [exact T|lia|lia|]. rewrite <- one_bpow.
    intros t (r & Hr & ->). destruct (K r Hr) as [L|L]; [lra|]. exfalso. apply F. exists i. split; [|lra].
    apply (mem_convex x r r0); auto. lra.
  - right. rewrite mone_bpow. eapply tight_le; [exact T|lia|lia|]. rewrite <- mone_bpow.
    intros t (r & Hr & ->). destruct (K r Hr) as [L|L]; [|lra]. exfalso. apply F. exists i. split; [|lra].
    apply (mem_convex x r0 r); auto. lra.
Qed.

Definition near_root (x : I) : Prop := near x 0 \/ near x 1 \/ near x 2 \/ near x 3 \/ near x 4.

Lemma mul_exprs_runs o (a b : M I) x y z : runs a x -> runs b y -> runs (op_mul Q x y) z -> runs (mul_exprs Q o a b) z.
Proof.
  intros A B C. unfold mul_exprs. eapply runsI_bind; [apply runsI_args2; [exact A|exact B]|exact C].
Qed.

Lemma nr_f_ok (x : I) : V x -> exists z, runs (nr_f Q x) z /\ V z /\
  (forall r, mem x r -> mem z (quintic r)) /\ (mem z 0 -> near_root x).
Proof.
  intros Hx. destruct (valid_mem _ _ Hx) as (r0 & R0).
  assert (S : forall i, (0 <= i <= 4)%Z -> exists y, runs (op_sub_in Q x (literal i 0)) y /\ V y /\
    (forall r, mem x r -> mem y (r - IZR i)) /\ (near x (IZR i) \/ away (-8) y)).
  { intros i Hi. destruct (op_sub_in_ok H x (literal i 0) (IZR i)) as (y & Ry & Ty); [apply literal_int; lia|exact Hx|].
    assert (En : forall r, mem x r -> mem y (r - IZR i)) by (intros r Hr; apply Ty; exists r; auto).
    exists y. split; [apply runsP_I; exact Ry|]. split; [apply (mem_valid _ _ _ (En r0 R0))|]. split; [exact En|].
    destruct (classic (near x (IZR i))) as [A|A]; [auto|]. right. apply (far_away x y _ Hx A Ty). }
  assert (MU : forall (a b : I), V a -> V b -> exists z, runs (op_mul Q a b) z /\ V z /\
    (forall r s, mem a r -> mem b s -> mem z (r * s)) /\
    (forall e f, (-1074 <= e + f <= 0)%Z -> away e a -> away f b -> away (e + f) z)).
  { intros a b Ha Hb. destruct (op_mul_ok H a b Ha Hb) as (z & Rz & Tz).
    assert (En : forall r s, mem a r -> mem b s -> mem z (r * s)) by (intros r s Hr Hs; apply Tz; exists r, s; auto).
    exists z. split; [apply runsP_I; exact Rz|].
    destruct (valid_mem _ _ Ha) as (ra & Ra). destruct (valid_mem _ _ Hb) as (rb & Rb).
    split; [apply (mem_valid _ _ _ (En ra rb Ra Rb))|]. split; [exact En|].
    intros e f L A B. exact (away_mul a b z e f L Tz A B). }
  destruct (S 1%Z) as (y1 & R1 & V1 & E1 & D1); [lia|]. destruct (S 2%Z) as (y2 & R2 & V2 & E2 & D2); [lia|].
  destruct (S 3%Z) as (y3 & R3 & V3 & E3 & D3); [lia|]. destruct (S 4%Z) as (y4 & R4 & V4 & E4 & D4); [lia|].
  destruct (MU x y1 Hx V1) as (z1 & Q1 & W1 & F1 & G1). destruct (MU z1 y2 W1 V2) as (z2 & Q2 & W2 & F2 & G2).
  destruct (MU z2 y3 W2 V3) as (z3 & Q3 & W3 & F3 & G3). destruct (MU z3 y4 W3 V4) as (z4 & Q4 & W4 & F4 & G4).
  exists z4. split; [|split; [exact W4|split]].
  - unfold nr_f. eapply mul_exprs_runs; [|exact R4|exact Q4]. eapply mul_exprs_runs; [|exact R3|exact Q3].
    eapply mul_exprs_runs; [|exact R2|exact Q2]. eapply mul_exprs_runs; [apply runsI_ret|exact R1|exact Q1].
  - intros r Hr. unfold quintic. apply F4; auto.
  - intros Z. unfold near_root. destruct (classic (near x 0)) as [A|A]; [auto|].
    destruct D1 as [D1|D1]; [auto|]. destruct D2 as [D2|D2]; [auto|]. destruct D3 as [D3|D3]; [auto 6|]. destruct D4 as [D4|D4]; [auto 6|].
    exfalso. assert (D0 : away (-8) x).
    { apply (far_away x x 0 Hx A). split.
      - intros t (r & Hr & ->). replace (r - 0) with r by ring. exact Hr.
      - intros w Hw. split.
        + pose proof (slim_wlim _ _ (valid_slim_low (N := N) fv x Hx)) as W. eapply wlim_lb; [exact W|].
          intros r Hr. apply Hw. exists r. split; [exact Hr|ring].
        + pose proof (slim_wlim _ _ (valid_slim_up (N := N) fv x Hx)) as W. eapply wlim_ub; [exact W|].
          intros r Hr. apply Hw. exists r. split; [exact Hr|ring]. }
    apply (away_nz (-8 + -8 + -8 + -8 + -8) z4); [|exact Z].
    apply G4; [lia| |exact D4]. apply G3; [lia| |exact D3]. apply G2; [lia| |exact D2]. apply G1; [lia|exact D0|exact D1].
Qed.

(** ** f_diff *)
Definition inb (z : I) (a b : R) : Prop := ge z a /\ le z b.
Definition is_rep (a : R) : Prop := exists m e, (Z.abs m < 2 ^ 53)%Z /\ (-1074 <= e <= 0)%Z /\ a = IZR m * bpow radix2 e.
Lemma tight_inb (z : I) S a b : tightest (N := N) fv z S -> is_rep a -> is_rep b ->
  (forall r, S r -> a <= r <= b) -> inb z a b.
Proof.
  intros T (m & e & A1 & A2 & ->) (m' & e' & B1 & B2 & ->) K. split.
  - eapply tight_ge; eauto. intros r Hr. apply K; exact Hr.
  - eapply tight_le; eauto. intros r Hr. apply K; exact Hr.
Qed.
Lemma corners a b d e r s l u : a <= r <= b -> d <= s <= e ->
  l <= a * d -> l <= a * e -> l <= b * d -> l <= b * e -> a * d <= u -> a * e <= u -> b * d <= u -> b * e <= u ->
  l <= r * s <= u.
Proof.
  intros R S. intros. destruct (Rle_or_lt 0 s).
  - assert (a * s <= r * s <= b * s) by nra. assert (l <= a * s) by (destruct (Rle_or_lt 0 a); nra).
    assert (b * s <= u) by (destruct (Rle_or_lt 0 b); nra). lra.
  - assert (b * s <= r * s <= a * s) by nra. assert (l <= b * s) by (destruct (Rle_or_lt 0 b); nra).
    assert (a * s <= u) by (destruct (Rle_or_lt 0 a); nra). lra.
Qed.

(** The seven intermediate results. *)
Lemma nr_f_diff_run (x : I) : V x -> exists a b d e f g h z,
  runs (nr_f_diff Q x) z /\
  tightest (N := N) fv a (image1 (fun r => 5 * r) (mem x)) /\ tightest (N := N) fv b (image1 (fun r => r - 40) (mem a)) /\
  tightest (N := N) fv d (image2 Rmult (mem b) (mem x)) /\ tightest (N := N) fv e (image1 (fun r => r + 105) (mem d)) /\
  tightest (N := N) fv f (image2 Rmult (mem e) (mem x)) /\ tightest (N := N) fv g (image1 (fun r => r - 100) (mem f)) /\
  tightest (N := N) fv h (image2 Rmult (mem g) (mem x)) /\ tightest (N := N) fv z (image1 (fun r => r + 24) (mem h)).
Proof.
  intros Hx.
  assert (N1 : forall f (a z : I), V a -> tightest (N := N) fv z (image1 f (mem a)) -> V z).
  { intros f a z Ha. destruct (valid_mem _ _ Ha) as (r & Hr). apply tightest_valid. exists (f r), r. auto. }
  assert (N2 : forall f (a b z : I), V a -> V b -> tightest (N := N) fv z (image2 f (mem a) (mem b)) -> V z).
  { intros f a b z Ha Hb. destruct (valid_mem _ _ Ha) as (r & Hr). destruct (valid_mem _ _ Hb) as (s & Hs).
    apply tightest_valid. exists (f r s), r, s. auto. }
  destruct (op_mul_ni_ok H (literal 5 0) 5 x) as (a & Ra & Ta); [apply literal_int; lia|exact Hx|].
  pose proof (N1 _ _ _ Hx Ta) as Va.
  destruct (op_sub_in_ok H a (literal 40 0) 40) as (b & Rb & Tb); [apply literal_int; lia|exact Va|].
  pose proof (N1 _ _ _ Va Tb) as Vb.
  destruct (op_mul_ok H b x Vb Hx) as (d & Rd & Td). pose proof (N2 _ _ _ _ Vb Hx Td) as Vd.
  destruct (op_add_in_ok H d (literal 105 0) 105) as (e & Re & Te); [apply literal_int; lia|exact Vd|].
  pose proof (N1 _ _ _ Vd Te) as Ve.
  destruct (op_mul_ok H e x Ve Hx) as (f & Rf & Tf). pose proof (N2 _ _ _ _ Ve Hx Tf) as Vf.
  destruct (op_sub_in_ok H f (literal 100 0) 100) as (g & Rg & Tg); [apply literal_int; lia|exact Vf|].
  pose proof (N1 _ _ _ Vf Tg) as Vg.
  destruct (op_mul_ok H g x Vg Hx) as (h & Rh & Th). pose proof (N2 _ _ _ _ Vg Hx Th) as Vh.
  destruct (op_add_in_ok H h (literal 24 0) 24) as (z & Rz & Tz); [apply literal_int; lia|exact Vh|].
  exists a, b, d, e, f, g, h, z. split; [|tauto].
  unfold nr_f_diff. eapply runsI_bind; [apply runsP_I; exact Ra|]. eapply runsI_bind; [apply runsP_I; exact Rb|].
  eapply runsI_bind; [apply runsP_I; exact Rd|]. eapply runsI_bind; [apply runsP_I; exact Re|].
  eapply runsI_bind; [apply runsP_I; exact Rf|]. eapply runsI_bind; [apply runsP_I; exact Rg|].
  eapply runsI_bind; [apply runsP_I; exact Rh|]. apply runsP_I; exact Rz.
Qed.

(** Boxes for the intermediate results when [x] is within 2^-7 of a root. *)
Lemma horner_boxes (x a b d e f g h z : I) (xa xb da db fa fb ha hb : R) :
  tightest (N := N) fv a (image1 (fun r => 5 * r) (mem x)) -> tightest (N := N) fv b (image1 (fun r => r - 40) (mem a)) ->
  tightest (N := N) fv d (image2 Rmult (mem b) (mem x)) -> tightest (N := N) fv e (image1 (fun r => r + 105) (mem d)) ->
  tightest (N := N) fv f (image2 Rmult (mem e) (mem x)) -> tightest (N := N) fv g (image1 (fun r => r - 100) (mem f)) ->
  tightest (N := N) fv h (image2 Rmult (mem g) (mem x)) -> tightest (N := N) fv z (image1 (fun r => r + 24) (mem h)) ->
  inb x xa xb ->
  is_rep (5 * xa) -> is_rep (5 * xb) -> is_rep (5 * xa - 40) -> is_rep (5 * xb - 40) ->
  is_rep da -> is_rep db -> is_rep (da + 105) -> is_rep (db + 105) ->
  is_rep fa -> is_rep fb -> is_rep (fa - 100) -> is_rep (fb - 100) ->
  is_rep ha -> is_rep hb -> is_rep (ha + 24) -> is_rep (hb + 24) ->
  (forall r s, 5 * xa - 40 <= r <= 5 * xb - 40 -> xa <= s <= xb -> da <= r * s <= db) ->
  (forall r s, da + 105 <= r <= db + 105 -> xa <= s <= xb -> fa <= r * s <= fb) ->
  (forall r s, fa - 100 <= r <= fb - 100 -> xa <= s <= xb -> ha <= r * s <= hb) ->
  inb z (ha + 24) (hb + 24).
Proof.
  intros Ta Tb Td Te Tf Tg Th Tz Ix. intros.
  assert (MI : forall w l u r, inb w l u -> mem w r -> l <= r <= u).
  { intros w l u r [A B] Hr. split; [exact (ge_mem _ _ _ A Hr)|exact (le_mem _ _ _ B Hr)]. }
  assert (Ia : inb a (5 * xa) (5 * xb)).
  { eapply tight_inb; [exact Ta|assumption|assumption|]. intros t (r & Hr & ->). pose proof (MI _ _ _ _ Ix Hr). lra. }
  assert (Ib : inb b (5 * xa - 40) (5 * xb - 40)).
  { eapply tight_inb; [exact Tb|assumption|assumption|]. intros t (r & Hr & ->). pose proof (MI _ _ _ _ Ia Hr). lra. }
  assert (Id : inb d da db).
  { eapply tight_inb; [exact Td|assumption|assumption|]. intros t (r & s & Hr & Hs & ->). eauto. }
  assert (Ie : inb e (da + 105) (db + 105)).
  { eapply tight_inb; [exact Te|assumption|assumption|]. intros t (r & Hr & ->). pose proof (MI _ _ _ _ Id Hr). lra. }
  assert (If : inb f fa fb).
  { eapply tight_inb; [exact Tf|assumption|assumption|]. intros t (r & s & Hr & Hs & ->). eauto. }
  assert (Ig : inb g (fa - 100) (fb - 100)).
  { eapply tight_inb; [exact Tg|assumption|assumption|]. intros t (r & Hr & ->). pose proof (MI _ _ _ _ If Hr). lra. }
  assert (Ih : inb h ha hb).
  { eapply tight_inb; [exact Th|assumption|assumption|]. intros t (r & s & Hr & Hs & ->). eauto. }
  eapply tight_inb; [exact Tz|assumption|assumption|]. intros t (r & Hr & ->). pose proof (MI _ _ _ _ Ih Hr). lra.
Qed.

Lemma rep28 m : (Z.abs m < 2 ^ 53)%Z -> is_rep (IZR m / 268435456).
Proof.
  intros Hm. exists m, (-28)%Z. split; [exact Hm|]. split; [lia|]. 
  change (bpow radix2 (-28)) with (/ IZR (Z.pow_pos 2 28)). change (Z.pow_pos 2 28) with 268435456%Z. reflexivity.
Qed.
Ltac rep28 m := match goal with |- is_rep ?a => replace a with (IZR m / 268435456); [apply rep28; lia|lra] end.

(** [x] lies within 2^-7 of [i]. *)
Definition close (x : I) (i : R) : Prop := inb x (i - 1 / 128) (i + 1 / 128).

Lemma diff_close_0 (x a b d e f g h z : I) :
  tightest (N := N) fv a (image1 (fun r => 5 * r) (mem x)) -> tightest (N := N) fv b (image1 (fun r => r - 40) (mem a)) ->
  tightest (N := N) fv d (image2 Rmult (mem b) (mem x)) -> tightest (N := N) fv e (image1 (fun r => r + 105) (mem d)) ->
  tightest (N := N) fv f (image2 Rmult (mem e) (mem x)) -> tightest (N := N) fv g (image1 (fun r => r - 100) (mem f)) ->
  tightest (N := N) fv h (image2 Rmult (mem g) (mem x)) -> tightest (N := N) fv z (image1 (fun r => r + 24) (mem h)) ->
  close x 0 -> ~ mem z 0.
Proof.
  intros Ta Tb Td Te Tf Tg Th Tz Ix Z.
  assert (K : inb z ((-211440645 / 268435456) + 24) ((211440645 / 268435456) + 24)).
  { eapply (horner_boxes x a b d e f g h z _ _ (-83968000 / 268435456) (83968000 / 268435456) (-220856960 / 268435456) (220856960 / 268435456) (-211440645 / 268435456) (211440645 / 268435456) Ta Tb Td Te Tf Tg Th Tz Ix).
    rep28 (-10485760)%Z.
    rep28 (10485760)%Z.
    rep28 (-10747904000)%Z.
    rep28 (-10726932480)%Z.
    rep28 (-83968000)%Z.
    rep28 (83968000)%Z.
    rep28 (28101754880)%Z.
    rep28 (28269690880)%Z.
    rep28 (-220856960)%Z.
    rep28 (220856960)%Z.
    rep28 (-27064402560)%Z.
    rep28 (-26622688640)%Z.
    rep28 (-211440645)%Z.
    rep28 (211440645)%Z.
    rep28 (6231010299)%Z.
    rep28 (6653891589)%Z.
    all: intros r s Hr Hs; eapply corners; try exact Hr; try exact Hs; lra. }
  destruct K as [K1 K2]. pose proof (ge_mem _ _ _ K1 Z). pose proof (le_mem _ _ _ K2 Z). lra.
Qed.

Lemma diff_close_1 (x a b d e f g h z : I) :
  tightest (N := N) fv a (image1 (fun r => 5 * r) (mem x)) -> tightest (N := N) fv b (image1 (fun r => r - 40) (mem a)) ->
  tightest (N := N) fv d (image2 Rmult (mem b) (mem x)) -> tightest (N := N) fv e (image1 (fun r => r + 105) (mem d)) ->
  tightest (N := N) fv f (image2 Rmult (mem e) (mem x)) -> tightest (N := N) fv g (image1 (fun r => r - 100) (mem f)) ->
  tightest (N := N) fv h (image2 Rmult (mem g) (mem x)) -> tightest (N := N) fv z (image1 (fun r => r + 24) (mem h)) ->
  close x 1 -> ~ mem z 0.
Proof.
  intros Ta Tb Td Te Tf Tg Th Tz Ix Z.
  assert (K : inb z ((-8347888635 / 268435456) + 24) ((-7760696315 / 268435456) + 24)).
  { eapply (horner_boxes x a b d e f g h z _ _ (-9479208960 / 268435456) (-9311436800 / 268435456) (18560369280 / 268435456) (19021741440 / 268435456) (-8347888635 / 268435456) (-7760696315 / 268435456) Ta Tb Td Te Tf Tg Th Tz Ix).
    rep28 (1331691520)%Z.
    rep28 (1352663040)%Z.
    rep28 (-9405726720)%Z.
    rep28 (-9384755200)%Z.
    rep28 (-9479208960)%Z.
    rep28 (-9311436800)%Z.
    rep28 (18706513920)%Z.
    rep28 (18874286080)%Z.
    rep28 (18560369280)%Z.
    rep28 (19021741440)%Z.
    rep28 (-8283176320)%Z.
    rep28 (-7821804160)%Z.
    rep28 (-8347888635)%Z.
    rep28 (-7760696315)%Z.
    rep28 (-1905437691)%Z.
    rep28 (-1318245371)%Z.
    all: intros r s Hr Hs; eapply corners; try exact Hr; try exact Hs; lra. }
  destruct K as [K1 K2]. pose proof (ge_mem _ _ _ K1 Z). pose proof (le_mem _ _ _ K2 Z). lra.
Qed.

Lemma diff_close_2 (x a b d e f g h z : I) :
  tightest (N := N) fv a (image1 (fun r => 5 * r) (mem x)) -> tightest (N := N) fv b (image1 (fun r => r - 40) (mem a)) ->
  tightest (N := N) fv d (image2 Rmult (mem b) (mem x)) -> tightest (N := N) fv e (image1 (fun r => r + 105) (mem d)) ->
  tightest (N := N) fv f (image2 Rmult (mem e) (mem x)) -> tightest (N := N) fv g (image1 (fun r => r - 100) (mem f)) ->
  tightest (N := N) fv h (image2 Rmult (mem g) (mem x)) -> tightest (N := N) fv z (image1 (fun r => r + 24) (mem h)) ->
  close x 2 -> ~ mem z 0.
Proof.
  intros Ta Tb Td Te Tf Tg Th Tz Ix Z.
  assert (K : inb z ((-5915028475 / 268435456) + 24) ((-4824519675 / 268435456) + 24)).
  { eapply (horner_boxes x a b d e f g h z _ _ (-16190095360 / 268435456) (-16022323200 / 268435456) (23897539200 / 268435456) (24421825920 / 268435456) (-5915028475 / 268435456) (-4824519675 / 268435456) Ta Tb Td Te Tf Tg Th Tz Ix).
    rep28 (2673868800)%Z.
    rep28 (2694840320)%Z.
    rep28 (-8063549440)%Z.
    rep28 (-8042577920)%Z.
    rep28 (-16190095360)%Z.
    rep28 (-16022323200)%Z.
    rep28 (11995627520)%Z.
    rep28 (12163399680)%Z.
    rep28 (23897539200)%Z.
    rep28 (24421825920)%Z.
    rep28 (-2946006400)%Z.
    rep28 (-2421719680)%Z.
    rep28 (-5915028475)%Z.
    rep28 (-4824519675)%Z.
    rep28 (527422469)%Z.
    rep28 (1617931269)%Z.
    all: intros r s Hr Hs; eapply corners; try exact Hr; try exact Hs; lra. }
  destruct K as [K1 K2]. pose proof (ge_mem _ _ _ K1 Z). pose proof (le_mem _ _ _ K2 Z). lra.
Qed.

Lemma diff_close_3 (x a b d e f g h z : I) :
  tightest (N := N) fv a (image1 (fun r => 5 * r) (mem x)) -> tightest (N := N) fv b (image1 (fun r => r - 40) (mem a)) ->
  tightest (N := N) fv d (image2 Rmult (mem b) (mem x)) -> tightest (N := N) fv e (image1 (fun r => r + 105) (mem d)) ->
  tightest (N := N) fv f (image2 Rmult (mem e) (mem x)) -> tightest (N := N) fv g (image1 (fun r => r - 100) (mem f)) ->
  tightest (N := N) fv h (image2 Rmult (mem g) (mem x)) -> tightest (N := N) fv z (image1 (fun r => r + 24) (mem h)) ->
  close x 3 -> ~ mem z 0.
Proof.
  intros Ta Tb Td Te Tf Tg Th Tz Ix Z.
  assert (K : inb z ((-9018977275 / 268435456) + 24) ((-7089607675 / 268435456) + 24)).
  { eapply (horner_boxes x a b d e f g h z _ _ (-20216627200 / 268435456) (-20048855040 / 268435456) (23845028480 / 268435456) (24474172800 / 268435456) (-9018977275 / 268435456) (-7089607675 / 268435456) Ta Tb Td Te Tf Tg Th Tz Ix).
    rep28 (4016046080)%Z.
    rep28 (4037017600)%Z.
    rep28 (-6721372160)%Z.
    rep28 (-6700400640)%Z.
    rep28 (-20216627200)%Z.
    rep28 (-20048855040)%Z.
    rep28 (7969095680)%Z.
    rep28 (8136867840)%Z.
    rep28 (23845028480)%Z.
    rep28 (24474172800)%Z.
    rep28 (-2998517120)%Z.
    rep28 (-2369372800)%Z.
    rep28 (-9018977275)%Z.
    rep28 (-7089607675)%Z.
    rep28 (-2576526331)%Z.
    rep28 (-647156731)%Z.
    all: intros r s Hr Hs; eapply corners; try exact Hr; try exact Hs; lra. }
  destruct K as [K1 K2]. pose proof (ge_mem _ _ _ K1 Z). pose proof (le_mem _ _ _ K2 Z). lra.
Qed.

Lemma diff_close_4 (x a b d e f g h z : I) :
  tightest (N := N) fv a (image1 (fun r => 5 * r) (mem x)) -> tightest (N := N) fv b (image1 (fun r => r - 40) (mem a)) ->
  tightest (N := N) fv d (image2 Rmult (mem b) (mem x)) -> tightest (N := N) fv e (image1 (fun r => r + 105) (mem d)) ->
  tightest (N := N) fv f (image2 Rmult (mem e) (mem x)) -> tightest (N := N) fv g (image1 (fun r => r - 100) (mem f)) ->
  tightest (N := N) fv h (image2 Rmult (mem g) (mem x)) -> tightest (N := N) fv z (image1 (fun r => r + 24) (mem h)) ->
  close x 4 -> ~ mem z 0.
Proof.
  intros Ta Tb Td Te Tf Tg Th Tz Ix Z.
  assert (K : inb z ((-1553607675 / 268435456) + 24) ((1556234235 / 268435456) + 24)).
  { eapply (horner_boxes x a b d e f g h z _ _ (-21558804480 / 268435456) (-21391032320 / 268435456) (26455900800 / 268435456) (27231845760 / 268435456) (-1553607675 / 268435456) (1556234235 / 268435456) Ta Tb Td Te Tf Tg Th Tz Ix).
    rep28 (5358223360)%Z.
    rep28 (5379194880)%Z.
    rep28 (-5379194880)%Z.
    rep28 (-5358223360)%Z.
    rep28 (-21558804480)%Z.
    rep28 (-21391032320)%Z.
    rep28 (6626918400)%Z.
    rep28 (6794690560)%Z.
    rep28 (26455900800)%Z.
    rep28 (27231845760)%Z.
    rep28 (-387644800)%Z.
    rep28 (388300160)%Z.
    rep28 (-1553607675)%Z.
    rep28 (1556234235)%Z.
    rep28 (4888843269)%Z.
    rep28 (7998685179)%Z.
    all: intros r s Hr Hs; eapply corners; try exact Hr; try exact Hs; lra. }
  destruct K as [K1 K2]. pose proof (ge_mem _ _ _ K1 Z). pose proof (le_mem _ _ _ K2 Z). lra.
Qed.

Lemma nr_f_diff_ok (x : I) : V x -> exists z, runs (nr_f_diff Q x) z /\ V z /\
  (forall r, mem x r -> mem z (quintic' r)) /\
  (close x 0 \/ close x 1 \/ close x 2 \/ close x 3 \/ close x 4 -> ~ mem z 0).
Proof.
  intros Hx. destruct (nr_f_diff_run x Hx) as (a & b & d & e & f & g & h & z & R & Ta & Tb & Td & Te & Tf & Tg & Th & Tz).
  assert (En : forall r, mem x r -> mem z (quintic' r)).
  { intros r Hr. unfold quintic'.
    assert (Ma : mem a (5 * r)) by (apply Ta; exists r; auto).
    assert (Mb : mem b (5 * r - 40)) by (apply Tb; exists (5 * r); auto).
    assert (Md : mem d ((5 * r - 40) * r)) by (apply Td; exists (5 * r - 40), r; auto).
    assert (Me : mem e ((5 * r - 40) * r + 105)) by (apply Te; eexists; split; [exact Md|reflexivity]).
    assert (Mf : mem f (((5 * r - 40) * r + 105) * r)) by (apply Tf; do 2 eexists; split; [exact Me|split; [exact Hr|reflexivity]]).
    assert (Mg : mem g (((5 * r - 40) * r + 105) * r - 100)) by (apply Tg; eexists; split; [exact Mf|reflexivity]).
    assert (Mh : mem h ((((5 * r - 40) * r + 105) * r - 100) * r)) by (apply Th; do 2 eexists; split; [exact Mg|split; [exact Hr|reflexivity]]).
    apply Tz; eexists; split; [exact Mh|reflexivity]. }
  exists z. split; [exact R|]. destruct (valid_mem _ _ Hx) as (r0 & R0).
  split; [apply (mem_valid _ _ _ (En r0 R0))|]. split; [exact En|].
  intros [K|[K|[K|[K|K]]]].
  - eapply diff_close_0; eauto.
  - eapply diff_close_1; eauto.
  - eapply diff_close_2; eauto.
  - eapply diff_close_3; eauto.
  - eapply diff_close_4; eauto.
Qed.

(** ** Widths and midpoints *)
Notation ld := (fconv (p_T p) (p_X p) RNE).
Notation st m := (fconv (p_X p) (p_T p) m).
Definition wd (x : I) : T N := st RUP (fsub RUP (ld (up x)) (ld (low x))).

Lemma width_state (x : I) s : V x -> fready k s -> width Q x s = (Ok (wd x), RUP).
Proof.
  intros Hx Hs. unfold width. rewrite (test_valid H) by exact Hx.
  unfold with_rnd. cbn [p_prot fpol]. destruct pr; [congruence| |];
    cbn [p_ar fpol]; destruct k; cbn in Hs; subst; reflexivity.
Qed.
Lemma width_runs (x : I) : V x -> runs (width Q x) (wd x).
Proof. intros Hx s Hs. exists RUP. split; [apply ready_up; reflexivity|]. apply width_state; assumption. Qed.
Lemma wd_ru (x : I) : V x -> ru (xsub (fv (up x)) (fv (low x))) (wd x : flt (p_T p)).
Proof.
  intros Hx. unfold wd. apply (st_dr p Up). rewrite <- (fval_ld p (up x)), <- (fval_ld p (low x)).
  apply (fsub_dr Up). rewrite !fval_ld. apply (xsub_up x x Hx Hx).
Qed.

Definition sub (z x : I) : Prop := forall r, mem z r -> mem x r.
Lemma sub_low (z x : I) : V z -> sub z x -> xle (fv (low x)) (fv (low z)).
Proof. intros Hz K. exact (proj1 (proj1 (subset_bounds z x Hz) K)). Qed.
Lemma sub_up (z x : I) : V z -> sub z x -> xle (fv (up z)) (fv (up x)).
Proof. intros Hz K. exact (proj2 (proj1 (subset_bounds z x Hz) K)). Qed.

Lemma wd_mono (z x : I) : V z -> V x -> sub z x -> xle (fv (wd z)) (fv (wd x)).
Proof.
  intros Hz Hx K. destruct (wd_ru z Hz) as [_ A]. destruct (wd_ru x Hx) as [B _]. apply A. eapply xle_trans; [|exact B].
  pose proof (sub_low z x Hz K) as L. pose proof (sub_up z x Hz K) as U.
  destruct Hz as (Z1 & Z2 & Z3), Hx as (X1 & X2 & X3). unfold xsub.
  destruct (fv (low x)), (fv (up x)); simpl in *; try tauto;
  destruct (fv (low z)), (fv (up z)); simpl in *; try tauto; lra.
Qed.
Lemma wd_same (z x : I) : V z -> V x -> fv (low z) = fv (low x) -> fv (up z) = fv (up x) -> fv (wd z) = fv (wd x).
Proof.
  intros Hz Hx E1 E2. apply xle_antisym; apply wd_mono; auto; intros r [A B]; split; congruence.
Qed.
Lemma wd_narrow (x : I) : V x -> xlt (fv (wd x)) (Fin mw) ->
  exists l u, fv (low x) = Fin l /\ fv (up x) = Fin u /\ u - l < mw.
Proof.
  intros Hx L. destruct (wd_ru x Hx) as [A _]. destruct Hx as (X1 & X2 & X3). pose proof (xle_lt_trans _ _ _ A L) as K.
  unfold xsub in K. destruct (fv (low x)) as [| |l|], (fv (up x)) as [| |u|]; simpl in *; try tauto.
  exists l, u. split; [reflexivity|]. split; [reflexivity|]. lra.
Qed.

(** Intervals with moderate bounds. *)
Definition box (x : I) (l u : R) : Prop := fv (low x) = Fin l /\ fv (up x) = Fin u /\ l <= u /\
  Rabs l <= bpow radix2 1022 /\ Rabs u <= bpow radix2 1022.
Lemma box_valid x l u : box x l u -> V x.
Proof. intros (A & B & C & _). unfold valid. rewrite A, B. repeat split; cbn [xle]; congruence || exact C. Qed.
Lemma box_mem x l u r : box x l u -> (mem x r <-> l <= r <= u).
Proof. intros (A & B & _). unfold Spec.mem. rewrite A, B. simpl. tauto. Qed.
Lemma box_sub z x l u : box x l u -> V z -> sub z x -> exists a b, box z a b /\ l <= a /\ b <= u.
Proof.
  intros Bx Hz K. pose proof (sub_low z x Hz K) as L. pose proof (sub_up z x Hz K) as U.
  destruct Bx as (A & B & C & D & E). rewrite A in L. rewrite B in U. destruct Hz as (Z1 & Z2 & Z3).
  destruct (fv (low z)) as [| |a|] eqn:EA, (fv (up z)) as [| |b|] eqn:EB; cbn [xle xlt] in *; try tauto.
  exists a, b. split; [|lra]. split; [auto|]. split; [auto|]. split; [lra|].
  apply Rabs_le_inv in D, E. split; apply Rabs_le; lra.
Qed.
Lemma tp_exists e : (-1074 <= e <= 1023)%Z -> exists t : T N, fv t = Fin (bpow radix2 e).
Proof.
  intros He. pose proof (normalize_rounds (f := p_T p) mode_NE 1 e false) as K. unfold rounds in K.
  replace (F2R (Float radix2 1 e)) with (bpow radix2 e) in K by (unfold F2R; simpl; ring).
  rewrite rnd_gen in K.
  - rewrite Rlt_bool_true in K.
    + destruct K as [F E]. eexists. apply fval_fin_iff. split; [exact F|exact E].
    + rewrite Rabs_pos_eq by apply bpow_ge_0. rewrite EE. apply bpow_lt. lia.
  - apply generic_format_bpow. unfold SpecFloat.fexp, SpecFloat.emin. rewrite EP, EE. lia.
Qed.
Lemma wd_box x l u : box x l u -> exists w, fv (wd x) = Fin w /\ u - l <= w.
Proof.
  intros Bx. pose proof (box_valid _ _ _ Bx) as Hx. destruct (wd_ru x Hx) as [A B].
  destruct Bx as (E1 & E2 & C & D & E). rewrite E1, E2 in A, B. unfold xsub in A, B. cbn [xopp xadd] in A, B.
  destruct (tp_exists 1023) as (t & Et); [lia|].
  assert (K : xle (fv (wd x)) (fv t)).
  { apply B. rewrite Et. cbn [xle]. apply Rabs_le_inv in D, E. replace 1023%Z with (1 + 1022)%Z by lia.
    rewrite bpow_plus. change (bpow radix2 1) with 2. lra. }
  rewrite Et in K. destruct (fv (wd x)) as [| |w|]; cbn [xle xlt] in *; try tauto. exists w. split; [reflexivity|lra].
Qed.
Lemma wd_small x l u : box x l u -> u - l <= bpow radix2 (-34) -> xlt (fv (wd x)) (Fin mw).
Proof.
  intros Bx L. pose proof (box_valid _ _ _ Bx) as Hx. destruct (wd_ru x Hx) as [A B].
  destruct Bx as (E1 & E2 & _). rewrite E1, E2 in B. unfold xsub in B. cbn [xopp xadd] in B.
  destruct (tp_exists (-34)) as (t & Et); [lia|]. pose proof mw_gt as G.
  assert (K : xle (fv (wd x)) (fv t)) by (apply B; rewrite Et; cbn [xle]; lra).
  eapply xle_lt_trans; [exact K|]. rewrite Et. exact G.
Qed.

(** width(x1) > alpha * width(x) *)
Lemma alpha_val : fv alpha = Fin (3 * bpow radix2 (-2)).
Proof. apply literal_val; lia. Qed.
Definition is_wider (x1 x : I) : bool := Bltb (fmul RUP (ld alpha) (ld (wd x))) (ld (wd x1)).
Lemma wider_runs (x1 x : I) : V x1 -> V x -> runs (wider Q x1 x) (is_wider x1 x).
Proof.
  intros H1 Hx. unfold wider. eapply runsI_bind.
  - apply runsI_args2; [apply width_runs; exact H1|]. intros s Hs. exists RUP. split; [apply ready_up; reflexivity|].
    unfold bind. rewrite (width_state x s Hx Hs). reflexivity.
  - apply runsI_ret.
Qed.
Lemma alpha_prod (x : I) w : fv (wd x) = Fin w -> bpow radix2 (-35) <= w ->
  exists v, fval (fmul RUP (ld alpha) (ld (wd x)) : flt (p_X p)) = Fin v /\ v < w.
Proof.
  intros Ew Lw. 
  assert (EA : fval (ld alpha : flt (p_X p)) = Fin (3 / 4)).
  { rewrite fval_ld, alpha_val. f_equal; change (bpow radix2 (-2)) with (/ 4); lra. }
  assert (EW : fval (ld (wd x) : flt (p_X p)) = Fin w) by (rewrite fval_ld; exact Ew).
  pose proof (p_TX p) as [PX1 PX2]. rewrite EP in PX1. rewrite EE in PX2.
  apply fval_fin_iff in EA, EW. destruct EA as [FA EA], EW as [FW EW].
  pose proof (fmul_rounds mode_UP _ _ FA FW) as K. rewrite EA, EW in K.
  pose proof (finite_lt_emax (ld (wd x) : flt (p_X p))) as LM. rewrite EW in LM.
  pose proof (err_bound (p_X p) mode_UP (3 / 4 * w)) as EB.
  assert (L1 : bpow radix2 (1 - prec (p_X p)) <= / 16).
  { change (/ 16) with (bpow radix2 (-4)). apply bpow_le. lia. }
  assert (L2 : bpow radix2 (SpecFloat.emin (prec (p_X p)) (emax (p_X p))) <= bpow radix2 (-35) * / 16).
  { change (/ 16) with (bpow radix2 (-4)). rewrite <- bpow_plus. apply bpow_le. unfold SpecFloat.emin. lia. }
  pose proof (bpow_gt_0 radix2 (-35)) as B0. rewrite (Rabs_pos_eq (3 / 4 * w)) in EB by lra.
  set (v := rnd (p_X p) mode_UP (3 / 4 * w)) in *.
  pose proof (bpow_gt_0 radix2 (1 - prec (p_X p))) as B1.
  assert (D : Rabs (v - 3 / 4 * w) <= 2 / 16 * w) by nra.
  apply Rabs_le_inv in D.
  unfold rounds in K. fold v in K. rewrite Rlt_bool_true in K.
  - destruct K as [F E]. exists v. split; [apply fval_fin_iff; auto|]. lra.
  - apply Rabs_lt. apply Rabs_lt_inv in LM. lra.
Qed.
Lemma not_wider (x1 x : I) w : fv (wd x) = Fin w -> bpow radix2 (-35) <= w -> V x1 -> is_wider x1 x = false ->
  xlt (fv (wd x1)) (fv (wd x)).
Proof.
  intros Ew Lw H1 K. destruct (alpha_prod x w Ew Lw) as (v & Ev & Lv).
  rewrite Ew. unfold is_wider in K.
  assert (NL : ~ xlt (Fin v) (fv (wd x1))).
  { intros L. rewrite <- (fval_ld p (wd x1)), <- Ev in L. apply Bltb_fval in L. congruence. }
  destruct (wd_ru x1 H1) as [A _]. pose proof (xle_nnr _ _ A) as NN.
  destruct (fv (wd x1)) as [| |w1|]; cbn [xle xlt] in *; try tauto; lra.
Qed.

Lemma bigsum l u : Rabs l <= bpow radix2 1022 -> Rabs u <= bpow radix2 1022 ->
  Rabs (rnd (p_X p) mode_NE (l + u)) < bpow radix2 (emax (p_X p)).
Proof.
  intros D E. apply Rabs_le_inv in D, E. pose proof (p_TX p) as [PX1 PX2]. rewrite EP in PX1. rewrite EE in PX2.
  assert (G : generic_format radix2 (fexpf (p_X p)) (bpow radix2 1023)).
  { apply format_TX. apply generic_format_bpow. unfold SpecFloat.fexp, SpecFloat.emin. rewrite EP, EE. lia. }
  assert (B : bpow radix2 1023 = 2 * bpow radix2 1022).
  { replace 1023%Z with (1 + 1022)%Z by lia. rewrite bpow_plus. reflexivity. }
  assert (L : bpow radix2 1023 < bpow radix2 (emax (p_X p))) by (apply bpow_lt; lia).
  apply Rabs_lt. split.
  - apply Rlt_le_trans with (- bpow radix2 1023); [lra|].
    rewrite <- (rnd_gen (p_X p) mode_NE (- bpow radix2 1023)); [apply rnd_le; lra|]. apply generic_format_opp; exact G.
  - apply Rle_lt_trans with (bpow radix2 1023); [|exact L].
    rewrite <- (rnd_gen (p_X p) mode_NE (bpow radix2 1023)) by exact G. apply rnd_le; lra.
Qed.
Lemma mid_box x l u : box x l u -> exists m, fv (midpt p (low x) (up x)) = Fin m /\ l <= m <= u /\
  (l < 5 -> -1 < u -> bpow radix2 (-34) < u - l -> l < m < u).
Proof.
  intros (E1 & E2 & C & D & E). apply fval_fin_iff in E1, E2. destruct E1 as [F1 E1], E2 as [F2 E2].
  pose proof (bigsum l u D E) as NO.
  destruct (midpt_inside p (low x) (up x)) as (F & I1 & EM); try assumption; rewrite ?E1, ?E2; auto.
  rewrite E1, E2 in *. set (m := B2R (midpt p (low x) (up x))) in *. exists m.
  split; [apply fval_fin_iff; auto|]. split; [exact I1|]. intros L5 U1 W.
  pose proof (p_TX p) as [PX1 PX2]. rewrite EP in PX1. rewrite EE in PX2.
  assert (ER : forall md, Rabs (rnd (p_T p) md ((l + u) / 2) - (l + u) / 2) < (u - l) / 2).
  { intros md. eapply Rle_lt_trans; [apply err_bound|]. rewrite EP, EE. unfold SpecFloat.emin.
    assert (A : Rabs ((l + u) / 2) <= 5 + (u - l) / 2) by (apply Rabs_le; lra).
    assert (B1 : bpow radix2 (1 - 53) = bpow radix2 (-34) * / 262144).
    { change (/ 262144) with (bpow radix2 (-18)). rewrite <- bpow_plus. reflexivity. }
    assert (B2 : bpow radix2 (3 - 1024 - 53) <= bpow radix2 (-34) * / 16).
    { change (/ 16) with (bpow radix2 (-4)). rewrite <- bpow_plus. apply bpow_le. lia. }
    assert (B3 : bpow radix2 (-34) <= / 16) by (change (/ 16) with (bpow radix2 (-4)); apply bpow_le; lia).
    pose proof (bpow_gt_0 radix2 (-34)) as B0. rewrite B1. pose proof (Rabs_pos ((l + u) / 2)). nra. }
  pose proof (ER mode_DN) as R1. pose proof (ER mode_UP) as R2. apply Rabs_lt_inv in R1, R2.
  set (f1 := rnd (p_T p) mode_DN ((l + u) / 2)) in *. set (f2 := rnd (p_T p) mode_UP ((l + u) / 2)) in *.
  assert (G1 : generic_format radix2 (fexpf (p_T p)) f1) by (apply generic_format_round; [apply valid_exp_n|apply valid_rnd_round_mode]).
  assert (G2 : generic_format radix2 (fexpf (p_T p)) f2) by (apply generic_format_round; [apply valid_exp_n|apply valid_rnd_round_mode]).
  assert (L1 : f1 <= (l + u) / 2) by (apply (round_DN_pt radix2 (fexpf (p_T p)))).
  assert (L2 : (l + u) / 2 <= f2) by (apply (round_UP_pt radix2 (fexpf (p_T p)))).
  assert (M1 : f1 <= m).
  { rewrite EM. rewrite <- (rnd_gen (p_T p) mode_NE f1 G1). apply rnd_le.
    rewrite <- (rnd_gen (p_X p) mode_NE f1) by (apply format_TX; exact G1). apply rnd_le.
    assert (2 * f1 <= rnd (p_X p) mode_NE (l + u)); [|lra].
    rewrite <- (rnd_gen (p_X p) mode_NE (2 * f1)) by (apply gen_double, format_TX; exact G1). apply rnd_le. lra. }
  assert (M2 : m <= f2).
  { rewrite EM. rewrite <- (rnd_gen (p_T p) mode_NE f2 G2). apply rnd_le.
    rewrite <- (rnd_gen (p_X p) mode_NE f2) by (apply format_TX; exact G2). apply rnd_le.
    assert (rnd (p_X p) mode_NE (l + u) <= 2 * f2); [|lra].
    rewrite <- (rnd_gen (p_X p) mode_NE (2 * f2)) by (apply gen_double, format_TX; exact G2). apply rnd_le. lra. }
  lra.
Qed.

(** ** Size of an interval: how many least positive numbers fit in it *)
Definition size (x : I) : nat :=
  Z.to_nat (Zfloor ((B2R (up x : flt (p_T p)) - B2R (low x : flt (p_T p))) * bpow radix2 (- SpecFloat.emin (prec (p_T p)) (emax (p_T p))))).
Lemma size_lt z x l u : box x l u -> V z -> sub z x ->
  ~ (fv (low z) = fv (low x) /\ fv (up z) = fv (up x)) -> (size z < size x)%nat.
Proof.
  intros Bx Hz K NE. destruct (box_sub z x l u Bx Hz K) as (a & b & Bz & La & Lb).
  destruct Bx as (E1 & E2 & C & _), Bz as (E1' & E2' & C' & _).
  assert (NE' : ~ (a = l /\ b = u)) by (intros [-> ->]; apply NE; split; congruence).
  apply fval_fin_iff in E1, E2, E1', E2'. destruct E1 as [_ E1], E2 as [_ E2], E1' as [_ E1'], E2' as [_ E2'].
  unfold size. set (B := bpow radix2 (- SpecFloat.emin (prec (p_T p)) (emax (p_T p)))).
  assert (B0 : 0 < B) by apply bpow_gt_0.
  assert (G : forall t : T N, exists z, B2R (t : flt (p_T p)) * B = IZR z) by (intros t; apply on_grid).
  destruct (G (low x)) as (zl & Gl), (G (up x)) as (zu & Gu), (G (low z)) as (za & Ga), (G (up z)) as (zb & Gb).
  rewrite E1 in Gl. rewrite E2 in Gu. rewrite E1' in Ga. rewrite E2' in Gb.
  rewrite E1, E2, E1', E2'. rewrite !Rmult_minus_distr_r, Gl, Gu, Ga, Gb, <- !minus_IZR, !Zfloor_IZR.
  assert (zl <= za)%Z by (apply le_IZR; rewrite <- Gl, <- Ga; nra).
  assert (zb <= zu)%Z by (apply le_IZR; rewrite <- Gb, <- Gu; nra).
  assert (za <= zb)%Z by (apply le_IZR; rewrite <- Ga, <- Gb; nra).
  assert (~ (za = zl /\ zb = zu)%Z).
  { intros [-> ->]. apply NE'. split; apply (Rmult_eq_reg_r B); try lra. }
  lia.
Qed.
Lemma size_lt_wd z x l u : box x l u -> V z -> sub z x -> xlt (fv (wd z)) (fv (wd x)) -> (size z < size x)%nat.
Proof.
  intros Bx Hz K L. eapply size_lt; eauto. intros [A B].
  rewrite (wd_same z x Hz (box_valid _ _ _ Bx) A B) in L. exact (xlt_irrefl _ L).
Qed.

(** ** What an iteration must do *)
Definition root_in (x : I) (r : R) : Prop := mem x r /\ quintic r = 0.
Definition good (x : I) (lr : list I * list I) : Prop :=
  Forall (fun z => V z /\ sub z x) (fst lr ++ snd lr) /\
  Forall (fun z => (size z < size x)%nat) (fst lr) /\ (length (fst lr) <= 2)%nat /\
  Forall (fun z => xlt (fv (wd z)) (Fin mw)) (snd lr) /\
  (forall r, root_in x r -> Exists (fun z => mem z r) (fst lr ++ snd lr)).

Lemma no_root (x v : I) r : V v -> (forall t, mem x t -> mem v (quintic t)) -> zero_in Q v = false -> ~ root_in x r.
Proof.
  intros Hv En Z [Hr E]. specialize (En r Hr). rewrite E in En. apply (zero_in_iff H v Hv) in En. congruence.
Qed.
Lemma lt_mw (x : I) : n_lt N (wd x) max_width = true <-> xlt (fv (wd x)) (Fin mw).
Proof. rewrite <- mw_val. apply (ns_lt _ _ (fnumspec p)). Qed.
Lemma nlt_mw (x : I) : V x -> n_lt N (wd x) max_width = false -> xle (Fin mw) (fv (wd x)).
Proof.
  intros Hx E. apply xnlt_le; [discriminate| |].
  - destruct (wd_ru x Hx) as [A _]. exact (xle_nnr _ _ A).
  - intros L. apply lt_mw in L. congruence.
Qed.

(** When the derivative's enclosure contains zero, x is not close to a root. *)
Definition not_close (x : I) : Prop := ~ (close x 0 \/ close x 1 \/ close x 2 \/ close x 3 \/ close x 4).
Lemma near_close x l u (h : I) i : box x l u -> sub h x -> near h i -> u - l <= bpow radix2 (-34) -> close x i.
Proof.
  intros Bx K (r & Hr & R1) W. apply K in Hr. apply (box_mem _ _ _ _ Bx) in Hr. destruct Bx as (E1 & E2 & _).
  assert (B8 : bpow radix2 (-8) = 1 / 256) by (change (bpow radix2 (-8)) with (/ 256); lra).
  assert (B34 : bpow radix2 (-34) <= 1 / 256) by (rewrite <- B8; apply bpow_le; lia).
  rewrite B8 in R1. split; unfold ge, le; rewrite ?E1, ?E2; cbn [xle]; lra.
Qed.
Lemma near_range (h : I) x l u : box x l u -> sub h x -> near_root h -> l < 5 /\ -1 < u.
Proof.
  assert (B8 : bpow radix2 (-8) = 1 / 256) by (change (bpow radix2 (-8)) with (/ 256); lra).
  intros Bx K N0. unfold near_root, near in N0. rewrite B8 in N0.
  destruct N0 as [(r & Hr & R1)|[(r & Hr & R1)|[(r & Hr & R1)|[(r & Hr & R1)|(r & Hr & R1)]]]];
    apply K, (box_mem _ _ _ _ Bx) in Hr; lra.
Qed.

(** ** The end of an iteration: lines 65-75 and 108-117 *)

(** The candidates x1 and (if any) x2 found for x. *)
Definition candidates (x x1 : I) (o : option I) : Prop :=
  V x1 /\
  ((sub x1 x /\
    (forall x2, o = Some x2 -> V x2 /\ sub x2 x /\ xle (fv (wd x2)) (fv (wd x1))) /\
    (forall r, root_in x r -> mem x1 r \/ exists x2, o = Some x2 /\ mem x2 r)) \/
   (fv (wd x1) = PInf /\ o = None /\ not_close x)).

Ltac all_of := repeat (apply Forall_cons; [now auto|]); apply Forall_nil.
Ltac goods := split; [|split; [|split; [|split]]]; cbn [fst snd app length]; [all_of|all_of|lia| |].
Lemma keep_rest_ok {A} (used : I -> A) (oo : A -> option I) (x x1 : I) (a : A) l u :
  (forall h, V h -> oo (used h) = Some h) ->
  box x l u -> candidates x x1 (oo a) ->
  exists lr, runs (let! d := newton_keep Q used x x1 a in newton_rest Q (fst d) (oo (snd d))) lr /\ good x lr.
Proof.
  intros OU Bx [H1 Cand]. pose proof (box_valid _ _ _ Bx) as Hx.
  destruct (wd_box x l u Bx) as (w & Ew & Lw).
  assert (BIG : xle (Fin mw) (fv (wd x)) -> bpow radix2 (-34) < u - l).
  { intros L. destruct (Rle_or_lt (u - l) (bpow radix2 (-34))) as [S|S]; [|exact S].
    pose proof (wd_small x l u Bx S) as T. exfalso. exact (xlt_irrefl _ (xle_lt_trans _ _ _ L T)). }
  unfold newton_keep.
  destruct (n_lt N (wd x1) max_width) eqn:E1.
  - (* x1 is kept *)
    apply lt_mw in E1. destruct Cand as [(S1 & C2 & Cov)|(P1 & _)]; [|rewrite P1 in E1; destruct E1].
    assert (KR : runs (let! w1 := width Q x1 in
        if n_lt N w1 max_width then ret (([], [x1]), a)
        else let! b := wider Q x1 x in
             if b then let! h := bisect Q x in let! v := nr_f Q (fst h) in
                       ret ((if zero_in Q v then [fst h] else [], []), used (snd h))
             else ret (([x1], []), a)) (([], [x1]), a)).
    { eapply runsI_bind; [apply width_runs; exact H1|]. apply lt_mw in E1. rewrite E1. apply runsI_ret. }
    destruct (oo a) as [x2|] eqn:Ea.
    + destruct (C2 x2 eq_refl) as (H2 & S2 & W2).
      destruct (nr_f_ok x2 H2) as (v & Rv & Vv & Env & _).
      destruct (zero_in Q v) eqn:EZ.
      * exists ([], [x1; x2]). split.
        -- eapply runsI_bind; [exact KR|]. cbn [fst snd]. rewrite Ea. unfold newton_rest.
           eapply runsI_bind; [exact Rv|]. rewrite EZ. eapply runsI_bind; [apply width_runs; exact H2|].
           assert (L2 : xlt (fv (wd x2)) (Fin mw)) by (eapply xle_lt_trans; eauto).
           apply lt_mw in L2. rewrite L2. apply runsI_ret.
        -- goods.
           { apply Forall_cons; [auto|]. apply Forall_cons; [eapply xle_lt_trans; eauto|]. apply Forall_nil. }
           intros r Hr. destruct (Cov r Hr) as [M|(y & [= <-] & M)]; [left|right; left]; exact M.
      * exists ([], [x1]). split.
        -- eapply runsI_bind; [exact KR|]. cbn [fst snd]. rewrite Ea. unfold newton_rest.
           eapply runsI_bind; [exact Rv|]. rewrite EZ. apply runsI_ret.
        -- goods.
           { all_of. }
           intros r Hr. destruct (Cov r Hr) as [M|(y & [= <-] & M)]; [left; exact M|].
           exfalso. apply (no_root x2 v r Vv Env EZ). split; [exact M|apply Hr].
    + exists ([], [x1]). split.
      * eapply runsI_bind; [exact KR|]. cbn [fst snd]. rewrite Ea. apply runsI_ret.
      * goods.
         { all_of. }
         intros r Hr. destruct (Cov r Hr) as [M|(y & [=] & M)]. left; exact M.
  - pose proof (nlt_mw x1 H1 E1) as G1.
    destruct (is_wider x1 x) eqn:EW.
    + (* x is bisected *)
      destruct (mid_box x l u Bx) as (m & Em & Im & Sm). set (mm := midpt p (low x) (up x) : T N) in *.
      pose (h1 := mk (low x) mm : I). pose (h2 := mk mm (up x) : I).
      assert (Mx : forall r, mem x r <-> l <= r <= u) by (intros r; apply (box_mem _ _ _ _ Bx)).
      destruct Bx as (El & Eu & C & Dl & Du).
      assert (M1 : forall r, mem h1 r <-> l <= r <= m).
      { intros r. unfold Spec.mem, h1. cbn [low up]. rewrite El, Em. cbn [xle]. tauto. }
      assert (M2 : forall r, mem h2 r <-> m <= r <= u).
      { intros r. unfold Spec.mem, h2. cbn [low up]. rewrite Eu, Em. cbn [xle]. tauto. }
      assert (Vh1 : V h1) by (apply (mem_valid _ _ l), M1; lra).
      assert (Vh2 : V h2) by (apply (mem_valid _ _ u), M2; lra).
      assert (S1 : sub h1 x) by (intros r Hr; apply M1 in Hr; apply Mx; lra).
      assert (S2 : sub h2 x) by (intros r Hr; apply M2 in Hr; apply Mx; lra).
      assert (Bx : box x l u) by (repeat split; auto).
      assert (STR : forall h, sub h x -> near_root h -> l < m < u).
      { intros h Sh Nh. destruct (near_range h x l u Bx Sh Nh) as [L5 U1]. apply Sm; auto.
        destruct Cand as [(S & _)|(_ & _ & NC)].
        - apply BIG. eapply xle_trans; [exact G1|]. apply wd_mono; auto.
        - destruct (Rle_or_lt (u - l) (bpow radix2 (-34))) as [T|T]; [|exact T]. exfalso. apply NC.
          destruct Nh as [K|[K|[K|[K|K]]]]; [left|right; left|right; right; left|right; right; right; left|right; right; right; right];
            eapply near_close; eauto. }
      destruct (nr_f_ok h1 Vh1) as (v1 & R1 & Vv1 & En1 & Nr1).
      destruct (nr_f_ok h2 Vh2) as (v2 & R2 & Vv2 & En2 & Nr2).
      assert (KR : runs (let! w1 := width Q x1 in
        if n_lt N w1 max_width then ret (([], [x1]), a)
        else let! b := wider Q x1 x in
             if b then let! h := bisect Q x in let! v := nr_f Q (fst h) in
                       ret ((if zero_in Q v then [fst h] else [], []), used (snd h))
             else ret (([x1], []), a)) ((if zero_in Q v1 then [h1] else [], []), used h2)).
      { eapply runsI_bind; [apply width_runs; exact H1|]. rewrite E1.
        eapply runsI_bind; [apply wider_runs; [exact H1|exact Hx]|]. rewrite EW.
        eapply runsI_bind; [apply runsP_I, bisect_runs; exact (proj1 Hx)|]. cbn [fst snd].
        eapply runsI_bind; [exact R1|]. apply runsI_ret. }
      assert (P1 : Forall (fun z => (V z /\ sub z x) /\ (size z < size x)%nat) (if zero_in Q v1 then [h1] else [])).
      { destruct (zero_in Q v1) eqn:EZ1; [|apply Forall_nil]. apply Forall_cons; [|apply Forall_nil]. split; [auto|].
        apply (zero_in_iff H v1 Vv1) in EZ1. pose proof (STR h1 S1 (Nr1 EZ1)) as ST.
        eapply size_lt; eauto. intros [_ K]. unfold h1 in K. cbn [up] in K. rewrite Em, Eu in K. injection K. lra. }
      assert (L1 : (length (if zero_in Q v1 then [h1] else []) <= 1)%nat) by (destruct (zero_in Q v1); simpl; lia).
      assert (C1 : forall r, root_in h1 r -> Exists (fun z => mem z r) (if zero_in Q v1 then [h1] else [])).
      { intros r Hr. destruct (zero_in Q v1) eqn:EZ1; [left; apply Hr|]. exfalso. exact (no_root h1 v1 r Vv1 En1 EZ1 Hr). }
      set (p1 := if zero_in Q v1 then [h1] else []) in *.
      assert (CV : forall r, root_in x r -> root_in h1 r \/ root_in h2 r).
      { intros r [Hr E]. apply Mx in Hr. destruct (Rle_or_lt r m); [left|right]; (split; [|exact E]); [apply M1|apply M2]; lra. }
      destruct (zero_in Q v2) eqn:EZ2.
      * assert (ST : l < m < u) by (apply (STR h2 S2), Nr2, (zero_in_iff H v2 Vv2); exact EZ2).
        destruct (n_lt N (wd h2) max_width) eqn:E2.
        -- exists (p1, [h2]). split.
           ++ eapply runsI_bind; [exact KR|]. cbn [fst snd]. rewrite (OU h2 Vh2). unfold newton_rest.
              eapply runsI_bind; [exact R2|]. rewrite EZ2. eapply runsI_bind; [apply width_runs; exact Vh2|]. rewrite E2.
              apply runsI_ret.
           ++ split; [|split; [|split; [|split]]]; cbn [fst snd].
              ** apply Forall_app. split; [eapply Forall_impl; [|exact P1]; intros z [Z _]; exact Z|].
                 apply Forall_cons; [auto|apply Forall_nil].
              ** eapply Forall_impl; [|exact P1]; intros z [_ Z]; exact Z.
              ** lia.
              ** apply Forall_cons; [apply lt_mw; exact E2|apply Forall_nil].
              ** intros r Hr. apply Exists_app. destruct (CV r Hr) as [K|K]; [left; apply C1; exact K|right; left; apply K].
        -- exists (p1 ++ [h2], []). split.
           ++ eapply runsI_bind; [exact KR|]. cbn [fst snd]. rewrite (OU h2 Vh2). unfold newton_rest.
              eapply runsI_bind; [exact R2|]. rewrite EZ2. eapply runsI_bind; [apply width_runs; exact Vh2|]. rewrite E2.
              apply runsI_ret.
           ++ assert (P2 : (size h2 < size x)%nat).
              { eapply size_lt; eauto. intros [K _]. unfold h2 in K. cbn [low] in K. rewrite Em, El in K. injection K. lra. }
              split; [|split; [|split; [|split]]]; cbn [fst snd]; rewrite ?app_nil_r.
              ** apply Forall_app. split; [eapply Forall_impl; [|exact P1]; intros z [Z _]; exact Z|].
                 apply Forall_cons; [auto|apply Forall_nil].
              ** apply Forall_app. split; [eapply Forall_impl; [|exact P1]; intros z [_ Z]; exact Z|].
                 apply Forall_cons; [auto|apply Forall_nil].
              ** rewrite app_length. simpl. lia.
              ** apply Forall_nil.
              ** intros r Hr. apply Exists_app. destruct (CV r Hr) as [K|K]; [left; apply C1; exact K|right; left; apply K].
      * exists (p1, []). split.
        -- eapply runsI_bind; [exact KR|]. cbn [fst snd]. rewrite (OU h2 Vh2). unfold newton_rest.
           eapply runsI_bind; [exact R2|]. rewrite EZ2. apply runsI_ret.
        -- split; [|split; [|split; [|split]]]; cbn [fst snd]; rewrite ?app_nil_r.
           ++ eapply Forall_impl; [|exact P1]; intros z [Z _]; exact Z.
           ++ eapply Forall_impl; [|exact P1]; intros z [_ Z]; exact Z.
           ++ lia.
           ++ apply Forall_nil.
           ++ intros r Hr. destruct (CV r Hr) as [K|K]; [apply C1; exact K|]. exfalso. exact (no_root h2 v2 r Vv2 En2 EZ2 K).
    + (* x1 is pushed back *)
      destruct Cand as [(S1 & C2 & Cov)|(P1 & _)].
      2:{ exfalso. unfold is_wider in EW.
          destruct (wd_ru x1 H1) as [_ _].
          assert (NN : xlt (fval (fmul RUP (ld alpha) (ld (wd x)) : flt (p_X p))) PInf).
          { assert (EA : fval (ld alpha : flt (p_X p)) = Fin (3 / 4)).
            { rewrite fval_ld, alpha_val. f_equal; change (bpow radix2 (-2)) with (/ 4); lra. }
            assert (EWx : fval (ld (wd x) : flt (p_X p)) = Fin w) by (rewrite fval_ld; exact Ew).
            destruct Bx as (_ & _ & C & _).
            assert (K : xmul (fval (ld alpha : flt (p_X p))) (fval (ld (wd x) : flt (p_X p))) <> NaN) by (rewrite EA, EWx; discriminate).
            apply (fmul_dr Up) in K. rewrite EA, EWx in K. destruct K as [K0 K]. specialize (K (ld (wd x))).
            rewrite EWx in K. cbn [xmul xle dmode] in K, K0. specialize (K ltac:(lra)).
            destruct (fval (fmul RUP (ld alpha) (ld (wd x)) : flt (p_X p))); cbn [xle xlt] in *; tauto. }
          rewrite <- P1, <- (fval_ld p (wd x1)) in NN. apply Bltb_fval in NN. congruence. }
      assert (Gx : xle (Fin mw) (fv (wd x))) by (eapply xle_trans; [exact G1|apply wd_mono; auto]).
      assert (Lw' : bpow radix2 (-35) <= w).
      { pose proof (BIG Gx). assert (bpow radix2 (-35) <= bpow radix2 (-34)) by (apply bpow_le; lia). lra. }
      pose proof (not_wider x1 x w Ew Lw' H1 EW) as LT.
      assert (KR : runs (let! w1 := width Q x1 in
        if n_lt N w1 max_width then ret (([], [x1]), a)
        else let! b := wider Q x1 x in
             if b then let! h := bisect Q x in let! v := nr_f Q (fst h) in
                       ret ((if zero_in Q v then [fst h] else [], []), used (snd h))
             else ret (([x1], []), a)) (([x1], []), a)).
      { eapply runsI_bind; [apply width_runs; exact H1|]. rewrite E1.
        eapply runsI_bind; [apply wider_runs; [exact H1|exact Hx]|]. rewrite EW. apply runsI_ret. }
      pose proof (size_lt_wd x1 x l u Bx H1 S1 LT) as SZ1.
      destruct (oo a) as [x2|] eqn:Ea.
      * destruct (C2 x2 eq_refl) as (H2 & S2 & W2).
        assert (LT2 : xlt (fv (wd x2)) (fv (wd x))) by (eapply xle_lt_trans; eauto).
        pose proof (size_lt_wd x2 x l u Bx H2 S2 LT2) as SZ2.
        destruct (nr_f_ok x2 H2) as (v & Rv & Vv & Env & _).
        destruct (zero_in Q v) eqn:EZ; [destruct (n_lt N (wd x2) max_width) eqn:E2|].
        -- exists ([x1], [x2]). split.
           ++ eapply runsI_bind; [exact KR|]. cbn [fst snd]. rewrite Ea. unfold newton_rest.
              eapply runsI_bind; [exact Rv|]. rewrite EZ. eapply runsI_bind; [apply width_runs; exact H2|]. rewrite E2. apply runsI_ret.
           ++ goods.
              { apply Forall_cons; [apply lt_mw; exact E2|]. apply Forall_nil. }
              intros r Hr. destruct (Cov r Hr) as [M|(y & [= <-] & M)]; [left|right; left]; exact M.
        -- exists ([x1; x2], []). split.
           ++ eapply runsI_bind; [exact KR|]. cbn [fst snd]. rewrite Ea. unfold newton_rest.
              eapply runsI_bind; [exact Rv|]. rewrite EZ. eapply runsI_bind; [apply width_runs; exact H2|]. rewrite E2. apply runsI_ret.
           ++ goods.
              { all_of. }
              intros r Hr. destruct (Cov r Hr) as [M|(y & [= <-] & M)]; [left|right; left]; exact M.
        -- exists ([x1], []). split.
           ++ eapply runsI_bind; [exact KR|]. cbn [fst snd]. rewrite Ea. unfold newton_rest.
              eapply runsI_bind; [exact Rv|]. rewrite EZ. apply runsI_ret.
           ++ goods.
              { all_of. }
              intros r Hr. destruct (Cov r Hr) as [M|(y & [= <-] & M)]; [left; exact M|].
              exfalso. apply (no_root x2 v r Vv Env EZ). split; [exact M|apply Hr].
      * exists ([x1], []). split.
        -- eapply runsI_bind; [exact KR|]. cbn [fst snd]. rewrite Ea. apply runsI_ret.
        -- goods.
           { all_of. }
           intros r Hr. destruct (Cov r Hr) as [M|(y & [=] & M)]. left; exact M.
Qed.

(** ** The Newton step proper: lines 43-52 and 92-101 *)
Lemma part1_true (x y z : I) : V x -> V y -> runs (division_part1 Q x y) (z, true) ->
  mem y 0 /\ fv (low y) <> Fin 0 /\ fv (up y) <> Fin 0.
Proof.
  intros Hx Hy K. specialize (K RUP (ready_up k RUP eq_refl)). destruct K as (s & _ & K).
  unfold division_part1 in K. rewrite (test_valid2 H) in K by auto.
  assert (NB : forall m : M I, (let! z := m in ret (z, false)) RUP <> (Ok (z, true), s)).
  { intros m. unfold bind, ret. destruct (m RUP) as [[]]; congruence. }
  destruct (zero_in Q y) eqn:EZ; [|exfalso; exact (NB _ K)]. apply (zero_in_iff H) in EZ; auto. split; [exact EZ|].
  destruct (is_zero_case H (low y)) as [[E A]|[E A]]; rewrite E in K;
  destruct (is_zero_case H (up y)) as [[E' B]|[E' B]]; rewrite E' in K; simpl negb in K; cbv iota in K;
    try (exfalso; exact (NB _ K)). split; auto.
Qed.
Lemma unbounded_up (z : I) : V z -> (forall b, exists r, b < r /\ mem z r) -> fv (up z) = PInf.
Proof.
  intros (A & B & C) K. destruct (fv (up z)) as [| |u|] eqn:E; auto.
  - exfalso. destruct (K 0) as (r & _ & _ & M). rewrite E in M. exact M.
  - exfalso. destruct (K 0) as (r & _ & _ & M). rewrite E in M. exact M.
  - exfalso. destruct (K u) as (r & L & _ & M). rewrite E in M. simpl in M. lra.
Qed.
Lemma unbounded_low (z : I) : V z -> (forall b, exists r, r < b /\ mem z r) -> fv (low z) = NInf.
Proof.
  intros (A & B & C) K. destruct (fv (low z)) as [| |u|] eqn:E; auto.
  - exfalso. destruct (K 0) as (r & _ & M & _). rewrite E in M. exact M.
  - exfalso. destruct (K u) as (r & L & M & _). rewrite E in M. simpl in M. lra.
  - exfalso. destruct (K 0) as (r & _ & M & _). rewrite E in M. exact M.
Qed.
Lemma wd_inf (z : I) : V z -> fv (low z) = NInf -> fv (wd z) = PInf.
Proof.
  intros Hz E. destruct (wd_ru z Hz) as [A _]. destruct Hz as (B & C & D). rewrite E in *.
  unfold xsub in A. destruct (fv (up z)) as [| |u|]; cbn [xopp xadd xle] in *; try tauto;
    destruct (fv (wd z)); cbn [xle] in A; tauto.
Qed.
Lemma float_nz (t : T N) m : fv t = Fin m -> quintic' m <> 0.
Proof.
  intros E. apply fval_fin_iff in E. destruct E as [_ <-].
  pose proof (generic_format_B2R _ _ (t : flt (p_T p))) as G. unfold generic_format in G. rewrite G.
  unfold F2R. apply quintic'_nz.
Qed.

Definition step_parts (x : I) (xx : T N) (vf vd : I) : Prop :=
  exists z1 b y1, runs (division_part1 Q vf vd) (z1, b) /\ runs (op_sub_ni Q xx z1) y1 /\ V y1 /\
    if b : bool then
      exists z2 y2, runs (division_part2 Q vf vd true) z2 /\ runs (op_sub_ni Q xx z2) y2 /\ V y2 /\
        fv (wd y2) = PInf /\ not_close x /\ (forall r, root_in x r -> mem y1 r \/ mem y2 r)
    else forall r, root_in x r -> mem y1 r.

Lemma cut_ok x l u : box x l u -> exists xx vf vd,
  runs (median Q x) xx /\ runs (let! i := ctor_num Q xx in nr_f Q i) vf /\ V vf /\
  runs (nr_f_diff Q x) vd /\ V vd /\
  (zero_in Q vf && zero_in Q vd = false -> step_parts x xx vf vd).
Proof.
  intros Bx. pose proof (box_valid _ _ _ Bx) as Hx.
  destruct (mid_box x l u Bx) as (m & Em & Im & _). set (xx := midpt p (low x) (up x) : T N) in *.
  assert (Vm : V (mk xx xx)) by (eapply valid_point; eauto).
  destruct (nr_f_ok (mk xx xx) Vm) as (vf & Rf & Vf & Enf & _).
  destruct (nr_f_diff_ok x Hx) as (vd & Rd & Vd & End' & Cl).
  exists xx, vf, vd. split; [apply runsP_I, median_runs; exact (proj1 Hx)|].
  assert (RF : runs (let! i := ctor_num Q xx in nr_f Q i) vf).
  { eapply runsI_bind; [apply pure_runsI; apply (ctor_num_pure H Q xx eq_refl); rewrite Em; discriminate|exact Rf]. }
  split; [exact RF|]. split; [exact Vf|]. split; [exact Rd|]. split; [exact Vd|]. intros Z.
  assert (Mf : mem vf (quintic m)) by (apply Enf; unfold Spec.mem; cbn [low up]; rewrite Em; cbn [xle]; lra).
  assert (Mx : forall r, mem x r <-> l <= r <= u) by (intros r; apply (box_mem _ _ _ _ Bx)).
  assert (Md : mem vd (quintic' m)) by (apply End', Mx; exact Im).
  pose proof (float_nz xx m Em) as NZ.
  assert (ND : ~ (fv (low vd) = Fin 0 /\ fv (up vd) = Fin 0)).
  { intros [A B]. destruct Md as [K1 K2]. rewrite A in K1. rewrite B in K2. simpl in K1, K2. lra. }
  assert (ZZ : ~ (mem vf 0 /\ mem vd 0)).
  { intros [A B]. apply (zero_in_iff H vf Vf) in A. apply (zero_in_iff H vd Vd) in B. rewrite A, B in Z. discriminate. }
  assert (QT : forall r, root_in x r -> quotients (mem vf) (mem vd) (m - r)).
  { intros r [Hr E]. destruct (Req_dec r m) as [->|NE].
    - exists (quintic m), (quintic' m). repeat split; auto; try apply Mf; try apply Md. rewrite E. field. exact NZ.
    - destruct (quintic_mvt m r) as (t & It & Et); [congruence|].
      assert (Mt : mem vd (quintic' t)).
      { apply End', Mx. apply Mx in Hr. unfold Rmin, Rmax in It. destruct (Rle_dec m r); lra. }
      rewrite E in Et. 
      assert (NT : quintic' t <> 0).
      { intros T0. rewrite T0 in *. apply ZZ. split; [|exact Mt]. replace 0 with (quintic m) by lra. exact Mf. }
      exists (quintic m), (quintic' t). repeat split; auto; try apply Mf; try apply Mt. 
      replace (quintic m) with (quintic' t * (m - r)) by lra. field. exact NT. }
  assert (QN : quotients (mem vf) (mem vd) (quintic m / quintic' m)).
  { exists (quintic m), (quintic' m). repeat split; auto; try apply Mf; try apply Md. }
  destruct (division_part1_ok H vf vd Vf Vd ND (fun _ => eq_refl)) as ([z1 b] & R1 & T). cbn [fst snd] in T.
  apply runsP_I in R1. destruct b.
  - destruct T as (z2 & R2 & T1 & T2). destruct (part1_true vf vd z1 Vf Vd R1) as (Z0 & Zl & Zu).
    destruct (mem_near_both vd Vd Z0 Zl Zu) as (d & Dp & Dm).
    assert (V0 : quintic m <> 0) by (intros K; apply ZZ; split; auto; rewrite <- K; exact Mf).
    set (v := quintic m) in *. pose proof (Rabs_pos_lt v V0) as Av.
    assert (BIGQ : forall w : R, (forall e, e = 1 \/ e = -1 -> quotients (mem vf) (mem vd) (e * (Rabs v / d + Rabs w + 1)))).
    { intros w e He. pose proof (Rabs_pos w) as Aw. pose proof (Rdiv_lt_0_compat _ _ Av Dp) as Avd.
      set (q := Rabs v / d + Rabs w + 1) in *. assert (Qp : 0 < q) by (unfold q; lra).
      assert (Eq0 : e * q <> 0) by (destruct He; subst; lra).
      exists v, (v / (e * q)). split; [exact Mf|]. split; [|split].
      - apply Dm. apply Rabs_le_inv. unfold Rdiv. rewrite Rabs_mult, Rabs_inv, Rabs_mult, (Rabs_pos_eq q) by lra.
        replace (Rabs e) with 1 by (destruct He; subst; rewrite ?Rabs_Ropp, ?Rabs_R1; auto; unfold Rabs; destruct Rcase_abs; lra).
        rewrite Rmult_1_l. apply (Rmult_le_reg_r q); [exact Qp|]. rewrite Rmult_assoc, Rinv_l, Rmult_1_r by lra.
        unfold q. apply (Rmult_le_reg_r (/ d)); [apply Rinv_0_lt_compat; exact Dp|]. 
        replace (d * (Rabs v / d + Rabs w + 1) * / d) with (Rabs v / d + Rabs w + 1) by (field; lra). unfold Rdiv in *. lra.
      - apply Rmult_integral_contrapositive. split; [exact V0|]. apply Rinv_neq_0_compat. exact Eq0.
      - field. repeat split; try exact V0; destruct He; subst; lra. }
    assert (E1 : mem z1 (-1 * (Rabs v / d + Rabs 0 + 1))).
    { apply (proj1 T1). split; [apply BIGQ; auto|]. pose proof (Rdiv_lt_0_compat _ _ Av Dp). pose proof (Rabs_pos 0). lra. }
    assert (Vz1 : V z1) by (eapply mem_valid; exact E1).
    assert (E2 : forall w, mem z2 (Rabs v / d + Rabs w + 1)).
    { intros w. apply (proj1 T2). split; [replace (Rabs v / d + Rabs w + 1) with (1 * (Rabs v / d + Rabs w + 1)) by ring; apply BIGQ; auto|].
      pose proof (Rdiv_lt_0_compat _ _ Av Dp). pose proof (Rabs_pos w). lra. }
    assert (Vz2 : V z2) by (eapply mem_valid; exact (E2 0)).
    destruct (op_sub_ni_ok H xx m z1 Em Vz1) as (y1 & S1 & [Y1 _]).
    destruct (op_sub_ni_ok H xx m z2 Em Vz2) as (y2 & S2 & [Y2 _]).
    assert (Vy1 : V y1) by (eapply mem_valid; apply Y1; exists (-1 * (Rabs v / d + Rabs 0 + 1)); split; [exact E1|reflexivity]).
    assert (Vy2 : V y2) by (eapply mem_valid; apply Y2; exists (Rabs v / d + Rabs 0 + 1); split; [exact (E2 0)|reflexivity]).
    exists z1, true, y1. split; [exact R1|]. split; [apply runsP_I; exact S1|]. split; [exact Vy1|].
    exists z2, y2. split; [apply runsP_I; exact R2|]. split; [apply runsP_I; exact S2|]. split; [exact Vy2|]. split; [|split].
    + apply wd_inf; [exact Vy2|]. apply unbounded_low; [exact Vy2|]. intros w.
      exists (m - (Rabs v / d + Rabs (m - w) + 1)). split.
      * pose proof (Rle_abs (m - w)). pose proof (Rdiv_lt_0_compat _ _ Av Dp). lra.
      * apply Y2. eexists. split; [apply E2|reflexivity].
    + intros K. exact (Cl K Z0).
    + intros r Hr. pose proof (QT r Hr) as K. destruct (Rle_or_lt (m - r) 0) as [L|L].
      * left. replace r with (m - (m - r)) by ring. apply Y1. exists (m - r). split; [|reflexivity]. apply (proj1 T1). split; auto.
      * right. replace r with (m - (m - r)) by ring. apply Y2. exists (m - r). split; [|reflexivity]. apply (proj1 T2). split; [auto|lra].
  - destruct T as (T & _).
    assert (Vz1 : V z1) by (eapply mem_valid; apply T; exact QN).
    destruct (op_sub_ni_ok H xx m z1 Em Vz1) as (y1 & S1 & [Y1 _]).
    assert (Vy1 : V y1) by (eapply mem_valid; apply Y1; eexists; split; [apply T; exact QN|reflexivity]).
    exists z1, false, y1. split; [exact R1|]. split; [apply runsP_I; exact S1|]. split; [exact Vy1|].
    intros r Hr. replace r with (m - (m - r)) by ring. apply Y1. exists (m - r). split; [|reflexivity]. apply T, QT. exact Hr.
Qed.

(** ** One iteration of the first method *)
Definition covers (x x1 : I) (o : option I) : Prop :=
  forall r, root_in x r -> mem x1 r \/ exists x2, o = Some x2 /\ mem x2 r.

Lemma cut1_ok x l u : box x l u -> exists x1 o, runs (newton1_cut Q x) (x1, o) /\ V x1 /\ covers x x1 o /\
  (forall x2, o = Some x2 -> V x2 /\ fv (wd x2) = PInf /\ not_close x).
Proof.
  intros Bx. destruct (cut_ok x l u Bx) as (xx & vf & vd & Rm & Rf & Vf & Rd & Vd & K). unfold newton1_cut.
  destruct (zero_in Q vf && zero_in Q vd) eqn:Z.
  - destruct (i_whole_runs H eq_refl) as (w & Rw & El & Eu). exists w, None. split; [|split; [|split]].
    + eapply runsI_bind; [exact Rm|]. eapply runsI_bind; [exact Rf|]. eapply runsI_bind; [exact Rd|]. rewrite Z.
      eapply runsI_bind; [apply pure_runsI; exact Rw|]. apply runsI_ret.
    + apply (mem_valid _ _ 0). split; rewrite ?El, ?Eu; exact Logic.I.
    + intros r Hr. left. split; rewrite ?El, ?Eu; exact Logic.I.
    + intros x2 [=].
  - destruct (K eq_refl) as (z1 & b & y1 & R1 & S1 & V1 & T). destruct b.
    + destruct T as (z2 & y2 & R2 & S2 & V2 & W2 & NC & C). exists y1, (Some y2). split; [|split; [exact V1|split]].
      * eapply runsI_bind; [exact Rm|]. eapply runsI_bind; [exact Rf|]. eapply runsI_bind; [exact Rd|]. rewrite Z.
        eapply runsI_bind; [exact R1|]. cbn [fst snd]. eapply runsI_bind; [exact S1|].
        eapply runsI_bind; [exact R2|]. eapply runsI_bind; [exact S2|]. apply runsI_ret.
      * intros r Hr. destruct (C r Hr); eauto.
      * intros x2 [= <-]. auto.
    + exists y1, None. split; [|split; [exact V1|split]].
      * eapply runsI_bind; [exact Rm|]. eapply runsI_bind; [exact Rf|]. eapply runsI_bind; [exact Rd|]. rewrite Z.
        eapply runsI_bind; [exact R1|]. cbn [fst snd]. eapply runsI_bind; [exact S1|]. apply runsI_ret.
      * intros r Hr. left. exact (T r Hr).
      * intros x2 [=].
Qed.

Definition clipped (x : I) (c : option (I * option I)) : Prop :=
  match c with
  | None => forall r, ~ root_in x r
  | Some (x1, o) => V x1 /\ covers x x1 o /\
      ((sub x1 x /\ forall x2, o = Some x2 -> V x2 /\ sub x2 x) \/ (fv (wd x1) = PInf /\ o = None /\ not_close x))
  end.
Lemma overlap_runs (x y : I) : V x -> V y -> overlap Q y x = true ->
  exists z, runs (intersect Q x y) z /\ V z /\ sub z x /\ forall r, mem x r -> mem y r -> mem z r.
Proof.
  intros Hx Hy O. apply (overlap_ok H y x Hy Hx) in O. destruct O as (r & A & B).
  destruct (intersect_ok H x y Hx Hy) as (z & R & D); [eauto|]. exists z. split; [apply runsP_I; exact R|].
  split; [apply (mem_valid _ _ r), D; auto|]. split; intros t; [intros K|intros K1 K2]; apply D; auto.
Qed.
Lemma overlap_no (x y : I) r : V x -> V y -> overlap Q y x = false -> mem x r -> ~ mem y r.
Proof.
  intros Hx Hy O A B. assert (K : overlap Q y x = true) by (apply (overlap_ok H y x Hy Hx); eauto). congruence.
Qed.
Lemma clip1_ok x x1 o : V x -> V x1 -> covers x x1 o ->
  (forall x2, o = Some x2 -> V x2 /\ fv (wd x2) = PInf /\ not_close x) ->
  exists c, runs (newton1_clip Q x (x1, o)) c /\ clipped x c.
Proof.
  intros Hx H1 C H2. unfold newton1_clip. destruct (overlap Q x1 x) eqn:O1.
  - destruct (overlap_runs x x1 Hx H1 O1) as (y1 & R1 & V1 & S1 & I1). destruct o as [x2|].
    + destruct (H2 x2 eq_refl) as (V2 & _). destruct (overlap Q x2 x) eqn:O2.
      * destruct (overlap_runs x x2 Hx V2 O2) as (y2 & R2 & Vy2 & S2 & I2). exists (Some (y1, Some y2)). split.
        { eapply runsI_bind; [exact R1|]. eapply runsI_bind; [exact R2|]. apply runsI_ret. }
        split; [exact V1|]. split.
        -- intros r Hr. pose proof (proj1 Hr) as Hx'. destruct (C r Hr) as [K|(y & [= <-] & K)]; [left; auto|right; eauto].
        -- left. split; [exact S1|]. intros y [= <-]. auto.
      * exists (Some (y1, None)). split.
        { eapply runsI_bind; [exact R1|]. apply runsI_ret. }
        split; [exact V1|]. split; [|left; split; [exact S1|intros y [=]]].
        intros r Hr. pose proof (proj1 Hr) as Hx'. destruct (C r Hr) as [K|(y & [= <-] & K)]; [left; auto|].
        exfalso. exact (overlap_no x x2 r Hx V2 O2 Hx' K).
    + exists (Some (y1, None)). split.
      { eapply runsI_bind; [exact R1|]. apply runsI_ret. }
      split; [exact V1|]. split; [|left; split; [exact S1|intros y [=]]].
      intros r Hr. pose proof (proj1 Hr) as Hx'. destruct (C r Hr) as [K|(y & [=] & K)]. left; auto.
  - destruct o as [x2|].
    + destruct (H2 x2 eq_refl) as (V2 & W2 & NC). exists (Some (x2, None)). split; [apply runsI_ret|].
      split; [exact V2|]. split; [|right; auto].
      intros r Hr. pose proof (proj1 Hr) as Hx'. destruct (C r Hr) as [K|(y & [= <-] & K)]; [|left; exact K].
      exfalso. exact (overlap_no x x1 r Hx H1 O1 Hx' K).
    + exists None. split; [apply runsI_ret|]. intros r Hr. pose proof (proj1 Hr) as Hx'.
      destruct (C r Hr) as [K|(y & [=] & K)]. exact (overlap_no x x1 r Hx H1 O1 Hx' K).
Qed.

Definition sorted (x : I) (c : option (I * option I)) : Prop :=
  match c with None => forall r, ~ root_in x r | Some (x1, o) => candidates x x1 o end.
Lemma wd_nn (x : I) : V x -> fv (wd x) <> NaN.
Proof. intros Hx. destruct (wd_ru x Hx) as [A _]. exact (xle_nnr _ _ A). Qed.
Lemma gt_wd (a b : T N) : n_gt a b = true <-> xlt (fv b) (fv a).
Proof. apply (ns_lt _ _ (fnumspec p)). Qed.
Lemma ngt_wd (a b : T N) : fv a <> NaN -> fv b <> NaN -> n_gt a b = false -> xle (fv a) (fv b).
Proof. intros A B E. apply xnlt_le; auto. intros L. apply gt_wd in L. congruence. Qed.

Lemma sort1_ok x x1 o : clipped x (Some (x1, o)) -> exists c, runs (newton1_sort Q (x1, o)) c /\ sorted x c.
Proof.
  intros (V1 & C & Alt).
  assert (SW : exists a b, runs (match o with
            | None => ret (x1, None)
            | Some x2 =>
                let! w := args2 (p_ord Q (H_user, 60%Z)) (width Q x2) (width Q x1) in
                if n_gt (fst w) (snd w) then ret (x2, Some x1) else ret (x1, Some x2)
            end) (a, b) /\ candidates x a b /\ covers x a b).
  { destruct o as [x2|].
    - destruct Alt as [(S1 & H2)|(_ & [=] & _)]. destruct (H2 x2 eq_refl) as (V2 & S2).
      assert (RW : runs (args2 (p_ord Q (H_user, 60%Z)) (width Q x2) (width Q x1)) (wd x2, wd x1)).
      { apply runsI_args2; apply width_runs; auto. }
      destruct (n_gt (wd x2) (wd x1)) eqn:G.
      + exists x2, (Some x1). split; [|split].
        * eapply runsI_bind; [exact RW|]. cbn [fst snd]. rewrite G. apply runsI_ret.
        * split; [exact V2|]. left. split; [exact S2|]. split.
          -- intros y [= <-]. split; [exact V1|]. split; [exact S1|]. apply xlt_xle, gt_wd. exact G.
          -- intros r Hr. destruct (C r Hr) as [K|(y & [= <-] & K)]; eauto.
        * intros r Hr. destruct (C r Hr) as [K|(y & [= <-] & K)]; eauto.
      + exists x1, (Some x2). split; [|split].
        * eapply runsI_bind; [exact RW|]. cbn [fst snd]. rewrite G. apply runsI_ret.
        * split; [exact V1|]. left. split; [exact S1|]. split; [|exact C].
          intros y [= <-]. split; [exact V2|]. split; [exact S2|]. apply ngt_wd; auto using wd_nn.
        * exact C.
    - exists x1, None. split; [apply runsI_ret|]. split; [|exact C]. split; [exact V1|].
      destruct Alt as [(S1 & H2)|R]; [left|right; exact R]. split; [exact S1|]. split; [intros y [=]|exact C]. }
  destruct SW as (a & b & RS & Cd & Cv). unfold newton1_sort.
  destruct (nr_f_ok a (proj1 Cd)) as (v & Rv & Vv & Env & _).
  destruct (zero_in Q v) eqn:EZ.
  - exists (Some (a, b)). split; [|exact Cd]. eapply runsI_bind; [exact RS|]. eapply runsI_bind; [exact Rv|]. rewrite EZ. apply runsI_ret.
  - assert (NR : forall r, root_in x r -> exists x2, b = Some x2 /\ mem x2 r).
    { intros r Hr. destruct (Cv r Hr) as [K|K]; [|exact K]. exfalso. apply (no_root a v r Vv Env EZ). split; [exact K|apply Hr]. }
    destruct b as [b|].
    + exists (Some (b, None)). split.
      * eapply runsI_bind; [exact RS|]. eapply runsI_bind; [exact Rv|]. rewrite EZ. apply runsI_ret.
      * destruct Cd as [_ [(_ & Cd & _)|(_ & [=] & _)]]. destruct (Cd b eq_refl) as (Vb & Sb & _). split; [exact Vb|]. left.
        split; [exact Sb|]. split; [intros y [=]|]. intros r Hr. destruct (NR r Hr) as (y & [= <-] & M). left; exact M.
    + exists None. split.
      * eapply runsI_bind; [exact RS|]. eapply runsI_bind; [exact Rv|]. rewrite EZ. apply runsI_ret.
      * intros r Hr. destruct (NR r Hr) as (y & [=] & _).
Qed.
Lemma good_nil x : (forall r, ~ root_in x r) -> good x ([], []).
Proof.
  intros K. split; [apply Forall_nil|]. split; [apply Forall_nil|]. split; [simpl; lia|]. split; [apply Forall_nil|].
  intros r Hr. exfalso. exact (K r Hr).
Qed.
Lemma step1_ok x l u : box x l u -> exists lr, runs (newton1_step Q x) lr /\ good x lr.
Proof.
  intros Bx. pose proof (box_valid _ _ _ Bx) as Hx.
  destruct (cut1_ok x l u Bx) as (x1 & o & R1 & V1 & C1 & O1).
  destruct (clip1_ok x x1 o Hx V1 C1 O1) as (d & R2 & C2). unfold newton1_step.
  destruct d as [[y1 o']|].
  - destruct (sort1_ok x y1 o' C2) as (d & R3 & C3). destruct d as [[a b]|].
    + destruct (keep_rest_ok Some (fun o => o) x a b l u (fun h _ => eq_refl) Bx C3) as (lr & R4 & G).
      exists lr. split; [|exact G]. eapply runsI_bind; [exact R1|]. eapply runsI_bind; [exact R2|]. cbv beta iota.
      eapply runsI_bind; [exact R3|]. exact R4.
    + exists ([], []). split; [|apply good_nil; exact C3]. eapply runsI_bind; [exact R1|]. eapply runsI_bind; [exact R2|]. cbv beta iota.
      eapply runsI_bind; [exact R3|]. apply runsI_ret.
  - exists ([], []). split; [|apply good_nil; exact C2]. eapply runsI_bind; [exact R1|]. eapply runsI_bind; [exact R2|]. apply runsI_ret.
Qed.

(** ** One iteration of the second method *)
Section Second.
Context (AE : allows_empty c = true).
Definition none (z : I) : Prop := test_input_i Q z = true.
Lemma the_empty : exists e, none e /\ forall s, i_empty Q s = (Ok e, s).
Proof.
  destruct (fempty_action p debug c) as (o & Ho & K). rewrite AE in K. destruct K as (z & -> & Ez).
  exists z. split; [apply (is_empty_iff p k debug c ord z AE); exact Ez|]. intros s.
  apply (i_empty_run (P := Q) (val := (fv : T N -> ext))). exact Ho.
Qed.
Definition clip_of (x y z : I) : Prop :=
  (V z /\ sub z x /\ (forall r, mem x r -> mem y r -> mem z r)) \/ (none z /\ forall r, mem x r -> ~ mem y r).
Lemma meet_ok x y : V x -> V y -> exists z, runs (intersect Q x y) z /\ clip_of x y z.
Proof.
  intros Hx Hy. destruct (overlap Q y x) eqn:O.
  - destruct (overlap_runs x y Hx Hy O) as (z & R & K). exists z. split; [exact R|left; exact K].
  - destruct the_empty as (e & Ne & Re). exists e. split.
    + apply pure_runsI. destruct (fempty_action p debug c) as (o & Ho & _).
      assert (Eo : o = Ok e) by (pose proof (i_empty_run (P := Q) (val := (fv : T N -> ext)) o Ho RUP) as E; rewrite Re in E; congruence). subst o.
      intros s. apply (intersect_disjoint H); auto. intros (r & A & B). exact (overlap_no x y r Hx Hy O A B).
    + right. split; [exact Ne|]. intros r A B. exact (overlap_no x y r Hx Hy O A B).
Qed.
Lemma meet_none x y : none y -> exists z, runs (intersect Q x y) z /\ none z.
Proof.
  intros Ny. destruct the_empty as (e & Ne & Re). exists e. split; [|exact Ne]. apply pure_runsI. intros s.
  unfold intersect, test_input_ii. rewrite Ny, orb_true_r. apply Re.
Qed.
Lemma sub_none xx m y : fv xx = Fin m -> none y -> exists z, runs (op_sub_ni Q xx y) z /\ none z.
Proof.
  intros Em Ny. destruct the_empty as (e & Ne & Re). exists e. split; [|exact Ne]. apply pure_runsI. intros s.
  unfold op_sub_ni, bind. 
  assert (T : test_input_ni Q xx y s = (Ok true, s)).
  { unfold test_input_ni, bind. rewrite (cs_nan _ _ (ps_ck _ _ _ H) xx); [|rewrite Em; discriminate]. unfold ret. rewrite Ny. reflexivity. }
  rewrite T. apply Re.
Qed.
Definition opt (z : I) : option I := if u_empty Q z then None else Some z.
Lemma opt_valid z : V z -> opt z = Some z.
Proof. intros Hz. unfold opt, u_empty. rewrite (test_valid H) by exact Hz. reflexivity. Qed.
Lemma opt_none z : none z -> opt z = None.
Proof. intros Hz. unfold opt, u_empty. rewrite Hz. reflexivity. Qed.
Definition part (x z : I) : Prop := (V z /\ sub z x) \/ none z.

Lemma cut2_ok x l u : box x l u -> exists x1 x2, runs (newton2_cut Q x) (x1, x2) /\ part x x1 /\ part x x2 /\
  forall r, root_in x r -> (V x1 /\ mem x1 r) \/ (V x2 /\ mem x2 r).
Proof.
  intros Bx. pose proof (box_valid _ _ _ Bx) as Hx.
  destruct (cut_ok x l u Bx) as (xx & vf & vd & Rm & Rf & Vf & Rd & Vd & K). unfold newton2_cut.
  assert (Exx : exists m, fv xx = Fin m).
  { destruct (mid_box x l u Bx) as (m & Em & _). exists m. rewrite <- Em. f_equal.
    pose proof (median_runs p pr k debug c ord x (proj1 Hx)) as Rm'. apply runsP_I in Rm'.
    destruct (Rm RUP (ready_up k RUP eq_refl)) as (s1 & _ & E1). destruct (Rm' RUP (ready_up k RUP eq_refl)) as (s2 & _ & E2).
    rewrite E1 in E2. injection E2. auto. }
  destruct Exx as (m & Em).
  destruct (zero_in Q vf && zero_in Q vd) eqn:Z.
  - destruct the_empty as (e & Ne & Re). exists x, e. split; [|split; [|split]].
    + eapply runsI_bind; [exact Rm|]. eapply runsI_bind; [exact Rf|]. eapply runsI_bind; [exact Rd|]. rewrite Z.
      eapply runsI_bind; [apply pure_runsI; exact Re|]. apply runsI_ret.
    + left. split; [exact Hx|]. intros r Hr; exact Hr.
    + right; exact Ne.
    + intros r Hr. left. split; [exact Hx|apply Hr].
  - destruct (K eq_refl) as (z1 & b & y1 & R1 & S1 & V1 & T).
    destruct (meet_ok x y1 Hx V1) as (x1 & M1 & C1).
    assert (P1 : part x x1) by (destruct C1 as [(A & B & _)|(A & _)]; [left; auto|right; auto]).
    destruct b.
    + destruct T as (z2 & y2 & R2 & S2 & V2 & W2 & NC & C).
      destruct (meet_ok x y2 Hx V2) as (x2 & M2 & C2).
      exists x1, x2. split; [|split; [exact P1|split]].
      * eapply runsI_bind; [exact Rm|]. eapply runsI_bind; [exact Rf|]. eapply runsI_bind; [exact Rd|]. rewrite Z.
        eapply runsI_bind; [exact R1|]. cbn [fst snd]. eapply runsI_bind; [exact S1|]. eapply runsI_bind; [exact M1|].
        eapply runsI_bind; [exact R2|]. eapply runsI_bind; [exact S2|]. eapply runsI_bind; [exact M2|]. apply runsI_ret.
      * destruct C2 as [(A & B & _)|(A & _)]; [left; auto|right; auto].
      * intros r Hr. pose proof (proj1 Hr) as Hr'. destruct (C r Hr) as [M|M]; [left|right].
        -- destruct C1 as [(A & _ & B)|(_ & B)]; [auto|exfalso; exact (B r Hr' M)].
        -- destruct C2 as [(A & _ & B)|(_ & B)]; [auto|exfalso; exact (B r Hr' M)].
    + destruct the_empty as (e & Ne & Re).
      destruct (sub_none xx m e Em Ne) as (y2 & S2 & N2). destruct (meet_none x y2 N2) as (x2 & M2 & N2').
      exists x1, x2. split; [|split; [exact P1|split; [right; exact N2'|]]].
      * eapply runsI_bind; [exact Rm|]. eapply runsI_bind; [exact Rf|]. eapply runsI_bind; [exact Rd|]. rewrite Z.
        eapply runsI_bind; [exact R1|]. cbn [fst snd]. eapply runsI_bind; [exact S1|]. eapply runsI_bind; [exact M1|].
        eapply runsI_bind; [apply pure_runsI; exact Re|]. eapply runsI_bind; [exact S2|]. eapply runsI_bind; [exact M2|]. apply runsI_ret.
      * intros r Hr. pose proof (proj1 Hr) as Hr'. left. pose proof (T r Hr) as M.
        destruct C1 as [(A & _ & B)|(_ & B)]; [auto|exfalso; exact (B r Hr' M)].
Qed.

Definition wd' (x : I) : T N := if u_empty Q x then zero else wd x.
Lemma width_part x z : part x z -> runs (width Q z) (wd' z).
Proof.
  intros [[Hz _]|Hz]; unfold wd', u_empty.
  - rewrite (test_valid H) by exact Hz. apply width_runs; exact Hz.
  - rewrite Hz. unfold width. rewrite Hz. apply runsI_ret.
Qed.
Lemma zero_fv : fv (@zero N) = Fin 0.
Proof. apply (ns_0 _ _ (fnumspec p)). Qed.
Lemma wd_pos (z : I) : V z -> xle (Fin 0) (fv (wd z)).
Proof.
  intros Hz. destruct (wd_ru z Hz) as [A _]. eapply xle_trans; [|exact A]. destruct Hz as (B & C & D). unfold xsub.
  destruct (fv (low z)), (fv (up z)); cbn [xopp xadd xle] in *; try tauto; lra.
Qed.
Lemma wd'_nn x z : part x z -> fv (wd' z) <> NaN.
Proof.
  intros [[Hz _]|Hz]; unfold wd', u_empty; [rewrite (test_valid H) by exact Hz; apply wd_nn; exact Hz|].
  rewrite Hz, zero_fv. discriminate.
Qed.

Definition sorted2 (x : I) (c : option (I * I)) : Prop :=
  match c with None => forall r, ~ root_in x r | Some (x1, x2) => candidates x x1 (opt x2) end.
Lemma sort2_ok x x1 x2 : part x x1 -> part x x2 ->
  (forall r, root_in x r -> (V x1 /\ mem x1 r) \/ (V x2 /\ mem x2 r)) ->
  exists d, runs (newton2_sort Q (x1, x2)) d /\ sorted2 x d.
Proof.
  intros P1 P2 C. unfold newton2_sort. cbn [fst snd].
  assert (RW : runs (args2 (p_ord Q (H_user, 103%Z)) (width Q x2) (width Q x1)) (wd' x2, wd' x1)).
  { apply runsI_args2; eapply width_part; eauto. }
  assert (SW : exists a b, (if n_gt (wd' x2) (wd' x1) then (x2, x1) else (x1, x2)) = (a, b) /\ part x a /\ part x b /\
    xle (fv (wd' b)) (fv (wd' a)) /\ forall r, root_in x r -> (V a /\ mem a r) \/ (V b /\ mem b r)).
  { destruct (n_gt (wd' x2) (wd' x1)) eqn:G.
    - exists x2, x1. split; [reflexivity|]. split; [exact P2|]. split; [exact P1|]. split; [apply xlt_xle, gt_wd; exact G|].
      intros r Hr. destruct (C r Hr); auto.
    - exists x1, x2. split; [reflexivity|]. split; [exact P1|]. split; [exact P2|]. split; [|exact C].
      apply ngt_wd; [eapply wd'_nn; eauto|eapply wd'_nn; eauto|exact G]. }
  destruct SW as (a & b & ES & Pa & Pb & Wab & Cab).
  assert (VB : forall z, V z -> u_empty Q z = false) by (intros z Hz; apply (test_valid H); exact Hz).
  assert (NV : forall z, none z -> ~ V z) by (intros z Nz Hz; pose proof (VB z Hz) as E; unfold u_empty in E; rewrite Nz in E; discriminate).
  destruct the_empty as (e & Ne & Re).
  assert (RB : exists bad, runs (if u_empty Q a then ret true else let! v := nr_f Q a in ret (negb (zero_in Q v))) bad /\
    (bad = true -> forall r, root_in x r -> ~ mem a r \/ none a) /\ (bad = false -> V a /\ sub a x)).
  { destruct Pa as [[Va Sa]|Na].
    - destruct (nr_f_ok a Va) as (v & Rv & Vv & Env & _). exists (negb (zero_in Q v)). split; [|split; [|auto]].
      + rewrite (VB a Va). eapply runsI_bind; [exact Rv|]. apply runsI_ret.
      + intros EZ r Hr. apply negb_true_iff in EZ. left. intros M. apply (no_root a v r Vv Env EZ). split; [exact M|apply Hr].
    - exists true. split; [unfold u_empty; rewrite Na; apply runsI_ret|]. split; [auto|discriminate]. }
  destruct RB as (bad & RB & B1 & B2).
  destruct bad.
  - destruct Pb as [[Vb Sb]|Nb].
    + exists (Some (b, e)). split.
      * eapply runsI_bind; [exact RW|]. cbn [fst snd]. rewrite ES. eapply runsI_bind; [exact RB|]. cbv iota.
        rewrite (VB b Vb). cbn [negb]. eapply runsI_bind; [apply pure_runsI; exact Re|]. apply runsI_ret.
      * unfold sorted2. rewrite (opt_none e Ne). split; [exact Vb|]. left. split; [exact Sb|]. split; [intros y [=]|].
        intros r Hr. left. destruct (Cab r Hr) as [[A M]|[_ M]]; [|exact M]. exfalso.
        destruct (B1 eq_refl r Hr) as [K|K]; [exact (K M)|exact (NV a K A)].
    + exists None. split.
      * eapply runsI_bind; [exact RW|]. cbn [fst snd]. rewrite ES. eapply runsI_bind; [exact RB|]. cbv iota.
        unfold u_empty. rewrite Nb. apply runsI_ret.
      * intros r Hr. destruct (Cab r Hr) as [[A M]|[A M]]; [|exact (NV b Nb A)].
        destruct (B1 eq_refl r Hr) as [K|K]; [exact (K M)|exact (NV a K A)].
  - destruct (B2 eq_refl) as (Va & Sa). exists (Some (a, b)). split.
    + eapply runsI_bind; [exact RW|]. cbn [fst snd]. rewrite ES. eapply runsI_bind; [exact RB|]. apply runsI_ret.
    + split; [exact Va|]. left. split; [exact Sa|]. destruct Pb as [[Vb Sb]|Nb].
      * rewrite (opt_valid b Vb). split.
        -- intros y [= <-]. split; [exact Vb|]. split; [exact Sb|]. unfold wd' in Wab. rewrite (VB a Va), (VB b Vb) in Wab. exact Wab.
        -- intros r Hr. destruct (Cab r Hr) as [[_ M]|[_ M]]; [left; exact M|right; eauto].
      * rewrite (opt_none b Nb). split; [intros y [=]|]. intros r Hr. destruct (Cab r Hr) as [[_ M]|[A _]]; [left; exact M|].
        exfalso. exact (NV b Nb A).
Qed.
Lemma step2_ok x l u : box x l u -> exists lr, runs (newton2_step Q x) lr /\ good x lr.
Proof.
  intros Bx. destruct (cut2_ok x l u Bx) as (x1 & x2 & R1 & P1 & P2 & C).
  destruct (sort2_ok x x1 x2 P1 P2 C) as (d & R2 & C2). unfold newton2_step.
  destruct d as [[a b]|].
  - destruct (keep_rest_ok (fun y => y) opt x a b l u opt_valid Bx C2) as (lr & R3 & G).
    exists lr. split; [|exact G]. eapply runsI_bind; [exact R1|]. eapply runsI_bind; [exact R2|]. exact R3.
  - exists ([], []). split; [|apply good_nil; exact C2]. eapply runsI_bind; [exact R1|]. eapply runsI_bind; [exact R2|]. apply runsI_ret.
Qed.
End Second.

(** ** The loop *)
Definition cost (z : I) : nat := 2 ^ (S (size z)) - 1.
Definition total (l : list I) : nat := list_sum (map cost l).
Lemma good_cost x lr : good x lr -> (total (fst lr) < cost x)%nat.
Proof.
  intros (_ & F & L & _). unfold total, cost.
  assert (K : forall z, (size z < size x)%nat -> (2 ^ S (size z) - 1 <= 2 ^ size x - 1)%nat).
  { intros z Hz. assert (2 ^ S (size z) <= 2 ^ size x)%nat by (apply Nat.pow_le_mono_r; lia). lia. }
  pose proof (Nat.pow_nonzero 2 (size x) ltac:(discriminate)) as NZ.
  assert (E2 : (2 ^ S (size x) = 2 * 2 ^ size x)%nat) by reflexivity.
  destruct (fst lr) as [|a [|b [|]]]; cbn [map list_sum fold_right length] in *; try lia.
  - inversion F; subst. pose proof (K a ltac:(assumption)). unfold cost in *. lia.
  - inversion F as [|? ? A F']; subst. inversion F' as [|? ? B _]; subst. pose proof (K a A). pose proof (K b B). unfold cost in *. lia.
Qed.
Lemma list_sum_rev (l : list nat) : list_sum (rev l) = list_sum l.
Proof. induction l; simpl; auto. rewrite list_sum_app, IHl. simpl. lia. Qed.

Definition found (xs z : I) : Prop := V z /\ sub z xs /\ xlt (fv (wd z)) (Fin mw).
Lemma loop_ok (step : I -> M (list I * list I)) xs a b : box xs a b ->
  (forall x l u, box x l u -> exists lr, runs (step x) lr /\ good x lr) ->
  forall n l res, (total l <= n)%nat -> Forall (fun z => V z /\ sub z xs) l -> Forall (found xs) res ->
  (forall r, root_in xs r -> Exists (fun z => mem z r) (l ++ res)) ->
  exists fuel0 out, (forall fuel, (fuel0 <= fuel)%nat -> runs (newton_loop step fuel l res) out) /\
    Forall (found xs) out /\ (forall r, root_in xs r -> Exists (fun z => mem z r) out).
Proof.
  intros Bxs ST. induction n as [n IH] using lt_wf_ind. intros l res Hn Fl Fr Cv.
  destruct l as [|x l].
  - exists 1%nat, res. split; [|split; [exact Fr|exact Cv]]. intros [|f] Hf; [lia|]. apply runsI_ret.
  - apply Forall_cons_iff in Fl. destruct Fl as [[Vx Sx] Fl].
    destruct (box_sub x xs a b Bxs Vx Sx) as (l' & u' & Bx & _).
    destruct (ST x l' u' Bx) as (lr & Rs & G). pose proof (good_cost x lr G) as LT.
    assert (TL : total (rev (fst lr) ++ l) = (total (fst lr) + total l)%nat).
    { unfold total. rewrite map_app, map_rev, list_sum_app, list_sum_rev. reflexivity. }
    assert (TX : total (x :: l) = (cost x + total l)%nat) by reflexivity.
    destruct G as (G1 & G2 & G3 & G4 & G5).
    assert (SB : Forall (fun z => V z /\ sub z xs) (fst lr ++ snd lr)).
    { eapply Forall_impl; [|exact G1]. intros z [Vz Sz]. split; [exact Vz|]. intros r Hr. apply Sx, Sz, Hr. }
    apply Forall_app in SB. destruct SB as [SB1 SB2].
    destruct (IH (total (rev (fst lr) ++ l)) ltac:(lia) (rev (fst lr) ++ l) (res ++ snd lr) ltac:(lia)) as (f0 & out & K1 & K2).
    + apply Forall_app. split; [apply Forall_rev; exact SB1|exact Fl].
    + apply Forall_app. split; [exact Fr|]. apply Forall_forall. intros z Hz.
      rewrite Forall_forall in SB2, G4. destruct (SB2 z Hz). split; auto.
    + intros r Hr. specialize (Cv r Hr). rewrite !Exists_app. rewrite Exists_app in Cv. destruct Cv as [Cv|Cv]; [|right; left; exact Cv].
      apply Exists_cons in Cv. destruct Cv as [Cv|Cv]; [|left; right; exact Cv].
      specialize (G5 r (conj Cv (proj2 Hr))). apply Exists_app in G5. destruct G5 as [G5|G5]; [left; left|right; right; exact G5].
      apply Exists_exists in G5. destruct G5 as (z & Z1 & Z2). apply Exists_exists. exists z. split; [apply -> in_rev; exact Z1|exact Z2].
    + exists (S f0), out. split; [|exact K2]. intros [|f] Hf; [lia|]. simpl newton_loop. eapply runsI_bind; [exact Rs|]. apply K1. lia.
Qed.
Lemma loop_from (step : I -> M (list I * list I)) xs a b : box xs a b ->
  (forall x l u, box x l u -> exists lr, runs (step x) lr /\ good x lr) ->
  exists fuel0 out, (forall fuel, (fuel0 <= fuel)%nat -> runs (newton_loop step fuel [xs] []) out) /\
    Forall (found xs) out /\ (forall r, root_in xs r -> Exists (fun z => mem z r) out).
Proof.
  intros Bx ST. apply (loop_ok step xs a b Bx ST (total [xs])); auto.
  - apply Forall_cons; [|apply Forall_nil]. split; [exact (box_valid _ _ _ Bx)|]. intros r Hr; exact Hr.
  - intros r Hr. left. apply Hr.
Qed.
End Newton.

(** * Algebraic laws of the operations: proofs

    Two expressions whose results are tightest enclosures of the same set have
    the same bounds. *)

From Coq Require Import Reals ZArith Lra Lia Bool Psatz.
From Flocq Require Import Core BinarySingleNaN.
From Verif Require Import Outcome Base Checking Interval Utility Arith Arith2 FloatNum Spec ExtR Sem
  CoreArith CoreDiv CoreMore CoreFun CoreUtil FloatSpec FloatPol Inst.
Local Open Scope R_scope.

Section Laws.
Context (p : platform) (k : rkind) (debug : bool) (c : ckind) (ord : site -> bool).
Notation N := (fnum p).
Notation P := (fpol p Save k debug c ord).
Notation I := (itv N).
Notation H := (fpolspec p Save k debug c ord).
Notation fv := (@fval (p_T p)).
Notation V := (valid (N := N) fv).
Notation mem := (mem (N := N) fv).
Notation tight := (tightest (N := N) fv).
Notation den := (denotes (N := N) fv).

(** The expression gives the tightest enclosure of S; exactly S. *)
Definition gives (m : M I) (S : R -> Prop) : Prop := exists z, returns m z /\ V z /\ tight z S.
Definition gives_exactly (m : M I) (S : R -> Prop) : Prop := exists z, returns m z /\ V z /\ den z S.
Lemma exactly_gives m S : gives_exactly m S -> gives m S.
Proof. intros (z & R & Vz & D). exists z. split; [exact R|]. split; [exact Vz|]. apply denotes_tightest; assumption. Qed.
Lemma gives_ext m S S' : (forall r, S r <-> S' r) -> gives m S -> gives m S'.
Proof. intros E (z & R & Vz & T). exists z. split; [exact R|]. split; [exact Vz|]. exact (tightest_ext _ z S S' E T). Qed.
Lemma exactly_ext m S S' : (forall r, S r <-> S' r) -> gives_exactly m S -> gives_exactly m S'.
Proof. intros E (z & R & Vz & T). exists z. split; [exact R|]. split; [exact Vz|]. intros r. rewrite (T r). apply E. Qed.
Lemma ret_exact (x : I) : V x -> gives_exactly (ret x) (mem x).
Proof. intros Hx. exists x. split; [intros s; reflexivity|]. split; [exact Hx|]. intros r. tauto. Qed.
(** An operation after an exact one. *)
Lemma bind_exact m S (g : I -> M I) (T : R -> Prop) : gives_exactly m S ->
  (forall x, V x -> den x S -> gives (g x) T) -> gives (let! x := m in g x) T.
Proof.
  intros (x & R & Vx & D) K. destruct (K x Vx D) as (z & R' & Vz & Tz). exists z. split; [|split; assumption].
  intros s. unfold bind. rewrite (R s). exact (R' s).
Qed.
Lemma bind_exact' m S (g : I -> M I) (T : R -> Prop) : gives_exactly m S ->
  (forall x, V x -> den x S -> gives_exactly (g x) T) -> gives_exactly (let! x := m in g x) T.
Proof.
  intros (x & R & Vx & D) K. destruct (K x Vx D) as (z & R' & Vz & Tz). exists z. split; [|split; assumption].
  intros s. unfold bind. rewrite (R s). exact (R' s).
Qed.

Lemma ne2 f x y : V x -> V y -> nonempty (image2 f (mem x) (mem y)).
Proof. intros Hx Hy. destruct (valid_mem _ x Hx) as (r & Mr), (valid_mem _ y Hy) as (s & Ms). exists (f r s), r, s. auto. Qed.
Lemma ne1 f x : V x -> nonempty (image1 f (mem x)).
Proof. intros Hx. destruct (valid_mem _ x Hx) as (r & Mr). exists (f r), r. auto. Qed.

Lemma g_add x y : V x -> V y -> gives (op_add P x y) (image2 Rplus (mem x) (mem y)).
Proof. intros Hx Hy. destruct (op_add_ok H x y Hx Hy) as (z & R & T). exists z. split; [exact R|]. split; [exact (tightest_valid _ z _ (ne2 _ x y Hx Hy) T)|exact T]. Qed.
Lemma g_sub x y : V x -> V y -> gives (op_sub P x y) (image2 Rminus (mem x) (mem y)).
Proof. intros Hx Hy. destruct (op_sub_ok H x y Hx Hy) as (z & R & T). exists z. split; [exact R|]. split; [exact (tightest_valid _ z _ (ne2 _ x y Hx Hy) T)|exact T]. Qed.
Lemma g_mul x y : V x -> V y -> gives (op_mul P x y) (image2 Rmult (mem x) (mem y)).
Proof. intros Hx Hy. destruct (op_mul_ok H x y Hx Hy) as (z & R & T). exists z. split; [exact R|]. split; [exact (tightest_valid _ z _ (ne2 _ x y Hx Hy) T)|exact T]. Qed.
Lemma g_div x y : V x -> V y -> ~ mem y 0 -> gives (op_div P x y) (image2 Rdiv (mem x) (mem y)).
Proof.
  intros Hx Hy NZ. destruct (op_div_ok H x y Hx Hy) as (z & R & _ & T).
  - intros (E1 & E2). apply NZ. split; [rewrite E1|rewrite E2]; simpl; lra.
  - intros M. exfalso. exact (NZ M).
  - assert (TZ : tight z (image2 Rdiv (mem x) (mem y))).
    { apply (tightest_ext _ z (quotients (mem x) (mem y))).
      - intros t. split.
        + intros (a & b & Ma & Mb & _ & E). exists a, b. auto.
        + intros (a & b & Ma & Mb & E). exists a, b. split; [exact Ma|]. split; [exact Mb|]. split; [intros ->; exact (NZ Mb)|exact E].
      - apply T. intros (_ & _ & HZ). apply NZ. destruct Hy as (L & _). change (xle (fv (low y)) (fv (up y))) in L. destruct HZ as [A|A]; rewrite A in L; split; rewrite ?A; try exact L; simpl; lra. }
    exists z. split; [exact R|]. split; [exact (tightest_valid _ z _ (ne2 _ x y Hx Hy) TZ)|exact TZ].
Qed.
Lemma g_square x : V x -> gives (square P x) (image1 (fun r => r * r) (mem x)).
Proof. intros Hx. destruct (square_ok H x Hx) as (z & R & T). exists z. split; [exact R|]. split; [exact (tightest_valid _ z _ (ne1 _ x Hx) T)|exact T]. Qed.
Lemma g_neg x : V x -> gives_exactly (op_neg P x) (image1 Ropp (mem x)).
Proof. intros Hx. destruct (op_neg_ok H x Hx) as (z & R & D & Vz & _). exists z. split; [exact R|]. split; assumption. Qed.
Lemma g_abs x : V x -> gives_exactly (u_abs P x) (image1 Rabs (mem x)).
Proof. intros Hx. destruct (abs_ok H x Hx) as (z & R & D). exists z. split; [exact R|]. split; [exact (denotes_valid z _ (ne1 _ x Hx) D)|exact D]. Qed.
Lemma g_max x y : V x -> V y -> gives_exactly (u_max P x y) (image2 Rmax (mem x) (mem y)).
Proof. intros Hx Hy. destruct (u_max_ok H x y Hx Hy) as (z & R & D). exists z. split; [exact R|]. split; [exact (denotes_valid z _ (ne2 _ x y Hx Hy) D)|exact D]. Qed.
Lemma g_min x y : V x -> V y -> gives_exactly (u_min P x y) (image2 Rmin (mem x) (mem y)).
Proof. intros Hx Hy. destruct (u_min_ok H x y Hx Hy) as (z & R & D). exists z. split; [exact R|]. split; [exact (denotes_valid z _ (ne2 _ x y Hx Hy) D)|exact D]. Qed.
Definition either (x y : I) (r : R) : Prop := mem x r \/ mem y r.
Lemma g_hull x y : V x -> V y -> gives (hull P x y) (either x y).
Proof.
  intros Hx Hy. destruct (hull_ok H x y Hx Hy) as (z & R & T). exists z. split; [exact R|]. split; [|exact T].
  apply (tightest_valid _ z _) in T; [exact T|]. destruct (valid_mem _ x Hx) as (r & Mr). exists r. left. exact Mr.
Qed.
Definition both (x y : I) (r : R) : Prop := mem x r /\ mem y r.
Lemma g_inter x y : V x -> V y -> nonempty (both x y) -> gives_exactly (intersect P x y) (both x y).
Proof.
  intros Hx Hy NE. destruct (intersect_ok H x y Hx Hy NE) as (z & R & D). exists z. split; [exact R|].
  split; [exact (denotes_valid z _ NE D)|exact D].
Qed.

(** Negation of, and hull with, a rounded result. *)
Lemma tight_neg (z n : I) (S : R -> Prop) : nonempty S -> tight z S ->
  fv (low n) = xopp (fv (up z)) -> fv (up n) = xopp (fv (low z)) -> tight n (image1 Ropp S).
Proof.
  intros (r0 & S0) [T1 T2] E1 E2. split.
  - intros t (r & Sr & ->). destruct (T1 r Sr) as [A B]. split.
    + change (xle (fv (low n)) (xopp (Fin r))). rewrite E1. apply xle_opp. exact B.
    + change (xle (xopp (Fin r)) (fv (up n))). rewrite E2. apply xle_opp. exact A.
  - intros w Hw. assert (Vw : V w) by (apply (mem_valid _ w (- r0)), Hw; exists r0; auto).
    destruct (op_neg_ok H w Vw) as (w' & _ & D & _ & F1 & F2).
    destruct (T2 w') as [A B].
    { intros r Sr. apply D. exists (- r). split; [apply Hw; exists r; auto|ring]. }
    change (xle (fv (low w)) (fv (low n)) /\ xle (fv (up n)) (fv (up w))).
    change (xle (fv (low w')) (fv (low z))) in A. change (xle (fv (up z)) (fv (up w'))) in B.
    change (fv (low w') = xopp (fv (up w))) in F1. change (fv (up w') = xopp (fv (low w))) in F2.
    rewrite F1 in A. rewrite F2 in B. apply xle_opp in A, B. rewrite xopp_involutive in A, B. rewrite E1, E2. split; assumption.
Qed.
Lemma bind_neg m S : nonempty S -> gives m S -> gives (let! x := m in op_neg P x) (image1 Ropp S).
Proof.
  intros NE (z & R & Vz & T). destruct (op_neg_ok H z Vz) as (n & Rn & _ & Vn & E1 & E2).
  exists n. split; [intros s; unfold bind; rewrite (R s); exact (Rn s)|]. split; [exact Vn|].
  exact (tight_neg z n S NE T E1 E2).
Qed.
Lemma tight_either (z h : I) (S U : R -> Prop) : tight h S -> tight z (fun r => mem h r \/ U r) -> tight z (fun r => S r \/ U r).
Proof.
  intros [A1 A2] [B1 B2]. split.
  - intros r [Sr|Ur]; apply B1; [left; apply A1; exact Sr|right; exact Ur].
  - intros w Hw. apply B2. intros r [Mr|Ur]; [|apply Hw; right; exact Ur].
    destruct (A2 w) as [L U']; [intros s Ss; apply Hw; left; exact Ss|]. destruct Mr as [M1 M2].
    split; [exact (xle_trans _ _ _ L M1)|exact (xle_trans _ _ _ M2 U')].
Qed.
Lemma bind_hull m S y : V y -> gives m S -> gives (let! x := m in hull P x y) (fun r => S r \/ mem y r).
Proof.
  intros Hy (h & R & Vh & T). destruct (g_hull h y Vh Hy) as (z & Rz & Vz & Tz).
  exists z. split; [intros s; unfold bind; rewrite (R s); exact (Rz s)|]. split; [exact Vz|]. exact (tight_either z h S _ T Tz).
Qed.
Lemma bind_hull' m S x : V x -> gives m S -> gives (let! y := m in hull P x y) (fun r => mem x r \/ S r).
Proof.
  intros Hy (h & R & Vh & T). destruct (g_hull x h Hy Vh) as (z & Rz & Vz & Tz).
  exists z. split; [intros s; unfold bind; rewrite (R s); exact (Rz s)|]. split; [exact Vz|].
  apply (tightest_ext _ z (fun r => S r \/ mem x r)); [intros r; tauto|].
  apply (tight_either z h S _ T). apply (tightest_ext _ z (either x h)); [intros r; unfold either; tauto|exact Tz].
Qed.
(** The exact operation intersect after hull. *)
Lemma bind_inter_hull x y : V x -> V y -> gives_exactly (let! h := hull P x y in intersect P x h) (mem x).
Proof.
  intros Hx Hy. destruct (g_hull x y Hx Hy) as (h & R & Vh & T).
  assert (S : forall r, mem x r -> mem h r) by (intros r Mr; apply T; left; exact Mr).
  destruct (valid_mem _ x Hx) as (r & Mr).
  destruct (g_inter x h Hx Vh) as (z & Rz & Vz & D); [exists r; split; [exact Mr|exact (S r Mr)]|].
  exists z. split; [intros s; unfold bind; rewrite (R s); exact (Rz s)|]. split; [exact Vz|].
  intros t. rewrite (D t). unfold both. split; [tauto|intros Mt; split; [exact Mt|exact (S t Mt)]].
Qed.

(** Same bounds. *)
Definition agree (m m' : M I) : Prop := exists z z', returns m z /\ returns m' z' /\ V z /\ V z' /\ same (N := N) fv z z'.
Lemma gives_agree m m' S : gives m S -> gives m' S -> agree m m'.
Proof.
  intros (z & R & Vz & T) (z' & R' & Vz' & T'). exists z, z'. repeat (split; [assumption|]). exact (tightest_unique _ z z' S T T').
Qed.
Lemma agree_ext m m' S S' : (forall r, S r <-> S' r) -> gives m S -> gives m' S' -> agree m m'.
Proof. intros E A B. apply (gives_agree m m' S A). apply (gives_ext m' S' S); [intros r; symmetry; apply E|exact B]. Qed.
Lemma agree_same m m' (z z' : I) : agree m m' -> returns m z -> returns m' z' -> V z /\ V z' /\ same (N := N) fv z z'.
Proof.
  intros (y & y' & R & R' & Vy & Vy' & E) Q Q'. specialize (R RNE). specialize (R' RNE). rewrite (Q RNE) in R. rewrite (Q' RNE) in R'.
  injection R as <-. injection R' as <-. auto.
Qed.
Lemma mem_between (x : I) a b r : mem x a -> mem x b -> a <= r <= b -> mem x r.
Proof.
  intros [A _] [_ B] [L U]. split; [exact (xle_trans _ _ _ A (L : xle (Fin a) (Fin r)))|exact (xle_trans _ _ _ (U : xle (Fin r) (Fin b)) B)].
Qed.
End Laws.

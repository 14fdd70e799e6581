(** * Determinants of real matrices

    The specification used for examples/filter.cpp: the determinant by expansion
    along the first column, and its textbook properties. *)

From Coq Require Import Reals Lra Lia Arith Bool.
Local Open Scope R_scope.

(** Sum of f 0, ..., f (n-1). *)
Fixpoint sum (n : nat) (f : nat -> R) : R :=
  match n with O => 0 | S n => sum n f + f n end.

(** A square matrix: entry of row i and column j, counted from 0. *)
Definition mat := nat -> nat -> R.
(** Without row i and without the first column. *)
Definition skip (i r : nat) : nat := if r <? i then r else S r.
Definition minor (i : nat) (A : mat) : mat := fun r c => A (skip i r) (S c).
Fixpoint det (n : nat) (A : mat) : R :=
  match n with
  | O => 1
  | S m => sum n (fun i => (-1) ^ i * A i O * det m (minor i A))
  end.

(** ** Sums *)
Lemma sum_ext n f g : (forall i, (i < n)%nat -> f i = g i) -> sum n f = sum n g.
Proof. induction n; simpl; intros H; auto. rewrite IHn, (H n); auto. Qed.
Lemma sum_lin n a b f g : sum n (fun i => a * f i + b * g i) = a * sum n f + b * sum n g.
Proof. induction n; simpl; [ring|]. rewrite IHn. ring. Qed.
Lemma sum_scal n a f : sum n (fun i => a * f i) = a * sum n f.
Proof. induction n; simpl; [ring|]. rewrite IHn. ring. Qed.
Lemma sum_0 n f : (forall i, (i < n)%nat -> f i = 0) -> sum n f = 0.
Proof. induction n; simpl; intros H; auto. rewrite IHn, (H n); auto. ring. Qed.
Lemma sum_plus n f g : sum n (fun i => f i + g i) = sum n f + sum n g.
Proof. induction n; simpl; [ring|]. rewrite IHn. ring. Qed.
Lemma sum_first n f : sum (S n) f = f O + sum n (fun i => f (S i)).
Proof. induction n; simpl in *; [ring|]. rewrite IHn. ring. Qed.
Lemma sum_split n k f : (k < n)%nat -> sum n f = sum k f + f k + sum (n - S k) (fun i => f (S k + i)%nat).
Proof.
  intros H. induction n as [|n IH]; [lia|]. destruct (Nat.eq_dec k n) as [->|N].
  - replace (S n - S n)%nat with O by lia. simpl. ring.
  - cbn [sum]. rewrite IH by lia. replace (S n - S k)%nat with (S (n - S k)) by lia. cbn [sum].
    replace (S k + (n - S k))%nat with n by lia. ring.
Qed.
Lemma sum_swap2 n m (f : nat -> nat -> R) : sum n (fun i => sum m (f i)) = sum m (fun j => sum n (fun i => f i j)).
Proof.
  induction n; simpl; [symmetry; apply sum_0; auto|]. rewrite IHn, <- sum_plus. reflexivity.
Qed.

(** ** Rows *)
Lemma det_ext n : forall A B : mat, (forall i j, (i < n)%nat -> (j < n)%nat -> A i j = B i j) -> det n A = det n B.
Proof.
  induction n as [|n IH]; intros A B H; [reflexivity|]. cbn [det]. apply sum_ext. intros i Hi. f_equal.
  - f_equal. apply H; lia.
  - apply IH. intros r c Hr Hc. unfold minor, skip. apply H; [|lia]. destruct (r <? i); lia.
Qed.
Lemma det_linear n : forall (k : nat) a b (A B C : mat), (k < n)%nat ->
  (forall j, (j < n)%nat -> A k j = a * B k j + b * C k j) ->
  (forall i j, (i < n)%nat -> (j < n)%nat -> i <> k -> A i j = B i j /\ A i j = C i j) ->
  det n A = a * det n B + b * det n C.
Proof.
  induction n as [|n IH]; intros k a b A B C Hk HL HE; [lia|]. cbn [det]. rewrite <- sum_lin. apply sum_ext. intros i Hi.
  destruct (Nat.eq_dec i k) as [->|Ne].
  - rewrite HL by lia.
    rewrite (det_ext n (minor k A) (minor k B)), (det_ext n (minor k C) (minor k B)); [ring| |].
    + intros r c Hr Hc. unfold minor, skip. destruct (Nat.ltb_spec r k); destruct (HE (if r <? k then r else S r) (S c)) as [E1 E2];
        try (destruct (Nat.ltb_spec r k); lia); destruct (Nat.ltb_spec r k); try lia; congruence.
    + intros r c Hr Hc. unfold minor, skip. apply (HE (if r <? k then r else S r) (S c)); [|lia|]; destruct (Nat.ltb_spec r k); lia.
  - destruct (HE i O) as [E1 E2]; try lia.
    rewrite (IH (if k <? i then k else pred k) a b (minor i A) (minor i B) (minor i C)).
    + rewrite <- E1, <- E2. ring.
    + destruct (Nat.ltb_spec k i); lia.
    + intros j Hj. unfold minor, skip.
      replace (if (if k <? i then k else pred k) <? i then if k <? i then k else pred k else S (if k <? i then k else pred k)) with k.
      * apply HL. lia.
      * destruct (Nat.ltb_spec k i); [destruct (Nat.ltb_spec k i); lia|destruct (Nat.ltb_spec (pred k) i); lia].
    + intros r c Hr Hc Nr. unfold minor, skip. apply HE; try lia.
      * destruct (Nat.ltb_spec r i); lia.
      * destruct (Nat.ltb_spec r i); destruct (Nat.ltb_spec k i); lia.
Qed.

Ltac dif := repeat match goal with
  | |- context [(?a =? ?b)%nat] =>
    lazymatch a with context [if _ then _ else _] => fail | _ =>
    lazymatch b with context [if _ then _ else _] => fail | _ => destruct (Nat.eqb_spec a b) end end
  | |- context [(?a <? ?b)%nat] =>
    lazymatch a with context [if _ then _ else _] => fail | _ =>
    lazymatch b with context [if _ then _ else _] => fail | _ => destruct (Nat.ltb_spec a b) end end
  end.

Definition swap_rows (i j : nat) (A : mat) : mat := fun r => A (if r =? i then j else if r =? j then i else r).

Lemma det_swap_adj n : forall k A, (S k < n)%nat -> det n (swap_rows k (S k) A) = - det n A.
Proof.
  induction n as [|n IH]; intros k A Hk; [lia|]. cbn [det].
  set (f := fun i => (-1) ^ i * A i O * det n (minor i A)).
  set (g := fun i => (-1) ^ i * swap_rows k (S k) A i O * det n (minor i (swap_rows k (S k) A))).
  assert (G1 : forall i, i <> k -> i <> S k -> (i < S n)%nat -> g i = - f i).
  { intros i N1 N2 Hi. unfold f, g.
    assert (E : swap_rows k (S k) A i O = A i O).
    { unfold swap_rows. destruct (Nat.eqb_spec i k); [lia|]. destruct (Nat.eqb_spec i (S k)); [lia|]. reflexivity. }
    rewrite E.
    rewrite (det_ext n (minor i (swap_rows k (S k) A)) (swap_rows (if k <? i then k else pred k) (S (if k <? i then k else pred k)) (minor i A))).
    - rewrite IH; [ring|]. destruct (Nat.ltb_spec k i); lia.
    - intros r c Hr Hc. unfold minor, swap_rows, skip.
      destruct (Nat.ltb_spec k i); destruct (Nat.ltb_spec r i);
        repeat match goal with |- context [(?a =? ?b)%nat] => destruct (Nat.eqb_spec a b) end;
        repeat match goal with |- context [(?a <? ?b)%nat] => destruct (Nat.ltb_spec a b) end;
        try lia; f_equal; lia. }
  assert (G2 : g k = - f (S k)).
  { unfold f, g. unfold swap_rows at 1. rewrite Nat.eqb_refl.
    rewrite (det_ext n (minor k (swap_rows k (S k) A)) (minor (S k) A)); [simpl; ring|].
    intros r c Hr Hc. unfold minor, swap_rows, skip.
    destruct (Nat.ltb_spec r k); destruct (Nat.ltb_spec r (S k));
        repeat match goal with |- context [(?a =? ?b)%nat] => destruct (Nat.eqb_spec a b) end; try lia; f_equal; lia. }
  assert (G3 : g (S k) = - f k).
  { unfold f, g. unfold swap_rows at 1. destruct (Nat.eqb_spec (S k) k); [lia|]. rewrite Nat.eqb_refl.
    rewrite (det_ext n (minor (S k) (swap_rows k (S k) A)) (minor k A)); [simpl; ring|].
    intros r c Hr Hc. unfold minor, swap_rows, skip.
    destruct (Nat.ltb_spec r k); destruct (Nat.ltb_spec r (S k));
        repeat match goal with |- context [(?a =? ?b)%nat] => destruct (Nat.eqb_spec a b) end; try lia; f_equal; lia. }
  change (sum (S n) g = - sum (S n) f).
  rewrite (sum_split (S n) k g), (sum_split (S n) k f) by lia.
  replace (S n - S k)%nat with (S (n - S k)) by lia. rewrite !(sum_first (n - S k)).
  replace (S k + 0)%nat with (S k) by lia. rewrite G2, G3.
  rewrite (sum_ext k g (fun i => -1 * f i)), sum_scal by (intros i Hi; rewrite G1 by lia; ring).
  rewrite (sum_ext (n - S k) (fun i => g (S k + S i)%nat) (fun i => -1 * f (S k + S i)%nat)), sum_scal
    by (intros i Hi; rewrite G1 by lia; ring).
  ring.
Qed.
Lemma det_swap n : forall i j A, (i < j)%nat -> (j < n)%nat -> det n (swap_rows i j A) = - det n A.
Proof.
  intros i j A Hij Hj. remember (j - S i)%nat as d eqn:D. revert i j A Hij Hj D.
  induction d as [|d IH]; intros i j A Hij Hj D.
  - replace j with (S i) by lia. apply det_swap_adj. lia.
  - (* (i j) = (i i+1) (i+1 j) (i i+1) *)
    rewrite (det_ext n (swap_rows i j A) (swap_rows i (S i) (swap_rows (S i) j (swap_rows i (S i) A)))).
    + rewrite det_swap_adj by lia. rewrite IH by lia. rewrite det_swap_adj by lia. ring.
    + intros r c Hr Hc. unfold swap_rows.
      dif; try lia; f_equal; lia.
Qed.
Lemma det_equal_rows n i j A : (i < n)%nat -> (j < n)%nat -> i <> j -> (forall c, (c < n)%nat -> A i c = A j c) -> det n A = 0.
Proof.
  assert (K : forall i j, (i < j)%nat -> (j < n)%nat -> (forall c, (c < n)%nat -> A i c = A j c) -> det n A = 0).
  { clear. intros i j Hij Hj E. pose proof (det_swap n i j A Hij Hj) as S.
    rewrite (det_ext n (swap_rows i j A) A) in S; [lra|]. intros r c Hr Hc. unfold swap_rows.
    destruct (Nat.eqb_spec r i) as [->|]; [symmetry; auto|]. destruct (Nat.eqb_spec r j) as [->|]; auto. }
  intros Hi Hj N E. destruct (Nat.lt_ge_cases i j); [apply (K i j)|apply (K j i)]; auto; try lia. intros; symmetry; auto.
Qed.
(** Row k plus t times row l. *)
Definition add_row (k l : nat) (t : R) (A : mat) : mat := fun r c => if r =? k then A k c + t * A l c else A r c.
Lemma det_add_row n k l t A : (k < n)%nat -> (l < n)%nat -> k <> l -> det n (add_row k l t A) = det n A.
Proof.
  intros Hk Hl N.
  rewrite (det_linear n k 1 t (add_row k l t A) A (fun r c => if r =? k then A l c else A r c)); auto.
  - rewrite (det_equal_rows n k l (fun r c => if r =? k then A l c else A r c)); auto; [ring|].
    intros c Hc. rewrite Nat.eqb_refl. destruct (Nat.eqb_spec l k); [lia|reflexivity].
  - intros j Hj. unfold add_row. rewrite !Nat.eqb_refl. ring.
  - intros i j Hi Hj Ni. unfold add_row. destruct (Nat.eqb_spec i k); [lia|]. auto.
Qed.
(** Every row k in [1, n) plus t k times row 0. *)
Definition add_first (t : nat -> R) (A : mat) : mat := fun r c => if r =? 0 then A O c else A r c + t r * A O c.
Lemma det_add_first n t A : det (S n) (add_first t A) = det (S n) A.
Proof.
  assert (K : forall m, (m <= n)%nat ->
    det (S n) (fun r c => if r =? 0 then A O c else if r <=? m then A r c + t r * A O c else A r c) = det (S n) A).
  { induction m as [|m IH]; intros Hm.
    - apply det_ext. intros i j _ _. destruct (Nat.eqb_spec i 0) as [->|]; [reflexivity|]. destruct (Nat.leb_spec i 0); [lia|reflexivity].
    - rewrite <- IH by lia. rewrite <- (det_add_row (S n) (S m) 0 (t (S m))
        (fun r c => if r =? 0 then A O c else if r <=? m then A r c + t r * A O c else A r c)) by lia.
      apply det_ext. intros i j _ _. unfold add_row. destruct (Nat.eqb_spec i (S m)) as [->|N].
      + simpl (S m =? 0). cbv iota. destruct (Nat.leb_spec (S m) (S m)); [|lia]. destruct (Nat.leb_spec (S m) m); [lia|]. reflexivity.
      + destruct (Nat.eqb_spec i 0); [reflexivity|].
        destruct (Nat.leb_spec i (S m)); destruct (Nat.leb_spec i m); try lia; reflexivity. }
  rewrite <- (K n) by lia. apply det_ext. intros i j Hi _. unfold add_first. destruct (Nat.eqb_spec i 0); [reflexivity|].
  destruct (Nat.leb_spec i n); [reflexivity|lia].
Qed.
(** A first column that is zero under its first entry. *)
Lemma det_pivot n A : (forall i, (0 < i < S n)%nat -> A i O = 0) -> det (S n) A = A O O * det n (fun r c => A (S r) (S c)).
Proof.
  intros H. cbn [det]. rewrite sum_first.
  rewrite (sum_0 n) by (intros i Hi; rewrite H by lia; ring).
  rewrite (det_ext n (minor 0 A) (fun r c => A (S r) (S c))) by reflexivity. simpl. ring.
Qed.
(** One step of Gaussian elimination. *)
Definition schur (A : mat) : mat := fun r c => A (S r) (S c) - A (S r) O / A O O * A O (S c).
Lemma det_schur n A : A O O <> 0 -> det (S n) A = A O O * det n (schur A).
Proof.
  intros N. rewrite <- (det_add_first n (fun r => - (A r O / A O O)) A). rewrite det_pivot.
  - unfold add_first at 1. simpl. f_equal. apply det_ext. intros i j _ _. unfold add_first, schur. simpl. ring.
  - intros i Hi. unfold add_first. destruct (Nat.eqb_spec i 0); [lia|]. field. exact N.
Qed.

(** ** Transposition *)
Lemma sum_opp n f : sum n (fun i => - f i) = - sum n f.
Proof. rewrite (sum_ext n _ (fun i => -1 * f i)) by (intros; ring). rewrite sum_scal. ring. Qed.
Definition minor_col (j : nat) (A : mat) : mat := fun r c => A (S r) (skip j c).
Lemma skip_0 i : skip (S i) 0 = O.
Proof. reflexivity. Qed.
Lemma skip_S i r : skip (S i) (S r) = S (skip i r).
Proof. unfold skip. change (S r <? S i)%nat with (r <? i)%nat. destruct (r <? i)%nat; reflexivity. Qed.
Lemma det_S n A : det (S n) A = sum (S n) (fun i => (-1) ^ i * A i O * det n (minor i A)).
Proof. reflexivity. Qed.
Lemma det_first_row n : forall A, det (S n) A = sum (S n) (fun j => (-1) ^ j * A O j * det n (minor_col j A)).
Proof.
  induction n as [|n IH]; intros A.
  - simpl. ring.
  - rewrite (det_S (S n)). rewrite (sum_first (S n)). rewrite (sum_first (S n) (fun j => (-1) ^ j * A O j * det (S n) (minor_col j A))).
    apply f_equal2.
    + reflexivity.
    + rewrite (sum_ext (S n) _ (fun i => sum (S n) (fun j => - ((-1) ^ i * (-1) ^ j * A (S i) O * A O (S j) * det n (minor_col j (minor (S i) A)))))).
      2: { intros i Hi. rewrite IH. rewrite <- sum_scal. apply sum_ext. intros j Hj. unfold minor at 1. rewrite skip_0. simpl ((-1) ^ S i). ring. }
      rewrite (sum_ext (S n) (fun i => (-1) ^ S i * A O (S i) * det (S n) (minor_col (S i) A))
        (fun j => sum (S n) (fun i => - ((-1) ^ i * (-1) ^ j * A (S i) O * A O (S j) * det n (minor_col j (minor (S i) A)))))).
      2: { intros j Hj. rewrite det_S. rewrite <- sum_scal. apply sum_ext. intros i Hi. unfold minor_col at 1. rewrite skip_0.
           rewrite (det_ext n (minor i (minor_col (S j) A)) (minor_col j (minor (S i) A))); [simpl ((-1) ^ S j); ring|].
           intros r c _ _. unfold minor, minor_col. rewrite !skip_S. reflexivity. }
      apply sum_swap2.
Qed.
Definition transpose (A : mat) : mat := fun i j => A j i.
Lemma det_transpose n : forall A, det n (transpose A) = det n A.
Proof.
  induction n as [|n IH]; intros A; [reflexivity|]. rewrite det_first_row. cbn [det]. apply sum_ext. intros i Hi. f_equal.
  rewrite <- IH. apply det_ext. intros r c _ _. reflexivity.
Qed.

(** ** Products with triangular matrices *)
Definition mmul (n : nat) (A B : mat) : mat := fun i j => sum n (fun k => A i k * B k j).
Definition set_row (m : nat) (f : nat -> R) (A : mat) : mat := fun r c => if r =? m then f c else A r c.
Lemma det_row_zero n m A : (m < n)%nat -> det n (set_row m (fun _ => 0) A) = 0.
Proof.
  intros Hm. rewrite (det_linear n m 0 0 (set_row m (fun _ => 0) A) A A); auto.
  - ring.
  - intros j _. unfold set_row. rewrite Nat.eqb_refl. ring.
  - intros i j _ _ N. unfold set_row. destruct (Nat.eqb_spec i m); [congruence|auto].
Qed.
Lemma det_row_comb n m t B : (m < n)%nat -> det n (set_row m (fun c => sum n (fun k => t k * B k c)) B) = t m * det n B.
Proof.
  intros Hm.
  assert (K : forall l, (l <= n)%nat -> det n (set_row m (fun c => sum l (fun k => t k * B k c)) B) = if (m <? l)%nat then t m * det n B else 0).
  { induction l as [|l IH]; intros Hl.
    - apply det_row_zero. exact Hm.
    - rewrite (det_linear n m 1 (t l) (set_row m (fun c => sum (S l) (fun k => t k * B k c)) B)
        (set_row m (fun c => sum l (fun k => t k * B k c)) B) (set_row m (B l) B)); auto.
      + rewrite IH by lia. destruct (Nat.eq_dec l m) as [->|N].
        * destruct (Nat.ltb_spec m m); [lia|]. destruct (Nat.ltb_spec m (S m)); [|lia].
          rewrite (det_ext n (set_row m (B m) B) B); [ring|]. intros r c _ _. unfold set_row.
          destruct (Nat.eqb_spec r m) as [->|]; reflexivity.
        * rewrite (det_equal_rows n m l (set_row m (B l) B)); auto; try lia.
          { destruct (Nat.ltb_spec m l), (Nat.ltb_spec m (S l)); try lia; ring. }
          intros c _. unfold set_row. rewrite Nat.eqb_refl. destruct (Nat.eqb_spec l m); [congruence|reflexivity].
      + intros j _. unfold set_row. rewrite !Nat.eqb_refl. cbn [sum]. ring.
      + intros i j _ _ N. unfold set_row. destruct (Nat.eqb_spec i m); [congruence|auto]. }
  rewrite (K n) by lia. destruct (Nat.ltb_spec m n); [reflexivity|lia].
Qed.
Fixpoint prod (n : nat) (f : nat -> R) : R := match n with O => 1 | S n => prod n f * f n end.
Lemma prod_ext n f g : (forall i, (i < n)%nat -> f i = g i) -> prod n f = prod n g.
Proof. induction n; simpl; intros H; auto. rewrite IHn, (H n); auto. Qed.
Lemma prod_1 n f : (forall i, (i < n)%nat -> f i = 1) -> prod n f = 1.
Proof. induction n; simpl; intros H; auto. rewrite IHn, (H n); auto. ring. Qed.
(** A lower triangular matrix on the left, line by line from the last one *)
Lemma det_lower_mul n T A : (forall i k, (i < k)%nat -> T i k = 0) -> det n (mmul n T A) = prod n (fun i => T i i) * det n A.
Proof.
  intros H0.
  (* rows below m are still those of A *)
  assert (K : forall m, (m <= n)%nat ->
     det n (fun r c => if (r <? n - m)%nat then A r c else mmul n T A r c) = prod m (fun i => T (n - S i)%nat (n - S i)%nat) * det n A).
  { induction m as [|m IH]; intros Hm.
    - cbn [prod]. rewrite Rmult_1_l. apply det_ext. intros r c Hr _. destruct (Nat.ltb_spec r (n - 0)); [reflexivity|lia].
    - cbn [prod]. set (B := fun r c => if (r <? n - m)%nat then A r c else mmul n T A r c) in *.
      rewrite (det_ext n _ (set_row (n - S m) (fun c => sum n (fun k => T (n - S m)%nat k * B k c)) B)).
      + rewrite det_row_comb by lia. rewrite IH by lia. ring.
      + intros r c Hr Hc. unfold set_row. destruct (Nat.eqb_spec r (n - S m)) as [->|N].
        * destruct (Nat.ltb_spec (n - S m) (n - S m)); [lia|]. unfold mmul. apply sum_ext. intros k Hk.
          destruct (Nat.lt_ge_cases (n - S m) k); [rewrite H0 by lia; ring|]. unfold B.
          destruct (Nat.ltb_spec k (n - m)); [reflexivity|lia].
        * unfold B. destruct (Nat.ltb_spec r (n - S m)), (Nat.ltb_spec r (n - m)); try lia; reflexivity. }
  specialize (K n (le_n n)). rewrite Nat.sub_diag in K.
  rewrite (det_ext n (mmul n T A) (fun r c => if (r <? 0)%nat then A r c else mmul n T A r c)) by reflexivity.
  rewrite K. f_equal. clear.
  (* the product in the other order *)
  assert (R : forall f m, prod (S m) f = f O * prod m (fun i => f (S i))).
  { intros f. induction m as [|m IH]; [simpl; ring|]. change (prod (S (S m)) f) with (prod (S m) f * f (S m)). rewrite IH. simpl. ring. }
  induction n as [|n IH]; [reflexivity|]. rewrite R. cbn [prod]. replace (S n - 1)%nat with n by lia.
  rewrite <- IH. rewrite Rmult_comm. f_equal.
Qed.
Lemma det_upper_mul n T A : (forall i k, (k < i)%nat -> T i k = 0) -> det n (mmul n T A) = prod n (fun i => T i i) * det n A.
Proof.
  intros H0.
  assert (K : forall m, (m <= n)%nat ->
     det n (fun r c => if (r <? m)%nat then mmul n T A r c else A r c) = prod m (fun i => T i i) * det n A).
  { induction m as [|m IH]; intros Hm.
    - cbn [prod]. rewrite Rmult_1_l. apply det_ext. reflexivity.
    - cbn [prod]. set (B := fun r c => if (r <? m)%nat then mmul n T A r c else A r c) in *.
      rewrite (det_ext n _ (set_row m (fun c => sum n (fun k => T m k * B k c)) B)).
      + rewrite det_row_comb by lia. rewrite IH by lia. ring.
      + intros r c Hr Hc. unfold set_row. destruct (Nat.eqb_spec r m) as [->|N].
        * destruct (Nat.ltb_spec m (S m)); [|lia]. unfold mmul. apply sum_ext. intros k Hk.
          destruct (Nat.lt_ge_cases k m); [rewrite H0 by lia; ring|]. unfold B.
          destruct (Nat.ltb_spec k m); [lia|reflexivity].
        * unfold B. destruct (Nat.ltb_spec r (S m)), (Nat.ltb_spec r m); try lia; reflexivity. }
  rewrite <- (K n (le_n n)). apply det_ext. intros r c Hr _. destruct (Nat.ltb_spec r n); [reflexivity|lia].
Qed.
Lemma mmul_transpose n A B i j : transpose (mmul n A B) i j = mmul n (transpose B) (transpose A) i j.
Proof. unfold transpose, mmul. apply sum_ext. intros; ring. Qed.
Lemma det_mul_upper n A T : (forall i k, (k < i)%nat -> T i k = 0) -> det n (mmul n A T) = prod n (fun i => T i i) * det n A.
Proof.
  intros H0. rewrite <- det_transpose, <- (det_transpose n A).
  rewrite (det_ext n _ (mmul n (transpose T) (transpose A))) by (intros; apply mmul_transpose).
  apply (det_lower_mul n (transpose T)). intros i k Hk. apply H0. exact Hk.
Qed.
Lemma det_mul_lower n A T : (forall i k, (i < k)%nat -> T i k = 0) -> det n (mmul n A T) = prod n (fun i => T i i) * det n A.
Proof.
  intros H0. rewrite <- det_transpose, <- (det_transpose n A).
  rewrite (det_ext n _ (mmul n (transpose T) (transpose A))) by (intros; apply mmul_transpose).
  apply (det_upper_mul n (transpose T)). intros i k Hk. apply H0. exact Hk.
Qed.

(** ** Diagonally dominant matrices *)
Lemma sum_le n f g : (forall i, (i < n)%nat -> f i <= g i) -> sum n f <= sum n g.
Proof. induction n; simpl; intros H; [lra|]. pose proof (H n ltac:(lia)). assert (sum n f <= sum n g) by auto. lra. Qed.
Lemma sum_nonneg n f : (forall i, (i < n)%nat -> 0 <= f i) -> 0 <= sum n f.
Proof. induction n; simpl; intros H; [lra|]. pose proof (H n ltac:(lia)). assert (0 <= sum n f) by auto. lra. Qed.
Lemma sum_except n r f : (r < n)%nat -> sum n f = f r + sum n (fun c => if c =? r then 0 else f c).
Proof.
  intros Hr. rewrite (sum_split n r f Hr), (sum_split n r (fun c => if c =? r then 0 else f c) Hr).
  rewrite Nat.eqb_refl.
  rewrite (sum_ext r (fun c => if c =? r then 0 else f c) f) by (intros i Hi; destruct (Nat.eqb_spec i r); [lia|reflexivity]).
  rewrite (sum_ext (n - S r) (fun i => if (S r + i =? r)%nat then 0 else f (S r + i)%nat) (fun i => f (S r + i)%nat))
    by (intros i Hi; destruct (Nat.eqb_spec (S r + i) r); [lia|reflexivity]).
  ring.
Qed.
Lemma sum_abs_ge n r f : (r < n)%nat -> Rabs (f r) <= sum n (fun c => Rabs (f c)).
Proof.
  intros Hr. rewrite (sum_except n r (fun c => Rabs (f c)) Hr).
  assert (0 <= sum n (fun c => if c =? r then 0 else Rabs (f c))); [|lra].
  apply sum_nonneg. intros i _. destruct (i =? r); [lra|apply Rabs_pos].
Qed.
Lemma det_dominant n : forall M, (forall i, (i < n)%nat -> sum n (fun j => Rabs (M i j)) < 2 * M i i) -> 0 < det n M.
Proof.
  induction n as [|n IH]; intros M HM; [simpl; lra|].
  assert (Pd : forall i, (i < S n)%nat -> 0 < M i i).
  { intros i Hi. pose proof (HM i Hi). pose proof (sum_abs_ge (S n) i (M i) Hi). pose proof (Rle_abs (M i i)). lra. }
  pose proof (Pd O ltac:(lia)) as Ha. set (a := M O O) in *.
  rewrite det_schur by (fold a; lra). apply Rmult_lt_0_compat; [exact Ha|]. apply IH. intros r Hr.
  pose proof (HM O ltac:(lia)) as H0. pose proof (HM (S r) ltac:(lia)) as H1.
  pose proof (Pd (S r) ltac:(lia)) as Hd.
  rewrite sum_first in H0, H1.
  rewrite (sum_except n r (fun j => Rabs (M O (S j))) Hr) in H0. rewrite (sum_except n r (fun j => Rabs (M (S r) (S j))) Hr) in H1.
  set (b := M (S r) O) in *. set (d := M (S r) (S r)) in *. set (e := M O (S r)) in *. fold a in H0.
  set (S0 := sum n (fun c => if c =? r then 0 else Rabs (M O (S c)))) in *.
  set (S1 := sum n (fun c => if c =? r then 0 else Rabs (M (S r) (S c)))) in *.
  rewrite (Rabs_pos_eq a) in H0 by lra. rewrite (Rabs_pos_eq d) in H1 by lra.
  rewrite (sum_except n r (fun j => Rabs (schur M r j)) Hr).
  assert (E : sum n (fun c => if c =? r then 0 else Rabs (schur M r c)) <= S1 + Rabs b / a * S0).
  { unfold S1, S0. rewrite <- sum_scal, <- sum_plus. apply sum_le. intros c Hc. destruct (c =? r); [lra|].
    unfold schur. fold a b. unfold Rminus. eapply Rle_trans; [apply Rabs_triang|]. rewrite Rabs_Ropp, Rabs_mult.
    unfold Rdiv. rewrite Rabs_mult, (Rabs_pos_eq (/ a)); [lra|]. left. apply Rinv_0_lt_compat; exact Ha. }
  assert (Es : schur M r r = d - b / a * e) by reflexivity.
  assert (Hb : 0 <= Rabs b / a) by (apply Rmult_le_pos; [apply Rabs_pos|left; apply Rinv_0_lt_compat; exact Ha]).
  assert (F : Rabs b / a * S0 <= Rabs b - Rabs b / a * Rabs e).
  { replace (Rabs b - Rabs b / a * Rabs e) with (Rabs b / a * (a - Rabs e)) by (field; lra).
    apply Rmult_le_compat_l; [exact Hb|lra]. }
  assert (G : b / a * e <= Rabs b / a * Rabs e).
  { eapply Rle_trans; [apply Rle_abs|]. rewrite Rabs_mult. unfold Rdiv. rewrite Rabs_mult, (Rabs_pos_eq (/ a)); [lra|].
    left. apply Rinv_0_lt_compat; exact Ha. }
  assert (0 <= S1) by (apply sum_nonneg; intros c _; destruct (c =? r); [lra|apply Rabs_pos]).
  assert (0 <= Rabs b / a * S0).
  { apply Rmult_le_pos; [exact Hb|]. apply sum_nonneg; intros c _; destruct (c =? r); [lra|apply Rabs_pos]. }
  assert (Rabs (schur M r r) = schur M r r); [apply Rabs_pos_eq; lra|]. lra.
Qed.
(** |M - I| < 1 in the maximum norm *)
Lemma det_near_id n M : (forall i, (i < n)%nat -> sum n (fun j => Rabs (M i j - if i =? j then 1 else 0)) < 1) -> 0 < det n M.
Proof.
  intros H. apply det_dominant. intros i Hi. specialize (H i Hi).
  rewrite (sum_except n i (fun j => Rabs (M i j - if i =? j then 1 else 0)) Hi) in H. rewrite Nat.eqb_refl in H.
  rewrite (sum_except n i (fun j => Rabs (M i j)) Hi).
  rewrite (sum_ext n _ (fun c => if c =? i then 0 else Rabs (M i c))) in H.
  2: { intros c _. destruct (Nat.eqb_spec c i); [reflexivity|]. destruct (Nat.eqb_spec i c); [congruence|]. f_equal. ring. }
  set (s := sum n (fun c => if c =? i then 0 else Rabs (M i c))) in *.
  unfold Rabs in *. destruct (Rcase_abs (M i i - 1)), (Rcase_abs (M i i)); try lra.
  assert (0 <= s); [|lra]. unfold s. apply sum_nonneg. intros c _.
  destruct (c =? i); [lra|]. destruct (Rcase_abs (M i c)); lra.
Qed.

(** * C90: set functions for any ordered base type and any checking policy (utility.hpp) *)

From Coq Require Import ZArith Bool Lia.
From Verif Require Import Outcome Base Checking Interval Utility Spec ExactNum ExCmp Compare SpecOrder CmpProof.

(** ** Specification *)
Section Specification.
Context (N : num).
Notation le a b := (n_le N a b = true).
(** m is the larger, the smaller of a and b. *)
Definition larger (a b m : T N) : Prop := (m = a \/ m = b) /\ le a m /\ le b m.
Definition smaller (a b m : T N) : Prop := (m = a \/ m = b) /\ le m a /\ le m b.
(** z is the least interval that contains the results of f for members of x and y. *)
Definition least_image (f : T N -> T N -> T N -> Prop) (x y : T N -> Prop) (z : itv N) : Prop :=
  le (low z) (up z) /\
  (forall a b m, x a -> y b -> f a b m -> within N z m) /\
  (exists a b, x a /\ y b /\ f a b (low z)) /\ (exists a b, x a /\ y b /\ f a b (up z)).
(** z is the least interval that contains x and y. *)
Definition least_hull (x y : T N -> Prop) (z : itv N) : Prop :=
  le (low z) (up z) /\ (forall a, x a \/ y a -> within N z a) /\
  (x (low z) \/ y (low z)) /\ (x (up z) \/ y (up z)).
(** The number v and no other. *)
Definition only (v a : T N) : Prop := a = v.
End Specification.

Section Any.
Context (N : num) (P : policy N) (H : ordered_type N).
Implicit Types (x y : itv N) (v w : T N).
Notation le a b := (n_le N a b = true).

Lemma max_larger a b : larger N a b (std_max a b).
Proof.
  unfold std_max, larger. destruct (n_lt N a b) eqn:E.
  - split; [right; reflexivity|]. split; [apply (lt_le N H); exact E|apply (le_refl N H)].
  - split; [left; reflexivity|]. split; [apply (le_refl N H)|apply (lt_false N H); exact E].
Qed.
Lemma min_smaller a b : smaller N a b (std_min a b).
Proof.
  unfold std_min, smaller. destruct (n_lt N b a) eqn:E.
  - split; [right; reflexivity|]. split; [apply (lt_le N H); exact E|apply (le_refl N H)].
  - split; [left; reflexivity|]. split; [apply (le_refl N H)|apply (lt_false N H); exact E].
Qed.
Lemma larger_mono a b m a' b' m' : le a a' -> le b b' -> larger N a b m -> larger N a' b' m' -> le m m'.
Proof.
  intros A B ([->| ->] & _) (_ & C & D); [apply (oy_trans _ H) with a'|apply (oy_trans _ H) with b']; assumption.
Qed.
Lemma smaller_mono a b m a' b' m' : le a a' -> le b b' -> smaller N a b m -> smaller N a' b' m' -> le m m'.
Proof.
  intros A B (_ & C & D) ([->| ->] & _); [apply (oy_trans _ H) with a|apply (oy_trans _ H) with b]; assumption.
Qed.
Lemma low_in x : le (low x) (up x) -> within N x (low x).
Proof. intros V. split; [apply (le_refl N H)|exact V]. Qed.
Lemma up_in x : le (low x) (up x) -> within N x (up x).
Proof. intros V. split; [exact V|apply (le_refl N H)]. Qed.

Definition regular x : Prop := taken_empty N P x \/ proper N P x.

(** ** Questions *)
Theorem C90_in : forall v y b, nan_test N P v b ->
  answers (u_in P v y) (b = false /\ elements N P y v).
Proof.
  intros v y b HN. unfold nan_test, returns in HN. unfold answers, returns, u_in, test_input_ni, test_input_i, bind, elements, taken_empty, within.
  destruct b; [|destruct (ck_is_empty (p_ck P) (low y) (up y)) eqn:E].
  - exists false. split; [intros s; rewrite HN; reflexivity|intuition congruence].
  - exists false. split; [intros s; rewrite HN; reflexivity|intuition congruence].
  - eexists. split; [intros s; rewrite HN; reflexivity|]. rewrite andb_true_iff. intuition congruence.
Qed.
Theorem C90_zero_in : forall x, zero_in P x = true <-> elements N P x zero.
Proof.
  intros x. unfold zero_in, test_input_i, elements, taken_empty, within, is_pos, is_neg, n_gt.
  destruct (ck_is_empty (p_ck P) (low x) (up x)); [intuition congruence|].
  rewrite andb_true_iff, !negb_true_iff, !(lt_false N H). intuition congruence.
Qed.
Theorem C90_overlap : forall x y, regular x -> regular y ->
  (overlap P x y = true <-> exists a, elements N P x a /\ elements N P y a).
Proof.
  intros x y X Y. unfold regular, proper, overlap, test_input_ii, test_input_i, elements, taken_empty, within in *.
  destruct (ck_is_empty (p_ck P) (low x) (up x)) eqn:E1.
  { split; [discriminate|]. intros (a & (A & _) & _). congruence. }
  destruct X as [X|(_ & X)]; [discriminate|].
  destruct (ck_is_empty (p_ck P) (low y) (up y)) eqn:E2.
  { split; [discriminate|]. intros (a & _ & (A & _)). congruence. }
  destruct Y as [Y|(_ & Y)]; [discriminate|].
  cbn [orb]. rewrite orb_true_iff, !andb_true_iff. split.
  - intros [(A & B)|(A & B)]; [exists (low y)|exists (low x)]; repeat split; try congruence; try assumption; apply (le_refl N H).
  - intros (a & (_ & A1 & A2) & (_ & B1 & B2)). destruct (oy_total _ H (low x) (low y)) as [C|C]; [left|right]; (split; [exact C|]);
      apply (oy_trans _ H) with a; assumption.
Qed.
Theorem C90_singleton : forall x, regular x ->
  (singleton P x = true <-> exists a, elements N P x a /\ forall b, elements N P x b -> n_eq N a b = true).
Proof.
  intros x X. unfold regular, proper, singleton, u_empty, test_input_i, elements, taken_empty, within in *.
  destruct (ck_is_empty (p_ck P) (low x) (up x)) eqn:E1; cbn [negb andb].
  { split; [discriminate|]. intros (a & (A & _) & _). congruence. }
  destruct X as [X|(_ & X)]; [discriminate|]. rewrite (oy_eq _ H). split.
  - intros (A & B). exists (low x). split; [split; [congruence|split; [apply (le_refl N H)|exact A]]|].
    intros b (_ & C & D). apply (oy_eq _ H). split; [exact C|]. apply (oy_trans _ H) with (up x); assumption.
  - intros (a & _ & A).
    assert (L : n_eq N a (low x) = true) by (apply A; split; [congruence|split; [apply (le_refl N H)|exact X]]).
    assert (U : n_eq N a (up x) = true) by (apply A; split; [congruence|split; [exact X|apply (le_refl N H)]]).
    apply (oy_eq _ H) in L, U. split; [exact X|]. apply (oy_trans _ H) with a; tauto.
Qed.

(** ** Intersections and hulls *)
Theorem C90_intersect : forall x y, regular x -> regular y ->
  ((exists a, elements N P x a /\ elements N P y a) ->
   exists z, returns (intersect P x y) z /\ le (low z) (up z) /\
     forall a, within N z a <-> elements N P x a /\ elements N P y a) /\
  (~ (exists a, elements N P x a /\ elements N P y a) -> intersect P x y = i_empty P).
Proof.
  intros x y X Y. unfold intersect, test_input_ii, test_input_i, elements, taken_empty.
  pose proof (max_larger (low x) (low y)) as (M0 & M1 & M2). pose proof (min_smaller (up x) (up y)) as (N0 & N1 & N2).
  destruct (ck_is_empty (p_ck P) (low x) (up x)) eqn:E1.
  { split; [|reflexivity]. intros (a & (A & _) & _). congruence. }
  destruct (ck_is_empty (p_ck P) (low y) (up y)) eqn:E2.
  { split; [|reflexivity]. intros (a & _ & (A & _)). congruence. }
  cbn [orb].
  assert (K : forall a, le (std_max (low x) (low y)) a /\ le a (std_min (up x) (up y)) <-> within N x a /\ within N y a).
  { intros a. unfold within. split.
    - intros (A & B). split; split.
      + apply (oy_trans _ H) with (std_max (low x) (low y)); assumption.
      + apply (oy_trans _ H) with (std_min (up x) (up y)); assumption.
      + apply (oy_trans _ H) with (std_max (low x) (low y)); assumption.
      + apply (oy_trans _ H) with (std_min (up x) (up y)); assumption.
    - intros ((A & B) & C & D). split; [destruct M0 as [-> | ->]|destruct N0 as [-> | ->]]; assumption. }
  destruct (n_le N (std_max (low x) (low y)) (std_min (up x) (up y))) eqn:E3.
  - split.
    + intros _. exists (mk (std_max (low x) (low y)) (std_min (up x) (up y))). split; [intros s; reflexivity|]. split; [exact E3|].
      intros a. unfold within at 1. cbn [low up]. rewrite K. intuition congruence.
    + intros F. exfalso. apply F. exists (std_max (low x) (low y)).
      destruct (proj1 (K _) (conj (le_refl N H _) E3)) as (A & B). repeat split; try congruence; apply A || apply B.
  - split; [|reflexivity]. intros (a & (_ & A) & (_ & B)). destruct (proj2 (K a) (conj A B)) as (C & D).
    assert (le (std_max (low x) (low y)) (std_min (up x) (up y))) by (apply (oy_trans _ H) with a; assumption). congruence.
Qed.

Lemma hull_bounds (X Y : T N -> Prop) l u l' u' : le l u -> le l' u' ->
  (forall a, X a -> le l a /\ le a u) -> (forall a, Y a -> le l' a /\ le a u') -> X l -> X u -> Y l' -> Y u' ->
  least_hull N X Y (mk (std_min l l') (std_max u u')).
Proof.
  intros V W HX HY A1 A2 B1 B2. pose proof (min_smaller l l') as (M0 & M1 & M2). pose proof (max_larger u u') as (N0 & N1 & N2).
  unfold least_hull, within. cbn [low up]. split; [|split; [|split]].
  - apply (oy_trans _ H) with l; [exact M1|]. apply (oy_trans _ H) with u; assumption.
  - intros a [A|A]; [apply HX in A|apply HY in A]; destruct A as (A & B); split.
    + apply (oy_trans _ H) with l; assumption.
    + apply (oy_trans _ H) with u; assumption.
    + apply (oy_trans _ H) with l'; assumption.
    + apply (oy_trans _ H) with u'; assumption.
  - destruct M0 as [-> | ->]; tauto.
  - destruct N0 as [-> | ->]; tauto.
Qed.
(** Empty operands and NaNs are ignored; with nothing left the hull is empty. *)
Theorem C90_hull : forall x y,
  (proper N P x -> proper N P y -> exists z, returns (hull P x y) z /\ least_hull N (within N x) (within N y) z) /\
  (taken_empty N P x -> ~ taken_empty N P y -> returns (hull P x y) y) /\
  (~ taken_empty N P x -> taken_empty N P y -> returns (hull P x y) x) /\
  (taken_empty N P x -> taken_empty N P y -> hull P x y = i_empty P).
Proof.
  intros x y. unfold hull, test_input_i, proper, taken_empty, returns.
  destruct (ck_is_empty (p_ck P) (low x) (up x)), (ck_is_empty (p_ck P) (low y) (up y));
    split; [|split; [|split]| |split; [|split]| |split; [|split]| |split; [|split]]; intros A B; try (destruct A; congruence); try (destruct B; congruence); try congruence; try reflexivity.
  destruct A as (_ & V), B as (_ & W). eexists. split; [intros s; reflexivity|].
  apply hull_bounds; try assumption; try (intros a A; exact A); (apply low_in || apply up_in); assumption.
Qed.
Theorem C90_hull_number : forall x v b, nan_test N P v b ->
  (proper N P x -> b = false ->
     (exists z, returns (hull_in P x v) z /\ least_hull N (within N x) (only N v) z) /\
     (exists z, returns (hull_ni P v x) z /\ least_hull N (only N v) (within N x) z)) /\
  (taken_empty N P x -> b = false -> returns (hull_in P x v) (mk v v) /\ returns (hull_ni P v x) (mk v v)) /\
  (~ taken_empty N P x -> b = true -> returns (hull_in P x v) x /\ returns (hull_ni P v x) x) /\
  (taken_empty N P x -> b = true -> forall s, hull_in P x v s = i_empty P s /\ hull_ni P v x s = i_empty P s).
Proof.
  intros x v b HN. unfold nan_test, returns in HN. unfold hull_in, hull_ni, test_input_n, test_input_i, proper, taken_empty, returns, bind.
  split; [|split; [|split]].
  - intros (E & V) ->. apply not_true_iff_false in E. rewrite E. split; (eexists; split; [intros s; rewrite HN; reflexivity|]);
      apply hull_bounds; try assumption; try apply (le_refl N H); try (intros a A; exact A); try reflexivity;
      try (apply low_in; assumption); try (apply up_in; assumption); intros a ->; split; apply (le_refl N H).
  - intros E ->. rewrite E. split; intros s; rewrite HN; reflexivity.
  - intros E ->. apply not_true_iff_false in E. rewrite E. split; intros s; rewrite HN; reflexivity.
  - intros E ->. intros s. rewrite E, HN. split; reflexivity.
Qed.
Theorem C90_hull_numbers : forall v w b c, nan_test N P v b -> nan_test N P w c ->
  (b = false -> c = false -> exists z, returns (hull_nn P v w) z /\ least_hull N (only N v) (only N w) z) /\
  (b = false -> c = true -> returns (hull_nn P v w) (mk v v)) /\
  (b = true -> c = false -> returns (hull_nn P v w) (mk w w)) /\
  (b = true -> c = true -> forall s, hull_nn P v w s = i_empty P s).
Proof.
  intros v w b c HV HW. unfold nan_test, returns in HV, HW. unfold hull_nn, i_hull, returns, bind.
  split; [|split; [|split]]; intros -> ->; try (intros s; rewrite HV, HW; reflexivity).
  destruct (n_le N v w) eqn:E.
  - exists (mk v w). split; [intros s; rewrite HV, HW; reflexivity|]. unfold least_hull, within, only. cbn [low up].
    split; [exact E|]. split; [|tauto]. intros a [-> | ->]; split; try assumption; apply (le_refl N H).
  - exists (mk w v). split; [intros s; rewrite HV, HW; reflexivity|]. unfold least_hull, within, only. cbn [low up].
    assert (F : le w v) by (destruct (oy_total _ H v w); [congruence|assumption]).
    split; [exact F|]. split; [|tauto]. intros a [-> | ->]; split; try assumption; apply (le_refl N H).
Qed.

(** ** max and min *)
Lemma image_max (X Y : T N -> Prop) l u l' u' :
  (forall a, X a -> le l a /\ le a u) -> (forall a, Y a -> le l' a /\ le a u') -> X l -> X u -> Y l' -> Y u' ->
  least_image N (larger N) X Y (mk (std_max l l') (std_max u u')).
Proof.
  intros HX HY A1 A2 B1 B2. unfold least_image, within. cbn [low up]. split; [|split; [|split]].
  - apply larger_mono with l l' u u'; try apply max_larger; [apply HX|apply HY]; assumption.
  - intros a b m A B M. apply HX in A. apply HY in B. split.
    + apply larger_mono with l l' a b; try apply max_larger; tauto.
    + apply larger_mono with a b u u'; try apply max_larger; tauto.
  - exists l, l'. split; [exact A1|]. split; [exact B1|apply max_larger].
  - exists u, u'. split; [exact A2|]. split; [exact B2|apply max_larger].
Qed.
Lemma image_min (X Y : T N -> Prop) l u l' u' :
  (forall a, X a -> le l a /\ le a u) -> (forall a, Y a -> le l' a /\ le a u') -> X l -> X u -> Y l' -> Y u' ->
  least_image N (smaller N) X Y (mk (std_min l l') (std_min u u')).
Proof.
  intros HX HY A1 A2 B1 B2. unfold least_image, within. cbn [low up]. split; [|split; [|split]].
  - apply smaller_mono with l l' u u'; try apply min_smaller; [apply HX|apply HY]; assumption.
  - intros a b m A B M. apply HX in A. apply HY in B. split.
    + apply smaller_mono with l l' a b; try apply min_smaller; tauto.
    + apply smaller_mono with a b u u'; try apply min_smaller; tauto.
  - exists l, l'. split; [exact A1|]. split; [exact B1|apply min_smaller].
  - exists u, u'. split; [exact A2|]. split; [exact B2|apply min_smaller].
Qed.
Theorem C90_max_min : forall x y,
  (proper N P x -> proper N P y ->
     (exists z, returns (u_max P x y) z /\ least_image N (larger N) (within N x) (within N y) z) /\
     (exists z, returns (u_min P x y) z /\ least_image N (smaller N) (within N x) (within N y) z)) /\
  (taken_empty N P x \/ taken_empty N P y -> u_max P x y = i_empty P /\ u_min P x y = i_empty P).
Proof.
  intros x y. unfold u_max, u_min, test_input_ii, test_input_i, proper, taken_empty, returns. split.
  - intros (E1 & V) (E2 & W). apply not_true_iff_false in E1, E2. rewrite E1, E2. cbn [orb].
    split; (eexists; split; [intros s; reflexivity|]); [apply image_max|apply image_min]; try (intros a A; exact A);
      try (apply low_in; assumption); apply up_in; assumption.
  - intros E. apply orb_true_iff in E. rewrite E. split; reflexivity.
Qed.
Theorem C90_max_min_number : forall x v b, nan_test N P v b ->
  (proper N P x -> b = false ->
     (exists z, returns (u_max_in P x v) z /\ least_image N (larger N) (within N x) (only N v) z) /\
     (exists z, returns (u_max_ni P v x) z /\ least_image N (larger N) (only N v) (within N x) z) /\
     (exists z, returns (u_min_in P x v) z /\ least_image N (smaller N) (within N x) (only N v) z) /\
     (exists z, returns (u_min_ni P v x) z /\ least_image N (smaller N) (only N v) (within N x) z)) /\
  (taken_empty N P x \/ b = true -> forall s,
     u_max_in P x v s = i_empty P s /\ u_max_ni P v x s = i_empty P s /\
     u_min_in P x v s = i_empty P s /\ u_min_ni P v x s = i_empty P s).
Proof.
  intros x v b HN. unfold nan_test, returns in HN.
  unfold u_max_in, u_max_ni, u_min_in, u_min_ni, test_input_in, test_input_ni, test_input_i, proper, taken_empty, returns, bind. split.
  - intros (E & V) ->. apply not_true_iff_false in E. rewrite E.
    split; [|split; [|split]]; (eexists; split; [intros s; rewrite HN; reflexivity|]); (apply image_max || apply image_min);
      try (intros a A; exact A); try reflexivity; try (apply low_in; assumption); try (apply up_in; assumption);
      intros a ->; split; apply (le_refl N H).
  - intros E s. rewrite HN. destruct b; destruct (ck_is_empty (p_ck P) (low x) (up x)); rewrite ?HN;
      try (split; [|split; [|split]]; reflexivity). destruct E; discriminate.
Qed.
End Any.

(** Operands of the policy of test/cmp_exn.cpp. *)
Example C90_case : let P := cx_pol (fun _ => true) in
  let i a b := mk (N := int_num) a b in let e := i (-1)%Z (-1)%Z in
  let x := i 1%Z 5%Z in let y := i 3%Z 8%Z in
  regular int_num P e /\ regular int_num P x /\ regular int_num P y /\
  returns (u_in P 4%Z x) true /\ returns (u_in P (-1)%Z x) false /\ zero_in P x = false /\
  overlap P x y = true /\ overlap P x e = false /\ singleton P (i 2 2)%Z = true /\ singleton P e = false /\
  returns (intersect P x y) (i 3 5)%Z /\ returns (intersect P x (i 6 7)%Z) e /\
  returns (hull P x y) (i 1 8)%Z /\ returns (hull P e y) y /\ returns (hull_in P x (-2)%Z) x /\ returns (hull_nn P 7%Z 2%Z) (i 2 7)%Z /\
  returns (u_max P x y) y /\ returns (u_min P x y) x /\ returns (u_max_in P x 2%Z) (i 2 5)%Z.
Proof.
  intros P i e x y. split; [left; reflexivity|]. split; [right; split; [discriminate|reflexivity]|].
  split; [right; split; [discriminate|reflexivity]|].
  repeat split; intros; reflexivity.
Qed.

Print Assumptions C90_in.
Print Assumptions C90_zero_in.
Print Assumptions C90_overlap.
Print Assumptions C90_singleton.
Print Assumptions C90_intersect.
Print Assumptions C90_hull.
Print Assumptions C90_hull_number.
Print Assumptions C90_hull_numbers.
Print Assumptions C90_max_min.
Print Assumptions C90_max_min_number.

(** * Intervals over ordered rings and fields *)

From Coq Require Import ZArith Bool Lia Setoid Morphisms Ring Ring_theory.
From Verif Require Import Outcome Base Checking Interval Utility Arith Arith2 FloatNum Spec ExactNum Ops SpecUser SpecOrdered.

Section Ring.
Context (F : exact_type) (H : ordered_ring F).
Notation t := (ef_T F).
Notation N := (exact_num F).
Notation I := (itv N).
Notation "0" := (ef_int F 0).
Notation "1" := (ef_int F 1).
Infix "+" := (ef_add F).
Infix "-" := (ef_sub F).
Infix "*" := (ef_mul F).
Notation "- x" := (ef_opp F x).
Infix "==" := (@o_eq F) (at level 70).
Infix "<=" := (@o_le F).
Infix "<" := (@o_lt F).

Let TO : total_order F := proj1 H.
Let OL : order_laws F := proj1 (proj2 H).
Let AR : arithmetic F := proj2 (proj2 H).

Lemma le_refl a : a <= a.
Proof. destruct (to_total F TO a a); auto. Qed.
Lemma le_trans a b c : a <= b -> b <= c -> a <= c.
Proof. apply (to_trans F TO). Qed.
Lemma eq_le a b : a == b -> a <= b.
Proof. intros E. apply (to_eq F TO) in E. tauto. Qed.
Lemma eq_ge a b : a == b -> b <= a.
Proof. intros E. apply (to_eq F TO) in E. tauto. Qed.
Lemma le_antisym a b : a <= b -> b <= a -> a == b.
Proof. intros. apply (to_eq F TO). auto. Qed.
Lemma lt_le a b : a < b -> a <= b.
Proof. intros L. apply (to_lt F TO) in L. destruct (to_total F TO a b); tauto. Qed.
Lemma lt_or_le a b : a < b \/ b <= a.
Proof.
  destruct (ef_le F b a) eqn:E; [right; exact E|left]. apply (to_lt F TO). unfold o_le. congruence.
Qed.

Instance eq_equiv : Equivalence (@o_eq F).
Proof.
  split.
  - intros a. apply le_antisym; apply le_refl.
  - intros a b E. apply le_antisym; [apply eq_ge|apply eq_le]; auto.
  - intros a b c E1 E2. apply le_antisym.
    + eapply le_trans; apply eq_le; eauto.
    + eapply le_trans; apply eq_ge; eauto.
Qed.
Instance add_proper : Proper (@o_eq F ==> @o_eq F ==> @o_eq F) (ef_add F) := Radd_ext (ar_ext F AR).
Instance mul_proper : Proper (@o_eq F ==> @o_eq F ==> @o_eq F) (ef_mul F) := Rmul_ext (ar_ext F AR).
Instance opp_proper : Proper (@o_eq F ==> @o_eq F) (ef_opp F) := Ropp_ext (ar_ext F AR).
Add Ring Rring : (ar_ring F AR) (setoid eq_equiv (ar_ext F AR)).
Instance sub_proper : Proper (@o_eq F ==> @o_eq F ==> @o_eq F) (ef_sub F).
Proof.
  intros a b E c d E'. transitivity (a + - c); [ring|]. rewrite E, E'. ring.
Qed.
Instance le_proper : Proper (@o_eq F ==> @o_eq F ==> iff) (@o_le F).
Proof.
  intros a b E c d E'. split; intros L.
  - eapply le_trans; [apply eq_ge; exact E|]. eapply le_trans; [exact L|]. apply eq_le; auto.
  - eapply le_trans; [apply eq_le; exact E|]. eapply le_trans; [exact L|]. apply eq_ge; auto.
Qed.
Instance lt_proper : Proper (@o_eq F ==> @o_eq F ==> iff) (@o_lt F).
Proof. intros a b E c d E'. rewrite !(to_lt F TO). rewrite E, E'. tauto. Qed.

(** ** Monotony *)
Lemma opp_le a b : a <= b -> - b <= - a.
Proof. apply (ol_opp F OL). Qed.
Lemma opp_pos a : a <= 0 -> 0 <= - a.
Proof. intros L. apply opp_le in L. assert (E : - 0 == 0) by ring. rewrite E in L. exact L. Qed.
Lemma opp_neg a : 0 <= a -> - a <= 0.
Proof. apply (ol_opp_0 F OL). Qed.
Lemma add_le a b c d : a <= b -> c <= d -> a + c <= b + d.
Proof.
  intros A B. eapply le_trans; [apply (ol_add F OL); exact A|].
  assert (E1 : b + c == c + b) by ring. assert (E2 : b + d == d + b) by ring. rewrite E1, E2. apply (ol_add F OL), B.
Qed.
Lemma sub_le a b c d : a <= b -> d <= c -> a - c <= b - d.
Proof.
  intros A B. assert (E1 : a - c == a + - c) by ring. assert (E2 : b - d == b + - d) by ring. rewrite E1, E2.
  apply add_le; auto. apply opp_le, B.
Qed.
(** Products, on the left (l) and on the right (r), with a factor of either sign. *)
Lemma mulp_l a b c : a <= b -> 0 <= c -> a * c <= b * c.
Proof. apply (ol_mul F OL). Qed.
Lemma muln_l a b c : a <= b -> c <= 0 -> b * c <= a * c.
Proof.
  intros A C. assert (E1 : a * c == - a * - c) by ring. assert (E2 : b * c == - b * - c) by ring. rewrite E1, E2.
  apply mulp_l; [apply opp_le, A|apply opp_pos, C].
Qed.
Lemma mulp_r a b c : a <= b -> 0 <= c -> c * a <= c * b.
Proof.
  intros. assert (E1 : c * a == a * c) by ring. assert (E2 : c * b == b * c) by ring. rewrite E1, E2. apply mulp_l; auto.
Qed.
Lemma muln_r a b c : a <= b -> c <= 0 -> c * b <= c * a.
Proof.
  intros. assert (E1 : c * a == a * c) by ring. assert (E2 : c * b == b * c) by ring. rewrite E1, E2. apply muln_l; auto.
Qed.
Lemma mul_pos a b : 0 <= a -> 0 <= b -> 0 <= a * b.
Proof. intros A B. assert (E : 0 * b == 0) by ring. rewrite <- E. apply mulp_l; auto. Qed.
Lemma sq_pos a : 0 <= a * a.
Proof.
  destruct (to_total F TO 0 a) as [A|A]; [apply mul_pos; auto|].
  assert (E : a * a == - a * - a) by ring. rewrite E. apply mul_pos; apply opp_pos; auto.
Qed.

(** ** Signs *)
Lemma neg_case (a : T N) : (is_neg a = true /\ a < 0 /\ a <= 0) \/ (is_neg a = false /\ 0 <= a).
Proof.
  destruct (is_neg a) eqn:E; [left|right]; split; auto.
  - split; [exact E|]. apply lt_le, E.
  - destruct (lt_or_le a 0) as [L|L]; auto. unfold o_lt in L. unfold is_neg, zero in E. cbn in E. congruence.
Qed.
Lemma pos_case (a : T N) : (is_pos a = true /\ 0 < a /\ 0 <= a) \/ (is_pos a = false /\ a <= 0).
Proof.
  destruct (is_pos a) eqn:E; [left|right]; split; auto.
  - split; [exact E|]. apply lt_le, E.
  - destruct (lt_or_le 0 a) as [L|L]; auto. unfold o_lt in L. unfold is_pos, n_gt, zero in E. cbn in E. congruence.
Qed.
Lemma zero_iff (a : T N) : is_zero a = true <-> a == 0.
Proof. reflexivity. Qed.
Lemma min_case (a b : T N) : (std_min a b = a /\ a <= b) \/ (std_min a b = b /\ b <= a).
Proof.
  unfold std_min. cbn. destruct (ef_lt F b a) eqn:E; [right|left]; split; auto.
  - apply lt_le, E.
  - destruct (lt_or_le b a) as [L|L]; auto. unfold o_lt in L. congruence.
Qed.
Lemma max_case (a b : T N) : (std_max a b = a /\ b <= a) \/ (std_max a b = b /\ a <= b).
Proof.
  unfold std_max. cbn. destruct (ef_lt F a b) eqn:E; [right|left]; split; auto.
  - apply lt_le, E.
  - destruct (lt_or_le a b) as [L|L]; auto. unfold o_lt in L. congruence.
Qed.

(** ** The policy *)
Section Pol.
Context (debug : bool) (c : ckind) (ord : site -> bool).
Notation P := (exact_pol N debug c ord).

Lemma nan_false v : ck_is_nan (p_ck P) v = ret false.
Proof. destruct c; reflexivity. Qed.
Lemma test_v (x : I) : o_valid x -> test_input_i P x = false.
Proof.
  intros V. unfold o_valid, o_le in V. unfold test_input_i. destruct c; cbn; try reflexivity; rewrite V; reflexivity.
Qed.
Lemma test_vv (x y : I) : o_valid x -> o_valid y -> test_input_ii P x y = false.
Proof.
  intros V W. unfold o_valid, o_le in V, W. unfold test_input_ii. destruct c; cbn; try reflexivity; rewrite V, W; reflexivity.
Qed.
Lemma test_n a : test_input_n P a = ret false.
Proof. unfold test_input_n. destruct c; reflexivity. Qed.
Lemma test_ni a (x : I) s : o_valid x -> test_input_ni P a x s = (Ok false, s).
Proof.
  intros V. unfold o_valid, o_le in V. unfold test_input_ni. destruct c; cbn; try rewrite V; reflexivity.
Qed.
Lemma test_in (x : I) a s : o_valid x -> test_input_in P x a s = (Ok false, s).
Proof.
  intros V. unfold o_valid, o_le in V. unfold test_input_in. destruct c; cbn; try rewrite V; reflexivity.
Qed.
Lemma test_nn a b s : test_input_nn P a b s = (Ok false, s).
Proof. unfold test_input_nn. destruct c; reflexivity. Qed.

Lemma mem_valid (x : I) a : o_mem x a -> o_valid x.
Proof. intros [A B]. eapply le_trans; eauto. Qed.
Lemma mem_eq (x : I) a b : a == b -> o_mem x a -> o_mem x b.
Proof. intros E [A B]. split; [rewrite <- E|rewrite <- E]; auto. Qed.

Lemma args_ok o (m1 m2 : M (T N)) a b s : m1 s = (Ok a, s) -> m2 s = (Ok b, s) ->
  mk_args o m1 m2 s = (Ok (mk a b), s).
Proof. intros A B. unfold mk_args, args2, bind, ret. destruct o; rewrite ?A, ?B; rewrite ?A, ?B; reflexivity. Qed.

Ltac run := intros s; unfold with_rnd; cbn [p_prot exact_pol];
  solve [ reflexivity | apply args_ok; reflexivity ].
Lemma low_mem (x : I) : o_valid x -> o_mem x (low x).
Proof. intros V. split; [apply le_refl|exact V]. Qed.
Lemma up_mem (x : I) : o_valid x -> o_mem x (up x).
Proof. intros V. split; [exact V|apply le_refl]. Qed.
Hint Resolve low_mem up_mem le_refl : core.
(** A result whose bounds are results at end points. *)
Lemma image2_intro f (x y : I) (l u : T N) : o_valid x -> o_valid y ->
  (forall a b, o_mem x a -> o_mem y b -> l <= f a b /\ f a b <= u) ->
  (exists a b, o_mem x a /\ o_mem y b /\ f a b == l) -> (exists a b, o_mem x a /\ o_mem y b /\ f a b == u) ->
  o_image2 f x y (mk l u).
Proof. intros V W A L U. split; [|split; assumption]. intros a b Ha Hb. apply A; auto. Qed.

Lemma r_add (x y : I) : o_valid x -> o_valid y ->
  exists z, returns (op_add P x y) z /\ o_image2 (ef_add F) x y z.
Proof.
  intros V W. exists (mk (N := N) (low x + low y) (up x + up y)). split.
  - intros s. unfold op_add. rewrite test_vv; auto. revert s. run.
  - apply image2_intro; auto.
    + intros a b [A1 A2] [B1 B2]. split; apply add_le; auto.
    + exists (low x), (low y). repeat split; auto; try reflexivity.
    + exists (up x), (up y). repeat split; auto; try reflexivity.
Qed.
Lemma r_sub (x y : I) : o_valid x -> o_valid y ->
  exists z, returns (op_sub P x y) z /\ o_image2 (ef_sub F) x y z.
Proof.
  intros V W. exists (mk (N := N) (low x - up y) (up x - low y)). split.
  - intros s. unfold op_sub. rewrite test_vv; auto. revert s. run.
  - apply image2_intro; auto.
    + intros a b [A1 A2] [B1 B2]. split; apply sub_le; auto.
    + exists (low x), (up y). repeat split; auto; try reflexivity.
    + exists (up x), (low y). repeat split; auto; try reflexivity.
Qed.
Lemma r_neg (x : I) : o_valid x -> exists z, returns (op_neg P x) z /\ o_image1 (ef_opp F) x z.
Proof.
  intros V. exists (mk (N := N) (- up x) (- low x)). split.
  - intros s. unfold op_neg. rewrite test_v; auto. revert s. run.
  - split; [|split].
    + intros a [A B]. split; apply opp_le; auto.
    + exists (up x). split; auto. reflexivity.
    + exists (low x). split; auto. reflexivity.
Qed.
(** a * b >= u * v (<= for the second), through u * b or a * v. *)
Ltac chain := first
  [ eapply le_trans; [apply mulp_l|apply mulp_r]; solve [eauto using le_trans]
  | eapply le_trans; [apply mulp_l|apply muln_r]; solve [eauto using le_trans]
  | eapply le_trans; [apply muln_l|apply mulp_r]; solve [eauto using le_trans]
  | eapply le_trans; [apply muln_l|apply muln_r]; solve [eauto using le_trans]
  | eapply le_trans; [apply mulp_r|apply mulp_l]; solve [eauto using le_trans]
  | eapply le_trans; [apply mulp_r|apply muln_l]; solve [eauto using le_trans]
  | eapply le_trans; [apply muln_r|apply mulp_l]; solve [eauto using le_trans]
  | eapply le_trans; [apply muln_r|apply muln_l]; solve [eauto using le_trans] ].
Lemma r_mul (x y : I) : o_valid x -> o_valid y ->
  exists z, returns (op_mul P x y) z /\ o_image2 (ef_mul F) x y z.
Proof.
  intros V W.
  assert (Z1 : forall a b l u, l <= 0 -> 0 <= u -> a == 0 -> l <= a * b /\ a * b <= u).
  { intros a b l u L U E. rewrite E. assert (E' : 0 * b == 0) by ring. rewrite E'. auto. }
  assert (Z2 : forall a b l u, l <= 0 -> 0 <= u -> b == 0 -> l <= a * b /\ a * b <= u).
  { intros a b l u L U E. rewrite E. assert (E' : a * 0 == 0) by ring. rewrite E'. auto. }
  assert (Q : forall (v : I) a, o_mem v a -> up v <= 0 -> 0 <= low v -> a == 0).
  { intros v a [A B] C D. apply le_antisym; eapply le_trans; eauto. }
  assert (VX := V). assert (VY := W).
  unfold returns. unfold op_mul. rewrite test_vv by auto. cbv zeta.
  unfold o_valid in V, W.
  destruct (neg_case (low x)) as [(E1 & A1 & A)|(E1 & A)]; destruct (pos_case (up x)) as [(E2 & B1 & B)|(E2 & B)];
    destruct (neg_case (low y)) as [(E3 & C1 & C)|(E3 & C)]; destruct (pos_case (up y)) as [(E4 & D1 & D)|(E4 & D)];
    rewrite ?E1, ?E2, ?E3, ?E4.
  all: first
   [ exists (mk (N := N) zero zero); split; [solve [run]|]; apply image2_intro; auto;
     [ intros a b HA HB; first [apply Z1; auto; solve [apply (Q x); auto] | apply Z2; auto; solve [apply (Q y); auto]]
     | exists (low x), (low y); split; auto; split; auto;
       first [ assert (E : low x == 0) by (apply (Q x); auto) | assert (E : low y == 0) by (apply (Q y); auto) ];
       rewrite E; change (@zero N) with 0; ring .. ]
   | eexists; split;
     [ intros s; unfold with_rnd; cbn [p_prot exact_pol]; apply args_ok; reflexivity |];
     apply image2_intro; auto;
     [ intros a b [P1 P2] [Q1 Q2]; split; chain
     | do 2 eexists; (split; [|split; [|reflexivity]]); cbn; auto .. ]
   | idtac ].
  exists (mk (N := N) (std_min (N := N) (low x * up y) (up x * low y)) (std_max (N := N) (low x * low y) (up x * up y))).
  split.
  - intros s. unfold with_rnd. cbn [p_prot exact_pol]. apply args_ok; unfold args2; destruct (p_ord P _); reflexivity.
  - destruct (min_case (low x * up y) (up x * low y)) as [[-> L]|[-> L]];
    destruct (max_case (low x * low y) (up x * up y)) as [[-> U]|[-> U]]; apply image2_intro; auto;
    try solve [do 2 eexists; (split; [|split; [|reflexivity]]); auto];
    intros a b [P1 P2] [Q1 Q2]; destruct (to_total F TO 0 a) as [S|S]; split;
    first [ chain | eapply le_trans; [exact L|]; chain | eapply le_trans; [|exact U]; chain ].
Qed.

Lemma r_square (x : I) : o_valid x -> exists z, returns (square P x) z /\ o_image1 (fun a => a * a) x z.
Proof.
  intros V. assert (VX := V). unfold o_valid in V. unfold returns, square. rewrite test_v by auto. cbv zeta.
  destruct (neg_case (up x)) as [(-> & A1 & A)|(-> & A)].
  { eexists. split; [intros s; unfold with_rnd; cbn [p_prot exact_pol]; apply args_ok; reflexivity|].
    assert (B : low x <= 0) by (eapply le_trans; eauto).
    split; [|split].
    - intros a [P1 P2]. split; cbn; chain.
    - exists (up x). split; [auto|reflexivity].
    - exists (low x). split; [auto|reflexivity]. }
  destruct (pos_case (low x)) as [(-> & B1 & B)|(-> & B)].
  { eexists. split; [intros s; unfold with_rnd; cbn [p_prot exact_pol]; apply args_ok; reflexivity|].
    split; [|split].
    - intros a [P1 P2]. split; cbn; chain.
    - exists (low x). split; [auto|reflexivity].
    - exists (up x). split; [auto|reflexivity]. }
  assert (E0 : exists a, o_mem x a /\ a * a == 0).
  { exists 0. split; [split; assumption|ring]. }
  destruct (ef_lt F (up x) (- low x)) eqn:E.
  - exists (mk (N := N) 0 (low x * low x)). split.
    { intros s. unfold with_rnd. cbn [p_prot exact_pol]. unfold bind, e_opp, under_mode. cbn. rewrite E. reflexivity. }
    apply lt_le in E. split; [|split]; [|exact E0|exists (low x); split; [auto|reflexivity]].
    intros a [P1 P2]. split; cbn [low up]; [apply sq_pos|].
    destruct (to_total F TO 0 a) as [S|S]; [|chain].
    assert (L : a <= - low x) by (eapply le_trans; eauto).
    assert (Q : low x * low x == - low x * - low x) by ring. rewrite Q.
    assert (S' : 0 <= - low x) by (apply opp_pos, B). chain.
  - exists (mk (N := N) 0 (up x * up x)). split.
    { intros s. unfold with_rnd. cbn [p_prot exact_pol]. unfold bind, e_opp, under_mode. cbn. rewrite E. reflexivity. }
    assert (L : - low x <= up x). { destruct (lt_or_le (up x) (- low x)) as [K|K]; auto. unfold o_lt in K. congruence. }
    split; [|split]; [|exact E0|exists (up x); split; [auto|reflexivity]].
    intros a [P1 P2]. split; cbn [low up]; [apply sq_pos|].
    destruct (to_total F TO 0 a) as [S|S]; [chain|].
    assert (K : - a <= up x) by (eapply le_trans; [apply opp_le, P1|exact L]).
    assert (Q : a * a == - a * - a) by ring. rewrite Q.
    assert (S' : 0 <= - a) by (apply opp_pos, S). chain.
Qed.
Lemma abs_le a b : a <= b -> - a <= b -> o_abs a <= b.
Proof. unfold o_abs. destruct (ef_lt F a 0); auto. Qed.
Lemma abs_pos a : 0 <= o_abs a.
Proof.
  unfold o_abs. destruct (ef_lt F a 0) eqn:E; [apply opp_pos, lt_le, E|].
  destruct (lt_or_le a 0) as [L|L]; auto. unfold o_lt in L. congruence.
Qed.
Lemma abs_of_pos a : 0 <= a -> o_abs a == a.
Proof.
  intros A. unfold o_abs. destruct (ef_lt F a 0) eqn:E; [|reflexivity]. apply (to_lt F TO) in E. contradiction.
Qed.
Lemma abs_of_neg a : a <= 0 -> o_abs a == - a.
Proof.
  intros A. unfold o_abs. destruct (ef_lt F a 0) eqn:E; [reflexivity|].
  assert (Z : 0 <= a). { destruct (lt_or_le a 0) as [L|L]; auto. unfold o_lt in L. congruence. }
  assert (E0 : a == 0) by (apply le_antisym; auto). rewrite E0. ring.
Qed.
Lemma r_abs (x : I) : o_valid x -> exists z, returns (u_abs P x) z /\ o_image1 o_abs x z.
Proof.
  intros V. assert (VX := V). unfold o_valid in V. unfold returns, u_abs. rewrite test_v by auto.
  destruct (neg_case (low x)) as [(-> & A1 & A)|(-> & A)]; cbn [negb].
  - destruct (pos_case (up x)) as [(-> & B1 & B)|(-> & B)]; cbn [negb].
    + assert (E0 : exists a, o_mem x a /\ o_abs a == 0).
      { exists 0. split; [split; assumption|]. rewrite abs_of_pos by apply le_refl. reflexivity. }
      exists (mk (N := N) 0 (std_max (N := N) (- low x) (up x))). split; [intros s; reflexivity|].
      destruct (max_case (- low x) (up x)) as [[-> L]|[-> L]].
      * split; [|split]; [|exact E0|exists (low x); split; [auto|]; apply abs_of_neg, A].
        intros a [P1 P2]. split; cbn [low up]; [apply abs_pos|]. apply abs_le; [|apply opp_le, P1].
        eapply le_trans; eauto.
      * split; [|split]; [|exact E0|exists (up x); split; [auto|]; apply abs_of_pos, B].
        intros a [P1 P2]. split; cbn [low up]; [apply abs_pos|]. apply abs_le; auto.
        eapply le_trans; [apply opp_le, P1|exact L].
    + destruct (r_neg x VX) as (z & R & (Z1 & (a1 & M1 & E1) & (a2 & M2 & E2))). exists z. split; [exact R|].
      assert (K : forall a, o_mem x a -> o_abs a == - a).
      { intros a [_ K]. apply abs_of_neg. eapply le_trans; eauto. }
      split; [|split].
      * intros a M. apply (mem_eq z (- a)); [symmetry; auto|]. apply Z1, M.
      * exists a1. split; auto. rewrite K; auto.
      * exists a2. split; auto. rewrite K; auto.
  - exists x. split; [intros s; reflexivity|].
    assert (K : forall a, o_mem x a -> o_abs a == a).
    { intros a [K _]. apply abs_of_pos. eapply le_trans; eauto. }
    split; [|split].
    + intros a M. apply (mem_eq x a); [symmetry; auto|exact M].
    + exists (low x). split; auto.
    + exists (up x). split; auto.
Qed.

Ltac tr := match goal with A : o_le ?a ?b, B : o_le ?b ?c |- o_le ?a ?c => exact (le_trans _ _ _ A B) end.
(** ** max, min, hull, intersect, widen *)
Lemma omax_case a b : (o_max a b = b /\ a <= b) \/ (o_max a b = a /\ b <= a).
Proof.
  unfold o_max. destruct (ef_le F a b) eqn:E; [left|right]; split; auto.
  destruct (to_total F TO a b) as [L|L]; auto. unfold o_le in L. congruence.
Qed.
Lemma omin_case a b : (o_min a b = a /\ a <= b) \/ (o_min a b = b /\ b <= a).
Proof.
  unfold o_min. destruct (ef_le F a b) eqn:E; [left|right]; split; auto.
  destruct (to_total F TO a b) as [L|L]; auto. unfold o_le in L. congruence.
Qed.
Lemma std_max_lub (a b v : T N) : std_max a b <= v <-> a <= v /\ b <= v.
Proof.
  destruct (max_case a b) as [[-> L]|[-> L]]; split; try tauto; intros; split; auto; tr.
Qed.
Lemma std_min_glb (a b v : T N) : v <= std_min a b <-> v <= a /\ v <= b.
Proof.
  destruct (min_case a b) as [[-> L]|[-> L]]; split; try tauto; intros; split; auto; tr.
Qed.
Lemma std_max_ge (a b : T N) : a <= std_max a b /\ b <= std_max a b.
Proof. apply std_max_lub, le_refl. Qed.
Lemma std_min_le (a b : T N) : std_min a b <= a /\ std_min a b <= b.
Proof. apply std_min_glb, le_refl. Qed.
Lemma omax_in a b l u l' u' : l <= a -> a <= u -> l' <= b -> b <= u' ->
  std_max (N := N) l l' <= o_max a b /\ o_max a b <= std_max (N := N) u u'.
Proof.
  intros A B C D. destruct (std_max_ge u u') as [G1 G2]. split.
  - apply std_max_lub. destruct (omax_case a b) as [[-> L]|[-> L]]; split; auto; tr.
  - destruct (omax_case a b) as [[-> L]|[-> L]]; tr.
Qed.
Lemma omin_in a b l u l' u' : l <= a -> a <= u -> l' <= b -> b <= u' ->
  std_min (N := N) l l' <= o_min a b /\ o_min a b <= std_min (N := N) u u'.
Proof.
  intros A B C D. destruct (std_min_le l l') as [G1 G2]. split.
  - destruct (omin_case a b) as [[-> L]|[-> L]]; tr.
  - apply std_min_glb. destruct (omin_case a b) as [[-> L]|[-> L]]; split; auto; tr.
Qed.
Lemma hull_in_ a b v l u l' u' : l <= a -> a <= u -> l' <= b -> b <= u' -> o_min a b <= v -> v <= o_max a b ->
  std_min (N := N) l l' <= v /\ v <= std_max (N := N) u u'.
Proof.
  intros A B C D L U. destruct (std_min_le l l') as [G1 G2]. destruct (std_max_ge u u') as [G3 G4]. split.
  - eapply le_trans; [|exact L]. destruct (omin_case a b) as [[-> K]|[-> K]]; tr.
  - eapply le_trans; [exact U|]. destruct (omax_case a b) as [[-> K]|[-> K]]; tr.
Qed.
Lemma omax_eq (a b : T N) : o_max a b == std_max a b.
Proof.
  destruct (omax_case a b) as [[-> L]|[-> L]]; destruct (max_case a b) as [[-> K]|[-> K]]; try reflexivity;
    apply le_antisym; auto.
Qed.
Lemma omin_eq (a b : T N) : o_min a b == std_min a b.
Proof.
  destruct (omin_case a b) as [[-> L]|[-> L]]; destruct (min_case a b) as [[-> K]|[-> K]]; try reflexivity;
    apply le_antisym; auto.
Qed.
Lemma r_max (x y : I) : o_valid x -> o_valid y -> exists z, returns (u_max P x y) z /\ o_image2 o_max x y z.
Proof.
  intros V W. exists (mk (N := N) (std_max (low x) (low y)) (std_max (up x) (up y))). split.
  - intros s. unfold u_max. rewrite test_vv; auto.
  - apply image2_intro; auto.
    + intros a b [A1 A2] [B1 B2]. apply omax_in; auto.
    + exists (low x), (low y). repeat split; auto. apply omax_eq.
    + exists (up x), (up y). repeat split; auto. apply omax_eq.
Qed.
Lemma r_min (x y : I) : o_valid x -> o_valid y -> exists z, returns (u_min P x y) z /\ o_image2 o_min x y z.
Proof.
  intros V W. exists (mk (N := N) (std_min (low x) (low y)) (std_min (up x) (up y))). split.
  - intros s. unfold u_min. rewrite test_vv; auto.
  - apply image2_intro; auto.
    + intros a b [A1 A2] [B1 B2]. apply omin_in; auto.
    + exists (low x), (low y). repeat split; auto. apply omin_eq.
    + exists (up x), (up y). repeat split; auto. apply omin_eq.
Qed.

(** ** Powers *)
Lemma pow_ext a b n : a == b -> o_pow a n == o_pow b n.
Proof. intros E. induction n; cbn [o_pow Nat.add]; [reflexivity|]. apply mul_proper; auto. Qed.
Instance pow_proper : Proper (@o_eq F ==> eq ==> @o_eq F) (@o_pow F).
Proof. intros a b E n m <-. apply pow_ext, E. Qed.
Lemma pow_add a n m : o_pow a (n + m) == o_pow a n * o_pow a m.
Proof. induction n; cbn [o_pow Nat.add]; [ring|]. rewrite IHn. ring. Qed.
Lemma pow_sq a n : o_pow (a * a) n == o_pow a (n + n).
Proof.
  induction n; cbn [o_pow Nat.add]; [reflexivity|]. rewrite IHn. rewrite <- plus_n_Sm. cbn [o_pow Nat.add]. ring.
Qed.
Lemma pow_pos_ a n : 0 <= a -> 0 <= o_pow a n.
Proof.
  intros A. induction n; cbn [o_pow Nat.add]; [|apply mul_pos; auto]. assert (E : 1 == 1 * 1) by ring. rewrite E. apply sq_pos.
Qed.
Lemma pow_mono a b n : 0 <= a -> a <= b -> o_pow a n <= o_pow b n.
Proof.
  intros A B. induction n; cbn [o_pow Nat.add]; [apply le_refl|].
  assert (C : 0 <= b) by (eapply le_trans; eauto).
  pose proof (pow_pos_ a n A). eapply le_trans; [apply mulp_l; [exact B|auto]|apply mulp_r; auto].
Qed.
Lemma pow_opp a n : o_pow (- a) n == if Nat.odd n then - o_pow a n else o_pow a n.
Proof.
  induction n; [reflexivity|]. rewrite Nat.odd_succ, <- Nat.negb_odd. cbn [o_pow Nat.add]. rewrite IHn.
  destruct (Nat.odd n); cbn [negb]; ring.
Qed.
Lemma run_loop (mul : T N -> T N -> M (T N)) : (forall a b s, mul a b s = (Ok (a * b), s)) ->
  forall p a b s, exists w, pow_loop mul a b p s = (Ok w, s) /\ w == o_pow (a * a) (Pos.to_nat p) * b.
Proof.
  intros Hm. induction p; intros a b s; cbn [pow_loop]; unfold bind; rewrite Hm.
  - rewrite Hm. destruct (IHp (a * a) (a * a * b) s) as (w & -> & E). exists w. split; auto. rewrite E.
    rewrite pow_sq. rewrite Pos2Nat.inj_xI. cbn [o_pow Nat.add].
    replace (2 * Pos.to_nat p)%nat with (Pos.to_nat p + Pos.to_nat p)%nat by lia. ring.
  - destruct (IHp (a * a) b s) as (w & -> & E). exists w. split; auto. rewrite E.
    rewrite pow_sq. rewrite Pos2Nat.inj_xO.
    replace (2 * Pos.to_nat p)%nat with (Pos.to_nat p + Pos.to_nat p)%nat by lia. ring.
  - rewrite Hm. exists (a * a * b). split; auto. change (Pos.to_nat 1) with 1%nat. cbn [o_pow Nat.add]. ring.
Qed.
Lemma run_aux (mul : T N -> T N -> M (T N)) (a : t) n : (forall a b s, mul a b s = (Ok (a * b), s)) -> (0 < n)%Z ->
  exists w, (forall s, pow_aux mul a n s = (Ok w, s)) /\ w == o_pow a (Z.to_nat n).
Proof.
  intros Hm Hn. unfold pow_aux.
  assert (D : n = (2 * Z.shiftr n 1 + if Z.odd n then 1 else 0)%Z).
  { rewrite Z.shiftr_div_pow2 by lia. change (2 ^ 1)%Z with 2%Z. rewrite <- Zmod_odd. apply Z.div_mod; lia. }
  destruct (Z.shiftr n 1) as [|p|p].
  - destruct (Z.odd n); [|lia]. exists a. split; [reflexivity|]. replace (Z.to_nat n) with 1%nat by lia. change (@o_eq F a (a * 1)). ring.
  - assert (K : forall b s, exists w, pow_loop mul a b p s = (Ok w, s) /\ w == o_pow a (Pos.to_nat p + Pos.to_nat p) * b).
    { intros b s. destruct (run_loop mul Hm p a b s) as (w & R & E). exists w. split; auto. rewrite E, pow_sq. reflexivity. }
    set (y := if Z.odd n then a else @one N).
    destruct (K y RNE) as (w & R & E). exists w. split.
    + intros s. destruct (K y s) as (w' & R' & E').
      assert (Q : forall p a b s1 s2, fst (pow_loop mul a b p s1) = fst (pow_loop mul a b p s2)).
      { clear - Hm. induction p; intros a b s1 s2; cbn [pow_loop]; unfold bind; rewrite !Hm; auto. }
      specialize (Q p a y s RNE). rewrite R, R' in Q. cbn in Q. change (pow_loop mul a y p s = (Ok w, s)). rewrite R'. congruence.
    + rewrite E. unfold y. destruct (Z.odd n).
      * replace (Z.to_nat n) with (S (Pos.to_nat p + Pos.to_nat p)) by lia. cbn [o_pow Nat.add]. ring.
      * replace (Z.to_nat n) with (Pos.to_nat p + Pos.to_nat p)%nat by lia. change (@one N) with 1. ring.
  - destruct (Z.odd n); lia.
Qed.
Lemma r_pow_pos (x : I) n : o_valid x -> (0 < n)%Z ->
  exists z, returns (pow_pos P x n) z /\ o_image1 (fun a => o_pow a (Z.to_nat n)) x z.
Proof.
  intros V Hn. assert (VX := V). unfold o_valid in V. unfold returns, pow_pos.
  assert (MD : forall a b s, mul_down (p_ar P) a b s = (Ok (a * b), s)) by reflexivity.
  assert (MU : forall a b s, mul_up (p_ar P) a b s = (Ok (a * b), s)) by reflexivity.
  assert (NG : forall a s, @neg N a s = (Ok (- a), s)) by reflexivity.
  set (k := Z.to_nat n).
  assert (OD : Nat.odd k = Z.odd n).
  { unfold k. rewrite <- (Z2Nat.id n) at 2 by lia. apply Bool.eq_true_iff_eq.
    rewrite Nat.odd_spec, Z.odd_spec. split; intros (m & E).
    - exists (Z.of_nat m). lia.
    - exists (Z.to_nat m). lia. }
  assert (EV : forall a, o_pow (- a) k == if Z.odd n then - o_pow a k else o_pow a k).
  { intros a. rewrite <- OD. apply pow_opp. }
  destruct (run_aux (mul_down (p_ar P)) (- up x) n MD Hn) as (w1 & R1 & W1).
  destruct (run_aux (mul_up (p_ar P)) (- low x) n MU Hn) as (w2 & R2 & W2).
  destruct (run_aux (mul_down (p_ar P)) (low x) n MD Hn) as (w3 & R3 & W3).
  destruct (run_aux (mul_up (p_ar P)) (up x) n MU Hn) as (w4 & R4 & W4).
  fold k in W1, W2, W3, W4. rewrite EV in W1, W2.
  destruct (neg_case (up x)) as [(-> & A1 & A)|(-> & A)].
  { assert (B : low x <= 0) by tr.
    assert (M : forall a, o_mem x a -> o_pow (- up x) k <= o_pow (- a) k /\ o_pow (- a) k <= o_pow (- low x) k).
    { intros a [P1 P2]. split; apply pow_mono; try apply opp_le; auto; apply opp_pos; auto. tr. }
    setoid_rewrite EV in M. destruct (Z.odd n) eqn:OZ.
    - exists (mk (N := N) (- w2) (- w1)). split.
      + intros s. unfold with_rnd. cbn [p_prot exact_pol]. unfold bind, pow_dn, pow_up. rewrite NG, R1, NG, R2.
        apply args_ok; apply NG.
      + split; [|split].
        * intros a Ha. destruct (M a Ha) as [M1 M2]. split; cbn [low up]; [rewrite W2|rewrite W1];
            apply opp_le in M1; apply opp_le in M2;
            [assert (Q : o_pow a k == - - o_pow a k) by ring; rewrite Q; exact M2
            |assert (Q : o_pow a k == - - o_pow a k) by ring; rewrite Q; exact M1].
        * exists (low x). split; auto. cbn [low]. rewrite W2. ring.
        * exists (up x). split; auto. cbn [up]. rewrite W1. ring.
    - exists (mk (N := N) w1 w2). split.
      + intros s. unfold with_rnd. cbn [p_prot exact_pol]. unfold bind, pow_dn, pow_up. rewrite NG, R1, NG, R2. reflexivity.
      + split; [|split].
        * intros a Ha. destruct (M a Ha) as [M1 M2]. split; cbn [low up]; [rewrite W1|rewrite W2]; auto.
        * exists (up x). split; auto. cbn [low]. rewrite W1. reflexivity.
        * exists (low x). split; auto. cbn [up]. rewrite W2. reflexivity. }
  destruct (neg_case (low x)) as [(-> & B1 & B)|(-> & B)].
  2:{ exists (mk (N := N) w3 w4). split.
      + intros s. unfold with_rnd. cbn [p_prot exact_pol]. apply args_ok; [apply R3|apply R4].
      + split; [|split].
        * intros a [P1 P2]. split; cbn [low up]; [rewrite W3|rewrite W4]; apply pow_mono; auto. tr.
        * exists (low x). split; auto. cbn [low]. rewrite W3. reflexivity.
        * exists (up x). split; auto. cbn [up]. rewrite W4. reflexivity. }
  destruct (Z.odd n) eqn:OZ.
  - exists (mk (N := N) (- w2) w4). split.
    + intros s. unfold with_rnd. cbn [p_prot exact_pol]. apply args_ok; [|apply R4].
      unfold bind, pow_up. rewrite NG, R2. apply NG.
    + assert (C : forall a b, a <= b -> a <= 0 -> o_pow a k <= o_pow b k).
      { intros a b L K. destruct (to_total F TO 0 b) as [S|S].
        - assert (Q : o_pow a k <= 0).
          { assert (Q : o_pow a k == - o_pow (- a) k) by (rewrite EV; ring). rewrite Q. apply opp_neg, pow_pos_, opp_pos, K. }
          eapply le_trans; [exact Q|]. apply pow_pos_, S.
        - assert (Q1 : o_pow a k == - o_pow (- a) k) by (rewrite EV; ring).
          assert (Q2 : o_pow b k == - o_pow (- b) k) by (rewrite EV; ring). rewrite Q1, Q2.
          apply opp_le, pow_mono; [apply opp_pos, S|apply opp_le, L]. }
      split; [|split].
      * intros a [P1 P2]. split; cbn [low up].
        -- rewrite W2. assert (Q : - - o_pow (low x) k == o_pow (low x) k) by ring. rewrite Q. apply C; auto.
        -- rewrite W4. destruct (to_total F TO 0 a) as [S|S]; [apply pow_mono; auto|apply C; auto].
      * exists (low x). split; auto. cbn [low]. rewrite W2. ring.
      * exists (up x). split; auto. cbn [up]. rewrite W4. reflexivity.
  - assert (E0 : exists a, o_mem x a /\ o_pow a k == 0).
    { exists 0. split; [split; assumption|]. destruct k eqn:K; [unfold k in K; lia|]. cbn [o_pow Nat.add]. ring. }
    assert (NP : 0 <= - low x) by (apply opp_pos, B).
    assert (M : forall u a, - low x <= u -> up x <= u -> o_mem x a -> o_pow a k <= o_pow u k).
    { intros u a U1 U2 [P1 P2]. destruct (to_total F TO 0 a) as [S|S].
      - apply pow_mono; auto. tr.
      - assert (Q : o_pow a k == o_pow (- a) k) by (rewrite EV; reflexivity). rewrite Q.
        apply pow_mono; [apply opp_pos, S|]. apply opp_le in P1. tr. }
    assert (M0 : forall a, 0 <= o_pow a k).
    { intros a. destruct (to_total F TO 0 a) as [S|S]; [apply pow_pos_, S|].
      assert (Q : o_pow a k == o_pow (- a) k) by (rewrite EV; reflexivity). rewrite Q. apply pow_pos_, opp_pos, S. }
    destruct (max_case (- low x) (up x)) as [[E L]|[E L]].
    + exists (mk (N := N) 0 w2). split.
      * intros s. unfold with_rnd. cbn [p_prot exact_pol]. unfold bind, pow_up. rewrite NG, E, R2. reflexivity.
      * split; [|split]; [|exact E0|].
        -- intros a Ha. split; cbn [low up]; [apply M0|]. rewrite W2.
           assert (Q : o_pow (low x) k == o_pow (- low x) k) by (rewrite EV; reflexivity). rewrite Q. apply M; auto.
        -- exists (low x). split; auto. cbn [up]. rewrite W2. reflexivity.
    + exists (mk (N := N) 0 w4). split.
      * intros s. unfold with_rnd. cbn [p_prot exact_pol]. unfold bind, pow_up. rewrite NG, E, R4. reflexivity.
      * split; [|split]; [|exact E0|].
        -- intros a Ha. split; cbn [low up]; [apply M0|]. rewrite W4. apply M; auto.
        -- exists (up x). split; auto. cbn [up]. rewrite W4. reflexivity.
Qed.

(** ** Quotients *)
Section Quot.
Context (INV : inverse_law F) (QU : quotient_law F).
Infix "/" := (ef_div F).
Lemma inv_mul b : ~ b == 0 -> 1 / b * b == 1.
Proof. apply QU. Qed.
Lemma div_mul a b : ~ b == 0 -> a / b == a * (1 / b).
Proof.
  intros Hb. transitivity (a / b * (1 / b * b)); [rewrite (inv_mul b Hb); ring|].
  transitivity (a / b * b * (1 / b)); [ring|]. rewrite (QU a b Hb). reflexivity.
Qed.
Lemma opp_nz b : ~ b == 0 -> ~ - b == 0.
Proof. intros Hb E. apply Hb. transitivity (- - b); [ring|]. rewrite E. ring. Qed.
Lemma inv_opp b : ~ b == 0 -> 1 / - b == - (1 / b).
Proof.
  intros Hb. pose proof (inv_mul b Hb) as E. pose proof (inv_mul _ (opp_nz b Hb)) as E'.
  transitivity (1 / - b * (1 / b * b)); [rewrite E; ring|].
  transitivity (- (1 / b) * (1 / - b * - b)); [ring|]. rewrite E'. ring.
Qed.
Lemma inv_ext a b : a == b -> ~ b == 0 -> 1 / a == 1 / b.
Proof.
  intros E Hb. assert (Ha : ~ a == 0) by (rewrite E; auto).
  transitivity (1 / a * (1 / b * b)); [rewrite (inv_mul b Hb); ring|].
  transitivity (1 / b * (1 / a * a)); [generalize (1 / a) (1 / b); intros i j; rewrite E; ring|]. rewrite (inv_mul a Ha). ring.
Qed.
Lemma lt_nz a : 0 < a -> ~ a == 0.
Proof. intros L E. apply (to_lt F TO) in L. apply L. rewrite E. apply le_refl. Qed.
Lemma gt_nz a : a < 0 -> ~ a == 0.
Proof. intros L E. apply (to_lt F TO) in L. apply L. rewrite E. apply le_refl. Qed.
Lemma lt_le_trans a b d : a < b -> b <= d -> a < d.
Proof. rewrite !(to_lt F TO). intros A B C. apply A. tr. Qed.
Lemma le_lt_trans a b d : a <= b -> b < d -> a < d.
Proof. rewrite !(to_lt F TO). intros A B C. apply B. tr. Qed.
Ltac trl := match goal with
  | A : o_lt ?a ?b, B : o_le ?b ?c |- o_lt ?a ?c => exact (lt_le_trans _ _ _ A B)
  | A : o_le ?a ?b, B : o_lt ?b ?c |- o_lt ?a ?c => exact (le_lt_trans _ _ _ A B) end.
Lemma opp_lt a b : a < b -> - b < - a.
Proof.
  rewrite !(to_lt F TO). intros A B. apply A. apply opp_le in B.
  assert (E1 : - - a == a) by ring. assert (E2 : - - b == b) by ring. rewrite E1, E2 in B. exact B.
Qed.
Lemma opp_lt_pos b : b < 0 -> 0 < - b.
Proof. intros L. apply opp_lt in L. assert (E : - 0 == 0) by ring. rewrite E in L. exact L. Qed.
Lemma pos_nz a : 0 <= a -> ~ a == 0 -> 0 < a.
Proof. intros A B. apply (to_lt F TO). intros C. apply B, le_antisym; auto. Qed.
Lemma neg_nz a : a <= 0 -> ~ a == 0 -> a < 0.
Proof. intros A B. apply (to_lt F TO). intros C. apply B, le_antisym; auto. Qed.

(** The reciprocals of the members of a zero-free interval. *)
Definition off_zero (y : I) : Prop := 0 < low y \/ up y < 0.
Lemma inv_in (y : I) : o_valid y -> 0 < low y ->
  0 <= 1 / up y /\ (forall b, o_mem y b -> ~ b == 0 /\ 1 / up y <= 1 / b /\ 1 / b <= 1 / low y) /\ 0 <= 1 / low y.
Proof.
  intros V L. destruct (INV (low y) (up y) L V) as [A _]. destruct (INV (low y) (low y) L (le_refl _)) as [B _].
  split; [apply lt_le, A|]. split; [|apply lt_le, B]. intros b [B1 B2].
  assert (C : 0 < b) by (trl). split; [apply lt_nz, C|].
  split; [apply (INV b (up y))|apply (INV (low y) b)]; auto.
Qed.
Lemma inv_neg_le a b : b < 0 -> a <= b -> 1 / b <= 1 / a /\ 1 / a <= 0.
Proof.
  intros L K. assert (L' : a < 0) by (trl).
  destruct (INV (- b) (- a) (opp_lt_pos b L) (opp_le _ _ K)) as [A B].
  rewrite (inv_opp a (gt_nz a L')) in A, B. rewrite (inv_opp b (gt_nz b L)) in B.
  assert (Q : forall v, v == - - v) by (intros; ring). split.
  - rewrite (Q (1 / b)), (Q (1 / a)). apply opp_le, B.
  - rewrite (Q (1 / a)). apply opp_neg, lt_le, A.
Qed.
Lemma inv_in_neg (y : I) : o_valid y -> up y < 0 ->
  1 / low y <= 0 /\ (forall b, o_mem y b -> ~ b == 0 /\ 1 / up y <= 1 / b /\ 1 / b <= 1 / low y) /\ 1 / up y <= 0.
Proof.
  intros V L. split; [apply (inv_neg_le (low y) (up y)); auto|].
  split; [|apply (inv_neg_le (up y) (up y)); auto]. intros b [B1 B2].
  assert (C : b < 0) by (trl). split; [apply gt_nz, C|].
  split; [apply (inv_neg_le b (up y))|apply (inv_neg_le (low y) b)]; auto.
Qed.
Lemma run_div (a b : t) s : ~ b == 0 ->
  div_down (p_ar P) a b s = (Ok (a / b), s) /\ div_up (p_ar P) a b s = (Ok (a / b), s).
Proof.
  intros Hb. assert (E : ef_eq F b 0 = false). { destruct (ef_eq F b 0) eqn:E; auto. contradiction. }
  cbn. unfold ex_div, e_div, under_mode, e_store, bind. cbn. rewrite E. split; reflexivity.
Qed.
Lemma zero_in_off (y : I) : o_valid y -> (zero_in P y = false /\ off_zero y) \/ (zero_in P y = true /\ o_mem y 0).
Proof.
  intros V. unfold zero_in. rewrite test_v by auto. unfold off_zero.
  destruct (pos_case (low y)) as [(-> & A1 & A)|(-> & A)]; [left; auto|].
  destruct (neg_case (up y)) as [(-> & B1 & B)|(-> & B)]; [left; auto|]. right. split; [reflexivity|split; auto].
Qed.
(** The quotients of x by a zero-free y, from those of its bounds. *)
Lemma quot_case (x y : I) : o_valid x -> o_valid y -> off_zero y ->
  exists l u, (forall s, div_non_zero P x y s = (Ok (mk (N := N) l u), s)) /\ o_image2 (ef_div F) x y (mk (N := N) l u).
Proof.
  intros V W O. assert (VX := V). assert (VY := W). unfold o_valid in V.
  assert (G : exists kl ku, 1 / up y = kl /\ 1 / low y = ku /\
    (forall b, o_mem y b -> ~ b == 0 /\ kl <= 1 / b /\ 1 / b <= ku) /\
    ((is_neg (N := N) (up y) = false /\ 0 <= kl /\ 0 <= ku) \/ (is_neg (N := N) (up y) = true /\ kl <= 0 /\ ku <= 0))).
  { exists (1 / up y), (1 / low y). split; auto. split; auto. destruct O as [L|L].
    - destruct (inv_in y W L) as (A & B & C). split; [exact B|]. left. split; auto.
      destruct (neg_case (up y)) as [(_ & K & _)|(-> & _)]; auto.
      exfalso. apply (to_lt F TO) in K. apply K. eapply le_trans; [apply lt_le, L|exact W].
    - destruct (inv_in_neg y W L) as (A & B & C). split; [exact B|]. right. split; auto. }
  destruct G as (kl & ku & EL & EU & B & S).
  destruct (B (low y) (low_mem y VY)) as (NL & BL1 & BL2). destruct (B (up y) (up_mem y VY)) as (NU & BU1 & BU2).
  assert (R1 : forall a s, div_down (p_ar P) a (low y) s = (Ok (a / low y), s)) by (intros; apply run_div; auto).
  assert (R2 : forall a s, div_up (p_ar P) a (low y) s = (Ok (a / low y), s)) by (intros; apply run_div; auto).
  assert (R3 : forall a s, div_down (p_ar P) a (up y) s = (Ok (a / up y), s)) by (intros; apply run_div; auto).
  assert (R4 : forall a s, div_up (p_ar P) a (up y) s = (Ok (a / up y), s)) by (intros; apply run_div; auto).
  assert (Q1 : forall a, a / low y == a * ku) by (intros; rewrite div_mul by auto; rewrite EU; reflexivity).
  assert (Q2 : forall a, a / up y == a * kl) by (intros; rewrite div_mul by auto; rewrite EL; reflexivity).
  unfold div_non_zero. cbv zeta.
  destruct (neg_case (up x)) as [(-> & A1 & A)|(-> & A)];
    [assert (A' : low x <= 0) by tr | destruct (neg_case (low x)) as [(-> & A1' & A')|(-> & A')]];
    destruct S as [(-> & S1 & S2)|(-> & S1 & S2)];
    do 2 eexists; (split; [intros s; unfold with_rnd; cbn [p_prot exact_pol]; apply args_ok; [apply R1 || apply R3|apply R2 || apply R4]|]);
    apply image2_intro; auto;
    try (do 2 eexists; split; [|split; [|reflexivity]]; auto);
    intros a b [P1 P2] HB; destruct (B b HB) as (N0 & K1 & K2); rewrite (div_mul a b N0), ?Q1, ?Q2; split; chain.
Qed.
Lemma r_div (x y : I) : o_valid x -> o_valid y -> off_zero y ->
  exists z, returns (op_div P x y) z /\ o_image2 (ef_div F) x y z.
Proof.
  intros V W O. destruct (quot_case x y V W O) as (l & u & R & Z). exists (mk (N := N) l u). split; auto.
  intros s. unfold op_div. rewrite test_vv by auto.
  destruct (zero_in_off y W) as [[-> _]|[_ [Z1 Z2]]]; [apply R|].
  exfalso. destruct O as [O|O]; apply (to_lt F TO) in O; auto.
Qed.
Lemma r_inverse (x : I) : o_valid x -> off_zero x ->
  exists z, returns (multiplicative_inverse P x) z /\ o_image1 (ef_div F 1) x z.
Proof.
  intros V O. assert (G : forall b, o_mem x b -> ~ b == 0 /\ 1 / up x <= 1 / b /\ 1 / b <= 1 / low x).
  { destruct O as [L|L]; [apply (inv_in x V L)|apply (inv_in_neg x V L)]. }
  exists (mk (N := N) (1 / up x) (1 / low x)). split.
  - intros s. unfold multiplicative_inverse. rewrite test_v by auto.
    destruct (zero_in_off x V) as [[-> _]|[_ [Z1 Z2]]].
    + unfold with_rnd. cbn [p_prot exact_pol]. apply args_ok; apply run_div; apply G; auto.
    + exfalso. destruct O as [O|O]; apply (to_lt F TO) in O; auto.
  - split; [|split].
    + intros a Ha. apply G, Ha.
    + exists (up x). split; [auto|reflexivity].
    + exists (low x). split; [auto|reflexivity].
Qed.
Lemma nz_mul a b : ~ a == 0 -> ~ b == 0 -> ~ a * b == 0.
Proof.
  intros Ha Hb E. apply Hb. transitivity (1 / a * (a * b)); [|rewrite E; ring].
  transitivity (1 / a * a * b); [rewrite (inv_mul a Ha); ring|ring].
Qed.
Lemma nz_1 a : ~ a == 0 -> ~ 1 == 0.
Proof. intros Ha E. apply Ha. transitivity (a * 1); [ring|]. rewrite E. ring. Qed.
Lemma nz_pow a n : ~ a == 0 -> ~ o_pow a n == 0.
Proof. intros Ha. induction n; cbn [o_pow]; [eapply nz_1; eauto|apply nz_mul; auto]. Qed.
Lemma off_pow (x z : I) n : off_zero x -> o_image1 (fun a => o_pow a n) x z -> off_zero z.
Proof.
  intros O (Z1 & (a & A1 & A2) & (b & B1 & B2)).
  assert (NZ : forall v, o_mem x v -> ~ v == 0).
  { intros v [V1 V2]. destruct O as [L|L]; [apply lt_nz; trl|apply gt_nz; trl]. }
  destruct (to_total F TO 0 (low z)) as [S|S].
  - left. apply pos_nz; auto. rewrite <- A2. apply nz_pow, NZ, A1.
  - destruct (to_total F TO 0 (up z)) as [S'|S'].
    + exfalso. assert (G : forall u v, o_mem x u -> o_mem x v -> o_pow u n <= 0 -> 0 <= o_pow v n -> False).
      { intros u v U W L1 L2.
        assert (PU : o_pow u n < 0) by (apply neg_nz; [auto|apply nz_pow, NZ, U]).
        destruct O as [L|L].
        - apply (to_lt F TO) in PU. apply PU, pow_pos_. eapply le_trans; [apply lt_le, L|apply U].
        - assert (UN : 0 <= - u) by (apply opp_pos; eapply le_trans; [apply U|apply lt_le, L]).
          assert (VN : 0 <= - v) by (apply opp_pos; eapply le_trans; [apply W|apply lt_le, L]).
          pose proof (pow_pos_ _ n UN) as PU'. pose proof (pow_pos_ _ n VN) as PV'.
          rewrite pow_opp in PU', PV'. apply (to_lt F TO) in PU.
          destruct (Nat.odd n); [|contradiction].
          assert (E : o_pow v n == 0).
          { apply le_antisym; auto. apply opp_neg in PV'. assert (Q : - - o_pow v n == o_pow v n) by ring.
            rewrite Q in PV'. exact PV'. }
          revert E. apply nz_pow, NZ, W. }
      apply (G a b A1 B1); [rewrite A2|rewrite B2]; auto.
    + right. apply neg_nz; auto. rewrite <- B2. apply nz_pow, NZ, B1.
Qed.
Lemma r_pow_neg (x : I) n : o_valid x -> off_zero x -> (int_min < n < 0)%Z ->
  exists z, returns (Arith2.pow P x n) z /\ o_image1 (fun a => 1 / o_pow a (Z.to_nat (- n))) x z.
Proof.
  intros V O Hn. destruct (r_pow_pos x (- n) V ltac:(lia)) as (w & R & W).
  pose proof (off_pow x w _ O W) as OW.
  assert (VW : o_valid w) by (apply (mem_valid w (o_pow (low x) (Z.to_nat (- n)))), W; auto).
  destruct (r_inverse w VW OW) as (z & R' & (Z1 & (a & A1 & A2) & (b & B1 & B2))).
  exists z. split.
  - intros s. unfold Arith2.pow. rewrite test_v by auto.
    replace (n =? 0)%Z with false by (symmetry; apply Z.eqb_neq; lia).
    replace (n <? 0)%Z with true by (symmetry; apply Z.ltb_lt; lia).
    replace (n =? int_min)%Z with false by (symmetry; apply Z.eqb_neq; lia).
    unfold bind. rewrite (R s). apply R'.
  - assert (K : forall v, o_mem w v -> ~ v == 0).
    { intros v [V1 V2]. destruct OW as [L|L]; [apply lt_nz; trl|apply gt_nz; trl]. }
    destruct W as (W1 & (p & P1 & P2) & (q & Q1 & Q2)).
    assert (M1 : 1 / up w == low z).
    { apply le_antisym; [|apply Z1; auto]. rewrite <- A2.
      destruct OW as [L|L]; [apply (inv_in w VW L)|apply (inv_in_neg w VW L)]; auto. }
    assert (M2 : 1 / low w == up z).
    { apply le_antisym; [apply Z1; auto|]. rewrite <- B2.
      destruct OW as [L|L]; [apply (inv_in w VW L)|apply (inv_in_neg w VW L)]; auto. }
    split; [|split].
    + intros v Hv. apply Z1, W1, Hv.
    + exists q. split; auto. rewrite (inv_ext _ _ Q2); auto.
    + exists p. split; auto. rewrite (inv_ext _ _ P2); auto.
Qed.

(** *** Divisors that may contain zero: either the call fails or the quotients are enclosed *)
Lemma no_inf s : debug = true ->
  ck_neg_inf (p_ck P) s = (AssertFail, s) /\ ck_pos_inf (p_ck P) s = (AssertFail, s).
Proof. intros ->. destruct c; split; reflexivity. Qed.
Lemma bad_l o (m1 m2 : M (T N)) b s : m1 s = (AssertFail, s) -> m2 s = (Ok b, s) -> mk_args o m1 m2 s = (AssertFail, s).
Proof. intros A B. unfold mk_args, args2, bind, ret. destruct o; rewrite ?A, ?B; rewrite ?A; reflexivity. Qed.
Lemma bad_r o (m1 m2 : M (T N)) b s : m1 s = (Ok b, s) -> m2 s = (AssertFail, s) -> mk_args o m1 m2 s = (AssertFail, s).
Proof. intros A B. unfold mk_args, args2, bind, ret. destruct o; rewrite ?A, ?B; rewrite ?B; reflexivity. Qed.
Lemma bad_b o (m1 m2 : M (T N)) s : m1 s = (AssertFail, s) -> m2 s = (AssertFail, s) -> mk_args o m1 m2 s = (AssertFail, s).
Proof. intros A B. unfold mk_args, args2, bind, ret. destruct o; rewrite ?A, ?B; reflexivity. Qed.
Lemma zero_case (a : T N) : (is_zero a = true /\ a == 0) \/ (is_zero a = false /\ ~ a == 0).
Proof.
  destruct (is_zero a) eqn:E; [left|right]; split; auto. intros Z. apply zero_iff in Z. congruence.
Qed.
Ltac nope := match goal with K : ?m = (Ok _, _), G : ?m = (AssertFail, _) |- _ => rewrite G in K; discriminate end.
Lemma p_inverse (x z : I) a s s' : debug = true -> o_mem x a -> ~ a == 0 ->
  multiplicative_inverse P x s = (Ok z, s') -> o_mem z (1 / a).
Proof.
  intros D Ha Hn R. pose proof (mem_valid x a Ha) as V.
  destruct (zero_in_off x V) as [[Z O]|[Z O]].
  { destruct (r_inverse x V O) as (w & R' & (W & _)). rewrite (R' s) in R. inversion R. subst. auto. }
  exfalso. unfold multiplicative_inverse in R. rewrite test_v in R by auto. rewrite Z in R.
  unfold with_rnd in R. cbn [p_prot exact_pol] in R. destruct (no_inf s D) as [NI PI].
  destruct (zero_case (low x)) as [[E1 Z1]|[E1 Z1]]; destruct (zero_case (up x)) as [[E2 Z2]|[E2 Z2]];
    rewrite E1, E2 in R; cbn [negb] in R.
  - destruct Ha as [A1 A2]. apply Hn. apply le_antisym; [rewrite <- Z2; auto|rewrite <- Z1; auto].
  - erewrite bad_r in R; [discriminate|apply run_div; auto|exact PI].
  - erewrite bad_l in R; [discriminate|exact NI|apply run_div; auto].
  - unfold i_whole in R. rewrite bad_b in R; [discriminate|exact NI|exact PI].
Qed.
Lemma zero_quot (x : I) a b : o_mem x a -> low x == 0 -> up x == 0 -> ~ b == 0 -> o_mem x (a / b).
Proof.
  intros Ha L U Hb. assert (Z : a == 0).
  { destruct Ha as [A1 A2]. apply le_antisym; [rewrite <- U; auto|rewrite <- L; auto]. }
  apply (mem_eq x a); auto. rewrite (div_mul a b Hb), Z. ring.
Qed.
Lemma whole_fails s : debug = true -> i_whole P s = (AssertFail, s).
Proof. intros D. destruct (no_inf s D) as [NI PI]. apply bad_b; auto. Qed.
Ltac bad R NI PI := first
  [ erewrite bad_l in R; [discriminate|exact NI|apply run_div; solve [auto]]
  | erewrite bad_b in R; [discriminate|exact NI|exact PI]
  | erewrite bad_r in R; [discriminate|apply run_div; solve [auto]|exact PI] ].
Lemma p_div (x y z : I) a b s s' : debug = true -> o_mem x a -> o_mem y b -> ~ b == 0 ->
  op_div P x y s = (Ok z, s') -> o_mem z (a / b).
Proof.
  intros D Ha Hb Hn R. pose proof (mem_valid x a Ha) as V. pose proof (mem_valid y b Hb) as W.
  destruct (zero_in_off y W) as [[Z O]|[Z O]].
  { destruct (r_div x y V W O) as (w & R' & (Q & _)). rewrite (R' s) in R. inversion R. subst. auto. }
  unfold op_div in R. rewrite test_vv in R by auto. rewrite Z in R. destruct (no_inf s D) as [NI PI].
  destruct (zero_case (low y)) as [[E1 Z1]|[E1 Z1]]; destruct (zero_case (up y)) as [[E2 Z2]|[E2 Z2]];
    rewrite E1, E2 in R; cbn [negb] in R.
  - exfalso. destruct Hb as [B1 B2]. apply Hn. apply le_antisym; [rewrite <- Z2; auto|rewrite <- Z1; auto].
  - unfold div_positive in R. destruct (zero_case (low x)) as [[X1 X2]|[X1 X2]];
      destruct (zero_case (up x)) as [[Y1 Y2]|[Y1 Y2]]; rewrite X1, ?Y1 in R; cbn [andb] in R;
      [inversion R; subst; apply zero_quot; auto | ..];
      exfalso; unfold with_rnd in R; cbn [p_prot exact_pol] in R;
      (destruct (is_neg (up x)); [|destruct (is_neg (low x))]);
      bad R NI PI.
  - unfold div_negative in R. destruct (zero_case (low x)) as [[X1 X2]|[X1 X2]];
      destruct (zero_case (up x)) as [[Y1 Y2]|[Y1 Y2]]; rewrite X1, ?Y1 in R; cbn [andb] in R;
      [inversion R; subst; apply zero_quot; auto | ..];
      exfalso; unfold with_rnd in R; cbn [p_prot exact_pol] in R;
      (destruct (is_neg (up x)); [|destruct (is_neg (low x))]);
      bad R NI PI.
  - unfold div_zero in R. destruct (zero_case (low x)) as [[X1 X2]|[X1 X2]];
      destruct (zero_case (up x)) as [[Y1 Y2]|[Y1 Y2]]; rewrite X1, ?Y1 in R; cbn [andb] in R;
      [inversion R; subst; apply zero_quot; auto | ..];
      rewrite whole_fails in R by auto; discriminate.
Qed.
Lemma p_div_ni (x : t) (y z : I) b s s' : debug = true -> o_mem y b -> ~ b == 0 ->
  op_div_ni P x y s = (Ok z, s') -> o_mem z (x / b).
Proof.
  intros D Hb Hn R. pose proof (mem_valid y b Hb) as W.
  unfold op_div_ni in R. unfold bind in R at 1. rewrite test_ni in R by auto.
  destruct (no_inf s D) as [NI PI].
  assert (ZQ : x == 0 -> o_mem (mk (N := N) 0 0) (x / b)).
  { intros E. apply (mem_eq _ 0); [rewrite (div_mul x b Hn), E; ring|split; apply le_refl]. }
  destruct (zero_in_off y W) as [[Z O]|[Z O]]; rewrite Z in R.
  { unfold div_non_zero_n, with_rnd in R. cbn [p_prot exact_pol] in R.
    assert (G : forall b, o_mem y b -> ~ b == 0 /\ 1 / up y <= 1 / b /\ 1 / b <= 1 / low y).
    { destruct O as [L|L]; [apply (inv_in y W L)|apply (inv_in_neg y W L)]. }
    destruct (G _ (low_mem y W)) as (N1 & _ & _). destruct (G _ (up_mem y W)) as (N2 & _ & _).
    destruct (G b Hb) as (_ & G1 & G2).
    destruct (neg_case x) as [(E & A1 & A)|(E & A)]; rewrite E in R; erewrite args_ok in R by (apply run_div; auto);
      inversion R; subst; split; cbn [low up]; rewrite (div_mul x b Hn), ?(div_mul x (low y) N1), ?(div_mul x (up y) N2);
      first [apply mulp_r; solve [auto]|apply muln_r; solve [auto]]. }
  destruct (zero_case (low y)) as [[E1 Z1]|[E1 Z1]]; destruct (zero_case (up y)) as [[E2 Z2]|[E2 Z2]];
    rewrite E1, E2 in R; cbn [negb] in R.
  - exfalso. destruct Hb as [B1 B2]. apply Hn. apply le_antisym; [rewrite <- Z2; auto|rewrite <- Z1; auto].
  - unfold div_positive_n in R. destruct (zero_case x) as [[X1 X2]|[X1 X2]]; rewrite X1 in R;
      [inversion R; subst; apply ZQ; auto|].
    exfalso; unfold with_rnd in R; cbn [p_prot exact_pol] in R; destruct (is_neg (N := N) x);
      bad R NI PI.
  - unfold div_negative_n in R. destruct (zero_case x) as [[X1 X2]|[X1 X2]]; rewrite X1 in R;
      [inversion R; subst; apply ZQ; auto|].
    exfalso; unfold with_rnd in R; cbn [p_prot exact_pol] in R; destruct (is_neg (N := N) x);
      bad R NI PI.
  - unfold div_zero_n in R. destruct (zero_case x) as [[X1 X2]|[X1 X2]]; rewrite X1 in R;
      [inversion R; subst; apply ZQ; auto|]. rewrite whole_fails in R by auto. discriminate.
Qed.
Lemma p_div_in (x z : I) (y : t) a s s' : o_mem x a -> ~ y == 0 ->
  op_div_in P x y s = (Ok z, s') -> o_mem z (a / y).
Proof.
  intros Ha Hn R. pose proof (mem_valid x a Ha) as V.
  unfold op_div_in in R. unfold bind in R at 1. rewrite test_in in R by auto.
  destruct (zero_case y) as [[E Z]|[E Z]]; [contradiction|]. rewrite E in R. cbn [orb] in R.
  unfold with_rnd in R. cbn [p_prot exact_pol] in R. destruct Ha as [A1 A2].
  destruct (neg_case y) as [(E1 & B1 & B)|(E1 & B)]; rewrite E1 in R; erewrite args_ok in R by (apply run_div; auto);
    inversion R; subst; split; cbn [low up]; rewrite (div_mul a y Hn), ?(div_mul (low x) y Hn), ?(div_mul (up x) y Hn).
  1,2: apply muln_l; auto; apply (inv_neg_le y y); auto.
  all: assert (K : 0 < y) by (apply pos_nz; auto); apply mulp_l; auto; apply lt_le, (INV y y); auto.
Qed.
Lemma p_pow_neg (x z : I) a n s s' : debug = true -> o_mem x a -> ~ a == 0 -> (n < 0)%Z ->
  Arith2.pow P x n s = (Ok z, s') -> o_mem z (1 / o_pow a (Z.to_nat (- n))).
Proof.
  intros D Ha Hz Hn R. pose proof (mem_valid x a Ha) as V. unfold Arith2.pow in R. rewrite test_v in R by auto.
  replace (n =? 0)%Z with false in R by (symmetry; apply Z.eqb_neq; lia).
  replace (n <? 0)%Z with true in R by (symmetry; apply Z.ltb_lt; lia).
  destruct (n =? int_min)%Z; [discriminate|].
  destruct (r_pow_pos x (- n) V ltac:(lia)) as (w & R' & (W & _)).
  unfold bind in R. rewrite (R' s) in R. eapply p_inverse; [exact D|apply W, Ha|apply nz_pow, Hz|exact R].
Qed.
End Quot.

(** ** Every operation, for expressions *)
Lemma got {A} (m : M A) z z' s s' : returns m z -> m s = (Ok z', s') -> z = z'.
Proof. intros R E. rewrite (R s) in E. congruence. Qed.
Definition quot_ok : Prop := inverse_law F /\ quotient_law F.

Lemma i_op1 o (x z : I) a v s s' :
  (match o with U_inverse => True | U_pow n => (n < 0)%Z | _ => False end -> quot_ok /\ debug = true) ->
  o_mem x a -> o_rel1 o a v -> run1 P o x s = (Ok z, s') -> o_mem z v.
Proof.
  intros HQ Ha Hr R. pose proof (mem_valid x a Ha) as V. destruct o as [| | | | |n]; cbn [run1 o_rel1] in *.
  - destruct (r_neg x V) as (w & W & (K & _)). rewrite <- (got _ _ _ _ _ W R). eapply mem_eq; [symmetry; exact Hr|auto].
  - destruct (r_abs x V) as (w & W & (K & _)). rewrite <- (got _ _ _ _ _ W R). eapply mem_eq; [symmetry; exact Hr|auto].
  - contradiction.
  - destruct (r_square x V) as (w & W & (K & _)). rewrite <- (got _ _ _ _ _ W R).
    eapply mem_eq; [symmetry; exact Hr|apply (K a Ha)].
  - destruct (HQ Logic.I) as [[I1 I2] D]. destruct Hr as [Hz Hr].
    eapply mem_eq; [symmetry; exact Hr|]. eapply p_inverse; eauto.
  - destruct (0 <? n)%Z eqn:E1.
    + apply Z.ltb_lt in E1. destruct (r_pow_pos x n V E1) as (w & W & (K & _)).
      assert (W' : returns (Arith2.pow P x n) w).
      { intros m. unfold Arith2.pow. rewrite test_v by auto.
        replace (n =? 0)%Z with false by (symmetry; apply Z.eqb_neq; lia).
        replace (n <? 0)%Z with false by (symmetry; apply Z.ltb_ge; lia). apply W. }
      rewrite <- (got _ _ _ _ _ W' R). eapply mem_eq; [symmetry; exact Hr|apply (K a Ha)].
    + destruct (n <? 0)%Z eqn:E2; destruct Hr as [Hz Hr].
      * apply Z.ltb_lt in E2. destruct (HQ E2) as [[I1 I2] D].
        eapply mem_eq; [symmetry; exact Hr|]. eapply p_pow_neg; eauto.
      * apply Z.ltb_ge in E1, E2. assert (n = 0%Z) as -> by lia.
        unfold Arith2.pow in R. rewrite test_v in R by auto. cbn [Z.eqb] in R.
        destruct (is_zero (low x) && is_zero (up x)) eqn:E.
        { exfalso. apply andb_prop in E. destruct E as [X1 X2]. change (low x == 0) in X1. change (up x == 0) in X2. destruct Ha as [A1 A2].
          apply Hz. apply le_antisym; [rewrite <- X2; auto|rewrite <- X1; auto]. }
        unfold ctor_num, bind in R. rewrite nan_false in R. cbn in R. inversion R. subst.
        eapply mem_eq; [symmetry; exact Hr|]. split; apply le_refl.
Qed.
Lemma i_op2 o (x y z : I) a b v s s' : (o = B_div -> quot_ok /\ debug = true) ->
  o_mem x a -> o_mem y b -> o_rel2 o a b v -> run2 P o x y s = (Ok z, s') -> o_mem z v.
Proof.
  intros HQ Ha Hb Hr R. pose proof (mem_valid x a Ha) as V. pose proof (mem_valid y b Hb) as W.
  destruct o; cbn [run2 o_rel2] in *.
  - destruct (r_add x y V W) as (w & Q & (K & _)). rewrite <- (got _ _ _ _ _ Q R). eapply mem_eq; [symmetry; exact Hr|auto].
  - destruct (r_sub x y V W) as (w & Q & (K & _)). rewrite <- (got _ _ _ _ _ Q R). eapply mem_eq; [symmetry; exact Hr|auto].
  - destruct (r_mul x y V W) as (w & Q & (K & _)). rewrite <- (got _ _ _ _ _ Q R). eapply mem_eq; [symmetry; exact Hr|auto].
  - destruct (HQ eq_refl) as [[I1 I2] D]. destruct Hr as [Hz Hr].
    eapply mem_eq; [symmetry; exact Hr|]. eapply p_div; eauto.
  - destruct (r_max x y V W) as (w & Q & (K & _)). rewrite <- (got _ _ _ _ _ Q R). eapply mem_eq; [symmetry; exact Hr|auto].
  - destruct (r_min x y V W) as (w & Q & (K & _)). rewrite <- (got _ _ _ _ _ Q R). eapply mem_eq; [symmetry; exact Hr|auto].
  - unfold hull in R. rewrite !test_v in R by auto. inversion R. subst. destruct Ha, Hb, Hr.
    apply (hull_in_ a b); assumption.
Qed.
Lemma point_mem (a : t) : o_mem (mk (N := N) a a) a.
Proof. split; apply le_refl. Qed.
Lemma i_op_ni o (c0 : t) (y z : I) b v s s' : (o = B_div -> quot_ok /\ debug = true) ->
  o_mem y b -> o_rel2 o c0 b v -> run_ni P o c0 y s = (Ok z, s') -> o_mem z v.
Proof.
  intros HQ Hb Hr R. pose proof (mem_valid y b Hb) as W. pose proof Hb as [B1 B2].
  destruct o; cbn [run_ni o_rel2] in *.
  1-3: eapply mem_eq; [symmetry; exact Hr|].
  - unfold op_add_ni in R. unfold bind in R at 1. rewrite test_ni in R by auto.
    unfold with_rnd in R. cbn [p_prot exact_pol] in R. erewrite args_ok in R by reflexivity. inversion R. subst.
    split; apply add_le; auto.
  - unfold op_sub_ni in R. unfold bind in R at 1. rewrite test_ni in R by auto.
    unfold with_rnd in R. cbn [p_prot exact_pol] in R. erewrite args_ok in R by reflexivity. inversion R. subst.
    split; apply sub_le; auto.
  - unfold op_mul_ni in R. unfold bind in R at 1. rewrite test_ni in R by auto.
    unfold with_rnd in R. cbn [p_prot exact_pol] in R. cbv zeta in R.
    destruct (neg_case c0) as [(E1 & C1 & C)|(E1 & C)]; rewrite E1 in R.
    + erewrite args_ok in R by reflexivity. inversion R. subst. split; apply muln_r; auto.
    + destruct (zero_case c0) as [[E Z]|[E Z]]; rewrite E in R.
      * inversion R. subst. apply (mem_eq _ 0); [rewrite Z; ring|apply point_mem].
      * erewrite args_ok in R by reflexivity. inversion R. subst. split; apply mulp_r; auto.
  - destruct (HQ eq_refl) as [[I1 I2] D]. destruct Hr as [Hz Hr].
    eapply mem_eq; [symmetry; exact Hr|]. eapply p_div_ni; eauto.
  - unfold u_max_ni in R. unfold bind in R at 1. rewrite test_ni in R by auto. inversion R. subst.
    eapply mem_eq; [symmetry; exact Hr|]. apply omax_in; auto.
  - unfold u_min_ni in R. unfold bind in R at 1. rewrite test_ni in R by auto. inversion R. subst.
    eapply mem_eq; [symmetry; exact Hr|]. apply omin_in; auto.
  - unfold hull_ni in R. rewrite test_n, test_v in R by auto. inversion R. subst. destruct Hr.
    apply (hull_in_ c0 b); auto.
Qed.
Lemma i_op_in o (c0 : t) (x z : I) a v s s' : (o = B_div -> quot_ok) ->
  o_mem x a -> o_rel2 o a c0 v -> run_in P o x c0 s = (Ok z, s') -> o_mem z v.
Proof.
  intros HQ Ha Hr R. pose proof (mem_valid x a Ha) as V. pose proof Ha as [A1 A2].
  destruct o; cbn [run_in o_rel2] in *.
  - apply (i_op_ni B_add c0 x z a v s s'); auto; [discriminate|]. cbn [o_rel2]. rewrite Hr. ring.
  - eapply mem_eq; [symmetry; exact Hr|].
    unfold op_sub_in in R. unfold bind in R at 1. rewrite test_in in R by auto.
    unfold with_rnd in R. cbn [p_prot exact_pol] in R. erewrite args_ok in R by reflexivity. inversion R. subst.
    split; apply sub_le; auto.
  - apply (i_op_ni B_mul c0 x z a v s s'); auto; [discriminate|]. cbn [o_rel2]. rewrite Hr. ring.
  - destruct (HQ eq_refl) as [I1 I2]. destruct Hr as [Hz Hr].
    eapply mem_eq; [symmetry; exact Hr|]. eapply p_div_in; eauto.
  - unfold u_max_in in R. unfold bind in R at 1. rewrite test_in in R by auto. inversion R. subst.
    eapply mem_eq; [symmetry; exact Hr|]. apply omax_in; auto.
  - unfold u_min_in in R. unfold bind in R at 1. rewrite test_in in R by auto. inversion R. subst.
    eapply mem_eq; [symmetry; exact Hr|]. apply omin_in; auto.
  - unfold hull_in in R. rewrite test_n, test_v in R by auto. inversion R. subst. destruct Hr.
    apply (hull_in_ a c0); auto.
Qed.
Lemma i_op_nn o (c0 d0 : t) (z : I) v s s' : (o = N_div -> quot_ok) ->
  o_rel2 (op_of o) c0 d0 v -> run_nn P o c0 d0 s = (Ok z, s') -> o_mem z v.
Proof.
  intros HQ Hr R. destruct o; cbn [run_nn o_rel2 op_of] in *.
  1-3: eapply mem_eq; [symmetry; exact Hr|].
  - unfold n_add in R. unfold bind in R at 1. rewrite test_nn in R. unfold with_rnd in R. cbn [p_prot exact_pol] in R.
    erewrite args_ok in R by reflexivity. inversion R. apply point_mem.
  - unfold n_sub in R. unfold bind in R at 1. rewrite test_nn in R. unfold with_rnd in R. cbn [p_prot exact_pol] in R.
    erewrite args_ok in R by reflexivity. inversion R. apply point_mem.
  - unfold n_mul in R. unfold bind in R at 1. rewrite test_nn in R. unfold with_rnd in R. cbn [p_prot exact_pol] in R.
    erewrite args_ok in R by reflexivity. inversion R. apply point_mem.
  - destruct (HQ eq_refl) as [I1 I2]. destruct Hr as [Hz Hr]. eapply mem_eq; [symmetry; exact Hr|].
    unfold n_div in R. unfold bind in R at 1. rewrite test_nn in R.
    destruct (zero_case d0) as [[E Z]|[E Z]]; [contradiction|]. rewrite E in R. cbn [orb] in R.
    unfold with_rnd in R. cbn [p_prot exact_pol] in R.
    erewrite args_ok in R by (apply run_div; auto). inversion R. apply point_mem.
  - unfold hull_nn, i_hull in R. unfold bind in R. rewrite !nan_false in R. cbn in R. destruct Hr as [L U].
    destruct (ef_le F c0 d0) eqn:E; inversion R; subst; unfold o_min, o_max in L, U; rewrite E in L, U; split; auto.
Qed.
Lemma i_intersect (x y z : I) v s s' : o_mem x v -> o_mem y v -> intersect P x y s = (Ok z, s') -> o_mem z v.
Proof.
  intros Hx Hy R. pose proof (mem_valid x v Hx) as V. pose proof (mem_valid y v Hy) as W.
  unfold intersect in R. rewrite test_vv in R by auto. cbv zeta in R. destruct Hx as [X1 X2], Hy as [Y1 Y2].
  assert (L : std_max (N := N) (low x) (low y) <= v) by (apply std_max_lub; auto).
  assert (U : v <= std_min (N := N) (up x) (up y)) by (apply std_min_glb; auto).
  assert (E : n_le N (std_max (low x) (low y)) (std_min (up x) (up y)) = true) by (apply (le_trans _ _ _ L U)).
  rewrite E in R. inversion R. subst. split; auto.
Qed.
Lemma i_widen (x z : I) (c0 : t) a v s s' : o_mem x a -> a - c0 <= v -> v <= a + c0 ->
  widen P x c0 s = (Ok z, s') -> o_mem z v.
Proof.
  intros Hx L U R. pose proof (mem_valid x a Hx) as V. destruct Hx as [X1 X2].
  unfold widen in R. rewrite test_v in R by auto. unfold with_rnd in R. cbn [p_prot exact_pol] in R.
  erewrite args_ok in R by reflexivity. inversion R. subst. split; cbn [low up].
  - eapply le_trans; [|exact L]. apply sub_le; auto.
  - eapply le_trans; [exact U|]. apply add_le; auto.
Qed.

Lemma bind_inv {A B} (m : M A) (k : A -> M B) s b s' : bind m k s = (Ok b, s') ->
  exists a s1, m s = (Ok a, s1) /\ k a s1 = (Ok b, s').
Proof. unfold bind. destruct (m s) as [[a| | | |] s1]; try discriminate. eauto. Qed.
Lemma args_inv {A B} o (m1 : M A) (m2 : M B) s p s' : args2 o m1 m2 s = (Ok p, s') ->
  exists s1 s1' s2 s2', m1 s1 = (Ok (fst p), s1') /\ m2 s2 = (Ok (snd p), s2').
Proof.
  unfold args2. destruct o; intros E; apply bind_inv in E; destruct E as (a & s1 & E1 & E);
    apply bind_inv in E; destruct E as (b & s2 & E2 & E); inversion E; subst; cbn; eauto 6.
Qed.
Theorem inclusion (eo : expr N -> bool) (env : nat -> I) (rho : nat -> t) :
  (forall n, o_mem (env n) (rho n)) ->
  forall e, (uses_quotients e -> quot_ok) -> (divides e -> debug = true) ->
  forall v z s s', o_value e rho v -> eval P eo env e s = (Ok z, s') -> o_mem z v.
Proof.
  intros HE. induction e as [n|k|o e IH|o e1 IH1 e2 IH2|o e IH k|o k e IH|o k k'|e1 IH1 e2 IH2|e IH k];
    intros HQ HD v z s s' Hv R; cbn [eval o_value uses_quotients divides] in *.
  - inversion R. subst. eapply mem_eq; [symmetry; exact Hv|auto].
  - unfold ctor_num, bind in R. rewrite nan_false in R. cbn in R. inversion R. subst.
    eapply mem_eq; [symmetry; exact Hv|apply point_mem].
  - destruct Hv as (a & Ha & Hr). apply bind_inv in R. destruct R as (x & s1 & R1 & R2).
    eapply i_op1; [|eapply IH; eauto|exact Hr|exact R2]. destruct o; intros K; try contradiction; split; auto.
  - destruct Hv as (a & b & Ha & Hb & Hr). apply bind_inv in R. destruct R as (p & s1 & R1 & R2).
    apply args_inv in R1. destruct R1 as (? & ? & ? & ? & R3 & R4).
    eapply i_op2; [|eapply IH1; eauto|eapply IH2; eauto|exact Hr|exact R2]. intros ->. auto.
  - destruct Hv as (a & Ha & Hr). apply bind_inv in R. destruct R as (x & s1 & R1 & R2).
    eapply i_op_in; [|eapply IH; eauto|exact Hr|exact R2]. intros ->. auto.
  - destruct Hv as (a & Ha & Hr). apply bind_inv in R. destruct R as (x & s1 & R1 & R2).
    eapply i_op_ni; [|eapply IH; eauto|exact Hr|exact R2]. intros ->. auto.
  - eapply i_op_nn; eauto.
  - destruct Hv as [Ha Hb]. apply bind_inv in R. destruct R as (p & s1 & R1 & R2).
    apply args_inv in R1. destruct R1 as (? & ? & ? & ? & R3 & R4).
    eapply i_intersect; [eapply IH1; eauto|eapply IH2; eauto|exact R2].
  - destruct Hv as (a & Ha & L & U). apply bind_inv in R. destruct R as (x & s1 & R1 & R2).
    eapply i_widen; [eapply IH; eauto|exact L|exact U|exact R2].
Qed.
End Pol.
End Ring.

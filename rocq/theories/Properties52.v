(** * C92: the class invariant for any ordered base type and any checking policy *)

From Coq Require Import ZArith Bool Lia.
From Verif Require Import Outcome Base Checking Interval Utility Spec ExactNum ExCmp Compare SpecOrder CmpProof Properties50.

Section Any.
Context (N : num) (P : policy N).
Implicit Types (x y z o : itv N) (v w : T N).
Notation le a b := (n_le N a b = true).

(** What is asked of the checking policy: is_nan answers, and the bounds it gives for
    the empty interval are taken for the empty interval. *)
Record coherent : Prop := {
  co_nan : forall v, exists b, nan_test N P v b;
  co_empty : exists l u, returns (ck_empty_lower (p_ck P)) l /\ returns (ck_empty_upper (p_ck P)) u /\ taken_empty N P (mk l u)
}.
(** The policy takes it for the empty interval, or its bounds are in order. *)
Definition sound x : Prop := taken_empty N P x \/ le (low x) (up x).

(** The intervals that exist when a program uses these members and functions, in any order
    and any number of times. *)
Inductive made : itv N -> Prop :=
| made_default z : returns ctor_default z -> made z
| made_num v z : returns (ctor_num P v) z -> made z
| made_num2 v w z : returns (ctor_num2 P v w) z -> made z
| made_copy x z : made x -> returns (ctor_copy x) z -> made z
| made_policy (P1 : policy N) x z : taken_empty N P1 x \/ le (low x) (up x) -> returns (ctor_policy P P1 x) z -> made z
| made_empty z : returns (i_empty P) z -> made z
| made_hull_static v w z : returns (i_hull P v w) z -> made z
| made_assign o (l u : nref) s z s' : made o -> m_assign P l u o s = (Ok tt, z, s') -> made z
| made_assign_num o (v : nref) s z s' : made o -> m_assign_num P v o s = (Ok tt, z, s') -> made z
| made_operator_eq o (r : iref) s z s' : made o -> (forall x, r = IVal x -> made x) -> m_copy r o s = (Ok tt, z, s') -> made z
| made_operator_eq_policy (P1 : policy N) o x s z s' : made o -> taken_empty N P1 x \/ le (low x) (up x) ->
    m_assign_policy P P1 x o s = (Ok tt, z, s') -> made z
| made_set_empty o s z s' : made o -> m_set_empty P o s = (Ok tt, z, s') -> made z
| made_intersect x y z : made x -> made y -> returns (intersect P x y) z -> made z
| made_hull x y z : made x -> made y -> returns (hull P x y) z -> made z
| made_hull_in x v z : made x -> returns (hull_in P x v) z -> made z
| made_hull_ni v x z : made x -> returns (hull_ni P v x) z -> made z
| made_hull_nn v w z : returns (hull_nn P v w) z -> made z
| made_max x y z : made x -> made y -> returns (u_max P x y) z -> made z
| made_max_in x v z : made x -> returns (u_max_in P x v) z -> made z
| made_max_ni v x z : made x -> returns (u_max_ni P v x) z -> made z
| made_min x y z : made x -> made y -> returns (u_min P x y) z -> made z
| made_min_in x v z : made x -> returns (u_min_in P x v) z -> made z
| made_min_ni v x z : made x -> returns (u_min_ni P v x) z -> made z.

Context (H : ordered_type N) (K : coherent).

Lemma i_empty_sound : exists z, returns (i_empty P) z /\ sound z.
Proof.
  destruct (co_empty K) as (l & u & L & U & E). exists (mk l u). split; [|left; exact E].
  intros s. unfold i_empty, mk_args, args2, bind, ret. destruct (p_ord P _); rewrite ?L, ?U; rewrite ?L, ?U; reflexivity.
Qed.
Lemma c_set_empty_sound : exists z, returns (c_set_empty P) z /\ sound z.
Proof.
  destruct (co_empty K) as (l & u & L & U & E). exists (mk l u). split; [|left; exact E].
  intros s. unfold c_set_empty, bind. rewrite L, U. reflexivity.
Qed.
Lemma m_set_empty_sound o s : exists z, m_set_empty P o s = (Ok tt, z, s) /\ sound z.
Proof.
  destruct (co_empty K) as (l & u & L & U & E). exists (mk l u). split; [|left; exact E].
  unfold m_set_empty, obind, ocomp, store_low, store_up. rewrite L. cbn [up low]. rewrite U. reflexivity.
Qed.
Lemma ok_max l u l' u' : le l u -> le l' u' -> le (std_max l l') (std_max u u').
Proof. intros V W. apply (larger_mono N H) with l l' u u'; try assumption; apply (max_larger N H). Qed.
Lemma ok_min l u l' u' : le l u -> le l' u' -> le (std_min l l') (std_min u u').
Proof. intros V W. apply (smaller_mono N H) with l l' u u'; try assumption; apply (min_smaller N H). Qed.
Lemma ok_hull l u l' u' : le l u -> le l' u' -> le (std_min l l') (std_max u u').
Proof.
  intros V W. apply (oy_trans _ H) with l; [apply (min_smaller N H)|]. apply (oy_trans _ H) with u; [exact V|apply (max_larger N H)].
Qed.
Definition good (m : M (itv N)) : Prop := exists z, returns m z /\ sound z.
Lemma good_ret z : le (low z) (up z) -> good (ret z).
Proof. intros V. exists z. split; [intros s; reflexivity|right; exact V]. Qed.
Lemma good_same z : sound z -> good (ret z).
Proof. intros V. exists z. split; [intros s; reflexivity|exact V]. Qed.
Lemma good_test (t : M bool) b (f : bool -> M (itv N)) : returns t b -> good (f b) -> good (bind t f).
Proof. intros T (z & Z & S). exists z. split; [|exact S]. intros s. unfold bind. rewrite T. apply Z. Qed.
Lemma good_sound m z : good m -> returns m z -> sound z.
Proof. intros (z' & R & S) R'. specialize (R RNE). specialize (R' RNE). rewrite R in R'. injection R' as <-. exact S. Qed.

Ltac nan v := destruct (co_nan K v) as ([|] & ?E).
Ltac stepn := match goal with E : nan_test N P ?v ?b |- good (bind (ck_is_nan (p_ck P) ?v) _) => apply (good_test _ b); [exact E|] end.

(** Every call returns, with a sound interval, when its interval operands are sound. *)
Theorem C92_calls : forall x y v w, sound x -> sound y ->
  good ctor_default /\ good (ctor_num P v) /\ good (ctor_num2 P v w) /\ good (ctor_copy x) /\ good (i_empty P) /\ good (i_hull P v w) /\
  good (intersect P x y) /\ good (hull P x y) /\ good (hull_in P x v) /\ good (hull_ni P v x) /\ good (hull_nn P v w) /\
  good (u_max P x y) /\ good (u_max_in P x v) /\ good (u_max_ni P v x) /\
  good (u_min P x y) /\ good (u_min_in P x v) /\ good (u_min_ni P v x).
Proof.
  intros x y v w X Y. pose proof (le_refl N H) as RF.
  assert (GE : good (i_empty P)) by exact i_empty_sound. assert (GS : good (c_set_empty P)) by exact c_set_empty_sound.
  assert (HN : good (i_hull P v w)).
  { unfold i_hull. nan v; nan w; stepn; stepn; try exact GE; try (apply good_ret; apply RF).
    destruct (n_le N v w) eqn:L; apply good_ret; [exact L|]. cbn [low up]. destruct (oy_total _ H v w); [congruence|assumption]. }
  assert (TI : forall x, ck_is_empty (p_ck P) (low x) (up x) = false -> sound x -> le (low x) (up x)).
  { intros t E [S|S]; [unfold taken_empty in S; congruence|exact S]. }
  assert (TN : exists b, returns (test_input_in P x v) b /\ (b = false -> le (low x) (up x))).
  { unfold test_input_in, test_input_i. destruct (ck_is_empty (p_ck P) (low x) (up x)) eqn:E.
    - exists true. split; [intros s; reflexivity|discriminate].
    - destruct (co_nan K v) as (b & B). exists b. split; [exact B|intros _; apply TI; assumption]. }
  assert (NT : exists b, returns (test_input_ni P v x) b /\ (b = false -> le (low x) (up x))).
  { unfold test_input_ni, test_input_i. destruct (co_nan K v) as ([|] & B).
    - exists true. split; [intros s; unfold bind; rewrite B; reflexivity|discriminate].
    - exists (ck_is_empty (p_ck P) (low x) (up x)). split; [intros s; unfold bind; rewrite B; reflexivity|intros E; apply TI; assumption]. }
  destruct TN as (bi & TB & TL), NT as (bn & NB & NL).
  repeat match goal with |- _ /\ _ => split end; try exact GE; try exact HN.
  - apply good_ret, RF.
  - unfold ctor_num. nan v; stepn; [exact GS|apply good_ret, RF].
  - unfold ctor_num2. nan v; nan w; stepn; apply (good_test _ _ _ (fun s => eq_refl)) || stepn; try exact GS.
    destruct (n_le N v w) eqn:L; [apply good_ret; exact L|exact GS].
  - apply good_same. destruct x as [l u]. exact X.
  - unfold intersect. destruct (test_input_ii P x y); [exact GE|].
    destruct (n_le N (std_max (low x) (low y)) (std_min (up x) (up y))) eqn:L; [apply good_ret; exact L|exact GE].
  - unfold hull, test_input_i. destruct (ck_is_empty (p_ck P) (low x) (up x)) eqn:E1, (ck_is_empty (p_ck P) (low y) (up y)) eqn:E2;
      [exact GE|apply good_same; exact Y|apply good_same; exact X|]. apply good_ret. apply ok_hull; apply TI; assumption.
  - unfold hull_in, test_input_n, test_input_i. destruct (ck_is_empty (p_ck P) (low x) (up x)) eqn:E1; nan v; stepn;
      [exact GE|apply good_ret, RF|apply good_same; exact X|]. apply good_ret. apply ok_hull; [apply TI; assumption|apply RF].
  - unfold hull_ni, test_input_n, test_input_i. destruct (ck_is_empty (p_ck P) (low x) (up x)) eqn:E1; nan v; stepn;
      [exact GE|apply good_ret, RF|apply good_same; exact X|]. apply good_ret. apply ok_hull; [apply RF|apply TI; assumption].
  - unfold u_max, test_input_ii, test_input_i. destruct (ck_is_empty (p_ck P) (low x) (up x)) eqn:E1; [exact GE|].
    destruct (ck_is_empty (p_ck P) (low y) (up y)) eqn:E2; [exact GE|]. apply good_ret. apply ok_max; apply TI; assumption.
  - unfold u_max_in. apply (good_test _ bi); [exact TB|]. destruct bi; [exact GE|]. apply good_ret, ok_max; [apply TL; reflexivity|apply RF].
  - unfold u_max_ni. apply (good_test _ bn); [exact NB|]. destruct bn; [exact GE|]. apply good_ret, ok_max; [apply RF|apply NL; reflexivity].
  - unfold u_min, test_input_ii, test_input_i. destruct (ck_is_empty (p_ck P) (low x) (up x)) eqn:E1; [exact GE|].
    destruct (ck_is_empty (p_ck P) (low y) (up y)) eqn:E2; [exact GE|]. apply good_ret. apply ok_min; apply TI; assumption.
  - unfold u_min_in. apply (good_test _ bi); [exact TB|]. destruct bi; [exact GE|]. apply good_ret, ok_min; [apply TL; reflexivity|apply RF].
  - unfold u_min_ni. apply (good_test _ bn); [exact NB|]. destruct bn; [exact GE|]. apply good_ret, ok_min; [apply RF|apply NL; reflexivity].
Qed.
(** Members that change an object; the arguments can be bounds of the object itself. *)
Theorem C92_members : forall o (l u v : nref) (r : iref) (P1 : policy N) x s, sound o ->
  (forall y, r = IVal y -> sound y) -> taken_empty N P1 x \/ le (low x) (up x) ->
  let keeps m := exists z, m o s = (Ok tt, z, s) /\ sound z in
  keeps (m_assign P l u) /\ keeps (m_assign_num P v) /\ keeps (m_copy r) /\ keeps (m_assign_policy P P1 x) /\ keeps (m_set_empty P).
Proof.
  intros o l u v r P1 x s O RR X keeps. pose proof (le_refl N H) as RF. pose proof (m_set_empty_sound o s) as SE.
  unfold keeps. repeat match goal with |- _ /\ _ => split end; try exact SE.
  - unfold m_assign, obind at 1, ocomp at 1, bind.
    destruct (co_nan K (rd o l)) as (b1 & B1). destruct (co_nan K (rd o u)) as (b2 & B2). rewrite B1.
    destruct b1; [exact SE|]. rewrite B2. destruct b2; [exact SE|]. unfold ret. cbn [orb].
    destruct (n_le N (rd o l) (rd o u)) eqn:L; cbn [negb]; [|exact SE].
    unfold m_set, obind, store_low, store_up. eexists. split; [reflexivity|]. right. cbn [low up].
    destruct u; cbn [rd low up] in *; [exact L|apply RF|exact L].
  - unfold m_assign_num, obind at 1, ocomp at 1. destruct (co_nan K (rd o v)) as (b & B). rewrite B. destruct b; [exact SE|].
    unfold obind, store_low, store_up. eexists. split; [reflexivity|]. right. cbn [low up]. apply RF.
  - unfold m_copy, obind, store_low, store_up. eexists. split; [reflexivity|]. destruct r as [y|]; cbn [rdi low up].
    + specialize (RR y eq_refl). destruct y as [yl yu]. exact RR.
    + destruct o as [ol ou]. exact O.
  - unfold m_assign_policy. unfold taken_empty in X. destruct (ck_is_empty (p_ck P1) (low x) (up x)); [exact SE|].
    unfold obind, store_low, store_up. eexists. split; [reflexivity|]. right. cbn [low up]. destruct X; [discriminate|assumption].
Qed.
(** Whatever a program does with them, every interval it holds is sound. *)
Theorem C92_invariant : forall x, made x -> sound x.
Proof.
  assert (S0 : sound (mk zero zero)) by (right; apply (le_refl N H)).
  assert (NT : forall y, @IThis N = IVal y -> sound y) by discriminate.
  intros x D. induction D.
  - exact (good_sound _ _ (proj1 (C92_calls _ _ zero zero S0 S0)) H0).
  - pose proof (C92_calls _ _ v v S0 S0) as Q. decompose [and] Q. eapply good_sound; [|eassumption]; assumption.
  - pose proof (C92_calls _ _ v w S0 S0) as Q. decompose [and] Q. eapply good_sound; [|eassumption]; assumption.
  - pose proof (C92_calls x x zero zero IHD IHD) as Q. decompose [and] Q. eapply good_sound; [|eassumption]; assumption.
  - eapply good_sound; [|eassumption]. unfold ctor_policy. unfold taken_empty in H0.
    destruct (ck_is_empty (p_ck P1) (low x) (up x)); [exact c_set_empty_sound|]. apply good_ret. destruct H0; [discriminate|assumption].
  - pose proof (C92_calls _ _ zero zero S0 S0) as Q. decompose [and] Q. eapply good_sound; [|eassumption]; assumption.
  - pose proof (C92_calls _ _ v w S0 S0) as Q. decompose [and] Q. eapply good_sound; [|eassumption]; assumption.
  - destruct (C92_members o l u (NVal zero) IThis P o s IHD NT IHD) as ((z' & E & S) & _).
    rewrite H0 in E. injection E as -> _. exact S.
  - destruct (C92_members o (NVal zero) (NVal zero) v IThis P o s IHD NT IHD) as (_ & (z' & E & S) & _).
    rewrite H0 in E. injection E as -> _. exact S.
  - destruct (C92_members o (NVal zero) (NVal zero) (NVal zero) r P o s IHD H1 IHD) as (_ & _ & (z' & E & S) & _).
    rewrite H2 in E. injection E as -> _. exact S.
  - destruct (C92_members o (NVal zero) (NVal zero) (NVal zero) IThis P1 x s IHD NT H0) as (_ & _ & _ & (z' & E & S) & _).
    rewrite H1 in E. injection E as -> _. exact S.
  - destruct (m_set_empty_sound o s) as (z' & E & S). rewrite H0 in E. injection E as -> _. exact S.
  - pose proof (C92_calls x y zero zero IHD1 IHD2) as Q. decompose [and] Q. eapply good_sound; [|eassumption]; assumption.
  - pose proof (C92_calls x y zero zero IHD1 IHD2) as Q. decompose [and] Q. eapply good_sound; [|eassumption]; assumption.
  - pose proof (C92_calls x x v v IHD IHD) as Q. decompose [and] Q. eapply good_sound; [|eassumption]; assumption.
  - pose proof (C92_calls x x v v IHD IHD) as Q. decompose [and] Q. eapply good_sound; [|eassumption]; assumption.
  - pose proof (C92_calls _ _ v w S0 S0) as Q. decompose [and] Q. eapply good_sound; [|eassumption]; assumption.
  - pose proof (C92_calls x y zero zero IHD1 IHD2) as Q. decompose [and] Q. eapply good_sound; [|eassumption]; assumption.
  - pose proof (C92_calls x x v v IHD IHD) as Q. decompose [and] Q. eapply good_sound; [|eassumption]; assumption.
  - pose proof (C92_calls x x v v IHD IHD) as Q. decompose [and] Q. eapply good_sound; [|eassumption]; assumption.
  - pose proof (C92_calls x y zero zero IHD1 IHD2) as Q. decompose [and] Q. eapply good_sound; [|eassumption]; assumption.
  - pose proof (C92_calls x x v v IHD IHD) as Q. decompose [and] Q. eapply good_sound; [|eassumption]; assumption.
  - pose proof (C92_calls x x v v IHD IHD) as Q. decompose [and] Q. eapply good_sound; [|eassumption]; assumption.
Qed.
(** The bounds: the arguments, or the bounds the policy gives for the empty interval when
    an argument is taken for a NaN, when two are not in order, or when the source is empty. *)
Theorem C92_values : forall v w bv bw el eu, nan_test N P v bv -> nan_test N P w bw ->
  returns (ck_empty_lower (p_ck P)) el -> returns (ck_empty_upper (p_ck P)) eu ->
  (returns ctor_default (mk (n_cst N 0) (n_cst N 0))) /\
  (bv = false -> returns (ctor_num P v) (mk v v)) /\ (bv = true -> returns (ctor_num P v) (mk el eu)) /\
  (bv = false -> bw = false -> le v w -> returns (ctor_num2 P v w) (mk v w)) /\
  (bv = true \/ bw = true \/ ~ le v w -> returns (ctor_num2 P v w) (mk el eu)) /\
  returns (i_empty P) (mk el eu) /\
  (forall x, returns (ctor_copy x) x) /\
  (forall P1 x, taken_empty N P1 x -> returns (ctor_policy P P1 x) (mk el eu)) /\
  (forall P1 x, ~ taken_empty N P1 x -> returns (ctor_policy P P1 x) x) /\
  (forall o s,
    (bv = false -> bw = false -> le v w -> m_assign P (NVal v) (NVal w) o s = (Ok tt, mk v w, s)) /\
    (bv = true \/ bw = true \/ ~ le v w -> m_assign P (NVal v) (NVal w) o s = (Ok tt, mk el eu, s)) /\
    (forall r, rd o r = v -> bv = false -> m_assign_num P r o s = (Ok tt, mk v v, s)) /\
    (forall r, rd o r = v -> bv = true -> m_assign_num P r o s = (Ok tt, mk el eu, s)) /\
    (forall x, m_copy (IVal x) o s = (Ok tt, x, s)) /\ m_copy IThis o s = (Ok tt, o, s) /\
    (forall P1 x, taken_empty N P1 x -> m_assign_policy P P1 x o s = (Ok tt, mk el eu, s)) /\
    (forall P1 x, ~ taken_empty N P1 x -> m_assign_policy P P1 x o s = (Ok tt, x, s)) /\
    m_set_empty P o s = (Ok tt, mk el eu, s)).
Proof.
  intros v w bv bw el eu V W L U. clear K H.
  assert (SE : returns (c_set_empty P) (mk el eu)) by (intros s; unfold c_set_empty, bind; rewrite L, U; reflexivity).
  assert (ME : forall o s, m_set_empty P o s = (Ok tt, mk el eu, s)).
  { intros o s. unfold m_set_empty, obind, ocomp, store_low, store_up. rewrite L. cbn [up low]. rewrite U. reflexivity. }
  split; [intros s; reflexivity|].
  split; [intros -> s; unfold ctor_num, bind; rewrite V; reflexivity|].
  split; [intros -> s; unfold ctor_num, bind; rewrite V; apply SE|].
  split; [intros -> -> O s; unfold ctor_num2, bind; rewrite V, W, O; reflexivity|].
  split.
  { intros Q s. unfold ctor_num2, bind. rewrite V. destruct bv; [apply SE|]. rewrite W. destruct bw; [apply SE|].
    destruct (n_le N v w) eqn:E; [|apply SE]. destruct Q as [Q|[Q|Q]]; try discriminate. congruence. }
  split; [intros s; unfold i_empty, mk_args, args2, bind, ret; destruct (p_ord P _); rewrite ?L, ?U; rewrite ?L, ?U; reflexivity|].
  split; [intros [xl xu] s; reflexivity|].
  split; [intros P1 x E; unfold ctor_policy; unfold taken_empty in E; rewrite E; exact SE|].
  split; [intros P1 [xl xu] E s; unfold ctor_policy; unfold taken_empty in E; apply not_true_iff_false in E; rewrite E; reflexivity|].
  intros o s.
  split; [intros -> -> O; unfold m_assign, obind, ocomp, bind; cbn [rd]; rewrite V, W, O; reflexivity|].
  split.
  { intros Q. unfold m_assign, obind at 1, ocomp at 1, bind. cbn [rd]. rewrite V. destruct bv; [apply ME|]. rewrite W. destruct bw; [apply ME|].
    unfold ret. cbn [orb]. destruct (n_le N v w) eqn:E; [|apply ME]. destruct Q as [Q|[Q|Q]]; try discriminate. congruence. }
  split; [intros r R ->; unfold m_assign_num, obind, ocomp, store_low, store_up; rewrite R, V; cbn [low up]; rewrite ?R; reflexivity|].
  split; [intros r R ->; unfold m_assign_num, obind at 1, ocomp at 1; rewrite R, V; apply ME|].
  split; [intros [xl xu]; reflexivity|].
  split; [destruct o as [ol ou]; reflexivity|].
  split; [intros P1 x E; unfold m_assign_policy; unfold taken_empty in E; rewrite E; apply ME|].
  split; [intros P1 [xl xu] E; unfold m_assign_policy; unfold taken_empty in E; apply not_true_iff_false in E; rewrite E; reflexivity|].
  apply ME.
Qed.
End Any.

(** The policy of test/cmp_exn.cpp is coherent; intersect(I(1, 2), I(4, 5)) is sound and
    was made by calls; [2,1] is not sound. *)
Example C92_case : let P := cx_pol (fun _ => true) in
  coherent int_num P /\ made int_num P (mk (N := int_num) (-1) (-1))%Z /\ sound int_num P (mk (N := int_num) (-1) (-1))%Z /\
  made int_num P (mk (N := int_num) 2 2)%Z /\ ~ sound int_num P (mk (N := int_num) 2 1)%Z.
Proof.
  intros P. split; [|split; [|split; [|split]]].
  - split.
    + intros v. exists (v <? 0)%Z. intros s. reflexivity.
    + exists (-1)%Z, (-1)%Z. split; [|split]; try (intros s; reflexivity). reflexivity.
  - apply (made_intersect int_num P (mk (N := int_num) 1 2)%Z (mk (N := int_num) 4 5)%Z).
    + apply (made_num2 int_num P 1%Z 2%Z). intros s. reflexivity.
    + apply (made_num2 int_num P 4%Z 5%Z). intros s. reflexivity.
    + intros s. reflexivity.
  - left. reflexivity.
  - apply (made_assign int_num P (mk (N := int_num) 2 3)%Z (NVal (2%Z : T int_num)) NLow RNE _ RNE).
    + apply (made_num2 int_num P 2%Z 3%Z). intros s. reflexivity.
    + reflexivity.
  - intros [S|S]; discriminate S.
Qed.

(** The hypotheses of C92_values hold of 3 and -3, with both answers of is_nan. *)
Example C92_values_case : let P := cx_pol (fun _ => true) in
  nan_test int_num P 3%Z false /\ nan_test int_num P (-3)%Z true /\
  returns (ck_empty_lower (p_ck P)) (-1)%Z /\ returns (ck_empty_upper (p_ck P)) (-1)%Z /\
  returns (ctor_num2 P 3%Z (-3)%Z) (mk (N := int_num) (-1) (-1))%Z.
Proof. intros P. repeat split; intros s; reflexivity. Qed.

Print Assumptions C92_values.
Print Assumptions C92_calls.
Print Assumptions C92_members.
Print Assumptions C92_invariant.

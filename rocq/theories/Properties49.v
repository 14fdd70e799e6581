(** * C89: comparisons for any ordered base type and any checking policy (test/cmp_exn.cpp) *)

From Coq Require Import ZArith Bool Lia.
From Verif Require Import Outcome Base Checking Interval Utility Spec ExactNum ExCmp Compare Mixed SpecOrder CmpProof.

Section Any.
Context (N : num) (P1 P2 : policy N).
Implicit Types (x y : itv N) (v : T N).

Ltac open_all :=
  unfold def_cmp, cmp_lt, cmp_le, cmp_gt, cmp_ge, cmp_eq, cmp_ne,
    def_cmpn, cmpn_lt, cmpn_le, cmpn_gt, cmpn_ge, cmpn_eq, cmpn_ne,
    certain, certain_lt, certain_le, certain_gt, certain_ge, certain_eq, certain_ne,
    certainn, certainn_lt, certainn_le, certainn_gt, certainn_ge, certainn_eq, certainn_ne,
    possible, possible_lt, possible_le, possible_gt, possible_ge, possible_eq, possible_ne,
    possiblen, possiblen_lt, possiblen_le, possiblen_gt, possiblen_ge, possiblen_eq, possiblen_ne,
    lexi, lexi_lt, lexi_le, lexi_gt, lexi_ge, lexi_eq, lexi_ne,
    lexin, lexin_lt, lexin_le, lexin_gt, lexin_ge, lexin_eq, lexin_ne,
    tribool, tribool_lt, tribool_le, tribool_gt, tribool_ge, tribool_eq, tribool_ne,
    tribooln, tribooln_lt, tribooln_le, tribooln_gt, tribooln_ge, tribooln_eq, tribooln_ne,
    guarded, guarded_n, test_input_2, test_input_in, interval_holder, number_holder, test_input_i, cerr, bind, ret, throw.

(** An operand the policy takes for the empty interval, or a number it takes for a NaN:
    comparison_error.  No order is needed. *)
Theorem C89_empty : forall x y o, taken_empty N P1 x \/ taken_empty N P2 y ->
  throws (def_cmp P1 o P2 x y) ComparisonError /\ throws (certain P1 o P2 x y) ComparisonError /\
  throws (possible P1 o P2 x y) ComparisonError /\ throws (lexi P1 o P2 x y) ComparisonError /\
  throws (tribool P1 o P2 x y) ComparisonError.
Proof.
  intros x y o E. unfold taken_empty in E.
  assert (B : ck_is_empty (p_ck P1) (low x) (up x) || ck_is_empty (p_ck P2) (low y) (up y) = true)
    by (apply orb_true_iff; exact E).
  split; [|split; [|split; [|split]]]; intros s; destruct o; open_all; rewrite ?B; try reflexivity;
    destruct (ck_is_empty (p_ck P2) (low y) (up y)); try reflexivity;
    rewrite orb_false_r in B; rewrite B; reflexivity.
Qed.
Theorem C89_nan : forall x v b o, nan_test N P1 v b -> taken_empty N P1 x \/ b = true ->
  throws (def_cmpn P1 o x v) ComparisonError /\ throws (certainn P1 o x v) ComparisonError /\
  throws (possiblen P1 o x v) ComparisonError /\ throws (lexin P1 o x v) ComparisonError /\
  throws (tribooln P1 o x v) ComparisonError.
Proof.
  intros x v b o HN E. unfold taken_empty in E. unfold nan_test, returns in HN.
  split; [|split; [|split; [|split]]]; intros s; destruct o; open_all; rewrite ?HN; destruct b; rewrite ?HN; try reflexivity;
    destruct (ck_is_empty (p_ck P1) (low x) (up x)) eqn:K; rewrite ?HN; try reflexivity; destruct E; discriminate.
Qed.
(** In namespace set a comparison with a number throws, whatever the operands. *)
Theorem C89_set_number : forall x v o, throws (setcmpn o x v) ComparisonError.
Proof. intros x v o s. destruct o; reflexivity. Qed.

Section Values.
Context (H : ordered_type N).

Lemma decides_intro m o (x y : T N -> Prop) (l u l' u' : T N) :
  n_le N l u = true -> n_le N l' u' = true ->
  (forall a, x a <-> n_le N l a = true /\ n_le N a u = true) -> (forall b, y b <-> n_le N l' b = true /\ n_le N b u' = true) ->
  (forall s, m s = if cer_b N o l u l' u' then (Ok true, s) else if cer_b N (neg_rel o) l u l' u' then (Ok false, s) else (Throw ComparisonError, s)) ->
  decides N m o x y.
Proof.
  intros V W HX HY E. unfold decides, returns, throws.
  pose proof (cer_spec N H x y l u l' u' V W HX HY o) as S1. pose proof (none_spec N H x y l u l' u' V W HX HY o) as S2.
  pose proof (pos_spec N H x y l u l' u' V W HX HY o) as S3.
  destruct (cer_b N o l u l' u'); [left; split; [apply S1; reflexivity|exact E]|].
  right. destruct (cer_b N (neg_rel o) l u l' u'); [left; split; [apply S2; reflexivity|exact E]|].
  right. split; [|split; [intros F; apply S1 in F; discriminate|exact E]].
  destruct (pos_b N o l u l' u'); [apply S3; reflexivity|].
  exfalso. assert (K : ~ a_pair N o x y) by (intros F; apply S3 in F; discriminate). apply S2 in K. discriminate.
Qed.
Lemma decides3_intro m o (x y : T N -> Prop) (l u l' u' : T N) :
  n_le N l u = true -> n_le N l' u' = true ->
  (forall a, x a <-> n_le N l a = true /\ n_le N a u = true) -> (forall b, y b <-> n_le N l' b = true /\ n_le N b u' = true) ->
  (forall s, m s = (Ok (if cer_b N o l u l' u' then TTrue else if cer_b N (neg_rel o) l u l' u' then TFalse else TIndeterminate), s)) ->
  decides3 N m o x y.
Proof.
  intros V W HX HY E. unfold decides3, returns.
  pose proof (cer_spec N H x y l u l' u' V W HX HY o) as S1. pose proof (none_spec N H x y l u l' u' V W HX HY o) as S2.
  pose proof (pos_spec N H x y l u l' u' V W HX HY o) as S3.
  destruct (cer_b N o l u l' u'); [left; split; [apply S1; reflexivity|exact E]|].
  right. destruct (cer_b N (neg_rel o) l u l' u'); [left; split; [apply S2; reflexivity|exact E]|].
  right. split; [|split; [intros F; apply S1 in F; discriminate|exact E]].
  destruct (pos_b N o l u l' u'); [apply S3; reflexivity|].
  exfalso. assert (K : ~ a_pair N o x y) by (intros F; apply S3 in F; discriminate). apply S2 in K. discriminate.
Qed.
Lemma point_within v a : same_as N v a <-> n_le N v a = true /\ n_le N a v = true.
Proof. unfold same_as. rewrite (oy_eq _ H). tauto. Qed.

Theorem C89_intervals : forall x y o, proper N P1 x -> proper N P2 y ->
  decides N (def_cmp P1 o P2 x y) o (within N x) (within N y) /\
  answers (certain P1 o P2 x y) (every_pair N o (within N x) (within N y)) /\
  answers (possible P1 o P2 x y) (a_pair N o (within N x) (within N y)) /\
  decides3 N (tribool P1 o P2 x y) o (within N x) (within N y) /\
  answers (lexi P1 o P2 x y) (lex_holds N o (low x) (up x) (low y) (up y)).
Proof.
  intros x y o (E1 & V) (E2 & W). unfold taken_empty in E1, E2. apply not_true_iff_false in E1, E2.
  split; [|split; [|split; [|split]]].
  - apply decides_intro with (low x) (up x) (low y) (up y); try assumption; try (intros; reflexivity).
    intros s. destruct o; open_all; rewrite E1, E2; cbn [negb cer_b neg_rel];
      repeat match goal with |- context [if ?b then _ else _] => destruct b end; reflexivity.
  - exists (cer_b N o (low x) (up x) (low y) (up y)). split; [|apply cer_spec; try assumption; intros; reflexivity].
    intros s. destruct o; open_all; rewrite E1, E2; reflexivity.
  - exists (pos_b N o (low x) (up x) (low y) (up y)). split; [|apply pos_spec; try assumption; intros; reflexivity].
    intros s. destruct o; open_all; rewrite E1, E2; reflexivity.
  - apply decides3_intro with (low x) (up x) (low y) (up y); try assumption; try (intros; reflexivity).
    intros s. destruct o; open_all; rewrite E1, E2; cbn [orb cer_b neg_rel]; reflexivity.
  - unfold answers, returns. destruct o; open_all; rewrite E1, E2; cbn [orb]; (eexists; split; [intros s; reflexivity|]);
      cbn [lex_holds ty_holds]; unfold n_gt, n_ge, n_ne; rewrite ?orb_true_iff, ?andb_true_iff; try reflexivity.
    rewrite !negb_true_iff. destruct (n_eq N (low x) (low y)), (n_eq N (up x) (up y)); intuition congruence.
Qed.

Theorem C89_numbers : forall x v o, proper N P1 x -> nan_test N P1 v false ->
  decides N (def_cmpn P1 o x v) o (within N x) (same_as N v) /\
  answers (certainn P1 o x v) (every_pair N o (within N x) (same_as N v)) /\
  answers (possiblen P1 o x v) (a_pair N o (within N x) (same_as N v)) /\
  decides3 N (tribooln P1 o x v) o (within N x) (same_as N v) /\
  answers (lexin P1 o x v) (lex_holds N o (low x) (up x) v v).
Proof.
  intros x v o (E1 & V) HN. unfold taken_empty in E1. apply not_true_iff_false in E1. unfold nan_test, returns in HN.
  pose proof (le_refl N H v) as W. pose proof (point_within v) as PW.
  split; [|split; [|split; [|split]]].
  - apply decides_intro with (low x) (up x) v v; try assumption; try (intros; reflexivity).
    intros s. destruct o; open_all; rewrite HN, E1; cbn [negb cer_b neg_rel];
      repeat match goal with |- context [if ?b then _ else _] => destruct b end; reflexivity.
  - exists (cer_b N o (low x) (up x) v v). split; [|apply cer_spec; try assumption; intros; reflexivity].
    intros s. destruct o; open_all; rewrite E1, HN; reflexivity.
  - exists (pos_b N o (low x) (up x) v v). split; [|apply pos_spec; try assumption; intros; reflexivity].
    intros s. destruct o; open_all; rewrite E1, HN; reflexivity.
  - apply decides3_intro with (low x) (up x) v v; try assumption; try (intros; reflexivity).
    intros s. destruct o; open_all; rewrite E1, HN; cbn [cer_b neg_rel]; reflexivity.
  - assert (LT : n_eq N (low x) v = true -> n_lt N (up x) v = true -> False).
    { intros A B. apply (oy_eq _ H) in A. apply (oy_lt _ H) in B. apply B. apply (oy_trans _ H) with (low x); tauto. }
    assert (GE : n_eq N (low x) v = true -> n_le N v (up x) = true /\ n_le N v (low x) = true).
    { intros A. apply (oy_eq _ H) in A. split; [apply (oy_trans _ H) with (low x)|]; tauto. }
    assert (G2 : n_le N v (low x) = true -> n_lt N v (low x) = true \/ n_eq N (low x) v = true).
    { intros A. rewrite (oy_lt _ H), (oy_eq _ H). destruct (n_le N (low x) v); intuition congruence. }
    assert (G3 : n_lt N v (low x) = true -> n_le N v (low x) = true) by apply (lt_le N H).
    unfold answers, returns. destruct o; open_all; rewrite E1; (eexists; split; [intros s; rewrite HN; reflexivity|]);
      cbn [lex_holds ty_holds]; unfold n_gt, n_ge, n_ne; rewrite ?orb_true_iff, ?andb_true_iff; try reflexivity; try (clear HN; tauto).
    rewrite !negb_true_iff. destruct (n_eq N (low x) v), (n_eq N (up x) v); intuition congruence.
Qed.

(** In namespace set intervals are compared as sets, the empty one included. *)
Theorem C89_sets : forall x y o, taken_empty N P1 x \/ proper N P1 x -> taken_empty N P1 y \/ proper N P1 y ->
  answers (setcmp P1 o x y) (set_holds N o (elements N P1 x) (elements N P1 y)).
Proof.
  assert (SUB : forall x y, taken_empty N P1 x \/ proper N P1 x -> taken_empty N P1 y \/ proper N P1 y ->
    (subset P1 x y = true <-> forall a, elements N P1 x a -> elements N P1 y a)).
  { intros x y X Y. unfold subset, u_empty, test_input_i, elements, proper, taken_empty, within in *.
    destruct (ck_is_empty (p_ck P1) (low x) (up x)) eqn:E1.
    - split; [intros _ a (A & _); congruence|reflexivity].
    - destruct X as [X|(_ & X)]; [discriminate|]. destruct (ck_is_empty (p_ck P1) (low y) (up y)) eqn:E2; cbn [negb andb].
      + split; [discriminate|]. intros A. destruct (A (low x)) as (B & _); [|congruence].
        split; [congruence|]. split; [apply (le_refl N H)|exact X].
      + rewrite andb_true_iff. split.
        * intros (A & B) a (_ & C & D). split; [congruence|].
          split; [apply (oy_trans _ H) with (low x)|apply (oy_trans _ H) with (up x)]; assumption.
        * intros A. split.
          -- apply (A (low x)). split; [congruence|]. split; [apply (le_refl N H)|exact X].
          -- apply (A (up x)). split; [congruence|]. split; [exact X|apply (le_refl N H)]. }
  assert (EQ : forall x y, equal P1 x y = subset P1 x y && subset P1 y x).
  { intros x y. unfold equal, subset, u_empty, test_input_i.
    destruct (ck_is_empty (p_ck P1) (low x) (up x)), (ck_is_empty (p_ck P1) (low y) (up y)); cbn [negb andb]; try reflexivity.
    apply eq_true_iff_eq. rewrite !andb_true_iff, !(oy_eq _ H). tauto. }
  assert (PS : forall x y, proper_subset P1 x y = subset P1 x y && negb (subset P1 y x)).
  { intros x y. unfold proper_subset, subset, u_empty, test_input_i.
    destruct (ck_is_empty (p_ck P1) (low x) (up x)), (ck_is_empty (p_ck P1) (low y) (up y)); cbn [negb andb]; try reflexivity.
    unfold n_ne. apply eq_true_iff_eq. rewrite !andb_true_iff, !orb_true_iff, !negb_true_iff, andb_false_iff.
    rewrite <- !not_true_iff_false, !(oy_eq _ H). destruct (n_le N (low x) (low y)), (n_le N (up y) (up x)); intuition congruence. }
  intros x y o X Y. pose proof (SUB x y X Y) as S1. pose proof (SUB y x Y X) as S2.
  assert (E : forall b, setcmp P1 o x y = ret b -> (b = true <-> set_holds N o (elements N P1 x) (elements N P1 y)) ->
    answers (setcmp P1 o x y) (set_holds N o (elements N P1 x) (elements N P1 y))).
  { intros b A B. exists b. split; [intros s; rewrite A; reflexivity|exact B]. }
  destruct o; eapply E; try reflexivity; cbn [set_holds]; rewrite ?EQ, ?PS, <- ?S1, <- ?S2;
    destruct (subset P1 x y), (subset P1 y x); cbn [andb negb]; intuition congruence.
Qed.

(** The operators of namespace set that accept operands of two policies. *)
Theorem C89_sets_mixed : forall x y, taken_empty N P1 x \/ proper N P1 x -> taken_empty N P2 y \/ proper N P2 y ->
  let ask m o := answers m (set_holds N o (elements N P1 x) (elements N P2 y)) in
  ask (set_lt_2 P1 P2 x y) Lt /\ ask (set_gt_2 P1 P2 x y) Gt /\ ask (set_eq_2 P1 P2 x y) Eq /\ ask (set_ne_2 P1 P2 x y) Ne.
Proof.
  pose (sub := fun (A B : policy N) (x y : itv N) =>
    if ck_is_empty (p_ck A) (low x) (up x) then true
    else negb (ck_is_empty (p_ck B) (low y) (up y)) && n_le N (low y) (low x) && n_le N (up x) (up y)).
  assert (SUB : forall A B x y, taken_empty N A x \/ proper N A x -> taken_empty N B y \/ proper N B y ->
    (sub A B x y = true <-> forall a, elements N A x a -> elements N B y a)).
  { intros A B x y X Y. unfold sub, elements, proper, taken_empty, within in *.
    destruct (ck_is_empty (p_ck A) (low x) (up x)) eqn:E1.
    - split; [intros _ a (K & _); congruence|reflexivity].
    - destruct X as [X|(_ & X)]; [discriminate|]. destruct (ck_is_empty (p_ck B) (low y) (up y)) eqn:E2; cbn [negb andb].
      + split; [discriminate|]. intros K. destruct (K (low x)) as (L & _); [|congruence].
        split; [congruence|]. split; [apply (le_refl N H)|exact X].
      + rewrite andb_true_iff. split.
        * intros (K & L) a (_ & C & D). split; [congruence|].
          split; [apply (oy_trans _ H) with (low x)|apply (oy_trans _ H) with (up x)]; assumption.
        * intros K. split.
          -- apply (K (low x)). split; [congruence|]. split; [apply (le_refl N H)|exact X].
          -- apply (K (up x)). split; [congruence|]. split; [exact X|apply (le_refl N H)]. }
  assert (EQ : forall A B x y, equal_2 A B x y = sub A B x y && sub B A y x).
  { intros A B x y. unfold equal_2, sub, u_empty, test_input_i.
    destruct (ck_is_empty (p_ck A) (low x) (up x)), (ck_is_empty (p_ck B) (low y) (up y)); cbn [negb andb]; try reflexivity.
    apply eq_true_iff_eq. rewrite !andb_true_iff, !(oy_eq _ H). tauto. }
  assert (PS : forall A B x y, proper_subset_2 A B x y = sub A B x y && negb (sub B A y x)).
  { intros A B x y. unfold proper_subset_2, sub, u_empty, test_input_i.
    destruct (ck_is_empty (p_ck A) (low x) (up x)), (ck_is_empty (p_ck B) (low y) (up y)); cbn [negb andb]; try reflexivity.
    unfold n_ne. apply eq_true_iff_eq. rewrite !andb_true_iff, !orb_true_iff, !negb_true_iff, andb_false_iff.
    rewrite <- !not_true_iff_false, !(oy_eq _ H). destruct (n_le N (low x) (low y)), (n_le N (up y) (up x)); intuition congruence. }
  intros x y X Y ask. pose proof (SUB P1 P2 x y X Y) as S1. pose proof (SUB P2 P1 y x Y X) as S2.
  unfold ask, answers, returns, set_lt_2, set_gt_2, set_eq_2, set_ne_2. rewrite !EQ, !PS. clearbody sub.
  split; [|split; [|split]]; (eexists; split; [intros s; reflexivity|]); cbn [set_holds]; rewrite <- ?S1, <- ?S2;
    destruct (sub P1 P2 x y), (sub P2 P1 y x); cbn [andb negb]; intuition congruence.
Qed.

(** The functions cerlt ... posne (compare/explicit.hpp), for operands with lower <= upper. *)
Theorem C89_explicit : forall x y v o, n_le N (low x) (up x) = true -> n_le N (low y) (up y) = true ->
  (cer o x y = true <-> every_pair N o (within N x) (within N y)) /\
  (cer_in o x v = true <-> every_pair N o (within N x) (same_as N v)) /\
  (cer_ni o v y = true <-> every_pair N o (same_as N v) (within N y)) /\
  (pos o x y = true <-> a_pair N o (within N x) (within N y)) /\
  (pos_in o x v = true <-> a_pair N o (within N x) (same_as N v)) /\
  (pos_ni o v y = true <-> a_pair N o (same_as N v) (within N y)).
Proof.
  intros x y v o V W. pose proof (le_refl N H v) as R. pose proof (point_within v) as PW.
  assert (CE : forall x y, (cer o x y = true <-> cer_b N o (low x) (up x) (low y) (up y) = true) /\
                           (pos o x y = true <-> pos_b N o (low x) (up x) (low y) (up y) = true)).
  { clear - H. intros x y. destruct o; cbn [cer pos cer_b pos_b]; unfold cerlt, cerle, cergt, cerge, cereq, cerne, poslt, posle, posgt, posge, poseq, posne, n_gt, n_ge, n_ne;
      rewrite ?orb_true_iff, ?andb_true_iff, ?(ne_true N H), ?(oy_eq _ H); tauto. }
  assert (CI : (cer_in o x v = true <-> cer_b N o (low x) (up x) v v = true) /\ (pos_in o x v = true <-> pos_b N o (low x) (up x) v v = true)).
  { clear - H. destruct o; cbn [cer_in pos_in cer_b pos_b]; unfold cerlt_in, cerle_in, cergt_in, cerge_in, cereq_in, cerne_in, poslt_in, posle_in, posgt_in, posge_in, poseq_in, posne_in, n_gt, n_ge, n_ne;
      rewrite ?orb_true_iff, ?andb_true_iff, ?(ne_true N H), ?(oy_eq _ H); tauto. }
  assert (CN : (cer_ni o v y = true <-> cer_b N o v v (low y) (up y) = true) /\ (pos_ni o v y = true <-> pos_b N o v v (low y) (up y) = true)).
  { clear - H. destruct o; cbn [cer_ni pos_ni cer_b pos_b]; unfold cerlt_ni, cerle_ni, cergt_ni, cerge_ni, cereq_ni, cerne_ni, poslt_ni, posle_ni, posgt_ni, posge_ni, poseq_ni, posne_ni, n_gt, n_ge, n_ne;
      rewrite ?orb_true_iff, ?andb_true_iff, ?(ne_true N H), ?(oy_eq _ H); tauto. }
  destruct (CE x y) as (-> & ->), CI as (-> & ->), CN as (-> & ->).
  split; [|split; [|split; [|split; [|split]]]]; (apply cer_spec || apply pos_spec); try assumption; intros; reflexivity.
Qed.
End Values.
End Any.

(** ** The test: ints with the policy of cmp_exn.cpp *)
Lemma int_ordered : ordered_type int_num.
Proof.
  split; cbn [n_le n_lt n_eq int_num T]; intros; rewrite ?Z.leb_le, ?Z.ltb_lt, ?Z.eqb_eq in *; lia.
Qed.
(** Its intervals: I::empty() is taken for empty, [l,u] with 0 <= l <= u is proper,
    nan() is taken for a NaN and a number that is not negative is not.  So the hypotheses
    of the theorems above hold for every operand of the test. *)
Theorem C89_test_policy : forall ord, let P := cx_pol ord in
  ordered_type int_num /\
  (exists a, returns (i_empty P) a /\ taken_empty int_num P a) /\
  (forall l u : Z, (0 <= l <= u)%Z -> exists b, returns (ctor_num2 P (l : T int_num) (u : T int_num)) b /\ proper int_num P b /\ low b = l /\ up b = u) /\
  (exists v, returns (ck_nan (p_ck P)) v /\ nan_test int_num P v true) /\
  (forall v : Z, (0 <= v)%Z -> nan_test int_num P (v : T int_num) false).
Proof.
  intros ord P. split; [exact int_ordered|]. split; [|split; [|split]].
  - exists (mk (N := int_num) (-1)%Z (-1)%Z). split; [|reflexivity].
    intros s. unfold i_empty, P, mk_args. cbn. destruct (ord _); reflexivity.
  - intros l u L. exists (mk (N := int_num) l u). unfold proper, taken_empty. cbn [low up cx_pol p_ck P cx_checking ck_is_empty n_le int_num].
    assert (K1 : (l <? 0)%Z = false) by (apply Z.ltb_ge; lia). assert (K2 : (u <? 0)%Z = false) by (apply Z.ltb_ge; lia).
    assert (K3 : (l <=? u)%Z = true) by (apply Z.leb_le; lia).
    split; [|split; [split; [|exact K3]|split; reflexivity]].
    + intros s. unfold ctor_num2, bind, ret. cbn [cx_pol p_ck P cx_checking ck_is_nan n_le int_num]. unfold ret. rewrite K1, K2, K3. reflexivity.
    + rewrite andb_true_iff, Z.eqb_eq. lia.
  - exists (-1)%Z. split; intros s; reflexivity.
  - intros v V s. cbn. destruct (Z.ltb_spec v 0); [lia|reflexivity].
Qed.
(** The lines of the test, and operands for which the operators answer differently. *)
Example C89_case : let P := cx_pol (fun _ => true) in
  let i a b := mk (N := int_num) a b in
  (forall o, throws (def_cmp P o P (i (-1) (-1))%Z (i 1 2)%Z) ComparisonError /\
  throws (tribooln P o (i 1 2)%Z (-1)%Z) ComparisonError /\ throws (setcmpn o (i 1 2)%Z 0%Z) ComparisonError) /\
  proper int_num P (i 1 3)%Z /\ proper int_num P (i 2 4)%Z /\
  throws (def_cmp P Lt P (i 1 3)%Z (i 2 4)%Z) ComparisonError /\ returns (certain P Lt P (i 1 3)%Z (i 2 4)%Z) false /\
  returns (possible P Lt P (i 1 3)%Z (i 2 4)%Z) true /\ returns (tribool P Lt P (i 1 3)%Z (i 2 4)%Z) TIndeterminate /\
  returns (lexi P Lt P (i 1 3)%Z (i 2 4)%Z) true /\ returns (setcmp P Lt (i (-1) (-1))%Z (i 2 4)%Z) true.
Proof.
  intros P i. split; [intros o; split; [|split]; intros s; destruct o; reflexivity|].
  split; [split; [discriminate|reflexivity]|]. split; [split; [discriminate|reflexivity]|].
  repeat split; intros s; reflexivity.
Qed.

Print Assumptions C89_empty.
Print Assumptions C89_nan.
Print Assumptions C89_set_number.
Print Assumptions C89_intervals.
Print Assumptions C89_numbers.
Print Assumptions C89_sets.
Print Assumptions C89_sets_mixed.
Print Assumptions C89_explicit.
Print Assumptions C89_test_policy.

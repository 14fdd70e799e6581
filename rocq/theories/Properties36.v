(** * Property C79: the same operand twice, and other remarks of the documentation

    doc/interval.htm, "Common Pitfalls and Dangers" and "Interval-aware
    functions". *)

From Coq Require Import Reals ZArith Lra Lia Bool Classical.
From Flocq Require Import Core BinarySingleNaN.
From Verif Require Import Outcome Base Checking Interval Utility Arith Arith2 Compare FloatNum Spec SpecCompare ExtR Sem
  CoreArith CoreUtil FloatSpec FloatPol Inst Witness Properties1 Properties2 Properties5 Properties18.
Local Open Scope R_scope.

Notation P_ p k debug c ord := (fpol p Save k debug c ord).

(** The interval has exactly one member. *)
Definition one_member {p} (x : itv (fnum p)) : Prop := exists r, fdenotes x (point r).
(** Two members of opposite signs. *)
Definition straddles {p} (x : itv (fnum p)) : Prop := exists r s, fmem x r /\ fmem x s /\ r < 0 < s.

Section Lemmas.
Context {p : platform}.
Implicit Types x y z : itv (fnum p).

Lemma conv x a b r : fmem x a -> fmem x b -> a <= r <= b -> fmem x r.
Proof.
  unfold fmem, mem. destruct (fval (low x)), (fval (up x)); cbn [xle]; intros [A B] [C D] E; split; try tauto; lra.
Qed.
Lemma several x : fvalid x -> ~ one_member x -> exists r s, fmem x r /\ fmem x s /\ r <> s.
Proof.
  intros V H. destruct (nonempty_mem p x V) as (r & Hr). apply NNPP. intros K. apply H. exists r. intros s. unfold point.
  split; [intros Hs|intros ->; exact Hr]. apply NNPP. intros D. apply K. exists s, r. auto.
Qed.
Lemma tight_pt z (v : T (fnum p)) r (S : R -> Prop) : fval v = Fin r -> (forall t, S t <-> t = r) -> ftightest z S ->
  fdenotes z (point r).
Proof.
  intros E HS [A B]. assert (W : fencloses (mk v v : itv (fnum p)) S).
  { intros t Ht. apply HS in Ht. subst t. unfold mem. cbn [low up]. rewrite E. cbn [xle]. split; apply Rle_refl. }
  destruct (B (mk v v) W) as [L U]. cbn [low up] in L, U. rewrite E in L, U.
  assert (M : fmem z r) by (apply A, HS; reflexivity).
  intros t. unfold point. split; [|intros ->; exact M]. intros [M1 M2].
  apply Rle_antisym.
  - assert (X : xle (Fin t) (Fin r)) by (eapply xle_trans; eauto). exact X.
  - assert (X : xle (Fin r) (Fin t)) by (eapply xle_trans; eauto). exact X.
Qed.
Lemma ext_same z z' S S' : (forall t, S t <-> S' t) -> ftightest z S -> ftightest z' S' -> fsame z z'.
Proof.
  intros E A B. apply (tightest_unique (N := fnum p) fval z z' S A). eapply tightest_ext; [|exact B].
  intros t. symmetry. apply E.
Qed.
(** Intervals without common member: one is below the other. *)
Lemma apart x y : fvalid x -> fvalid y -> ~ meet x y ->
  all_pairs Lt (fmem x) (fmem y) \/ all_pairs Lt (fmem y) (fmem x).
Proof.
  intros Vx Vy D. destruct (nonempty_mem p x Vx) as (r0 & R0). destruct (nonempty_mem p y Vy) as (s0 & S0).
  assert (G : forall (a b : itv (fnum p)) r0 s0, fmem a r0 -> fmem b s0 -> ~ meet a b -> r0 < s0 ->
    all_pairs Lt (fmem a) (fmem b)).
  { intros a b r1 s1 A B M L r s Hr Hs. cbn. destruct (Rlt_or_le r s) as [K|K]; auto. exfalso. apply M.
    destruct (Rle_or_lt r1 s) as [Q|Q].
    - exists s. split; auto. apply (conv a r1 r); auto.
    - exists r1. split; auto. apply (conv b s s1); auto. lra. }
  destruct (Rtotal_order r0 s0) as [L|[E|L]].
  - left. eapply G; eauto.
  - exfalso. apply D. exists r0. subst. auto.
  - right. apply (G y x s0 r0); auto. intros (t & A & B). apply D. exists t. auto.
Qed.
End Lemmas.

(** ** Comparisons *)

(** The default operators: x op y is the negation of the comparison with the
    opposite operator, or both throw. *)
Theorem C79_default_complement : forall p k debug c ord o o' (x y : itv (fnum p)),
  ok_interval c x -> ok_interval c y -> (forall r s, holds o' r s <-> ~ holds o r s) ->
  let P := P_ p k debug c ord in
  (exists b, returns (def_cmp P o P x y) b /\ returns (def_cmp P o' P x y) (negb b)) \/
  (throws (def_cmp P o P x y) ComparisonError /\ throws (def_cmp P o' P x y) ComparisonError).
Proof.
  intros p k debug c ord o o' x y Hx Hy D P.
  destruct (classic (fempty x \/ fempty y)) as [E|E].
  { right. split; apply C37_default_empty_throws; auto. }
  assert (Vx : fvalid x) by (destruct Hx as [V|[_ V]]; tauto).
  assert (Vy : fvalid y) by (destruct Hy as [V|[_ V]]; tauto).
  destruct (nonempty_mem p x Vx) as (r0 & R0). destruct (nonempty_mem p y Vy) as (s0 & S0).
  assert (D1 : forall r s, holds o r s <-> ~ holds o' r s) by (intros r s; rewrite D; tauto).
  destruct (C37_default_three_way p k k debug c c ord ord o x y Vx Vy) as [[A R]|[[A R]|[A [B R]]]].
  - left. exists true. split; [exact R|].
    destruct (C37_default_three_way p k k debug c c ord ord o' x y Vx Vy) as [[A' R']|[[A' R']|[A' [B' R']]]]; [|exact R'|].
    + exfalso. apply (proj1 (D r0 s0)); auto.
    + exfalso. destruct A' as (r & s & X & Y & Z). apply (proj1 (D r s)); auto.
  - left. exists false. split; [exact R|].
    destruct (C37_default_three_way p k k debug c c ord ord o' x y Vx Vy) as [[A' R']|[[A' R']|[A' [B' R']]]]; [exact R'| |].
    + exfalso. apply A'. exists r0, s0. split; auto. split; auto. apply D. intros Q. apply A. exists r0, s0. auto.
    + exfalso. apply B'. intros r s Hr Hs. apply D. intros Q. apply A. exists r, s. auto.
  - right. split; [exact R|].
    destruct (C37_default_three_way p k k debug c c ord ord o' x y Vx Vy) as [[A' R']|[[A' R']|[A' [B' R']]]]; [| |exact R'].
    + exfalso. destruct A as (r & s & X & Y & Z). apply (proj1 (D r s)); auto.
    + exfalso. apply B. intros r s Hr Hs. apply D1. intros Q. apply A'. exists r, s. auto.
Qed.
Print Assumptions C79_default_complement.

(** An operand compared with itself. *)
Theorem C79_self_comparisons : forall p k debug c ord (x : itv (fnum p)), fvalid x ->
  let P := P_ p k debug c ord in
  (returns (certain P Ne P x x) false /\ cerne x x = false) /\
  (returns (possible P Eq P x x) true /\ poseq x x = true) /\
  (one_member x ->
     returns (def_cmp P Eq P x x) true /\ returns (certain P Eq P x x) true /\ cereq x x = true /\
     returns (possible P Ne P x x) false /\ posne x x = false) /\
  (~ one_member x ->
     throws (def_cmp P Eq P x x) ComparisonError /\ returns (certain P Eq P x x) false /\ cereq x x = false /\
     returns (possible P Ne P x x) true /\ posne x x = true).
Proof.
  intros p k debug c ord x V P. destruct (nonempty_mem p x V) as (r0 & R0).
  assert (NN : ~ all_pairs Ne (fmem x) (fmem x)) by (intros A; apply (A r0 r0); auto).
  assert (PE : some_pair Eq (fmem x) (fmem x)) by (exists r0, r0; repeat split; apply R0).
  assert (CB : forall o, all_pairs o (fmem x) (fmem x) -> returns (certain P o P x x) true).
  { intros o A. destruct (C38_certain_all p k k debug c c ord ord o x x V V) as (b & Rb & Hb).
    assert (b = true) as -> by (apply Hb; auto). exact Rb. }
  assert (CN : forall o, ~ all_pairs o (fmem x) (fmem x) -> returns (certain P o P x x) false).
  { intros o A. destruct (C38_certain_all p k k debug c c ord ord o x x V V) as ([|] & Rb & Hb); [|exact Rb].
    exfalso. apply A, Hb. reflexivity. }
  assert (PB : forall o, some_pair o (fmem x) (fmem x) -> returns (possible P o P x x) true).
  { intros o A. destruct (C38_possible_some p k k debug c c ord ord o x x V V) as (b & Rb & Hb).
    assert (b = true) as -> by (apply Hb; auto). exact Rb. }
  assert (PN : forall o, ~ some_pair o (fmem x) (fmem x) -> returns (possible P o P x x) false).
  { intros o A. destruct (C38_possible_some p k k debug c c ord ord o x x V V) as ([|] & Rb & Hb); [|exact Rb].
    exfalso. apply A, Hb. reflexivity. }
  pose proof (C42_explicit p Ne x x V V) as [XN XP]. pose proof (C42_explicit p Eq x x V V) as [YN YP].
  cbn [cer pos] in XN, XP, YN, YP.
  split; [|split; [|split]].
  - split; [apply CN; auto|]. apply not_true_is_false. intros E. apply NN, XN, E.
  - split; [apply PB; auto|]. apply YP. exact PE.
  - intros (r & H).
    assert (AE : all_pairs Eq (fmem x) (fmem x)).
    { intros a b Ha Hb. apply H in Ha. apply H in Hb. unfold point in *. cbn. congruence. }
    assert (NE : ~ some_pair Ne (fmem x) (fmem x)).
    { intros (a & b & Ha & Hb & Q). apply Q. exact (AE a b Ha Hb). }
    split; [|split; [|split; [|split]]]; auto.
    + destruct (C37_default_three_way p k k debug c c ord ord Eq x x V V) as [[A R]|[[A R]|[A [B R]]]]; [exact R| |].
      * contradiction.
      * contradiction.
    + apply YN. exact AE.
    + apply not_true_is_false. intros E. apply NE, XP, E.
  - intros H. destruct (several x V H) as (a & b & Ha & Hb & Hab).
    assert (NE : ~ all_pairs Eq (fmem x) (fmem x)) by (intros A; apply Hab; exact (A a b Ha Hb)).
    assert (SN : some_pair Ne (fmem x) (fmem x)) by (exists a, b; auto).
    split; [|split; [|split; [|split]]]; auto.
    + destruct (C37_default_three_way p k k debug c c ord ord Eq x x V V) as [[A R]|[[A R]|[A [B R]]]]; try contradiction.
      exact R.
    + apply not_true_is_false. intros E. apply NE, YN, E.
    + apply XP. exact SN.
Qed.
Print Assumptions C79_self_comparisons.

Lemma di_mem a b r : (Z.abs a <= 2 ^ 53)%Z -> (Z.abs b <= 2 ^ 53)%Z -> fmem (di a b) r <-> IZR a <= r <= IZR b.
Proof.
  intros A B. unfold fmem, mem, di. cbn [low up].
  assert (Ea : fval (f := p_T double_sse) (dbl a 0) = Fin (IZR a)) by (apply dbl_val; exact A).
  assert (Eb : fval (f := p_T double_sse) (dbl b 0) = Fin (IZR b)) by (apply dbl_val; exact B).
  rewrite Ea, Eb. cbn [xle]. tauto.
Qed.
Lemma di_two a b : (a < b)%Z -> (Z.abs a <= 2 ^ 53)%Z -> (Z.abs b <= 2 ^ 53)%Z -> ~ one_member (di a b).
Proof.
  intros L A B (r & H).
  assert (Ha : fmem (di a b) (IZR a)) by (apply di_mem; auto; split; apply IZR_le; lia).
  assert (Hb : fmem (di a b) (IZR b)) by (apply di_mem; auto; split; apply IZR_le; lia).
  apply H in Ha. apply H in Hb. unfold point in *. rewrite <- Hb in Ha. apply eq_IZR in Ha. lia.
Qed.
Example C79_self_case : fvalid (di 1 3) /\ ~ one_member (di 1 3) /\ fvalid (di 2 2) /\ one_member (di 2 2).
Proof.
  split; [apply di_valid; lia|]. split; [apply di_two; lia|]. split; [apply di_valid; lia|].
  exists 2. intros r. unfold point. rewrite (di_mem 2 2 r ltac:(lia) ltac:(lia) : mem (N := fnum double_sse) fval (di 2 2) r <-> _). lra.
Qed.
(** "If the comparison used is certain, then x != x is always true unless x is
    a singleton interval": it never is. *)
Theorem C79_certain_self_refuted : exists x : itv (fnum double_sse),
  fvalid x /\ ~ one_member x /\ ~ returns (certain Pdef Ne Pdef x x) true.
Proof.
  exists (di 1 3). destruct C79_self_case as (V & H & _). split; auto. split; auto. intros R.
  destruct (C79_self_comparisons double_sse Opp true CkStrict (fun _ => true) (di 1 3) V) as [[R' _] _].
  specialize (R RNE). change Pdef with (P_ double_sse Opp true CkStrict (fun _ => true)) in R. rewrite (R' RNE) in R. discriminate.
Qed.
Print Assumptions C79_certain_self_refuted.

(** ** Arithmetic on the same operand *)
Theorem C79_singletons : forall p k debug c ord (x : itv (fnum p)) r, fvalid x -> fdenotes x (point r) ->
  let P := P_ p k debug c ord in
  (exists z, returns (op_sub P x x) z /\ fdenotes z (point 0)) /\
  (r <> 0 -> exists z, returns (op_div P x x) z /\ fdenotes z (point 1)) /\
  same_results (op_mul P x x) (square P x).
Proof.
  intros p k debug c ord x r V H P. assert (Hr : fmem x r) by (apply H; reflexivity). split; [|split].
  - destruct (C02_sub_tightest p k debug c ord x x V V) as (z & R & _ & T). exists z. split; [exact R|].
    apply (tight_pt z (n_cst (fnum p) 0) 0 _ (ns_0 _ _ (fnumspec p))) with (2 := T).
    intros t. split.
    + intros (a & b & Ha & Hb & ->). apply H in Ha. apply H in Hb. unfold point in *. subst. ring.
    + intros ->. exists r, r. repeat split; try apply Hr. ring.
  - intros N0. destruct (C05_div_encloses_partial p k debug c ord x x V V) as (z & R & _ & _ & T).
    { intros Z. apply N0. apply Z. exact Hr. }
    exists z. split; [exact R|].
    apply (tight_pt z (n_cst (fnum p) 1) 1 _ (ns_1 _ _ (fnumspec p))) with (2 := T ltac:(
      intros (L & U & _); apply N0; symmetry;
      apply H; split; [apply xlt_xle; exact L|rewrite U; cbn [xle]; lra])).
    intros t. split.
    + intros (a & b & Ha & Hb & Nb & ->). apply H in Ha. apply H in Hb. unfold point in *. subst. field. exact Nb.
    + intros ->. exists r, r. split; [exact Hr|]. split; [exact Hr|]. split; [exact N0|]. field. exact N0.
  - destruct (C04_mul_tightest p k debug c ord x x V V) as (z & R & Vz & T).
    destruct (C09_square_tightest p k debug c ord x V) as (w & R' & Vw & T').
    exists z, w. repeat (split; [assumption|]). apply (ext_same z w _ _) with (2 := T) (3 := T').
    intros t. split.
    + intros (a & b & Ha & Hb & ->). apply H in Ha. apply H in Hb. unfold point in *. subst. exists r. auto.
    + intros (a & Ha & ->). exists a, a. auto.
Qed.
Print Assumptions C79_singletons.

(** Otherwise x - x is not 0 and x / x is not 1; x * x and square(x) differ
    exactly when x has members of both signs. *)
Theorem C79_not_singletons : forall p k debug c ord (x z : itv (fnum p)), fvalid x -> ~ one_member x ->
  let P := P_ p k debug c ord in
  (returns (op_sub P x x) z -> ~ fdenotes z (point 0)) /\
  (returns (op_div P x x) z -> ~ fdenotes z (point 1)).
Proof.
  intros p k debug c ord x z V H P. destruct (several x V H) as (a & b & Ha & Hb & Hab). split; intros R Z.
  - destruct (C02_sub_tightest p k debug c ord x x V V) as (z' & R' & _ & [E _]).
    assert (z' = z) as -> by (specialize (R RNE); specialize (R' RNE); fold P in R'; congruence).
    assert (M : fmem z (a - b)) by (apply E; exists a, b; auto). apply Z in M. unfold point in M. apply Hab. lra.
  - destruct (C05_div_encloses_partial p k debug c ord x x V V) as (z' & R' & _ & E & _).
    { intros Q. apply H. exists 0. exact Q. }
    assert (z' = z) as -> by (specialize (R RNE); specialize (R' RNE); fold P in R'; congruence).
    destruct (Req_dec b 0) as [B0|B0].
    + assert (A0 : a <> 0) by congruence.
      assert (M : fmem z (b / a)) by (apply E; exists b, a; auto). apply Z in M. unfold point in M.
      subst b. unfold Rdiv in M. rewrite Rmult_0_l in M. lra.
    + assert (M : fmem z (a / b)) by (apply E; exists a, b; auto). apply Z in M. unfold point in M.
      apply Hab. rewrite <- (Rmult_1_l b), <- M. field. exact B0.
Qed.
Print Assumptions C79_not_singletons.

Theorem C79_square_is_product : forall p k debug c ord (x : itv (fnum p)), fvalid x ->
  let P := P_ p k debug c ord in
  same_results (op_mul P x x) (square P x) <-> ~ straddles x.
Proof.
  intros p k debug c ord x V P.
  destruct (C04_mul_tightest p k debug c ord x x V V) as (z & R & Vz & T).
  destruct (C09_square_tightest p k debug c ord x V) as (w & R' & Vw & T'). split.
  - intros (z0 & w0 & Q & Q' & _ & _ & S) (a & b & Ha & Hb & Hab).
    assert (z0 = z) as -> by (specialize (R RNE); specialize (Q RNE); fold P in R; congruence).
    assert (w0 = w) as -> by (specialize (R' RNE); specialize (Q' RNE); fold P in R'; congruence).
    assert (M : fmem z (a * b)) by (apply T; exists a, b; auto).
    assert (W : fencloses (mk (n_cst (fnum p) 0) (n_inf (fnum p)) : itv (fnum p)) (image1 (fun r => r * r) (fmem x))).
    { intros t (r & Hr & ->). unfold mem. cbn [low up]. split.
      - rewrite (ns_0 _ _ (fnumspec p)). cbn [xle]. apply Rle_0_sqr.
      - cbn. exact Logic.I. }
    destruct T' as [_ T']. destruct (T' _ W) as [L _]. cbn [low] in L. rewrite (ns_0 _ _ (fnumspec p)) in L.
    destruct M as [M _]. destruct S as [S _]. rewrite S in M.
    assert (X : xle (Fin 0) (Fin (a * b))) by (eapply xle_trans; eauto). cbn [xle] in X. nra.
  - intros NS. exists z, w. repeat (split; [assumption|]).
    apply (tightest_unique (N := fnum p) fval z w _ T). destruct T' as [E' L']. split.
    + intros t (a & b & Ha & Hb & ->).
      assert (A2 : fmem w (a * a)) by (apply E'; exists a; auto).
      assert (B2 : fmem w (b * b)) by (apply E'; exists b; auto).
      assert (S : 0 <= a * b).
      { destruct (Rle_or_lt 0 (a * b)); auto. exfalso. apply NS.
        destruct (Rlt_or_le a 0) as [A0|A0].
        - exists a, b. split; [exact Ha|]. split; [exact Hb|]. split; [exact A0|]. destruct (Rlt_or_le 0 b); auto. nra.
        - exists b, a. split; [exact Hb|]. split; [exact Ha|]. split; [destruct (Rlt_or_le b 0); auto; nra|].
          destruct A0 as [A0|A0]; auto. exfalso. rewrite <- A0, Rmult_0_l in *. lra. }
      destruct (Rle_or_lt (a * a) (b * b)) as [Q|Q].
      * apply (conv w (a * a) (b * b)); auto. split; nra.
      * apply (conv w (b * b) (a * a)); auto. split; nra.
    + intros v Ev. apply L'. intros t (a & Ha & ->). apply Ev. exists a, a. auto.
Qed.
Print Assumptions C79_square_is_product.
Example C79_square_case : ~ straddles (di 1 3) /\ straddles (di (-1) 3).
Proof.
  split.
  - intros (r & s & Hr & _ & H). apply di_mem in Hr; lia || lra.
  - exists (-1), 3. split; [apply di_mem; lia || lra|]. split; [apply di_mem; lia || lra|lra].
Qed.

(** ** max, min and std::max *)
Theorem C79_max_apart : forall p k debug c ord (x y : itv (fnum p)), fvalid x -> fvalid y -> ~ meet x y ->
  let P := P_ p k debug c ord in
  (gives_back (u_max P x y) x /\ gives_back (u_min P x y) y) \/
  (gives_back (u_max P x y) y /\ gives_back (u_min P x y) x).
Proof.
  intros p k debug c ord x y Vx Vy D P.
  destruct (C15_max_exact p k debug c ord x y Vx Vy) as (z & R & Vz & Dz).
  destruct (C15_min_exact p k debug c ord x y Vx Vy) as (w & R' & Vw & Dw).
  destruct (nonempty_mem p x Vx) as (r0 & R0). destruct (nonempty_mem p y Vy) as (s0 & S0).
  assert (G : forall (m : M (itv (fnum p))) z v, returns m z -> fvalid z -> fvalid v -> (forall r, fmem z r <-> fmem v r) ->
    gives_back m v).
  { intros m z1 v A B C E. exists z1, v. repeat (split; [assumption||(intros s; reflexivity)|]).
    apply (same_sets (N := fnum p) (val := fval) z1 v B C). exact E. }
  destruct (apart x y Vx Vy D) as [L|L]; [right|left]; (split; [eapply G; [exact R|exact Vz|assumption|]|
    eapply G; [exact R'|exact Vw|assumption|]]); intros t.
  - rewrite (Dz t). split.
    + intros (a & b & Ha & Hb & ->). rewrite Rmax_right; auto. specialize (L a b Ha Hb). cbn in L. lra.
    + intros Ht. exists r0, t. split; [exact R0|]. split; [exact Ht|]. specialize (L r0 t R0 Ht). cbn in L. rewrite Rmax_right; lra.
  - rewrite (Dw t). split.
    + intros (a & b & Ha & Hb & ->). rewrite Rmin_left; auto. specialize (L a b Ha Hb). cbn in L. lra.
    + intros Ht. exists t, s0. split; [exact Ht|]. split; [exact S0|]. specialize (L t s0 Ht S0). cbn in L. rewrite Rmin_left; lra.
  - rewrite (Dz t). split.
    + intros (a & b & Ha & Hb & ->). rewrite Rmax_left; auto. specialize (L b a Hb Ha). cbn in L. lra.
    + intros Ht. exists t, s0. split; [exact Ht|]. split; [exact S0|]. specialize (L s0 t S0 Ht). cbn in L. rewrite Rmax_left; lra.
  - rewrite (Dw t). split.
    + intros (a & b & Ha & Hb & ->). rewrite Rmin_right; auto. specialize (L b a Hb Ha). cbn in L. lra.
    + intros Ht. exists r0, t. split; [exact R0|]. split; [exact Ht|]. specialize (L t r0 Ht R0). cbn in L. rewrite Rmin_right; lra.
Qed.
Print Assumptions C79_max_apart.

(** std::max(a, b) of the C++ library, instantiated with the default operator<:
    returns a reference to b if a < b, otherwise to a; [true] stands for &b. *)
Definition std_max_is_second {p} (P : policy (fnum p)) (a b : itv (fnum p)) : M bool :=
  let! lt := cmp_lt P P a b in if lt then ret true else ret false.

Lemma second_lt {p} (P : policy (fnum p)) a b s : std_max_is_second P a b s = def_cmp P Lt P a b s.
Proof.
  unfold std_max_is_second, bind. cbn [def_cmp]. destruct (cmp_lt P P a b s) as [[[|]| | | |] s']; reflexivity.
Qed.
(** Without common member, &b == &std::max(a, b) is a <= b; with two or more,
    both throw. *)
Theorem C79_std_max_partial : forall p k debug c ord (a b : itv (fnum p)), fvalid a -> fvalid b ->
  let P := P_ p k debug c ord in
  (~ meet a b -> exists second, returns (std_max_is_second P a b) second /\ returns (def_cmp P Le P a b) second) /\
  ((exists r s, r <> s /\ fmem a r /\ fmem b r /\ fmem a s /\ fmem b s) ->
     throws (std_max_is_second P a b) ComparisonError /\ throws (def_cmp P Le P a b) ComparisonError).
Proof.
  intros p k debug c ord a b Va Vb P.
  destruct (nonempty_mem p a Va) as (r0 & R0). destruct (nonempty_mem p b Vb) as (s0 & S0).
  pose proof (C37_default_three_way p k k debug c c ord ord Lt a b Va Vb) as TL.
  pose proof (C37_default_three_way p k k debug c c ord ord Le a b Va Vb) as TE. fold P in TL, TE.
  split.
  - intros D. destruct (apart a b Va Vb D) as [L|L].
    + exists true. split.
      * intros s. rewrite second_lt. destruct TL as [[A R]|[[A R]|[A [B R]]]]; [apply R| |contradiction].
        exfalso. apply A. exists r0, s0. auto.
      * destruct TE as [[A R]|[[A R]|[A [B R]]]]; [exact R| |].
        -- exfalso. apply A. exists r0, s0. split; auto. split; auto. left. apply L; auto.
        -- exfalso. apply B. intros r s Hr Hs. left. apply L; auto.
    + exists false. split.
      * intros s. rewrite second_lt. destruct TL as [[A R]|[[A R]|[A [B R]]]]; [|apply R|].
        -- exfalso. specialize (A r0 s0 R0 S0). specialize (L s0 r0 S0 R0). cbn in *. lra.
        -- exfalso. destruct A as (r & t & Hr & Ht & Q). specialize (L t r Ht Hr). cbn in *. lra.
      * destruct TE as [[A R]|[[A R]|[A [B R]]]]; [|exact R|].
        -- exfalso. specialize (A r0 s0 R0 S0). specialize (L s0 r0 S0 R0). cbn in *. lra.
        -- exfalso. destruct A as (r & t & Hr & Ht & Q). specialize (L t r Ht Hr). cbn in *. lra.
  - intros (r & s & Hrs & Ar & Br & As & Bs). split.
    + intros m. rewrite second_lt. destruct TL as [[A R]|[[A R]|[A [B R]]]]; [| |apply R].
      * exfalso. specialize (A r r Ar Br). cbn in A. lra.
      * exfalso. apply A. destruct (Rtotal_order r s) as [Q|[Q|Q]]; [exists r, s|contradiction|exists s, r]; auto.
    + destruct TE as [[A R]|[[A R]|[A [B R]]]]; [| |exact R].
      * exfalso. pose proof (A r s Ar Bs) as Q1. pose proof (A s r As Br) as Q2. cbn in Q1, Q2. apply Hrs. lra.
      * exfalso. apply A. exists r, r. repeat (split; [assumption|]). cbn. lra.
Qed.
Print Assumptions C79_std_max_partial.
Example C79_std_max_case : ~ meet (di 1 2) (di 3 4) /\
  (exists r s, r <> s /\ fmem (di 1 3) r /\ fmem (di 2 4) r /\ fmem (di 1 3) s /\ fmem (di 2 4) s).
Proof.
  split.
  - intros (r & A & B). apply di_mem in A; try lia. apply di_mem in B; try lia. lra.
  - exists 2, 3. split; [lra|]. repeat split; apply di_mem; lia || lra.
Qed.
(** Intervals with one common member: std::max throws although a <= b holds,
    and returns its first argument although the intervals overlap. *)
Theorem C79_std_max_refuted :
  (exists a b : itv (fnum double_sse), fvalid a /\ fvalid b /\
     returns (def_cmp Pdef Le Pdef a b) true /\ throws (std_max_is_second Pdef a b) ComparisonError) /\
  (exists a b : itv (fnum double_sse), fvalid a /\ fvalid b /\ meet a b /\
     returns (std_max_is_second Pdef a b) false).
Proof.
  split.
  - exists (di 1 2), (di 2 3). split; [apply di_valid; lia|]. split; [apply di_valid; lia|].
    split; intros m; destruct m; vm_compute; reflexivity.
  - exists (di 2 3), (di 1 2). split; [apply di_valid; lia|]. split; [apply di_valid; lia|]. split.
    + exists 2. split; apply di_mem; lia || lra.
    + intros m; destruct m; vm_compute; reflexivity.
Qed.
Print Assumptions C79_std_max_refuted.

Lemma xle_or_lt a b : a <> NaN -> b <> NaN -> xle a b \/ xlt b a.
Proof. destruct a, b; simpl; try tauto; try congruence; intros; lra. Qed.
(** ** hull is the union of overlapping intervals *)
Theorem C79_hull_union : forall p k debug c ord (x y : itv (fnum p)), fvalid x -> fvalid y -> meet x y ->
  exists z, returns (hull (P_ p k debug c ord) x y) z /\ fdenotes z (fun r => fmem x r \/ fmem y r).
Proof.
  intros p k debug c ord x y Vx Vy (m & Mx & My).
  pose proof (fpolspec p Save k debug c ord) as H.
  exists (mk (std_min (low x) (low y)) (std_max (up x) (up y))). split.
  - intros s. unfold hull. rewrite (test_valid H x Vx), (test_valid H y Vy). reflexivity.
  - intros t. unfold std_min, std_max, fmem, mem in *. cbn [low up].
    destruct Mx as [X1 X2], My as [Y1 Y2].
    assert (Lo : xle (fval (if n_lt (fnum p) (low y) (low x) then low y else low x)) (Fin t) <->
      xle (fval (low x)) (Fin t) \/ xle (fval (low y)) (Fin t)).
    { destruct (n_lt (fnum p) (low y) (low x)) eqn:E.
      - apply (ns_lt _ _ (fnumspec p)) in E. split; [auto|]. intros [K|K]; auto.
        eapply xle_trans; [apply xlt_xle, E|exact K].
      - split; [auto|]. intros [K|K]; auto. destruct (xle_or_lt (fval (low x)) (fval (low y)) (xle_nnl _ _ X1) (xle_nnl _ _ Y1)) as [Q|Q].
        + eapply xle_trans; eauto.
        + apply (ns_lt _ _ (fnumspec p)) in Q. congruence. }
    assert (Hi : xle (Fin t) (fval (if n_lt (fnum p) (up x) (up y) then up y else up x)) <->
      xle (Fin t) (fval (up x)) \/ xle (Fin t) (fval (up y))).
    { destruct (n_lt (fnum p) (up x) (up y)) eqn:E.
      - apply (ns_lt _ _ (fnumspec p)) in E. split; [auto|]. intros [K|K]; auto.
        eapply xle_trans; [exact K|apply xlt_xle, E].
      - split; [auto|]. intros [K|K]; auto. destruct (xle_or_lt (fval (up y)) (fval (up x)) (xle_nnr _ _ Y2) (xle_nnr _ _ X2)) as [Q|Q].
        + eapply xle_trans; eauto.
        + apply (ns_lt _ _ (fnumspec p)) in Q. congruence. }
    rewrite Lo, Hi. split; [|tauto]. intros [A B].
    assert (Up : t <= m -> xle (Fin t) (fval (up x)) /\ xle (Fin t) (fval (up y))).
    { intros L. split; (eapply xle_trans; [|eassumption]); exact L. }
    assert (Dn : m <= t -> xle (fval (low x)) (Fin t) /\ xle (fval (low y)) (Fin t)).
    { intros L. split; (eapply xle_trans; [eassumption|]); exact L. }
    destruct (Rle_or_lt t m) as [L|L]; [specialize (Up L); tauto|specialize (Dn (Rlt_le _ _ L)); tauto].
Qed.
Print Assumptions C79_hull_union.
Example C79_hull_case : meet (di 1 3) (di 2 4).
Proof. exists 2. split; apply di_mem; lia || lra. Qed.
(** The hypotheses of C79_default_complement and C79_max_apart are met by
    [1,3] < [2,4] with >=, and by [1,2] and [3,4]. *)
Example C79_complement_case : ok_interval CkStrict (di 1 3) /\ ok_interval CkStrict (di 2 4) /\
  (forall r s, holds Ge r s <-> ~ holds Lt r s) /\ fvalid (di 1 2) /\ fvalid (di 3 4) /\ ~ meet (di 1 2) (di 3 4).
Proof.
  split; [left; apply di_valid; lia|]. split; [left; apply di_valid; lia|]. split.
  - intros r s. cbn. lra.
  - split; [apply di_valid; lia|]. split; [apply di_valid; lia|]. apply C79_std_max_case.
Qed.

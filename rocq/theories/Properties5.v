(** * Properties C37-C42: comparisons *)

From Coq Require Import Reals ZArith Lra Lia Bool.
From Flocq Require Import Core BinarySingleNaN.
From Verif Require Import Outcome Base Checking Interval Utility Compare FloatNum Spec SpecCompare ExtR Sem
  CoreArith CompareProof FloatSpec FloatPol Inst Witness Properties2.
Local Open Scope R_scope.

Notation P_ p k debug c ord := (fpol p Save k debug c ord).

Lemma xlt_or a b : a <> NaN -> b <> NaN -> xlt a b \/ xle b a.
Proof. destruct a, b; simpl; try tauto; try congruence; intros; lra. Qed.
Lemma xle_eq_lt a b : xle a b -> a = b \/ xlt a b.
Proof. destruct a as [| |a|], b as [| |b|]; simpl; try tauto. intros [K|K]; [auto|left; f_equal; auto]. Qed.

Section Two.
Context (p : platform) (k1 k2 : rkind) (debug : bool) (c1 c2 : ckind) (ord1 ord2 : site -> bool).
Notation P1 := (P_ p k1 debug c1 ord1).
Notation P2 := (P_ p k2 debug c2 ord2).
Notation NS := (fnumspec p).
Notation CS1 := (ps_ck _ _ _ (fpolspec p Save k1 debug c1 ord1)).
Notation CS2 := (ps_ck _ _ _ (fpolspec p Save k2 debug c2 ord2)).

Lemma empty_true (x : itv (fnum p)) : allows_empty c1 = true -> fempty x -> test_input_i P1 x = true.
Proof. intros A E. apply is_empty_iff; auto. Qed.
Lemma empty_true2 (x : itv (fnum p)) : allows_empty c2 = true -> fempty x -> test_input_i P2 x = true.
Proof. intros A E. apply is_empty_iff; auto. Qed.
Lemma one_empty (x y : itv (fnum p)) : ok_interval c1 x -> ok_interval c2 y -> fempty x \/ fempty y ->
  test_input_2 P1 P2 x y = true.
Proof.
  intros Hx Hy E. change (test_input_2 P1 P2 x y) with (test_input_i P1 x || test_input_i P2 y).
  destruct E as [E|E].
  - destruct Hx as [V|[A _]]; [destruct E; apply V|]. rewrite empty_true; auto.
  - destruct Hy as [V|[A _]]; [destruct E; apply V|]. rewrite (empty_true2 y); auto. apply orb_true_r.
Qed.

(** ** C37: the default operators *)
Theorem C37_default_three_way : forall o (x y : itv (fnum p)), fvalid x -> fvalid y ->
  three_way (def_cmp P1 o P2 x y) o (fmem x) (fmem y).
Proof.
  intros o x y Hx Hy. unfold three_way, returns, throws.
  pose proof (bcer_all NS x y Hx Hy o) as A. pose proof (bcer_none NS x y Hx Hy o) as B.
  destruct (bcer (low x) (up x) (low y) (up y) o) eqn:E1.
  - left. split; [apply A; reflexivity|]. intros s.
    rewrite (def_run P1 P2 CS1 CS2 o x y Hx Hy). unfold bdef. rewrite E1. reflexivity.
  - right. destruct (bcer (low x) (up x) (low y) (up y) (opposite o)) eqn:E2.
    + left. split; [apply B; reflexivity|]. intros s.
      rewrite (def_run P1 P2 CS1 CS2 o x y Hx Hy). unfold bdef. rewrite E1, E2. reflexivity.
    + right. split; [|split].
      * rewrite <- (bsome_iff _ x y Hx Hy o).
        destruct (bound_dec _ x y Hx Hy (opposite o)) as [K|K]; [|rewrite opp_opp in K; exact K].
        apply (ball_iff _ x y Hx Hy) in K. exfalso. assert (false = true); [|discriminate].
        rewrite <- E2. apply (bcer_all NS x y Hx Hy). exact K.
      * intros K. apply A in K. discriminate.
      * intros s. rewrite (def_run P1 P2 CS1 CS2 o x y Hx Hy). unfold bdef. rewrite E1, E2. reflexivity.
Qed.
Theorem C37_default_empty_throws : forall o (x y : itv (fnum p)),
  ok_interval c1 x -> ok_interval c2 y -> fempty x \/ fempty y -> throws (def_cmp P1 o P2 x y) ComparisonError.
Proof.
  intros o x y Hx Hy E s. pose proof (one_empty x y Hx Hy E) as K.
  unfold test_input_2 in K. apply orb_true_iff in K.
  destruct o; cbn [def_cmp]; unfold cmp_lt, cmp_le, cmp_gt, cmp_ge, cmp_eq, cmp_ne, interval_holder, test_input_i, bind;
    (destruct (ck_is_empty (p_ck P2) (low y) (up y)); [reflexivity|]);
    (destruct K as [K|K]; [|discriminate K]); rewrite K; reflexivity.
Qed.
(** Number operands: finite, infinite, NaN. *)
Theorem C37_default_number_three_way : forall o (x : itv (fnum p)) (v : T (fnum p)) r,
  fvalid x -> fval v = Fin r -> three_way (def_cmpn P1 o x v) o (fmem x) (point r).
Proof.
  intros o x v r Hx Ev. pose proof (pvalid v r Ev) as Hv.
  assert (NV : fval v <> NaN) by (rewrite Ev; discriminate).
  pose proof (bcer_all NS x _ Hx Hv o) as A. pose proof (bcer_none NS x _ Hx Hv o) as B.
  pose proof (bcer_all NS x _ Hx Hv (opposite o)) as A'.
  rewrite (all_point_r v r Ev) in A, A'. rewrite (some_point_r v r Ev) in B. cbn [low up] in A, B, A'.
  unfold three_way, returns, throws.
  destruct (bcer (low x) (up x) v v o) eqn:E1.
  - left. split; [apply A; reflexivity|]. intros s.
    rewrite (defn_run P1 CS1 o x v Hx NV). unfold bdef. rewrite E1. reflexivity.
  - right. destruct (bcer (low x) (up x) v v (opposite o)) eqn:E2.
    + left. split; [apply B; reflexivity|]. intros s.
      rewrite (defn_run P1 CS1 o x v Hx NV). unfold bdef. rewrite E1, E2. reflexivity.
    + right. split; [|split].
      * apply (some_point_r v r Ev). rewrite <- (bsome_iff _ x _ Hx Hv o).
        destruct (bound_dec _ x _ Hx Hv (opposite o)) as [K|K]; [|rewrite opp_opp in K; exact K].
        apply (ball_iff _ x _ Hx Hv) in K. exfalso. apply (all_point_r v r Ev), A' in K. discriminate.
      * intros K. apply A in K. discriminate.
      * intros s. rewrite (defn_run P1 CS1 o x v Hx NV). unfold bdef. rewrite E1, E2. reflexivity.
Qed.
Theorem C37_default_infinite_number_sound : forall o (x : itv (fnum p)) (v : T (fnum p)) r b mode mode',
  fvalid x -> fval v <> NaN -> fmem x r ->
  def_cmpn P1 o x v mode = (Ok b, mode') -> (b = true <-> xholds o (Fin r) (fval v)).
Proof.
  intros o x v r b mode mode' Hx Hv Hr. rewrite (defn_run P1 CS1 o x v Hx Hv). unfold bdef.
  destruct (bcer_inf NS x v o r Hx Hv Hr) as [A B].
  destruct (bcer (low x) (up x) v v o).
  - intros E. injection E as <- _. split; auto.
  - destruct (bcer (low x) (up x) v v (opposite o)); intros E; [|discriminate].
    injection E as <- _. split; [discriminate|]. intros K. destruct (B eq_refl K).
Qed.
Theorem C37_default_nan_throws : forall o (x : itv (fnum p)) (v : T (fnum p)),
  ok_interval c1 x -> fval v = NaN -> exists e, throws (def_cmpn P1 o x v) e.
Proof.
  intros o x v Hx Ev.
  assert (En : v = B754_nan) by (destruct v as [?|[|]| |? ? ? ?]; try discriminate Ev; reflexivity).
  assert (K : (exists e, forall s, number_holder P1 v s = (Throw e, s)) \/ (forall s, number_holder P1 v s = (Ok v, s))).
  { rewrite En. destruct c1; simpl;
    try (left; eexists; intros s; reflexivity); right; intros s; reflexivity. }
  destruct K as [(e & K)|K].
  - exists e. intros s. destruct o; cbn [def_cmpn]; unfold cmpn_lt, cmpn_le, cmpn_gt, cmpn_ge, cmpn_eq, cmpn_ne, bind; rewrite K; reflexivity.
  - exists ComparisonError. intros s.
    destruct o; cbn [def_cmpn]; unfold cmpn_lt, cmpn_le, cmpn_gt, cmpn_ge, cmpn_eq, cmpn_ne, bind; rewrite K; rewrite En;
      (destruct (test_input_i P1 x); [reflexivity|]); cbn -[fnum]; unfold n_gt, n_ge; cbn [fnum n_lt n_le n_eq];
      destruct (up x) as [[|]|[|]| |[|] ? ? ?], (low x) as [[|]|[|]| |[|] ? ? ?]; reflexivity.
Qed.

(** ** C38: certain and possible *)
Theorem C38_certain_all : forall o (x y : itv (fnum p)), fvalid x -> fvalid y ->
  exists b, returns (certain P1 o P2 x y) b /\ (b = true <-> all_pairs o (fmem x) (fmem y)).
Proof.
  intros o x y Hx Hy. eexists. split; [intros s; apply (certain_run P1 P2 CS1 CS2 o x y Hx Hy)|].
  apply (bcer_all NS x y Hx Hy).
Qed.
Theorem C38_possible_some : forall o (x y : itv (fnum p)), fvalid x -> fvalid y ->
  exists b, returns (possible P1 o P2 x y) b /\ (b = true <-> some_pair o (fmem x) (fmem y)).
Proof.
  intros o x y Hx Hy. eexists. split; [intros s; apply (possible_run P1 P2 CS1 CS2 o x y Hx Hy)|].
  apply (bpos_iff NS x y Hx Hy).
Qed.
Theorem C38_certain_number : forall o (x : itv (fnum p)) (v : T (fnum p)) r, fvalid x -> fval v = Fin r ->
  exists b, returns (certainn P1 o x v) b /\ (b = true <-> all_pairs o (fmem x) (point r)).
Proof.
  intros o x v r Hx Ev. assert (NV : fval v <> NaN) by (rewrite Ev; discriminate).
  eexists. split; [intros s; apply (certainn_run P1 CS1 o x v Hx NV)|].
  rewrite <- (all_point_r v r Ev). apply (bcer_all NS x _ Hx (pvalid v r Ev)).
Qed.
Theorem C38_possible_number : forall o (x : itv (fnum p)) (v : T (fnum p)) r, fvalid x -> fval v = Fin r ->
  exists b, returns (possiblen P1 o x v) b /\ (b = true <-> some_pair o (fmem x) (point r)).
Proof.
  intros o x v r Hx Ev. assert (NV : fval v <> NaN) by (rewrite Ev; discriminate).
  eexists. split; [intros s; apply (possiblen_run P1 CS1 o x v Hx NV)|].
  rewrite <- (some_point_r v r Ev). apply (bpos_iff NS x _ Hx (pvalid v r Ev)).
Qed.
(** certain op = not (possible (not op)). *)
Theorem C38_dual : forall o o' (x y : itv (fnum p)) b b', fvalid x -> fvalid y ->
  (forall r s, holds o' r s <-> ~ holds o r s) ->
  returns (certain P1 o P2 x y) b -> returns (possible P1 o' P2 x y) b' -> b = negb b'.
Proof.
  intros o o' x y b b' Hx Hy D Rb Rb'.
  destruct (C38_certain_all o x y Hx Hy) as (c & Rc & Ec).
  destruct (C38_possible_some o' x y Hx Hy) as (c' & Rc' & Ec').
  assert (b = c) as -> by (specialize (Rb RNE); rewrite (Rc RNE) in Rb; congruence).
  assert (b' = c') as -> by (specialize (Rb' RNE); rewrite (Rc' RNE) in Rb'; congruence).
  assert (c = true <-> ~ (c' = true)).
  { rewrite Ec, Ec'. split.
    - intros A (r & s & X & Y & Z). apply D in Z. apply Z, A; auto.
    - intros A r s X Y. destruct (holds_dec o r s) as [K|K]; auto. exfalso. apply A. exists r, s.
      repeat split; try apply X; try apply Y. apply D. apply holds_opposite. exact K. }
  destruct c, c'; simpl; auto; exfalso; intuition congruence.
Qed.
Theorem C38_empty_throws : forall o (x y : itv (fnum p)),
  ok_interval c1 x -> ok_interval c2 y -> fempty x \/ fempty y ->
  throws (certain P1 o P2 x y) ComparisonError /\ throws (possible P1 o P2 x y) ComparisonError.
Proof.
  intros o x y Hx Hy E. pose proof (one_empty x y Hx Hy E) as K.
  split; intros s; destruct o; cbn [certain possible];
    unfold certain_lt, certain_le, certain_gt, certain_ge, certain_eq, certain_ne,
      possible_lt, possible_le, possible_gt, possible_ge, possible_eq, possible_ne, guarded; rewrite K; reflexivity.
Qed.

(** ** C39: tribool *)
Theorem C39_tribool : forall o (x y : itv (fnum p)), fvalid x -> fvalid y ->
  exists t, returns (tribool P1 o P2 x y) t /\
    (t = TTrue <-> all_pairs o (fmem x) (fmem y)) /\
    (t = TFalse <-> ~ some_pair o (fmem x) (fmem y)).
Proof.
  intros o x y Hx Hy. eexists. split; [intros s; apply (tribool_run P1 P2 CS1 CS2 o x y Hx Hy)|].
  pose proof (bcer_all NS x y Hx Hy o) as A. pose proof (bcer_none NS x y Hx Hy o) as B. unfold btri.
  destruct (bcer (low x) (up x) (low y) (up y) o) eqn:E1;
  destruct (bcer (low x) (up x) (low y) (up y) (opposite o)) eqn:E2;
    (split; split; try discriminate; try tauto; try (intros K; apply A in K; discriminate); try (intros K; apply B in K; discriminate)).
  intros K. exfalso. apply K. destruct (nonempty_mem p x Hx) as (r & Hr). destruct (nonempty_mem p y Hy) as (s & Hs).
  exists r, s. split; [exact Hr|]. split; [exact Hs|]. apply A; auto.
Qed.
Theorem C39_tribool_number : forall o (x : itv (fnum p)) (v : T (fnum p)) r, fvalid x -> fval v = Fin r ->
  exists t, returns (tribooln P1 o x v) t /\
    (t = TTrue <-> all_pairs o (fmem x) (point r)) /\
    (t = TFalse <-> ~ some_pair o (fmem x) (point r)).
Proof.
  intros o x v r Hx Ev. assert (NV : fval v <> NaN) by (rewrite Ev; discriminate). pose proof (pvalid v r Ev) as Hv.
  eexists. split; [intros s; apply (tribooln_run P1 CS1 o x v Hx NV)|].
  pose proof (bcer_all NS x _ Hx Hv o) as A. pose proof (bcer_none NS x _ Hx Hv o) as B.
  rewrite (all_point_r v r Ev) in A. rewrite (some_point_r v r Ev) in B. cbn [low up] in A, B. unfold btri.
  destruct (bcer (low x) (up x) v v o) eqn:E1;
  destruct (bcer (low x) (up x) v v (opposite o)) eqn:E2;
    (split; split; try discriminate; try tauto; try (intros K; apply A in K; discriminate); try (intros K; apply B in K; discriminate)).
  intros K. exfalso. apply K. destruct (nonempty_mem p x Hx) as (t & Ht).
  exists t, r. split; [exact Ht|]. split; [reflexivity|]. apply A; auto. reflexivity.
Qed.
Theorem C39_tribool_empty_throws : forall o (x y : itv (fnum p)),
  ok_interval c1 x -> ok_interval c2 y -> fempty x \/ fempty y -> throws (tribool P1 o P2 x y) ComparisonError.
Proof.
  intros o x y Hx Hy E. pose proof (one_empty x y Hx Hy E) as K.
  intros s; destruct o; cbn [tribool];
    unfold tribool_lt, tribool_le, tribool_gt, tribool_ge, tribool_eq, tribool_ne, guarded; rewrite K; reflexivity.
Qed.

(** ** C40: lexicographic *)
Theorem C40_lexicographic_meaning : forall o (x y : itv (fnum p)), fvalid x -> fvalid y ->
  exists b, returns (lexi P1 o P2 x y) b /\
    (b = true <->
     match o with
     | Lt => lex_lt (fval (low x)) (fval (up x)) (fval (low y)) (fval (up y))
     | Le => lex_le (fval (low x)) (fval (up x)) (fval (low y)) (fval (up y))
     | Gt => lex_lt (fval (low y)) (fval (up y)) (fval (low x)) (fval (up x))
     | Ge => lex_le (fval (low y)) (fval (up y)) (fval (low x)) (fval (up x))
     | Eq => fsame x y
     | Ne => ~ fsame x y
     end).
Proof.
  intros o x y Hx Hy. pose proof (test2 P1 P2 CS1 CS2 x y Hx Hy) as TT.
  assert (nxl : fval (low x) <> NaN) by apply (valid_low_nn _ _ Hx).
  assert (nxu : fval (up x) <> NaN) by apply (valid_up_nn _ _ Hx).
  pose proof (eqb_nn NS (low x) (low y) nxl) as EL. pose proof (eqb_nn NS (up x) (up y) nxu) as EU.
  pose proof (neb_nn NS (low x) (low y) nxl) as NL. pose proof (neb_nn NS (up x) (up y) nxu) as NU.
  unfold lex_lt, lex_le, fsame, same.
  destruct o; cbn [lexi]; unfold lexi_lt, lexi_le, lexi_gt, lexi_ge, lexi_eq, lexi_ne, guarded; rewrite TT;
    (eexists; split; [intros s; reflexivity|]);
    rewrite ?orb_true_iff, ?andb_true_iff; unfold n_gt, n_ge; rewrite ?EL, ?EU, ?NL, ?NU, ?(ns_lt _ _ NS), ?(ns_le _ _ NS); try tauto.
  - split; intros [K|[K K']]; auto; right; split; auto.
  - split; intros [K|[K K']]; auto; right; split; auto.
Qed.
Lemma lexi_iff o (x y : itv (fnum p)) b : fvalid x -> fvalid y -> returns (lexi P1 o P2 x y) b ->
  (b = true <-> returns (lexi P1 o P2 x y) true).
Proof.
  intros Hx Hy Rb. split; [intros ->; auto|]. intros R1. specialize (Rb RNE). specialize (R1 RNE). rewrite R1 in Rb. congruence.
Qed.
End Two.

Section Lex.
Context (p : platform) (k : rkind) (debug : bool) (c : ckind) (ord : site -> bool).
Notation P := (P_ p k debug c ord).
Notation lx o x y := (returns (lexi P o P x y) true).

Lemma lx_iff o (x y : itv (fnum p)) : fvalid x -> fvalid y ->
  (lx o x y <->
     match o with
     | Lt => lex_lt (fval (low x)) (fval (up x)) (fval (low y)) (fval (up y))
     | Le => lex_le (fval (low x)) (fval (up x)) (fval (low y)) (fval (up y))
     | Gt => lex_lt (fval (low y)) (fval (up y)) (fval (low x)) (fval (up x))
     | Ge => lex_le (fval (low y)) (fval (up y)) (fval (low x)) (fval (up x))
     | Eq => fsame x y
     | Ne => ~ fsame x y
     end).
Proof.
  intros Hx Hy. destruct (C40_lexicographic_meaning p k k debug c c ord ord o x y Hx Hy) as (b & Rb & E).
  rewrite <- E. symmetry. apply (lexi_iff p k k debug c c ord ord o x y b Hx Hy Rb).
Qed.
Theorem C40_total_order : forall x y z : itv (fnum p), fvalid x -> fvalid y -> fvalid z ->
  lx Le x x /\
  (lx Le x y -> lx Le y z -> lx Le x z) /\
  (lx Le x y -> lx Le y x -> fsame x y) /\
  (lx Le x y \/ lx Le y x) /\
  (lx Lt x y <-> lx Le x y /\ ~ lx Le y x) /\
  (lx Gt x y <-> lx Lt y x) /\ (lx Ge x y <-> lx Le y x) /\
  (lx Eq x y <-> fsame x y) /\ (lx Ne x y <-> ~ fsame x y).
Proof.
  intros x y z Hx Hy Hz.
  rewrite !lx_iff by assumption. unfold lex_le, lex_lt, fsame, same.
  assert (nxl : fval (low x) <> NaN) by apply (valid_low_nn _ _ Hx).
  assert (nxu : fval (up x) <> NaN) by apply (valid_up_nn _ _ Hx).
  assert (nyl : fval (low y) <> NaN) by apply (valid_low_nn _ _ Hy).
  assert (nyu : fval (up y) <> NaN) by apply (valid_up_nn _ _ Hy).
  assert (nzl : fval (low z) <> NaN) by apply (valid_low_nn _ _ Hz).
  assert (nzu : fval (up z) <> NaN) by apply (valid_up_nn _ _ Hz).
  generalize dependent (fval (low x)). generalize dependent (fval (up x)).
  generalize dependent (fval (low y)). generalize dependent (fval (up y)).
  generalize dependent (fval (low z)). generalize dependent (fval (up z)).
  intros zu nzu zl nzl yu nyu yl nyl xu nxu xl nxl.
  split; [right; split; auto; apply xle_refl; auto|].
  split.
  { intros [A|[A A']] [B|[B B']].
    - left. eapply xlt_le_trans; [exact A|]. apply xlt_xle; auto.
    - left. subst. auto.
    - left. subst. auto.
    - right. subst. split; auto. eapply xle_trans; eauto. }
  split.
  { intros [A|[A A']] [B|[B B']].
    - destruct (xlt_nle _ _ A). apply xlt_xle; auto.
    - subst. destruct (xlt_irrefl _ A).
    - subst. destruct (xlt_irrefl _ B).
    - split; auto. apply xle_antisym; auto. }
  split.
  { destruct (xlt_or xl yl nxl nyl) as [A|A]; auto. apply xle_eq_lt in A. destruct A as [A|A]; auto. subst.
    destruct (xle_total xu yu nxu nyu) as [B|B]; auto. }
  split; [|tauto].
  split.
  - intros [A|[A A']]; (split; [auto|]).
    + intros [B|[B B']]; [apply (xlt_nle _ _ A); apply xlt_xle; auto|subst; apply (xlt_irrefl _ A)].
    + right. split; auto. apply xlt_xle; auto.
    + intros [B|[B B']]; [subst; apply (xlt_irrefl _ B)|apply (xlt_nle _ _ A' B')].
  - intros [[A|[A A']] B]; auto. subst. right. split; auto.
    destruct (xle_eq_lt _ _ A') as [E|E]; auto. subst. destruct B. right. auto.
Qed.
(** A number behaves as its singleton. *)
Theorem C40_number_as_singleton : forall o (x : itv (fnum p)) (v : T (fnum p)) b,
  fvalid x -> is_fin (fval v) ->
  returns (lexin P o x v) b <-> returns (lexi P o P x (mk v v)) b.
Proof.
  intros o x v b Hx (r & Ev). pose proof (pvalid v r Ev) as Hv.
  assert (NV : fval v <> NaN) by (rewrite Ev; discriminate).
  pose proof (ps_ck _ _ _ (fpolspec p Save k debug c ord)) as CS.
  pose proof (test2 P P CS CS x (mk v v) Hx Hv) as TT. pose proof (testn P CS x v Hx NV) as T1.
  assert (nxl : fval (low x) <> NaN) by apply (valid_low_nn _ _ Hx).
  pose proof (proj1 Hx) as LE.
  assert (E : forall s, lexin P o x v s = lexi P o P x (mk v v) s); [|unfold returns; split; intros K s; rewrite <- (K s); auto].
  intros s. destruct o; cbn [lexi lexin]; unfold lexi_lt, lexi_le, lexi_gt, lexi_ge, lexi_eq, lexi_ne,
    lexin_lt, lexin_le, lexin_gt, lexin_ge, lexin_eq, lexin_ne, guarded, guarded_n, bind; rewrite TT, T1;
    cbn [low up]; unfold ret; f_equal; f_equal.
  - destruct (n_eq (fnum p) (low x) v) eqn:E1; [|rewrite orb_false_r; reflexivity].
    destruct (n_lt (fnum p) (up x) v) eqn:E2; [|rewrite orb_false_r; reflexivity].
    apply (ns_eq _ _ (fnumspec p)) in E1. apply (ns_lt _ _ (fnumspec p)) in E2. destruct E1 as [E1 _].
    rewrite <- E1 in E2. destruct (xlt_nle _ _ E2 LE).
  - unfold n_ge, n_gt. destruct (n_lt (fnum p) v (low x)) eqn:E1.
    + apply (ns_le _ _ (fnumspec p)). apply xlt_xle. apply (ns_lt _ _ (fnumspec p)). auto.
    + destruct (n_eq (fnum p) (low x) v) eqn:E2; simpl orb.
      * apply (ns_eq _ _ (fnumspec p)) in E2. destruct E2 as [E2 _]. simpl andb.
        transitivity true; [|symmetry]; apply (ns_le _ _ (fnumspec p)); rewrite <- E2; auto. apply xle_refl; auto.
      * simpl andb. apply not_true_iff_false. intros K. apply (ns_le _ _ (fnumspec p)) in K.
        destruct (xle_eq_lt _ _ K) as [A|A].
        -- assert (n_eq (fnum p) (low x) v = true) by (apply (ns_eq _ _ (fnumspec p)); auto). congruence.
        -- apply (ns_lt _ _ (fnumspec p)) in A. congruence.
Qed.

(** ** C41: set comparisons *)
Theorem C41_set_inclusion : forall x y : itv (fnum p), ok_interval c x -> ok_interval c y ->
  (returns (setcmp P Le x y) true <-> (forall r, fmem x r -> fmem y r)) /\
  (returns (setcmp P Ge x y) true <-> (forall r, fmem y r -> fmem x r)) /\
  (returns (setcmp P Lt x y) true <-> (forall r, fmem x r -> fmem y r) /\ (exists r, fmem y r /\ ~ fmem x r)) /\
  (returns (setcmp P Gt x y) true <-> (forall r, fmem y r -> fmem x r) /\ (exists r, fmem x r /\ ~ fmem y r)) /\
  (returns (setcmp P Eq x y) true <-> (forall r, fmem x r <-> fmem y r)) /\
  (returns (setcmp P Ne x y) true <-> ~ (forall r, fmem x r <-> fmem y r)) /\
  (forall o, exists b, returns (setcmp P o x y) b).
Proof.
  intros x y Hx Hy.
  assert (K : forall b : bool, returns (ret b) true <-> b = true).
  { intros b. split; [intros R1; specialize (R1 RNE); unfold ret in R1; congruence|intros -> s; reflexivity]. }
  cbn [setcmp]. unfold set_lt, set_le, set_gt, set_ge, set_eq, set_ne.
  do 4 (split; [rewrite K; apply C32_subset || apply C32_proper_subset; auto|]).
  assert (E : equal P y x = true <-> (forall r, fmem x r <-> fmem y r)).
  { rewrite (C32_equal p k debug c ord y x Hy Hx). split; intros Q r; symmetry; apply Q. }
  split; [rewrite K; exact E|]. split.
  - rewrite K, <- E. destruct (equal P y x); simpl; intuition congruence.
  - intros o. destruct o; eexists; intros s; reflexivity.
Qed.
(** Empty is the least element. *)
Theorem C41_empty_least : forall x y : itv (fnum p), ok_interval c x -> ok_interval c y -> fempty x ->
  returns (setcmp P Le x y) true /\ (returns (setcmp P Le y x) true <-> fempty y).
Proof.
  intros x y Hx Hy E. destruct (C41_set_inclusion x y Hx Hy) as (A & B & _).
  assert (N : forall r, ~ fmem x r) by (apply fempty_none; auto).
  split; [apply A; intros r Hr; destruct (N r Hr)|].
  change (setcmp P Le y x) with (setcmp P Ge x y). rewrite B. split.
  - intros K. destruct Hy as [V|[_ V]]; auto. destruct (nonempty_mem p y V) as (r & Hr). destruct (N r (K r Hr)).
  - intros Ey r Hr. destruct (fempty_none p y Ey r Hr).
Qed.
Theorem C41_number_throws : forall o (x : itv (fnum p)) v, throws (setcmpn o x v) ComparisonError.
Proof. intros o x v s. destruct o; reflexivity. Qed.
End Lex.

(** ** C42: cerXX and posXX *)
Theorem C42_explicit : forall p o (x y : itv (fnum p)), fvalid x -> fvalid y ->
  (cer o x y = true <-> all_pairs o (fmem x) (fmem y)) /\
  (pos o x y = true <-> some_pair o (fmem x) (fmem y)).
Proof. intros p o x y Hx Hy. split; [apply (cer_iff (fnumspec p))|apply (pos_iff (fnumspec p))]; auto. Qed.
Theorem C42_explicit_number : forall p o (x : itv (fnum p)) (v : T (fnum p)) r, fvalid x -> fval v = Fin r ->
  (cer_in o x v = true <-> all_pairs o (fmem x) (point r)) /\
  (pos_in o x v = true <-> some_pair o (fmem x) (point r)) /\
  (cer_ni o v x = true <-> all_pairs o (point r) (fmem x)) /\
  (pos_ni o v x = true <-> some_pair o (point r) (fmem x)).
Proof.
  intros p o x v r Hx Ev. split; [apply (cer_in_iff (fnumspec p)); auto|]. split; [apply (pos_in_iff (fnumspec p)); auto|].
  split; [apply (cer_ni_iff (fnumspec p)); auto|apply (pos_ni_iff (fnumspec p)); auto].
Qed.
(** The number forms agree with the interval form on the singleton. *)
Theorem C42_forms_agree : forall p o (x : itv (fnum p)) (v : T (fnum p)), fvalid x -> is_fin (fval v) ->
  cer_in o x v = cer o x (mk v v) /\ pos_in o x v = pos o x (mk v v) /\
  cer_ni o v x = cer o (mk v v) x /\ pos_ni o v x = pos o (mk v v) x.
Proof.
  intros p o x v Hx (r & Ev). pose proof (pvalid v r Ev) as Hv.
  destruct (C42_explicit_number p o x v r Hx Ev) as (A & B & C & D).
  destruct (C42_explicit p o x (mk v v) Hx Hv) as (A' & B'). destruct (C42_explicit p o (mk v v) x Hv Hx) as (C' & D').
  unfold fmem in *.
  rewrite (all_point_r v r Ev) in A'. rewrite (some_point_r v r Ev) in B'.
  rewrite (all_point_l v r Ev) in C'. rewrite (some_point_l v r Ev) in D'.
  repeat split; apply eq_true_iff_eq; etransitivity; eauto; symmetry; eauto.
Qed.

Print Assumptions C37_default_three_way.
Print Assumptions C37_default_empty_throws.
Print Assumptions C37_default_number_three_way.
Print Assumptions C37_default_infinite_number_sound.
Print Assumptions C37_default_nan_throws.
Print Assumptions C38_certain_all.
Print Assumptions C38_possible_some.
Print Assumptions C38_certain_number.
Print Assumptions C38_possible_number.
Print Assumptions C38_dual.
Print Assumptions C38_empty_throws.
Print Assumptions C39_tribool.
Print Assumptions C39_tribool_number.
Print Assumptions C39_tribool_empty_throws.
Print Assumptions C40_lexicographic_meaning.
Print Assumptions C40_total_order.
Print Assumptions C40_number_as_singleton.
Print Assumptions C41_set_inclusion.
Print Assumptions C41_empty_least.
Print Assumptions C41_number_throws.
Print Assumptions C42_explicit.
Print Assumptions C42_explicit_number.
Print Assumptions C42_forms_agree.

(** All three answers of the default operators; the same intervals elsewhere. *)
Example C37_case : fvalid (di 1 2) /\ fvalid (di 3 4) /\ fvalid (di 2 3) /\ fempty (mk dnan dnan : itv (fnum double_sse)) /\
  run (fun b => b) (def_cmp Pdef Lt Pdef (di 1 2) (di 3 4)) RNE = (Ok true, RNE) /\
  run (fun b => b) (def_cmp Pdef Lt Pdef (di 3 4) (di 1 2)) RNE = (Ok false, RNE) /\
  run (fun b => b) (def_cmp Pdef Lt Pdef (di 1 2) (di 2 3)) RNE = (Throw ComparisonError, RNE) /\
  run (fun b => b) (def_cmp Pbase Lt Pdef (mk dnan dnan) (di 2 3)) RNE = (Throw ComparisonError, RNE) /\
  run (fun b => b) (def_cmpn Pdef Ge (di 2 3) (dbl 2 0)) RNE = (Ok true, RNE) /\
  run (fun b => b) (def_cmpn Pdef Ge (di 2 3) dnan) RNE = (Throw ComparisonError, RNE).
Proof.
  split; [apply di_valid; lia|]. split; [apply di_valid; lia|]. split; [apply di_valid; lia|].
  split; [intros []|]. repeat split; vm_compute; reflexivity.
Qed.
Example C38_case :
  run (fun b => b) (certain Pdef Le Pdef (di 1 2) (di 2 3)) RNE = (Ok true, RNE) /\
  run (fun b => b) (possible Pdef Gt Pdef (di 1 2) (di 2 3)) RNE = (Ok false, RNE) /\
  run (fun b => b) (possible Pdef Eq Pdef (di 1 2) (di 2 3)) RNE = (Ok true, RNE) /\
  run (fun b => b) (certain Pdef Eq Pdef (di 2 2) (di 2 2)) RNE = (Ok true, RNE) /\
  run (fun b => b) (tribool Pdef Lt Pdef (di 1 2) (di 2 3)) RNE = (Ok TIndeterminate, RNE) /\
  run (fun b => b) (lexi Pdef Lt Pdef (di 1 2) (di 1 3)) RNE = (Ok true, RNE) /\
  run (fun b => b) (setcmp Pdef Lt (di 1 2) (di 1 3)) RNE = (Ok true, RNE) /\
  cer Lt (di 1 2) (di 3 4) = true /\ pos_ni Ne (dbl 1 0) (di 1 1) = false.
Proof. repeat split; vm_compute; reflexivity. Qed.

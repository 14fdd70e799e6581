(** * cos, sin and tan *)

From Coq Require Import Reals ZArith Lra Lia Psatz Bool.
From Flocq Require Import Core.Raux.
From Verif Require Import Outcome Base Checking Interval Utility Arith Arith2 FloatNum Spec ExtR Sem
  CoreArith CoreDiv CoreMore CoreUtil CoreFmod Transc SpecTransc TransReal CoreTransc.
Local Open Scope R_scope.

(** ** Real analysis *)
Lemma cos_low_half m s : 0 <= m -> m <= s -> s <= PI -> cos s <= cos m.
Proof. intros A B C. destruct B as [B| ->]; [|lra]. left. apply cos_decreasing_1; lra. Qed.
Lemma cos_fold s : cos (2 * PI - s) = cos s.
Proof. rewrite cos_minus, cos_2PI, sin_2PI. ring. Qed.
Lemma cos_top m s a b : 0 <= m -> m <= a -> m <= 2 * PI - b -> a <= s <= b -> cos s <= cos m.
Proof.
  intros A B C D. destruct (Rle_or_lt s PI) as [S|S].
  - apply cos_low_half; lra.
  - rewrite <- (cos_fold s). apply cos_low_half; lra.
Qed.
Lemma cos_sub_PI s : cos s = - cos (s - PI).
Proof. rewrite cos_minus, cos_PI, sin_PI. ring. Qed.
Lemma tan_graph_le a b : - (PI / 2) < a -> a <= b -> b < PI / 2 -> sin a / cos a <= sin b / cos b.
Proof. intros A B C. destruct B as [B| ->]; [|lra]. left. apply (tan_increasing a b); lra. Qed.

(** The constants of constants.hpp, as the proofs use them. *)
Record kspec {N} (val : T N -> ext) (K : consts N) (pl pu hl hu tl tu : R) : Prop := {
  ks_pl : exists t, val t = Fin pl /\ pureM (k_pi_l K) t;
  ks_pu : exists t, val t = Fin pu /\ pureM (k_pi_u K) t;
  ks_hl : exists t, val t = Fin hl /\ pureM (k_half_l K) t;
  ks_hu : exists t, val t = Fin hu /\ pureM (k_half_u K) t;
  ks_tl : exists t, val t = Fin tl /\ pureM (k_twice_l K) t;
  ks_tu : exists t, val t = Fin tu /\ pureM (k_twice_u K) t;
  ks_pi : pl <= PI <= pu;
  ks_half : hl <= PI / 2 <= hu;
  ks_twice : tl <= 2 * PI <= tu;
  ks_b : 3 <= pl /\ 1 <= hl /\ 6 <= tl /\ tu <= 2 * pu
}.

Section Core.
Context {N : num} {val : T N -> ext} {P : policy N} {ready : rmode -> Prop}
        (H : polspec val P ready).
Notation V := (valid val).
Notation NS := (ps_num _ _ _ H).
Notation AS := (ps_ar _ _ _ H).
Notation CS := (ps_ck _ _ _ H).
Notation Pu := (unprotect P).
Notation HU := (polspec_unprotect val P ready H).
Context {K : consts N} {pl pu hl hu tl tu Kb Bf : R} {R : transc N}
        (HK : kspec val K pl pu hl hu tl tu).
Notation mone := (n_cst N (-1)).
Hypothesis HM : val mone = Fin (-1).
Hypothesis HKb : tl <= Kb * (tu - tl).
(** int_down is the floor, unless the quotient is large; below [Bf] it may be
    infinite. *)
Definition good_quot (l yb : Rdefinitions.R) (n : Z) : Prop := n = Zfloor (l / yb) \/ Kb <= Rabs (IZR n).
Hypothesis HB : Bf <= 0.
Hypothesis HI : forall a l yb, val a = Fin l -> 1 <= yb -> Bf <= l / yb ->
  int_hyp (val := val) (P := P) (ready := ready) l yb (good_quot l yb).
Notation holdsv := (holds (val := val)).
Notation downok f := (doc_down val ready R f).
Notation upok f := (doc_up val ready R f).

(** The bounds of the results of sin and cos, for functions that round to the
    side that their names say and not beyond the range of cos. *)
Definition unit_itv (r : itv N) : Prop := xle (Fin (-1)) (val (low r)) /\ xle (val (up r)) (Fin 1).
Definition cos_sharp : Prop :=
  (forall a r t, val a = Fin r -> runsI ready (tr_down R Fcos a) t -> xle (Fin (-1)) (val t)) /\
  (forall a r t, val a = Fin r -> runsI ready (tr_up R Fcos a) t -> xle (val t) (Fin 1)).
Lemma unit_unit : unit_itv (mk mone one).
Proof. split; cbn [low up]; [rewrite HM|rewrite (val_one H)]; cbn [xle]; lra. Qed.
Lemma unit_neg r g : unit_itv r -> val (low g) = xopp (val (up r)) -> val (up g) = xopp (val (low r)) -> unit_itv g.
Proof.
  intros [A B] E1 E2. split; [rewrite E1|rewrite E2]; [destruct (val (up r))|destruct (val (low r))]; cbn [xopp xle] in *; try tauto; lra.
Qed.

Lemma run_pair o (m1 m2 : M (T N)) a b :
  (exists t, val t = Fin a /\ pureM m1 t) -> (exists t, val t = Fin b /\ pureM m2 t) ->
  exists z, pureM (mk_args o m1 m2) z /\ val (low z) = Fin a /\ val (up z) = Fin b.
Proof.
  intros (s & Es & Rs) (t & Et & Rt). exists (mk s t). split; [apply pureM_mk_args; auto|]. auto.
Qed.
Lemma finite_valid x a b : val (low x) = Fin a -> val (up x) = Fin b -> a <= b -> V x.
Proof. intros E1 E2 L. unfold valid. rewrite E1, E2. repeat split; try discriminate. exact L. Qed.
Lemma unit_holds x : holdsv Fcos x (mk mone one).
Proof.
  intros r t _ G. cbn [graph] in G. subst t. unfold mem. cbn [low up]. rewrite HM, (val_one H). cbn [xle].
  pose proof (COS_bound r). lra.
Qed.
Lemma unit_holds_sin x : holdsv Fsin x (mk mone one).
Proof.
  intros r t _ G. cbn [graph] in G. subst t. unfold mem. cbn [low up]. rewrite HM, (val_one H). cbn [xle].
  pose proof (SIN_bound r). lra.
Qed.
Lemma ge_iff a b : n_ge a b = true <-> xle (val b) (val a).
Proof. unfold n_ge. apply (ns_le _ _ NS). Qed.
Lemma cos_defined a r : val a = Fin r -> xgraph Fcos (val a) (Fin (cos r)).
Proof. intros E. rewrite E. exists (cos r). split; reflexivity. Qed.
Lemma cos_dom a r : val a = Fin r -> 0 <= r <= 2 * PI -> doc_domain Fcos (val a).
Proof. intros E B. exists r. auto. Qed.

(** ** Reduction by the period *)
Lemma reduce x y a b l : V x -> val (low x) = Fin l -> val (low y) = Fin a -> val (up y) = Fin b ->
  1 <= a -> a <= b -> Bf <= l / (if Rlt_dec l 0 then a else b) ->
  exists z n lz, runsI ready (fmod Pu x y) z /\ V z /\ encloses val z (shifted n (mem val x) (mem val y)) /\
    val (low z) = Fin lz /\ 0 <= lz /\ lz <= l - IZR n * (if Rlt_dec l 0 then a else b) /\
    good_quot l (if Rlt_dec l 0 then a else b) n /\ IZR n <= l / (if Rlt_dec l 0 then a else b) /\ (0 <= l -> 0 <= IZR n) /\
    (n = 0%Z -> val (low z) = val (low x) /\ val (up z) = val (up x)).
Proof.
  intros Hx El Ea Eb A1 Hab Near. set (yb := if Rlt_dec l 0 then a else b).
  assert (Y1 : 1 <= yb) by (unfold yb; destruct Rlt_dec; lra).
  assert (Vy : V y) by (eapply finite_valid; eauto).
  assert (HI' : int_hyp (val := val) (P := Pu) (ready := ready) l yb
     (fun n => good_quot l yb n /\ IZR n <= l / yb /\ (0 <= l -> 0 <= IZR n))).
  { intros t Dt. destruct (HI (low x) l yb El Y1 Near t Dt) as (tn & n & E1 & E2 & E3 & E4 & E5).
    exists tn, n. repeat split; auto. }
  destruct (fmod_ok HU x y l a b yb Hx Vy El Ea Eb ltac:(lra) eq_refl _ HI') as (z & n & (Qn & Ln & Pn) & Rz & Vz & Ez & Lz & Uz & Id).
  apply runsP_unprotect in Rz.
  destruct (val (low z)) as [| |lz|] eqn:E; cbn [xle] in Lz, Uz; try tauto.
  exists z, n, lz. do 9 (split; [solve [auto]|]). rewrite <- E in *. exact Id.
Qed.

(** The part of cos after the reduction, without recursion. *)
Lemma cos_direct z l (o : bool * bool) plv (pi2 : itv N) : downok Fcos -> upok Fcos -> V z ->
  val (low z) = Fin l -> 0 <= l -> (exists u, val (up z) = Fin u) ->
  val (low pi2) = Fin tl -> val plv = Fin pl ->
  exists r, runsI ready
    (if n_le N (up z) plv then
       mk_args (fst o) (tr_down R Fcos (up z)) (tr_up R Fcos (low z))
     else if n_le N (up z) (low pi2) then
       mk_args (snd o) (ret mone) (let! d := sub_down (p_ar P) (low pi2) (up z) in tr_up R Fcos (std_min d (low z)))
     else ret (mk mone one)) r /\ holdsv Fcos z r /\ (cos_sharp -> unit_itv r).
Proof.
  intros D U Vz El Pl (u & Eu) Et Ep.
  assert (Lu : l <= u) by (destruct Vz as (Q & _); rewrite El, Eu in Q; exact Q).
  destruct (ks_pi _ _ _ _ _ _ _ _ HK) as [Kp1 Kp2]. destruct (ks_twice _ _ _ _ _ _ _ _ HK) as [Kt1 Kt2].
  destruct (le_case H (up z) plv) as [[E A]|[E A]]; [rewrite Eu; discriminate|rewrite Ep; discriminate| |]; rewrite E; rewrite Eu, Ep in A.
  - cbn [xle] in A. destruct (D (up z) _ (cos_dom _ _ Eu ltac:(lra)) (cos_defined _ _ Eu)) as (a & La & Ra).
    destruct (U (low z) _ (cos_dom _ _ El ltac:(lra)) (cos_defined _ _ El)) as (b & Lb & Rb).
    exists (mk a b). split; [runs|]. split.
    2:{ intros [S1 S2]. split; cbn [low up]; [exact (S1 _ _ _ Eu Ra)|exact (S2 _ _ _ El Rb)]. }
    intros s t [M1 M2] G. cbn [graph] in G. subst t.
    rewrite El in M1. rewrite Eu in M2. cbn [xle] in M1, M2. split; cbn [low up].
    + refine (xle_trans _ _ _ La _). cbn [xle]. apply cos_low_half; lra.
    + refine (xle_trans _ _ _ _ Lb). cbn [xle]. apply cos_low_half; lra.
  - clear A. destruct (le_case H (up z) (low pi2)) as [[E' A]|[E' A]]; [rewrite Eu; discriminate|rewrite Et; discriminate| |];
      rewrite E'; [rewrite Eu, Et in A|exists (mk mone one); split; [runs|split; [apply unit_holds|intros _; apply unit_unit]]].
    cbn [xle] in A.
    destruct (as_sub_down _ _ _ AS (low pi2) (up z)) as (d & Dd & Rd); [rewrite Et, Eu; discriminate|].
    rewrite Et, Eu in Dd. change (xsub (Fin tl) (Fin u)) with (Fin (tl - u)) in Dd.
    assert (Pd : xle (Fin 0) (val d)).
    { rewrite <- (val_zero H). apply (proj2 Dd). rewrite (val_zero H). cbn [xle]. lra. }
    assert (Ed : exists dv, val d = Fin dv /\ 0 <= dv <= tl - u).
    { destruct Dd as [Dd _]. destruct (val d); cbn [xle] in Pd, Dd; try tauto. eexists. split; [reflexivity|lra]. }
    destruct Ed as (dv & Ed & Bd).
    destruct (std_min_spec H d (low z)) as (Nm & Um & Lm); [rewrite Ed; discriminate|rewrite El; discriminate|].
    assert (Em : exists m, val (std_min d (low z)) = Fin m /\ 0 <= m /\ m <= dv /\ m <= l).
    { assert (L0 : xle (Fin 0) (val (std_min d (low z)))) by (apply Lm; rewrite Ed, El; cbn [xle]; lra).
      assert (L1 : xle (val (std_min d (low z))) (val d)) by (apply Um; left; apply xle_refl; rewrite Ed; discriminate).
      assert (L2 : xle (val (std_min d (low z))) (val (low z))) by (apply Um; right; apply xle_refl; rewrite El; discriminate).
      rewrite Ed in L1. rewrite El in L2. destruct (val (std_min d (low z))); cbn [xle] in *; try tauto. eexists. split; [reflexivity|lra]. }
    destruct Em as (m & Em & M0 & M1 & M2).
    destruct (U _ _ (cos_dom _ _ Em ltac:(lra)) (cos_defined _ _ Em)) as (b & Lb & Rb).
    exists (mk mone b). split.
    { apply runsI_mk_args; [runs|]. eapply runsI_bind; [exact Rd|]. exact Rb. }
    split.
    2:{ intros [_ S2]. split; cbn [low up]; [apply unit_unit|exact (S2 _ _ _ Em Rb)]. }
    intros s t [B1 B2] G. cbn [graph] in G. subst t. rewrite El in B1. rewrite Eu in B2. cbn [xle] in B1, B2.
    split; cbn [low up].
    + rewrite HM. cbn [xle]. pose proof (COS_bound s). lra.
    + refine (xle_trans _ _ _ _ Lb). cbn [xle]. apply cos_top with l u; lra.
Qed.

(** From the reduced argument back to the argument. *)
Lemma cos_back x z n (y r : itv N) : encloses val z (shifted n (mem val x) (mem val y)) -> mem val y (2 * PI) ->
  holdsv Fcos z r -> holdsv Fcos x r.
Proof.
  intros E My Hr s t M G. cbn [graph] in G. subst t. rewrite <- (cos_shift s n).
  apply (Hr (s - IZR n * (2 * PI))); [|reflexivity]. apply E. exists s, (2 * PI). auto.
Qed.
Lemma width_val z l : V z -> val (low z) = Fin l ->
  exists w, runsI ready (width Pu z) w /\ val w <> NaN /\ (forall r, mem val z r -> xle (Fin (r - l)) (val w)).
Proof.
  intros Vz El. destruct (width_ok HU z Vz) as (w & Rw & Uw & _). apply runsP_unprotect in Rw.
  assert (ML : mem val z l) by (destruct Vz as (Q & _); unfold mem; rewrite El in *; split; [simpl; lra|auto]).
  assert (W : forall r, mem val z r -> xle (Fin (r - l)) (val w)).
  { intros r M. apply Uw. exists r, l. auto. }
  exists w. split; auto. split; auto. intros E. specialize (W l ML). rewrite E in W. destruct W.
Qed.

(** The width test leaves only arguments below the period. *)
Lemma wide_case x z y n l lz w : V x -> val (low x) = Fin l -> val (low y) = Fin tl -> val (up y) = Fin tu ->
  encloses val z (shifted n (mem val x) (mem val y)) -> val (low z) = Fin lz ->
  lz <= l - IZR n * (if Rlt_dec l 0 then tl else tu) -> good_quot l (if Rlt_dec l 0 then tl else tu) n ->
  (forall r, mem val z r -> xle (Fin (r - lz)) (val w)) -> xlt (val w) (Fin tl) -> lz < tu.
Proof.
  intros Hx El Ea Eb Ez Elz Ub Q Hw Lw. set (yb := if Rlt_dec l 0 then tl else tu) in *.
  destruct (ks_b _ _ _ _ _ _ _ _ HK) as (B1 & B2 & B3 & B4). destruct (ks_twice _ _ _ _ _ _ _ _ HK) as [Kt1 Kt2].
  assert (Y : tl <= yb <= tu) by (unfold yb; destruct Rlt_dec; lra).
  destruct Q as [Q|Q].
  - subst n. pose proof (Zfloor_ub (l / yb)) as F.
    assert (l < (IZR (Zfloor (l / yb)) + 1) * yb).
    { apply Rmult_lt_reg_r with (/ yb); [apply Rinv_0_lt_compat; lra|]. rewrite Rmult_assoc, Rinv_r by lra. unfold Rdiv in *. lra. }
    lra.
  - exfalso.
    assert (ML : mem val x l) by (destruct Hx as (Q0 & _); unfold mem; rewrite El in *; split; [simpl; lra|auto]).
    assert (MT : mem val y tl) by (unfold mem; rewrite Ea, Eb; simpl; lra).
    assert (MU : mem val y tu) by (unfold mem; rewrite Ea, Eb; simpl; lra).
    assert (Z1 : mem val z (l - IZR n * tl)) by (apply Ez; exists l, tl; auto).
    assert (Z2 : mem val z (l - IZR n * tu)) by (apply Ez; exists l, tu; auto).
    assert (L1 : lz <= l - IZR n * tl) by (destruct Z1 as [A _]; rewrite Elz in A; exact A).
    assert (L2 : lz <= l - IZR n * tu) by (destruct Z2 as [A _]; rewrite Elz in A; exact A).
    apply Hw in Z1. apply Hw in Z2.
    pose proof (xle_lt_trans _ _ _ Z1 Lw) as A1. pose proof (xle_lt_trans _ _ _ Z2 Lw) as A2. cbn [xlt] in A1, A2.
    assert (G : Kb * (tu - tl) <= Rabs (IZR n) * (tu - tl)) by (apply Rmult_le_compat_r; lra).
    unfold Rabs in G. destruct (Rcase_abs (IZR n)); nra.
Qed.

(** Bounded width means a finite upper bound. *)
Lemma up_finite z lz w : V z -> val (low z) = Fin lz ->
  (forall r, mem val z r -> xle (Fin (r - lz)) (val w)) -> xlt (val w) (Fin tl) -> exists u, val (up z) = Fin u.
Proof.
  intros Vz El Hw Lw. destruct Vz as (A & _). destruct (val (up z)) as [| |u|] eqn:E; rewrite El in A; cbn [xle] in A; try tauto; eauto.
  exfalso. destruct (ks_b _ _ _ _ _ _ _ _ HK) as (B1 & B2 & B3 & B4).
  assert (M : mem val z (lz + tl)) by (unfold mem; rewrite El, E; split; cbn [xle]; [lra|auto]).
  apply Hw in M. pose proof (xle_lt_trans _ _ _ M Lw) as Q. cbn [xlt] in Q. lra.
Qed.

(** ** cos when the reduced argument starts below pi *)
Lemma pi2_run : exists y, pureM (i_pi_twice P K) y /\ val (low y) = Fin tl /\ val (up y) = Fin tu.
Proof. apply run_pair; [apply (ks_tl _ _ _ _ _ _ _ _ HK)|apply (ks_tu _ _ _ _ _ _ _ _ HK)]. Qed.
Lemma pi_run : exists y, pureM (i_pi P K) y /\ val (low y) = Fin pl /\ val (up y) = Fin pu.
Proof. apply run_pair; [apply (ks_pl _ _ _ _ _ _ _ _ HK)|apply (ks_pu _ _ _ _ _ _ _ _ HK)]. Qed.
Lemma half_run : exists y, pureM (i_pi_half P K) y /\ val (low y) = Fin hl /\ val (up y) = Fin hu.
Proof. apply run_pair; [apply (ks_hl _ _ _ _ _ _ _ _ HK)|apply (ks_hu _ _ _ _ _ _ _ _ HK)]. Qed.

(** One unfolding of cos; [rest] says what the recursive call does if it is
    reached. *)
Lemma cos_step fuel x l : downok Fcos -> upok Fcos -> V x -> val (low x) = Fin l ->
  Bf <= l / (if Rlt_dec l 0 then tl else tu) ->
  (forall d ld, V d -> val (low d) = Fin ld -> 0 <= ld -> ld < tu - pu ->
     (pu <= l \/ l < 0) ->
     exists r, runsI ready (t_cos K R fuel Pu d) r /\ V r /\ holdsv Fcos d r /\ (cos_sharp -> unit_itv r)) ->
  exists r, runsP P ready (t_cos K R (S fuel) P x) r /\ V r /\ holdsv Fcos x r /\ (cos_sharp -> unit_itv r).
Proof.
  intros D U Hx El Near Rec. cbn [t_cos]. rewrite (test_valid H) by auto.
  destruct (valid_mem _ _ Hx) as (r0 & Hr0).
  enough (Q : exists r, runsI ready (
      let! pi2 := i_pi_twice P K in
      let! tmp := fmod Pu x pi2 in
      let! w := width Pu tmp in
      if n_ge w (low pi2) then ret (mk mone one) else
      let! pu := k_pi_u K in
      if n_ge (low tmp) pu then
        let! pi := i_pi P K in
        let! d := op_sub Pu tmp pi in
        let! r := t_cos K R fuel Pu d in
        let! r := op_neg Pu r in
        ctor_back P r
      else
        let l := low tmp in
        let u := up tmp in
        let! pl := k_pi_l K in
        if n_le N u pl then
          mk_args (p_ord P (H_transc, 73%Z)) (tr_down R Fcos u) (tr_up R Fcos l)
        else if n_le N u (low pi2) then
          mk_args (p_ord P (H_transc, 75%Z)) (ret mone)
            (let! d := sub_down (p_ar P) (low pi2) u in
             tr_up R Fcos (std_min d l))
        else ret (mk mone one)) r /\ holdsv Fcos x r /\ (cos_sharp -> unit_itv r)).
  { destruct Q as (r & Rr & Hr & Ur). exists r. split; [apply (with_rnd_runs P ready H); exact Rr|]. split; auto.
    specialize (Hr r0 (cos r0) Hr0 eq_refl). destruct Hr as [A B]. unfold valid.
    split; [exact (xle_trans _ _ _ A B)|]. destruct (val (low r)), (val (up r)); cbn [xle] in *; try tauto; split; discriminate. }
  destruct pi2_run as (y & Ry & Ey1 & Ey2).
  destruct (ks_b _ _ _ _ _ _ _ _ HK) as (B1 & B2 & B3 & B4). destruct (ks_twice _ _ _ _ _ _ _ _ HK) as [Kt1 Kt2].
  destruct (ks_pi _ _ _ _ _ _ _ _ HK) as [Kp1 Kp2].
  destruct (reduce x y tl tu l Hx El Ey1 Ey2) as (z & n & lz & Rz & Vz & Ez & Elz & Pz & Uz & Qn & Ln & Pn & _); [lra|lra|exact Near|].
  destruct (width_val z lz Vz Elz) as (w & Rw & Nw & Hw).
  assert (MY : mem val y (2 * PI)) by (unfold mem; rewrite Ey1, Ey2; split; cbn [xle]; lra).
  destruct (le_case H (low y) w) as [[E A]|[E A]]; [rewrite Ey1; discriminate|auto| |].
  { exists (mk mone one). split; [|split; [apply unit_holds|intros _; apply unit_unit]].
    eapply runsI_bind; [apply pure_runsI; exact Ry|]. cbv beta. eapply runsI_bind; [exact Rz|]. cbv beta.
    eapply runsI_bind; [exact Rw|]. cbv beta. unfold n_ge. rewrite E. runs. }
  rewrite Ey1 in A.
  pose proof (wide_case x z y n l lz w Hx El Ey1 Ey2 Ez Elz Uz Qn Hw A) as Lz.
  destruct (ks_pu _ _ _ _ _ _ _ _ HK) as (vpu & Evpu & Rvpu). destruct (ks_pl _ _ _ _ _ _ _ _ HK) as (vpl & Evpl & Rvpl).
  destruct (up_finite z lz w Vz Elz Hw A) as (uz & Euz).
  destruct (le_case H vpu (low z)) as [[E' A']|[E' A']]; [rewrite Evpu; discriminate|rewrite Elz; discriminate| |]; rewrite Evpu, Elz in A'.
  - (* second half of the period *)
    cbn [xle] in A'. destruct pi_run as (yp & Ryp & Eyp1 & Eyp2).
    assert (Vyp : V yp) by (apply (finite_valid yp pl pu); auto; lra).
    destruct (op_sub_ok HU z yp Vz Vyp) as (d & Rd & Td). apply runsP_unprotect in Rd.
    assert (MZ : mem val z lz) by (destruct Vz as (Q0 & _); unfold mem; rewrite Elz in *; split; [simpl; lra|auto]).
    assert (MP : mem val yp pu) by (unfold mem; rewrite Eyp1, Eyp2; simpl; lra).
    assert (MPI : mem val yp PI) by (unfold mem; rewrite Eyp1, Eyp2; simpl; lra).
    assert (Md : mem val d (lz - pu)) by (apply (proj1 Td); exists lz, pu; auto).
    assert (Vd : V d) by (eapply tightest_valid; [|exact Td]; exists (lz - pu), lz, pu; auto).
    assert (L0 : xle (Fin 0) (val (low d))).
    { rewrite <- (val_zero H). apply (proj2 Td (mk zero (up d))). intros t Ht. split; cbn [low up].
      - rewrite (val_zero H). destruct Ht as (r & s & [Hr _] & [_ Hs] & ->). rewrite Elz in Hr. rewrite Eyp2 in Hs. cbn [xle] in *. lra.
      - apply (proj1 Td); auto. }
    assert (Ed : exists ld, val (low d) = Fin ld /\ 0 <= ld <= lz - pu).
    { destruct Md as [Md _]. destruct (val (low d)); cbn [xle] in L0, Md; try tauto. eexists. split; [reflexivity|lra]. }
    destruct Ed as (ld & Eld & Bld).
    assert (Far : pu <= l \/ l < 0).
    { destruct (Rlt_or_le l 0) as [Q|Q]; auto. left.
      assert (0 <= IZR n * (if Rlt_dec l 0 then tl else tu)) by (apply Rmult_le_pos; [apply Pn; auto|destruct Rlt_dec; lra]). lra. }
    destruct (Rec d ld Vd Eld) as (r & Rr & Vr & Hr & Ur); [lra|lra|exact Far|].
    destruct (op_neg_ok HU r Vr) as (g & Rg & Dg & Vg & El' & Eu'). apply runsP_unprotect in Rg.
    exists g. split.
    { eapply runsI_bind; [apply pure_runsI; exact Ry|]. cbv beta. eapply runsI_bind; [exact Rz|]. cbv beta.
      eapply runsI_bind; [exact Rw|]. cbv beta. unfold n_ge at 1. rewrite E.
      eapply runsI_bind; [apply pure_runsI; exact Rvpu|]. cbv beta. unfold n_ge. rewrite E'.
      eapply runsI_bind; [apply pure_runsI; exact Ryp|]. cbv beta. eapply runsI_bind; [exact Rd|]. cbv beta.
      eapply runsI_bind; [exact Rr|]. cbv beta. eapply runsI_bind; [exact Rg|]. cbv beta.
      apply pure_runsI, (ctor_back_valid H); auto. }
    split; [|intros Sh; exact (unit_neg r g (Ur Sh) El' Eu')].
    apply (cos_back x z n y g Ez MY). intros s t M G. cbn [graph] in G. subst t. rewrite cos_sub_PI.
    apply Dg. exists (cos (s - PI)). split; auto. apply (Hr (s - PI)); [|reflexivity].
    apply (proj1 Td). exists s, PI. auto.
  - cbn [xlt] in A'.
    destruct (cos_direct z lz (p_ord P (H_transc, 73%Z), p_ord P (H_transc, 75%Z)) vpl y D U Vz Elz Pz (ex_intro _ uz Euz) Ey1 Evpl) as (r & Rr & Hr & Ur).
    exists r. split; [|split; [exact (cos_back x z n y r Ez MY Hr)|exact Ur]].
    eapply runsI_bind; [apply pure_runsI; exact Ry|]. cbv beta. eapply runsI_bind; [exact Rz|]. cbv beta.
    eapply runsI_bind; [exact Rw|]. cbv beta. unfold n_ge at 1. rewrite E.
    eapply runsI_bind; [apply pure_runsI; exact Rvpu|]. cbv beta. unfold n_ge. rewrite E'. cbv zeta.
    eapply runsI_bind; [apply pure_runsI; exact Rvpl|]. cbv beta. exact Rr.
Qed.
End Core.

Section Full.
Context {N : num} {val : T N -> ext} {P : policy N} {ready : rmode -> Prop}
        (H : polspec val P ready).
Notation V := (valid val).
Notation NS := (ps_num _ _ _ H).
Notation AS := (ps_ar _ _ _ H).
Notation CS := (ps_ck _ _ _ H).
Notation Pu := (unprotect P).
Notation HU := (polspec_unprotect val P ready H).
Context {K : consts N} {pl pu hl hu tl tu Kb Bf : R} {R : transc N}
        (HK : kspec val K pl pu hl hu tl tu).
Notation mone := (n_cst N (-1)).
Hypothesis HM : val mone = Fin (-1).
Hypothesis HKb : tl <= Kb * (tu - tl).
Hypothesis HB : Bf <= 0.
Hypothesis HI : forall a l yb, val a = Fin l -> 1 <= yb -> Bf <= l / yb ->
  int_hyp (val := val) (P := P) (ready := ready) l yb (good_quot (Kb := Kb) l yb).
(** What becomes of an argument unbounded below. *)
Definition no_lower (P0 : policy N) : Prop := forall x y a b, V x -> val (low x) = NInf ->
  val (low y) = Fin a -> val (up y) = Fin b -> 0 < a -> a <= b ->
  exists z, runsI ready (fmod (unprotect P0) x y) z /\ val (low z) = NaN /\ val (up z) = PInf /\
    exists w, runsI ready (width (unprotect P0) z) w /\ ~ xle (Fin 1) (val w).
(** What becomes of an argument so far below that the number of periods
    overflows. *)
Definition not_wide (P0 : policy N) (z : itv N) : Prop :=
  exists w, runsI ready (width (unprotect P0) z) w /\ ~ xle (Fin 1) (val w).
Record far_spec (P0 : policy N) : Prop := {
  fs_fmod : forall x y a b l, V x -> val (low x) = Fin l -> val (low y) = Fin a -> val (up y) = Fin b -> 1 <= a -> a <= b ->
    l / (if Rlt_dec l 0 then a else b) < Bf ->
    exists z, runsI ready (fmod (unprotect P0) x y) z /\ val (low z) = PInf /\ val (up z) = PInf /\ not_wide P0 z;
  fs_sub : forall x y a b, val (low x) = PInf -> val (up x) = PInf -> val (low y) = Fin a -> val (up y) = Fin b -> a <= b ->
    exists z, runsI ready (op_sub (unprotect P0) x y) z /\ runsI ready (local (m_sub (unprotect P0) (IVal y)) x) z /\
      val (low z) = PInf /\ val (up z) = PInf;
  fs_inf : forall x y a b, val (low x) = PInf -> val (up x) = PInf -> val (low y) = Fin a -> val (up y) = Fin b -> 0 < a -> a <= b ->
    test_input_i (unprotect P0) x = false /\
    exists z, runsI ready (fmod (unprotect (unprotect P0)) x y) z /\ val (low z) = NaN /\ val (up z) = NaN /\ not_wide (unprotect P0) z
}.
Notation holdsv := (holds (val := val)).
Notation sharp := (cos_sharp (val := val) (ready := ready) (R := R)).
Notation unit_i := (unit_itv (val := val)).
Notation downok f := (doc_down val ready R f).
Notation upok f := (doc_up val ready R f).

(** Two levels of recursion are enough. *)
Lemma cos_finite k x l : downok Fcos -> upok Fcos -> V x -> val (low x) = Fin l ->
  Bf <= l / (if Rlt_dec l 0 then tl else tu) ->
  exists r, runsP P ready (t_cos K R (S (S k)) P x) r /\ V r /\ holdsv Fcos x r /\ (sharp -> unit_i r).
Proof.
  intros D U Hx El Near. apply (cos_step H HK HM HKb HI (S k) x l D U Hx El Near).
  intros d ld Vd Eld P0 L0 _.
  destruct (cos_step HU HK HM HKb HI k d ld D U Vd Eld) as (r & Rr & Vr & Hr & Ur).
  - apply Rle_trans with 0; [exact HB|]. destruct (ks_b _ _ _ _ _ _ _ _ HK) as (B1 & B2 & B3 & B4).
    destruct (ks_twice _ _ _ _ _ _ _ _ HK) as [Kt1 Kt2].
    apply Rmult_le_pos; [exact P0|]. left. apply Rinv_0_lt_compat. destruct (Rlt_dec ld 0); lra.
  - intros d' ld' _ _ _ _ Far. exfalso. destruct (ks_b _ _ _ _ _ _ _ _ HK) as (B1 & B2 & B3 & B4). lra.
  - exists r. split; [|auto]. apply runsP_unprotect in Rr. exact Rr.
Qed.
Lemma unit_valid : V (mk mone one).
Proof. apply (finite_valid _ (-1) 1); cbn [low up]; [exact HM|apply (val_one H)|lra]. Qed.
Lemma cos_no_lower k x : no_lower P -> V x -> val (low x) = NInf ->
  exists r, runsP P ready (t_cos K R (S k) P x) r /\ V r /\ holdsv Fcos x r /\ (sharp -> unit_i r).
Proof.
  intros HNI Hx El. exists (mk mone one). split; [|split; [apply unit_valid|split; [apply (unit_holds H HM)|intros _; apply (unit_unit H HM)]]].
  cbn [t_cos]. rewrite (test_valid H) by auto. apply (with_rnd_runs P ready H).
  destruct (pi2_run (P := P) HK) as (y & Ry & Ey1 & Ey2).
  destruct (ks_b _ _ _ _ _ _ _ _ HK) as (B1 & B2 & B3 & B4). destruct (ks_twice _ _ _ _ _ _ _ _ HK) as [Kt1 Kt2].
  destruct (HNI x y tl tu Hx El Ey1 Ey2) as (z & Rz & Ez1 & Ez2 & w & Rw & Nw); [lra|lra|].
  destruct (ks_pu _ _ _ _ _ _ _ _ HK) as (vpu & Evpu & Rvpu). destruct (ks_pl _ _ _ _ _ _ _ _ HK) as (vpl & Evpl & Rvpl).
  eapply runsI_bind; [apply pure_runsI; exact Ry|]. cbv beta. eapply runsI_bind; [exact Rz|]. cbv beta.
  eapply runsI_bind; [exact Rw|]. cbv beta.
  destruct (n_ge w (low y)) eqn:E1.
  { exfalso. apply Nw. apply (ge_iff H) in E1. rewrite Ey1 in E1. refine (xle_trans _ _ _ _ E1). cbn [xle]. lra. }
  eapply runsI_bind; [apply pure_runsI; exact Rvpu|]. cbv beta.
  destruct (n_ge (low z) vpu) eqn:E2.
  { exfalso. apply (ge_iff H) in E2. rewrite Ez1 in E2. exact (xle_NaN_r _ E2). }
  cbv zeta. eapply runsI_bind; [apply pure_runsI; exact Rvpl|]. cbv beta.
  destruct (n_le N (up z) vpl) eqn:E3.
  { exfalso. apply (ns_le _ _ NS) in E3. rewrite Ez2, Evpl in E3. exact E3. }
  destruct (n_le N (up z) (low y)) eqn:E4.
  { exfalso. apply (ns_le _ _ NS) in E4. rewrite Ez2, Ey1 in E4. exact E4. }
  apply runsI_ret.
Qed.
(** After the reduction of an unusable argument. *)
Lemma cos_far k x l : far_spec P -> V x -> val (low x) = Fin l -> l / (if Rlt_dec l 0 then tl else tu) < Bf ->
  exists r, runsP P ready (t_cos K R (S (S k)) P x) r /\ V r /\ holdsv Fcos x r /\ (sharp -> unit_i r).
Proof.
  intros F Hx El Far. 
  destruct (pi2_run (P := P) HK) as (y & Ry & Ey1 & Ey2). destruct (pi2_run (P := Pu) HK) as (y' & Ry' & Ey1' & Ey2').
  destruct (pi_run (P := P) HK) as (yp & Ryp & Eyp1 & Eyp2).
  destruct (ks_b _ _ _ _ _ _ _ _ HK) as (B1 & B2 & B3 & B4). destruct (ks_twice _ _ _ _ _ _ _ _ HK) as [Kt1 Kt2].
  destruct (ks_pi _ _ _ _ _ _ _ _ HK) as [Kp1 Kp2].
  destruct (fs_fmod P F x y tl tu l Hx El Ey1 Ey2) as (z & Rz & Ez1 & Ez2 & w & Rw & Nw); [lra|lra|exact Far|].
  destruct (fs_sub P F z yp pl pu Ez1 Ez2 Eyp1 Eyp2) as (d & Rd & _ & Ed1 & Ed2); [lra|].
  destruct (fs_inf P F d y' tl tu Ed1 Ed2 Ey1' Ey2') as (Td & z' & Rz' & Ez1' & Ez2' & w' & Rw' & Nw'); [lra|lra|].
  destruct (ks_pu _ _ _ _ _ _ _ _ HK) as (vpu & Evpu & Rvpu). destruct (ks_pl _ _ _ _ _ _ _ _ HK) as (vpl & Evpl & Rvpl).
  pose proof unit_valid as Vu. destruct (op_neg_ok HU _ Vu) as (g & Rg & Dg & Vg & El' & Eu'). apply runsP_unprotect in Rg.
  exists g. split; [|split; [exact Vg|split; [|intros _; exact (unit_neg (mk mone one) g (unit_unit H HM) El' Eu')]]].
  2:{ intros r t _ G. cbn [graph] in G. subst t. apply Dg. exists (- cos r). split; [|ring].
      unfold mem. cbn [low up]. rewrite HM, (val_one H). cbn [xle]. pose proof (COS_bound r). lra. }
  cbn [t_cos]. rewrite (test_valid H) by auto. apply (with_rnd_runs P ready H).
  eapply runsI_bind; [apply pure_runsI; exact Ry|]. cbv beta. eapply runsI_bind; [exact Rz|]. cbv beta.
  eapply runsI_bind; [exact Rw|]. cbv beta.
  destruct (n_ge w (low y)) eqn:E1.
  { exfalso. apply Nw. apply (ge_iff H) in E1. rewrite Ey1 in E1. refine (xle_trans _ _ _ _ E1). cbn [xle]. lra. }
  eapply runsI_bind; [apply pure_runsI; exact Rvpu|]. cbv beta.
  rewrite (proj2 (ge_iff H (low z) vpu)); [|rewrite Ez1, Evpu; exact Logic.I].
  eapply runsI_bind; [apply pure_runsI; exact Ryp|]. cbv beta. eapply runsI_bind; [exact Rd|]. cbv beta.
  eapply (runsI_bind _ _ _ (mk mone one)).
  { rewrite Td. assert (W : forall b, runsI ready b (mk mone one) -> runsI ready (with_rnd Pu b) (mk mone one)).
    { intros b Hb. unfold with_rnd. cbn. destruct (p_prot P); exact Hb. }
    apply W. clear W.
    eapply runsI_bind; [apply pure_runsI; exact Ry'|]. cbv beta. eapply runsI_bind; [exact Rz'|]. cbv beta.
    eapply runsI_bind; [exact Rw'|]. cbv beta.
    destruct (n_ge w' (low y')) eqn:E1'.
    { exfalso. apply Nw'. apply (ge_iff H) in E1'. rewrite Ey1' in E1'. refine (xle_trans _ _ _ _ E1'). cbn [xle]. lra. }
    eapply runsI_bind; [apply pure_runsI; exact Rvpu|]. cbv beta.
    destruct (n_ge (low z') vpu) eqn:E2.
    { exfalso. apply (ge_iff H) in E2. rewrite Ez1' in E2. exact (xle_NaN_r _ E2). }
    cbv zeta. eapply runsI_bind; [apply pure_runsI; exact Rvpl|]. cbv beta.
    destruct (n_le N (up z') vpl) eqn:E3.
    { exfalso. apply (ns_le _ _ NS) in E3. rewrite Ez2', Evpl in E3. exact E3. }
    destruct (n_le N (up z') (low y')) eqn:E4.
    { exfalso. apply (ns_le _ _ NS) in E4. rewrite Ez2', Ey1' in E4. exact E4. }
    apply runsI_ret. }
  cbv beta. eapply runsI_bind; [exact Rg|]. cbv beta. apply pure_runsI, (ctor_back_valid H); auto.
Qed.
Lemma valid_low_cases x : V x -> val (low x) = NInf \/ exists l, val (low x) = Fin l.
Proof. intros (A & B & _). destruct (val (low x)); cbn [xle] in A; eauto; try tauto; congruence. Qed.
Lemma t_cos_ok k x : no_lower P -> far_spec P -> downok Fcos -> upok Fcos -> V x ->
  exists r, runsP P ready (t_cos K R (S (S k)) P x) r /\ V r /\ holdsv Fcos x r /\ (sharp -> unit_i r).
Proof.
  intros HNI F D U Hx. destruct (valid_low_cases x Hx) as [E|(l & E)].
  - apply cos_no_lower; auto.
  - destruct (Rle_or_lt Bf (l / (if Rlt_dec l 0 then tl else tu))) as [B|B].
    + exact (cos_finite k x l D U Hx E B).
    + exact (cos_far k x l F Hx E B).
Qed.
End Full.

Section Sin.
Context {N : num} {val : T N -> ext} {P : policy N} {ready : rmode -> Prop}
        (H : polspec val P ready).
Notation V := (valid val).
Notation NS := (ps_num _ _ _ H).
Notation AS := (ps_ar _ _ _ H).
Notation CS := (ps_ck _ _ _ H).
Notation Pu := (unprotect P).
Notation HU := (polspec_unprotect val P ready H).
Context {K : consts N} {pl pu hl hu tl tu Kb Bf : R} {R : transc N}
        (HK : kspec val K pl pu hl hu tl tu).
Notation mone := (n_cst N (-1)).
Hypothesis HM : val mone = Fin (-1).
Hypothesis HKb : tl <= Kb * (tu - tl).
Hypothesis HB : Bf <= 0.
Hypothesis HI : forall a l yb, val a = Fin l -> 1 <= yb -> Bf <= l / yb ->
  int_hyp (val := val) (P := P) (ready := ready) l yb (good_quot (Kb := Kb) l yb).
Notation holdsv := (holds (val := val)).
Notation sharp := (cos_sharp (val := val) (ready := ready) (R := R)).
Notation unit_i := (unit_itv (val := val)).
Notation downok f := (doc_down val ready R f).
Notation upok f := (doc_up val ready R f).

Lemma t_sin_ok k x : no_lower (val := val) (ready := ready) Pu -> far_spec (val := val) (ready := ready) (Bf := Bf) Pu -> downok Fcos -> upok Fcos -> V x ->
  exists r, runsP P ready (t_sin K R (S (S k)) P x) r /\ V r /\ holdsv Fsin x r /\ (sharp -> unit_i r).
Proof.
  intros HNI F D U Hx. unfold t_sin. rewrite (test_valid H) by auto.
  destruct (half_run (P := P) HK) as (y & Ry & Ey1 & Ey2).
  destruct (ks_half _ _ _ _ _ _ _ _ HK) as [Kh1 Kh2].
  assert (Vy : V y) by (apply (finite_valid y hl hu); auto; lra).
  assert (MY : mem val y (PI / 2)) by (unfold mem; rewrite Ey1, Ey2; split; cbn [xle]; lra).
  destruct (op_sub_ok HU x y Hx Vy) as (d & Rd & Td). apply runsP_unprotect in Rd.
  destruct (valid_mem _ _ Hx) as (r0 & Hr0).
  assert (Vd : V d) by (eapply tightest_valid; [|exact Td]; exists (r0 - PI / 2), r0, (PI / 2); auto).
  destruct (t_cos_ok HU HK HM HKb HB HI k d HNI F D U Vd) as (r & Rr & Vr & Hr & Ur). apply runsP_unprotect in Rr.
  exists r. split; [|split; [exact Vr|split; [|exact Ur]]].
  - apply (with_rnd_runs P ready H). cbv zeta.
    eapply runsI_bind; [apply pure_runsI; exact Ry|]. cbv beta. eapply runsI_bind; [exact Rd|]. cbv beta.
    eapply runsI_bind; [exact Rr|]. cbv beta. apply pure_runsI, (ctor_back_valid H); auto.
  - intros s t M G. cbn [graph] in G. subst t.
    replace (sin s) with (cos (s - PI / 2)) by (rewrite cos_minus, cos_PI2, sin_PI2; ring).
    apply (Hr (s - PI / 2)); [|reflexivity]. apply (proj1 Td). exists s, (PI / 2). auto.
Qed.

(** ** tan *)
Lemma local_sub x y : V x -> V y ->
  exists z, runsI ready (local (m_sub Pu (IVal y)) x) z /\ tightest val z (image2 Rminus (mem val x) (mem val y)).
Proof.
  intros Hx Hy. destruct (sub_case H (p_ord P (H_arith, 73%Z)) x y Hx Hy) as (z & Rz & Tz). exists z. split; auto.
  intros s Hs. destruct (Rz s Hs) as (s' & Hs' & E). exists s'. split; auto. rewrite <- E.
  unfold local, m_sub, obind, ocomp, m_set, obind, store_low, store_up, mk_args, with_rnd, ret.
  cbn [rdi rd]. rewrite (test_valid2 HU x y Hx Hy).
  assert (E1 : p_prot Pu <> Save) by (cbn; destruct (p_prot P); discriminate).
  change (p_ord Pu) with (p_ord P). change (p_ar Pu) with (p_ar P).
  destruct (p_prot Pu); [congruence| |]; unfold bind;
  destruct (args2 (p_ord P (H_arith, 73%Z)) (sub_down (p_ar P) (low x) (up y)) (sub_up (p_ar P) (up x) (low y)) s) as [[[a b]|e| | |] s1]; reflexivity.
Qed.
Lemma tan_defined a r : val a = Fin r -> - (PI / 2) < r < PI / 2 -> xgraph Ftan (val a) (Fin (sin r / cos r)).
Proof.
  intros E B. rewrite E. exists (sin r / cos r). split; auto. split; auto.
  pose proof (cos_gt_0 r). lra.
Qed.
Lemma tan_dom a r : val a = Fin r -> - (PI / 2) < r < PI / 2 -> doc_domain Ftan (val a).
Proof. intros E B. exists r. auto. Qed.
Lemma tan_finish x z (n : Z) hv nh o : downok Ftan -> upok Ftan -> n_has_inf N = true -> V z ->
  (forall r, mem val x r -> mem val z (r - IZR n * PI)) ->
  val hv = Fin hl -> val nh = Fin (- hl) ->
  exists r, runsI ready (if (n_le N (low z) nh || n_ge (up z) hv)%bool then i_whole P
    else mk_args o (tr_down R Ftan (low z)) (tr_up R Ftan (up z))) r /\ holdsv Ftan x r.
Proof.
  intros D U I Vz Ez Eh En.
  destruct (ks_half _ _ _ _ _ _ _ _ HK) as [Kh1 Kh2].
  destruct (le_case H (low z) nh) as [[E A]|[E A]]; [apply (vlow_nn z Vz)|rewrite En; discriminate| |]; rewrite E; cbn [orb].
  { destruct (i_whole_runs H I) as (w & Rw & E1 & E2). exists w. split; [apply pure_runsI; exact Rw|].
    intros s t _ _. unfold mem. rewrite E1, E2. split; exact Logic.I. }
  unfold n_ge. destruct (le_case H hv (up z)) as [[E' A']|[E' A']]; [rewrite Eh; discriminate|apply (vup_nn z Vz)| |]; rewrite E'.
  { destruct (i_whole_runs H I) as (w & Rw & E1 & E2). exists w. split; [apply pure_runsI; exact Rw|].
    intros s t _ _. unfold mem. rewrite E1, E2. split; exact Logic.I. }
  rewrite En in A. rewrite Eh in A'.
  assert (L : exists l, val (low z) = Fin l /\ - hl < l).
  { destruct Vz as (Q & Q1 & Q2). destruct (val (low z)); cbn [xlt] in A; try tauto; try congruence. eauto. }
  assert (L' : exists u, val (up z) = Fin u /\ u < hl).
  { destruct Vz as (Q & Q1 & Q2). destruct (val (up z)); cbn [xlt] in A'; try tauto; try congruence. eauto. }
  destruct L as (l & El & Bl). destruct L' as (u & Eu & Bu).
  assert (LU : l <= u) by (destruct Vz as (Q & _); rewrite El, Eu in Q; exact Q).
  destruct (D (low z) _ (tan_dom _ l El ltac:(lra)) (tan_defined _ l El ltac:(lra))) as (a & La & Ra).
  destruct (U (up z) _ (tan_dom _ u Eu ltac:(lra)) (tan_defined _ u Eu ltac:(lra))) as (b & Lb & Rb).
  exists (mk a b). split; [runs|]. intros s t M [Hc ->].
  destruct (Ez s M) as [M1 M2]. rewrite El in M1. rewrite Eu in M2. cbn [xle] in M1, M2.
  destruct (tan_shift s n) as [_ <-]; [apply cos_shift_PI_nz; auto|].
  split; cbn [low up].
  - refine (xle_trans _ _ _ La _). cbn [xle]. apply tan_graph_le; lra.
  - refine (xle_trans _ _ _ _ Lb). cbn [xle]. apply tan_graph_le; lra.
Qed.
Lemma t_tan_ok x : no_lower (val := val) (ready := ready) P -> far_spec (val := val) (ready := ready) (Bf := Bf) P -> downok Ftan -> upok Ftan -> n_has_inf N = true -> V x ->
  exists r, runsP P ready (t_tan K R P x) r /\ holdsv Ftan x r.
Proof.
  intros HNI F D U I Hx. unfold t_tan. rewrite (test_valid H) by auto. apply (rnd_runs H).
  destruct (pi_run (P := P) HK) as (y & Ry & Ey1 & Ey2).
  destruct (ks_b _ _ _ _ _ _ _ _ HK) as (B1 & B2 & B3 & B4). destruct (ks_pi _ _ _ _ _ _ _ _ HK) as [Kp1 Kp2].
  destruct (ks_half _ _ _ _ _ _ _ _ HK) as [Kh1 Kh2].
  destruct (ks_hl _ _ _ _ _ _ _ _ HK) as (hv & Ehv & Rhv).
  destruct (ns_neg _ _ NS hv) as (nh & Enh & Rnh). rewrite Ehv in Enh. cbn [xopp] in Enh.
  assert (Vy : V y) by (apply (finite_valid y pl pu); auto; lra).
  assert (MY : mem val y PI) by (unfold mem; rewrite Ey1, Ey2; split; cbn [xle]; lra).
  destruct (valid_low_cases x Hx) as [E|(l & E)].
  - destruct (HNI x y pl pu Hx E Ey1 Ey2) as (z & Rz & Ez1 & Ez2 & _); [lra|lra|].
    destruct (i_whole_runs H I) as (w & Rw & E1 & E2). exists w. split.
    2:{ intros s t _ _. unfold mem. rewrite E1, E2. split; exact Logic.I. }
    eapply runsI_bind; [apply pure_runsI; exact Ry|]. cbv beta. eapply runsI_bind; [exact Rz|]. cbv beta.
    eapply runsI_bind; [apply pure_runsI; exact Rhv|]. cbv beta.
    destruct (n_ge (low z) hv) eqn:Q1.
    { exfalso. apply (ge_iff H) in Q1. rewrite Ez1 in Q1. exact (xle_NaN_r _ Q1). }
    eapply runsI_bind; [apply runsI_ret|]. cbv beta. eapply runsI_bind; [apply pure_runsI; exact Rnh|]. cbv beta.
    rewrite (proj2 (ge_iff H (up z) hv)); [|rewrite Ez2, Ehv; exact Logic.I]. rewrite orb_true_r.
    apply pure_runsI. exact Rw.
  - destruct (Rle_or_lt Bf (l / (if Rlt_dec l 0 then pl else pu))) as [Near|Far].
    2:{ destruct (fs_fmod P F x y pl pu l Hx E Ey1 Ey2) as (z & Rz & Ez1 & Ez2 & _); [lra|lra|exact Far|].
        destruct (fs_sub P F z y pl pu Ez1 Ez2 Ey1 Ey2) as (d & _ & Rd & Ed1 & Ed2); [lra|].
        destruct (i_whole_runs H I) as (w & Rw & E1 & E2). exists w. split.
        2:{ intros s t _ _. unfold mem. rewrite E1, E2. split; exact Logic.I. }
        eapply runsI_bind; [apply pure_runsI; exact Ry|]. cbv beta. eapply runsI_bind; [exact Rz|]. cbv beta.
        eapply runsI_bind; [apply pure_runsI; exact Rhv|]. cbv beta.
        rewrite (proj2 (ge_iff H (low z) hv)); [|rewrite Ez1, Ehv; exact Logic.I].
        eapply runsI_bind; [exact Rd|]. cbv beta. eapply runsI_bind; [apply pure_runsI; exact Rnh|]. cbv beta.
        rewrite (proj2 (ge_iff H (up d) hv)); [|rewrite Ed2, Ehv; exact Logic.I]. rewrite orb_true_r.
        apply pure_runsI. exact Rw. }
    destruct (reduce H HI x y pl pu l Hx E Ey1 Ey2) as (z & n & lz & Rz & Vz & Ez & Elz & Pz & _); [lra|lra|exact Near|].
    assert (Hz : forall r, mem val x r -> mem val z (r - IZR n * PI)) by (intros r Mr; apply Ez; exists r, PI; auto).
    assert (Q : exists z' n', runsI ready (if n_ge (low z) hv then local (m_sub Pu (IVal y)) z else ret z) z' /\ V z' /\
       forall r, mem val x r -> mem val z' (r - IZR n' * PI)).
    { destruct (n_ge (low z) hv).
      - destruct (local_sub z y Vz Vy) as (d & Rd & Td). exists d, (n + 1)%Z. split; auto.
        assert (Q : forall r, mem val x r -> mem val d (r - IZR (n + 1) * PI)).
        { intros r M. apply (proj1 Td). exists (r - IZR n * PI), PI. split; auto. split; auto. rewrite plus_IZR. ring. }
        split; auto. destruct (valid_mem _ _ Hx) as (r0 & Hr0). specialize (Q r0 Hr0). destruct Q as [A B].
        split; [exact (xle_trans _ _ _ A B)|]. destruct (val (low d)), (val (up d)); cbn [xle] in *; try tauto; split; discriminate.
      - exists z, n. split; [runs|auto]. }
    destruct Q as (z' & n' & Rz' & Vz' & Hz').
    destruct (tan_finish x z' n' hv nh (p_ord P (H_transc, 111%Z)) D U I Vz' Hz' Ehv Enh) as (r & Rr & Hr).
    exists r. split; auto.
    eapply runsI_bind; [apply pure_runsI; exact Ry|]. cbv beta. eapply runsI_bind; [exact Rz|]. cbv beta.
    eapply runsI_bind; [apply pure_runsI; exact Rhv|]. cbv beta. eapply runsI_bind; [exact Rz'|]. cbv beta.
    eapply runsI_bind; [apply pure_runsI; exact Rnh|]. cbv beta. exact Rr.
Qed.
End Sin.

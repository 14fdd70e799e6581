(** * Transcendental functions from the documented requirements

    The proofs of CoreTransc.v and of tan for rounding policies that only return
    bounds. *)

From Coq Require Import Reals ZArith Lra Lia Psatz Bool.
From Verif Require Import Outcome Base Checking Interval Utility Arith Arith2 FloatNum Spec ExtR Sem
  CoreArith CoreDiv CoreFmod Transc SpecTransc TransReal CoreTransc CoreTrig SpecUser CoreSound ExprSound.
Local Open Scope R_scope.

Section Core.
Context {N : num} {val : T N -> ext} {P : policy N} {ready : rmode -> Prop}
        (H : user_policy exactly val P ready).
Notation V := (valid val).
Notation NS := (up_num _ _ _ _ H).
Notation CS := (up_ck _ _ _ _ H).
Context {K : consts N} {R : transc N}.
Notation mone := (n_cst N (-1)).
Notation down_ok f := (CoreTransc.down_ok (val := val) (ready := ready) (R := R) f).
Notation up_ok f := (CoreTransc.up_ok (val := val) (ready := ready) (R := R) f).
Notation holds f x z := (CoreTransc.holds (val := val) f x z).
Notation half_bound := (CoreTransc.half_bound (val := val) (K := K)).
Notation pi_bound := (CoreTransc.pi_bound (val := val) (K := K)).

Lemma rnd_runs f (b : M (itv N)) (x : itv N) :
  (exists z, runsI ready b z /\ holds f x z) -> exists z, runsP P ready (with_rnd P b) z /\ holds f x z.
Proof. apply (via_rnd H). Qed.

Lemma simple_ok f x o : everywhere f -> increasing f -> down_ok f -> up_ok f -> V x ->
  exists z, runsP P ready (if test_input_i P x then i_empty P else
    with_rnd P (mk_args o (tr_down R f (low x)) (tr_up R f (up x)))) z /\ holds f x z.
Proof.
  intros E F D U Hx. rewrite (test_valid H) by auto. apply rnd_runs, mono_args; auto;
  apply everywhere_defined; auto; [apply (vlow_nn x Hx)|apply (vup_nn x Hx)].
Qed.

Lemma t_exp_ok x : down_ok Fexp -> up_ok Fexp -> V x ->
  exists z, runsP P ready (t_exp R P x) z /\ holds Fexp x z.
Proof. apply (simple_ok Fexp); exact Logic.I. Qed.
Lemma t_atan_ok x : down_ok Fatan -> up_ok Fatan -> V x ->
  exists z, runsP P ready (t_atan R P x) z /\ holds Fatan x z.
Proof. apply (simple_ok Fatan); exact Logic.I. Qed.
Lemma t_sinh_ok x : down_ok Fsinh -> up_ok Fsinh -> V x ->
  exists z, runsP P ready (t_sinh R P x) z /\ holds Fsinh x z.
Proof. apply (simple_ok Fsinh); exact Logic.I. Qed.
Lemma t_tanh_ok x : down_ok Ftanh -> up_ok Ftanh -> V x ->
  exists z, runsP P ready (t_tanh R P x) z /\ holds Ftanh x z.
Proof. apply (simple_ok Ftanh); exact Logic.I. Qed.
Lemma t_asinh_ok x : down_ok Fasinh -> up_ok Fasinh -> V x ->
  exists z, runsP P ready (t_asinh R P x) z /\ holds Fasinh x z.
Proof. apply (simple_ok Fasinh); exact Logic.I. Qed.

Lemma t_log_ok x : n_has_inf N = true -> down_ok Flog -> up_ok Flog -> V x ->
  xlt (Fin 0) (val (up x)) -> exists z, runsP P ready (t_log R P x) z /\ holds Flog x z.
Proof.
  intros I D U Hx Lu. unfold t_log. rewrite (test_valid H) by auto.
  rewrite (proj2 (is_pos_iff H (up x)) Lu). cbn [orb negb]. apply rnd_runs.
  destruct (high_ok Flog (up x) x Logic.I U (log_defined _ Lu)) as (b & Rb & Hb); [intros r t [_ M] _; exact M|].
  destruct (is_pos_case H (low x)) as [[E L]|[E L]]; [apply (vlow_nn x Hx)| |]; rewrite E; cbn [negb].
  - destruct (low_ok Flog (low x) x Logic.I D (log_defined _ L)) as (a & Ra & Ha); [intros r t [M _] _; exact M|].
    exists (mk a b). split; [eapply runsI_bind; [exact Ra|]; cbv beta; runs|].
    intros r t M G. split; cbn [low up]; eauto.
  - destruct (cs_neg_inf _ _ CS I) as (a & Ea & Ra). exists (mk a b).
    split; [eapply runsI_bind; [apply pure_runsI; exact Ra|]; cbv beta; runs|].
    intros r t M G. split; cbn [low up]; eauto. rewrite Ea. exact Logic.I.
Qed.
(** ** Functions with a domain in [-1, 1] *)
Section Unit.
Hypothesis HM : val mone = Fin (-1).

Notation dom x := (xle (Fin (-1)) (val (up x)) /\ xle (val (low x)) (Fin 1)).
Lemma unit_test x : V x -> dom x ->
  (test_input_i P x || n_lt N (up x) mone || n_gt (low x) one = false)%bool.
Proof.
  intros Hx [L U]. rewrite (test_valid H) by auto. unfold n_gt. cbn [orb].
  destruct (lt_case H (up x) mone) as [[E L']|[E _]]; [apply (vup_nn x Hx)|rewrite HM; discriminate| |].
  { rewrite HM in L'. exfalso. exact (xlt_irrefl _ (xle_lt_trans _ _ _ L L')). }
  destruct (lt_case H one (low x)) as [[E' L']|[E' _]]; [rewrite (val_one H); discriminate|apply (vlow_nn x Hx)| |].
  { rewrite (val_one H) in L'. exfalso. exact (xlt_irrefl _ (xle_lt_trans _ _ _ U L')). }
  rewrite E, E'. reflexivity.
Qed.
(** The bounds inside the domain. *)
Lemma ge_one_case x : V x -> dom x ->
  (n_ge (up x) one = true /\ xle (Fin 1) (val (up x))) \/
  (n_ge (up x) one = false /\ exists u, val (up x) = Fin u /\ -1 <= u < 1).
Proof.
  intros Hx [L U]. unfold n_ge. destruct (le_case H one (up x)) as [[E A]|[E A]];
   [rewrite (val_one H); discriminate|apply (vup_nn x Hx)| |]; rewrite (val_one H) in A; [left|right]; split; auto.
  destruct (val (up x)) as [| |u|]; cbn [xle xlt] in *; try tauto. exists u. split; [reflexivity|lra].
Qed.
Lemma le_mone_case x : V x -> dom x ->
  (n_le N (low x) mone = true /\ xle (val (low x)) (Fin (-1))) \/
  (n_le N (low x) mone = false /\ exists u, val (low x) = Fin u /\ -1 < u <= 1).
Proof.
  intros Hx [L U]. destruct (le_case H (low x) mone) as [[E A]|[E A]];
   [apply (vlow_nn x Hx)|rewrite HM; discriminate| |]; rewrite HM in A; [left|right]; split; auto.
  destruct (val (low x)) as [| |u|]; cbn [xle xlt] in *; try tauto. exists u. split; [reflexivity|lra].
Qed.

Lemma t_asin_ok x : half_bound -> down_ok Fasin -> up_ok Fasin -> V x -> dom x ->
  exists z, runsP P ready (t_asin K R P x) z /\ holds Fasin x z.
Proof.
  intros (h & Rh & Lh) D U Hx Dx. unfold t_asin. rewrite unit_test by auto. apply rnd_runs.
  assert (A : exists l, runsI ready (if n_le N (low x) mone then let! h := k_half_u K in neg h else tr_down R Fasin (low x)) l
     /\ forall r t, mem val x r -> graph Fasin r t -> xle (val l) (Fin t)).
  { destruct (le_mone_case x Hx Dx) as [[E A]|[E (u & Eu & Bu)]]; rewrite E.
    - destruct (ns_neg _ _ NS h) as (g & Eg & Rg). exists g.
      split; [apply pure_runsI; eapply pureM_bind; [exact Rh|]; exact Rg|].
      intros r t _ [[B _] _]. rewrite Eg. destruct (val h); cbn [xopp xle] in *; try tauto. lra.
    - destruct (asin_ex u) as (w & Hw); [lra|].
      apply (low_ok Fasin (low x) x Logic.I D); [rewrite Eu; exists (Fin w), w; auto|intros r t [M _] _; exact M]. }
  assert (B : exists l, runsI ready (if n_ge (up x) one then k_half_u K else tr_up R Fasin (up x)) l
     /\ forall r t, mem val x r -> graph Fasin r t -> xle (Fin t) (val l)).
  { destruct (ge_one_case x Hx Dx) as [[E B]|[E (u & Eu & Bu)]]; rewrite E.
    - exists h. split; [apply pure_runsI; exact Rh|].
      intros r t _ [[_ B'] _]. destruct (val h); cbn [xle] in *; try tauto. lra.
    - destruct (asin_ex u) as (w & Hw); [lra|].
      apply (high_ok Fasin (up x) x Logic.I U); [rewrite Eu; exists (Fin w), w; auto|intros r t [_ M] _; exact M]. }
  destruct A as (a & Ra & Ha). destruct B as (b & Rb & Hb). exists (mk a b).
  split; [eapply runsI_bind; [exact Ra|]; cbv beta; eapply runsI_bind; [exact Rb|]; cbv beta; runs|].
  intros r t M G. split; cbn [low up]; eauto.
Qed.
Lemma t_acos_ok x : pi_bound -> down_ok Facos -> up_ok Facos -> V x -> dom x ->
  exists z, runsP P ready (t_acos K R P x) z /\ holds Facos x z.
Proof.
  intros (h & Rh & Lh) D U Hx Dx. unfold t_acos. rewrite unit_test by auto. apply rnd_runs.
  assert (A : exists l, runsI ready (if n_ge (up x) one then ret zero else tr_down R Facos (up x)) l
     /\ forall r t, mem val x r -> graph Facos r t -> xle (val l) (Fin t)).
  { destruct (ge_one_case x Hx Dx) as [[E A]|[E (u & Eu & Bu)]]; rewrite E.
    - exists zero. split; [runs|]. intros r t _ [[B _] _]. rewrite (val_zero H). exact B.
    - destruct (acos_ex u) as (w & Hw); [lra|].
      destruct (D (up x) (Fin w)) as (l & Ll & Rl); [rewrite Eu; exists w; auto|].
      exists l. split; auto. intros r t [_ M] G. refine (xle_trans _ _ _ Ll _). cbn [xle].
      rewrite Eu in M. exact (acos_dec _ _ _ _ G Hw M). }
  assert (B : exists l, runsI ready (if n_le N (low x) mone then k_pi_u K else tr_up R Facos (low x)) l
     /\ forall r t, mem val x r -> graph Facos r t -> xle (Fin t) (val l)).
  { destruct (le_mone_case x Hx Dx) as [[E B]|[E (u & Eu & Bu)]]; rewrite E.
    - exists h. split; [apply pure_runsI; exact Rh|].
      intros r t _ [[_ B'] _]. destruct (val h); cbn [xle] in *; try tauto. lra.
    - destruct (acos_ex u) as (w & Hw); [lra|].
      destruct (U (low x) (Fin w)) as (l & Ll & Rl); [rewrite Eu; exists w; auto|].
      exists l. split; auto. intros r t [M _] G. refine (xle_trans _ _ _ _ Ll). cbn [xle].
      rewrite Eu in M. exact (acos_dec _ _ _ _ Hw G M). }
  destruct A as (a & Ra & Ha). destruct B as (b & Rb & Hb). exists (mk a b).
  split; [eapply runsI_bind; [exact Ra|]; cbv beta; eapply runsI_bind; [exact Rb|]; cbv beta; runs|].
  intros r t M G. split; cbn [low up]; eauto.
Qed.
Lemma t_atanh_ok x : n_has_inf N = true -> down_ok Fatanh -> up_ok Fatanh -> V x ->
  xlt (Fin (-1)) (val (up x)) -> xlt (val (low x)) (Fin 1) ->
  exists z, runsP P ready (t_atanh R P x) z /\ holds Fatanh x z.
Proof.
  intros I D U Hx D1 D2. unfold t_atanh.
  assert (Dx : dom x) by (split; apply xlt_xle; auto).
  rewrite unit_test by auto. apply rnd_runs.
  assert (A : exists l, runsI ready (if n_le N (low x) mone then ck_neg_inf (p_ck P) else tr_down R Fatanh (low x)) l
     /\ forall r t, mem val x r -> graph Fatanh r t -> xle (val l) (Fin t)).
  { destruct (le_mone_case x Hx Dx) as [[E A]|[E (u & Eu & Bu)]]; rewrite E.
    - destruct (cs_neg_inf _ _ CS I) as (g & Eg & Rg). exists g.
      split; [apply pure_runsI; exact Rg|]. intros. rewrite Eg. exact Logic.I.
    - rewrite Eu in D2. cbn [xlt] in D2. destruct (atanh_ex u) as (w & Hw); [lra|].
      apply (low_ok Fatanh (low x) x Logic.I D); [rewrite Eu; exists (Fin w), w; auto|intros r t [M _] _; exact M]. }
  assert (B : exists l, runsI ready (if n_ge (up x) one then ck_pos_inf (p_ck P) else tr_up R Fatanh (up x)) l
     /\ forall r t, mem val x r -> graph Fatanh r t -> xle (Fin t) (val l)).
  { destruct (ge_one_case x Hx Dx) as [[E B]|[E (u & Eu & Bu)]]; rewrite E.
    - destruct (cs_pos_inf _ _ CS I) as (g & Eg & Rg). exists g.
      split; [apply pure_runsI; exact Rg|]. intros. rewrite Eg. exact Logic.I.
    - rewrite Eu in D1. cbn [xlt] in D1. destruct (atanh_ex u) as (w & Hw); [lra|].
      apply (high_ok Fatanh (up x) x Logic.I U); [rewrite Eu; exists (Fin w), w; auto|intros r t [_ M] _; exact M]. }
  destruct A as (a & Ra & Ha). destruct B as (b & Rb & Hb). exists (mk a b).
  split; [eapply runsI_bind; [exact Ra|]; cbv beta; eapply runsI_bind; [exact Rb|]; cbv beta; runs|].
  intros r t M G. split; cbn [low up]; eauto.
Qed.
End Unit.

Lemma t_acosh_ok x : down_ok Facosh -> up_ok Facosh -> V x -> xle (Fin 1) (val (up x)) ->
  exists z, runsP P ready (t_acosh R P x) z /\ holds Facosh x z.
Proof.
  intros D U Hx Lu. unfold t_acosh. rewrite (test_valid H) by auto. cbn [orb].
  destruct (lt_case H (up x) one) as [[E A]|[E _]]; [apply (vup_nn x Hx)|rewrite (val_one H); discriminate| |].
  { rewrite (val_one H) in A. exfalso. exact (xlt_irrefl _ (xle_lt_trans _ _ _ Lu A)). }
  rewrite E. apply rnd_runs.
  destruct (high_ok Facosh (up x) x Logic.I U (acosh_defined _ Lu)) as (b & Rb & Hb); [intros r t [_ M] _; exact M|].
  destruct (le_case H (low x) one) as [[E' A]|[E' A]]; [apply (vlow_nn x Hx)|rewrite (val_one H); discriminate| |]; rewrite E'.
  - exists (mk zero b). split; [eapply runsI_bind; [runs|]; cbv beta; runs|].
    intros r t M G. split; cbn [low up]; eauto. rewrite (val_zero H). exact (proj1 G).
  - rewrite (val_one H) in A.
    destruct (low_ok Facosh (low x) x Logic.I D (acosh_defined _ (xlt_xle _ _ A))) as (a & Ra & Ha); [intros r t [M _] _; exact M|].
    exists (mk a b). split; [eapply runsI_bind; [exact Ra|]; cbv beta; runs|].
    intros r t M G. split; cbn [low up]; eauto.
Qed.
Lemma t_cosh_ok x : down_ok Fcosh -> up_ok Fcosh -> V x ->
  exists z, runsP P ready (t_cosh R P x) z /\ holds Fcosh x z.
Proof.
  intros D U Hx. unfold t_cosh. rewrite (test_valid H) by auto. apply rnd_runs.
  pose proof (vlow_nn x Hx) as Nl. pose proof (vup_nn x Hx) as Nu.
  destruct (cosh_defined _ Nl) as (vl & Gl). destruct (cosh_defined _ Nu) as (vu & Gu).
  destruct (is_neg_case H (up x) Nu) as [[E A]|[E A]]; rewrite E.
  - destruct (D _ _ Gu) as (a & La & Ra). destruct (U _ _ Gl) as (b & Lb & Rb). exists (mk a b). split; [runs|].
    intros r t [M1 M2] G. apply cosh_graph in G. subst t.
    assert (r < 0) by (pose proof (xle_lt_trans _ _ _ M2 A); auto).
    split; cbn [low up].
    + refine (xle_trans _ _ _ La (cosh_below _ _ r Gu _)). left. split; auto. apply xlt_xle; auto.
    + refine (xle_trans _ _ _ (cosh_above _ _ r Gl _) Lb). left. rewrite Rabs_left by auto. rewrite Ropp_involutive. exact M1.
  - destruct (is_neg_case H (low x) Nl) as [[E' A']|[E' A']]; rewrite E'; cbn [negb].
    + assert (C : exists b, runsI ready (let! nx := e_opp (n_load N (low x)) in
         tr_up R Fcosh (if x_lt N (n_load N (up x)) nx then low x else up x)) b /\ forall r, mem val x r -> xle (Fin (cosh r)) (val b)).
      { destruct (ns_xopp _ _ NS (low x) (up x)) as (nx & Rn & En).
        destruct (x_lt N (n_load N (up x)) nx) eqn:Q.
        - assert (L : xlt (val (up x)) (xopp (val (low x)))) by (apply En; auto).
          destruct (U _ _ Gl) as (b & Lb & Rb). exists b. split.
          { eapply runsI_bind; [apply pure_runsI; exact Rn|]. cbv beta. rewrite Q. exact Rb. }
          intros r [M1 M2]. refine (xle_trans _ _ _ (cosh_above _ _ r Gl _) Lb). left.
          pose proof (xle_lt_trans _ _ _ M2 L) as L2.
          destruct (val (low x)); cbn [xle xlt xopp] in *; try tauto. unfold Rabs. destruct (Rcase_abs r); lra.
        - assert (L : ~ xlt (val (up x)) (xopp (val (low x)))) by (intros L; apply En in L; congruence).
          destruct (U _ _ Gu) as (b & Lb & Rb). exists b. split.
          { eapply runsI_bind; [apply pure_runsI; exact Rn|]. cbv beta. rewrite Q. exact Rb. }
          intros r [M1 M2]. refine (xle_trans _ _ _ (cosh_above _ _ r Gu _) Lb). right.
          destruct (val (low x)), (val (up x)); cbn [xle xlt xopp] in *; try tauto; unfold Rabs; destruct (Rcase_abs r); lra. }
      destruct C as (b & Rb & Hb). exists (mk one b). split; [runs|].
      intros r t M G. apply cosh_graph in G. subst t. split; cbn [low up]; auto.
      rewrite (val_one H). cbn [xle]. rewrite <- cosh_0, (cosh_abs r). apply cosh_le; [lra|apply Rabs_pos].
    + destruct (D _ _ Gl) as (a & La & Ra). destruct (U _ _ Gu) as (b & Lb & Rb). exists (mk a b). split; [runs|].
      intros r t [M1 M2] G. apply cosh_graph in G. subst t.
      assert (0 <= r) by (pose proof (xle_trans _ _ _ A' M1); auto).
      split; cbn [low up].
      * refine (xle_trans _ _ _ La (cosh_below _ _ r Gl _)). right. split; auto.
      * refine (xle_trans _ _ _ (cosh_above _ _ r Gu _) Lb). right. rewrite Rabs_pos_eq by auto. exact M2.
Qed.

(** ** tan *)
Notation Pu := (unprotect P).
Lemma user_unprotect : user_policy exactly val Pu ready.
Proof.
  destruct H. split; auto; unfold unprotect; cbn [p_prot]; destruct (p_prot P); discriminate.
Qed.
Lemma runs_u {A} (m : M A) a : runsP Pu ready m a -> runsI ready m a.
Proof. unfold runsP, unprotect. cbn [p_prot]. destruct (p_prot P); auto. Qed.
Lemma unprotect_twice : unprotect Pu = Pu.
Proof. unfold unprotect. cbn [p_prot p_ctl p_ar p_ck p_ord]. f_equal. destruct (p_prot P); reflexivity. Qed.
Lemma back_valid z : V z -> pureM (ctor_back P z) z.
Proof.
  intros Hz s. unfold ctor_back. destruct (p_prot P); [|destruct z; reflexivity|destruct z; reflexivity]. unfold ctor_policy.
  change (p_ck Pu) with (p_ck P). rewrite (cs_empty _ _ CS _ _ (proj1 Hz)). destruct z; reflexivity.
Qed.
Lemma back_valid_u z : V z -> pureM (ctor_back Pu z) z.
Proof. intros Hz s. unfold ctor_back, unprotect. cbn [p_prot]. destruct (p_prot P); destruct z; reflexivity. Qed.

(** The number of periods that fmod subtracts is finite. *)
Definition finite_quotient (x y : itv N) : Prop :=
  exists q tn n, runsI ready (div_down (p_ar P) (low x) (if is_neg (low x) then low y else up y)) q /\
    runsI ready (int_down (p_ar P) q) tn /\ val tn = Fin (IZR n).

Lemma fmod_sound x y c : V x -> mem val y c -> finite_quotient x y ->
  exists z n, runsI ready (fmod Pu x y) z /\ forall r, mem val x r -> mem val z (r - IZR n * c).
Proof.
  intros Hx My (q & tn & n & Rq & Rn & En). pose proof user_unprotect as HU. pose proof exactly_rounding as HR.
  assert (Vy : V y) by (eapply mem_valid; eauto).
  destruct (op_mul_ni_ok HR HU tn (IZR n) y En Vy) as (w & Rw & Sw). apply runs_u in Rw.
  assert (Mw : mem val w (IZR n * c)) by (apply (Sw (IZR n * c)); exists c; auto).
  assert (Vw : V w) by (eapply mem_valid; eauto).
  destruct (op_sub_ok HR HU x w Hx Vw) as (z & Rz & Sz). apply runs_u in Rz.
  assert (Mz : forall r, mem val x r -> mem val z (r - IZR n * c)).
  { intros r M. apply (Sz (r - IZR n * c)). exists r, (IZR n * c). auto. }
  exists z, n. split; auto. destruct (valid_mem _ _ Hx) as (r0 & M0).
  assert (Vz : V z) by (eapply mem_valid; apply Mz; exact M0).
  unfold fmod. rewrite (test_valid2 HU) by auto.
  apply runs_u, (with_rnd_runs_u HU). cbv zeta.
  eapply runsI_bind; [exact Rq|]. cbv beta. eapply runsI_bind; [exact Rn|]. cbv beta.
  rewrite unprotect_twice. eapply runsI_bind; [exact Rw|]. cbv beta. eapply runsI_bind; [exact Rz|]. cbv beta.
  apply pure_runsI, back_valid_u; auto.
Qed.
Lemma local_sub_u x y : V x -> V y ->
  exists z, runsI ready (local (m_sub Pu (IVal y)) x) z /\ forall r s, mem val x r -> mem val y s -> mem val z (r - s).
Proof.
  intros Hx Hy. pose proof user_unprotect as HU. pose proof exactly_rounding as HR.
  destruct (sub_case HR H (p_ord P (H_arith, 73%Z)) x y Hx Hy) as (z & Rz & Sz). exists z. split.
  2:{ intros r s Mr Ms. apply (Sz (r - s)). exists r, s. auto. }
  intros s Hs. destruct (Rz s Hs) as (s' & Hs' & E). exists s'. split; auto. rewrite <- E.
  unfold local, m_sub, obind, ocomp, m_set, obind, store_low, store_up, mk_args, with_rnd, ret.
  cbn [rdi rd]. rewrite (test_valid2 HU x y Hx Hy).
  assert (E1 : p_prot Pu <> Save) by (cbn; destruct (p_prot P); discriminate).
  change (p_ord Pu) with (p_ord P). change (p_ar Pu) with (p_ar P).
  destruct (p_prot Pu); [congruence| |]; unfold bind;
  destruct (args2 (p_ord P (H_arith, 73%Z)) (sub_down (p_ar P) (low x) (up y)) (sub_up (p_ar P) (up x) (low y)) s) as [[[a b]|e| | |] s1]; reflexivity.
Qed.

Lemma tan_user x (pl pu hv : T N) a b hl : pureM (k_pi_l K) pl -> pureM (k_pi_u K) pu -> pureM (k_half_l K) hv ->
  val pl = Fin a -> val pu = Fin b -> val hv = Fin hl -> a <= PI <= b -> hl <= PI / 2 -> n_has_inf N = true ->
  doc_down val ready R Ftan -> doc_up val ready R Ftan -> V x -> finite_quotient x (mk pl pu) ->
  exists r, runsP P ready (t_tan K R P x) r /\ holds Ftan x r.
Proof.
  intros Rpl Rpu Rhv Epl Epu Ehv [Kp1 Kp2] Kh1 I D U Hx HQ. unfold t_tan. rewrite (test_valid H) by auto. apply rnd_runs.
  set (y := mk pl pu) in *.
  assert (Ry : runsI ready (i_pi P K) y) by (unfold i_pi; apply runsI_mk_args; apply pure_runsI; assumption).
  assert (Ey1 : val (low y) = Fin a) by exact Epl. assert (Ey2 : val (up y) = Fin b) by exact Epu.
  destruct (ns_neg _ _ NS hv) as (nh & Enh & Rnh). rewrite Ehv in Enh. cbn [xopp] in Enh.
  assert (MY : mem val y PI) by (unfold mem; rewrite Ey1, Ey2; split; cbn [xle]; lra).
  assert (Vy : V y) by (eapply mem_valid; eauto).
  destruct (valid_mem _ _ Hx) as (r0 & M0).
  destruct (fmod_sound x y PI Hx MY HQ) as (z & n & Rz & Hz).
  assert (Vz : V z) by (eapply mem_valid; apply Hz; exact M0).
  assert (Q : exists z' n', runsI ready (if n_ge (low z) hv then local (m_sub Pu (IVal y)) z else ret z) z' /\
       forall r, mem val x r -> mem val z' (r - IZR n' * PI)).
  { destruct (n_ge (low z) hv).
    - destruct (local_sub_u z y Vz Vy) as (d & Rd & Hd). exists d, (n + 1)%Z. split; auto.
      intros r M. replace (r - IZR (n + 1) * PI) with ((r - IZR n * PI) - PI) by (rewrite plus_IZR; ring). auto.
    - exists z, n. split; [runs|auto]. }
  destruct Q as (z' & n' & Rz' & Hz'). assert (Vz' : V z') by (eapply mem_valid; apply Hz'; exact M0).
  assert (F : exists r, runsI ready (if (n_le N (low z') nh || n_ge (up z') hv)%bool then i_whole P
    else mk_args (p_ord P (H_transc, 111%Z)) (tr_down R Ftan (low z')) (tr_up R Ftan (up z'))) r /\ holds Ftan x r).
  { assert (W : exists r, runsI ready (i_whole P) r /\ holds Ftan x r).
    { destruct (i_whole_runs H I) as (w & Rw & E1 & E2). exists w. split; [apply pure_runsI; exact Rw|].
      intros s t _ _. unfold mem. rewrite E1, E2. split; exact Logic.I. }
    destruct (le_case H (low z') nh) as [[E A]|[E A]]; [apply (vlow_nn z' Vz')|rewrite Enh; discriminate| |]; rewrite E; cbn [orb]; [exact W|].
    unfold n_ge. destruct (le_case H hv (up z')) as [[E' A']|[E' A']]; [rewrite Ehv; discriminate|apply (vup_nn z' Vz')| |]; rewrite E'; [exact W|].
    rewrite Enh in A. rewrite Ehv in A'.
    assert (L : exists l, val (low z') = Fin l /\ - hl < l).
    { destruct Vz' as (Q & Q1 & Q2). destruct (val (low z')); cbn [xlt] in A; try tauto; try congruence. eauto. }
    assert (L' : exists u, val (up z') = Fin u /\ u < hl).
    { destruct Vz' as (Q & Q1 & Q2). destruct (val (up z')); cbn [xlt] in A'; try tauto; try congruence. eauto. }
    destruct L as (l & El & Bl). destruct L' as (u & Eu & Bu).
    assert (LU : l <= u) by (destruct Vz' as (Q & _); rewrite El, Eu in Q; exact Q).
    destruct (D (low z') _ (tan_dom _ l El ltac:(lra)) (tan_defined _ l El ltac:(lra))) as (ra & La & Ra).
    destruct (U (up z') _ (tan_dom _ u Eu ltac:(lra)) (tan_defined _ u Eu ltac:(lra))) as (rb & Lb & Rb).
    exists (mk ra rb). split; [apply runsI_mk_args; assumption|]. intros s t M [Hc ->].
    destruct (Hz' s M) as [M1 M2]. rewrite El in M1. rewrite Eu in M2. cbn [xle] in M1, M2.
    destruct (tan_shift s n') as [_ <-]; [apply cos_shift_PI_nz; auto|].
    split; cbn [low up].
    - refine (xle_trans _ _ _ La _). cbn [xle]. apply tan_graph_le; lra.
    - refine (xle_trans _ _ _ _ Lb). cbn [xle]. apply tan_graph_le; lra. }
  destruct F as (r & Rr & Hr). exists r. split; auto.
  eapply runsI_bind; [exact Ry|]. cbv beta. eapply runsI_bind; [exact Rz|]. cbv beta.
  eapply runsI_bind; [apply pure_runsI; exact Rhv|]. cbv beta. eapply runsI_bind; [exact Rz'|]. cbv beta.
  eapply runsI_bind; [apply pure_runsI; exact Rnh|]. cbv beta. exact Rr.
Qed.
End Core.

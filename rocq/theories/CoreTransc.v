(** * Transcendental functions that are monotone on each side of a point *)

From Coq Require Import Reals ZArith Lra Lia Psatz Bool.
From Verif Require Import Outcome Base Checking Interval Utility Arith Arith2 FloatNum Spec ExtR Sem
  CoreArith CoreDiv Transc SpecTransc TransReal.
Local Open Scope R_scope.

Section Core.
Context {N : num} {val : T N -> ext} {P : policy N} {ready : rmode -> Prop}
        (H : polspec val P ready).
Notation V := (valid val).
Notation NS := (ps_num _ _ _ H).
Notation AS := (ps_ar _ _ _ H).
Notation CS := (ps_ck _ _ _ H).
Context {K : consts N} {R : transc N}.
Notation mone := (n_cst N (-1)).

Definition down_ok (f : tfun) : Prop :=
  forall a e, xgraph f (val a) e -> exists t, xle (val t) e /\ runsI ready (tr_down R f a) t.
Definition up_ok (f : tfun) : Prop :=
  forall a e, xgraph f (val a) e -> exists t, xle e (val t) /\ runsI ready (tr_up R f a) t.
Lemma down_doc f : down_ok f -> doc_down val ready R f.
Proof. intros D a e _ G. exact (D a e G). Qed.
Lemma up_doc f : up_ok f -> doc_up val ready R f.
Proof. intros D a e _ G. exact (D a e G). Qed.
(** Where the function has a value it is in its domain, but for the periodic ones. *)
Lemma graph_domain f e v : f <> Fsin -> f <> Fcos -> f <> Ftan -> xgraph f e v -> doc_domain f e.
Proof.
  intros F1 F2 F3 G. destruct f; try congruence; cbn [doc_domain]; destruct e as [| |r|]; cbn [xgraph] in G;
    try tauto; try discriminate; cbn [xle xlt]; try tauto; destruct G as (t & _ & G); cbn [graph] in G.
  - subst r. apply exp_pos.
  - destruct G as [_ <-]. apply SIN_bound.
  - destruct G as [_ <-]. apply COS_bound.
  - destruct G as [T0 <-]. change (1 <= cosh t). rewrite <- cosh_0. apply cosh_le; lra.
  - rewrite tanh_graph in G. subst r. pose proof (tanh_bound t). lra.
Qed.
Lemma doc_down_ok f : f <> Fsin -> f <> Fcos -> f <> Ftan -> doc_down val ready R f -> down_ok f.
Proof. intros F1 F2 F3 D a e G. exact (D a e (graph_domain f _ _ F1 F2 F3 G) G). Qed.
Lemma doc_up_ok f : f <> Fsin -> f <> Fcos -> f <> Ftan -> doc_up val ready R f -> up_ok f.
Proof. intros F1 F2 F3 D a e G. exact (D a e (graph_domain f _ _ F1 F2 F3 G) G). Qed.
Definition holds (f : tfun) (x z : itv N) : Prop :=
  forall r t, mem val x r -> graph f r t -> mem val z t.
Definition defined_at (f : tfun) (e : ext) : Prop := exists v, xgraph f e v.

Lemma rnd_runs f (b : M (itv N)) (x : itv N) :
  (exists z, runsI ready b z /\ holds f x z) -> exists z, runsP P ready (with_rnd P b) z /\ holds f x z.
Proof. apply (via_rnd H). Qed.

(** Increasing functions defined at both bounds. *)
Lemma mono_args f x o : increasing f -> down_ok f -> up_ok f ->
  defined_at f (val (low x)) -> defined_at f (val (up x)) ->
  exists z, runsI ready (mk_args o (tr_down R f (low x)) (tr_up R f (up x))) z /\ holds f x z.
Proof.
  intros F D U (v & Gv) (w & Gw). destruct (D _ _ Gv) as (a & La & Ra). destruct (U _ _ Gw) as (b & Lb & Rb).
  exists (mk a b). split; [runs|]. intros r t [M1 M2] G. split; cbn [low up].
  - exact (xle_trans _ _ _ La (xgraph_mono_l f _ _ r t F Gv G M1)).
  - exact (xle_trans _ _ _ (xgraph_mono_r f _ _ r t F Gw G M2) Lb).
Qed.

(** A lower and an upper bound computed one after the other. *)
Lemma low_ok f a x : increasing f -> down_ok f -> defined_at f (val a) ->
  (forall r t, mem val x r -> graph f r t -> xle (val a) (Fin r)) ->
  exists l, runsI ready (tr_down R f a) l /\ forall r t, mem val x r -> graph f r t -> xle (val l) (Fin t).
Proof.
  intros F D (v & Gv) B. destruct (D _ _ Gv) as (l & La & Ra). exists l. split; auto.
  intros r t M G. exact (xle_trans _ _ _ La (xgraph_mono_l f _ _ r t F Gv G (B r t M G))).
Qed.
Lemma high_ok f a x : increasing f -> up_ok f -> defined_at f (val a) ->
  (forall r t, mem val x r -> graph f r t -> xle (Fin r) (val a)) ->
  exists l, runsI ready (tr_up R f a) l /\ forall r t, mem val x r -> graph f r t -> xle (Fin t) (val l).
Proof.
  intros F D (v & Gv) B. destruct (D _ _ Gv) as (l & La & Ra). exists l. split; auto.
  intros r t M G. exact (xle_trans _ _ _ (xgraph_mono_r f _ _ r t F Gv G (B r t M G)) La).
Qed.

Definition everywhere (f : tfun) : Prop :=
  match f with Fexp | Fatan | Fsinh | Ftanh | Fasinh => True | _ => False end.
Lemma everywhere_defined f e : everywhere f -> e <> NaN -> defined_at f e.
Proof.
  intros F Hn. unfold defined_at. destruct e as [| |r|]; [destruct (Hn eq_refl)| | |]; destruct f; try destruct F; cbn [xgraph];
  try (eexists; reflexivity); try (eexists; eexists; split; [reflexivity|]; cbn [graph]; reflexivity).
  - destruct (atan_ex r) as (t & Ht). exists (Fin t), t. auto.
  - destruct (asinh_ex r) as (t & Ht). exists (Fin t), t. auto.
Qed.
Lemma simple_ok f x o : everywhere f -> increasing f -> down_ok f -> up_ok f -> V x ->
  exists z, runsP P ready (if test_input_i P x then i_empty P else
    with_rnd P (mk_args o (tr_down R f (low x)) (tr_up R f (up x)))) z /\ holds f x z.
Proof.
  intros E F D U Hx. rewrite (test_valid H) by auto. apply rnd_runs, mono_args; auto;
  apply everywhere_defined; auto; [apply (vlow_nn x Hx)|apply (vup_nn x Hx)].
Qed.

Lemma t_exp_ok x : down_ok Fexp -> up_ok Fexp -> V x ->
  exists z, runsP P ready (t_exp R P x) z /\ holds Fexp x z.
Proof. apply (simple_ok Fexp); exact Logic.I. Qed.
Lemma t_atan_ok x : down_ok Fatan -> up_ok Fatan -> V x ->
  exists z, runsP P ready (t_atan R P x) z /\ holds Fatan x z.
Proof. apply (simple_ok Fatan); exact Logic.I. Qed.
Lemma t_sinh_ok x : down_ok Fsinh -> up_ok Fsinh -> V x ->
  exists z, runsP P ready (t_sinh R P x) z /\ holds Fsinh x z.
Proof. apply (simple_ok Fsinh); exact Logic.I. Qed.
Lemma t_tanh_ok x : down_ok Ftanh -> up_ok Ftanh -> V x ->
  exists z, runsP P ready (t_tanh R P x) z /\ holds Ftanh x z.
Proof. apply (simple_ok Ftanh); exact Logic.I. Qed.
Lemma t_asinh_ok x : down_ok Fasinh -> up_ok Fasinh -> V x ->
  exists z, runsP P ready (t_asinh R P x) z /\ holds Fasinh x z.
Proof. apply (simple_ok Fasinh); exact Logic.I. Qed.

(** ** log *)
Lemma graph_log_pos r t : graph Flog r t -> 0 < r.
Proof. cbn [graph]. intros <-. apply exp_pos. Qed.
Lemma log_defined e : xlt (Fin 0) e -> defined_at Flog e.
Proof.
  destruct e as [| |r|]; cbn [xlt xle]; intros L; try tauto.
  - exists (Fin (ln r)), (ln r). split; auto. cbn [graph]. apply exp_ln; auto.
  - exists PInf. reflexivity.
Qed.
Lemma t_log_ok x : n_has_inf N = true -> down_ok Flog -> up_ok Flog -> V x ->
  xlt (Fin 0) (val (up x)) -> exists z, runsP P ready (t_log R P x) z /\ holds Flog x z.
Proof.
  intros I D U Hx Lu. unfold t_log. rewrite (test_valid H) by auto.
  rewrite (proj2 (is_pos_iff H (up x)) Lu). cbn [orb negb]. apply rnd_runs.
  destruct (high_ok Flog (up x) x Logic.I U (log_defined _ Lu)) as (b & Rb & Hb); [intros r t [_ M] _; exact M|].
  destruct (is_pos_case H (low x)) as [[E L]|[E L]]; [apply (vlow_nn x Hx)| |]; rewrite E; cbn [negb].
  - destruct (low_ok Flog (low x) x Logic.I D (log_defined _ L)) as (a & Ra & Ha); [intros r t [M _] _; exact M|].
    exists (mk a b). split; [eapply runsI_bind; [exact Ra|]; cbv beta; runs|].
    intros r t M G. split; cbn [low up]; eauto.
  - destruct (cs_neg_inf _ _ CS I) as (a & Ea & Ra). exists (mk a b).
    split; [eapply runsI_bind; [apply pure_runsI; exact Ra|]; cbv beta; runs|].
    intros r t M G. split; cbn [low up]; eauto. rewrite Ea. exact Logic.I.
Qed.
Lemma t_log_empty x o : V x -> xle (val (up x)) (Fin 0) -> empty_out (P := P) (val := val) o ->
  forall s, t_log R P x s = (o, s).
Proof.
  intros Hx L Ho s. unfold t_log. destruct (is_pos_case H (up x)) as [[E L']|[E _]].
  { apply (vup_nn x Hx). }
  { exfalso. exact (xlt_irrefl _ (xle_lt_trans _ _ _ L L')). }
  rewrite E, orb_true_r. apply (i_empty_run (val := val)); auto.
Qed.

(** ** Functions with a domain in [-1, 1] *)
Section Unit.
Hypothesis HM : val mone = Fin (-1).

Notation dom x := (xle (Fin (-1)) (val (up x)) /\ xle (val (low x)) (Fin 1)).
Lemma unit_test x : V x -> dom x ->
  (test_input_i P x || n_lt N (up x) mone || n_gt (low x) one = false)%bool.
Proof.
  intros Hx [L U]. rewrite (test_valid H) by auto. unfold n_gt. cbn [orb].
  destruct (lt_case H (up x) mone) as [[E L']|[E _]]; [apply (vup_nn x Hx)|rewrite HM; discriminate| |].
  { rewrite HM in L'. exfalso. exact (xlt_irrefl _ (xle_lt_trans _ _ _ L L')). }
  destruct (lt_case H one (low x)) as [[E' L']|[E' _]]; [rewrite (val_one H); discriminate|apply (vlow_nn x Hx)| |].
  { rewrite (val_one H) in L'. exfalso. exact (xlt_irrefl _ (xle_lt_trans _ _ _ U L')). }
  rewrite E, E'. reflexivity.
Qed.
Lemma unit_test_out x : V x -> ~ dom x ->
  (test_input_i P x || n_lt N (up x) mone || n_gt (low x) one = true)%bool.
Proof.
  intros Hx Nd. rewrite (test_valid H) by auto. unfold n_gt. cbn [orb].
  destruct (lt_case H (up x) mone) as [[E L']|[E L1]]; [apply (vup_nn x Hx)|rewrite HM; discriminate| |]; rewrite E; auto.
  destruct (lt_case H one (low x)) as [[E' L']|[E' L2]]; [rewrite (val_one H); discriminate|apply (vlow_nn x Hx)| |]; rewrite E'; auto.
  rewrite HM in L1. rewrite (val_one H) in L2. exfalso. apply Nd. auto.
Qed.

(** The bounds inside the domain. *)
Lemma ge_one_case x : V x -> dom x ->
  (n_ge (up x) one = true /\ xle (Fin 1) (val (up x))) \/
  (n_ge (up x) one = false /\ exists u, val (up x) = Fin u /\ -1 <= u < 1).
Proof.
  intros Hx [L U]. unfold n_ge. destruct (le_case H one (up x)) as [[E A]|[E A]];
   [rewrite (val_one H); discriminate|apply (vup_nn x Hx)| |]; rewrite (val_one H) in A; [left|right]; split; auto.
  destruct (val (up x)) as [| |u|]; cbn [xle xlt] in *; try tauto. exists u. split; [reflexivity|lra].
Qed.
Lemma le_mone_case x : V x -> dom x ->
  (n_le N (low x) mone = true /\ xle (val (low x)) (Fin (-1))) \/
  (n_le N (low x) mone = false /\ exists u, val (low x) = Fin u /\ -1 < u <= 1).
Proof.
  intros Hx [L U]. destruct (le_case H (low x) mone) as [[E A]|[E A]];
   [apply (vlow_nn x Hx)|rewrite HM; discriminate| |]; rewrite HM in A; [left|right]; split; auto.
  destruct (val (low x)) as [| |u|]; cbn [xle xlt] in *; try tauto. exists u. split; [reflexivity|lra].
Qed.

(** The constants used as bounds. *)
Definition half_bound : Prop := exists h, pureM (k_half_u K) h /\ xle (Fin (PI / 2)) (val h).
Definition pi_bound : Prop := exists h, pureM (k_pi_u K) h /\ xle (Fin PI) (val h).

Lemma t_asin_ok x : half_bound -> down_ok Fasin -> up_ok Fasin -> V x -> dom x ->
  exists z, runsP P ready (t_asin K R P x) z /\ holds Fasin x z.
Proof.
  intros (h & Rh & Lh) D U Hx Dx. unfold t_asin. rewrite unit_test by auto. apply rnd_runs.
  assert (A : exists l, runsI ready (if n_le N (low x) mone then let! h := k_half_u K in neg h else tr_down R Fasin (low x)) l
     /\ forall r t, mem val x r -> graph Fasin r t -> xle (val l) (Fin t)).
  { destruct (le_mone_case x Hx Dx) as [[E A]|[E (u & Eu & Bu)]]; rewrite E.
    - destruct (ns_neg _ _ NS h) as (g & Eg & Rg). exists g.
      split; [apply pure_runsI; eapply pureM_bind; [exact Rh|]; exact Rg|].
      intros r t _ [[B _] _]. rewrite Eg. destruct (val h); cbn [xopp xle] in *; try tauto. lra.
    - destruct (asin_ex u) as (w & Hw); [lra|].
      apply (low_ok Fasin (low x) x Logic.I D); [rewrite Eu; exists (Fin w), w; auto|intros r t [M _] _; exact M]. }
  assert (B : exists l, runsI ready (if n_ge (up x) one then k_half_u K else tr_up R Fasin (up x)) l
     /\ forall r t, mem val x r -> graph Fasin r t -> xle (Fin t) (val l)).
  { destruct (ge_one_case x Hx Dx) as [[E B]|[E (u & Eu & Bu)]]; rewrite E.
    - exists h. split; [apply pure_runsI; exact Rh|].
      intros r t _ [[_ B'] _]. destruct (val h); cbn [xle] in *; try tauto. lra.
    - destruct (asin_ex u) as (w & Hw); [lra|].
      apply (high_ok Fasin (up x) x Logic.I U); [rewrite Eu; exists (Fin w), w; auto|intros r t [_ M] _; exact M]. }
  destruct A as (a & Ra & Ha). destruct B as (b & Rb & Hb). exists (mk a b).
  split; [eapply runsI_bind; [exact Ra|]; cbv beta; eapply runsI_bind; [exact Rb|]; cbv beta; runs|].
  intros r t M G. split; cbn [low up]; eauto.
Qed.
Lemma acos_dec r t r' t' : graph Facos r t -> graph Facos r' t' -> r <= r' -> t' <= t.
Proof.
  cbn [graph]. intros [B E] [B' E'] L. destruct (Rle_or_lt t' t) as [K0|K0]; auto.
  assert (cos t' < cos t) by (apply cos_decreasing_1; lra). lra.
Qed.
Lemma t_acos_ok x : pi_bound -> down_ok Facos -> up_ok Facos -> V x -> dom x ->
  exists z, runsP P ready (t_acos K R P x) z /\ holds Facos x z.
Proof.
  intros (h & Rh & Lh) D U Hx Dx. unfold t_acos. rewrite unit_test by auto. apply rnd_runs.
  assert (A : exists l, runsI ready (if n_ge (up x) one then ret zero else tr_down R Facos (up x)) l
     /\ forall r t, mem val x r -> graph Facos r t -> xle (val l) (Fin t)).
  { destruct (ge_one_case x Hx Dx) as [[E A]|[E (u & Eu & Bu)]]; rewrite E.
    - exists zero. split; [runs|]. intros r t _ [[B _] _]. rewrite (val_zero H). exact B.
    - destruct (acos_ex u) as (w & Hw); [lra|].
      destruct (D (up x) (Fin w)) as (l & Ll & Rl); [rewrite Eu; exists w; auto|].
      exists l. split; auto. intros r t [_ M] G. refine (xle_trans _ _ _ Ll _). cbn [xle].
      rewrite Eu in M. exact (acos_dec _ _ _ _ G Hw M). }
  assert (B : exists l, runsI ready (if n_le N (low x) mone then k_pi_u K else tr_up R Facos (low x)) l
     /\ forall r t, mem val x r -> graph Facos r t -> xle (Fin t) (val l)).
  { destruct (le_mone_case x Hx Dx) as [[E B]|[E (u & Eu & Bu)]]; rewrite E.
    - exists h. split; [apply pure_runsI; exact Rh|].
      intros r t _ [[_ B'] _]. destruct (val h); cbn [xle] in *; try tauto. lra.
    - destruct (acos_ex u) as (w & Hw); [lra|].
      destruct (U (low x) (Fin w)) as (l & Ll & Rl); [rewrite Eu; exists w; auto|].
      exists l. split; auto. intros r t [M _] G. refine (xle_trans _ _ _ _ Ll). cbn [xle].
      rewrite Eu in M. exact (acos_dec _ _ _ _ Hw G M). }
  destruct A as (a & Ra & Ha). destruct B as (b & Rb & Hb). exists (mk a b).
  split; [eapply runsI_bind; [exact Ra|]; cbv beta; eapply runsI_bind; [exact Rb|]; cbv beta; runs|].
  intros r t M G. split; cbn [low up]; eauto.
Qed.
Lemma t_atanh_ok x : n_has_inf N = true -> down_ok Fatanh -> up_ok Fatanh -> V x ->
  xlt (Fin (-1)) (val (up x)) -> xlt (val (low x)) (Fin 1) ->
  exists z, runsP P ready (t_atanh R P x) z /\ holds Fatanh x z.
Proof.
  intros I D U Hx D1 D2. unfold t_atanh.
  assert (Dx : dom x) by (split; apply xlt_xle; auto).
  rewrite unit_test by auto. apply rnd_runs.
  assert (A : exists l, runsI ready (if n_le N (low x) mone then ck_neg_inf (p_ck P) else tr_down R Fatanh (low x)) l
     /\ forall r t, mem val x r -> graph Fatanh r t -> xle (val l) (Fin t)).
  { destruct (le_mone_case x Hx Dx) as [[E A]|[E (u & Eu & Bu)]]; rewrite E.
    - destruct (cs_neg_inf _ _ CS I) as (g & Eg & Rg). exists g.
      split; [apply pure_runsI; exact Rg|]. intros. rewrite Eg. exact Logic.I.
    - rewrite Eu in D2. cbn [xlt] in D2. destruct (atanh_ex u) as (w & Hw); [lra|].
      apply (low_ok Fatanh (low x) x Logic.I D); [rewrite Eu; exists (Fin w), w; auto|intros r t [M _] _; exact M]. }
  assert (B : exists l, runsI ready (if n_ge (up x) one then ck_pos_inf (p_ck P) else tr_up R Fatanh (up x)) l
     /\ forall r t, mem val x r -> graph Fatanh r t -> xle (Fin t) (val l)).
  { destruct (ge_one_case x Hx Dx) as [[E B]|[E (u & Eu & Bu)]]; rewrite E.
    - destruct (cs_pos_inf _ _ CS I) as (g & Eg & Rg). exists g.
      split; [apply pure_runsI; exact Rg|]. intros. rewrite Eg. exact Logic.I.
    - rewrite Eu in D1. cbn [xlt] in D1. destruct (atanh_ex u) as (w & Hw); [lra|].
      apply (high_ok Fatanh (up x) x Logic.I U); [rewrite Eu; exists (Fin w), w; auto|intros r t [_ M] _; exact M]. }
  destruct A as (a & Ra & Ha). destruct B as (b & Rb & Hb). exists (mk a b).
  split; [eapply runsI_bind; [exact Ra|]; cbv beta; eapply runsI_bind; [exact Rb|]; cbv beta; runs|].
  intros r t M G. split; cbn [low up]; eauto.
Qed.
Lemma unit_empty x o : V x -> ~ dom x -> empty_out (P := P) (val := val) o ->
  forall s, t_asin K R P x s = (o, s) /\ t_acos K R P x s = (o, s) /\ t_atanh R P x s = (o, s).
Proof.
  intros Hx Nd Ho s. unfold t_asin, t_acos, t_atanh. rewrite unit_test_out by auto.
  repeat split; apply (i_empty_run (val := val)); auto.
Qed.
End Unit.

(** ** acosh *)
Lemma acosh_defined e : xle (Fin 1) e -> defined_at Facosh e.
Proof.
  destruct e as [| |r|]; cbn [xle]; intros L; try tauto.
  - destruct (acosh_ex r L) as (t & Ht). exists (Fin t), t. auto.
  - exists PInf. reflexivity.
Qed.
Lemma t_acosh_ok x : down_ok Facosh -> up_ok Facosh -> V x -> xle (Fin 1) (val (up x)) ->
  exists z, runsP P ready (t_acosh R P x) z /\ holds Facosh x z.
Proof.
  intros D U Hx Lu. unfold t_acosh. rewrite (test_valid H) by auto. cbn [orb].
  destruct (lt_case H (up x) one) as [[E A]|[E _]]; [apply (vup_nn x Hx)|rewrite (val_one H); discriminate| |].
  { rewrite (val_one H) in A. exfalso. exact (xlt_irrefl _ (xle_lt_trans _ _ _ Lu A)). }
  rewrite E. apply rnd_runs.
  destruct (high_ok Facosh (up x) x Logic.I U (acosh_defined _ Lu)) as (b & Rb & Hb); [intros r t [_ M] _; exact M|].
  destruct (le_case H (low x) one) as [[E' A]|[E' A]]; [apply (vlow_nn x Hx)|rewrite (val_one H); discriminate| |]; rewrite E'.
  - exists (mk zero b). split; [eapply runsI_bind; [runs|]; cbv beta; runs|].
    intros r t M G. split; cbn [low up]; eauto. rewrite (val_zero H). exact (proj1 G).
  - rewrite (val_one H) in A.
    destruct (low_ok Facosh (low x) x Logic.I D (acosh_defined _ (xlt_xle _ _ A))) as (a & Ra & Ha); [intros r t [M _] _; exact M|].
    exists (mk a b). split; [eapply runsI_bind; [exact Ra|]; cbv beta; runs|].
    intros r t M G. split; cbn [low up]; eauto.
Qed.
Lemma t_acosh_empty x o : V x -> xlt (val (up x)) (Fin 1) -> empty_out (P := P) (val := val) o ->
  forall s, t_acosh R P x s = (o, s).
Proof.
  intros Hx L Ho s. unfold t_acosh. rewrite (proj2 (ns_lt _ _ NS (up x) one)); [|rewrite (val_one H); auto].
  rewrite orb_true_r. apply (i_empty_run (val := val)); auto.
Qed.

(** ** cosh *)
Lemma cosh_graph r t : graph Fcosh r t -> t = cosh r.
Proof. auto. Qed.
Lemma cosh_defined e : e <> NaN -> defined_at Fcosh e.
Proof.
  intros Hn. destruct e as [| |r|]; [destruct (Hn eq_refl)| | |]; try (exists PInf; reflexivity).
  exists (Fin (cosh r)), (cosh r). split; reflexivity.
Qed.
(** The value at a bound of larger magnitude. *)
Lemma cosh_above e v r : xgraph Fcosh e v ->
  xle e (Fin (- Rabs r)) \/ xle (Fin (Rabs r)) e -> xle (Fin (cosh r)) v.
Proof.
  intros G B. rewrite (cosh_abs r). pose proof (Rabs_pos r).
  destruct e as [| |s|]; cbn [xgraph] in G; try tauto; try (subst v; exact Logic.I).
  destruct G as (t & -> & ->). cbn [xle] in *. fold (cosh s). rewrite (cosh_abs s).
  apply cosh_le; auto. unfold Rabs at 2. destruct (Rcase_abs s); lra.
Qed.
Lemma cosh_below e v r : xgraph Fcosh e v ->
  (xle (Fin r) e /\ xle e (Fin 0)) \/ (xle (Fin 0) e /\ xle e (Fin r)) -> xle v (Fin (cosh r)).
Proof.
  intros G B. destruct e as [| |s|]; cbn [xgraph xle] in *; try tauto.
  destruct G as (t & -> & ->). cbn [xle] in *. fold (cosh s).
  destruct B as [B|B].
  - rewrite <- (cosh_opp s), <- (cosh_opp r). apply cosh_le; lra.
  - apply cosh_le; lra.
Qed.
Lemma t_cosh_ok x : down_ok Fcosh -> up_ok Fcosh -> V x ->
  exists z, runsP P ready (t_cosh R P x) z /\ holds Fcosh x z.
Proof.
  intros D U Hx. unfold t_cosh. rewrite (test_valid H) by auto. apply rnd_runs.
  pose proof (vlow_nn x Hx) as Nl. pose proof (vup_nn x Hx) as Nu.
  destruct (cosh_defined _ Nl) as (vl & Gl). destruct (cosh_defined _ Nu) as (vu & Gu).
  destruct (is_neg_case H (up x) Nu) as [[E A]|[E A]]; rewrite E.
  - destruct (D _ _ Gu) as (a & La & Ra). destruct (U _ _ Gl) as (b & Lb & Rb). exists (mk a b). split; [runs|].
    intros r t [M1 M2] G. apply cosh_graph in G. subst t.
    assert (r < 0) by (pose proof (xle_lt_trans _ _ _ M2 A); auto).
    split; cbn [low up].
    + refine (xle_trans _ _ _ La (cosh_below _ _ r Gu _)). left. split; auto. apply xlt_xle; auto.
    + refine (xle_trans _ _ _ (cosh_above _ _ r Gl _) Lb). left. rewrite Rabs_left by auto. rewrite Ropp_involutive. exact M1.
  - destruct (is_neg_case H (low x) Nl) as [[E' A']|[E' A']]; rewrite E'; cbn [negb].
    + assert (C : exists b, runsI ready (let! nx := e_opp (n_load N (low x)) in
         tr_up R Fcosh (if x_lt N (n_load N (up x)) nx then low x else up x)) b /\ forall r, mem val x r -> xle (Fin (cosh r)) (val b)).
      { destruct (ns_xopp _ _ NS (low x) (up x)) as (nx & Rn & En).
        destruct (x_lt N (n_load N (up x)) nx) eqn:Q.
        - assert (L : xlt (val (up x)) (xopp (val (low x)))) by (apply En; auto).
          destruct (U _ _ Gl) as (b & Lb & Rb). exists b. split.
          { eapply runsI_bind; [apply pure_runsI; exact Rn|]. cbv beta. rewrite Q. exact Rb. }
          intros r [M1 M2]. refine (xle_trans _ _ _ (cosh_above _ _ r Gl _) Lb). left.
          pose proof (xle_lt_trans _ _ _ M2 L) as L2.
          destruct (val (low x)); cbn [xle xlt xopp] in *; try tauto. unfold Rabs. destruct (Rcase_abs r); lra.
        - assert (L : ~ xlt (val (up x)) (xopp (val (low x)))) by (intros L; apply En in L; congruence).
          destruct (U _ _ Gu) as (b & Lb & Rb). exists b. split.
          { eapply runsI_bind; [apply pure_runsI; exact Rn|]. cbv beta. rewrite Q. exact Rb. }
          intros r [M1 M2]. refine (xle_trans _ _ _ (cosh_above _ _ r Gu _) Lb). right.
          destruct (val (low x)), (val (up x)); cbn [xle xlt xopp] in *; try tauto; unfold Rabs; destruct (Rcase_abs r); lra. }
      destruct C as (b & Rb & Hb). exists (mk one b). split; [runs|].
      intros r t M G. apply cosh_graph in G. subst t. split; cbn [low up]; auto.
      rewrite (val_one H). cbn [xle]. rewrite <- cosh_0, (cosh_abs r). apply cosh_le; [lra|apply Rabs_pos].
    + destruct (D _ _ Gl) as (a & La & Ra). destruct (U _ _ Gu) as (b & Lb & Rb). exists (mk a b). split; [runs|].
      intros r t [M1 M2] G. apply cosh_graph in G. subst t.
      assert (0 <= r) by (pose proof (xle_trans _ _ _ A' M1); auto).
      split; cbn [low up].
      * refine (xle_trans _ _ _ La (cosh_below _ _ r Gl _)). right. split; auto.
      * refine (xle_trans _ _ _ (cosh_above _ _ r Gu _) Lb). right. rewrite Rabs_pos_eq by auto. exact M2.
Qed.
End Core.

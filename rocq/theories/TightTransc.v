(** * Tightest enclosures with correctly rounded transcendental functions

    If the members f_down and f_up of the rounding class return the value rounded
    downwards and upwards, the functions without argument reduction return the
    tightest interval. *)

From Coq Require Import Reals ZArith Lra Lia Psatz Bool.
From Verif Require Import Outcome Base Checking Interval Utility Arith Arith2 FloatNum Spec ExtR Sem
  CoreArith CoreDiv Transc SpecTransc TransReal CoreTransc.
Local Open Scope R_scope.

(** The values of f on a set. *)
Definition values_on (f : tfun) (X : R -> Prop) (t : R) : Prop := exists r, X r /\ graph f r t.

(** ** Limits of the values *)

Lemma low_reach f v q : increasing f -> xgraph f NInf v -> xlt v (Fin q) -> exists r t, graph f r t /\ t < q.
Proof.
  intros F G L. destruct f; try destruct F; cbn [xgraph] in G; try tauto; subst v; cbn [xlt] in L; cbn [graph].
  - exists (ln (q / 2)), (q / 2). rewrite exp_ln by lra. lra.
  - set (t := Rmin 0 (- (PI / 2) / 2 + q / 2)).
    assert (B : - (PI / 2) < t < PI / 2 /\ t < q).
    { unfold t. pose proof PI_RGT_0. unfold Rmin. destruct Rle_dec; lra. }
    exists (sin t / cos t), t. repeat split; lra.
  - destruct (asinh_ex (q - 1)) as (r & E). exists r, (q - 1). split; [auto|lra].
  - destruct (atanh_ex (Rmin 0 ((-1 + q) / 2))) as (r & E).
    { unfold Rmin. destruct Rle_dec; lra. }
    exists r, (Rmin 0 ((-1 + q) / 2)). split; [auto|]. unfold Rmin. destruct Rle_dec; lra.
  - exists ((exp (q - 1) - exp (- (q - 1))) / 2), (q - 1). split; [auto|lra].
Qed.
Lemma high_reach f v q : increasing f -> xgraph f PInf v -> xlt (Fin q) v -> exists r t, graph f r t /\ q < t.
Proof.
  intros F G L. destruct f; try destruct F; cbn [xgraph] in G; try tauto; subst v; cbn [xlt] in L; cbn [graph].
  - exists (ln (Rabs q + 1)), (Rabs q + 1). pose proof (Rabs_pos q). pose proof (Rle_abs q). rewrite exp_ln by lra. split; [auto|lra].
  - exists (exp (q + 1)), (q + 1). split; [auto|lra].
  - set (t := Rmax 0 ((PI / 2) / 2 + q / 2)).
    assert (B : - (PI / 2) < t < PI / 2 /\ q < t).
    { unfold t. pose proof PI_RGT_0. unfold Rmax. destruct Rle_dec; lra. }
    exists (sin t / cos t), t. repeat split; lra.
  - destruct (asinh_ex (q + 1)) as (r & E). exists r, (q + 1). split; [auto|lra].
  - destruct (atanh_ex (Rmax 0 ((1 + q) / 2))) as (r & E).
    { unfold Rmax. destruct Rle_dec; lra. }
    exists r, (Rmax 0 ((1 + q) / 2)). split; [auto|]. unfold Rmax. destruct Rle_dec; lra.
  - exists ((exp (q + 1) - exp (- (q + 1))) / 2), (q + 1). split; [auto|lra].
  - exists ((exp (Rabs q + 1) + exp (- (Rabs q + 1))) / 2), (Rabs q + 1). pose proof (Rabs_pos q). pose proof (Rle_abs q).
    repeat split; lra.
Qed.

Lemma wlim_low f X e v : increasing f -> xgraph f e v -> slim X e -> e <> PInf -> (forall r, X r -> exists t, graph f r t) ->
  wlim (values_on f X) v.
Proof.
  intros F G S Hp D. destruct e as [| |a|]; [destruct S| |cbn [xgraph] in G|congruence].
  - assert (K : forall q, xlt v (Fin q) -> exists t, values_on f X t /\ t < q /\ xle v (Fin t)).
    { intros q L. destruct (low_reach f v q F G L) as (r & t & Gr & Lt). destruct (S r) as (r' & X' & L').
      destruct (D r' X') as (t' & G'). exists t'. split; [exists r'; auto|]. split.
      - pose proof (graph_mono f r' t' r t F G' Gr L'). lra.
      - apply (xgraph_mono_l f NInf v r' t' F G G'). exact Logic.I. }
    destruct v as [| |b|]; cbn [wlim].
    + destruct f; cbn in G; try tauto; discriminate.
    + intros M. destruct (K M Logic.I) as (t & H1 & H2 & _). exists t. split; [auto|lra].
    + intros eps He. destruct (K (b + eps)) as (t & H1 & H2 & H3); [cbn; lra|]. cbn [xle] in H3. exists t. split; auto.
      apply Rabs_def1; lra.
    + destruct f; cbn in G; try tauto; discriminate.
  - destruct G as (t & -> & G). apply slim_wlim. exists a. auto.
Qed.
Lemma wlim_high f X e v : increasing f -> xgraph f e v -> slim X e -> e <> NInf -> (forall r, X r -> r < 1 \/ exists t, graph f r t) ->
  wlim (values_on f X) v.
Proof.
  intros F G S Hp D0. destruct e as [| |a|]; [destruct S|congruence|cbn [xgraph] in G|].
  - destruct G as (t & -> & G). apply slim_wlim. exists a. auto.
  - assert (K : forall q, xlt (Fin q) v -> exists t, values_on f X t /\ q < t /\ xle (Fin t) v).
    { intros q L. destruct (high_reach f v q F G L) as (r & t & Gr & Lt). destruct (S (Rmax r 1)) as (r' & X' & L').
      pose proof (Rmax_l r 1). pose proof (Rmax_r r 1).
      assert (D' : exists t', graph f r' t') by (destruct (D0 r' X') as [Q|]; auto; lra).
      destruct D' as (t' & G'). exists t'. split; [exists r'; auto|]. split.
      - assert (r <= r') by lra. pose proof (graph_mono f r t r' t' F Gr G' H1). lra.
      - apply (xgraph_mono_r f PInf v r' t' F G G'). exact Logic.I. }
    destruct v as [| |b|]; cbn [wlim].
    + destruct f; cbn in G; try tauto; discriminate.
    + destruct f; cbn in G; try tauto; discriminate.
    + intros eps He. destruct (K (b - eps)) as (t & H1 & H2 & H3); [cbn; lra|]. cbn [xle] in H3. exists t. split; auto.
      apply Rabs_def1; lra.
    + intros M. destruct (K M Logic.I) as (t & H1 & H2 & _). exists t. split; [auto|lra].
Qed.

(** Functions that go to infinity at a bound of their domain. *)
Lemma wlim_log X : (forall r, 0 < r -> exists r', X r' /\ 0 < r' <= r) -> wlim (values_on Flog X) NInf.
Proof.
  intros S M. destruct (S (exp M) (exp_pos M)) as (r & Xr & B). exists (ln r). split.
  - exists r. split; auto. cbn [graph]. apply exp_ln. lra.
  - destruct (Rle_or_lt (ln r) M) as [|K]; auto. apply exp_increasing in K. rewrite exp_ln in K by lra. lra.
Qed.
Lemma wlim_atanh_low X : (forall r, -1 < r < 1 -> exists r', X r' /\ -1 < r' <= r) -> wlim (values_on Fatanh X) NInf.
Proof.
  intros S M. destruct (S (tanh M) (tanh_bound M)) as (r & Xr & B). pose proof (tanh_bound M).
  destruct (atanh_ex r) as (t & G); [lra|]. exists t. split; [exists r; auto|].
  apply (graph_mono Fatanh r t (tanh M) M Logic.I); auto; [apply tanh_graph|lra].
Qed.
Lemma wlim_atanh_high X : (forall r, -1 < r < 1 -> exists r', X r' /\ r <= r' < 1) -> wlim (values_on Fatanh X) PInf.
Proof.
  intros S M. destruct (S (tanh M) (tanh_bound M)) as (r & Xr & B). pose proof (tanh_bound M).
  destruct (atanh_ex r) as (t & G); [lra|]. exists t. split; [exists r; auto|].
  apply (graph_mono Fatanh (tanh M) M r t Logic.I); auto; [apply tanh_graph|lra].
Qed.
Lemma cosh_unbounded M : exists r, 0 <= r /\ M <= cosh r.
Proof.
  destruct (acosh_ex (Rabs M + 1)) as (t & B & E); [pose proof (Rabs_pos M); lra|]. exists t. split; auto.
  change (M <= (exp t + exp (- t)) / 2). rewrite E. pose proof (Rle_abs M). lra.
Qed.
Lemma wlim_cosh X e v : xgraph Fcosh e v -> slim X e -> wlim (values_on Fcosh X) v.
Proof.
  intros G S. destruct e as [| |a|]; [destruct S| | |]; cbn [xgraph slim] in *.
  - subst v. intros M. destruct (cosh_unbounded M) as (r & B & L). destruct (S (- r)) as (r' & X' & L').
    exists (cosh r'). split; [exists r'; split; auto; reflexivity|]. rewrite <- (cosh_opp r').
    assert (cosh r <= cosh (- r')) by (apply cosh_le; lra). lra.
  - destruct G as (t & -> & G). apply slim_wlim. exists a. auto.
  - subst v. intros M. destruct (cosh_unbounded M) as (r & B & L). destruct (S r) as (r' & X' & L').
    exists (cosh r'). split; [exists r'; split; auto; reflexivity|].
    assert (cosh r <= cosh r') by (apply cosh_le; lra). lra.
Qed.

Section Core.
Context {N : num} {val : T N -> ext} {P : policy N} {ready : rmode -> Prop}
        (H : polspec val P ready).
Notation V := (valid val).
Notation NS := (ps_num _ _ _ H).
Notation CS := (ps_ck _ _ _ H).
Context {K : consts N} {R : transc N}.
Notation mone := (n_cst N (-1)).
Notation image f x := (values_on f (mem val x)).

(** f_down and f_up round correctly. *)
Definition down_rnd (f : tfun) : Prop :=
  forall a e, xgraph f (val a) e -> exists t, RD val e t /\ runsI ready (tr_down R f a) t.
Definition up_rnd (f : tfun) : Prop :=
  forall a e, xgraph f (val a) e -> exists t, RU val e t /\ runsI ready (tr_up R f a) t.

(** A number that is the best lower (upper) bound of a set. *)
Definition best_low (S : Rdefinitions.R -> Prop) (a : T N) : Prop := exists e, is_lb e S /\ wlim S e /\ RD val e a.
Definition best_up (S : Rdefinitions.R -> Prop) (b : T N) : Prop := exists e, is_ub e S /\ wlim S e /\ RU val e b.
Lemma best_tightest S a b : best_low S a -> best_up S b -> tightest val (mk a b) S.
Proof. intros (e & H1 & H2 & H3) (g & H4 & H5 & H6). eapply tightest_intro; eauto. Qed.

Lemma low_best f x : increasing f -> down_rnd f -> V x -> defined_at f (val (low x)) ->
  (forall r, mem val x r -> exists t, graph f r t) ->
  exists a, runsI ready (tr_down R f (low x)) a /\ best_low (image f x) a.
Proof.
  intros F D Hx (v & G) A. destruct (D _ _ G) as (a & Ra & La). exists a. split; auto. exists v. split; [|split; auto].
  - intros t (r & [M _] & Gr). exact (xgraph_mono_l f _ _ r t F G Gr M).
  - apply (wlim_low f _ (val (low x))); auto; [apply (valid_slim_low val x Hx)|apply Hx].
Qed.
Lemma up_best f x : increasing f -> up_rnd f -> V x -> defined_at f (val (up x)) ->
  (forall r, mem val x r -> r < 1 \/ exists t, graph f r t) ->
  exists a, runsI ready (tr_up R f (up x)) a /\ best_up (image f x) a.
Proof.
  intros F D Hx (v & G) A. destruct (D _ _ G) as (a & Ra & La). exists a. split; auto. exists v. split; [|split; auto].
  - intros t (r & [_ M] & Gr). exact (xgraph_mono_r f _ _ r t F G Gr M).
  - apply (wlim_high f _ (val (up x))); auto; [apply (valid_slim_up val x Hx)|apply Hx].
Qed.
Lemma rnd_tight f (b : M (itv N)) (x : itv N) :
  (exists z, runsI ready b z /\ tightest val z (image f x)) -> exists z, runsP P ready (with_rnd P b) z /\ tightest val z (image f x).
Proof. apply (via_rnd H). Qed.

Lemma everywhere_graph f r : everywhere f -> exists t, graph f r t.
Proof.
  intros E. destruct (everywhere_defined f (Fin r) E ltac:(discriminate)) as (v & G). destruct G as (t & _ & G). exists t. auto.
Qed.
Lemma simple_tight f x o : everywhere f -> increasing f -> down_rnd f -> up_rnd f -> V x ->
  exists z, runsP P ready (if test_input_i P x then i_empty P else
    with_rnd P (mk_args o (tr_down R f (low x)) (tr_up R f (up x)))) z /\ tightest val z (image f x).
Proof.
  intros E F D U Hx. rewrite (test_valid H) by auto. apply rnd_tight.
  destruct (low_best f x F D Hx) as (a & Ra & Ba).
  { apply everywhere_defined; auto. apply (vlow_nn x Hx). }
  { intros. apply everywhere_graph; auto. }
  destruct (up_best f x F U Hx) as (b & Rb & Bb).
  { apply everywhere_defined; auto. apply (vup_nn x Hx). }
  { intros. right. apply everywhere_graph; auto. }
  exists (mk a b). split; [runs|]. apply best_tightest; auto.
Qed.

Lemma RD_NInf t : val t = NInf -> RD val NInf t.
Proof. intros E. rewrite <- E. apply RD_val. congruence. Qed.
Lemma RU_PInf t : val t = PInf -> RU val PInf t.
Proof. intros E. rewrite <- E. apply RU_val. congruence. Qed.
Lemma RD_neg e h g : val g = xopp (val h) -> RU val e h -> RD val (xopp e) g.
Proof.
  intros E [A B]. rewrite <- (xopp_involutive e) in A. split.
  - rewrite E. apply xle_opp_iff. rewrite xopp_involutive in A. exact A.
  - intros t' L. destruct (ns_neg _ _ NS t') as (n & En & _). rewrite E. rewrite <- (xopp_involutive (val t')). apply xle_opp_iff.
    rewrite <- En. apply B. rewrite En. rewrite <- (xopp_involutive e). apply xle_opp_iff. exact L.
Qed.

(** ** log *)
Lemma t_log_tight x : n_has_inf N = true -> down_rnd Flog -> up_rnd Flog -> V x ->
  xlt (Fin 0) (val (up x)) -> exists z, runsP P ready (t_log R P x) z /\ tightest val z (image Flog x).
Proof.
  intros I D U Hx Lu. unfold t_log. rewrite (test_valid H) by auto.
  rewrite (proj2 (is_pos_iff H (up x)) Lu). cbn [orb negb]. apply rnd_tight.
  assert (E0 : forall r, 0 < r -> exists t, graph Flog r t) by (intros r Hr; exists (ln r); apply exp_ln; auto).
  assert (B : exists b, runsI ready (tr_up R Flog (up x)) b /\ best_up (image Flog x) b).
  { destruct (log_defined _ Lu) as (v & G). destruct (U _ _ G) as (b & Rb & Lb). exists b. split; auto. exists v. split; [|split; auto].
    - intros t (r & [_ M] & Gr). exact (xgraph_mono_r Flog _ _ r t Logic.I G Gr M).
    - apply (wlim_high Flog _ (val (up x))); auto; [exact Logic.I|apply (valid_slim_up val x Hx)|apply Hx|].
      intros r _. destruct (Rlt_le_dec r 1); auto. right. apply E0. lra. }
  destruct B as (b & Rb & Bb).
  destruct (is_pos_case H (low x)) as [[E L]|[E L]]; [apply (vlow_nn x Hx)| |]; rewrite E; cbn [negb].
  - destruct (low_best Flog x Logic.I D Hx (log_defined _ L)) as (a & Ra & Ba).
    { intros r [M _]. apply E0. exact (xlt_le_trans (Fin 0) _ (Fin r) L M). }
    exists (mk a b). split; [eapply runsI_bind; [exact Ra|]; cbv beta; runs|]. apply best_tightest; auto.
  - destruct (cs_neg_inf _ _ CS I) as (a & Ea & Ra). exists (mk a b).
    split; [eapply runsI_bind; [apply pure_runsI; exact Ra|]; cbv beta; runs|].
    apply best_tightest; auto. exists NInf. split; [intros t _; exact Logic.I|]. split; [|apply RD_NInf; exact Ea].
    apply wlim_log. intros r Hr. pose proof (vup_nn x Hx) as Nu. destruct (val (up x)) as [| |u|] eqn:Eu; cbn [xlt] in Lu; try tauto.
    + exists (Rmin r u). split; [|unfold Rmin; destruct Rle_dec; lra]. split; [|rewrite Eu; cbn [xle]; apply Rmin_r].
      refine (xle_trans _ (Fin 0) (Fin _) L _). cbn [xle]. unfold Rmin. destruct Rle_dec; lra.
    + exists r. split; [|lra]. split; [|rewrite Eu; exact Logic.I]. refine (xle_trans _ (Fin 0) (Fin _) L _). cbn [xle]. lra.
Qed.

(** ** Functions with a domain in [-1, 1] *)
Section Unit.
Hypothesis HM : val mone = Fin (-1).
Notation dom x := (xle (Fin (-1)) (val (up x)) /\ xle (val (low x)) (Fin 1)).

Definition half_best : Prop := exists h, pureM (k_half_u K) h /\ RU val (Fin (PI / 2)) h.
Definition pi_best : Prop := exists h, pureM (k_pi_u K) h /\ RU val (Fin PI) h.

Lemma mem_mone x : V x -> dom x -> xle (val (low x)) (Fin (-1)) -> mem val x (-1).
Proof. intros Hx [A _] L. split; auto. Qed.
Lemma mem_one x : V x -> dom x -> xle (Fin 1) (val (up x)) -> mem val x 1.
Proof. intros Hx [_ A] L. split; auto. Qed.
Lemma mem_low x u : V x -> val (low x) = Fin u -> mem val x u.
Proof. intros (A & B & C) E. split; [rewrite E; cbn; lra|]. rewrite <- E. exact A. Qed.
Lemma mem_up x u : V x -> val (up x) = Fin u -> mem val x u.
Proof. intros (A & B & C) E. split; [|rewrite E; cbn; lra]. rewrite <- E. exact A. Qed.

Lemma t_asin_tight x : half_best -> down_rnd Fasin -> up_rnd Fasin -> V x -> dom x ->
  exists z, runsP P ready (t_asin K R P x) z /\ tightest val z (image Fasin x).
Proof.
  intros (h & Rh & Lh) D U Hx Dx. unfold t_asin. rewrite (unit_test H HM) by auto. apply rnd_tight.
  assert (A : exists l, runsI ready (if n_le N (low x) mone then let! h := k_half_u K in neg h else tr_down R Fasin (low x)) l
     /\ best_low (image Fasin x) l).
  { destruct (le_mone_case H HM x Hx Dx) as [[E A]|[E (u & Eu & Bu)]]; rewrite E.
    - destruct (ns_neg _ _ NS h) as (g & Eg & Rg). exists g.
      split; [apply pure_runsI; eapply pureM_bind; [exact Rh|]; exact Rg|].
      exists (Fin (- (PI / 2))). split; [intros t (r & _ & [[B _] _]); exact B|]. split; [|exact (RD_neg _ _ _ Eg Lh)].
      apply slim_wlim. exists (-1). split; [apply mem_mone; auto|]. cbn [graph]. rewrite sin_neg, sin_PI2. pose proof PI_RGT_0. lra.
    - destruct (asin_ex u) as (w & Hw); [lra|]. destruct (D (low x) (Fin w)) as (l & Ll & Rl); [rewrite Eu; exists w; auto|].
      exists l. split; auto. exists (Fin w). split; [|split; auto; apply slim_wlim; exists u; split; [apply mem_low; auto|auto]].
      intros t (r & [M _] & G). rewrite Eu in M. exact (graph_mono Fasin u w r t Logic.I Hw G M). }
  assert (B : exists l, runsI ready (if n_ge (up x) one then k_half_u K else tr_up R Fasin (up x)) l
     /\ best_up (image Fasin x) l).
  { destruct (ge_one_case H x Hx Dx) as [[E B]|[E (u & Eu & Bu)]]; rewrite E.
    - exists h. split; [apply pure_runsI; exact Rh|].
      exists (Fin (PI / 2)). split; [intros t (r & _ & [[_ B'] _]); exact B'|]. split; auto.
      apply slim_wlim. exists 1. split; [apply mem_one; auto|]. cbn [graph]. rewrite sin_PI2. pose proof PI_RGT_0. lra.
    - destruct (asin_ex u) as (w & Hw); [lra|]. destruct (U (up x) (Fin w)) as (l & Ll & Rl); [rewrite Eu; exists w; auto|].
      exists l. split; auto. exists (Fin w). split; [|split; auto; apply slim_wlim; exists u; split; [apply mem_up; auto|auto]].
      intros t (r & [_ M] & G). rewrite Eu in M. exact (graph_mono Fasin r t u w Logic.I G Hw M). }
  destruct A as (a & Ra & Ha). destruct B as (b & Rb & Hb). exists (mk a b).
  split; [eapply runsI_bind; [exact Ra|]; cbv beta; eapply runsI_bind; [exact Rb|]; cbv beta; runs|]. apply best_tightest; auto.
Qed.
Lemma t_acos_tight x : pi_best -> down_rnd Facos -> up_rnd Facos -> V x -> dom x ->
  exists z, runsP P ready (t_acos K R P x) z /\ tightest val z (image Facos x).
Proof.
  intros (h & Rh & Lh) D U Hx Dx. unfold t_acos. rewrite (unit_test H HM) by auto. apply rnd_tight.
  assert (A : exists l, runsI ready (if n_ge (up x) one then ret zero else tr_down R Facos (up x)) l
     /\ best_low (image Facos x) l).
  { destruct (ge_one_case H x Hx Dx) as [[E A]|[E (u & Eu & Bu)]]; rewrite E.
    - exists zero. split; [runs|]. exists (Fin 0). split; [intros t (r & _ & [[B _] _]); exact B|].
      split; [|rewrite <- (val_zero H); apply RD_val; rewrite (val_zero H); discriminate].
      apply slim_wlim. exists 1. split; [apply mem_one; auto|]. cbn [graph]. rewrite cos_0. pose proof PI_RGT_0. lra.
    - destruct (acos_ex u) as (w & Hw); [lra|]. destruct (D (up x) (Fin w)) as (l & Ll & Rl); [rewrite Eu; exists w; auto|].
      exists l. split; auto. exists (Fin w). split; [|split; auto; apply slim_wlim; exists u; split; [apply mem_up; auto|auto]].
      intros t (r & [_ M] & G). rewrite Eu in M. exact (acos_dec _ _ _ _ G Hw M). }
  assert (B : exists l, runsI ready (if n_le N (low x) mone then k_pi_u K else tr_up R Facos (low x)) l
     /\ best_up (image Facos x) l).
  { destruct (le_mone_case H HM x Hx Dx) as [[E B]|[E (u & Eu & Bu)]]; rewrite E.
    - exists h. split; [apply pure_runsI; exact Rh|].
      exists (Fin PI). split; [intros t (r & _ & [[_ B'] _]); exact B'|]. split; auto.
      apply slim_wlim. exists (-1). split; [apply mem_mone; auto|]. cbn [graph]. rewrite cos_PI. pose proof PI_RGT_0. lra.
    - destruct (acos_ex u) as (w & Hw); [lra|]. destruct (U (low x) (Fin w)) as (l & Ll & Rl); [rewrite Eu; exists w; auto|].
      exists l. split; auto. exists (Fin w). split; [|split; auto; apply slim_wlim; exists u; split; [apply mem_low; auto|auto]].
      intros t (r & [M _] & G). rewrite Eu in M. exact (acos_dec _ _ _ _ Hw G M). }
  destruct A as (a & Ra & Ha). destruct B as (b & Rb & Hb). exists (mk a b).
  split; [eapply runsI_bind; [exact Ra|]; cbv beta; eapply runsI_bind; [exact Rb|]; cbv beta; runs|]. apply best_tightest; auto.
Qed.
Lemma t_atanh_tight x : n_has_inf N = true -> down_rnd Fatanh -> up_rnd Fatanh -> V x ->
  xlt (Fin (-1)) (val (up x)) -> xlt (val (low x)) (Fin 1) ->
  exists z, runsP P ready (t_atanh R P x) z /\ tightest val z (image Fatanh x).
Proof.
  intros I D U Hx D1 D2. unfold t_atanh.
  assert (Dx : dom x) by (split; apply xlt_xle; auto).
  rewrite (unit_test H HM) by auto. apply rnd_tight.
  assert (A : exists l, runsI ready (if n_le N (low x) mone then ck_neg_inf (p_ck P) else tr_down R Fatanh (low x)) l
     /\ best_low (image Fatanh x) l).
  { destruct (le_mone_case H HM x Hx Dx) as [[E A]|[E (u & Eu & Bu)]]; rewrite E.
    - destruct (cs_neg_inf _ _ CS I) as (g & Eg & Rg). exists g.
      split; [apply pure_runsI; exact Rg|]. exists NInf. split; [intros t _; exact Logic.I|]. split; [|apply RD_NInf; auto].
      apply wlim_atanh_low. intros r Hr. pose proof (vup_nn x Hx) as Nu. destruct (val (up x)) as [| |u|] eqn:Eu; cbn [xlt] in D1; try tauto.
      + exists (Rmin r u). split; [|unfold Rmin; destruct Rle_dec; lra]. split; [|rewrite Eu; cbn [xle]; apply Rmin_r].
        refine (xle_trans _ (Fin (-1)) (Fin _) A _). cbn [xle]. unfold Rmin. destruct Rle_dec; lra.
      + exists r. split; [|lra]. split; [|rewrite Eu; exact Logic.I]. refine (xle_trans _ (Fin (-1)) (Fin _) A _). cbn [xle]. lra.
    - rewrite Eu in D2. cbn [xlt] in D2. destruct (atanh_ex u) as (w & Hw); [lra|].
      destruct (D (low x) (Fin w)) as (l & Ll & Rl); [rewrite Eu; exists w; auto|].
      exists l. split; auto. exists (Fin w). split; [|split; auto; apply slim_wlim; exists u; split; [apply mem_low; auto|auto]].
      intros t (r & [M _] & G). rewrite Eu in M. exact (graph_mono Fatanh u w r t Logic.I Hw G M). }
  assert (B : exists l, runsI ready (if n_ge (up x) one then ck_pos_inf (p_ck P) else tr_up R Fatanh (up x)) l
     /\ best_up (image Fatanh x) l).
  { destruct (ge_one_case H x Hx Dx) as [[E B]|[E (u & Eu & Bu)]]; rewrite E.
    - destruct (cs_pos_inf _ _ CS I) as (g & Eg & Rg). exists g.
      split; [apply pure_runsI; exact Rg|]. exists PInf. split; [intros t _; exact Logic.I|]. split; [|apply RU_PInf; auto].
      apply wlim_atanh_high. intros r Hr. pose proof (vlow_nn x Hx) as Nl. destruct (val (low x)) as [| |u|] eqn:Eu; cbn [xlt] in D2; try tauto.
      + exists r. split; [|lra]. split; [rewrite Eu; exact Logic.I|]. refine (xle_trans (Fin _) (Fin 1) _ _ B). cbn [xle]. lra.
      + exists (Rmax r u). split; [|unfold Rmax; destruct Rle_dec; lra]. split; [rewrite Eu; cbn [xle]; apply Rmax_r|].
        refine (xle_trans (Fin _) (Fin 1) _ _ B). cbn [xle]. unfold Rmax. destruct Rle_dec; lra.
    - rewrite Eu in D1. cbn [xlt] in D1. destruct (atanh_ex u) as (w & Hw); [lra|].
      destruct (U (up x) (Fin w)) as (l & Ll & Rl); [rewrite Eu; exists w; auto|].
      exists l. split; auto. exists (Fin w). split; [|split; auto; apply slim_wlim; exists u; split; [apply mem_up; auto|auto]].
      intros t (r & [_ M] & G). rewrite Eu in M. exact (graph_mono Fatanh r t u w Logic.I G Hw M). }
  destruct A as (a & Ra & Ha). destruct B as (b & Rb & Hb). exists (mk a b).
  split; [eapply runsI_bind; [exact Ra|]; cbv beta; eapply runsI_bind; [exact Rb|]; cbv beta; runs|]. apply best_tightest; auto.
Qed.
End Unit.

(** ** acosh *)
Lemma t_acosh_tight x : down_rnd Facosh -> up_rnd Facosh -> V x -> xle (Fin 1) (val (up x)) ->
  exists z, runsP P ready (t_acosh R P x) z /\ tightest val z (image Facosh x).
Proof.
  intros D U Hx Lu. unfold t_acosh. rewrite (test_valid H) by auto. cbn [orb].
  destruct (lt_case H (up x) one) as [[E A]|[E _]]; [apply (vup_nn x Hx)|rewrite (val_one H); discriminate| |].
  { rewrite (val_one H) in A. exfalso. exact (xlt_irrefl _ (xle_lt_trans _ _ _ Lu A)). }
  rewrite E. apply rnd_tight.
  assert (E0 : forall r, 1 <= r -> exists t, graph Facosh r t) by (intros r Hr; apply acosh_ex; auto).
  destruct (up_best Facosh x Logic.I U Hx (acosh_defined _ Lu)) as (b & Rb & Bb).
  { intros r _. destruct (Rlt_le_dec r 1); auto. }
  destruct (le_case H (low x) one) as [[E' A]|[E' A]]; [apply (vlow_nn x Hx)|rewrite (val_one H); discriminate| |]; rewrite E'; rewrite (val_one H) in A.
  - exists (mk zero b). split; [eapply runsI_bind; [runs|]; cbv beta; runs|].
    apply best_tightest; auto. exists (Fin 0). split; [intros t (r & _ & G); exact (proj1 G)|].
    split; [|rewrite <- (val_zero H); apply RD_val; rewrite (val_zero H); discriminate].
    apply slim_wlim. exists 1. split; [split; auto|]. cbn [graph]. rewrite Ropp_0, exp_0. lra.
  - destruct (low_best Facosh x Logic.I D Hx (acosh_defined _ (xlt_xle _ _ A))) as (a & Ra & Ba).
    { intros r [M _]. apply E0. apply Rlt_le. exact (xlt_le_trans (Fin 1) _ (Fin r) A M). }
    exists (mk a b). split; [eapply runsI_bind; [exact Ra|]; cbv beta; runs|]. apply best_tightest; auto.
Qed.

(** ** cosh *)
Lemma t_cosh_tight x : down_rnd Fcosh -> up_rnd Fcosh -> V x ->
  exists z, runsP P ready (t_cosh R P x) z /\ tightest val z (image Fcosh x).
Proof.
  intros D U Hx. unfold t_cosh. rewrite (test_valid H) by auto. apply rnd_tight.
  pose proof (vlow_nn x Hx) as Nl. pose proof (vup_nn x Hx) as Nu.
  pose proof (valid_slim_low val x Hx) as Sl. pose proof (valid_slim_up val x Hx) as Su.
  destruct (cosh_defined _ Nl) as (vl & Gl). destruct (cosh_defined _ Nu) as (vu & Gu).
  pose proof (wlim_cosh _ _ _ Gl Sl) as Wl. pose proof (wlim_cosh _ _ _ Gu Su) as Wu.
  destruct (is_neg_case H (up x) Nu) as [[E A]|[E A]]; rewrite E.
  - destruct (D _ _ Gu) as (a & La & Ra). destruct (U _ _ Gl) as (b & Lb & Rb). exists (mk a b). split; [runs|].
    apply best_tightest; [exists vu|exists vl]; (split; [|auto]).
    + intros t (r & [M1 M2] & G). apply cosh_graph in G. subst t. apply (cosh_below _ _ r Gu). left. split; auto. apply xlt_xle; auto.
    + intros t (r & [M1 M2] & G). apply cosh_graph in G. subst t.
      assert (r < 0) by (pose proof (xle_lt_trans _ _ _ M2 A); auto).
      apply (cosh_above _ _ r Gl). left. rewrite Rabs_left by auto. rewrite Ropp_involutive. exact M1.
  - destruct (is_neg_case H (low x) Nl) as [[E' A']|[E' A']]; rewrite E'; cbn [negb].
    + assert (C : exists b, runsI ready (let! nx := e_opp (n_load N (low x)) in
         tr_up R Fcosh (if x_lt N (n_load N (up x)) nx then low x else up x)) b /\ best_up (image Fcosh x) b).
      { destruct (ns_xopp _ _ NS (low x) (up x)) as (nx & Rn & En).
        destruct (x_lt N (n_load N (up x)) nx) eqn:Q.
        - assert (L : xlt (val (up x)) (xopp (val (low x)))) by (apply En; auto).
          destruct (U _ _ Gl) as (b & Lb & Rb). exists b. split.
          { eapply runsI_bind; [apply pure_runsI; exact Rn|]. cbv beta. rewrite Q. exact Rb. }
          exists vl. split; [|auto]. intros t (r & [M1 M2] & G). apply cosh_graph in G. subst t.
          apply (cosh_above _ _ r Gl). left.
          pose proof (xle_lt_trans _ _ _ M2 L) as L2.
          destruct (val (low x)); cbn [xle xlt xopp] in *; try tauto. unfold Rabs. destruct (Rcase_abs r); lra.
        - assert (L : ~ xlt (val (up x)) (xopp (val (low x)))) by (intros L; apply En in L; congruence).
          destruct (U _ _ Gu) as (b & Lb & Rb). exists b. split.
          { eapply runsI_bind; [apply pure_runsI; exact Rn|]. cbv beta. rewrite Q. exact Rb. }
          exists vu. split; [|auto]. intros t (r & [M1 M2] & G). apply cosh_graph in G. subst t.
          apply (cosh_above _ _ r Gu). right. clear Sl Su Gl Gu.
          destruct (val (low x)), (val (up x)); cbn [xle xlt xopp] in *; try tauto; unfold Rabs; destruct (Rcase_abs r); lra. }
      destruct C as (b & Rb & Hb). exists (mk one b). split; [runs|].
      apply best_tightest; auto. exists (Fin 1). split; [|split; [|rewrite <- (val_one H); apply RD_val; rewrite (val_one H); discriminate]].
      * intros t (r & _ & G). apply cosh_graph in G. subst t. cbn [xle]. rewrite <- cosh_0, (cosh_abs r). apply cosh_le; [lra|apply Rabs_pos].
      * apply slim_wlim. exists 0. split; [split; [apply xlt_xle; auto|auto]|]. cbn [graph]. rewrite Ropp_0, exp_0. lra.
    + destruct (D _ _ Gl) as (a & La & Ra). destruct (U _ _ Gu) as (b & Lb & Rb). exists (mk a b). split; [runs|].
      apply best_tightest; [exists vl|exists vu]; (split; [|auto]).
      * intros t (r & [M1 M2] & G). apply cosh_graph in G. subst t. apply (cosh_below _ _ r Gl). right. split; auto.
      * intros t (r & [M1 M2] & G). apply cosh_graph in G. subst t.
        assert (0 <= r) by (pose proof (xle_trans _ _ _ A' M1); auto).
        apply (cosh_above _ _ r Gu). right. rewrite Rabs_pos_eq by auto. exact M2.
Qed.
End Core.

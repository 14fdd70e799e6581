(** * Programs are deterministic, restore the mode and may be unprotected *)

From Coq Require Import ZArith Bool.
From Flocq Require Import Core BinarySingleNaN.
From Verif Require Import Outcome Base Checking Interval Utility Arith Arith2 FloatNum Spec Sem
  FloatSpec FloatPol Agree Program.

Section Prog.
Context (p : platform) (debug : bool) (c : ckind).
Notation N := (fnum p).
Notation P k pr ord := (fpol p pr k debug c ord).
Notation agree := (agree p debug c).
Notation detS := (@detS).

Lemma ag_pure {A} (f : policy N -> A) : (forall k pr ord, f (P k pr ord) = f (P Std Save (fun _ => true))) ->
  agree (fun Q => ret (f Q)).
Proof.
  intros E. apply agreeP_agree. exists (Ok (f (P Std Save (fun _ => true)))). split; [exact Logic.I|].
  intros k pr ord s. unfold ret. rewrite E. reflexivity.
Qed.

Definition is_fmod {A} (a : call (p := p) A) : bool :=
  match a with CFmod _ _ _ | CFmodIN _ _ _ | CFmodNI _ _ _ => true | _ => false end.
Lemma ag_call {A} (a : call (p := p) A) : is_fmod a = false -> agree (fun Q => run_call Q a).
Proof.
  destruct a; cbn [run_call is_fmod]; intros Hf; try discriminate;
  first
  [ apply ag_ctor_default | apply ag_ctor_num | apply ag_ctor_num2 | apply ag_ctor_float | apply ag_ctor_float2
  | apply ag_checked_lower | apply ag_checked_upper | apply ag_width | apply ag_median | apply ag_norm
  | apply ag_widen | apply ag_in | apply ag_intersect | apply ag_hull | apply ag_hull_in | apply ag_hull_ni
  | apply ag_hull_nn | apply ag_bisect | apply ag_abs | apply ag_max | apply ag_max_in | apply ag_max_ni
  | apply ag_min | apply ag_min_in | apply ag_min_ni | apply ag_neg | apply ag_add | apply ag_add_ni
  | apply ag_add_in | apply ag_sub | apply ag_sub_ni | apply ag_sub_in | apply ag_mul | apply ag_mul_ni
  | apply ag_mul_in | apply ag_div | apply ag_div_ni | apply ag_div_in
  | apply ag_division_part1 | apply ag_division_part2 | apply ag_inverse | apply ag_pow; assumption
  | apply ag_sqrt | apply ag_square | apply ag_n_add | apply ag_n_sub | apply ag_n_mul | apply ag_n_div
  | apply ag_cmp_lt | apply ag_cmp_gt | apply ag_cmp_le | apply ag_cmp_ge | apply ag_cmp_eq | apply ag_cmp_ne
  | apply ag_cmpn_lt | apply ag_cmpn_gt | apply ag_cmpn_le | apply ag_cmpn_ge | apply ag_cmpn_eq | apply ag_cmpn_ne
  | apply ag_pure; intros; reflexivity ].
Qed.

Lemma ag_call_at pr {A} (a : call (p := p) A) : agree_at p debug c pr (fun Q => run_call Q a).
Proof.
  destruct (is_fmod a) eqn:E.
  - destruct a; try discriminate; [apply ag_fmod|apply ag_fmod_in|apply ag_fmod_ni].
  - apply agree_agree_at, ag_call. exact E.
Qed.
Lemma ag_call_tame k0 ord0 {A} (a : call (p := p) A) : tame (P k0 Save ord0) a -> agree (fun Q => run_call Q a).
Proof.
  intros T. destruct (is_fmod a) eqn:E; [|apply ag_call; exact E].
  destruct a; try discriminate; destruct T as (z & R & NE).
  - exact (ag_fmod_nonempty p debug c _ _ z k0 ord0 R NE).
  - exact (ag_fmod_in_nonempty p debug c _ _ z k0 ord0 R NE).
  - exact (ag_fmod_ni_nonempty p debug c _ _ z k0 ord0 R NE).
Qed.

Lemma detI_catch k {A} (m : M A) h o1 o2 : detI k m o1 -> good o1 ->
  (match o1 with Throw e => detI k (h e) o2 | o => o2 = o end) -> detI k (catch m h) o2.
Proof.
  intros H1 G H2 s Hs. destruct (H1 s Hs) as (s1 & R1 & E1). unfold catch. rewrite E1.
  destruct o1; try destruct G; subst; eauto.
Qed.
Lemma detS_catch {A} (m : M A) h o1 o2 : detS _ m o1 -> good o1 ->
  (match o1 with Throw e => detS _ (h e) o2 | o => o2 = o end) -> detS _ (catch m h) o2.
Proof.
  intros H1 G H2 s. unfold catch. rewrite (H1 s).
  destruct o1; try destruct G; subst; auto.
Qed.
Lemma det_catch k pr {A} (m : M A) h o1 o2 : det k pr m o1 -> good o1 ->
  (match o1 with Throw e => det k pr (h e) o2 | o => o2 = o end) -> det k pr (catch m h) o2.
Proof. destruct pr; [apply detS_catch|apply detI_catch|apply detI_catch]. Qed.

(** Where the program runs: outside every scope (protected) or inside one. *)
Definition at_ (inside : bool) : protection := if inside then SaveUnprotected else Save.

Lemma bind_det inside {B C} (m1 : rkind -> (site -> bool) -> M B) (k1 : rkind -> (site -> bool) -> B -> M C) :
  (exists o, good o /\ forall k ord, det k (at_ inside) (m1 k ord) o) ->
  (forall x, exists o, good o /\ forall k ord, det k (at_ inside) (k1 k ord x) o) ->
  exists o, good o /\ forall k ord, det k (at_ inside) (bind (m1 k ord) (k1 k ord)) o.
Proof.
  intros (o & G & E1) K. destruct o as [a|e| | |]; try destruct G.
  - destruct (K a) as (o2 & G2 & F1). exists o2. split; [auto|]. intros k ord.
    eapply det_bind; [apply E1|]. apply F1.
  - exists (Throw e). split; [exact I|]. intros k ord. eapply det_bind; [apply E1|]. reflexivity.
Qed.

Lemma prog_det {A} (m : prog (p := p) A) : forall inside, scoped inside m ->
  exists o, good o /\ forall k ord, det k (at_ inside) (exec (P k Save ord) m) o.
Proof.
  induction m as [A a|A e|A B b cl kk IH|A B m IHm kk IH|A B m IHm h IHh kk IH]; intros inside S; cbn [exec].
  - exists (Ok a). split; [exact I|]. intros k ord; apply detS_det; intros s; reflexivity.
  - exists (Throw e). split; [exact I|]. intros k ord; apply detS_det; intros s; reflexivity.
  - destruct S as [Sb Sk].
    apply (bind_det inside (fun k ord => run_call (if b then P k Save ord else unprotect (P k Save ord)) cl)
             (fun k ord x => exec (P k Save ord) (kk x))).
    + destruct b.
      * destruct (ag_call_at Save cl) as (o & G & H). exists o. split; [exact G|].
        intros k ord. destruct inside; [apply detS_detI|]; apply (H k ord).
      * destruct Sb as [Sb|Sb]; [discriminate|]. rewrite Sb.
        destruct (ag_call_at SaveUnprotected cl) as (o & G & H). exists o. split; [exact G|exact H].
    + intros x. apply (IH x inside). apply Sk.
  - destruct S as [Sm Sk].
    apply (bind_det inside (fun k ord => with_rnd (P k Save ord) (exec (P k Save ord) m))
             (fun k ord x => exec (P k Save ord) (kk x))).
    + destruct (IHm true Sm) as (o & G & E1). exists o. split; [exact G|].
      intros k ord. apply detS_det. apply det_with_rnd; [exact G|]. apply (E1 k ord).
    + intros x. apply (IH x inside). apply Sk.
  - destruct S as (Sm & Sh & Sk).
    apply (bind_det inside (fun k ord => catch (exec (P k Save ord) m) (fun e => exec (P k Save ord) (h e)))
             (fun k ord x => exec (P k Save ord) (kk x))).
    + destruct (IHm inside Sm) as (o & G & E1). destruct o as [a|e| | |]; try destruct G.
      * exists (Ok a). split; [exact I|]. intros k ord.
        eapply det_catch; [apply E1|exact Logic.I|reflexivity].
      * destruct (IHh e inside (Sh e)) as (o2 & G2 & F1). exists o2. split; [auto|]. intros k ord.
        eapply det_catch; [apply E1|exact Logic.I|apply F1].
    + intros x. apply (IH x inside). apply Sk.
Qed.

(** The protected execution has the same outcome. *)
Lemma prog_protected k ord {A} (m : prog (p := p) A) : forall inside, scoped inside m ->
  tame_prog (P k Save ord) m ->
  exists o, good o /\ det k (at_ inside) (exec (P k Save ord) m) o /\ detS _ (exec_protected (P k Save ord) m) o.
Proof.
  assert (BND : forall B C inside (m1 m2 : M B) (k1 k2 : B -> M C),
    (exists o, good o /\ det k (at_ inside) m1 o /\ detS _ m2 o) ->
    (forall x s s', m2 s = (Ok x, s') -> exists o, good o /\ det k (at_ inside) (k1 x) o /\ detS _ (k2 x) o) ->
    exists o, good o /\ det k (at_ inside) (bind m1 k1) o /\ detS _ (bind m2 k2) o).
  { intros B C inside m1 m2 k1 k2 (o & G & E1 & E2) K. destruct o as [a|e| | |]; try destruct G.
    - destruct (K a RNE RNE (E2 RNE)) as (o2 & G2 & F1 & F2). exists o2. split; [auto|]. split.
      + eapply det_bind; [apply E1|]. apply F1.
      + eapply detS_bind; [apply E2|]. apply F2.
    - exists (Throw e). split; [exact I|]. split.
      + eapply det_bind; [apply E1|]. reflexivity.
      + eapply detS_bind; [apply E2|]. reflexivity. }
  induction m as [A a|A e|A B b cl kk IH|A B m IHm kk IH|A B m IHm h IHh kk IH]; intros inside S T; cbn [exec exec_protected].
  - exists (Ok a). split; [exact I|]. split; [apply detS_det|]; intros s; reflexivity.
  - exists (Throw e). split; [exact I|]. split; [apply detS_det|]; intros s; reflexivity.
  - destruct S as [Sb Sk], T as [Tb Tk]. apply BND.
    + destruct b.
      * destruct (ag_call_at Save cl) as (o & G & H). exists o. split; [exact G|]. split; [|apply (H k)].
        destruct inside; [apply detS_detI|]; apply (H k).
      * destruct (ag_call_tame k ord cl (Tb eq_refl)) as (o & G & H). exists o. split; [exact G|].
        split; [|apply (H k Save)]. destruct Sb as [Sb|Sb]; [discriminate|]. rewrite Sb. apply (H k SaveUnprotected).
    + intros x s s' E. apply (IH x inside); [apply Sk|]. exact (Tk x s s' E).
  - destruct S as [Sm Sk], T as [Tm Tk]. apply BND.
    + destruct (IHm true Sm Tm) as (o & G & E1 & E2). exists o. split; [auto|]. split; [|exact E2].
      apply detS_det. apply det_with_rnd; [exact G|]. apply E1.
    + intros x s s' E. apply (IH x inside); [apply Sk|]. exact (Tk x s s' E).
  - destruct S as (Sm & Sh & Sk), T as (Tm & Th & Tk). apply BND.
    + destruct (IHm inside Sm Tm) as (o & G & E1 & E2). destruct o as [a|e| | |]; try destruct G.
      * exists (Ok a). split; [exact I|]. split.
        -- eapply det_catch; [apply E1|exact Logic.I|reflexivity].
        -- apply (detS_catch _ _ _ _ E2 Logic.I). reflexivity.
      * destruct (IHh e inside (Sh e) (Th e RNE RNE (E2 RNE))) as (o2 & G2 & F1 & F2). exists o2. split; [auto|]. split.
        -- eapply det_catch; [apply E1|exact Logic.I|apply F1].
        -- apply (detS_catch _ _ _ _ E2 Logic.I). apply F2.
    + intros x s s' E. apply (IH x inside); [apply Sk|]. exact (Tk x s s' E).
Qed.
End Prog.

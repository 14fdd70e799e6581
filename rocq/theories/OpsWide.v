(** * A finer format never gives wider results: the operations and expressions *)

From Coq Require Import Reals ZArith Lra Lia Bool Classical.
From Flocq Require Import Core BinarySingleNaN.
From Verif Require Import Outcome Base Checking Interval Utility Arith Arith2 FloatNum Spec ExtR Sem
  FloatSpec FloatPol CoreArith CoreDiv CoreUtil Inst Witness CoreCtor Ops OpsProof CoreIso CoreWide OpsIso
  Properties1 Properties2 Properties13.
Local Open Scope R_scope.

(** The expression with its numbers converted. *)
Fixpoint retype {N N' : num} (cv : T N' -> T N) (e : expr N') : expr N :=
  match e with
  | e_var n => e_var n
  | e_num v => e_num (cv v)
  | e_1 o e1 => e_1 o (retype cv e1)
  | e_2 o e1 e2 => e_2 o (retype cv e1) (retype cv e2)
  | e_in o e1 v => e_in o (retype cv e1) (cv v)
  | e_ni o v e1 => e_ni o (cv v) (retype cv e1)
  | e_nn o v w => e_nn o (cv v) (cv w)
  | e_intersect e1 e2 => e_intersect (retype cv e1) (retype cv e2)
  | e_widen e1 v => e_widen (retype cv e1) (cv v)
  end.

Section Wide.
Context (p p' : platform) (k k' : rkind) (debug debug' : bool) (c : ckind) (ord ord' : site -> bool)
        (Fs : fmt_sub (p_T p') (p_T p)).
Notation N := (fnum p).
Notation N' := (fnum p').
Notation I := (itv N).
Notation I' := (itv N').
Notation P := (fpol p Save k debug c ord).
Notation P' := (fpol p' Save k' debug' c ord').
Notation spec := (fpolspec p Save k debug c ord).
Notation spec' := (fpolspec p' Save k' debug' c ord').
Notation ok := (ok_interval (p := p) c).
Notation ok' := (ok_interval (p := p') c).
Notation res := (res p c).
Notation res' := (OpsIso.res p' c).

Definition within (x : I) (x' : I') : Prop := forall r, fmem x r -> fmem x' r.
Lemma embeds (t' : T N') : exists t : T N, fval (f := p_T p) t = fval (f := p_T p') t'.
Proof. exists (fconv (p_T p') (p_T p) RNE t'). apply fconv_widen, Fs. Qed.

Lemma within_valid x x' : fvalid x -> within x x' -> ok' x' -> fvalid x'.
Proof. intros V S _. destruct (nonempty_mem p x V) as (r & Hr). apply (mem_fvalid p' x' r), S, Hr. Qed.
Lemma tight_within (z : I) (z' : I') S S' : ftightest z S -> fencloses z' S' -> (forall r, S r -> S' r) -> within z z'.
Proof. intros A B C r Hr. exact (tight_wide embeds z z' S S' A B C r Hr). Qed.
Lemma denotes_within (z : I) (z' : I') S S' : fdenotes z S -> fdenotes z' S' -> (forall r, S r -> S' r) -> within z z'.
Proof. intros A B C r Hr. apply B, C, A, Hr. Qed.
Lemma same_within (z w : I) (z' w' : I') : fsame w z -> fsame w' z' -> within z z' -> within w w'.
Proof.
  intros [A B] [A' B'] S r Hr. unfold within, fmem, mem in *. rewrite A, B in Hr. rewrite A', B'. apply S, Hr.
Qed.

Lemma wide1 o x x' z z' : match o with U_pow n => (int_min < n <= int_max)%Z | _ => True end ->
  fvalid x -> fvalid x' -> within x x' -> nonempty (img1 o (fmem x)) ->
  returns (run1 P o x) z -> returns (run1 P' o x') z' -> within z z'.
Proof.
  intros Ho V V' S Ne R R'. destruct o as [| | | | |n]; cbn [run1] in *.
  - destruct (C03_neg_exact p k debug c ord x V) as (w & Rw & _ & D).
    destruct (C03_neg_exact p' k' debug' c ord' x' V') as (w' & Rw' & _ & D').
    rewrite (returns_det _ _ _ R Rw), (returns_det _ _ _ R' Rw'). eapply denotes_within; [exact D|exact D'|].
    intros t (r & Hr & E). exists r. split; [apply S, Hr|exact E].
  - destruct (C15_abs_exact p k debug c ord x V) as (w & Rw & _ & D).
    destruct (C15_abs_exact p' k' debug' c ord' x' V') as (w' & Rw' & _ & D').
    rewrite (returns_det _ _ _ R Rw), (returns_det _ _ _ R' Rw'). eapply denotes_within; [exact D|exact D'|].
    intros t (r & Hr & E). exists r. split; [apply S, Hr|exact E].
  - destruct Ne as (t & r & Hr & Pr & _).
    destruct (C13_sqrt_tightest p k debug c ord x V (ex_intro _ r (conj Hr Pr))) as (w & Rw & _ & D).
    destruct (C13_sqrt_tightest p' k' debug' c ord' x' V' (ex_intro _ r (conj (S r Hr) Pr))) as (w' & Rw' & _ & [D' _]).
    rewrite (returns_det _ _ _ R Rw), (returns_det _ _ _ R' Rw'). eapply tight_within; [exact D|exact D'|].
    intros t' (q & Hq & E). exists q. split; [apply S, Hq|exact E].
  - destruct (C09_square_tightest p k debug c ord x V) as (w & Rw & _ & D).
    destruct (C09_square_tightest p' k' debug' c ord' x' V') as (w' & Rw' & _ & [D' _]).
    rewrite (returns_det _ _ _ R Rw), (returns_det _ _ _ R' Rw'). eapply tight_within; [exact D|exact D'|].
    intros t (r & Hr & E). exists r. split; [apply S, Hr|exact E].
  - destruct Ne as (t & r & Hr & Nr & _).
    assert (Z : ~ fdenotes x (point 0)) by (intros D; apply Nr, D, Hr).
    assert (Z' : ~ fdenotes x' (point 0)) by (intros D; apply Nr, D, S, Hr).
    destruct (C14_inverse_tightest p k debug c ord x V Z) as (w & Rw & _ & D).
    destruct (C14_inverse_tightest p' k' debug' c ord' x' V' Z') as (w' & Rw' & _ & [D' _]).
    rewrite (returns_det _ _ _ R Rw), (returns_det _ _ _ R' Rw'). eapply tight_within; [exact D|exact D'|].
    intros t' (q & Hq & E). exists q. split; [apply S, Hq|exact E].
  - unfold within. apply (pow_wide spec spec' embeds x x' n z z'); auto; [lia|].
    destruct (Z.lt_ge_cases 0 n) as [L|L]; [right; exact L|left]. intros Z.
    destruct Ne as (t & r & Hr & Q). simpl in Q. rewrite (proj2 (Z.ltb_ge 0 n)) in Q by lia.
    assert (r <> 0) by (destruct (n <? 0)%Z; tauto). apply (zero_set p x V) in Z. apply H. apply Z, Hr.
Qed.
Lemma wide2 o x x' y y' z z' : fvalid x -> fvalid x' -> fvalid y -> fvalid y' -> within x x' -> within y y' ->
  nonempty (img2 o (fmem x) (fmem y)) ->
  returns (run2 P o x y) z -> returns (run2 P' o x' y') z' -> within z z'.
Proof.
  intros V V' W W' S S2 Ne R R'.
  assert (Im : forall f t, image2 f (fmem x) (fmem y) t -> image2 f (fmem x') (fmem y') t).
  { intros f t (a & b & Ha & Hb & E). exists a, b. auto. }
  destruct o; cbn [run2] in *.
  - destruct (C01_add_tightest p k debug c ord x y V W) as (w & Rw & _ & D).
    destruct (C01_add_tightest p' k' debug' c ord' x' y' V' W') as (w' & Rw' & _ & [D' _]).
    rewrite (returns_det _ _ _ R Rw), (returns_det _ _ _ R' Rw'). eapply tight_within; [exact D|exact D'|]; auto.
  - destruct (C02_sub_tightest p k debug c ord x y V W) as (w & Rw & _ & D).
    destruct (C02_sub_tightest p' k' debug' c ord' x' y' V' W') as (w' & Rw' & _ & [D' _]).
    rewrite (returns_det _ _ _ R Rw), (returns_det _ _ _ R' Rw'). eapply tight_within; [exact D|exact D'|]; auto.
  - destruct (C04_mul_tightest p k debug c ord x y V W) as (w & Rw & _ & D).
    destruct (C04_mul_tightest p' k' debug' c ord' x' y' V' W') as (w' & Rw' & _ & [D' _]).
    rewrite (returns_det _ _ _ R Rw), (returns_det _ _ _ R' Rw'). eapply tight_within; [exact D|exact D'|]; auto.
  - unfold within. apply (op_div_wide spec spec' embeds x x' y y' z z'); auto.
    intros Z. apply (zero_set p y W) in Z. destruct Ne as (t & a & b & _ & Hb & Nb & _). apply Nb, Z, Hb.
  - destruct (C15_max_exact p k debug c ord x y V W) as (w & Rw & _ & D).
    destruct (C15_max_exact p' k' debug' c ord' x' y' V' W') as (w' & Rw' & _ & D').
    rewrite (returns_det _ _ _ R Rw), (returns_det _ _ _ R' Rw'). eapply denotes_within; [exact D|exact D'|]; auto.
  - destruct (C15_min_exact p k debug c ord x y V W) as (w & Rw & _ & D).
    destruct (C15_min_exact p' k' debug' c ord' x' y' V' W') as (w' & Rw' & _ & D').
    rewrite (returns_det _ _ _ R Rw), (returns_det _ _ _ R' Rw'). eapply denotes_within; [exact D|exact D'|]; auto.
  - destruct (nonempty_mem p x V) as (r0 & Hr0).
    destruct (C32_hull p k debug c ord x y (or_introl V) (or_introl W)) as [(w & Rw & _ & D) _]; [exists r0; auto|].
    destruct (C32_hull p' k' debug' c ord' x' y' (or_introl V') (or_introl W')) as [(w' & Rw' & _ & [D' _]) _].
    { exists r0. left. apply S, Hr0. }
    rewrite (returns_det _ _ _ R Rw), (returns_det _ _ _ R' Rw'). eapply tight_within; [exact D|exact D'|]; auto.
    intros r [H|H]; [left; apply S, H|right; apply S2, H].
Qed.
Lemma wide_ni o (v : T N) (v' : T N') (y : I) (y' : I') r z z' : fval (f := p_T p) v = Fin r -> fval (f := p_T p') v' = Fin r -> fvalid y -> fvalid y' -> within y y' ->
  nonempty (img2 o (point r) (fmem y)) ->
  returns (run_ni P o v y) z -> returns (run_ni P' o v' y') z' -> within z z'.
Proof.
  intros E E' V V' S Ne R R'. destruct (point_mem p v r E) as [Vv Mv]. destruct (point_mem p' v' r E') as [Vv' Mv'].
  assert (Ne' : nonempty (img2 o (point r) (fmem y'))).
  { destruct Ne as (t & a & b & A & B & Q). exists t, a, b. auto. }
  assert (Ne2 : nonempty (img2 o (fmem (mk v v : I)) (fmem y))).
  { destruct Ne as (t & a & b & A & B & Q). exists t, a, b. split; [apply Mv, A|auto]. }
  destruct (ni_like p k debug c ord o v y r E V Ne) as (w & z1 & Rw & Rz1 & Sa). destruct (ni_like p' k' debug' c ord' o v' y' r E' V' Ne') as (w' & z1' & Rw' & Rz1' & Sa').
  rewrite (returns_det _ _ _ R Rz1), (returns_det _ _ _ R' Rz1').
  apply (same_within w _ w'); auto. apply (wide2 o (mk v v) (mk v' v') y y'); auto. intros q Hq; apply Mv', Mv, Hq.
Qed.
Lemma wide_in o (v : T N) (v' : T N') (y : I) (y' : I') r z z' : fval (f := p_T p) v = Fin r -> fval (f := p_T p') v' = Fin r -> fvalid y -> fvalid y' -> within y y' ->
  nonempty (img2 o (fmem y) (point r)) ->
  returns (run_in P o y v) z -> returns (run_in P' o y' v') z' -> within z z'.
Proof.
  intros E E' V V' S Ne R R'. destruct (point_mem p v r E) as [Vv Mv]. destruct (point_mem p' v' r E') as [Vv' Mv'].
  assert (Ne' : nonempty (img2 o (fmem y') (point r))).
  { destruct Ne as (t & a & b & A & B & Q). exists t, a, b. auto. }
  destruct (in_like p k debug c ord o v y r E V Ne) as (w & z1 & Rw & Rz1 & Sa). destruct (in_like p' k' debug' c ord' o v' y' r E' V' Ne') as (w' & z1' & Rw' & Rz1' & Sa').
  rewrite (returns_det _ _ _ R Rz1), (returns_det _ _ _ R' Rz1').
  apply (same_within w _ w'); auto. destruct (swaps o) eqn:Sw.
  - apply (wide2 o (mk v v) (mk v' v') y y'); auto; [intros q Hq; apply Mv', Mv, Hq|]. eapply ne_swap; eauto.
  - apply (wide2 o y y' (mk v v) (mk v' v')); auto; [intros q Hq; apply Mv', Mv, Hq|].
    destruct Ne as (t & a & b & A & B & Q). exists t, a, b. split; [exact A|split; [apply Mv, B|exact Q]].
Qed.

(** ** Results *)
Definition leW (o : option I) (o' : option I') : Prop :=
  match o, o' with
  | None, _ => True
  | Some z, Some z' => within z z'
  | Some _, None => False
  end.
Lemma wide_of m m' S S' : correct p c m S -> correct p' c m' S' -> (forall r, S r -> S' r) ->
  (forall z z', nonempty S -> returns m z -> returns m' z' -> within z z') ->
  exists o o', res m o /\ res' m' o' /\ leW o o'.
Proof.
  intros [A B] C' Inc Mo. destruct (correct_res p' c m' S' C') as (o' & R').
  destruct (classic (nonempty S)) as [K|K].
  - destruct (A K) as (z & R & V & _). exists (Some z), o'. split; [split; [exact R|left; exact V]|]. split; [exact R'|].
    destruct C' as [A' _]. destruct A' as (z' & Rz' & V' & _); [destruct K as (r & Hr); exists r; auto|].
    rewrite (res_det p' c m' o' (Some z')); auto; [|split; [exact Rz'|left; exact V']]. simpl. eapply Mo; eauto.
  - destruct (gives_res p c m (B K)) as (o & R & Hz). exists o, o'. split; [exact R|]. split; [exact R'|].
    destruct o as [z|]; [|exact Logic.I]. destruct o' as [z'|]; simpl.
    + intros r Hr. destruct (fempty_none p z Hz r Hr).
    + destruct R as [_ Oz], R' as [_ Al]. destruct Oz as [Vz|[Al' _]]; [|congruence]. apply Hz, Vz.
Qed.
(** An operation that yields empty on an empty argument. *)
Lemma wide_empty m m' o' : allows_empty c = true -> gives_empty c m -> res' m' o' ->
  exists o o', res m o /\ res' m' o' /\ leW o o'.
Proof.
  intros Al G R'. destruct (gives_res p c m G) as (o & R & Hz). exists o, o'. split; [exact R|]. split; [exact R'|].
  destruct o as [z|]; [|exact Logic.I]. destruct o' as [z'|]; simpl.
  - intros r Hr. destruct (fempty_none p z Hz r Hr).
  - destruct R' as [_ K]. congruence.
Qed.
Lemma step1 o x x' : match o with U_pow n => (int_min < n <= int_max)%Z | _ => True end ->
  ok x -> ok' x' -> within x x' ->
  exists r r', res (run1 P o x) r /\ res' (run1 P' o x') r' /\ leW r r'.
Proof.
  intros Ho Ox Ox' S.
  assert (R' : exists r', res' (run1 P' o x') r').
  { destruct Ox' as [V'|[Al E']]; [eapply correct_res, run1_correct; eauto|].
    destruct (gives_res p' c _ (run1_empty p' k' debug' c ord' o x' Al E')) as (r & Rr & _). eauto. }
  destruct Ox as [V|[Al E]].
  - pose proof (within_valid x x' V S Ox') as V'.
    eapply wide_of; [apply run1_correct; auto|apply run1_correct; auto| |].
    + intros t (r & Hr & Q). exists r. split; [apply S, Hr|exact Q].
    + intros z z' Ne Rz Rz'. exact (wide1 o x x' z z' Ho V V' S Ne Rz Rz').
  - destruct R' as (r' & R'). eapply wide_empty; eauto. apply run1_empty; auto.
Qed.
Lemma wide_hull x x' y y' : ok x -> ok' x' -> ok y -> ok' y' -> within x x' -> within y y' ->
  exists r r', res (hull P x y) r /\ res' (hull P' x' y') r' /\ leW r r'.
Proof.
  intros Ox Ox' Oy Oy' S S2.
  destruct (res_hull p' k' debug' c ord' x' y' Ox' Oy') as (r' & R').
  destruct (C32_hull p k debug c ord x y Ox Oy) as [A B].
  destruct (C32_hull p' k' debug' c ord' x' y' Ox' Oy') as [A' B'].
  destruct (classic (exists r, fmem x r \/ fmem y r)) as [K|K].
  - destruct (A K) as (z & R & V & T). destruct A' as (z' & Rz' & V' & [T' _]).
    { destruct K as (r & [H|H]); exists r; [left; apply S, H|right; apply S2, H]. }
    exists (Some z), (Some z'). split; [split; [exact R|left; exact V]|]. split; [split; [exact Rz'|left; exact V']|].
    simpl. eapply tight_within; [exact T|exact T'|]. intros r [H|H]; [left; apply S, H|right; apply S2, H].
  - destruct (allows_empty c) eqn:Al.
    + eapply wide_empty; eauto.
    + exfalso. apply K. destruct Ox as [V|[Q _]]; [|congruence]. destruct (nonempty_mem p x V) as (r & Hr). eauto.
Qed.
Lemma step2 o x x' y y' : ok x -> ok' x' -> ok y -> ok' y' -> within x x' -> within y y' ->
  exists r r', res (run2 P o x y) r /\ res' (run2 P' o x' y') r' /\ leW r r'.
Proof.
  intros Ox Ox' Oy Oy' S S2. destruct (op2_dec o) as [->|Ho]; [apply wide_hull; auto|].
  assert (R' : exists r', res' (run2 P' o x' y') r').
  { destruct Ox' as [V'|[Al E']].
    - destruct Oy' as [W'|[Al E']]; [eapply correct_res, run2_correct; eauto|].
      destruct (gives_res p' c _ (run2_empty p' k' debug' c ord' o x' y' Ho Al (or_intror E'))) as (r & Rr & _). eauto.
    - destruct (gives_res p' c _ (run2_empty p' k' debug' c ord' o x' y' Ho Al (or_introl E'))) as (r & Rr & _). eauto. }
  destruct R' as (r' & R').
  destruct Ox as [V|[Al E]]; [destruct Oy as [W|[Al E]]|].
  - pose proof (within_valid x x' V S Ox') as V'. pose proof (within_valid y y' W S2 Oy') as W'.
    eapply wide_of; [apply run2_correct; auto|apply run2_correct; auto| |].
    + intros t (a & b & A & B & Q). exists a, b. split; [apply S, A|split; [apply S2, B|exact Q]].
    + intros z z' Ne Rz Rz'. exact (wide2 o x x' y y' z z' V V' W W' S S2 Ne Rz Rz').
  - eapply wide_empty; eauto. apply run2_empty; auto.
  - eapply wide_empty; eauto. apply run2_empty; auto.
Qed.
Lemma step_ni o (v : T N) (v' : T N') (x : I) (x' : I') r : fval (f := p_T p) v = Fin r -> fval (f := p_T p') v' = Fin r -> ok x -> ok' x' -> within x x' ->
  exists q q', res (run_ni P o v x) q /\ res' (run_ni P' o v' x') q' /\ leW q q'.
Proof.
  intros E F Ox Ox' S. destruct (point_mem p v r E) as [Vv Mv]. destruct (point_mem p' v' r F) as [Vv' Mv'].
  destruct (op2_dec o) as [->|Ho].
  - destruct (wide_hull (mk v v) (mk v' v') x x') as (q & q' & R & R' & L); auto; try (left; assumption); [intros t Ht; apply Mv', Mv, Ht|].
    exists q, q'. split; [|split; [|exact L]]; (eapply res_ext; [|eassumption]); intros s; first [eapply (hull_mixed_eq p k debug c ord); eassumption|eapply (hull_mixed_eq p' k' debug' c ord'); eassumption].
  - assert (Hv : fval (f := p_T p) v <> NaN) by (rewrite E; discriminate).
    assert (Hv' : fval (f := p_T p') v' <> NaN) by (rewrite F; discriminate).
    assert (R' : exists r', res' (run_ni P' o v' x') r').
    { destruct Ox' as [V'|[Al E']]; [eapply correct_res, run_ni_correct; eauto|].
      destruct (gives_res p' c _ (proj2 (run_mixed_empty p' k' debug' c ord' o x' v' Ho Al E' Hv'))) as (q & Rr & _). eauto. }
    destruct R' as (r' & R'). destruct Ox as [V|[Al E']].
    + pose proof (within_valid x x' V S Ox') as V'.
      eapply wide_of; [apply run_ni_correct; eauto|apply run_ni_correct; eauto| |].
      * intros t (a & b & A & B & Q). exists a, b. split; [exact A|split; [apply S, B|exact Q]].
      * intros z z' Ne Rz Rz'. exact (wide_ni o v v' x x' r z z' E F V V' S Ne Rz Rz').
    + eapply wide_empty; eauto. apply run_mixed_empty; auto.
Qed.
Lemma step_in o (v : T N) (v' : T N') (x : I) (x' : I') r : fval (f := p_T p) v = Fin r -> fval (f := p_T p') v' = Fin r -> ok x -> ok' x' -> within x x' ->
  exists q q', res (run_in P o x v) q /\ res' (run_in P' o x' v') q' /\ leW q q'.
Proof.
  intros E F Ox Ox' S. destruct (point_mem p v r E) as [Vv Mv]. destruct (point_mem p' v' r F) as [Vv' Mv'].
  destruct (op2_dec o) as [->|Ho].
  - destruct (wide_hull x x' (mk v v) (mk v' v')) as (q & q' & R & R' & L); auto; try (left; assumption); [intros t Ht; apply Mv', Mv, Ht|].
    exists q, q'. split; [|split; [|exact L]]; (eapply res_ext; [|eassumption]); intros s; first [eapply (hull_mixed_eq p k debug c ord); eassumption|eapply (hull_mixed_eq p' k' debug' c ord'); eassumption].
  - assert (Hv : fval (f := p_T p) v <> NaN) by (rewrite E; discriminate).
    assert (Hv' : fval (f := p_T p') v' <> NaN) by (rewrite F; discriminate).
    assert (R' : exists r', res' (run_in P' o x' v') r').
    { destruct Ox' as [V'|[Al E']]; [eapply correct_res, run_in_correct; eauto|].
      destruct (gives_res p' c _ (proj1 (run_mixed_empty p' k' debug' c ord' o x' v' Ho Al E' Hv'))) as (q & Rr & _). eauto. }
    destruct R' as (r' & R'). destruct Ox as [V|[Al E']].
    + pose proof (within_valid x x' V S Ox') as V'.
      eapply wide_of; [apply run_in_correct; eauto|apply run_in_correct; eauto| |].
      * intros t (a & b & A & B & Q). exists a, b. split; [apply S, A|split; [exact B|exact Q]].
      * intros z z' Ne Rz Rz'. exact (wide_in o v v' x x' r z z' E F V V' S Ne Rz Rz').
    + eapply wide_empty; eauto. apply run_mixed_empty; auto.
Qed.
Lemma step_intersect x x' y y' : ok x -> ok' x' -> ok y -> ok' y' -> within x x' -> within y y' ->
  exists r r', res (intersect P x y) r /\ res' (intersect P' x' y') r' /\ leW r r'.
Proof.
  intros Ox Ox' Oy Oy' S S2.
  assert (R' : exists r', res' (intersect P' x' y') r').
  { destruct Ox' as [V'|[Al E']].
    - destruct Oy' as [W'|[Al E']]; [eapply correct_res, intersect_correct; eauto|].
      destruct (gives_res p' c _ (intersect_empty p' k' debug' c ord' x' y' Al (or_intror E'))) as (r & Rr & _). eauto.
    - destruct (gives_res p' c _ (intersect_empty p' k' debug' c ord' x' y' Al (or_introl E'))) as (r & Rr & _). eauto. }
  destruct R' as (r' & R').
  destruct Ox as [V|[Al E]]; [destruct Oy as [W|[Al E]]|].
  - pose proof (within_valid x x' V S Ox') as V'. pose proof (within_valid y y' W S2 Oy') as W'.
    eapply wide_of; [apply intersect_correct; auto|apply intersect_correct; auto| |].
    + intros t (A & B). split; [apply S, A|apply S2, B].
    + intros z z' Ne Rz Rz'.
      destruct (proj1 (C32_intersect p k debug c ord x y (or_introl V) (or_introl W)) Ne) as (w & Rw & _ & D).
      destruct (proj1 (C32_intersect p' k' debug' c ord' x' y' (or_introl V') (or_introl W'))) as (w' & Rw' & _ & D').
      { destruct Ne as (r & A & B). exists r. split; [apply S, A|apply S2, B]. }
      rewrite (returns_det _ _ _ Rz Rw), (returns_det _ _ _ Rz' Rw'). eapply denotes_within; [exact D|exact D'|].
      intros r [A B]. split; [apply S, A|apply S2, B].
  - eapply wide_empty; eauto. apply intersect_empty; auto.
  - eapply wide_empty; eauto. apply intersect_empty; auto.
Qed.
Lemma step_widen x x' (v : T N) (v' : T N') s : fval (f := p_T p) v = Fin s -> fval (f := p_T p') v' = Fin s -> 0 <= s -> ok x -> ok' x' -> within x x' ->
  exists r r', res (widen P x v) r /\ res' (widen P' x' v') r' /\ leW r r'.
Proof.
  intros E F Hs Ox Ox' S.
  assert (Em' : forall x, allows_empty c = true -> fempty x -> gives_empty c (widen P' x v')).
  { intros w Al Ew. apply (gives_i_empty p' k' debug' c ord'). intros q. unfold widen. rewrite (proj2 (is_empty_iff p' k' debug' c ord' w Al) Ew). reflexivity. }
  assert (Em : forall x, allows_empty c = true -> fempty x -> gives_empty c (widen P x v)).
  { intros w Al Ew. apply (gives_i_empty p k debug c ord). intros q. unfold widen. rewrite (proj2 (is_empty_iff p k debug c ord w Al) Ew). reflexivity. }
  assert (R' : exists r', res' (widen P' x' v') r').
  { destruct Ox' as [V'|[Al E']]; [eapply correct_res, widen_correct; eauto|].
    destruct (gives_res p' c _ (Em' x' Al E')) as (r & Rr & _). eauto. }
  destruct R' as (r' & R'). destruct Ox as [V|[Al Ex]].
  - pose proof (within_valid x x' V S Ox') as V'.
    eapply wide_of; [apply widen_correct; eauto|apply widen_correct; eauto| |].
    + intros t (r & Hr & Q). exists r. split; [apply S, Hr|exact Q].
    + intros z z' Ne Rz Rz'. destruct (C36_widen_tightest p k debug c ord x v s V E Hs) as (w & Rw & _ & D).
      destruct (C36_widen_tightest p' k' debug' c ord' x' v' s V' F Hs) as (w' & Rw' & _ & [D' _]).
      rewrite (returns_det _ _ _ Rz Rw), (returns_det _ _ _ Rz' Rw'). eapply tight_within; [exact D|exact D'|].
      intros t (r & Hr & Q). exists r. split; [apply S, Hr|exact Q].
  - eapply wide_empty; eauto.
Qed.

Lemma res_returns m z : returns m z -> ok z -> res m (Some z).
Proof. intros R O. split; auto. Qed.
(** One unary step. *)
Lemma bind_step m m' (f : I -> M I) (f' : I' -> M I') o o' : res m o -> res' m' o' -> leW o o' ->
  (forall x, ok x -> exists q, res (f x) q) -> (forall x', ok' x' -> exists q, res' (f' x') q) ->
  (forall x x', ok x -> ok' x' -> within x x' -> exists q q', res (f x) q /\ res' (f' x') q' /\ leW q q') ->
  exists q q', res (bind m f) q /\ res' (bind m' f') q' /\ leW q q'.
Proof.
  intros R R' L T T' F.
  destruct (res_bind p c m f o R) as (q & Rq & Q). { intros z ->. apply T, R. }
  destruct (res_bind p' c m' f' o' R') as (q' & Rq' & Q'). { intros z ->. apply T', R'. }
  exists q, q'. split; auto. split; auto.
  destruct o as [z|]; [|subst q; exact Logic.I]. destruct o' as [z'|]; [|contradiction].
  destruct (F z z' (proj2 R) (proj2 R') L) as (w & w' & W & W' & LW).
  rewrite (res_det p c _ _ _ Q W), (res_det p' c _ _ _ Q' W'). exact LW.
Qed.
Lemma bind_step2 b b' m1 m1' m2 m2' (f : I -> I -> M I) (f' : I' -> I' -> M I') o1 o1' o2 o2' :
  res m1 o1 -> res' m1' o1' -> leW o1 o1' -> res m2 o2 -> res' m2' o2' -> leW o2 o2' ->
  (forall x y, ok x -> ok y -> exists q, res (f x y) q) ->
  (forall x y, ok' x -> ok' y -> exists q, res' (f' x y) q) ->
  (forall x x' y y', ok x -> ok' x' -> ok y -> ok' y' -> within x x' -> within y y' ->
     exists q q', res (f x y) q /\ res' (f' x' y') q' /\ leW q q') ->
  exists q q', res (bind (args2 b m1 m2) (fun xy => f (fst xy) (snd xy))) q /\
               res' (bind (args2 b' m1' m2') (fun xy => f' (fst xy) (snd xy))) q' /\ leW q q'.
Proof.
  intros R1 R1' L1 R2 R2' L2 T T' F.
  destruct (res_bind2 p c b m1 m2 f o1 o2 R1 R2) as (q & Rq & Q). { intros x y -> ->. apply T; [apply R1|apply R2]. }
  destruct (res_bind2 p' c b' m1' m2' f' o1' o2' R1' R2') as (q' & Rq' & Q'). { intros x y -> ->. apply T'; [apply R1'|apply R2']. }
  exists q, q'. split; auto. split; auto.
  destruct o1 as [x|]; [|subst q; exact Logic.I]. destruct o2 as [y|]; [|subst q; exact Logic.I].
  destruct o1' as [x'|]; [|contradiction]. destruct o2' as [y'|]; [|contradiction].
  destruct (F x x' y y' (proj2 R1) (proj2 R1') (proj2 R2) (proj2 R2') L1 L2) as (w & w' & W & W' & LW).
  rewrite (res_det p c _ _ _ Q W), (res_det p' c _ _ _ Q' W'). exact LW.
Qed.
Lemma num_tight (q : platform) kk dd oo (v : T (fnum q)) r : fval (f := p_T q) v = Fin r ->
  exists z, returns (ctor_num (fpol q Save kk dd c oo) v) z /\ fvalid z /\ fdenotes z (point r).
Proof.
  intros E. exists (mk v v). destruct (point_mem q v r E) as [V M]. split; [|split; [exact V|exact M]].
  intros mode. unfold ctor_num, bind. cbn [p_ck fpol]. rewrite Mutate.is_nan_false by (rewrite E; discriminate). reflexivity.
Qed.
Lemma step_nn o (v w : T N) (v' w' : T N') r s :
  fval (f := p_T p) v = Fin r -> fval (f := p_T p) w = Fin s -> fval (f := p_T p') v' = Fin r -> fval (f := p_T p') w' = Fin s ->
  exists q q', res (run_nn P o v w) q /\ res' (run_nn P' o v' w') q' /\ leW q q'.
Proof.
  intros E F E' F'. apply (wide_of _ _ _ _ (run_nn_correct p k debug c ord o v w r s E F)
    (run_nn_correct p' k' debug' c ord' o v' w' r s E' F')); auto.
  intros z z' Ne Rz Rz'.
  assert (G : forall S, (exists z, returns (run_nn P o v w) z /\ fvalid z /\ ftightest z S) ->
     (exists z', returns (run_nn P' o v' w') z' /\ fvalid z' /\ ftightest z' S) -> within z z').
  { intros S (y & Ry & _ & Ty) (y' & Ry' & _ & [Ty' _]). rewrite (returns_det _ _ _ Rz Ry), (returns_det _ _ _ Rz' Ry').
    exact (tight_within y y' _ _ Ty Ty' (fun _ H => H)). }
  destruct (C52_number_functions_tightest p k debug c ord v w r s E F) as (A & B & C & D & _).
  destruct (C52_number_functions_tightest p' k' debug' c ord' v' w' r s E' F') as (A' & B' & C' & D' & _).
  destruct o; cbn [run_nn op_of] in *; eauto.
  - destruct Ne as (t & Ns & _). eauto.
  - destruct (C32_hull_numbers p k debug c ord v w r s E F) as (y & Ry & Ty).
    destruct (C32_hull_numbers p' k' debug' c ord' v' w' r s E' F') as (y' & Ry' & Ty').
    rewrite (returns_det _ _ _ Rz Ry), (returns_det _ _ _ Rz' Ry'). exact (denotes_within y y' _ _ Ty Ty' (fun _ H => H)).
Qed.

Lemma eval_wide (cv : T N' -> T N) (Hcv : forall v, fval (f := p_T p) (cv v) = fval (f := p_T p') v)
  eo eo' (env : nat -> I) (env' : nat -> I') : (forall n, ok (env n)) -> (forall n, ok' (env' n)) ->
  (forall n, within (env n) (env' n)) ->
  forall e : expr N', proper (N := N') fval e ->
  exists o o', res (eval P eo env (retype cv e)) o /\ res' (eval P' eo' env' e) o' /\ leW o o'.
Proof.
  intros Oe Oe' Se.
  assert (T1 : forall o x, ok x -> match o with U_pow n => (int_min < n <= int_max)%Z | _ => True end -> exists q, res (run1 P o x) q).
  { intros o x Ox Ho. destruct (iso1 p k debug c ord o x x) as (q & _ & Q & _); eauto. intros r Hr; exact Hr. }
  assert (T1' : forall o x, ok' x -> match o with U_pow n => (int_min < n <= int_max)%Z | _ => True end -> exists q, res' (run1 P' o x) q).
  { intros o x Ox Ho. destruct (iso1 p' k' debug' c ord' o x x) as (q & _ & Q & _); eauto. intros r Hr; exact Hr. }
  induction e as [n|v|o e IH|o e1 IH1 e2 IH2|o e IH v|o v e IH|o v w|e1 IH1 e2 IH2|e IH v];
    intros W; cbn [eval retype]; simpl in W.
  - exists (Some (env n)), (Some (env' n)). split; [split; [intros s; reflexivity|apply Oe]|].
    split; [split; [intros s; reflexivity|apply Oe']|]. apply Se.
  - destruct W as (r & E). assert (E0 : fval (f := p_T p) (cv v) = Fin r) by (rewrite Hcv; exact E).
    destruct (num_tight p k debug ord (cv v) r E0) as (z & R & V & D).
    destruct (num_tight p' k' debug' ord' v r E) as (z' & R' & V' & D').
    exists (Some z), (Some z'). split; [split; [exact R|left; exact V]|]. split; [split; [exact R'|left; exact V']|].
    exact (denotes_within z z' _ _ D D' (fun _ H => H)).
  - destruct W as (Wo & We), (IH We) as (q & q' & R & R' & L). eapply bind_step; eauto. intros. apply step1; auto.
  - destruct W as (W1 & W2), (IH1 W1) as (q1 & q1' & R1 & R1' & L1), (IH2 W2) as (q2 & q2' & R2 & R2' & L2).
    eapply bind_step2; eauto; [| |intros; apply step2; auto].
    + intros x y Ox Oy. destruct (iso2 p k debug c ord o x x y y) as (q & _ & Q & _); eauto; intros r Hr; exact Hr.
    + intros x y Ox Oy. destruct (iso2 p' k' debug' c ord' o x x y y) as (q & _ & Q & _); eauto; intros r Hr; exact Hr.
  - destruct W as (We & r & E), (IH We) as (q & q' & R & R' & L).
    assert (E0 : fval (f := p_T p) (cv v) = Fin r) by (rewrite Hcv; exact E).
    apply (bind_step _ _ (fun x => run_in P o x (cv v)) (fun x => run_in P' o x v) q q' R R' L).
    + intros x Ox. destruct (iso_in p k debug c ord o (cv v) x x r E0 Ox Ox) as (y & _ & Q & _); eauto. intros t Ht; exact Ht.
    + intros x Ox. destruct (iso_in p' k' debug' c ord' o v x x r E Ox Ox) as (y & _ & Q & _); eauto. intros t Ht; exact Ht.
    + intros x x' A B C. exact (step_in o (cv v) v x x' r E0 E A B C).
  - destruct W as (We & r & E), (IH We) as (q & q' & R & R' & L).
    assert (E0 : fval (f := p_T p) (cv v) = Fin r) by (rewrite Hcv; exact E).
    apply (bind_step _ _ (fun x => run_ni P o (cv v) x) (fun x => run_ni P' o v x) q q' R R' L).
    + intros x Ox. destruct (iso_ni p k debug c ord o (cv v) x x r E0 Ox Ox) as (y & _ & Q & _); eauto. intros t Ht; exact Ht.
    + intros x Ox. destruct (iso_ni p' k' debug' c ord' o v x x r E Ox Ox) as (y & _ & Q & _); eauto. intros t Ht; exact Ht.
    + intros x x' A B C. exact (step_ni o (cv v) v x x' r E0 E A B C).
  - destruct W as ((r & E) & (s & F)). apply (step_nn o (cv v) (cv w) v w r s); auto; rewrite Hcv; auto.
  - destruct W as (W1 & W2), (IH1 W1) as (q1 & q1' & R1 & R1' & L1), (IH2 W2) as (q2 & q2' & R2 & R2' & L2).
    eapply bind_step2; eauto; [| |intros; apply step_intersect; auto].
    + intros x y Ox Oy. destruct (iso_intersect p k debug c ord x x y y) as (q & _ & Q & _); eauto; intros r Hr; exact Hr.
    + intros x y Ox Oy. destruct (iso_intersect p' k' debug' c ord' x x y y) as (q & _ & Q & _); eauto; intros r Hr; exact Hr.
  - destruct W as (We & s & E & Hs), (IH We) as (q & q' & R & R' & L).
    assert (E0 : fval (f := p_T p) (cv v) = Fin s) by (rewrite Hcv; exact E).
    apply (bind_step _ _ (fun x => widen P x (cv v)) (fun x => widen P' x v) q q' R R' L).
    + intros x Ox. destruct (iso_widen p k debug c ord x x (cv v) s E0 Hs Ox Ox) as (y & _ & Q & _); eauto. intros t Ht; exact Ht.
    + intros x Ox. destruct (iso_widen p' k' debug' c ord' x x v s E Hs Ox Ox) as (y & _ & Q & _); eauto. intros t Ht; exact Ht.
    + intros x x' A B C. exact (step_widen x x' (cv v) v s E0 E Hs A B C).
Qed.
End Wide.

(** * Comparisons over a totally ordered base type: the tests on bounds *)

From Coq Require Import ZArith Bool.
From Verif Require Import Outcome Base Checking Interval Utility Spec Compare SpecOrder.

Section Order.
Context (N : num) (H : ordered_type N).
Notation le a b := (n_le N a b = true).

Lemma le_refl a : le a a.
Proof. destruct (oy_total _ H a a); assumption. Qed.
Lemma lt_le a b : n_lt N a b = true -> le a b.
Proof. intros L. apply (oy_lt _ H) in L. destruct (oy_total _ H a b); tauto. Qed.
Lemma lt_true a b : n_lt N a b = true <-> ~ le b a. Proof. apply (oy_lt _ H). Qed.
Lemma lt_false a b : n_lt N a b = false <-> le b a.
Proof.
  rewrite <- not_true_iff_false, lt_true. destruct (n_le N b a) eqn:E; intuition congruence.
Qed.
Lemma eq_true a b : n_eq N a b = true <-> le a b /\ le b a. Proof. apply (oy_eq _ H). Qed.
Lemma ne_true a b : negb (n_eq N a b) = true <-> ~ (le a b /\ le b a).
Proof. rewrite negb_true_iff, <- not_true_iff_false, eq_true. tauto. Qed.
Lemma lt_of_le a b c d : le a b -> n_lt N b c = true -> le c d -> n_lt N a d = true.
Proof.
  intros A B D. apply lt_true. apply lt_true in B. intros F. apply B.
  apply (oy_trans _ H) with d; [exact D|]. apply (oy_trans _ H) with a; assumption.
Qed.

(** The tests of compare/certain.hpp and compare/possible.hpp on bounds. *)
Definition cer_b (o : rel) (l u l' u' : T N) : bool :=
  match o with
  | Lt => n_lt N u l' | Le => n_le N u l' | Gt => n_gt l u' | Ge => n_ge l u'
  | Eq => n_eq N u l' && n_eq N l u' | Ne => n_lt N u l' || n_gt l u'
  end.
Definition pos_b (o : rel) (l u l' u' : T N) : bool :=
  match o with
  | Lt => n_lt N l u' | Le => n_le N l u' | Gt => n_gt u l' | Ge => n_ge u l'
  | Eq => n_le N l u' && n_ge u l' | Ne => n_ne l u' || n_ne u l'
  end.
Definition neg_rel (o : rel) : rel :=
  match o with Lt => Ge | Le => Gt | Gt => Le | Ge => Lt | Eq => Ne | Ne => Eq end.
Lemma holds_neg o a b : ty_holds N (neg_rel o) a b <-> ~ ty_holds N o a b.
Proof.
  destruct o; cbn [neg_rel ty_holds]; rewrite ?lt_true;
    destruct (n_le N b a), (n_le N a b), (n_eq N a b); intuition congruence.
Qed.

Section Bounds.
Context (x y : T N -> Prop) (l u l' u' : T N).
Context (V : le l u) (W : le l' u').
Context (HX : forall a, x a <-> le l a /\ le a u) (HY : forall b, y b <-> le l' b /\ le b u').
Let xl : x l. Proof. apply HX. split; [apply le_refl|exact V]. Qed.
Let xu : x u. Proof. apply HX. split; [exact V|apply le_refl]. Qed.
Let yl : y l'. Proof. apply HY. split; [apply le_refl|exact W]. Qed.
Let yu : y u'. Proof. apply HY. split; [exact W|apply le_refl]. Qed.
Lemma common : le l u' -> le l' u -> exists a, x a /\ y a.
Proof.
  intros A B. destruct (oy_total _ H l l') as [C|C].
  - exists l'. split; [apply HX; split; assumption|exact yl].
  - exists l. split; [exact xl|apply HY; split; assumption].
Qed.
Lemma cer_spec o : cer_b o l u l' u' = true <-> every_pair N o x y.
Proof.
  split.
  - intros E a b Ha Hb. apply HX in Ha. apply HY in Hb. destruct Ha as (A1 & A2), Hb as (B1 & B2).
    destruct o; cbn [cer_b ty_holds] in *; unfold n_gt, n_ge in *.
    + exact (lt_of_le _ _ _ _ A2 E B1).
    + apply (oy_trans _ H) with u; [exact A2|]. apply (oy_trans _ H) with l'; assumption.
    + exact (lt_of_le _ _ _ _ B2 E A1).
    + apply (oy_trans _ H) with u'; [exact B2|]. apply (oy_trans _ H) with l; assumption.
    + apply andb_true_iff in E. destruct E as (E & E'). apply eq_true in E, E'. apply eq_true. split.
      * apply (oy_trans _ H) with u; [exact A2|]. apply (oy_trans _ H) with l'; tauto.
      * apply (oy_trans _ H) with u'; [exact B2|]. apply (oy_trans _ H) with l; tauto.
    + apply not_true_iff_false. intros F. apply eq_true in F. apply orb_true_iff in E. destruct E as [E|E]; apply lt_true in E; apply E.
      * apply (oy_trans _ H) with b; [exact B1|]. apply (oy_trans _ H) with a; tauto.
      * apply (oy_trans _ H) with a; [exact A1|]. apply (oy_trans _ H) with b; tauto.
  - intros E. destruct o; cbn [cer_b]; unfold every_pair in E; cbn [ty_holds] in E; unfold n_gt, n_ge.
    + exact (E u l' xu yl).
    + exact (E u l' xu yl).
    + exact (E l u' xl yu).
    + exact (E l u' xl yu).
    + apply andb_true_iff. split; apply E; assumption.
    + apply orb_true_iff. destruct (n_lt N u l') eqn:E1; [left; reflexivity|]. right. apply not_false_iff_true. intros E2.
      apply lt_false in E1, E2. destruct (common E2 E1) as (a & Ha & Hb). specialize (E a a Ha Hb).
      assert (F : n_eq N a a = true) by (apply eq_true; split; apply le_refl). congruence.
Qed.
Lemma pos_spec o : pos_b o l u l' u' = true <-> a_pair N o x y.
Proof.
  split.
  - destruct o; cbn [pos_b]; unfold n_gt, n_ge, n_ne; intros E.
    + exists l, u'. repeat split; [exact xl|exact yu|exact E].
    + exists l, u'. repeat split; [exact xl|exact yu|exact E].
    + exists u, l'. repeat split; [exact xu|exact yl|exact E].
    + exists u, l'. repeat split; [exact xu|exact yl|exact E].
    + apply andb_true_iff in E. destruct (common (proj1 E) (proj2 E)) as (a & A & B). exists a, a.
      repeat split; [exact A|exact B|]. apply eq_true. split; apply le_refl.
    + apply orb_true_iff in E. destruct E as [E|E]; apply negb_true_iff in E.
      * exists l, u'. repeat split; [exact xl|exact yu|exact E].
      * exists u, l'. repeat split; [exact xu|exact yl|exact E].
  - intros (a & b & Ha & Hb & E). apply not_false_iff_true. intros F.
    assert (K : cer_b (neg_rel o) l u l' u' = true).
    { destruct o; cbn [pos_b neg_rel cer_b] in *; unfold n_gt, n_ge, n_ne in *.
      - apply lt_false in F. exact F.
      - apply lt_true. congruence.
      - apply lt_false in F. exact F.
      - apply lt_true. congruence.
      - apply orb_true_iff. apply andb_false_iff in F. destruct F as [F|F]; [right|left]; apply lt_true; congruence.
      - apply orb_false_iff in F. destruct F as (F1 & F2). apply negb_false_iff in F1, F2. rewrite F1, F2. reflexivity. }
    pose proof (proj1 (cer_spec (neg_rel o)) K a b Ha Hb) as G.
    apply holds_neg in G. exact (G E).
Qed.
Lemma none_spec o : cer_b (neg_rel o) l u l' u' = true <-> ~ a_pair N o x y.
Proof.
  rewrite cer_spec. split.
  - intros E (a & b & Ha & Hb & F). exact (proj1 (holds_neg o a b) (E a b Ha Hb) F).
  - intros E a b Ha Hb. apply holds_neg. intros F. apply E. exists a, b. repeat split; assumption.
Qed.
End Bounds.
End Order.

(** * Comparisons are quantifiers over members *)

From Coq Require Import Reals ZArith Lra Lia Bool.
From Verif Require Import Outcome Base Checking Interval Utility Compare Spec SpecCompare ExtR Sem CoreArith CoreUtil.
Local Open Scope R_scope.

(** ** On bounds *)
Section Bounds.
Context {N : num} (val : T N -> ext).
Notation V := (valid val).
Notation mem := (mem val).

Lemma touch x y : V x -> V y -> xle (val (low y)) (val (up x)) -> exists r s, mem x r /\ mem y s /\ s <= r.
Proof.
  unfold valid, Spec.mem. intros (X & X1 & X2) (Y & Y1 & Y2) L.
  destruct (val (low x)) as [| |a|], (val (up x)) as [| |b|], (val (low y)) as [| |c|], (val (up y)) as [| |d|];
    simpl in *; try tauto; try congruence.
  - exists b, (Rmin b d). repeat split; auto using Rmin_l, Rmin_r; lra.
  - exists b, b. repeat split; auto; lra.
  - exists b, c. repeat split; auto; lra.
  - exists b, c. repeat split; auto; lra.
  - exists d, d. repeat split; auto; lra.
  - exists 0, 0. repeat split; auto; lra.
  - exists c, c. repeat split; auto; lra.
  - exists c, c. repeat split; auto; lra.
  - exists b, (Rmin b d). repeat split; auto using Rmin_l, Rmin_r; lra.
  - exists b, b. repeat split; auto; lra.
  - exists b, c. repeat split; auto; lra.
  - exists b, c. repeat split; auto; lra.
  - exists (Rmax a d), d. repeat split; auto using Rmax_l, Rmax_r; lra.
  - exists a, a. repeat split; auto; lra.
  - exists (Rmax a c), c. repeat split; auto using Rmax_l, Rmax_r; lra.
  - exists (Rmax a c), c. repeat split; auto using Rmax_l, Rmax_r; lra.
Qed.
Lemma touch_lt x y : V x -> V y -> xlt (val (low y)) (val (up x)) -> exists r s, mem x r /\ mem y s /\ s < r.
Proof.
  unfold valid, Spec.mem. intros (X & X1 & X2) (Y & Y1 & Y2) L.
  destruct (val (low x)) as [| |a|], (val (up x)) as [| |b|], (val (low y)) as [| |c|], (val (up y)) as [| |d|];
    simpl in *; try tauto; try congruence.
  - exists b, (Rmin (b - 1) d). repeat split; auto using Rmin_r; try lra. pose proof (Rmin_l (b - 1) d). lra.
  - exists b, (b - 1). repeat split; auto; lra.
  - exists b, c. repeat split; auto; lra.
  - exists b, c. repeat split; auto; lra.
  - exists (d + 1), d. repeat split; auto; lra.
  - exists 1, 0. repeat split; auto; lra.
  - exists (c + 1), c. repeat split; auto; lra.
  - exists (c + 1), c. repeat split; auto; lra.
  - exists b, (Rmin (b - 1) d). repeat split; auto using Rmin_r; try lra. pose proof (Rmin_l (b - 1) d). lra.
  - exists b, (b - 1). repeat split; auto; lra.
  - exists b, c. repeat split; auto; lra.
  - exists b, c. repeat split; auto; lra.
  - exists (Rmax a (d + 1)), d. repeat split; auto using Rmax_l; try lra. pose proof (Rmax_r a (d + 1)). lra.
  - exists a, (a - 1). repeat split; auto; lra.
  - exists (Rmax a (c + 1)), c. repeat split; auto using Rmax_l; try lra. pose proof (Rmax_r a (c + 1)). lra.
  - exists (Rmax a (c + 1)), c. repeat split; auto using Rmax_l; try lra. pose proof (Rmax_r a (c + 1)). lra.
Qed.
Lemma mem_between x a b t : mem x a -> mem x b -> Rmin a b <= t <= Rmax a b -> mem x t.
Proof.
  intros [A1 A2] [B1 B2] [L U]. split.
  - apply (xle_trans _ (Fin (Rmin a b))); [|exact L]. unfold Rmin. destruct (Rle_dec a b); auto.
  - apply (xle_trans _ (Fin (Rmax a b))); [exact U|]. unfold Rmax. destruct (Rle_dec a b); auto.
Qed.
Lemma common x y : V x -> V y -> xle (val (low y)) (val (up x)) -> xle (val (low x)) (val (up y)) ->
  exists t, mem x t /\ mem y t.
Proof.
  intros Hx Hy L1 L2. destruct (touch x y Hx Hy L1) as (r1 & s1 & A1 & B1 & C1).
  destruct (touch y x Hy Hx L2) as (s2 & r2 & B2 & A2 & C2).
  exists (Rmax (Rmin r1 r2) (Rmin s1 s2)).
  split; [apply (mem_between x r1 r2)|apply (mem_between y s1 s2)]; auto;
    unfold Rmin, Rmax; repeat destruct Rle_dec; lra.
Qed.

(** What each operator tests, for "all pairs" and for "some pair". *)
Definition ball (o : rel) (xl xu yl yu : ext) : Prop :=
  match o with
  | Lt => xlt xu yl | Le => xle xu yl | Gt => xlt yu xl | Ge => xle yu xl
  | Eq => xu = yl /\ xl = yu | Ne => xlt xu yl \/ xlt yu xl
  end.
Definition bsome (o : rel) (xl xu yl yu : ext) : Prop :=
  match o with
  | Lt => xlt xl yu | Le => xle xl yu | Gt => xlt yl xu | Ge => xle yl xu
  | Eq => xle xl yu /\ xle yl xu | Ne => xl <> yu \/ xu <> yl
  end.
Definition opposite (o : rel) : rel :=
  match o with Lt => Ge | Le => Gt | Gt => Le | Ge => Lt | Eq => Ne | Ne => Eq end.
Lemma holds_opposite o r s : holds (opposite o) r s <-> ~ holds o r s.
Proof. destruct o; simpl; lra. Qed.
Lemma holds_dec o r s : holds o r s \/ holds (opposite o) r s.
Proof. destruct o; simpl; lra. Qed.
Lemma some_not_all o X Y : some_pair o X Y -> ~ all_pairs (opposite o) X Y.
Proof. intros (r & s & A & B & C) K. specialize (K r s A B). apply holds_opposite in K. auto. Qed.

Lemma ext_eq_dec (a b : ext) : a = b \/ a <> b.
Proof. destruct a as [| |x|], b as [| |y|]; try (left; congruence); try (right; congruence).
  destruct (Req_dec x y); [left|right]; congruence. Qed.
Lemma xlt_or a b : a <> NaN -> b <> NaN -> xlt a b \/ xle b a.
Proof. destruct a, b; simpl; intros; try tauto; try congruence. lra. Qed.
Lemma xle_eq_lt a b : xle a b -> a = b \/ xlt a b.
Proof. destruct a as [| |x|], b as [| |y|]; simpl; try tauto. intros [H|H]; [right; auto|left; congruence]. Qed.

Section Two.
Context (x y : itv N) (Hx : V x) (Hy : V y).
Notation xl := (val (low x)). Notation xu := (val (up x)).
Notation yl := (val (low y)). Notation yu := (val (up y)).
Let nxl : xl <> NaN := valid_low_nn _ _ Hx.
Let nxu : xu <> NaN := valid_up_nn _ _ Hx.
Let nyl : yl <> NaN := valid_low_nn _ _ Hy.
Let nyu : yu <> NaN := valid_up_nn _ _ Hy.

Lemma bound_dec o : ball o xl xu yl yu \/ bsome (opposite o) xl xu yl yu.
Proof.
  destruct o; simpl.
  - apply xlt_or; auto.
  - destruct (xlt_or yl xu nyl nxu); auto.
  - apply xlt_or; auto.
  - destruct (xlt_or xl yu nxl nyu); auto.
  - destruct (ext_eq_dec xu yl), (ext_eq_dec xl yu); auto.
  - destruct (xlt_or xu yl nxu nyl), (xlt_or yu xl nyu nxl); auto.
Qed.
Lemma ball_all o : ball o xl xu yl yu -> all_pairs o (mem x) (mem y).
Proof.
  intros B r s [R1 R2] [S1 S2]. destruct o; simpl in B |- *; cbn [holds].
  - assert (xlt (Fin r) (Fin s)) by (eapply xle_lt_trans; [|eapply xlt_le_trans]; eauto). auto.
  - assert (xle (Fin r) (Fin s)) by (eapply xle_trans; [|eapply xle_trans]; eauto). auto.
  - assert (xlt (Fin s) (Fin r)) by (eapply xle_lt_trans; [|eapply xlt_le_trans]; eauto). auto.
  - assert (xle (Fin s) (Fin r)) by (eapply xle_trans; [|eapply xle_trans]; eauto). simpl in *. lra.
  - destruct B as [B1 B2]. rewrite B1 in R2. rewrite B2 in R1.
    pose proof (xle_trans _ _ _ R2 S1). pose proof (xle_trans _ _ _ S2 R1). simpl in *. lra.
  - destruct B as [B|B].
    + assert (xlt (Fin r) (Fin s)) by (eapply xle_lt_trans; [|eapply xlt_le_trans]; eauto). simpl in *; lra.
    + assert (xlt (Fin s) (Fin r)) by (eapply xle_lt_trans; [|eapply xlt_le_trans]; eauto). simpl in *; lra.
Qed.
Lemma bsome_some o : bsome o xl xu yl yu -> some_pair o (mem x) (mem y).
Proof.
  intros B. destruct o; simpl in B.
  - destruct (touch_lt y x Hy Hx B) as (s & r & A & C & D). exists r, s. simpl. auto.
  - destruct (touch y x Hy Hx B) as (s & r & A & C & D). exists r, s. simpl. auto.
  - destruct (touch_lt x y Hx Hy B) as (r & s & A & C & D). exists r, s. simpl. auto.
  - destruct (touch x y Hx Hy B) as (r & s & A & C & D). exists r, s. simpl. split; [exact A|split; [exact C|lra]].
  - destruct B as [B1 B2]. destruct (common x y Hx Hy B2 B1) as (t & A & C). exists t, t. simpl; auto.
  - assert (K : exists r s, mem x r /\ mem y s /\ r <> s); [|destruct K as (r & s & K); exists r, s; simpl; tauto].
    destruct (xlt_or yl xu nyl nxu) as [L|L].
    { destruct (touch_lt x y Hx Hy L) as (r & s & A & C & D). exists r, s. split; [assumption|split; [assumption|lra]]. }
    destruct (xlt_or xl yu nxl nyu) as [L'|L'].
    { destruct (touch_lt y x Hy Hx L') as (s & r & A & C & D). exists r, s. split; [assumption|split; [assumption|lra]]. }
    exfalso. pose proof (proj1 Hx) as LX. pose proof (proj1 Hy) as LY.
    assert (E1 : xl = yu). { apply xle_antisym; auto. eapply xle_trans; [exact LX|]. eapply xle_trans; eauto. }
    assert (E2 : xu = yl). { apply xle_antisym; auto. eapply xle_trans; [exact LY|]. eapply xle_trans; eauto. }
    tauto.
Qed.
Lemma ball_iff o : ball o xl xu yl yu <-> all_pairs o (mem x) (mem y).
Proof.
  split; [apply ball_all|]. intros A. destruct (bound_dec o) as [B|B]; auto.
  apply bsome_some, some_not_all in B. destruct o; simpl in B; contradiction.
Qed.
Lemma opp_opp o : opposite (opposite o) = o. Proof. destruct o; reflexivity. Qed.
Lemma all_not_some o : ball (opposite o) xl xu yl yu <-> ~ some_pair o (mem x) (mem y).
Proof.
  rewrite ball_iff. split.
  - intros A S. apply (some_not_all _ _ _ S A).
  - intros K r s A B. apply holds_opposite. intros C. apply K. exists r, s; auto.
Qed.
Lemma bsome_iff o : bsome o xl xu yl yu <-> some_pair o (mem x) (mem y).
Proof.
  split; [apply bsome_some|]. intros A. destruct (bound_dec (opposite o)) as [B|B].
  - apply all_not_some in B. contradiction.
  - rewrite opp_opp in B. exact B.
Qed.
End Two.
End Bounds.

(** ** On the Boolean expressions *)
Section Bools.
Context {N : num} {val : T N -> ext} (NS : numspec N val).
Notation V := (valid val).
Notation mem := (mem val).

Lemma eqb_nn a b : val a <> NaN -> n_eq N a b = true <-> val a = val b.
Proof. intros Ha. rewrite (ns_eq _ _ NS). tauto. Qed.
Lemma neb_nn a b : val a <> NaN -> n_ne a b = true <-> val a <> val b.
Proof. intros Ha. unfold n_ne. rewrite <- (eqb_nn a b Ha). destruct (n_eq N a b); simpl; intuition congruence. Qed.

Ltac br := rewrite ?andb_true_iff, ?orb_true_iff; unfold n_gt, n_ge;
  rewrite ?(ns_lt _ _ NS), ?(ns_le _ _ NS); rewrite ?eqb_nn, ?neb_nn by auto.

Section Raw.
Context (xl xu yl yu : T N).
Hypothesis (nxl : val xl <> NaN) (nxu : val xu <> NaN) (nyl : val yl <> NaN) (nyu : val yu <> NaN).
Definition bcer (o : rel) : bool := match o with
  | Lt => n_lt N xu yl | Le => n_le N xu yl | Gt => n_gt xl yu | Ge => n_ge xl yu
  | Eq => n_eq N xu yl && n_eq N xl yu | Ne => n_lt N xu yl || n_gt xl yu end.
Lemma bcer_iff o : bcer o = true <-> ball o (val xl) (val xu) (val yl) (val yu).
Proof. destruct o; simpl; br; tauto. Qed.
End Raw.

Section Two.
Context (x y : itv N) (Hx : V x) (Hy : V y).
Let nxl : val (low x) <> NaN := valid_low_nn _ _ Hx.
Let nxu : val (up x) <> NaN := valid_up_nn _ _ Hx.
Let nyl : val (low y) <> NaN := valid_low_nn _ _ Hy.
Let nyu : val (up y) <> NaN := valid_up_nn _ _ Hy.
Lemma bcer_all o : bcer (low x) (up x) (low y) (up y) o = true <-> all_pairs o (mem x) (mem y).
Proof. rewrite bcer_iff by auto. apply ball_iff; auto. Qed.
Lemma bcer_none o : bcer (low x) (up x) (low y) (up y) (opposite o) = true <-> ~ some_pair o (mem x) (mem y).
Proof. rewrite bcer_iff by auto. apply all_not_some; auto. Qed.
Lemma cer_iff o : cer o x y = true <-> all_pairs o (mem x) (mem y).
Proof.
  rewrite <- (ball_iff val x y Hx Hy). destruct o; simpl; unfold cerlt, cerle, cergt, cerge, cereq, cerne; br; intuition auto.
Qed.
Lemma pos_iff o : pos o x y = true <-> some_pair o (mem x) (mem y).
Proof.
  rewrite <- (bsome_iff val x y Hx Hy). destruct o; simpl; unfold poslt, posle, posgt, posge, poseq, posne; br; intuition auto.
Qed.
(** The expressions of namespace possible. *)
Definition bpos (o : rel) : bool := match o with
  | Lt => n_lt N (low x) (up y) | Le => n_le N (low x) (up y) | Gt => n_gt (up x) (low y) | Ge => n_ge (up x) (low y)
  | Eq => n_le N (low x) (up y) && n_ge (up x) (low y) | Ne => n_ne (low x) (up y) || n_ne (up x) (low y) end.
Lemma bpos_iff o : bpos o = true <-> some_pair o (mem x) (mem y).
Proof. rewrite <- (bsome_iff val x y Hx Hy). destruct o; simpl; br; intuition auto. Qed.
End Two.

(** Numbers as singletons. *)
Section Num.
Context (x : itv N) (Hx : V x) (v : T N) (c : R) (Ev : val v = Fin c).
Lemma vnn : val v <> NaN. Proof. rewrite Ev. discriminate. Qed.
Lemma pvalid : V (mk v v).
Proof. unfold valid. cbn [low up]. rewrite Ev. simpl. split; [lra|split; discriminate]. Qed.
Lemma pmem r : mem (mk v v) r <-> point c r.
Proof. unfold Spec.mem, point. cbn [low up]. rewrite Ev. simpl. lra. Qed.
Lemma all_point_r o X : all_pairs o X (mem (mk v v)) <-> all_pairs o X (point c).
Proof. split; intros H r s A B; apply H; auto; apply pmem; auto. Qed.
Lemma some_point_r o X : some_pair o X (mem (mk v v)) <-> some_pair o X (point c).
Proof. split; intros (r & s & A & B & C); exists r, s; repeat split; auto; apply pmem; auto. Qed.
Lemma all_point_l o X : all_pairs o (mem (mk v v)) X <-> all_pairs o (point c) X.
Proof. split; intros H r s A B; apply H; auto; apply pmem; auto. Qed.
Lemma some_point_l o X : some_pair o (mem (mk v v)) X <-> some_pair o (point c) X.
Proof. split; intros (r & s & A & B & C); exists r, s; repeat split; auto; apply pmem; auto. Qed.
Let nxl : val (low x) <> NaN := valid_low_nn _ _ Hx.
Let nxu : val (up x) <> NaN := valid_up_nn _ _ Hx.
Let nv : val v <> NaN := vnn.
Lemma cer_in_iff o : cer_in o x v = true <-> all_pairs o (mem x) (point c).
Proof.
  rewrite <- all_point_r, <- (ball_iff val x _ Hx pvalid). cbn [low up].
  destruct o; simpl; unfold cerlt_in, cerle_in, cergt_in, cerge_in, cereq_in, cerne_in; br; intuition auto.
Qed.
Lemma cer_ni_iff o : cer_ni o v x = true <-> all_pairs o (point c) (mem x).
Proof.
  rewrite <- all_point_l, <- (ball_iff val _ x pvalid Hx). cbn [low up].
  destruct o; simpl; unfold cerlt_ni, cerle_ni, cergt_ni, cerge_ni, cereq_ni, cerne_ni; br; intuition auto.
Qed.
Lemma pos_in_iff o : pos_in o x v = true <-> some_pair o (mem x) (point c).
Proof.
  rewrite <- some_point_r, <- (bsome_iff val x _ Hx pvalid). cbn [low up].
  destruct o; simpl; unfold poslt_in, posle_in, posgt_in, posge_in, poseq_in, posne_in; br; intuition auto.
Qed.
Lemma pos_ni_iff o : pos_ni o v x = true <-> some_pair o (point c) (mem x).
Proof.
  rewrite <- some_point_l, <- (bsome_iff val _ x pvalid Hx). cbn [low up].
  destruct o; simpl; unfold poslt_ni, posle_ni, posgt_ni, posge_ni, poseq_ni, posne_ni; br; intuition auto.
Qed.
End Num.

(** An infinite number: the operators are sound. *)
Lemma bcer_inf x v o r : V x -> val v <> NaN -> mem x r ->
  (bcer (low x) (up x) v v o = true -> xholds o (Fin r) (val v)) /\
  (bcer (low x) (up x) v v (opposite o) = true -> ~ xholds o (Fin r) (val v)).
Proof.
  intros Hx Hv [R1 R2].
  pose proof (valid_low_nn _ _ Hx) as nxl. pose proof (valid_up_nn _ _ Hx) as nxu.
  assert (K : forall o, bcer (low x) (up x) v v o = true -> xholds o (Fin r) (val v)).
  { intros o' B. apply (bcer_iff (low x) (up x) v v nxl nxu) in B. destruct o'; cbn [ball xholds] in *.
    - eapply xle_lt_trans; eauto.
    - eapply xle_trans; eauto.
    - eapply xlt_le_trans; eauto.
    - eapply xle_trans; eauto.
    - destruct B as [B1 B2]. rewrite B1 in R2. rewrite B2 in R1. apply xle_antisym; auto.
    - intros E. rewrite <- E in B. destruct B as [B|B]; eapply xlt_nle; eauto. }
  split; [apply K|]. intros B H. apply K in B. destruct o; cbn [opposite xholds] in *.
  - apply (xlt_nle _ _ H B).
  - apply (xlt_nle _ _ B H).
  - apply (xlt_nle _ _ H B).
  - apply (xlt_nle _ _ B H).
  - auto.
  - auto.
Qed.
End Bools.

(** ** The guarded operators in terms of the expressions *)
Section Ops.
Context {N : num} {val : T N -> ext} (NS : numspec N val) (P P2 : policy N) (CS : ckspec val (p_ck P)) (CS2 : ckspec val (p_ck P2)).
Notation V := (valid val).

Lemma test2 x y : V x -> V y -> test_input_2 P P2 x y = false.
Proof.
  intros (A & _) (B & _). unfold test_input_2. rewrite (cs_empty _ _ CS) by auto. rewrite (cs_empty _ _ CS2) by auto. reflexivity.
Qed.
Lemma testn x v : V x -> val v <> NaN -> pureM (test_input_in P x v) false.
Proof.
  intros (A & _) B s. unfold test_input_in, test_input_i. rewrite (cs_empty _ _ CS) by auto. apply (cs_nan _ _ CS); auto.
Qed.
Lemma certain_run o x y : V x -> V y -> forall s, certain P o P2 x y s = (Ok (bcer (low x) (up x) (low y) (up y) o), s).
Proof.
  intros Hx Hy s. destruct o; simpl; unfold certain_lt, certain_le, certain_gt, certain_ge, certain_eq, certain_ne, guarded;
    rewrite test2 by auto; reflexivity.
Qed.
Lemma certainn_run o x v : V x -> val v <> NaN -> forall s, certainn P o x v s = (Ok (bcer (low x) (up x) v v o), s).
Proof.
  intros Hx Hv s. destruct o; simpl; unfold certainn_lt, certainn_le, certainn_gt, certainn_ge, certainn_eq, certainn_ne, guarded_n, bind;
    rewrite testn by auto; reflexivity.
Qed.
Lemma possible_run o x y : V x -> V y -> forall s, possible P o P2 x y s = (Ok (bpos x y o), s).
Proof.
  intros Hx Hy s. destruct o; simpl; unfold possible_lt, possible_le, possible_gt, possible_ge, possible_eq, possible_ne, guarded;
    rewrite test2 by auto; reflexivity.
Qed.
Lemma possiblen_run o x v : V x -> val v <> NaN -> forall s, possiblen P o x v s = (Ok (bpos x (mk v v) o), s).
Proof.
  intros Hx Hv s. destruct o; simpl; unfold possiblen_lt, possiblen_le, possiblen_gt, possiblen_ge, possiblen_eq, possiblen_ne, guarded_n, bind;
    rewrite testn by auto; reflexivity.
Qed.
Definition btri (xl xu yl yu : T N) (o : rel) : tri :=
  if bcer xl xu yl yu o then TTrue else if bcer xl xu yl yu (opposite o) then TFalse else TIndeterminate.
Lemma tribool_run o x y : V x -> V y -> forall s, tribool P o P2 x y s = (Ok (btri (low x) (up x) (low y) (up y) o), s).
Proof.
  intros Hx Hy s. destruct o; simpl; unfold tribool_lt, tribool_le, tribool_gt, tribool_ge, tribool_eq, tribool_ne, guarded;
    rewrite test2 by auto; reflexivity.
Qed.
Lemma tribooln_run o x v : V x -> val v <> NaN -> forall s, tribooln P o x v s = (Ok (btri (low x) (up x) v v o), s).
Proof.
  intros Hx Hv s. destruct o; simpl; unfold tribooln_lt, tribooln_le, tribooln_gt, tribooln_ge, tribooln_eq, tribooln_ne, guarded_n, bind;
    rewrite testn by auto; reflexivity.
Qed.
Definition bdef (xl xu yl yu : T N) (o : rel) : M bool :=
  if bcer xl xu yl yu o then ret true else if bcer xl xu yl yu (opposite o) then ret false else cerr.
Lemma def_run o x y : V x -> V y -> forall s, def_cmp P o P2 x y s = bdef (low x) (up x) (low y) (up y) o s.
Proof.
  intros (Hx & _) (Hy & _) s. unfold bdef. destruct o; simpl; unfold cmp_lt, cmp_le, cmp_gt, cmp_ge, cmp_eq, cmp_ne, interval_holder, test_input_i, bind;
    rewrite (cs_empty _ _ CS2), (cs_empty _ _ CS) by auto; reflexivity.
Qed.
Lemma defn_run o x v : V x -> val v <> NaN -> forall s, def_cmpn P o x v s = bdef (low x) (up x) v v o s.
Proof.
  intros (Hx & _) Hv s. unfold bdef. destruct o; simpl; unfold cmpn_lt, cmpn_le, cmpn_gt, cmpn_ge, cmpn_eq, cmpn_ne, number_holder, test_input_i, bind;
    rewrite (cs_nan _ _ CS) by auto; unfold ret; rewrite (cs_empty _ _ CS) by auto; reflexivity.
Qed.
End Ops.

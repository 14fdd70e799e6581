(** * The functions find_zeros of examples/findroot_demo.cpp *)

From Coq Require Import Reals ZArith Lra Lia Bool List Psatz Classical.
From Flocq Require Import Core BinarySingleNaN.
From Verif Require Import Outcome Base Checking Interval Utility Arith Arith2 FloatNum Spec ExtR Sem
  CoreArith CoreDiv CoreMore CoreFun CoreUtil CoreFmod FloatSpec FloatPol FloatMed Inst ExNewton NewtonProof ExFindroot.
Import ListNotations.
Local Open Scope R_scope.

#[local] Instance valid_exp_f (f : fmt) : Valid_exp (fexpf f).
Proof. apply FLT_exp_valid. apply fmt_prec_gt_0. Qed.

(** ** The loops *)
Definition cost (n : nat) : nat := (2 ^ (n + 1) - 1)%nat.
Definition total (ns : list nat) : nat := list_sum (map cost ns).
Lemma total_app a b : total (a ++ b) = (total a + total b)%nat.
Proof. unfold total. rewrite map_app, list_sum_app. reflexivity. Qed.
Lemma cost_halves n ms : Forall (fun m => (m < n)%nat) ms -> (length ms <= 2)%nat -> (total ms < cost n)%nat.
Proof.
  assert (E : forall m, (m < n)%nat -> (2 * cost m < cost n)%nat).
  { intros m L. unfold cost. pose proof (Nat.pow_nonzero 2 (m + 1)).
    assert (2 ^ (m + 2) <= 2 ^ (n + 1))%nat by (apply Nat.pow_le_mono_r; lia).
    replace (m + 2)%nat with (S (m + 1)) in H0 by lia. rewrite Nat.pow_succ_r' in H0. lia. }
  assert (Z : (0 < cost n)%nat).
  { unfold cost. replace (n + 1)%nat with (S n) by lia. rewrite Nat.pow_succ_r'. pose proof (Nat.pow_nonzero 2 n). lia. }
  intros F L. destruct F as [|a ms La F]; [cbn; exact Z|]. destruct F as [|b ms Lb F].
  - unfold total. cbn. pose proof (E a La). lia.
  - destruct ms as [|? ?]; [|cbn in L; lia]. unfold total. cbn. pose proof (E a La). pose proof (E b Lb). lia.
Qed.

Section Loop.
Context {A B Pt : Type} (step : A -> M (list A * list B)).
(** [inv n a]: at most [cost n] iterations are needed by [a].  [ina], [inb]:
    points of a worklist element, of a printed element; [Z]: the points that must
    not be lost. *)
Context (inv : nat -> A -> Prop) (ina : A -> Pt -> Prop) (inb : B -> Pt -> Prop) (Z : Pt -> Prop) (okb : B -> Prop).
Definition covered (la : list A) (lb : list B) (pt : Pt) : Prop :=
  Exists (fun a => ina a pt) la \/ Exists (fun b => inb b pt) lb.
Definition step_ok : Prop := forall n a, inv n a -> exists lr ms, returns (step a) lr /\
  Forall2 inv ms (fst lr) /\ Forall (fun m => (m < n)%nat) ms /\ (length ms <= 2)%nat /\
  Forall okb (snd lr) /\ forall pt, ina a pt -> Z pt -> covered (fst lr) (snd lr) pt.

Lemma find_loop_ok : step_ok -> forall t ns l out, (total ns <= t)%nat -> Forall2 inv ns l -> Forall okb out ->
  exists res, (forall fuel, (t < fuel)%nat -> returns (find_loop step fuel l out) res) /\ Forall okb res /\
    forall pt, Z pt -> covered l out pt -> Exists (fun b => inb b pt) res.
Proof.
  intros ST t. induction t as [t IH] using lt_wf_ind. intros ns l out T F O.
  destruct F as [|n a ns l Ia F].
  - exists out. split; [|split; [exact O|]].
    + intros [|fuel] L; [lia|]. intros s. reflexivity.
    + intros pt _ [E|E]; [inversion E|exact E].
  - destruct (ST n a Ia) as (lr & ms & Rn & F' & Ls & L2 & Ok & Cov).
    pose proof (cost_halves n ms Ls L2) as C.
    assert (TT : total (n :: ns) = (cost n + total ns)%nat) by reflexivity.
    destruct (IH (t - 1)%nat ltac:(lia) (ns ++ ms) (l ++ fst lr) (out ++ snd lr)) as (res & K1 & K2 & K3).
    { rewrite total_app. lia. }
    { apply Forall2_app; assumption. }
    { apply Forall_app; split; assumption. }
    exists res. split; [|split; [exact K2|]].
    + intros [|fuel] L; [lia|]. intros s. cbn [find_loop]. unfold bind. rewrite (Rn s). apply K1. lia.
    + intros pt Hz Hc. apply K3; [exact Hz|].
      assert (M : Exists (fun b => ina b pt) l \/ Exists (fun b => inb b pt) out \/ ina a pt).
      { destruct Hc as [E|E]; [|auto]. inversion E; auto. }
      destruct M as [E|[E|E]].
      * left. apply Exists_app. auto.
      * right. apply Exists_app. auto.
      * destruct (Cov pt E Hz) as [Q|Q]; [left|right]; apply Exists_app; auto.
Qed.
End Loop.

(** The counter does not overflow in a loop that ends early enough. *)
Lemma count_find {A B} (step : A -> M (list A * list B)) : forall fuel i l out,
  (i + Z.of_nat fuel <= int_max)%Z ->
  count_loop step fuel i l out = find_loop step fuel l out.
Proof.
  induction fuel as [|fuel IH]; intros i l out L; [reflexivity|]. cbn [count_loop find_loop]. destruct l as [|a l]; [reflexivity|].
  apply FunctionalExtensionality.functional_extensionality. intros s. unfold bind. destruct (step a s) as [[lr|e| | |] s']; try reflexivity.
  rewrite (proj2 (Z.eqb_neq i int_max)) by (unfold int_max in *; lia). rewrite IH by lia. reflexivity.
Qed.
Lemma count_more {A B} (step : A -> M (list A * list B)) : forall fuel i l out res s s',
  count_loop step fuel i l out s = (Ok res, s') -> forall fuel', (fuel <= fuel')%nat ->
  count_loop step fuel' i l out s = (Ok res, s').
Proof.
  induction fuel as [|fuel IH]; intros i l out res s s' E [|fuel'] L; try lia; [discriminate E|discriminate E|].
  cbn [count_loop] in *. destruct l as [|a l]; [exact E|]. unfold bind in *.
  destruct (step a s) as [[lr|e| | |] s1]; try discriminate E.
  destruct (i =? int_max)%Z; [exact E|]. apply (IH _ _ _ _ _ _ E). lia.
Qed.

Section Findroot.
Context (p : platform) (k : rkind) (debug : bool) (c : ckind) (ord : site -> bool).
Context (EP : prec (p_T p) = 53%Z) (EE : emax (p_T p) = 1024%Z).
Notation N := (fnum p).
Notation P := (fpol p Save k debug c ord).
Notation I := (itv N).
Notation H := (fpolspec p Save k debug c ord).
Notation fv := (@fval (p_T p)).
Notation V := (valid (N := N) fv).
Notation mem := (mem (N := N) fv).
Notation wd := (wd p).
Notation box := (box p).
Notation sub := (sub p).

Lemma width_returns (x : I) : V x -> returns (width P x) (wd x).
Proof.
  intros Hx. unfold width. rewrite (test_valid H) by exact Hx.
  apply (with_rnd_runs P (fready k) H). intros s Hs. exists RUP. split; [apply ready_up; reflexivity|].
  cbn [p_ar fpol]. destruct k; cbn in Hs; subst; reflexivity.
Qed.

(** The midpoint of numbers bounded by 2^e: near the middle. *)
Lemma mid_near e x l u : box x l u -> (0 <= e <= 1022)%Z -> l < u -> Rabs l <= bpow radix2 e -> Rabs u <= bpow radix2 e ->
  exists m, fv (midpt p (low x) (up x)) = Fin m /\ l <= m <= u /\ Rabs (m - (l + u) / 2) <= bpow radix2 (e - 53).
Proof.
  intros (E1 & E2 & C & D & E) He LU Bl Bu. apply fval_fin_iff in E1, E2. destruct E1 as [F1 E1], E2 as [F2 E2].
  pose proof (bigsum p EP EE l u D E) as NO.
  destruct (midpt_inside p (low x) (up x)) as (F & I1 & EM); try assumption; rewrite ?E1, ?E2; auto.
  rewrite E1, E2 in *. set (m := B2R (midpt p (low x) (up x))) in *. exists m.
  split; [apply fval_fin_iff; auto|]. split; [exact I1|].
  assert (AM : Rabs ((l + u) / 2) < bpow radix2 e).
  { apply Rabs_le_inv in Bl, Bu. apply Rabs_lt. lra. }
  assert (ER : forall md, Rabs (rnd (p_T p) md ((l + u) / 2) - (l + u) / 2) <= bpow radix2 (e - 53)).
  { intros md. eapply Rle_trans; [apply error_le_ulp; [apply valid_exp_f|apply valid_rnd_round_mode]|].
    destruct (Req_dec ((l + u) / 2) 0) as [Z0|NZ].
    - rewrite Z0. change (fexpf (p_T p)) with (FLT_exp (SpecFloat.emin (prec (p_T p)) (emax (p_T p))) (prec (p_T p))).
      rewrite ulp_FLT_0 by apply fmt_prec_gt_0. apply bpow_le. unfold SpecFloat.emin. rewrite EP, EE. lia.
    - rewrite ulp_neq_0 by exact NZ. apply bpow_le. unfold cexp, SpecFloat.fexp, SpecFloat.emin. rewrite EP, EE.
      pose proof (mag_le_bpow radix2 _ e NZ AM). lia. }
  pose proof (ER mode_DN) as R1. pose proof (ER mode_UP) as R2. apply Rabs_le_inv in R1, R2.
  set (f1 := rnd (p_T p) mode_DN ((l + u) / 2)) in *. set (f2 := rnd (p_T p) mode_UP ((l + u) / 2)) in *.
  assert (G1 : generic_format radix2 (fexpf (p_T p)) f1) by (apply generic_format_round; [apply valid_exp_f|apply valid_rnd_round_mode]).
  assert (G2 : generic_format radix2 (fexpf (p_T p)) f2) by (apply generic_format_round; [apply valid_exp_f|apply valid_rnd_round_mode]).
  assert (L1 : f1 <= (l + u) / 2) by (apply (round_DN_pt radix2 (fexpf (p_T p)))).
  assert (L2 : (l + u) / 2 <= f2) by (apply (round_UP_pt radix2 (fexpf (p_T p)))).
  assert (M1 : f1 <= m).
  { rewrite EM. rewrite <- (rnd_gen (p_T p) mode_NE f1 G1). apply rnd_le.
    rewrite <- (rnd_gen (p_X p) mode_NE f1) by (apply format_TX; exact G1). apply rnd_le.
    assert (2 * f1 <= rnd (p_X p) mode_NE (l + u)); [|lra].
    rewrite <- (rnd_gen (p_X p) mode_NE (2 * f1)) by (apply gen_double, format_TX; exact G1). apply rnd_le. lra. }
  assert (M2 : m <= f2).
  { rewrite EM. rewrite <- (rnd_gen (p_T p) mode_NE f2 G2). apply rnd_le.
    rewrite <- (rnd_gen (p_X p) mode_NE f2) by (apply format_TX; exact G2). apply rnd_le.
    assert (rnd (p_X p) mode_NE (l + u) <= 2 * f2); [|lra].
    rewrite <- (rnd_gen (p_X p) mode_NE (2 * f2)) by (apply gen_double, format_TX; exact G2). apply rnd_le. lra. }
  apply Rabs_le. lra.
Qed.

(** Both halves of an interval. *)
Definition halves_of (x h1 h2 : I) (l m u : R) : Prop :=
  returns (bisect P x) (h1, h2) /\ box h1 l m /\ box h2 m u.
Lemma bisect_box e x l u : box x l u -> (0 <= e <= 1022)%Z -> l < u -> Rabs l <= bpow radix2 e -> Rabs u <= bpow radix2 e ->
  exists h1 h2 m, halves_of x h1 h2 l m u /\ Rabs (m - (l + u) / 2) <= bpow radix2 (e - 53).
Proof.
  intros Bx He LU Bl Bu. destruct (mid_near e x l u Bx He LU Bl Bu) as (m & Em & Im & Nm).
  exists (mk (low x) (midpt p (low x) (up x) : T N)), (mk (midpt p (low x) (up x) : T N) (up x)), m. split; [|exact Nm].
  pose proof (box_valid p _ _ _ Bx) as Hx. destruct Bx as (E1 & E2 & C & D & E).
  assert (Dm : Rabs m <= bpow radix2 1022) by (apply Rabs_le_inv in D, E; apply Rabs_le; lra).
  split; [|split].
  - exact (bisect_runs p Save k debug c ord x (proj1 Hx)).
  - repeat split; cbn [low up]; auto; lra.
  - repeat split; cbn [low up]; auto; lra.
Qed.

(** A width that is not below a limit: the interval is not narrow. *)
Lemma wd_limit (lim : T N) (t : T N) b x l u : box x l u -> fv t = Fin b -> xlt (fv t) (fv lim) ->
  n_lt N (wd x) lim = false -> b < u - l.
Proof.
  intros Bx Et Lt E. destruct (Rle_or_lt (u - l) b) as [Q|Q]; [exfalso|exact Q].
  pose proof (box_valid p _ _ _ Bx) as Hx. destruct (wd_ru p x Hx) as [_ K].
  destruct Bx as (E1 & E2 & _). rewrite E1, E2 in K. unfold xsub in K. cbn [xopp xadd] in K.
  assert (L : xle (fv (wd x)) (fv t)) by (apply K; rewrite Et; cbn [xle]; lra).
  assert (n_lt N (wd x) lim = true); [|congruence].
  apply (ns_lt _ _ (fnumspec p)). eapply xle_lt_trans; eauto.
Qed.
Lemma wd_below (lim : T N) b x : V x -> fv lim = Fin b -> n_lt N (wd x) lim = true ->
  exists l u, fv (low x) = Fin l /\ fv (up x) = Fin u /\ u - l < b.
Proof.
  intros Hx El E. apply (ns_lt _ _ (fnumspec p)) in E. rewrite El in E.
  destruct (wd_ru p x Hx) as [A _]. destruct Hx as (X1 & X2 & X3). pose proof (xle_lt_trans _ _ _ A E) as K.
  unfold xsub in K. destruct (fv (low x)) as [| |l|], (fv (up x)) as [| |u|]; simpl in *; try tauto.
  exists l, u. split; [reflexivity|]. split; [reflexivity|]. lra.
Qed.

(** ** One variable *)
Definition rw : R := 4722366482869645 * bpow radix2 (-72).
Lemma rw_val : fv root_width = Fin rw.
Proof. apply (literal_val p EP EE 4722366482869645 (-72)); lia. Qed.
Lemma rw_gt : bpow radix2 (-20) < rw.
Proof.
  unfold rw. replace (-20)%Z with (52 + -72)%Z by lia. rewrite bpow_plus. apply Rmult_lt_compat_r; [apply bpow_gt_0|].
  change (IZR 4503599627370496 < 4722366482869645). apply IZR_lt. lia.
Qed.

(** [v] is returned for [x] and contains every value that the relation [F] allows. *)
Definition values (xs : I) (f : I -> M I) (F : R -> R -> Prop) : Prop := forall x, V x -> sub x xs ->
  exists v, returns (f x) v /\ forall r t, mem x r -> F r t -> mem v t.

Section One.
Context (xs : I) (f : I -> M I) (F : R -> R -> Prop) (HF : values xs f F).
Definition inv1 (n : nat) (x : I) : Prop := n = size p x /\ V x /\ sub x xs /\
  exists l u, box x l u /\ Rabs l <= bpow radix2 32 /\ Rabs u <= bpow radix2 32.
Definition ok1 (x : I) : Prop := V x /\ sub x xs /\
  (exists l u, fv (low x) = Fin l /\ fv (up x) = Fin u /\ u - l < rw) /\
  exists v, returns (f x) v /\ zero_in P v = true.

Lemma find_step_ok : step_ok (find_step P f) inv1 mem mem (fun r => F r 0) ok1.
Proof.
  intros n x (En & Hx & Sx & l & u & Bx & Bl & Bu). destruct (HF x Hx Sx) as (v & Rv & Ev).
  destruct (zero_in P v) eqn:EZ.
  2:{ exists ([], []), []. split; [|split; [constructor|split; [constructor|split; [cbn; lia|split; [constructor|]]]]].
      - intros s. unfold find_step, bind. rewrite (Rv s), EZ. reflexivity.
      - intros r Mr Fr. specialize (Ev r 0 Mr Fr). exfalso. pose proof (mem_valid _ _ _ Ev) as Vv.
        apply (zero_in_iff H v Vv) in Ev. congruence. }
  destruct (n_lt N (wd x) root_width) eqn:EW.
  - exists ([], [x]), []. split; [|split; [constructor|split; [constructor|split; [cbn; lia|split]]]].
    + intros s. unfold find_step, bind. rewrite (Rv s), EZ, (width_returns x Hx s), EW. reflexivity.
    + constructor; [|constructor]. split; [exact Hx|]. split; [exact Sx|]. split; [exact (wd_below _ _ x Hx rw_val EW)|]. exists v. split; assumption.
    + intros r Mr _. right. constructor. exact Mr.
  - destruct (tp_exists p EP EE (-20)) as (t & Et); [lia|].
    assert (W : bpow radix2 (-20) < u - l).
    { apply (wd_limit root_width t _ x l u Bx Et); [|exact EW]. rewrite Et, rw_val. exact rw_gt. }
    pose proof (bpow_gt_0 radix2 (-20)) as B0.
    destruct (bisect_box 32 x l u Bx ltac:(lia) ltac:(lra) Bl Bu) as (h1 & h2 & m & (Rh & B1 & B2) & Nm).
    assert (E20 : bpow radix2 (-20) = 2 * bpow radix2 (32 - 53)) by (change (bpow radix2 (-20)) with (bpow radix2 (1 + (32 - 53))); rewrite bpow_plus; reflexivity).
    apply Rabs_le_inv in Nm. apply Rabs_le_inv in Bl, Bu.
    assert (IN : forall h a b, box h a b -> l <= a -> b <= u -> (a <> l \/ b <> u) ->
      inv1 (size p h) h /\ (size p h < n)%nat).
    { intros h a b Bh La Lb Ne. pose proof (box_valid p _ _ _ Bh) as Vh.
      assert (Sh : sub h x) by (intros r Mr; apply (box_mem p _ _ _ r Bh) in Mr; apply (box_mem p _ _ _ r Bx); lra).
      split.
      - split; [reflexivity|]. split; [exact Vh|]. split; [intros r Mr; apply Sx, Sh, Mr|]. exists a, b. split; [exact Bh|].
        assert (a <= b) by apply Bh. split; apply Rabs_le; lra.
      - rewrite En. apply (size_lt p h x l u Bx Vh Sh). intros [Q1 Q2].
        destruct Bh as (G1 & G2 & _), Bx as (G3 & G4 & _). rewrite G1, G3 in Q1. rewrite G2, G4 in Q2.
        injection Q1. injection Q2. intros; subst. destruct Ne; lra. }
    destruct (IN h1 l m B1 ltac:(lra) ltac:(lra) ltac:(right; lra)) as (I1 & L1).
    destruct (IN h2 m u B2 ltac:(lra) ltac:(lra) ltac:(left; lra)) as (I2 & L2).
    exists ([h1; h2], []), [size p h1; size p h2]. split; [|split; [|split; [|split; [cbn; lia|split]]]].
    + intros s. unfold find_step, bind. rewrite (Rv s), EZ, (width_returns x Hx s), EW, (Rh s). reflexivity.
    + apply Forall2_cons; [exact I1|]. apply Forall2_cons; [exact I2|]. apply Forall2_nil.
    + apply Forall_cons; [exact L1|]. apply Forall_cons; [exact L2|]. apply Forall_nil.
    + constructor.
    + intros r Mr _. left. apply (box_mem p _ _ _ r Bx) in Mr. destruct (Rle_or_lt r m) as [Q|Q].
      * apply Exists_cons_hd. apply (box_mem p _ _ _ r B1). lra.
      * apply Exists_cons_tl, Exists_cons_hd. apply (box_mem p _ _ _ r B2). lra.
Qed.

Lemma find_zeros_ok l u : fv (low xs) = Fin l -> fv (up xs) = Fin u -> l <= u ->
  Rabs l <= bpow radix2 32 -> Rabs u <= bpow radix2 32 ->
  exists fuel0 res, (forall fuel, (fuel0 <= fuel)%nat -> returns (find_zeros P fuel f xs) res) /\ Forall ok1 res /\
    forall r, F r 0 -> mem xs r -> Exists (fun x => mem x r) res.
Proof.
  intros El Eu LU Bl Bu.
  assert (Bx : box xs l u).
  { repeat split; auto; (eapply Rle_trans; [eassumption|apply bpow_le; lia]). }
  destruct (find_loop_ok (find_step P f) inv1 mem mem (fun r => F r 0) ok1 find_step_ok
    (total [size p xs]) [size p xs] [xs] [] (le_n _)) as (res & K1 & K2 & K3).
  - constructor; [|constructor]. split; [reflexivity|]. split; [exact (box_valid p _ _ _ Bx)|].
    split; [intros r; auto|]. exists l, u. auto.
  - constructor.
  - exists (S (total [size p xs])), res. split; [|split; [exact K2|]].
    + intros fuel L. apply K1. lia.
    + intros r Fr Mr. apply K3; [exact Fr|]. left. constructor. exact Mr.
Qed.
End One.

(** ** Two variables *)
Definition ep : R := 5764607523034235 * bpow radix2 (-60).
Lemma ep_val : fv epsilon = Fin ep.
Proof. apply (literal_val p EP EE 5764607523034235 (-60)); lia. Qed.
(** A number a little below. *)
Definition eb : R := 5764607523034234 * bpow radix2 (-60).
Lemma eb_exists : exists t : T N, fv t = Fin eb.
Proof. exists (literal 5764607523034234 (-60)). apply (literal_val p EP EE 5764607523034234 (-60)); lia. Qed.
Lemma eb_lt : eb < ep.
Proof. unfold eb, ep. apply Rmult_lt_compat_r; [apply bpow_gt_0|]. apply IZR_lt. lia. Qed.

(** Every width reachable in n halvings. *)
Definition sp : R := bpow radix2 (-47).
Definition small (n : nat) (w : R) : Prop := w <= (eb - 2 * sp) * 2 ^ n + 2 * sp.
Lemma small_half n w w' : small (S n) w -> w' <= w / 2 + sp -> small n w'.
Proof. unfold small. intros A B. rewrite <- tech_pow_Rmult in A. lra. Qed.
Lemma small_0 w : small 0 w -> w <= eb.
Proof. unfold small. simpl. lra. Qed.

Definition values2 (rx ry : I) (f : I -> I -> M I) (F : R -> R -> R -> Prop) : Prop := forall x y, V x -> V y -> sub x rx -> sub y ry ->
  exists v, returns (f x y) v /\ forall r s t, mem x r -> mem y s -> F r s t -> mem v t.

Definition tame (x : I) (l u : R) : Prop := box x l u /\ Rabs l <= bpow radix2 6 /\ Rabs u <= bpow radix2 6.
Lemma tame_bisect x l u : tame x l u -> l < u -> exists h1 h2 m, halves_of x h1 h2 l m u /\
  tame h1 l m /\ tame h2 m u /\ m - l <= (u - l) / 2 + sp /\ u - m <= (u - l) / 2 + sp.
Proof.
  intros (Bx & Bl & Bu) LU. destruct (bisect_box 6 x l u Bx ltac:(lia) LU Bl Bu) as (h1 & h2 & m & Hh & Nm).
  exists h1, h2, m. split; [exact Hh|]. destruct Hh as (_ & B1 & B2). change (bpow radix2 (6 - 53)) with sp in Nm.
  apply Rabs_le_inv in Nm. assert (l <= m) by apply B1. assert (m <= u) by apply B2.
  assert (Bm : Rabs m <= bpow radix2 6) by (apply Rabs_le_inv in Bl, Bu; apply Rabs_le; lra).
  split; [split; auto|]. split; [split; auto|]. lra.
Qed.

Section Two.
Context (rx ry : I) (f : I -> I -> M I) (F : R -> R -> R -> Prop) (HF : values2 rx ry f F).
Definition inv2 (n : nat) (q : I * I) : Prop := exists n1 n2 l1 u1 l2 u2, n = (n1 + n2)%nat /\
  tame (fst q) l1 u1 /\ tame (snd q) l2 u2 /\ sub (fst q) rx /\ sub (snd q) ry /\ small n1 (u1 - l1) /\ small n2 (u2 - l2).
Definition in2 (q : I * I) (pt : R * R) : Prop := mem (fst q) (fst pt) /\ mem (snd q) (snd pt).
Definition side1 (b : line (p := p)) : I := mk (l1 b) (u1 b).
Definition side2 (b : line (p := p)) : I := mk (l2 b) (u2 b).
Definition inl (b : line (p := p)) (pt : R * R) : Prop := mem (side1 b) (fst pt) /\ mem (side2 b) (snd pt).
Definition narrow (x : I) : Prop := exists l u, fv (low x) = Fin l /\ fv (up x) = Fin u /\ u - l < ep.
Definition inside (v : T N) (x : I) : Prop := exists r, fv v = Fin r /\ mem x r.
Definition ok2 (b : line (p := p)) : Prop := V (side1 b) /\ sub (side1 b) rx /\ narrow (side1 b) /\ inside (m1 b) (side1 b) /\
  V (side2 b) /\ sub (side2 b) ry /\ narrow (side2 b) /\ inside (m2 b) (side2 b) /\
  exists v, returns (f (side1 b) (side2 b)) v /\ zero_in P v = true.

Lemma median_inside x l u : box x l u -> returns (median P x) (midpt p (low x) (up x) : T N) /\ inside (midpt p (low x) (up x)) x.
Proof.
  intros Bx. pose proof (box_valid p _ _ _ Bx) as Hx. split.
  - exact (median_runs p Save k debug c ord x (proj1 Hx)).
  - destruct (mid_box p EP EE x l u Bx) as (m & Em & Im & _). exists m. split; [exact Em|]. apply (box_mem p _ _ _ m Bx). exact Im.
Qed.
Lemma args2_returns {A B} o (a : M A) (b : M B) x y : returns a x -> returns b y -> returns (args2 o a b) (x, y).
Proof. intros Ra Rb s. unfold args2. destruct o; unfold bind, ret; rewrite ?(Ra s), ?(Rb s), ?(Ra s); reflexivity. Qed.

Lemma both_small_returns q : V (fst q) -> V (snd q) ->
  returns (both_small P q) (n_lt N (wd (fst q)) epsilon && n_lt N (wd (snd q)) epsilon).
Proof.
  intros V1 V2 s. unfold both_small, bind. rewrite (width_returns _ V1 s).
  destruct (n_lt N (wd (fst q)) epsilon); [|reflexivity]. rewrite (width_returns _ V2 s). reflexivity.
Qed.
Lemma not_small n x l u : tame x l u -> small n (u - l) -> n_lt N (wd x) epsilon = false ->
  exists n', n = S n' /\ l < u.
Proof.
  intros (Bx & _) Sn E. destruct eb_exists as (t & Et).
  assert (W : eb < u - l).
  { apply (wd_limit epsilon t _ x l u Bx Et); [|exact E]. rewrite Et, ep_val. exact eb_lt. }
  assert (E0 : 0 < eb) by (unfold eb; apply Rmult_lt_0_compat; [apply IZR_lt; lia|apply bpow_gt_0]).
  destruct n as [|n']; [apply small_0 in Sn; lra|]. exists n'. split; [reflexivity|lra].
Qed.

Lemma find_step2_ok : step_ok (find_step2 P f) inv2 in2 inl (fun pt => F (fst pt) (snd pt) 0) ok2.
Proof.
  intros n [x y] (n1 & n2 & a & b & d & e & En & T1 & T2 & S1 & S2 & W1 & W2). cbn [fst snd] in *.
  pose proof (proj1 T1) as B1. pose proof (proj1 T2) as B2.
  pose proof (box_valid p _ _ _ B1) as V1. pose proof (box_valid p _ _ _ B2) as V2.
  destruct (HF x y V1 V2 S1 S2) as (v & Rv & Ev).
  destruct (zero_in P v) eqn:EZ.
  2:{ exists ([], []), []. split; [|split; [constructor|split; [constructor|split; [cbn; lia|split; [constructor|]]]]].
      - intros s. unfold find_step2, bind. cbn [fst snd]. rewrite (Rv s), EZ. reflexivity.
      - intros [r s] (Mr & Ms) Fr. cbn [fst snd] in *. specialize (Ev r s 0 Mr Ms Fr). exfalso. pose proof (mem_valid _ _ _ Ev) as Vv.
        apply (zero_in_iff H v Vv) in Ev. congruence. }
  pose proof (both_small_returns (x, y) V1 V2) as BS. cbn [fst snd] in BS.
  destruct (n_lt N (wd x) epsilon && n_lt N (wd y) epsilon) eqn:EW.
  - apply andb_prop in EW. destruct EW as [EW1 EW2].
    destruct (median_inside x a b B1) as (Rm1 & Im1). destruct (median_inside y d e B2) as (Rm2 & Im2).
    exists ([], [mk_line (midpt p (low x) (up x) : T N) (midpt p (low y) (up y) : T N) (low x) (up x) (low y) (up y)]), [].
    split; [|split; [constructor|split; [constructor|split; [cbn; lia|split]]]].
    + intros s. unfold find_step2, bind. cbn [fst snd]. rewrite (Rv s), EZ, (BS s).
      rewrite (args2_returns _ _ _ _ _ Rm1 Rm2 s). reflexivity.
    + constructor; [|constructor]. unfold ok2, side1, side2. cbn [l1 u1 l2 u2 m1 m2].
      destruct x as [xl xu], y as [yl yu]. cbn [low up] in *.
      split; [exact V1|]. split; [exact S1|]. split; [exact (wd_below _ _ _ V1 ep_val EW1)|]. split; [exact Im1|].
      split; [exact V2|]. split; [exact S2|]. split; [exact (wd_below _ _ _ V2 ep_val EW2)|]. split; [exact Im2|]. exists v. split; assumption.
    + intros [r s] M _. right. constructor. destruct x, y. exact M.
  - assert (WW : returns (args2 (p_ord P (H_user, 136%Z)) (width P x) (width P y)) (wd x, wd y))
      by (apply args2_returns; apply width_returns; assumption).
    destruct (n_gt (wd x) (wd y)) eqn:EG.
    + (* x is the wider one *)
      assert (NE : n_lt N (wd x) epsilon = false).
      { destruct (n_lt N (wd x) epsilon) eqn:Q; [|reflexivity]. exfalso. cbn [andb] in EW.
        apply (ns_lt _ _ (fnumspec p)) in Q. unfold n_gt in EG. apply (ns_lt _ _ (fnumspec p)) in EG.
        assert (n_lt N (wd y) epsilon = true); [|congruence]. apply (ns_lt _ _ (fnumspec p)). exact (xle_lt_trans _ _ _ (xlt_xle _ _ EG) Q). }
      destruct (not_small n1 x a b T1 W1 NE) as (n' & -> & LU).
      destruct (tame_bisect x a b T1 LU) as (h1 & h2 & m & (Rh & Bh1 & Bh2) & Th1 & Th2 & L1 & L2).
      exists ([(h1, y); (h2, y)], []), [(n' + n2)%nat; (n' + n2)%nat]. split; [|split; [|split; [|split; [cbn; lia|split]]]].
      * intros s. unfold find_step2, bind. cbn [fst snd]. rewrite (Rv s), EZ, (BS s), (WW s). cbn [fst snd]. rewrite EG, (Rh s). reflexivity.
      * assert (a <= m) by apply Bh1. assert (m <= b) by apply Bh2.
        apply Forall2_cons; [|apply Forall2_cons; [|apply Forall2_nil]].
        -- exists n', n2, a, m, d, e. cbn [fst snd]. split; [reflexivity|]. split; [exact Th1|]. split; [exact T2|].
           split; [intros r Mr; apply S1; apply (box_mem p _ _ _ r Bh1) in Mr; apply (box_mem p _ _ _ r B1); lra|].
           split; [exact S2|]. split; [exact (small_half _ _ _ W1 L1)|exact W2].
        -- exists n', n2, m, b, d, e. cbn [fst snd]. split; [reflexivity|]. split; [exact Th2|]. split; [exact T2|].
           split; [intros r Mr; apply S1; apply (box_mem p _ _ _ r Bh2) in Mr; apply (box_mem p _ _ _ r B1); lra|].
           split; [exact S2|]. split; [exact (small_half _ _ _ W1 L2)|exact W2].
      * repeat (apply Forall_cons; [lia|]). apply Forall_nil.
      * constructor.
      * intros [r s] (Mr & Ms) _. cbn [fst snd] in *. left. apply (box_mem p _ _ _ r B1) in Mr. destruct (Rle_or_lt r m) as [Q|Q].
        -- apply Exists_cons_hd. split; [apply (box_mem p _ _ _ r Bh1); cbn; lra|exact Ms].
        -- apply Exists_cons_tl, Exists_cons_hd. split; [apply (box_mem p _ _ _ r Bh2); cbn; lra|exact Ms].
    + assert (NE : n_lt N (wd y) epsilon = false).
      { destruct (n_lt N (wd y) epsilon) eqn:Q; [|reflexivity]. exfalso. rewrite andb_true_r in EW.
        apply (ns_lt _ _ (fnumspec p)) in Q.
        assert (n_lt N (wd x) epsilon = true); [|congruence]. apply (ns_lt _ _ (fnumspec p)). eapply xle_lt_trans; [|exact Q].
        destruct (wd_ru p x V1) as [A1 _]. destruct (wd_ru p y V2) as [A2 _].
        apply xnlt_le; [exact (xle_nnr _ _ A1)|exact (xle_nnr _ _ A2)|].
        intros K. assert (n_gt (wd x) (wd y) = true); [|congruence]. unfold n_gt. apply (ns_lt _ _ (fnumspec p)). exact K. }
      destruct (not_small n2 y d e T2 W2 NE) as (n' & -> & LU).
      destruct (tame_bisect y d e T2 LU) as (h1 & h2 & m & (Rh & Bh1 & Bh2) & Th1 & Th2 & L1 & L2).
      exists ([(x, h1); (x, h2)], []), [(n1 + n')%nat; (n1 + n')%nat]. split; [|split; [|split; [|split; [cbn; lia|split]]]].
      * intros s. unfold find_step2, bind. cbn [fst snd]. rewrite (Rv s), EZ, (BS s), (WW s). cbn [fst snd]. rewrite EG, (Rh s). reflexivity.
      * assert (d <= m) by apply Bh1. assert (m <= e) by apply Bh2.
        apply Forall2_cons; [|apply Forall2_cons; [|apply Forall2_nil]].
        -- exists n1, n', a, b, d, m. cbn [fst snd]. split; [reflexivity|]. split; [exact T1|]. split; [exact Th1|].
           split; [exact S1|].
           split; [intros r Mr; apply S2; apply (box_mem p _ _ _ r Bh1) in Mr; apply (box_mem p _ _ _ r B2); lra|].
           split; [exact W1|exact (small_half _ _ _ W2 L1)].
        -- exists n1, n', a, b, m, e. cbn [fst snd]. split; [reflexivity|]. split; [exact T1|]. split; [exact Th2|].
           split; [exact S1|].
           split; [intros r Mr; apply S2; apply (box_mem p _ _ _ r Bh2) in Mr; apply (box_mem p _ _ _ r B2); lra|].
           split; [exact W1|exact (small_half _ _ _ W2 L2)].
      * repeat (apply Forall_cons; [lia|]). apply Forall_nil.
      * constructor.
      * intros [r s] (Mr & Ms) _. cbn [fst snd] in *. left. apply (box_mem p _ _ _ s B2) in Ms. destruct (Rle_or_lt s m) as [Q|Q].
        -- apply Exists_cons_hd. split; [exact Mr|apply (box_mem p _ _ _ s Bh1); cbn; lra].
        -- apply Exists_cons_tl, Exists_cons_hd. split; [exact Mr|apply (box_mem p _ _ _ s Bh2); cbn; lra].
Qed.

(** Fourteen halvings bring any width up to 80 below the limit. *)
Lemma small_14 w : w <= 80 -> small 14 w.
Proof.
  intros L. unfold small, eb, sp.
  assert (E1 : bpow radix2 (-60) = / IZR (2 ^ 60)) by reflexivity.
  assert (E2 : bpow radix2 (-47) = / IZR (2 ^ 47)) by reflexivity. rewrite E1, E2.
  assert (80 <= (5764607523034234 * / IZR (2 ^ 60) - 2 * / IZR (2 ^ 47)) * 2 ^ 14); [|pose proof (bpow_gt_0 radix2 (-47)) as Q; rewrite E2 in Q; lra].
  simpl. lra.
Qed.
Lemma find_zeros2_ok l1 u1 l2 u2 : fv (low rx) = Fin l1 -> fv (up rx) = Fin u1 -> l1 <= u1 ->
  fv (low ry) = Fin l2 -> fv (up ry) = Fin u2 -> l2 <= u2 ->
  -40 <= l1 -> u1 <= 40 -> -40 <= l2 -> u2 <= 40 ->
  exists fuel0 res, (forall fuel, (fuel0 <= fuel)%nat -> returns (find_zeros2 P fuel f rx ry) res) /\ Forall ok2 res /\
    forall r s, F r s 0 -> mem rx r -> mem ry s -> Exists (fun b => inl b (r, s)) res.
Proof.
  intros El1 Eu1 LU1 El2 Eu2 LU2 A1 A2 A3 A4.
  assert (B6 : 40 <= bpow radix2 6) by (change (bpow radix2 6) with 64; lra).
  assert (TM : forall (x : I) l u, fv (low x) = Fin l -> fv (up x) = Fin u -> l <= u -> -40 <= l -> u <= 40 -> tame x l u).
  { intros x l u E1 E2 LU Q1 Q2. assert (Rabs l <= bpow radix2 6) by (apply Rabs_le; lra).
    assert (Rabs u <= bpow radix2 6) by (apply Rabs_le; lra).
    repeat split; auto; (eapply Rle_trans; [eassumption|apply bpow_le; lia]). }
  destruct (find_loop_ok (find_step2 P f) inv2 in2 inl (fun pt => F (fst pt) (snd pt) 0) ok2 find_step2_ok
    (total [28%nat]) [28%nat] [(rx, ry)] [] (le_n _)) as (res & K1 & K2 & K3).
  - constructor; [|constructor]. exists 14%nat, 14%nat, l1, u1, l2, u2. cbn [fst snd]. split; [reflexivity|].
    split; [apply TM; auto|]. split; [apply TM; auto|]. split; [intros r; auto|]. split; [intros r; auto|].
    split; apply small_14; lra.
  - constructor.
  - assert (NB : (Z.of_nat (S (total [28%nat])) <= int_max - 1)%Z).
    { unfold total, cost. cbn [map list_sum fold_right]. change (28 + 1)%nat with 29%nat.
      rewrite Nat2Z.inj_succ, Nat.add_0_r, Nat2Z.inj_sub by (pose proof (Nat.pow_nonzero 2 29); lia). rewrite Nat2Z.inj_pow.
      change (Z.of_nat 29) with 29%Z. change (Z.of_nat 2) with 2%Z. unfold int_max. lia. }
    exists (S (total [28%nat])), res. split; [|split; [exact K2|]].
    + intros fuel L s. unfold find_zeros2. apply (count_more _ (S (total [28%nat])) 1 _ _ _ s s); [|exact L].
      rewrite count_find by (unfold int_max in *; lia). apply K1. lia.
    + intros r s Fr Mr Ms. apply (K3 (r, s)); [exact Fr|]. left. constructor. split; assumption.
Qed.
End Two.
End Findroot.

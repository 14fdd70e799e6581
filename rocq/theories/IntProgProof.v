(** * Interval programs over machine integers contain the int program *)

From Coq Require Import Reals ZArith Lia Bool Psatz.
From Verif Require Import Outcome Base Checking Interval Utility Arith Arith2 FloatNum Spec ExtR Sem
  Ops ExactNum SpecExact ExactProof IntProof SpecInt SpecUser.
Local Open Scope Z_scope.

(** ** Truncated quotients *)
Lemma quot_mono a b k : 0 < k -> a <= b -> Z.quot a k <= Z.quot b k.
Proof. intros. apply Z.quot_le_mono; lia. Qed.
Lemma quot_opp_r a k : k <> 0 -> Z.quot a (- k) = - Z.quot a k.
Proof. intros. apply Z.quot_opp_r. auto. Qed.
Lemma quot_nonneg a k : 0 <= a -> 0 < k -> 0 <= Z.quot a k.
Proof. intros. apply Z.quot_pos; lia. Qed.
Lemma quot_nonpos a k : a <= 0 -> 0 < k -> Z.quot a k <= 0.
Proof. intros. pose proof (quot_nonneg (- a) k ltac:(lia) ltac:(lia)) as K. rewrite Z.quot_opp_l in K by lia. lia. Qed.
Lemma quot_div_l a j k : 0 <= a -> 0 < j <= k -> Z.quot a k <= Z.quot a j.
Proof. intros. apply Z.quot_le_compat_l; lia. Qed.
Lemma quot_div_l_neg a j k : a <= 0 -> 0 < j <= k -> Z.quot a j <= Z.quot a k.
Proof.
  intros. pose proof (quot_div_l (- a) j k ltac:(lia) ltac:(lia)) as K. rewrite !Z.quot_opp_l in K by lia. lia.
Qed.
(** A positive divisor: the extreme quotients are at corners. *)
Lemma quot_box xl xu yl yu a b : xl <= a <= xu -> 0 < yl -> yl <= b <= yu ->
  (if xu <? 0 then Z.quot xl yl else if xl <? 0 then Z.quot xl yl else Z.quot xl yu) <= Z.quot a b <=
  (if xu <? 0 then Z.quot xu yu else if xl <? 0 then Z.quot xu yl else Z.quot xu yl).
Proof.
  intros Ha Hl Hb.
  pose proof (quot_mono xl a b ltac:(lia) ltac:(lia)). pose proof (quot_mono a xu b ltac:(lia) ltac:(lia)).
  destruct (Z.ltb_spec xu 0).
  - pose proof (quot_div_l_neg xl yl b ltac:(lia) ltac:(lia)). pose proof (quot_div_l_neg xu b yu ltac:(lia) ltac:(lia)). lia.
  - pose proof (quot_div_l xu yl b ltac:(lia) ltac:(lia)). destruct (Z.ltb_spec xl 0).
    + pose proof (quot_div_l_neg xl yl b ltac:(lia) ltac:(lia)). lia.
    + pose proof (quot_div_l xl b yu ltac:(lia) ltac:(lia)). lia.
Qed.
Lemma quot_box_neg xl xu yl yu a b : xl <= a <= xu -> yu < 0 -> yl <= b <= yu ->
  (if xu <? 0 then Z.quot xu yl else if xl <? 0 then Z.quot xu yu else Z.quot xu yu) <= Z.quot a b <=
  (if xu <? 0 then Z.quot xl yu else if xl <? 0 then Z.quot xl yu else Z.quot xl yl).
Proof.
  intros Ha Hl Hb. pose proof (quot_box xl xu (- yu) (- yl) a (- b) Ha ltac:(lia) ltac:(lia)) as K.
  rewrite !Z.quot_opp_r in K by lia. destruct (xu <? 0), (xl <? 0); lia.
Qed.

Section Prog.
Context (debug : bool) (c : ckind) (ord : site -> bool).
Notation N := int_num.
Notation P := (exact_pol N debug c ord).
Notation I := (itv N).

Lemma fits_iff z : in_int z = true <-> fits z.
Proof. apply in_int_iff. Qed.

(** A computation that, when it returns, returns p, which fits. *)
Definition bd (p : Z) (m : M (T N)) : Prop := forall s v s', m s = (Ok v, s') -> v = p /\ fits p.
Lemma ib_bd p m : ib p m -> bd p m.
Proof.
  intros H s v s' E. rewrite H in E. unfold int_res in E. destruct (in_int p) eqn:K; inversion E; subst.
  split; auto. apply fits_iff, K.
Qed.
Lemma bd_add a b : bd (a + b) (add_down (p_ar P) a b). Proof. apply ib_bd, ib_add. Qed.
Lemma bd_add_u a b : bd (a + b) (add_up (p_ar P) a b). Proof. apply bd_add. Qed.
Lemma bd_sub a b : bd (a - b) (sub_down (p_ar P) a b). Proof. apply ib_bd, ib_sub. Qed.
Lemma bd_sub_u a b : bd (a - b) (sub_up (p_ar P) a b). Proof. apply bd_sub. Qed.
Lemma bd_mul a b : bd (a * b) (mul_down (p_ar P) a b). Proof. apply ib_bd, ib_mul. Qed.
Lemma bd_mul_u a b : bd (a * b) (mul_up (p_ar P) a b). Proof. apply bd_mul. Qed.
Lemma bd_neg (a : T N) : bd (- a) (neg a). Proof. apply ib_bd, ib_neg. Qed.
Lemma bd_div a b : b <> 0 -> bd (Z.quot a b) (div_down (p_ar P) a b).
Proof.
  intros Hb. apply ib_bd. intros s. simpl. unfold bind, ex_div, e_div, under_mode; simpl.
  destruct (Z.eqb_spec b 0); [contradiction|]. unfold int_res. destruct (in_int (Z.quot a b)); reflexivity.
Qed.
Lemma bd_div_u a b : b <> 0 -> bd (Z.quot a b) (div_up (p_ar P) a b). Proof. apply bd_div. Qed.

Lemma b_inv {A B} (m : M A) (k : A -> M B) s b s' : bind m k s = (Ok b, s') ->
  exists a s1, m s = (Ok a, s1) /\ k a s1 = (Ok b, s').
Proof. unfold bind. destruct (m s) as [[a| | | |] s1]; try discriminate. eauto. Qed.
Lemma a_inv {A B} o (m1 : M A) (m2 : M B) s p s' : args2 o m1 m2 s = (Ok p, s') ->
  exists s1 s1' s2 s2', m1 s1 = (Ok (fst p), s1') /\ m2 s2 = (Ok (snd p), s2').
Proof.
  unfold args2. destruct o; intros E; apply b_inv in E; destruct E as (a & s1 & E1 & E);
    apply b_inv in E; destruct E as (b & s2 & E2 & E); inversion E; subst; cbn; eauto 6.
Qed.
Lemma mk_inv o (m1 m2 : M (T N)) s z s' : mk_args o m1 m2 s = (Ok z, s') ->
  exists s1 s1' s2 s2', m1 s1 = (Ok (low z), s1') /\ m2 s2 = (Ok (up z), s2').
Proof.
  unfold mk_args. intros E. apply b_inv in E. destruct E as (p & s1 & E1 & E). apply a_inv in E1.
  inversion E. subst. exact E1.
Qed.
Lemma mk_bd o p q (m1 m2 : M (T N)) s z s' : bd p m1 -> bd q m2 -> mk_args o m1 m2 s = (Ok z, s') ->
  low z = p /\ up z = q /\ fits p /\ fits q.
Proof.
  intros H1 H2 E. apply mk_inv in E. destruct E as (s1 & s1' & s2 & s2' & E1 & E2).
  apply H1 in E1. apply H2 in E2. intuition.
Qed.
Lemma no_inf_int s v s' : debug = true -> ck_neg_inf (p_ck P) s = (Ok v, s') \/ ck_pos_inf (p_ck P) s = (Ok v, s') -> False.
Proof. intros -> [E|E]; destruct c; discriminate. Qed.
Lemma mk_inf o (m1 m2 : M (T N)) s z s' : debug = true ->
  (m1 = ck_neg_inf (p_ck P) \/ m2 = ck_pos_inf (p_ck P)) -> mk_args o m1 m2 s = (Ok z, s') -> False.
Proof.
  intros D K E. apply mk_inv in E. destruct E as (s1 & s1' & s2 & s2' & E1 & E2). destruct K as [-> | ->].
  - eapply no_inf_int; eauto.
  - eapply no_inf_int; eauto.
Qed.

(** ** Operands *)
Definition ok2 (z : I) (v : Z) : Prop := i_mem z v /\ int_itv z.
Lemma ok_fits z v : ok2 z v -> fits v.
Proof. unfold ok2, i_mem, int_itv, fits. lia. Qed.
Lemma t1 (x : I) a : i_mem x a -> test_input_i P x = false.
Proof. intros H. apply test1. unfold i_mem in H. lia. Qed.
Lemma t2 (x y : I) a b : i_mem x a -> i_mem y b -> test_input_ii P x y = false.
Proof. intros H K. unfold test_input_ii. rewrite (t1 x a), (t1 y b); auto. Qed.
Lemma nanf v : ck_is_nan (p_ck P) v = ret false.
Proof. destruct c; reflexivity. Qed.
Lemma tn v : test_input_n P v = ret false.
Proof. apply nanf. Qed.
Lemma tni v (x : I) a s : i_mem x a -> test_input_ni P v x s = (Ok false, s).
Proof.
  intros H. unfold test_input_ni. rewrite nanf. unfold bind, ret. rewrite (t1 x a H). reflexivity.
Qed.
Lemma tin v (x : I) a s : i_mem x a -> test_input_in P x v s = (Ok false, s).
Proof. intros H. unfold test_input_in. rewrite (t1 x a H), nanf. reflexivity. Qed.
Lemma tnn v w s : test_input_nn P v w s = (Ok false, s).
Proof. unfold test_input_nn, bind. rewrite !nanf. reflexivity. Qed.
Lemma smax (a b : Z) : std_max (N := N) a b = Z.max a b.
Proof. unfold std_max. simpl. destruct (Z.ltb_spec a b); lia. Qed.
Lemma smin (a b : Z) : std_min (N := N) a b = Z.min a b.
Proof. unfold std_min. simpl. destruct (Z.ltb_spec b a); lia. Qed.
Lemma from_gives (m : M I) S s z s' v : int_gives m S -> m s = (Ok z, s') -> S (IZR v) -> ok2 z v.
Proof.
  intros G E Hv. destruct (G s) as [(w & R & W & D)|[R _]]; rewrite R in E; inversion E; subst.
  split; auto. apply D in Hv. unfold iset in Hv. destruct Hv as [L U]. apply le_IZR in L, U. split; auto.
Qed.
Lemma in_iset (x : I) a : i_mem x a -> iset x (IZR a).
Proof. intros [L U]. apply IZR_le in L, U. split; auto. Qed.
Ltac wr R := unfold with_rnd in R; cbn [p_prot exact_pol] in R.
Lemma isz (a : T N) : is_zero a = (a =? 0). Proof. reflexivity. Qed.
Lemma zin (y : I) b : i_mem y b -> zero_in P y = (low y <=? 0) && (0 <=? up y).
Proof. 
  intros H. unfold zero_in. rewrite (t1 y b H), pos_iff, neg_iff, <- Z.leb_antisym, <- Z.leb_antisym. reflexivity.
Qed.

(** ** Division *)
Ltac dv R := eapply mk_bd in R; [|apply bd_div; lia|apply bd_div_u; lia].
Lemma o_div (x y z : I) a b s s' : debug = true \/ ~ i_mem y 0 -> int_itv x -> int_itv y -> i_mem x a -> i_mem y b -> b <> 0 ->
  op_div P x y s = (Ok z, s') -> ok2 z (Z.quot a b).
Proof.
  intros D Vx Vy Ha Hb Hn R. unfold op_div in R. rewrite (t2 x y a b Ha Hb), (zin y b Hb) in R.
  unfold i_mem in D, Ha, Hb. unfold int_itv in Vx, Vy.
  destruct (Z.leb_spec (low y) 0), (Z.leb_spec 0 (up y)); cbn [andb] in R.
  - destruct D as [D|D]; [|lia]. rewrite !isz in R.
    assert (Z0 : low x = 0 -> up x = 0 -> ok2 x (Z.quot a b)).
    { intros E1 E2. replace a with 0 by lia. rewrite Z.quot_0_l by auto. split; [unfold i_mem|unfold int_itv]; lia. }
    destruct (Z.eqb_spec (low y) 0), (Z.eqb_spec (up y) 0); cbn [negb] in R; [lia|..];
      [unfold div_positive in R|unfold div_negative in R|unfold div_zero in R]; rewrite !isz in R;
      destruct (Z.eqb_spec (low x) 0), (Z.eqb_spec (up x) 0); cbn [andb] in R;
      try (inversion R; subst; apply Z0; assumption); exfalso; wr R; try unfold i_whole in R;
      repeat match type of R with (if ?t then _ else _) _ = _ => destruct t end;
      (eapply mk_inf; [exact D| |exact R]; auto).
  - unfold div_non_zero in R. wr R. cbv zeta in R. rewrite !neg_iff in R.
    replace (up y <? 0) with true in R by (symmetry; apply Z.ltb_lt; lia).
    pose proof (quot_box_neg (low x) (up x) (low y) (up y) a b Ha ltac:(lia) Hb) as K.
    destruct (up x <? 0); [|destruct (low x <? 0)];
      dv R;
      destruct R as (E1 & E2 & F1 & F2); unfold ok2, i_mem, int_itv, fits in *; rewrite E1, E2; lia.
  - unfold div_non_zero in R. wr R. cbv zeta in R. rewrite !neg_iff in R.
    replace (up y <? 0) with false in R by (symmetry; apply Z.ltb_ge; lia).
    pose proof (quot_box (low x) (up x) (low y) (up y) a b Ha ltac:(lia) Hb) as K.
    destruct (up x <? 0); [|destruct (low x <? 0)];
      dv R;
      destruct R as (E1 & E2 & F1 & F2); unfold ok2, i_mem, int_itv, fits in *; rewrite E1, E2; lia.
  - lia.
Qed.

Lemma o_div_ni v (y z : I) b s s' : debug = true -> fits v -> int_itv y -> i_mem y b -> b <> 0 ->
  op_div_ni P v y s = (Ok z, s') -> ok2 z (Z.quot v b).
Proof.
  intros D Fv Vy Hb Hn R. unfold op_div_ni in R. unfold bind in R at 1. rewrite (tni v y b s Hb), (zin y b Hb) in R.
  unfold i_mem in Hb. unfold int_itv in Vy.
  assert (Z0 : v = 0 -> ok2 (mk (N := N) 0 0) (Z.quot v b)).
  { intros ->. rewrite Z.quot_0_l by auto. split; [unfold i_mem|unfold int_itv]; cbn; lia. }
  destruct (Z.leb_spec (low y) 0), (Z.leb_spec 0 (up y)); cbn [andb] in R.
  - rewrite !isz in R.
    destruct (Z.eqb_spec (low y) 0), (Z.eqb_spec (up y) 0); cbn [negb] in R; [lia|..];
      [unfold div_positive_n in R|unfold div_negative_n in R|unfold div_zero_n in R]; rewrite !isz in R;
      destruct (Z.eqb_spec v 0);
      try (inversion R; subst z s'; apply Z0; assumption); exfalso; wr R; try unfold i_whole in R;
      repeat match type of R with (if ?t then _ else _) _ = _ => destruct t end;
      (eapply mk_inf; [exact D| |exact R]; auto).
  - unfold div_non_zero_n in R. wr R. cbv zeta in R. rewrite !neg_iff in R.
    pose proof (quot_box_neg v v (low y) (up y) v b ltac:(lia) ltac:(lia) Hb) as K.
    destruct (v <? 0);
      dv R;
      destruct R as (E1 & E2 & F1 & F2); unfold ok2, i_mem, int_itv, fits in *; rewrite E1, E2; lia.
  - unfold div_non_zero_n in R. wr R. cbv zeta in R. rewrite !neg_iff in R.
    pose proof (quot_box v v (low y) (up y) v b ltac:(lia) ltac:(lia) Hb) as K.
    destruct (v <? 0);
      dv R;
      destruct R as (E1 & E2 & F1 & F2); unfold ok2, i_mem, int_itv, fits in *; rewrite E1, E2; lia.
  - lia.
Qed.
Lemma o_div_in v (x z : I) a s s' : int_itv x -> i_mem x a -> v <> 0 ->
  op_div_in P x v s = (Ok z, s') -> ok2 z (Z.quot a v).
Proof.
  intros Vx Ha Hn R. unfold op_div_in in R. unfold bind in R at 1. rewrite (tin v x a s Ha) in R. rewrite isz in R.
  destruct (Z.eqb_spec v 0); [contradiction|]. cbn [orb] in R. wr R. cbv zeta in R. rewrite neg_iff in R.
  unfold i_mem in Ha. destruct (Z.ltb_spec v 0);
    dv R;
    destruct R as (E1 & E2 & F1 & F2); unfold ok2, i_mem, int_itv, fits in *; rewrite E1, E2.
  - pose proof (quot_mono (low x) a (- v) ltac:(lia) ltac:(lia)) as K1.
    pose proof (quot_mono a (up x) (- v) ltac:(lia) ltac:(lia)) as K2.
    rewrite !Z.quot_opp_r in K1, K2 by lia. lia.
  - pose proof (quot_mono (low x) a v ltac:(lia) ltac:(lia)). pose proof (quot_mono a (up x) v ltac:(lia) ltac:(lia)). lia.
Qed.
Lemma o_inverse (x z : I) a s s' : debug = true -> int_itv x -> i_mem x a -> a <> 0 ->
  multiplicative_inverse P x s = (Ok z, s') -> ok2 z (Z.quot 1 a).
Proof.
  intros D Vx Ha Hn R. unfold multiplicative_inverse in R. rewrite (t1 x a Ha), (zin x a Ha) in R. wr R.
  unfold i_mem in Ha. unfold int_itv in Vx. change (@one N) with 1 in R.
  destruct (Z.leb_spec (low x) 0), (Z.leb_spec 0 (up x)); cbn [andb] in R.
  - rewrite !isz in R. exfalso.
    destruct (Z.eqb_spec (low x) 0), (Z.eqb_spec (up x) 0); cbn [negb] in R; [lia|..]; try unfold i_whole in R;
      (eapply mk_inf; [exact D| |exact R]; auto).
  - pose proof (quot_box_neg 1 1 (low x) (up x) 1 a ltac:(lia) ltac:(lia) Ha) as K. cbn [Z.ltb Z.compare] in K.
    dv R.
    destruct R as (E1 & E2 & F1 & F2); unfold ok2, i_mem, int_itv, fits in *; rewrite E1, E2; lia.
  - pose proof (quot_box 1 1 (low x) (up x) 1 a ltac:(lia) ltac:(lia) Ha) as K. cbn [Z.ltb Z.compare] in K.
    dv R.
    destruct R as (E1 & E2 & F1 & F2); unfold ok2, i_mem, int_itv, fits in *; rewrite E1, E2; lia.
  - lia.
Qed.

(** ** Powers *)
Lemma bd_loop (mul : T N -> T N -> M (T N)) : (forall a b, bd (a * b) (mul a b)) ->
  forall p a b, bd (a ^ (2 * Zpos p) * b) (pow_loop mul a b p).
Proof.
  intros Hm. induction p; intros a b s v s' E; cbn [pow_loop] in E; apply b_inv in E; destruct E as (a' & s1 & E1 & E);
    apply Hm in E1; destruct E1 as [-> F1].
  - apply b_inv in E. destruct E as (b' & s2 & E2 & E). apply Hm in E2. destruct E2 as [-> F2]. apply IHp in E.
    destruct E as [-> F3]. assert (Q : a ^ (2 * Z.pos p~1) * b = (a * a) ^ (2 * Z.pos p) * (a * a * b)).
    { replace (2 * Z.pos p~1) with (2 * (2 * Z.pos p) + 2) by lia. rewrite Z.pow_add_r by lia.
      rewrite (Z.pow_mul_r a 2) by lia. replace (a ^ 2) with (a * a) by ring. ring. }
    rewrite Q. auto.
  - apply IHp in E. destruct E as [-> F3]. assert (Q : a ^ (2 * Z.pos p~0) * b = (a * a) ^ (2 * Z.pos p) * b).
    { replace (2 * Z.pos p~0) with (2 * (2 * Z.pos p)) by lia.
      rewrite (Z.pow_mul_r a 2) by lia. replace (a ^ 2) with (a * a) by ring. ring. }
    rewrite Q. auto.
  - apply Hm in E. destruct E as [-> F3]. change (2 * 1) with 2. rewrite Z.pow_2_r. auto.
Qed.
Lemma bd_aux (mul : T N -> T N -> M (T N)) (a : Z) n : (forall a b, bd (a * b) (mul a b)) -> fits a -> 0 < n ->
  bd (a ^ n) (pow_aux mul a n).
Proof.
  intros Hm Fa Hn. unfold pow_aux.
  assert (D : n = (2 * Z.shiftr n 1 + if Z.odd n then 1 else 0)%Z).
  { rewrite Z.shiftr_div_pow2 by lia. change (2 ^ 1)%Z with 2%Z. rewrite <- Zmod_odd. apply Z.div_mod; lia. }
  destruct (Z.shiftr n 1) as [|p|p].
  - destruct (Z.odd n); [|lia]. intros s v s' E. inversion E. subst v. replace n with 1 by lia. rewrite Z.pow_1_r. auto.
  - pose proof (bd_loop mul Hm p a (if Z.odd n then a else 1)) as K.
    assert (Q : a ^ n = a ^ (2 * Z.pos p) * (if Z.odd n then a else 1)).
    { rewrite D at 1. destruct (Z.odd n); [rewrite Z.pow_add_r by lia; ring|]. rewrite Z.add_0_r. ring. }
    rewrite Q. change (@one N) with 1. exact K.
  - destruct (Z.odd n); lia.
Qed.
Lemma bd_dn a n : fits a -> 0 < n -> bd (a ^ n) (pow_dn P a n).
Proof. apply bd_aux. apply bd_mul. Qed.
Lemma bd_up a n : fits a -> 0 < n -> bd (a ^ n) (pow_up P a n).
Proof. apply bd_aux. apply bd_mul_u. Qed.
Lemma pow_mono_ a b n : 0 <= a <= b -> 0 <= n -> a ^ n <= b ^ n.
Proof. intros. apply Z.pow_le_mono_l. lia. Qed.
Lemma pow_odd_neg a n : Z.odd n = true -> (- a) ^ n = - a ^ n.
Proof. intros H. apply Z.pow_opp_odd. apply Z.odd_spec, H. Qed.
Lemma pow_even_neg a n : Z.odd n = false -> (- a) ^ n = a ^ n.
Proof. intros H. apply Z.pow_opp_even. apply Z.even_spec. rewrite <- Z.negb_odd, H. reflexivity. Qed.
Lemma pow_odd_mono a b n : Z.odd n = true -> 0 < n -> a <= b -> a ^ n <= b ^ n.
Proof.
  intros O Hn L. destruct (Z.le_gt_cases 0 a); [apply pow_mono_; lia|].
  pose proof (pow_odd_neg a n O) as E1. destruct (Z.le_gt_cases 0 b).
  - pose proof (Z.pow_nonneg b n ltac:(lia)). pose proof (Z.pow_nonneg (- a) n ltac:(lia)). lia.
  - pose proof (pow_odd_neg b n O) as E2. pose proof (pow_mono_ (- b) (- a) n ltac:(lia) ltac:(lia)). lia.
Qed.
Lemma o_pow (x z : I) a n s s' : 0 < n -> int_itv x -> i_mem x a -> pow_pos P x n s = (Ok z, s') -> ok2 z (a ^ n).
Proof.
  intros Hn Vx Ha R. unfold pow_pos in R. wr R. unfold i_mem in Ha. unfold int_itv in Vx. rewrite !neg_iff in R.
  destruct (Z.ltb_spec (up x) 0).
  { apply b_inv in R. destruct R as (nu & s1 & E1 & R). apply bd_neg in E1. destruct E1 as [-> G1].
    apply b_inv in R. destruct R as (yl & s2 & E2 & R). apply bd_dn in E2; auto. destruct E2 as [-> G2].
    apply b_inv in R. destruct R as (nl & s3 & E3 & R). apply bd_neg in E3. destruct E3 as [-> G3].
    apply b_inv in R. destruct R as (yu & s4 & E4 & R). apply bd_up in E4; auto. destruct E4 as [-> G4].
    pose proof (pow_mono_ (- up x) (- a) n ltac:(lia) ltac:(lia)). pose proof (pow_mono_ (- a) (- low x) n ltac:(lia) ltac:(lia)).
    destruct (Z.odd n) eqn:O.
    - apply (mk_bd _ _ _ _ _ _ _ _ (bd_neg _) (bd_neg _)) in R. destruct R as (E1 & E2 & F1 & F2).
      pose proof (pow_odd_neg a n O). unfold ok2, i_mem, int_itv, fits in *. rewrite E1, E2. lia.
    - inversion R. subst z s'. pose proof (pow_even_neg a n O). unfold ok2, i_mem, int_itv, fits in *. cbn [low up]. lia. }
  destruct (Z.ltb_spec (low x) 0).
  2:{ eapply mk_bd in R; [|apply bd_dn; [unfold fits; lia|exact Hn]|apply bd_up; [unfold fits; lia|exact Hn]].
      destruct R as (E1 & E2 & F1 & F2).
      pose proof (pow_mono_ (low x) a n ltac:(lia) ltac:(lia)). pose proof (pow_mono_ a (up x) n ltac:(lia) ltac:(lia)).
      unfold ok2, i_mem, int_itv, fits in *. rewrite E1, E2. lia. }
  destruct (Z.odd n) eqn:O.
  - assert (B : bd (- (- low x) ^ n) (let! nl := neg (low x) in let! t := pow_up P nl n in neg t)).
    { intros s0 v s0' E. apply b_inv in E. destruct E as (nl & s1 & E1 & E). apply bd_neg in E1. destruct E1 as [-> G1].
      apply b_inv in E. destruct E as (t & s2 & E2 & E). apply bd_up in E2; auto. destruct E2 as [-> G2].
      apply bd_neg in E. exact E. }
    eapply mk_bd in R; [|exact B|apply bd_up; [unfold fits; lia|exact Hn]]. destruct R as (E1 & E2 & F1 & F2).
    rewrite (pow_odd_neg (low x) n O) in *.
    pose proof (pow_odd_mono (low x) a n O Hn ltac:(lia)). pose proof (pow_odd_mono a (up x) n O Hn ltac:(lia)).
    unfold ok2, i_mem, int_itv, fits in *. rewrite E1, E2. lia.
  - apply b_inv in R. destruct R as (nl & s1 & E1 & R). apply bd_neg in E1. destruct E1 as [-> G1].
    apply b_inv in R. destruct R as (t & s2 & E2 & R). rewrite smax in E2.
    apply bd_up in E2; [|unfold fits in *; lia|auto]. destruct E2 as [-> G2]. inversion R. subst z s'.
    assert (L : a ^ n <= Z.max (- low x) (up x) ^ n /\ 0 <= a ^ n).
    { destruct (Z.le_gt_cases 0 a).
      - pose proof (pow_mono_ a (Z.max (- low x) (up x)) n ltac:(lia) ltac:(lia)). pose proof (Z.pow_nonneg a n ltac:(lia)). lia.
      - pose proof (pow_mono_ (- a) (Z.max (- low x) (up x)) n ltac:(lia) ltac:(lia)).
        pose proof (pow_even_neg a n O). pose proof (Z.pow_nonneg (- a) n ltac:(lia)). lia. }
    unfold ok2, i_mem, int_itv, fits in *. cbn [low up]. change (@zero N) with 0. lia.
Qed.
(** If the last power fits, so do the others. *)
Lemma pow_steps a n k : 0 < k <= n -> fits (a ^ n) -> fits (a ^ k).
Proof.
  intros Hk F. unfold fits in *.
  assert (E : a ^ n = a ^ k * a ^ (n - k)) by (rewrite <- Z.pow_add_r by lia; f_equal; lia).
  destruct (Z.eq_dec k n) as [->|Nk]; [exact F|].
  destruct (Z.eq_dec a 0) as [->|Na]; [rewrite Z.pow_0_l by lia; lia|].
  destruct (Z.eq_dec (Z.abs a) 1) as [A1|A1].
  { assert (Z.abs (a ^ k) = 1) by (rewrite Z.abs_pow, A1; apply Z.pow_1_l; lia). lia. }
  assert (A2 : 2 <= Z.abs a) by lia.
  assert (B : 2 <= Z.abs (a ^ (n - k))).
  { rewrite Z.abs_pow. replace (n - k) with (1 + (n - k - 1)) by lia. rewrite Z.pow_add_r by lia. rewrite Z.pow_1_r.
    pose proof (Z.pow_pos_nonneg (Z.abs a) (n - k - 1) ltac:(lia) ltac:(lia)). nia. }
  assert (Z.abs (a ^ n) = Z.abs (a ^ k) * Z.abs (a ^ (n - k))) by (rewrite E; apply Z.abs_mul).
  assert (Z.abs (a ^ n) <= 2147483648) by lia. nia.
Qed.

(** ** Every operation *)
Lemma s_op1 o (x z : I) a s s' :
  (match o with U_inverse => True | U_pow n => n < 0 | _ => False end -> debug = true) ->
  int_itv x -> i_mem x a -> run1 P o x s = (Ok z, s') ->
  (forall v, i_rel1 o a v -> ok2 z v) /\ (forall w, i_step1 o a w -> fits w).
Proof.
  intros HD Vx Ha R.
  assert (Key : (forall v, i_rel1 o a v -> ok2 z v) /\
     match o with U_pow n => forall k, 0 < k <= Z.abs n -> fits (a ^ k) | _ => True end).
  { pose proof Vx as Vx'. unfold int_itv in Vx'. destruct o as [| | | | |n]; cbn [run1 i_rel1] in *.
    - split; auto. intros v ->. refine (from_gives _ _ _ _ _ _ (int_neg debug c ord x (proj2 (proj1 Vx))) R _).
      exists (IZR a). rewrite opp_IZR. split; auto. apply in_iset, Ha.
    - split; auto. intros v ->. refine (from_gives _ _ _ _ _ _ (int_abs debug c ord x (proj2 (proj1 Vx)) Vx) R _).
      exists (IZR a). rewrite abs_IZR. split; auto. apply in_iset, Ha.
    - split; auto. intros v [].
    - split; auto. intros v ->. refine (from_gives _ _ _ _ _ _ (int_square debug c ord x (proj2 (proj1 Vx)) Vx) R _).
      exists (IZR a). rewrite mult_IZR. split; auto. apply in_iset, Ha.
    - split; auto. intros v [Nz ->]. eapply o_inverse; eauto.
    - unfold Arith2.pow in R. rewrite (t1 x a Ha) in R.
      destruct (Z.eqb_spec n 0) as [->|N0].
      { cbn. split; [|intros; lia]. intros v [Nz ->]. destruct (is_zero (low x) && is_zero (up x)) eqn:E.
        { rewrite !isz in E. apply andb_prop in E. destruct E as [E1 E2]. apply Z.eqb_eq in E1, E2. unfold i_mem in Ha. lia. }
        unfold ctor_num, bind in R. rewrite nanf in R. cbn in R. inversion R. subst z s'.
        unfold ok2, i_mem, int_itv. cbn. lia. }
      destruct (Z.ltb_spec n 0).
      + replace (0 <? n) with false by (symmetry; apply Z.ltb_ge; lia).
        destruct (n =? int_min); [discriminate|]. apply b_inv in R. destruct R as (w & s1 & E1 & R).
        destruct (o_pow x w a (- n) s s1 ltac:(lia) Vx Ha E1) as [W1 W2]. split.
        * intros v [Nz ->]. eapply o_inverse; eauto. apply Z.pow_nonzero; lia.
        * intros k Hk. apply (pow_steps a (- n)); [lia|]. apply (ok_fits w). split; auto.
      + replace (0 <? n) with true by (symmetry; apply Z.ltb_lt; lia).
        destruct (o_pow x z a n s s' ltac:(lia) Vx Ha R) as [W1 W2]. split.
        * intros v ->. split; auto.
        * intros k Hk. apply (pow_steps a n); [lia|]. apply (ok_fits z). split; auto. }
  destruct Key as [K1 K2]. split; auto. intros w [H|H].
  - apply (ok_fits z), K1, H.
  - destruct o; try contradiction. destruct H as (k & Hk & ->). apply K2, Hk.
Qed.
Lemma s_op2 o (x y z : I) a b v s s' : (o = B_div -> debug = true) -> int_itv x -> int_itv y ->
  i_mem x a -> i_mem y b -> run2 P o x y s = (Ok z, s') -> i_rel2 o a b v -> ok2 z v.
Proof.
  intros HD Vx Vy Ha Hb R Hv. pose proof Vx as Vx'. pose proof Vy as Vy'. unfold int_itv in Vx', Vy'.
  pose proof (in_iset x a Ha) as Sa. pose proof (in_iset y b Hb) as Sb.
  destruct o; cbn [run2 i_rel2] in *.
  - subst v. refine (from_gives _ _ _ _ _ _ (int_add debug c ord x y (proj2 (proj1 Vx)) (proj2 (proj1 Vy))) R _). exists (IZR a), (IZR b). rewrite plus_IZR. auto.
  - subst v. refine (from_gives _ _ _ _ _ _ (int_sub debug c ord x y (proj2 (proj1 Vx)) (proj2 (proj1 Vy))) R _). exists (IZR a), (IZR b). rewrite minus_IZR. auto.
  - subst v. refine (from_gives _ _ _ _ _ _ (int_mul debug c ord x y (proj2 (proj1 Vx)) (proj2 (proj1 Vy))) R _). exists (IZR a), (IZR b). rewrite mult_IZR. auto.
  - destruct Hv as [Nz ->]. exact (o_div x y z a b s s' (or_introl (HD eq_refl)) Vx Vy Ha Hb Nz R).
  - unfold u_max in R. rewrite (t2 x y a b Ha Hb) in R. inversion R. subst z s' v.
    unfold ok2, i_mem, int_itv in *. cbn [low up]. rewrite !smax. lia.
  - unfold u_min in R. rewrite (t2 x y a b Ha Hb) in R. inversion R. subst z s' v.
    unfold ok2, i_mem, int_itv in *. cbn [low up]. rewrite !smin. lia.
  - unfold hull in R. rewrite (t1 x a Ha), (t1 y b Hb) in R. inversion R. subst z s'.
    unfold ok2, i_mem, int_itv in *. cbn [low up]. rewrite smin, smax. lia.
Qed.
Lemma s_ni o k (y z : I) b v s s' : (o = B_div -> debug = true) -> fits k -> int_itv y -> i_mem y b ->
  run_ni P o k y s = (Ok z, s') -> i_rel2 o k b v -> ok2 z v.
Proof.
  intros HD Fk Vy Hb R Hv. pose proof (tni k y b s Hb) as Tn. pose proof (t1 y b Hb) as T1.
  unfold fits in Fk. unfold int_itv in Vy. pose proof Hb as Hb'. unfold i_mem in Hb'.
  destruct o; cbn [run_ni i_rel2] in *.
  - unfold op_add_ni, bind in R. rewrite Tn in R. wr R. subst v.
    apply (mk_bd _ _ _ _ _ _ _ _ (bd_add _ _) (bd_add_u _ _)) in R. destruct R as (E1 & E2 & F1 & F2).
    unfold ok2, i_mem, int_itv, fits in *. rewrite E1, E2. lia.
  - unfold op_sub_ni, bind in R. rewrite Tn in R. wr R. subst v.
    apply (mk_bd _ _ _ _ _ _ _ _ (bd_sub _ _) (bd_sub_u _ _)) in R. destruct R as (E1 & E2 & F1 & F2).
    unfold ok2, i_mem, int_itv, fits in *. rewrite E1, E2. lia.
  - unfold op_mul_ni, bind in R. rewrite Tn in R. wr R. subst v. cbv zeta in R. rewrite neg_iff, isz in R.
    destruct (Z.ltb_spec k 0); [|destruct (Z.eqb_spec k 0)].
    + apply (mk_bd _ _ _ _ _ _ _ _ (bd_mul _ _) (bd_mul_u _ _)) in R. destruct R as (E1 & E2 & F1 & F2).
      unfold ok2, i_mem, int_itv, fits in *. rewrite E1, E2. split; nia.
    + inversion R. subst z s' k. unfold ok2, i_mem, int_itv. cbn. lia.
    + apply (mk_bd _ _ _ _ _ _ _ _ (bd_mul _ _) (bd_mul_u _ _)) in R. destruct R as (E1 & E2 & F1 & F2).
      unfold ok2, i_mem, int_itv, fits in *. rewrite E1, E2. split; nia.
  - destruct Hv as [Nz ->]. eapply o_div_ni; eauto.
  - unfold u_max_ni, bind in R. rewrite Tn in R. inversion R. subst z s' v.
    unfold ok2, i_mem, int_itv in *. cbn [low up]. rewrite !smax. lia.
  - unfold u_min_ni, bind in R. rewrite Tn in R. inversion R. subst z s' v.
    unfold ok2, i_mem, int_itv in *. cbn [low up]. rewrite !smin. lia.
  - unfold hull_ni in R. rewrite tn, T1 in R. inversion R. subst z s'.
    unfold ok2, i_mem, int_itv in *. cbn [low up]. rewrite smin, smax. lia.
Qed.
Lemma s_in o k (x z : I) a v s s' : fits k -> int_itv x -> i_mem x a ->
  run_in P o x k s = (Ok z, s') -> i_rel2 o a k v -> ok2 z v.
Proof.
  intros Fk Vx Ha R Hv. pose proof (tin k x a s Ha) as Tn. pose proof (t1 x a Ha) as T1.
  destruct o; cbn [run_in i_rel2] in *.
  - apply (s_ni B_add k x z a v s s'); auto; [discriminate|cbn; lia].
  - unfold op_sub_in, bind in R. rewrite Tn in R. wr R. subst v.
    apply (mk_bd _ _ _ _ _ _ _ _ (bd_sub _ _) (bd_sub_u _ _)) in R. destruct R as (E1 & E2 & F1 & F2).
    unfold ok2, i_mem, int_itv, fits in *. rewrite E1, E2. lia.
  - apply (s_ni B_mul k x z a v s s'); auto; [discriminate|cbn; lia].
  - destruct Hv as [Nz ->]. eapply o_div_in; eauto.
  - unfold u_max_in, bind in R. rewrite Tn in R. inversion R. subst z s' v.
    unfold ok2, i_mem, int_itv, fits in *. cbn [low up]. rewrite !smax. lia.
  - unfold u_min_in, bind in R. rewrite Tn in R. inversion R. subst z s' v.
    unfold ok2, i_mem, int_itv, fits in *. cbn [low up]. rewrite !smin. lia.
  - unfold hull_in in R. rewrite tn, T1 in R. inversion R. subst z s'.
    unfold ok2, i_mem, int_itv, fits in *. cbn [low up]. rewrite smin, smax. lia.
Qed.
Lemma s_nn o k k' (z : I) v s s' : fits k -> fits k' ->
  run_nn P o k k' s = (Ok z, s') -> i_rel2 (op_of o) k k' v -> ok2 z v.
Proof.
  intros Fk Fk' R Hv. pose proof (tnn k k' s) as Tn. destruct o; cbn [run_nn i_rel2 op_of] in *.
  - unfold n_add, bind in R. rewrite Tn in R. wr R. subst v.
    apply (mk_bd _ _ _ _ _ _ _ _ (bd_add _ _) (bd_add_u _ _)) in R. destruct R as (E1 & E2 & F1 & F2).
    unfold ok2, i_mem, int_itv, fits in *. rewrite E1, E2. lia.
  - unfold n_sub, bind in R. rewrite Tn in R. wr R. subst v.
    apply (mk_bd _ _ _ _ _ _ _ _ (bd_sub _ _) (bd_sub_u _ _)) in R. destruct R as (E1 & E2 & F1 & F2).
    unfold ok2, i_mem, int_itv, fits in *. rewrite E1, E2. lia.
  - unfold n_mul, bind in R. rewrite Tn in R. wr R. subst v.
    apply (mk_bd _ _ _ _ _ _ _ _ (bd_mul _ _) (bd_mul_u _ _)) in R. destruct R as (E1 & E2 & F1 & F2).
    unfold ok2, i_mem, int_itv, fits in *. rewrite E1, E2. lia.
  - destruct Hv as [Nz ->]. unfold n_div, bind in R. rewrite Tn, isz in R.
    destruct (Z.eqb_spec k' 0); [contradiction|]. cbn [orb] in R. wr R.
    dv R. destruct R as (E1 & E2 & F1 & F2).
    unfold ok2, i_mem, int_itv, fits in *. rewrite E1, E2. lia.
  - unfold hull_nn, i_hull in R. unfold bind in R. rewrite !nanf in R. cbn in R.
    destruct (Z.leb_spec k k'); inversion R; subst z s'; unfold ok2, i_mem, int_itv, fits in *; cbn [low up]; lia.
Qed.
Lemma s_intersect (x y z : I) v s s' : int_itv x -> int_itv y -> i_mem x v -> i_mem y v ->
  intersect P x y s = (Ok z, s') -> ok2 z v.
Proof.
  intros Vx Vy Hx Hy R. unfold intersect in R. rewrite (t2 x y v v Hx Hy) in R. cbv zeta in R. rewrite smax, smin in R.
  unfold i_mem, int_itv in *. cbn [n_le int_num] in R.
  replace (Z.max (low x) (low y) <=? Z.min (up x) (up y)) with true in R by (symmetry; apply Z.leb_le; lia).
  inversion R. subst z s'. unfold ok2, i_mem, int_itv. cbn [low up]. lia.
Qed.
Lemma s_widen (x z : I) k a v s s' : int_itv x -> i_mem x a -> Z.abs (v - a) <= k ->
  widen P x k s = (Ok z, s') -> ok2 z v.
Proof.
  intros Vx Hx K R. unfold widen in R. rewrite (t1 x a Hx) in R. wr R.
  apply (mk_bd _ _ _ _ _ _ _ _ (bd_sub _ _) (bd_add_u _ _)) in R. destruct R as (E1 & E2 & F1 & F2).
  unfold ok2, i_mem, int_itv, fits in *. rewrite E1, E2. lia.
Qed.

Theorem int_program (eo : expr N -> bool) (env : nat -> I) (rho : nat -> Z) :
  (forall n, int_itv (env n) /\ i_mem (env n) (rho n)) ->
  forall e, i_numbers e -> (divides e -> debug = true) ->
  forall z s s', eval P eo env e s = (Ok z, s') ->
  (forall v, i_value rho e v -> ok2 z v) /\ ~ i_overflow rho e.
Proof.
  intros HE. induction e as [n|k|o e IH|o e1 IH1 e2 IH2|o e IH k|o k e IH|o k k'|e1 IH1 e2 IH2|e IH k];
    intros HN HD z s s' R; cbn [eval i_value i_overflow i_numbers divides] in *.
  - inversion R. subst z s'. split; auto. intros v ->. destruct (HE n). split; auto.
  - unfold ctor_num, bind in R. rewrite nanf in R. cbn in R. inversion R. subst z s'. split; auto. intros v ->.
    unfold ok2, i_mem, int_itv, fits in *. cbn [low up]. lia.
  - apply b_inv in R. destruct R as (x & s1 & R1 & R2). destruct (IH HN ltac:(auto) _ _ _ R1) as [A B].
    assert (HD' : match o with U_inverse => True | U_pow n => n < 0 | _ => False end -> debug = true) by (intros K; apply HD; left; destruct o; auto).
    split.
    + intros v (a & Ha & Hr & _). destruct (A a Ha) as [M V]. eapply (proj1 (s_op1 o x z a s1 s' HD' V M R2)), Hr.
    + intros [K|(a & w & Ha & Hs & F)]; [auto|]. destruct (A a Ha) as [M V].
      apply F. eapply (proj2 (s_op1 o x z a s1 s' HD' V M R2)), Hs.
  - apply b_inv in R. destruct R as (p & s1 & R1 & R2). apply a_inv in R1. destruct R1 as (? & ? & ? & ? & R3 & R4).
    destruct (IH1 (proj1 HN) ltac:(auto) _ _ _ R3) as [A1 B1]. destruct (IH2 (proj2 HN) ltac:(auto) _ _ _ R4) as [A2 B2].
    assert (G : forall a b v, i_value rho e1 a -> i_value rho e2 b -> i_rel2 o a b v -> ok2 z v).
    { intros a b v Ha Hb Hr. destruct (A1 a Ha) as [M1 V1], (A2 b Hb) as [M2 V2].
      refine (s_op2 o _ _ z a b v _ _ _ V1 V2 M1 M2 R2 Hr). intros ->. apply HD. auto. }
    split.
    + intros v (a & b & Ha & Hb & Hr & _). eauto.
    + intros [K|[K|(a & b & w & Ha & Hb & Hr & F)]]; auto. apply F, (ok_fits z). eauto.
  - apply b_inv in R. destruct R as (x & s1 & R1 & R2). destruct (IH (proj1 HN) ltac:(auto) _ _ _ R1) as [A B].
    assert (G : forall a v, i_value rho e a -> i_rel2 o a k v -> ok2 z v).
    { intros a v Ha Hr. destruct (A a Ha) as [M V]. exact (s_in o k x z a v _ _ (proj2 HN) V M R2 Hr). }
    split.
    + intros v (a & Ha & Hr & _). eauto.
    + intros [K|(a & w & Ha & Hr & F)]; auto. apply F, (ok_fits z). eauto.
  - apply b_inv in R. destruct R as (x & s1 & R1 & R2). destruct (IH (proj1 HN) ltac:(auto) _ _ _ R1) as [A B].
    assert (G : forall a v, i_value rho e a -> i_rel2 o k a v -> ok2 z v).
    { intros a v Ha Hr. destruct (A a Ha) as [M V]. refine (s_ni o k x z a v _ _ _ (proj2 HN) V M R2 Hr). intros ->. apply HD. auto. }
    split.
    + intros v (a & Ha & Hr & _). eauto.
    + intros [K|(a & w & Ha & Hr & F)]; auto. apply F, (ok_fits z). eauto.
  - split.
    + intros v [Hr _]. eapply s_nn; eauto; apply HN.
    + intros (w & Hr & F). apply F, (ok_fits z). eapply s_nn; eauto; apply HN.
  - apply b_inv in R. destruct R as (p & s1 & R1 & R2). apply a_inv in R1. destruct R1 as (? & ? & ? & ? & R3 & R4).
    destruct (IH1 (proj1 HN) ltac:(auto) _ _ _ R3) as [A1 B1]. destruct (IH2 (proj2 HN) ltac:(auto) _ _ _ R4) as [A2 B2].
    split; [|intros [K|K]; auto]. intros v [H1 H2]. destruct (A1 v H1) as [M1 V1], (A2 v H2) as [M2 V2]. exact (s_intersect _ _ z v _ _ V1 V2 M1 M2 R2).
  - apply b_inv in R. destruct R as (x & s1 & R1 & R2). destruct (IH (proj1 HN) ltac:(auto) _ _ _ R1) as [A B].
    assert (G : forall a v, i_value rho e a -> Z.abs (v - a) <= k -> ok2 z v).
    { intros a v Ha Hr. destruct (A a Ha) as [M V]. exact (s_widen x z k a v _ _ V M Hr R2). }
    split.
    + intros v (a & Ha & Hr & _). eauto.
    + intros [K|(a & w & Ha & Hr & F)]; auto. apply F, (ok_fits z). eauto.
Qed.
End Prog.

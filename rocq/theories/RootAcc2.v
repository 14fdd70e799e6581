(** * How accurate nth_root is: the ends of the result *)

From Coq Require Import Reals ZArith Lra Lia Bool Psatz.
From Flocq Require Import Core BinarySingleNaN.
From Verif Require Import Outcome Base Checking Interval Utility Arith Arith2 FloatNum Spec ExtR Sem
  FloatSpec FloatPol FloatMed FloatInt CoreArith CoreDiv CoreMore CorePow CoreUtil CoreRoot CoreIso Inst NewtonProof ExprWidth RootAcc.
Local Open Scope R_scope.

Section Ends.
Context (p : platform) (pr : protection) (k : rkind) (debug : bool) (c : ckind) (ord : site -> bool).
Notation N := (fnum p).
Notation I := (itv N).
Notation F := (p_T p).
Notation Q := (fpol p pr k debug c ord).
Notation spec := (fpolspec p pr k debug c ord).
Notation ready := (fready k).
Notation fv := (@fval (p_T p)).
Notation e := (eps (p_T p)).

(** The magnitudes for which the bound is proved. *)
Definition moderate n b := 512 * IZR n * b * e <= 1 /\ 512 * IZR n * e <= b.
Section Mod.
Context (n : Z) (Hn : (2 <= n)%Z) (b : R) (Hb : moderate n b).
Lemma mod_pos : 0 < 512 * IZR n * e.
Proof. pose proof (eps_pos F). apply IZR_le in Hn. apply Rmult_lt_0_compat; lra. Qed.
Lemma mod_ne : 512 * IZR n * e <= 1.
Proof.
  destruct Hb as [A B]. pose proof mod_pos as P0. set (d := 512 * IZR n * e) in *.
  replace (512 * IZR n * b * e) with (d * b) in A by (unfold d; ring).
  destruct (Rle_or_lt d 1) as [|G]; auto. exfalso. assert (d * d <= d * b) by (apply Rmult_le_compat_l; lra).
  assert (1 * d < d * d) by (apply Rmult_lt_compat_r; lra). lra.
Qed.
Lemma mod_e : e <= / 1024.
Proof. pose proof mod_ne. pose proof (eps_pos F). apply IZR_le in Hn. assert (2 * e <= IZR n * e) by (apply Rmult_le_compat_r; lra). lra. Qed.
Lemma inv_e : / e = bpow radix2 (prec F - 1).
Proof. unfold eps. rewrite <- bpow_opp. f_equal. lia. Qed.
Lemma mod_n : (2 <= n <= 2 ^ prec F)%Z.
Proof.
  split; [exact Hn|]. apply le_IZR. pose proof mod_ne as K. pose proof (eps_pos F) as E0. pose proof (fmt_prec_gt_0 F) as PP.
  change 2%Z with (radix_val radix2). rewrite IZR_Zpower by (unfold FLX.Prec_gt_0 in PP; lia).
  apply Rle_trans with (bpow radix2 (prec F - 1)); [|apply bpow_le; lia]. rewrite <- inv_e.
  apply Rmult_le_reg_r with e; [exact E0|]. rewrite Rinv_l by lra. pose proof mod_pos. lra.
Qed.
Lemma big_largest : / e <= largest F.
Proof.
  pose proof (fmt_prec_gt_0 F) as PP. unfold FLX.Prec_gt_0 in PP.
  pose proof (f_of_Z_exact F RNE (2 ^ (prec F - 1))) as K. 
  assert (A : (0 < 2 ^ (prec F - 1) <= 2 ^ prec F)%Z) by (split; [apply Z.pow_pos_nonneg; lia|apply Z.pow_le_mono_r; lia]).
  specialize (K ltac:(lia)). apply fin_le_largest in K. rewrite Rabs_right in K by (apply Rle_ge, IZR_le; lia).
  rewrite inv_e. change 2%Z with (radix_val radix2) in K. rewrite IZR_Zpower in K by lia. exact K.
Qed.
Lemma mod_inv : 0 < b /\ / b <= / e / 1024.
Proof.
  destruct Hb as [A B]. pose proof mod_pos as P0. pose proof (eps_pos F) as E0. apply IZR_le in Hn.
  assert (2 * e <= IZR n * e) by (apply Rmult_le_compat_r; lra). split; [lra|].
  unfold Rdiv. rewrite <- Rinv_mult. apply Rinv_le_contravar; lra.
Qed.
Lemma mod_b : b <= / e / 1024.
Proof.
  destruct Hb as [A B]. pose proof mod_inv as [B0 _]. pose proof (eps_pos F) as E0. apply IZR_le in Hn.
  apply Rmult_le_reg_r with (1024 * e); [lra|]. replace (/ e / 1024 * (1024 * e)) with 1 by (field; lra).
  assert (0 < b * e) by (apply Rmult_lt_0_compat; lra). assert (2 * (b * e) <= IZR n * (b * e)) by (apply Rmult_le_compat_r; lra). lra.
Qed.
End Mod.

Lemma tiny_sq : wide p -> tiny F <= e * e.
Proof.
  unfold wide. intros W. unfold tiny, eps. rewrite <- bpow_plus. apply bpow_le. unfold SpecFloat.emin. pose proof (fmt_prec_gt_0 F) as PP.
  unfold FLX.Prec_gt_0 in PP. lia.
Qed.

Lemma pow_shrink a m : (0 < m)%nat -> 0 <= a <= 1 -> a ^ m <= a.
Proof.
  intros Hm Ha. destruct m as [|m]; [lia|]. rewrite <- tech_pow_Rmult. rewrite <- (Rmult_1_r a) at 3. apply Rmult_le_compat_l; [lra|].
  rewrite <- (pow1 m). apply pow_incr. lra.
Qed.
Lemma pow_grow a m : (0 < m)%nat -> 1 <= a -> a <= a ^ m.
Proof.
  intros Hm Ha. destruct m as [|m]; [lia|]. rewrite <- tech_pow_Rmult. rewrite <- (Rmult_1_r a) at 1. apply Rmult_le_compat_l; [lra|].
  apply pow_R1_Rle. lra.
Qed.

(** The common part: a number not below one. *)
Lemma root_aux_acc (x : T N) n xv : wide p -> (2 <= n <= 2 ^ prec F)%Z -> fv x = Fin xv -> 1 <= xv -> 64 * IZR n * xv * e <= 1 ->
  exists (z : I) l u r f0, fv (low z) = Fin l /\ fv (up z) = Fin u /\ 1 <= l /\ l <= r <= u /\ r ^ Z.to_nat n = xv /\
    r * (1 - 64 * e) <= l /\ u <= r * (1 + 64 * e) /\ u <= xv /\
    forall fuel, (f0 < fuel)%nat -> runsI ready (root_aux fuel Q x n) z.
Proof.
  intros W Hn Ex Hx HB. destruct (root_aux_fix p pr k debug c ord x n xv W Hn Ex Hx) as (z & l & u & r & f0 & El & Eu & L1 & U1 & Hr & Er & Fx & R).
  pose proof (fixed_narrow p pr k debug c ord x _ n xv z l u r W ltac:(lia) Ex Hx (f_of_Z_exact F RNE n ltac:(lia)) HB El Eu L1 U1 Hr Er Fx) as K.
  exists z, l, u, r, f0. repeat (split; [first [assumption|lra]|]). exact R.
Qed.

Lemma root_up_acc (x : T N) n xv s : wide p -> (2 <= n)%Z -> fv x = Fin xv -> moderate n xv -> 0 <= s -> s ^ Z.to_nat n = xv ->
  exists (t : T N) v f0, fv t = Fin v /\ s <= v <= s + 128 * e * s /\
   forall fuel, (f0 < fuel)%nat -> runsI ready (root_aux_up fuel Q x n) t.
Proof.
  intros W Hn2 Ex HM Hs Es. pose proof (mod_n n Hn2 xv HM) as Hn. pose proof (mod_e n Hn2 xv HM) as E1024. pose proof (eps_pos F) as E0.
  destruct (mod_inv n Hn2 xv HM) as [Hx XI]. pose proof (mod_b n Hn2 xv HM) as XB. destruct HM as [HM1 HM2].
  assert (N2 : 2 <= IZR n) by (apply IZR_le; lia).
  assert (NX : 0 < IZR n * xv * e) by (repeat apply Rmult_lt_0_compat; lra).
  assert (Sp : 0 < s). { destruct Hs as [|<-]; auto. rewrite pow_ne_zero in Es by lia. lra. }
  assert (E1 : fv (one : T N) = Fin 1) by (apply (ns_1 _ _ (fnumspec p))).
  assert (ES0 : 0 < e * s) by (apply Rmult_lt_0_compat; lra).
  destruct (Rlt_dec 1 xv) as [G|G].
  - destruct (root_aux_acc x n xv W Hn Ex ltac:(lra) ltac:(lra)) as (z & l & u & r & f0 & El & Eu & L1 & Hr & Er & Ll & Uu & Ux & Rz).
    assert (r = s) by (apply (root_unique r s n); lia || lra). subst r.
    exists (up z), u, f0. split; [exact Eu|]. split; [lra|].
    intros fuel Hf. unfold root_aux_up. apply (body_runs p pr k debug c ord). rewrite (proj2 (gt_one_iff p x xv Ex) G).
    eapply runsI_bind; [apply Rz; exact Hf|]. apply runsI_ret.
  - assert (G1 : n_gt x one = false).
    { destruct (n_gt x one) eqn:K; auto. apply (gt_one_iff p x xv Ex) in K. lra. }
    destruct (Req_dec xv 1) as [->|Nx].
    + exists one, 1, 0%nat. split; [exact E1|]. assert (s = 1) by (apply (root_unique s 1 n); lia || lra || (rewrite pow1; lra)). subst s. split; [lra|].
      intros fuel Hf. unfold root_aux_up. apply (body_runs p pr k debug c ord). rewrite G1, (proj2 (eq_one_iff p x 1 Ex) eq_refl). apply runsI_ret.
    + assert (G2 : n_eq N x one = false).
      { destruct (n_eq N x one) eqn:K; auto. apply (eq_one_iff p x xv Ex) in K. lra. }
      destruct (as_div_down _ _ _ (ps_ar _ _ _ spec) one x) as (d & Dd & Rd).
      { rewrite E1, Ex. simpl. destruct (Req_EM_T xv 0); [lra|discriminate]. }
      rewrite E1, Ex in Dd. simpl in Dd. destruct (Req_EM_T xv 0) as [|N0]; [lra|]. unfold Rdiv in Dd. rewrite Rmult_1_l in Dd.
      assert (I1 : 1 <= / xv) by (rewrite <- Rinv_1 at 1; apply Rinv_le_contravar; lra).
      pose proof big_largest as BL.
      destruct (RD_close p (/ xv) d ltac:(lra) Dd) as (dv & Ed & [_ D1] & D2).
      assert (D0 : 1 <= dv).
      { destruct Dd as [_ Dd]. pose proof (Dd one) as K. rewrite E1, Ed in K. exact (K I1). }
      pose proof (tiny_sq W) as TS. pose proof (tiny_small p W ltac:(lra)) as T16.
      assert (D3 : / xv * (1 - 2 * e) <= dv).
      { assert (e * 1 <= e * / xv) by (apply Rmult_le_compat_l; lra). lra. }
      assert (HB : 64 * IZR n * dv * e <= 1).
      { assert (A : 512 * IZR n * e * dv <= 512 * IZR n * e * / xv) by (apply Rmult_le_compat_l; [pose proof (mod_pos n Hn2); lra|lra]).
        assert (B : 512 * IZR n * e * / xv <= xv * / xv) by (apply Rmult_le_compat_r; lra). rewrite Rinv_r in B by lra.
        assert (0 < IZR n * dv * e) by (repeat apply Rmult_lt_0_compat; lra). lra. }
      destruct (root_aux_acc d n dv W Hn Ed D0 HB) as (z & l & u & r & f0 & El & Eu & L1 & Hr & Er & Ll & Uu & Ux & Rz).
      destruct (as_div_up _ _ _ (ps_ar _ _ _ spec) one (low z)) as (t & Dt & Rt).
      { rewrite E1, El. simpl. destruct (Req_EM_T l 0); [lra|discriminate]. }
      rewrite E1, El in Dt. simpl in Dt. destruct (Req_EM_T l 0) as [|N1]; [lra|]. unfold Rdiv in Dt. rewrite Rmult_1_l in Dt.
      assert (Il : 0 < / l <= 1) by (split; [apply Rinv_0_lt_compat; lra|rewrite <- Rinv_1; apply Rinv_le_contravar; lra]).
      assert (IE : 1 <= / e) by (rewrite <- Rinv_1; apply Rinv_le_contravar; lra).
      destruct (RU_close p (/ l) t ltac:(lra) Dt) as (tv & Et & T1 & T2).
      exists t, tv, f0. split; [exact Et|].
      (* the root of the reciprocal *)
      assert (Si : 0 < / s) by (apply Rinv_0_lt_compat; lra).
      assert (Pi : (/ s) ^ Z.to_nat n = / xv) by (rewrite pow_inv_R, Es by lra; reflexivity).
      assert (R1 : r <= / s).
      { apply (pow_le_inv _ _ (Z.to_nat n)); try lia; try lra. }
      assert (R2 : / s * (1 - 2 * e) <= r).
      { apply (pow_le_inv _ _ (Z.to_nat n)); try lia; try lra; [apply Rmult_le_pos; lra|].
        rewrite Rpow_mult_distr, Pi, Er. eapply Rle_trans; [|exact D3]. apply Rmult_le_compat_l; [lra|]. apply pow_shrink; [lia|lra]. }
      assert (Ls : l <= / s) by lra.
      assert (Sl : s <= / l). { rewrite <- (Rinv_inv s). apply Rinv_le_contravar; lra. }
      assert (Lb : / s * ((1 - 2 * e) * (1 - 64 * e)) <= l).
      { eapply Rle_trans; [|exact Ll]. rewrite <- Rmult_assoc. apply Rmult_le_compat_r; lra. }
      assert (El' : tiny F <= e * / l).
      { eapply Rle_trans; [exact TS|]. apply Rmult_le_compat_l; [lra|].
        assert (e <= xv) by (assert (2 * e <= IZR n * e) by (apply Rmult_le_compat_r; lra); lra).
        rewrite <- (Rinv_inv e). apply Rinv_le_contravar; [lra|]. lra. }
      split.
      * split; [lra|]. assert (A : tv <= / l * (1 + 2 * e)) by lra.
        assert (B : / l * ((1 - 2 * e) * (1 - 64 * e)) <= s).
        { apply Rmult_le_reg_r with (/ s); [exact Si|]. rewrite Rinv_r by lra. apply Rmult_le_reg_r with l; [lra|].
          replace (/ l * ((1 - 2 * e) * (1 - 64 * e)) * / s * l) with (/ s * ((1 - 2 * e) * (1 - 64 * e))) by (field; lra). lra. }
        assert (C : 1 + 2 * e <= (1 + 128 * e) * ((1 - 2 * e) * (1 - 64 * e))).
        { assert (0 <= e * (/ 1024 - e)) by (apply Rmult_le_pos; lra). assert (0 <= e * e * e) by (repeat apply Rmult_le_pos; lra). lra. }
        assert (A' : / l * (1 + 2 * e) <= / l * ((1 + 128 * e) * ((1 - 2 * e) * (1 - 64 * e)))) by (apply Rmult_le_compat_l; lra).
        assert (B' : (1 + 128 * e) * (/ l * ((1 - 2 * e) * (1 - 64 * e))) <= (1 + 128 * e) * s) by (apply Rmult_le_compat_l; lra). lra.
      * intros fuel Hf. unfold root_aux_up. apply (body_runs p pr k debug c ord). rewrite G1, G2.
        eapply runsI_bind; [exact Rd|]. eapply runsI_bind; [apply Rz; exact Hf|]. exact Rt.
Qed.

Lemma root_dn_acc (x : T N) n xv s : wide p -> (2 <= n)%Z -> fv x = Fin xv -> moderate n xv -> 0 <= s -> s ^ Z.to_nat n = xv ->
  exists (t : T N) v f0, fv t = Fin v /\ s - 128 * e * s <= v <= s /\
   forall fuel, (f0 < fuel)%nat -> runsI ready (root_aux_dn fuel Q x n) t.
Proof.
  intros W Hn2 Ex HM Hs Es. pose proof (mod_n n Hn2 xv HM) as Hn. pose proof (mod_e n Hn2 xv HM) as E1024. pose proof (eps_pos F) as E0.
  destruct (mod_inv n Hn2 xv HM) as [Hx XI]. pose proof (mod_b n Hn2 xv HM) as XB. destruct HM as [HM1 HM2].
  assert (N2 : 2 <= IZR n) by (apply IZR_le; lia).
  assert (NX : 0 < IZR n * xv * e) by (repeat apply Rmult_lt_0_compat; lra).
  assert (Sp : 0 < s). { destruct Hs as [|<-]; auto. rewrite pow_ne_zero in Es by lia. lra. }
  assert (E1 : fv (one : T N) = Fin 1) by (apply (ns_1 _ _ (fnumspec p))).
  assert (ES0 : 0 < e * s) by (apply Rmult_lt_0_compat; lra).
  destruct (Rlt_dec 1 xv) as [G|G].
  - destruct (root_aux_acc x n xv W Hn Ex ltac:(lra) ltac:(lra)) as (z & l & u & r & f0 & El & Eu & L1 & Hr & Er & Ll & Uu & Ux & Rz).
    assert (r = s) by (apply (root_unique r s n); lia || lra). subst r.
    exists (low z), l, f0. split; [exact El|]. split; [lra|].
    intros fuel Hf. unfold root_aux_dn. apply (body_runs p pr k debug c ord). rewrite (proj2 (gt_one_iff p x xv Ex) G).
    eapply runsI_bind; [apply Rz; exact Hf|]. apply runsI_ret.
  - assert (G1 : n_gt x one = false).
    { destruct (n_gt x one) eqn:K; auto. apply (gt_one_iff p x xv Ex) in K. lra. }
    destruct (Req_dec xv 1) as [->|Nx].
    + exists one, 1, 0%nat. split; [exact E1|]. assert (s = 1) by (apply (root_unique s 1 n); lia || lra || (rewrite pow1; lra)). subst s. split; [lra|].
      intros fuel Hf. unfold root_aux_dn. apply (body_runs p pr k debug c ord). rewrite G1, (proj2 (eq_one_iff p x 1 Ex) eq_refl). apply runsI_ret.
    + assert (G2 : n_eq N x one = false).
      { destruct (n_eq N x one) eqn:K; auto. apply (eq_one_iff p x xv Ex) in K. lra. }
      destruct (as_div_up _ _ _ (ps_ar _ _ _ spec) one x) as (d & Dd & Rd).
      { rewrite E1, Ex. simpl. destruct (Req_EM_T xv 0); [lra|discriminate]. }
      rewrite E1, Ex in Dd. simpl in Dd. destruct (Req_EM_T xv 0) as [|N0]; [lra|]. unfold Rdiv in Dd. rewrite Rmult_1_l in Dd.
      assert (I1 : 1 <= / xv) by (rewrite <- Rinv_1 at 1; apply Rinv_le_contravar; lra).
      pose proof big_largest as BL.
      destruct (RU_close p (/ xv) d ltac:(lra) Dd) as (dv & Ed & D1 & D2).
      pose proof (tiny_sq W) as TS. pose proof (tiny_small p W ltac:(lra)) as T16.
      assert (D3 : dv <= / xv * (1 + 2 * e)).
      { assert (e * 1 <= e * / xv) by (apply Rmult_le_compat_l; lra). lra. }
      assert (HB : 64 * IZR n * dv * e <= 1).
      { assert (D4 : dv <= 2 * / xv). { assert (/ xv * (1 + 2 * e) <= / xv * 2) by (apply Rmult_le_compat_l; lra). lra. }
        assert (A : 512 * IZR n * e * dv <= 512 * IZR n * e * (2 * / xv)) by (apply Rmult_le_compat_l; [pose proof (mod_pos n Hn2); lra|lra]).
        assert (B : 512 * IZR n * e * / xv <= xv * / xv) by (apply Rmult_le_compat_r; lra). rewrite Rinv_r in B by lra.
        assert (0 < IZR n * dv * e) by (repeat apply Rmult_lt_0_compat; lra). lra. }
      destruct (root_aux_acc d n dv W Hn Ed ltac:(lra) HB) as (z & l & u & r & f0 & El & Eu & L1 & Hr & Er & Ll & Uu & Ux & Rz).
      destruct (as_div_down _ _ _ (ps_ar _ _ _ spec) one (up z)) as (t & Dt & Rt).
      { rewrite E1, Eu. simpl. destruct (Req_EM_T u 0); [lra|discriminate]. }
      rewrite E1, Eu in Dt. simpl in Dt. destruct (Req_EM_T u 0) as [|N1]; [lra|]. unfold Rdiv in Dt. rewrite Rmult_1_l in Dt.
      assert (Iu : 0 < / u <= 1) by (split; [apply Rinv_0_lt_compat; lra|rewrite <- Rinv_1; apply Rinv_le_contravar; lra]).
      assert (IE : 1 <= / e) by (rewrite <- Rinv_1; apply Rinv_le_contravar; lra).
      destruct (RD_close p (/ u) t ltac:(lra) Dt) as (tv & Et & [_ T1] & T2).
      exists t, tv, f0. split; [exact Et|].
      assert (Si : 0 < / s) by (apply Rinv_0_lt_compat; lra).
      assert (Pi : (/ s) ^ Z.to_nat n = / xv) by (rewrite pow_inv_R, Es by lra; reflexivity).
      assert (R1 : / s <= r).
      { apply (pow_le_inv _ _ (Z.to_nat n)); try lia; try lra. }
      assert (R2 : r <= / s * (1 + 2 * e)).
      { apply (pow_le_inv _ _ (Z.to_nat n)); try lia; try lra; [apply Rmult_le_pos; lra|].
        rewrite Rpow_mult_distr, Pi, Er. eapply Rle_trans; [exact D3|]. apply Rmult_le_compat_l; [lra|]. apply pow_grow; [lia|lra]. }
      assert (Su : / u <= s). { rewrite <- (Rinv_inv s). apply Rinv_le_contravar; lra. }
      assert (Ub : u <= / s * ((1 + 2 * e) * (1 + 64 * e))).
      { eapply Rle_trans; [exact Uu|]. rewrite <- Rmult_assoc. apply Rmult_le_compat_r; lra. }
      assert (El' : tiny F <= e * / u).
      { eapply Rle_trans; [exact TS|]. apply Rmult_le_compat_l; [lra|].
        rewrite <- (Rinv_inv e). apply Rinv_le_contravar; [lra|]. 
        assert (/ xv * (1 + 2 * e) <= / xv * 2) by (apply Rmult_le_compat_l; lra). lra. }
      split.
      * split; [|lra]. assert (A : / u * (1 - 2 * e) <= tv) by lra.
        assert (B : s <= / u * ((1 + 2 * e) * (1 + 64 * e))).
        { apply Rmult_le_reg_r with (/ s); [exact Si|]. rewrite Rinv_r by lra. apply Rmult_le_reg_r with u; [lra|].
          replace (/ u * ((1 + 2 * e) * (1 + 64 * e)) * / s * u) with (/ s * ((1 + 2 * e) * (1 + 64 * e))) by (field; lra). lra. }
        assert (C : (1 - 128 * e) * ((1 + 2 * e) * (1 + 64 * e)) <= 1 - 2 * e).
        { assert (0 <= e * (/ 1024 - e)) by (apply Rmult_le_pos; lra). assert (0 <= e * e) by (apply Rmult_le_pos; lra). assert (0 <= e * e * e) by (repeat apply Rmult_le_pos; lra). lra. }
        assert (A' : / u * ((1 - 128 * e) * ((1 + 2 * e) * (1 + 64 * e))) <= / u * (1 - 2 * e)) by (apply Rmult_le_compat_l; lra).
        assert (B' : (1 - 128 * e) * s <= (1 - 128 * e) * (/ u * ((1 + 2 * e) * (1 + 64 * e)))) by (apply Rmult_le_compat_l; lra). lra.
      * intros fuel Hf. unfold root_aux_dn. apply (body_runs p pr k debug c ord). rewrite G1, G2.
        eapply runsI_bind; [exact Rd|]. eapply runsI_bind; [apply Rz; exact Hf|]. exact Rt.
Qed.
End Ends.

Section NthRootAcc.
Context (p : platform) (k : rkind) (debug : bool) (c : ckind) (ord : site -> bool).
Notation N := (fnum p).
Notation F := (p_T p).
Notation P := (fpol p Save k debug c ord).
Notation Q := (fpol p SaveUnprotected k debug c ord).
Notation ready := (fready k).
Notation fv := (@fval (p_T p)).
Notation e := (eps (p_T p)).

Lemma pow_odd_mono a b n : (0 < n)%Z -> Z.even n = false -> a <= b -> a ^ Z.to_nat n <= b ^ Z.to_nat n.
Proof.
  intros Hn Ev H. destruct (Rle_or_lt 0 a) as [A|A]; [apply pow_incr; lra|].
  destruct (Rle_or_lt 0 b) as [B|B].
  - apply Rle_trans with 0; [|apply pow_le; lra]. assert (0 <= (- a) ^ Z.to_nat n) by (apply pow_le; lra). rewrite pow_neg_odd in H0 by auto. lra.
  - assert (K : (- b) ^ Z.to_nat n <= (- a) ^ Z.to_nat n) by (apply pow_incr; lra). rewrite !pow_neg_odd in K by auto. lra.
Qed.

Lemma pos_root v n : (0 < n)%Z -> 0 < v -> exists s, 0 < s /\ s ^ Z.to_nat n = v.
Proof.
  intros Hn Hv. exists (Rpower v (/ INR (Z.to_nat n))). split; [apply exp_pos|].
  rewrite <- Rpower_pow by apply exp_pos. rewrite Rpower_mult, Rinv_l by (apply not_0_INR; lia). apply Rpower_1; auto.
Qed.

(** Ends close to A and B, and a root between: every point is near a root. *)
Lemma near_ends (x : itv N) n l u A B a b : 
  (forall s, A <= s <= B -> l <= s ^ Z.to_nat n <= u /\ (Z.even n = true -> 0 <= s)) ->
  (forall r, fmem x r <-> l <= r <= u) -> A <= B ->
  A - 128 * e * Rabs A <= a -> b <= B + 128 * e * Rabs B ->
  forall t, a <= t <= b -> exists s, real_roots n (fmem x) s /\ Rabs (t - s) <= 128 * e * Rabs s.
Proof.
  intros HS Mem AB Ha Hb t Ht. pose proof (eps_pos F) as E0.
  assert (RR : forall s, A <= s <= B -> real_roots n (fmem x) s).
  { intros s Hs. destruct (HS s Hs) as [K1 K2]. split; [apply Mem; exact K1|exact K2]. }
  destruct (Rlt_or_le t A) as [TA|TA]; [exists A; split; [apply RR; lra|]; rewrite Rabs_left by lra; lra|].
  destruct (Rlt_or_le B t) as [TB|TB]; [exists B; split; [apply RR; lra|]; rewrite Rabs_right by lra; lra|].
  exists t. split; [apply RR; lra|]. rewrite Rminus_diag_eq, Rabs_R0 by reflexivity. apply Rmult_le_pos; [lra|apply Rabs_pos].
Qed.

Ltac nb := try change (negb true) with false; try change (negb false) with true; cbv iota.

Lemma nth_root_acc dbg (x : itv N) n l u : wide p -> (1 <= n)%Z ->
  fv (low x) = Fin l -> fv (up x) = Fin u -> l <= u ->
  (l = 0 \/ moderate p n (Rabs l)) -> (u = 0 \/ moderate p n (Rabs u)) -> (Z.even n = true -> 0 <= u) ->
  exists z f0, (forall t, fmem z t -> exists s, real_roots n (fmem x) s /\ Rabs (t - s) <= 128 * e * Rabs s) /\
    forall fuel, (f0 < fuel)%nat -> runsI ready (nth_root P dbg fuel x n) z.
Proof.
  intros W Hn El Eu Hlu Ml Mu HE.
  assert (TI : test_input_i P x = false) by (apply test_i_ordered; rewrite El, Eu; exact Hlu).
  assert (AS : pureM (assert_ dbg (0 <? n)%Z) tt).
  { intros s. unfold assert_. rewrite (proj2 (Z.ltb_lt 0 n)) by lia. destruct dbg; reflexivity. }
  assert (Mem : forall r, fmem x r <-> l <= r <= u).
  { intros r. unfold fmem, mem. rewrite El, Eu. reflexivity. }
  pose proof (eps_pos F) as E0'.
  destruct (Z.eq_dec n 1) as [->|N1].
  { exists x, 0%nat. split.
    - intros t Ht. exists t. split.
      + split; [change (Z.to_nat 1) with 1%nat; rewrite pow_1; exact Ht|intros K; discriminate K].
      + rewrite Rminus_diag_eq, Rabs_R0 by reflexivity. apply Rmult_le_pos; [lra|apply Rabs_pos].
    - intros fuel _. unfold nth_root. rewrite TI. eapply runsI_bind; [apply pure_runsI, AS|].
      apply runsI_ret. }
  assert (Hn2 : (2 <= n)%Z) by lia.
  assert (E0 : fv (zero : T N) = Fin 0) by (apply (ns_0 _ _ (fnumspec p))).
  assert (Odd : Z.odd n = negb (Z.even n)) by (rewrite Z.negb_even; reflexivity).
  assert (P0 : 0 ^ Z.to_nat n = 0) by (apply pow_ne_zero; lia).
  assert (St : forall z f0, (forall fuel, (f0 < fuel)%nat -> runsI ready
      (if negb (is_pos (up x)) then
        if is_zero (up x) then
          if negb (Z.odd n) || is_zero (low x) then ret (mk zero zero)
          else
            let! nl := neg (low x) in
            let! t := root_aux_up fuel Q nl n in
            let! l := neg t in ret (mk l zero)
        else if negb (Z.odd n) then i_empty P
        else
          mk_args (p_ord P (H_arith2, 287%Z))
            (let! nl := neg (low x) in let! t := root_aux_up fuel Q nl n in neg t)
            (let! nu := neg (up x) in let! t := root_aux_dn fuel Q nu n in neg t)
      else
        let! u := root_aux_up fuel Q (up x) n in
        if negb (is_pos (low x)) then
          if negb (Z.odd n) || is_zero (low x) then ret (mk zero u)
          else
            let! nl := neg (low x) in
            let! t := root_aux_up fuel Q nl n in
            let! l := neg t in ret (mk l u)
        else
          let! l := root_aux_dn fuel Q (low x) n in ret (mk l u)) z) ->
      forall fuel, (f0 < fuel)%nat -> runsI ready (nth_root P dbg fuel x n) z).
  { intros z f0 K fuel Hf. unfold nth_root. rewrite TI. eapply runsI_bind; [apply pure_runsI, AS|].
    rewrite (proj2 (Z.eqb_neq n 1) N1). apply K. exact Hf. }
  assert (Fm : forall (a b : T N) va vb t, fv a = Fin va -> fv b = Fin vb -> fmem (mk a b) t -> va <= t <= vb).
  { intros a b va vb t Ea Eb Ht. unfold fmem, mem in Ht. cbn [low up] in Ht. rewrite Ea, Eb in Ht. exact Ht. }
  destruct (Rlt_or_le 0 u) as [U|U].
  - destruct (pos_root u n ltac:(lia) U) as (su & Su & Esu).
    assert (Mu' : moderate p n u) by (destruct Mu as [->|Mu]; [lra|rewrite Rabs_right in Mu by lra; exact Mu]).
    destruct (root_up_acc p SaveUnprotected k debug c ord (up x) n u su W Hn2 Eu Mu' ltac:(lra) Esu) as (tu & vu & fu & Etu & Htu & Ru).
    destruct (Rlt_or_le 0 l) as [L|L].
    + destruct (pos_root l n ltac:(lia) L) as (sl & Sl & Esl).
      assert (Ml' : moderate p n l) by (destruct Ml as [->|Ml]; [lra|rewrite Rabs_right in Ml by lra; exact Ml]).
      destruct (root_dn_acc p SaveUnprotected k debug c ord (low x) n l sl W Hn2 El Ml' ltac:(lra) Esl) as (tl & vl & fl & Etl & Htl & Rl).
      exists (mk tl tu), (Nat.max fl fu). split.
      * intros t Ht. apply (Fm _ _ _ _ _ Etl Etu) in Ht.
        apply (near_ends x n l u sl su vl vu); auto.
        -- intros s Hs. split; [|lra]. rewrite <- Esl, <- Esu. split; apply pow_incr; lra.
        -- apply (pow_le_inv _ _ (Z.to_nat n)); try lia; lra.
        -- rewrite Rabs_right; lra.
        -- rewrite Rabs_right; lra.
      * apply St. intros fuel Hf. rewrite (proj2 (is_pos_fin p _ _ Eu) U). nb.
        eapply runsI_bind; [apply Ru; lia|]. cbv beta. rewrite (proj2 (is_pos_fin p _ _ El) L). nb.
        eapply runsI_bind; [apply Rl; lia|]. apply runsI_ret.
    + assert (Pl : is_pos (low x) = false) by (eapply bool_false; [apply (is_pos_fin p _ _ El)|lra]).
      destruct (negb (Z.odd n) || is_zero (low x)) eqn:C1.
      * exists (mk zero tu), fu. split.
        -- intros t Ht. apply (Fm _ _ _ _ _ E0 Etu) in Ht.
           apply (near_ends x n l u 0 su 0 vu); auto.
           ++ intros s Hs. split; [|lra]. rewrite <- Esu. split; [|apply pow_incr; lra].
              apply Rle_trans with 0; [lra|apply pow_le; lra].
           ++ lra.
           ++ rewrite Rabs_R0; lra.
           ++ rewrite Rabs_right; lra.
        -- apply St. intros fuel Hf. rewrite (proj2 (is_pos_fin p _ _ Eu) U). nb.
           eapply runsI_bind; [apply Ru; lia|]. cbv beta. rewrite Pl. nb. try rewrite C1. apply runsI_ret.
      * pose proof C1 as C1'. apply orb_false_iff in C1. destruct C1 as [C1 C2]. rewrite Odd, negb_involutive in C1.
        assert (L' : l < 0).
        { destruct (Req_dec l 0) as [->|]; [|lra]. rewrite (proj2 (is_zero_fin p _ _ El) eq_refl) in C2. discriminate. }
        destruct (neg_fin p _ _ El) as (nl & Enl & Rnl).
        destruct (pos_root (- l) n ltac:(lia) ltac:(lra)) as (sl & Sl & Esl).
        assert (Ml' : moderate p n (- l)) by (destruct Ml as [->|Ml]; [lra|rewrite Rabs_left in Ml by lra; exact Ml]).
        destruct (root_up_acc p SaveUnprotected k debug c ord nl n (- l) sl W Hn2 Enl Ml' ltac:(lra) Esl) as (tl & vl & fl & Etl & Htl & Rl).
        destruct (neg_fin p _ _ Etl) as (ntl & Entl & Rntl).
        exists (mk ntl tu), (Nat.max fl fu). split.
        -- intros t Ht. apply (Fm _ _ _ _ _ Entl Etu) in Ht.
           apply (near_ends x n l u (- sl) su (- vl) vu); auto.
           ++ intros s Hs. split; [|congruence]. rewrite <- Esu. replace l with ((- sl) ^ Z.to_nat n) by (rewrite pow_neg_odd by (auto; lia); lra).
              split; apply pow_odd_mono; auto; lia || lra.
           ++ lra.
           ++ rewrite Rabs_Ropp, Rabs_right; lra.
           ++ rewrite Rabs_right; lra.
        -- apply St. intros fuel Hf. rewrite (proj2 (is_pos_fin p _ _ Eu) U). nb.
           eapply runsI_bind; [apply Ru; lia|]. cbv beta. rewrite Pl. nb. rewrite ?C1'.
           eapply runsI_bind; [apply pure_runsI, Rnl|]. eapply runsI_bind; [apply Rl; lia|].
           eapply runsI_bind; [apply pure_runsI, Rntl|]. apply runsI_ret.
  - assert (Pu : is_pos (up x) = false) by (eapply bool_false; [apply (is_pos_fin p _ _ Eu)|lra]).
    destruct (Req_dec u 0) as [->|U0].
    + destruct (negb (Z.odd n) || is_zero (low x)) eqn:C1.
      * exists (mk zero zero), 0%nat. split.
        -- intros t Ht. apply (Fm _ _ _ _ _ E0 E0) in Ht.
           apply (near_ends x n l 0 0 0 0 0); auto.
           ++ intros s Hs. assert (s = 0) by lra. subst s. rewrite P0. split; lra.
           ++ rewrite Rabs_R0; lra.
           ++ rewrite Rabs_R0; lra.
        -- apply St. intros fuel Hf. rewrite Pu. nb.
           rewrite (proj2 (is_zero_fin p _ _ Eu) eq_refl). rewrite ?C1. apply runsI_ret.
      * pose proof C1 as C1'. apply orb_false_iff in C1. destruct C1 as [C1 C2]. rewrite Odd, negb_involutive in C1.
        assert (L' : l < 0).
        { destruct (Req_dec l 0) as [->|]; [|lra]. rewrite (proj2 (is_zero_fin p _ _ El) eq_refl) in C2. discriminate. }
        destruct (neg_fin p _ _ El) as (nl & Enl & Rnl).
        destruct (pos_root (- l) n ltac:(lia) ltac:(lra)) as (sl & Sl & Esl).
        assert (Ml' : moderate p n (- l)) by (destruct Ml as [->|Ml]; [lra|rewrite Rabs_left in Ml by lra; exact Ml]).
        destruct (root_up_acc p SaveUnprotected k debug c ord nl n (- l) sl W Hn2 Enl Ml' ltac:(lra) Esl) as (tl & vl & fl & Etl & Htl & Rl).
        destruct (neg_fin p _ _ Etl) as (ntl & Entl & Rntl).
        exists (mk ntl zero), fl. split.
        -- intros t Ht. apply (Fm _ _ _ _ _ Entl E0) in Ht.
           apply (near_ends x n l 0 (- sl) 0 (- vl) 0); auto.
           ++ intros s Hs. split; [|congruence]. rewrite <- P0. replace l with ((- sl) ^ Z.to_nat n) by (rewrite pow_neg_odd by (auto; lia); lra).
              split; apply pow_odd_mono; auto; lia || lra.
           ++ lra.
           ++ rewrite Rabs_Ropp, Rabs_right; lra.
           ++ rewrite Rabs_R0; lra.
        -- apply St. intros fuel Hf. rewrite Pu. nb.
           rewrite (proj2 (is_zero_fin p _ _ Eu) eq_refl). rewrite ?C1'.
           eapply runsI_bind; [apply pure_runsI, Rnl|]. eapply runsI_bind; [apply Rl; lia|].
           eapply runsI_bind; [apply pure_runsI, Rntl|]. apply runsI_ret.
    + destruct (Z.even n) eqn:EV; [specialize (HE eq_refl); lra|].
      destruct (neg_fin p _ _ El) as (nl & Enl & Rnl). destruct (neg_fin p _ _ Eu) as (nu & Enu & Rnu).
      destruct (pos_root (- l) n ltac:(lia) ltac:(lra)) as (sl & Sl & Esl).
      destruct (pos_root (- u) n ltac:(lia) ltac:(lra)) as (su & Su & Esu).
      assert (Ml' : moderate p n (- l)) by (destruct Ml as [->|Ml]; [lra|rewrite Rabs_left in Ml by lra; exact Ml]).
      assert (Mu' : moderate p n (- u)) by (destruct Mu as [->|Mu]; [lra|rewrite Rabs_left in Mu by lra; exact Mu]).
      destruct (root_up_acc p SaveUnprotected k debug c ord nl n (- l) sl W Hn2 Enl Ml' ltac:(lra) Esl) as (tl & vl & fl & Etl & Htl & Rl).
      destruct (root_dn_acc p SaveUnprotected k debug c ord nu n (- u) su W Hn2 Enu Mu' ltac:(lra) Esu) as (tu & vu & fu & Etu & Htu & Ru).
      destruct (neg_fin p _ _ Etl) as (ntl & Entl & Rntl). destruct (neg_fin p _ _ Etu) as (ntu & Entu & Rntu).
      exists (mk ntl ntu), (Nat.max fl fu). split.
      * intros t Ht. apply (Fm _ _ _ _ _ Entl Entu) in Ht.
        apply (near_ends x n l u (- sl) (- su) (- vl) (- vu)); auto.
        -- intros s Hs. split; [|congruence].
           replace l with ((- sl) ^ Z.to_nat n) by (rewrite pow_neg_odd by (auto; lia); lra).
           replace u with ((- su) ^ Z.to_nat n) by (rewrite pow_neg_odd by (auto; lia); lra).
           split; apply pow_odd_mono; auto; lia || lra.
        -- assert (su <= sl); [|lra]. apply (pow_le_inv _ _ (Z.to_nat n)); try lia; lra.
        -- rewrite Rabs_Ropp, Rabs_right; lra.
        -- rewrite Rabs_Ropp, Rabs_right; lra.
      * apply St. intros fuel Hf. rewrite Pu. nb.
        rewrite (bool_false _ _ (is_zero_fin p _ _ Eu) U0). rewrite Odd. nb.
        apply runsI_mk_args.
        -- eapply runsI_bind; [apply pure_runsI, Rnl|]. eapply runsI_bind; [apply Rl; lia|]. apply pure_runsI, Rntl.
        -- eapply runsI_bind; [apply pure_runsI, Rnu|]. eapply runsI_bind; [apply Ru; lia|]. apply pure_runsI, Rntu.
Qed.
End NthRootAcc.

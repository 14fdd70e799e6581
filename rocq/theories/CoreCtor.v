(** * Constructors and conversions *)

From Coq Require Import Reals ZArith Lra Lia Bool FunctionalExtensionality.
From Flocq Require Import Core BinarySingleNaN.
From Verif Require Import Outcome Base Checking Interval Utility Arith Arith2 FloatNum Spec ExtR Sem
  FloatSpec FloatPol CoreArith CoreUtil CoreFmod Inst Mirror Agree Mutate.
Local Open Scope R_scope.

Section Ctor.
Context (p : platform) (k : rkind) (debug : bool) (c : ckind) (ord : site -> bool).
Notation N := (fnum p).
Notation TT := (flt (p_T p)).
Notation P := (fpol p Save k debug c ord).
Notation spec := (fpolspec p Save k debug c ord).

(** A source value [v] of meaning [e] that the conversions handle: it converts
    in the direction of the mode, and so does its negation. *)
Definition src_ok (s : source N) (v : U s) (e : ext) : Prop :=
  (forall m, exists t : T N, s_toT s m v = Ok t /\ fval t <> NaN) /\
  (forall d, exists t : T N, s_toT s (dmode d) v = Ok t /\ dr (f := p_T p) d e t) /\
  (k = Opp -> exists nv, s_opp s v = Ok nv /\
     exists t : T N, s_toT s RUP nv = Ok t /\ ru (f := p_T p) (xopp e) t).

Lemma conv_down_ok s v e : src_ok s v e ->
  exists t : T N, RD (N := N) fval e t /\ runsI (fready k) (conv_down (p_ar P) s v) t.
Proof.
  intros (_ & H & O). destruct k.
  - destruct (H Dn) as (t & E & D). exists t. split; [exact D|].
    intros st0 _. exists RDN. split; [exact Logic.I|].
    cbn [fpol p_ar farith arith_std conv_down]. unfold bind, ex_conv, e_ld, under_mode. cbn.
    simpl in E. rewrite E. exact (f_equal (fun z : T N => (Ok z, RDN)) (st_ld p RDN t)).
  - destruct (O eq_refl) as (nv & En & t & E & D). exists (fopp t : T N). split.
    + apply (rd_opp (f := p_T p)). exact D.
    + intros st0 Hs. simpl in Hs. subst st0. exists RUP. split; [reflexivity|].
      cbn [fpol p_ar farith arith_opp conv_down]. unfold bind, ex_conv, e_ld, under_mode.
      rewrite En. cbn. simpl in E. rewrite E.
      transitivity (Ok (fconv (p_X p) (p_T p) RUP (fopp (fconv (p_T p) (p_X p) RNE
        (fconv (p_X p) (p_T p) RUP (fconv (p_T p) (p_X p) RNE t))))) : outcome (T N), RUP); [reflexivity|].
      rewrite (st_ld p), (st_opp_ld p). reflexivity.
Qed.
Lemma conv_up_ok s v e : src_ok s v e ->
  exists t : T N, RU (N := N) fval e t /\ runsI (fready k) (conv_up (p_ar P) s v) t.
Proof.
  intros (_ & H & _). destruct (H Up) as (t & E & D). exists t. split; [exact D|]. destruct k.
  - intros st0 _. exists RUP. split; [exact Logic.I|].
    cbn [fpol p_ar farith arith_std conv_up]. unfold bind, ex_conv, e_ld, under_mode. cbn.
    simpl in E. rewrite E. exact (f_equal (fun z : T N => (Ok z, RUP)) (st_ld p RUP t)).
  - intros st0 Hs. simpl in Hs. subst st0. exists RUP. split; [reflexivity|].
    cbn [fpol p_ar farith arith_opp conv_up]. unfold bind, ex_conv, e_ld, under_mode. cbn.
    simpl in E. rewrite E. exact (f_equal (fun z : T N => (Ok z, RUP)) (st_ld p RUP t)).
Qed.
Lemma is_nan_src_ok s v e : src_ok s v e -> pureM (is_nan_src P s v) false.
Proof.
  intros (H & _) st0. unfold is_nan_src, bind, under_mode. destruct (H st0) as (t & E & D). rewrite E.
  apply is_nan_false; auto.
Qed.

Lemma between_nonempty a b : xle a b -> a <> PInf -> b <> NInf -> nonempty (between a b).
Proof.
  intros A B C. unfold nonempty, between.
  destruct a as [| |x|], b as [| |y|]; simpl in *; try tauto.
  - exists y. lra.
  - exists 0. auto.
  - exists x. lra.
  - exists x. split; auto. lra.
Qed.
(** The interval with directed roundings of the ends is the tightest one. *)
Lemma conv_tight a b (l u : T N) : xle a b -> a <> PInf -> b <> NInf ->
  RD (N := N) fval a l -> RU (N := N) fval b u -> ftightest (mk l u) (between a b).
Proof.
  intros A B C L U. eapply tightest_intro; [| | | |exact L|exact U].
  - intros r [R1 _]. exact R1.
  - apply slim_wlim. unfold between.
    destruct a as [| |x|], b as [| |y|]; simpl in *; try tauto.
    + intros M. exists (Rmin M y). repeat split; [apply Rmin_r|apply Rmin_l].
    + intros M. exists M. repeat split; lra.
    + split; lra.
    + split; auto; lra.
  - intros r [_ R2]. exact R2.
  - apply slim_wlim. unfold between.
    destruct a as [| |x|], b as [| |y|]; simpl in *; try tauto.
    + split; auto; lra.
    + intros M. exists M. repeat split; lra.
    + split; lra.
    + intros M. exists (Rmax M x). repeat split; [apply Rmax_r|apply Rmax_l].
Qed.

Lemma conv_pair_ok s1 v a s2 w b : src_ok s1 v a -> src_ok s2 w b ->
  xle a b -> a <> PInf -> b <> NInf ->
  exists l u : T N, ftightest (mk l u) (between a b) /\ fvalid (mk l u : itv N) /\
    pureM (with_rnd P (let! l := conv_down (p_ar P) s1 v in
             let! u := conv_up (p_ar P) s2 w in ret (mk l u))) (mk l u) /\
    pureM (with_rnd P (let! l := conv_down (p_ar P) s1 v in
             let! u := conv_up (p_ar P) s2 w in ret (l, u))) (l, u).
Proof.
  intros H1 H2 A B C. destruct (conv_down_ok _ _ _ H1) as (l & L & RL). destruct (conv_up_ok _ _ _ H2) as (u & U & RU).
  assert (TI : ftightest (mk l u : itv N) (between a b)) by (apply conv_tight; auto).
  exists l, u. split; [exact TI|]. split; [eapply tightest_valid; [apply between_nonempty; eauto|exact TI]|].
  split; apply (with_rnd_runs P (fready k) spec); (eapply runsI_bind; [exact RL|]); (eapply runsI_bind; [exact RU|]);
    apply runsI_ret.
Qed.

Lemma ctor_src_ok s v e : src_ok s v e -> is_fin e ->
  exists z, returns (ctor_src P s v) z /\ fvalid z /\ ftightest z (between e e) /\
    forall x, m_assign_src P s v x = fun mode => (Ok tt, z, mode).
Proof.
  intros H (r & ->). assert (L : xle (Fin r) (Fin r)) by (simpl; lra).
  destruct (conv_pair_ok _ _ _ _ _ _ H H L) as (l & u & TI & V & R1 & R2); try discriminate.
  exists (mk l u). split; [|split; [exact V|split; [exact TI|]]].
  - intros mode. unfold ctor_src, bind. rewrite (is_nan_src_ok _ _ _ H). apply R1.
  - intros x. apply functional_extensionality. intros mode.
    unfold m_assign_src, obind, ocomp. rewrite (is_nan_src_ok _ _ _ H). rewrite R2. reflexivity.
Qed.
Lemma ctor_src12_ok s1 s2 (le : U s1 -> U s2 -> bool) v w a b : src_ok s1 v a -> src_ok s2 w b ->
  le v w = true -> xle a b -> a <> PInf -> b <> NInf ->
  exists z, returns (ctor_src12 P s1 s2 le v w) z /\ fvalid z /\ ftightest z (between a b).
Proof.
  intros H1 H2 E A B C. destruct (conv_pair_ok _ _ _ _ _ _ H1 H2 A B C) as (l & u & TI & V & R1 & R2).
  exists (mk l u). split; [|split; [exact V|exact TI]].
  intros mode. unfold ctor_src12, bind. rewrite (is_nan_src_ok _ _ _ H1), (is_nan_src_ok _ _ _ H2).
  rewrite E. cbn [orb negb]. apply R1.
Qed.
Lemma c_set_empty_gives : gives_empty c (c_set_empty P).
Proof. destruct c; unfold gives_empty; cbn [allows_empty];
  try (eexists; split; [intros mode; reflexivity|intros K; exact K]); intros mode; reflexivity. Qed.
Lemma gives_ext (m m' : M (itv N)) : (forall s, m s = m' s) -> gives_empty c m' -> gives_empty c m.
Proof.
  intros E. unfold gives_empty. destruct (allows_empty c).
  - intros (z & R & Hz). exists z. split; auto. intros s. rewrite E. apply R.
  - intros R s. rewrite E. apply R.
Qed.
Lemma ctor_src12_empty s1 s2 (le : U s1 -> U s2 -> bool) v w a b : src_ok s1 v a -> src_ok s2 w b ->
  le v w = false -> gives_empty c (ctor_src12 P s1 s2 le v w).
Proof.
  intros H1 H2 E. apply (gives_ext _ (c_set_empty P)); [|apply c_set_empty_gives].
  intros mode. unfold ctor_src12, bind. rewrite (is_nan_src_ok _ _ _ H1), (is_nan_src_ok _ _ _ H2).
  rewrite E. reflexivity.
Qed.

(** ** The sources *)
Lemma src_float_ok g (v : flt g) : fval v <> NaN -> src_ok (src_float p g) v (fval v).
Proof.
  intros Hn. split; [|split].
  - intros m. eexists. split; [reflexivity|]. rewrite fconv_isnan. exact Hn.
  - intros d. eexists. split; [reflexivity|]. apply fconv_dr; auto.
  - intros _. eexists. split; [reflexivity|]. eexists. split; [reflexivity|].
    rewrite <- fval_opp. apply (fconv_dr g (p_T p) Up). rewrite fval_opp, xopp_NaN. exact Hn.
Qed.
Lemma f_of_Z_nn f m z : fval (f_of_Z f m z) <> NaN.
Proof. eapply rounds_not_nan, f_of_Z_rounds. Qed.
Lemma src_sint_ok w v : k = Std \/ v <> (- 2 ^ (w - 1))%Z -> src_ok (src_sint p w) v (Fin (IZR v)).
Proof.
  intros H. split; [|split].
  - intros m. eexists. split; [reflexivity|]. apply f_of_Z_nn.
  - intros d. eexists. split; [reflexivity|]. apply f_of_Z_dr.
  - intros K. assert (E : (v =? - 2 ^ (w - 1))%Z = false) by (apply Z.eqb_neq; destruct H; congruence).
    exists (- v)%Z. split; [cbn [src_sint s_opp]; rewrite E; reflexivity|].
    eexists. split; [reflexivity|]. cbn [xopp]. rewrite <- opp_IZR. apply (f_of_Z_dr (f := p_T p) Up).
Qed.
Lemma src_uint_ok w v : (0 <= v < 2 ^ w)%Z -> k = Std \/ v = 0%Z -> src_ok (src_uint p w) v (Fin (IZR v)).
Proof.
  intros R H. split; [|split].
  - intros m. eexists. split; [reflexivity|]. apply f_of_Z_nn.
  - intros d. eexists. split; [reflexivity|]. apply f_of_Z_dr.
  - intros K. assert (v = 0%Z) by (destruct H; congruence). subst v.
    exists 0%Z. split; [cbn [src_uint s_opp]; reflexivity|].
    eexists. split; [reflexivity|]. cbn [xopp]. rewrite Ropp_0. apply (f_of_Z_dr (f := p_T p) Up).
Qed.
End Ctor.

(** ** Assignments store what the constructors build *)
Section Assign.
Context (p : platform) (k : rkind) (debug : bool) (c : ckind) (ord : site -> bool).
Notation N := (fnum p).
Notation P := (fpol p Save k debug c ord).

Lemma m_set_empty_updated (x : itv N) s : m_set_empty P x s = updated x (c_set_empty P) s.
Proof. destruct c; reflexivity. Qed.
Lemma m_assign_num_updated (x : itv N) r s : m_assign_num P r x s = updated x (ctor_num P (Interval.rd x r)) s.
Proof.
  unfold m_assign_num, updated, ctor_num, obind, ocomp, bind.
  destruct (ck_is_nan (p_ck P) (Interval.rd x r) s) as [[b|e| | |] s'] eqn:E; try reflexivity.
  destruct b; [apply m_set_empty_updated|]. destruct r; reflexivity.
Qed.
Lemma with_rnd_pair (m1 m2 : M (T N)) (x : itv N) s :
  (let (o, s1) := with_rnd P (let! l := m1 in let! u := m2 in ret (l, u)) s in
   match o with
   | Ok lu => (Ok tt, mk (fst lu) (snd lu), s1)
   | Throw e => (Throw e, x, s1) | AssertFail => (AssertFail, x, s1)
   | UB => (UB, x, s1) | NoFuel => (NoFuel, x, s1)
   end) = updated x (with_rnd P (let! l := m1 in let! u := m2 in ret (mk l u))) s.
Proof.
  unfold updated, with_rnd. cbn [p_prot fpol]. unfold bind.
  destruct (rc_get (p_ctl P) s) as [[m|e| | |] s0]; try reflexivity.
  destruct (ar_init (p_ar P) s0) as [[[]|e| | |] s1]; try reflexivity.
  destruct (m1 s1) as [[l|e| | |] s2]; try reflexivity.
  destruct (m2 s2) as [[u|e| | |] s3]; reflexivity.
Qed.
Lemma m_assign_pair (m1 m2 : M (T N)) (x : itv N) s :
  obind (ocomp (fun _ => with_rnd P (let! l := m1 in let! u := m2 in ret (l, u))))
    (fun lu => obind (store_low (fst lu)) (fun _ => store_up (snd lu))) x s =
  updated x (with_rnd P (let! l := m1 in let! u := m2 in ret (mk l u))) s.
Proof.
  rewrite <- with_rnd_pair. unfold obind at 1, ocomp.
  destruct (with_rnd P (let! l := m1 in let! u := m2 in ret (l, u)) s) as [[[l u]|e| | |] s']; reflexivity.
Qed.
Lemma updated_bind {A} (m : M A) (f : A -> M (itv N)) (x : itv N) s : updated x (bind m f) s =
  match m s with
  | (Ok a, s') => updated x (f a) s'
  | (Throw e, s') => (Throw e, x, s')
  | (AssertFail, s') => (AssertFail, x, s')
  | (UB, s') => (UB, x, s')
  | (NoFuel, s') => (NoFuel, x, s')
  end.
Proof. unfold updated, bind. destruct (m s) as [[a|e| | |] s']; reflexivity. Qed.
Lemma m_assign_src_updated (sr : source N) (v : U sr) (x : itv N) s :
  m_assign_src P sr v x s = updated x (ctor_src P sr v) s.
Proof.
  unfold m_assign_src, ctor_src. rewrite updated_bind. unfold obind at 1, ocomp at 1.
  destruct (is_nan_src P sr v s) as [[b|e| | |] s']; try reflexivity.
  destruct b; [apply m_set_empty_updated|]. apply m_assign_pair.
Qed.
Lemma m_assign_policy_updated (P1 : policy N) (r x : itv N) s :
  m_assign_policy P P1 r x s = updated x (ctor_policy P P1 r) s.
Proof.
  unfold m_assign_policy, ctor_policy. destruct ck_is_empty; [apply m_set_empty_updated|reflexivity].
Qed.
Lemma m_assign_itv_updated {N1} (sr : source N) (P1 : policy N1) toU (r : itv N1) (x : itv N) s :
  m_assign_itv P sr P1 toU r x s = updated x (ctor_itv P sr P1 toU r) s.
Proof.
  unfold m_assign_itv, ctor_itv. destruct ck_is_empty; [apply m_set_empty_updated|apply m_assign_pair].
Qed.
End Assign.

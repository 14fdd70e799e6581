(** * Determinism of library calls

    A call has one outcome, whatever the rounding mode at the call, the
    evaluation order and (inside a rounding scope) the protection; proved for
    every operand value, valid or not. *)

From Coq Require Import Reals ZArith Lra Lia Bool Classical.
From Flocq Require Import Core BinarySingleNaN.
From Verif Require Import Outcome Base Checking Interval Utility Arith Arith2 FloatNum Spec ExtR Sem
  FloatSpec FloatPol Mirror.

Section Agree.
Context (p : platform) (debug : bool) (c : ckind).
Notation N := (fnum p).
Notation P k pr ord := (fpol p pr k debug c ord).

Definition good {A} (o : outcome A) : Prop :=
  match o with Ok _ | Throw _ => True | _ => False end.
Definition detI (k : rkind) {A} (m : M A) (o : outcome A) : Prop :=
  forall s, fready k s -> exists s', fready k s' /\ m s = (o, s').
Definition detS {A} (m : M A) (o : outcome A) : Prop := forall s, m s = (o, s).
Definition det (k : rkind) (pr : protection) {A} (m : M A) (o : outcome A) : Prop :=
  match pr with Save => detS m o | _ => detI k m o end.

(** Inside a rounding scope. *)
Definition agreeI {A} (f : policy N -> M A) : Prop :=
  exists o, good o /\ forall k pr ord, detI k (f (P k pr ord)) o.
(** At top level. *)
Definition agree {A} (f : policy N -> M A) : Prop :=
  exists o, good o /\ forall k pr ord, det k pr (f (P k pr ord)) o.
(** The same, touching no rounding mode at all. *)
Definition agreeP {A} (f : policy N -> M A) : Prop :=
  exists o, good o /\ forall k pr ord, detS (f (P k pr ord)) o.

Lemma detS_detI k {A} (m : M A) o : detS m o -> detI k m o.
Proof. intros H s Hs. exists s. auto. Qed.
Lemma detS_det k pr {A} (m : M A) o : detS m o -> det k pr m o.
Proof. destruct pr; auto; apply detS_detI. Qed.
Lemma det_detI k pr {A} (m : M A) o : det k pr m o -> detI k m o.
Proof. destruct pr; auto; apply detS_detI. Qed.

Lemma agreeP_agree {A} (f : policy N -> M A) : agreeP f -> agree f.
Proof. intros (o & G & H). exists o. split; auto. intros. apply detS_det; auto. Qed.
Lemma agree_agreeI {A} (f : policy N -> M A) : agree f -> agreeI f.
Proof. intros (o & G & H). exists o. split; auto. intros. eapply det_detI; eauto. Qed.
(** A call made with the unprotected policy inside a scope. *)
Lemma agree_unprotect {A} (f : policy N -> M A) : agree f -> agreeI (fun Q => f (unprotect Q)).
Proof.
  intros (o & G & H). exists o. split; auto. intros k pr ord.
  apply (det_detI k (unprotected pr)). exact (H k (unprotected pr) ord).
Qed.

Lemma agreeP_ret {A} (a : A) : agreeP (fun _ => ret a).
Proof. exists (Ok a). split; [exact I|]. intros k pr ord s. reflexivity. Qed.
Lemma agreeP_throw {A} e : agreeP (fun _ => @throw A e).
Proof. exists (Throw e). split; [exact I|]. intros k pr ord s. reflexivity. Qed.

Lemma detI_bind k {A B} (m : M A) (g : A -> M B) o1 o2 : detI k m o1 ->
  (match o1 with Ok a => detI k (g a) o2 | Throw e => o2 = Throw e | _ => False end) ->
  detI k (bind m g) o2.
Proof.
  intros H1 H2 s Hs. destruct (H1 s Hs) as (s1 & R1 & E1). unfold bind. rewrite E1.
  destruct o1; try tauto.
  - destruct (H2 s1 R1) as (s2 & R2 & E2). eauto.
  - subst. eauto.
Qed.
Lemma detS_bind {A B} (m : M A) (g : A -> M B) o1 o2 : detS m o1 ->
  (match o1 with Ok a => detS (g a) o2 | Throw e => o2 = Throw e | _ => False end) ->
  detS (bind m g) o2.
Proof.
  intros H1 H2 s. unfold bind. rewrite (H1 s). destruct o1; try tauto.
  - apply H2.
  - subst. reflexivity.
Qed.
Lemma det_bind k pr {A B} (m : M A) (g : A -> M B) o1 o2 : det k pr m o1 ->
  (match o1 with Ok a => det k pr (g a) o2 | Throw e => o2 = Throw e | _ => False end) ->
  det k pr (bind m g) o2.
Proof. destruct pr; [apply detS_bind|apply detI_bind|apply detI_bind]. Qed.

Lemma agreeI_bind {A B} (f : policy N -> M A) (g : policy N -> A -> M B) :
  agreeI f -> (forall a, agreeI (fun Q => g Q a)) -> agreeI (fun Q => bind (f Q) (g Q)).
Proof.
  intros (o1 & G1 & H1) H2. destruct o1 as [a|e| | |]; try destruct G1.
  - destruct (H2 a) as (o2 & G2 & H3). exists o2. split; auto. intros k pr ord.
    eapply detI_bind; [apply H1|]. apply H3.
  - exists (Throw e). split; auto. exact I. intros k pr ord. eapply detI_bind; [apply H1|]. reflexivity.
Qed.
Lemma agree_bind {A B} (f : policy N -> M A) (g : policy N -> A -> M B) :
  agree f -> (forall a, agree (fun Q => g Q a)) -> agree (fun Q => bind (f Q) (g Q)).
Proof.
  intros (o1 & G1 & H1) H2. destruct o1 as [a|e| | |]; try destruct G1.
  - destruct (H2 a) as (o2 & G2 & H3). exists o2. split; auto. intros k pr ord.
    eapply det_bind; [apply H1|]. apply H3.
  - exists (Throw e). split; auto. exact I. intros k pr ord. eapply det_bind; [apply H1|]. reflexivity.
Qed.
Lemma agreeP_bind {A B} (f : policy N -> M A) (g : policy N -> A -> M B) :
  agreeP f -> (forall a, agreeP (fun Q => g Q a)) -> agreeP (fun Q => bind (f Q) (g Q)).
Proof.
  intros (o1 & G1 & H1) H2. destruct o1 as [a|e| | |]; try destruct G1.
  - destruct (H2 a) as (o2 & G2 & H3). exists o2. split; auto. intros k pr ord.
    eapply detS_bind; [apply H1|]. apply H3.
  - exists (Throw e). split; auto. exact I. intros k pr ord. eapply detS_bind; [apply H1|]. reflexivity.
Qed.

Lemma agreeI_if {A} (b : policy N -> bool) (b0 : bool) (f g : policy N -> M A) :
  (forall k pr ord, b (P k pr ord) = b0) -> (b0 = true -> agreeI f) -> (b0 = false -> agreeI g) ->
  agreeI (fun Q => if b Q then f Q else g Q).
Proof.
  intros E Hf Hg. destruct b0; [destruct Hf as (o & G & H)|destruct Hg as (o & G & H)]; auto;
    exists o; (split; [auto|]); intros k pr ord; rewrite E; apply H.
Qed.
Lemma agree_if {A} (b : policy N -> bool) (b0 : bool) (f g : policy N -> M A) :
  (forall k pr ord, b (P k pr ord) = b0) -> (b0 = true -> agree f) -> (b0 = false -> agree g) ->
  agree (fun Q => if b Q then f Q else g Q).
Proof.
  intros E Hf Hg. destruct b0; [destruct Hf as (o & G & H)|destruct Hg as (o & G & H)]; auto;
    exists o; (split; [auto|]); intros k pr ord; rewrite E; apply H.
Qed.
Lemma agreeP_if {A} (b : policy N -> bool) (b0 : bool) (f g : policy N -> M A) :
  (forall k pr ord, b (P k pr ord) = b0) -> (b0 = true -> agreeP f) -> (b0 = false -> agreeP g) ->
  agreeP (fun Q => if b Q then f Q else g Q).
Proof.
  intros E Hf Hg. destruct b0; [destruct Hf as (o & G & H)|destruct Hg as (o & G & H)]; auto;
    exists o; (split; [auto|]); intros k pr ord; rewrite E; apply H.
Qed.

(** Two arguments in unspecified order: both must return. *)
Definition okI {A} (f : policy N -> M A) : Prop :=
  exists a, forall k pr ord, detI k (f (P k pr ord)) (Ok a).
Lemma okI_agreeI {A} (f : policy N -> M A) : okI f -> agreeI f.
Proof. intros (a & H). exists (Ok a). split; [exact I|auto]. Qed.
Lemma okI_args2 {A B} (st : site) (f : policy N -> M A) (g : policy N -> M B) :
  okI f -> okI g -> okI (fun Q => args2 (p_ord Q st) (f Q) (g Q)).
Proof.
  intros (a & Ha) (b & Hb). exists (a, b). intros k pr ord. simpl p_ord.
  destruct (ord st); simpl.
  - eapply detI_bind; [apply Ha|]. eapply detI_bind; [apply Hb|]. apply detS_detI. intros s. reflexivity.
  - eapply detI_bind; [apply Hb|]. eapply detI_bind; [apply Ha|]. apply detS_detI. intros s. reflexivity.
Qed.
Lemma okI_bind {A B} (f : policy N -> M A) (g : policy N -> A -> M B) :
  okI f -> (forall a, okI (fun Q => g Q a)) -> okI (fun Q => bind (f Q) (g Q)).
Proof.
  intros (a & Ha) Hg. destruct (Hg a) as (b & Hb). exists b. intros k pr ord.
  eapply detI_bind; [apply Ha|]. apply Hb.
Qed.
Lemma okI_ret {A} (a : A) : okI (fun _ => ret a).
Proof. exists a. intros k pr ord. apply detS_detI. intros s. reflexivity. Qed.
Lemma okI_mk_args (st : site) (f g : policy N -> M (T N)) :
  okI f -> okI g -> okI (fun Q => mk_args (p_ord Q st) (f Q) (g Q)).
Proof.
  intros Hf Hg. unfold mk_args. apply okI_bind; [apply okI_args2; auto|].
  intros [l u]. apply okI_ret.
Qed.
Lemma okI_if {A} (b : policy N -> bool) (b0 : bool) (f g : policy N -> M A) :
  (forall k pr ord, b (P k pr ord) = b0) -> okI f -> okI g -> okI (fun Q => if b Q then f Q else g Q).
Proof.
  intros E (a & Ha) (a' & Ha'). destruct b0; [exists a|exists a']; intros k pr ord; rewrite E; auto.
Qed.

Ltac bfix := intros; unfold test_input_ii, zero_in, u_empty, test_input_i;
  cbn [p_ck fpol unprotect]; reflexivity.

(** ** Rounding scopes *)
Lemma det_with_rnd k {A} (m : M A) o ord : good o -> detI k m o -> detS (with_rnd (P k Save ord) m) o.
Proof.
  intros G H s. unfold with_rnd; cbn [p_prot fpol].
  destruct (as_init _ _ _ (ps_ar _ _ _ (fpolspec p Save k debug c ord)) s) as (s1 & R1 & E1).
  destruct (H s1 R1) as (s2 & R2 & E2).
  unfold bind at 1. cbn [p_ctl fpol control_hw rc_get]. unfold bind at 1. cbn [p_ar fpol] in E1 |- *.
  rewrite E1. rewrite E2.
  destruct o; try destruct G; reflexivity.
Qed.
Lemma agree_with_rnd {A} (f : policy N -> M A) : agreeI f -> agree (fun Q => with_rnd Q (f Q)).
Proof.
  intros (o & G & H). exists o. split; auto. intros k pr ord.
  destruct pr; [apply det_with_rnd; auto| |]; unfold with_rnd; cbn [p_prot fpol]; apply H.
Qed.

(** ** The directed operations are total, and the same under std and opp *)
Notation TT := (flt (p_T p)).
Notation ld := (fconv (p_T p) (p_X p) RNE).
Notation st m := (fconv (p_X p) (p_T p) m).
Lemma st_ld m (a : TT) : st m (ld a) = a.
Proof.
  assert (E : fval (st m (ld a)) = fval a) by (apply fconv_exact, fval_ld).
  destruct a as [sa|sa| |sa ma ea Ba]; try reflexivity.
  symmetry. apply fval_inj_nz; [auto|].
  simpl. intros [= K]. revert K. apply F2R_neq_0. destruct sa; simpl; lia.
Qed.
Lemma st_opp_ld m (a : TT) : st m (fopp (ld a)) = fopp a.
Proof.
  assert (E : fval (st m (fopp (ld a))) = fval (fopp a)) by (rewrite neg_val, fval_opp; auto).
  destruct a as [sa|sa| |sa ma ea Ba]; try reflexivity.
  symmetry. apply fval_inj_nz; [auto|].
  simpl. intros [= K]. revert K. apply F2R_neq_0. destruct sa; simpl; lia.
Qed.
Lemma st_mirror (x : flt (p_X p)) : st RDN x = fopp (st RUP (fopp x)).
Proof. apply conv_mirror. Qed.
Lemma okI_both {A} (f : policy N -> M A) (a b : A) : a = b ->
  (forall pr ord, detI Std (f (P Std pr ord)) (Ok a)) ->
  (forall pr ord, detI Opp (f (P Opp pr ord)) (Ok b)) -> okI f.
Proof. intros E H1 H2. subst b. exists a. intros [|] pr ord; auto. Qed.
Ltac tot1 := intros pr ord s Hs; simpl in Hs; try subst s; (eexists; split; [|reflexivity]); simpl; auto.
Ltac tot := eapply okI_both; [|tot1|tot1]; try reflexivity.
Lemma ok_add_down a b : okI (fun Q => add_down (p_ar Q) a b).
Proof. tot. cbn. rewrite st_opp_ld, st_mirror, add_mirror, fopp_invol. reflexivity. Qed.
Lemma ok_add_up a b : okI (fun Q => add_up (p_ar Q) a b).
Proof. tot. Qed.
Lemma ok_sub_down a b : okI (fun Q => sub_down (p_ar Q) a b).
Proof. tot. cbn. rewrite st_opp_ld, st_mirror, sub_mirror, fopp_invol. reflexivity. Qed.
Lemma ok_sub_up a b : okI (fun Q => sub_up (p_ar Q) a b).
Proof. tot. Qed.
Lemma ok_mul_down a b : okI (fun Q => mul_down (p_ar Q) a b).
Proof. tot. cbn. rewrite st_opp_ld, st_mirror, mul_mirror, fopp_invol. reflexivity. Qed.
Lemma ok_mul_up a b : okI (fun Q => mul_up (p_ar Q) a b).
Proof. tot. Qed.
Lemma ok_div_down a b : okI (fun Q => div_down (p_ar Q) a b).
Proof. tot. cbn. rewrite st_opp_ld, st_mirror, div_mirror, fopp_invol. reflexivity. Qed.
Lemma ok_div_up a b : okI (fun Q => div_up (p_ar Q) a b).
Proof. tot. Qed.
Lemma ok_median a b : okI (fun Q => ar_median (p_ar Q) a b).
Proof. tot. Qed.
Lemma ok_sqrt_down a : okI (fun Q => sqrt_down (p_ar Q) a).
Proof. tot. Qed.
Lemma ok_sqrt_up a : okI (fun Q => sqrt_up (p_ar Q) a).
Proof. tot. Qed.
Lemma ok_int_down a : okI (fun Q => int_down (p_ar Q) a).
Proof.
  tot. cbn. rewrite !st_opp_ld. rewrite (conv_mirror (p_R p)), rint_mirror, fopp_invol.
  rewrite (conv_mirror (p_T p) (p_R p)), !fopp_invol. reflexivity.
Qed.
Lemma ok_int_up a : okI (fun Q => int_up (p_ar Q) a).
Proof. tot. Qed.
Lemma ok_conv_down g (v : flt g) : okI (fun Q => conv_down (p_ar Q) (src_float p g) v).
Proof. tot. cbn. rewrite st_opp_ld, !st_ld. apply conv_mirror. Qed.
Lemma ok_conv_up g (v : flt g) : okI (fun Q => conv_up (p_ar Q) (src_float p g) v).
Proof. tot. Qed.

Lemma agreeP_neg a : agreeP (fun _ => neg (N := N) a).
Proof.
  destruct (ns_neg _ _ (ps_num _ _ _ (fpolspec p Save Std debug c (fun _ => true))) a) as (t & _ & E).
  exists (Ok t). split; [exact I|]. intros k pr ord. exact E.
Qed.
Lemma ok_neg a : okI (fun _ => neg (N := N) a).
Proof.
  destruct (ns_neg _ _ (ps_num _ _ _ (fpolspec p Save Std debug c (fun _ => true))) a) as (t & _ & E).
  exists t. intros k pr ord. apply detS_detI. exact E.
Qed.
Lemma ok_opp (a : X N) : okI (fun _ => e_opp (N := N) a).
Proof. eexists. intros k pr ord. apply detS_detI. intros s. reflexivity. Qed.

(** ** Checking policies *)
Ltac ck := unfold agreeP, detS; destruct c; (eexists; split; [|intros k pr ord s; reflexivity]; exact I).
Lemma ok_pos_inf : okI (fun Q => ck_pos_inf (p_ck Q)).
Proof.
  destruct (cs_pos_inf _ _ (fckspec p debug c) eq_refl) as (t & _ & E).
  exists t. intros k pr ord. apply detS_detI. exact E.
Qed.
Lemma ok_neg_inf : okI (fun Q => ck_neg_inf (p_ck Q)).
Proof.
  destruct (cs_neg_inf _ _ (fckspec p debug c) eq_refl) as (t & _ & E).
  exists t. intros k pr ord. apply detS_detI. exact E.
Qed.
Lemma agreeP_args2_pure {A B} (st : site) (f : policy N -> M A) (g : policy N -> M B) a b :
  (forall k pr ord, detS (f (P k pr ord)) (Ok a)) -> (forall k pr ord, detS (g (P k pr ord)) (Ok b)) ->
  agreeP (fun Q => args2 (p_ord Q st) (f Q) (g Q)).
Proof.
  intros Ha Hb. exists (Ok (a, b)). split; [exact I|]. intros k pr ord s. simpl p_ord.
  destruct (ord st); unfold args2, bind; rewrite ?Ha, ?Hb, ?Ha; reflexivity.
Qed.
Lemma agreeP_whole : agreeP (fun Q => i_whole Q).
Proof.
  unfold i_whole, mk_args. apply agreeP_bind; [|intros lu; apply agreeP_ret].
  destruct (cs_neg_inf _ _ (fckspec p debug c) eq_refl) as (a & _ & Ea).
  destruct (cs_pos_inf _ _ (fckspec p debug c) eq_refl) as (b & _ & Eb).
  apply (agreeP_args2_pure _ _ _ a b); intros k pr ord; auto.
Qed.
Lemma agreeP_empty_lower : agreeP (fun Q => ck_empty_lower (p_ck Q)).
Proof. ck. Qed.
Lemma agreeP_empty_upper : agreeP (fun Q => ck_empty_upper (p_ck Q)).
Proof. ck. Qed.
Lemma agreeP_empty : agreeP (fun Q => i_empty Q).
Proof.
  unfold agreeP, detS, i_empty, mk_args. destruct c;
  (eexists; split; [|intros k pr ord s; simpl p_ord; destruct (ord (H_interval, 297%Z)); reflexivity]; exact I).
Qed.
Lemma agreeP_empty2 st : agreeP (fun Q => args2 (p_ord Q st) (i_empty Q) (i_empty Q)).
Proof.
  destruct agreeP_empty as (o & G & H). destruct o as [z|e| | |]; try destruct G.
  - exists (Ok (z, z)). split; [exact I|]. intros k pr ord s. simpl p_ord.
    destruct (ord st); unfold args2, bind; rewrite !H; reflexivity.
  - exists (Throw e). split; [exact I|]. intros k pr ord s. simpl p_ord.
    destruct (ord st); unfold args2, bind; rewrite !H; reflexivity.
Qed.
Lemma agreeP_set_empty : agreeP (fun Q => c_set_empty Q).
Proof. unfold c_set_empty. ck. Qed.
Lemma agreeP_is_nan (a : T N) : agreeP (fun Q => ck_is_nan (p_ck Q) a).
Proof.
  unfold agreeP, detS. destruct c; simpl;
    try (eexists; split; [|intros k pr ord s; reflexivity]; exact I);
    unfold bind, ret; simpl; destruct (n_ne (N := N) a a);
    (eexists; split; [|intros k pr ord s; reflexivity]; exact I).
Qed.
(** checking_base::nan(), reached only when the policy recognised an empty
    interval: then it is allowed. *)
Lemma agreeP_nan (x : itv N) : (forall k pr ord, test_input_i (P k pr ord) x = true) ->
  agreeP (fun Q => ck_nan (p_ck Q)).
Proof.
  intros E. specialize (E Std Save (fun _ => true)). unfold agreeP, detS. destruct c; try discriminate E;
    destruct debug; (eexists; split; [|intros k pr ord s; reflexivity]; exact I).
Qed.
Lemma agreeP_test_ni v x : agreeP (fun Q => test_input_ni Q v x).
Proof.
  unfold test_input_ni. apply agreeP_bind; [apply agreeP_is_nan|]. intros [|]; [apply agreeP_ret|].
  exists (Ok (ck_is_empty (fchecking p debug c) (low x) (up x))). split; [exact I|]. intros k pr ord s. reflexivity.
Qed.
Lemma agreeP_test_in v x : agreeP (fun Q => test_input_in Q x v).
Proof.
  unfold test_input_in. eapply agreeP_if; [bfix|intros _; apply agreeP_ret|intros _; apply agreeP_is_nan].
Qed.
Lemma agreeP_test_nn v w : agreeP (fun Q => test_input_nn Q v w).
Proof.
  unfold test_input_nn. apply agreeP_bind; [apply agreeP_is_nan|]. intros [|]; [apply agreeP_ret|apply agreeP_is_nan].
Qed.
Lemma agreeP_test_n v : agreeP (fun Q => test_input_n Q v).
Proof. apply agreeP_is_nan. Qed.

(** ** The operations *)
Ltac okop := first
  [ apply ok_add_down | apply ok_add_up | apply ok_sub_down | apply ok_sub_up
  | apply ok_mul_down | apply ok_mul_up | apply ok_div_down | apply ok_div_up
  | apply ok_median | apply ok_sqrt_down | apply ok_sqrt_up | apply ok_int_down | apply ok_int_up
  | apply ok_pos_inf | apply ok_neg_inf | apply ok_neg | apply ok_opp | apply okI_ret
  | apply ok_conv_down | apply ok_conv_up ].
Ltac okI := repeat first
  [ okop
  | apply okI_mk_args | apply okI_args2
  | apply okI_bind; [|intros ?]
  | eapply okI_if; [bfix| |] ].
(** Top-level structure: pure tests, scopes, empties. *)
Ltac agp := first
  [ apply agreeP_ret | apply agreeP_throw | apply agreeP_empty | apply agreeP_whole | apply agreeP_set_empty
  | apply agreeP_empty2 | apply agreeP_is_nan | apply agreeP_test_ni | apply agreeP_test_in
  | apply agreeP_test_nn | apply agreeP_test_n | apply agreeP_neg ].
Ltac agi := repeat first
  [ solve [apply okI_agreeI; okI]
  | solve [apply agree_agreeI, agreeP_agree; agp]
  | apply agreeI_bind; [|intros ?]
  | eapply agreeI_if; [bfix|intros _|intros _] ].
Ltac ag := repeat first
  [ solve [apply agreeP_agree; agp]
  | apply agree_with_rnd; agi
  | apply agree_bind; [|intros ?]
  | eapply agree_if; [bfix|intros _|intros _] ].

Lemma ag_neg x : agree (fun Q => op_neg Q x).
Proof.
  unfold op_neg. eapply agree_if; [bfix|intros _; ag|intros _].
  unfold mk_args. apply agreeP_agree. apply agreeP_bind; [|intros lu; apply agreeP_ret].
  destruct (ns_neg _ _ (ps_num _ _ _ (fpolspec p Save Std debug c (fun _ => true))) (up x)) as (a & _ & Ea).
  destruct (ns_neg _ _ (ps_num _ _ _ (fpolspec p Save Std debug c (fun _ => true))) (low x)) as (b & _ & Eb).
  apply (agreeP_args2_pure _ _ _ a b); intros k pr ord; auto.
Qed.
Lemma ag_add x y : agree (fun Q => op_add Q x y).
Proof. unfold op_add. ag. Qed.
Lemma ag_add_ni v y : agree (fun Q => op_add_ni Q v y).
Proof. unfold op_add_ni. ag. Qed.
Lemma ag_add_in x v : agree (fun Q => op_add_in Q x v).
Proof. unfold op_add_in. apply ag_add_ni. Qed.
Lemma ag_sub x y : agree (fun Q => op_sub Q x y).
Proof. unfold op_sub. ag. Qed.
Lemma ag_sub_ni v y : agree (fun Q => op_sub_ni Q v y).
Proof. unfold op_sub_ni. ag. Qed.
Lemma ag_sub_in x v : agree (fun Q => op_sub_in Q x v).
Proof. unfold op_sub_in. ag. Qed.
Lemma ag_mul x y : agree (fun Q => op_mul Q x y).
Proof. unfold op_mul. ag. Qed.
Lemma ag_mul_ni v y : agree (fun Q => op_mul_ni Q v y).
Proof. unfold op_mul_ni. ag. Qed.
Lemma ag_mul_in x v : agree (fun Q => op_mul_in Q x v).
Proof. unfold op_mul_in. apply ag_mul_ni. Qed.
Lemma ag_div x y : agree (fun Q => op_div Q x y).
Proof. unfold op_div, div_zero, div_negative, div_positive, div_non_zero. ag. Qed.
Lemma ag_div_ni v y : agree (fun Q => op_div_ni Q v y).
Proof. unfold op_div_ni, div_zero_n, div_negative_n, div_positive_n, div_non_zero_n. ag. Qed.
Lemma ag_div_in x v : agree (fun Q => op_div_in Q x v).
Proof. unfold op_div_in. ag. Qed.

Lemma ag_checked_lower x : agree (fun Q => checked_lower Q x).
Proof.
  unfold checked_lower, u_empty. eapply agree_if; [bfix|intros E|intros _; ag].
  apply agreeP_agree, (agreeP_nan x). intros k pr ord. rewrite <- E. reflexivity.
Qed.
Lemma ag_checked_upper x : agree (fun Q => checked_upper Q x).
Proof.
  unfold checked_upper, u_empty. eapply agree_if; [bfix|intros E|intros _; ag].
  apply agreeP_agree, (agreeP_nan x). intros k pr ord. rewrite <- E. reflexivity.
Qed.
Lemma ag_width x : agree (fun Q => width Q x).
Proof. unfold width. ag. Qed.
Lemma ag_median x : agree (fun Q => median Q x).
Proof.
  unfold median. eapply agree_if; [bfix|intros E|intros _; ag].
  apply agreeP_agree, (agreeP_nan x). intros k pr ord. rewrite <- E. reflexivity.
Qed.
Lemma ag_norm x : agree (fun Q => norm Q x).
Proof.
  unfold norm. eapply agree_if; [bfix|intros E|intros _; ag].
  apply agreeP_agree, (agreeP_nan x). intros k pr ord. rewrite <- E. reflexivity.
Qed.
Lemma ag_widen x v : agree (fun Q => widen Q x v).
Proof. unfold widen. ag. Qed.
Lemma ag_in v x : agree (fun Q => u_in Q v x).
Proof. unfold u_in. ag. Qed.
Lemma ag_intersect x y : agree (fun Q => intersect Q x y).
Proof. unfold intersect. ag. Qed.
Lemma ag_hull x y : agree (fun Q => hull Q x y).
Proof. unfold hull. ag. Qed.
Lemma ag_hull_in x v : agree (fun Q => hull_in Q x v).
Proof. unfold hull_in. ag. Qed.
Lemma ag_hull_ni x v : agree (fun Q => hull_ni Q v x).
Proof. unfold hull_ni. ag. Qed.
Lemma ag_hull_nn v w : agree (fun Q => hull_nn Q v w).
Proof. unfold hull_nn, i_hull. ag. Qed.
Lemma ag_bisect x : agree (fun Q => bisect Q x).
Proof.
  unfold bisect. eapply agree_if; [bfix|intros _; ag|intros _].
  apply agree_bind; [apply ag_median|intros m; ag].
Qed.
Lemma ag_abs x : agree (fun Q => u_abs Q x).
Proof.
  unfold u_abs. eapply agree_if; [bfix|intros _; ag|intros _].
  eapply agree_if; [bfix|intros _; ag|intros _].
  eapply agree_if; [bfix|intros _; apply ag_neg|intros _; ag].
Qed.
Lemma ag_max x y : agree (fun Q => u_max Q x y).
Proof. unfold u_max. ag. Qed.
Lemma ag_max_in x v : agree (fun Q => u_max_in Q x v).
Proof. unfold u_max_in. ag. Qed.
Lemma ag_max_ni v x : agree (fun Q => u_max_ni Q v x).
Proof. unfold u_max_ni. ag. Qed.
Lemma ag_min x y : agree (fun Q => u_min Q x y).
Proof. unfold u_min. ag. Qed.
Lemma ag_min_in x v : agree (fun Q => u_min_in Q x v).
Proof. unfold u_min_in. ag. Qed.
Lemma ag_min_ni v x : agree (fun Q => u_min_ni Q v x).
Proof. unfold u_min_ni. ag. Qed.

Lemma ag_ctor_default : agree (fun Q => ctor_default (N := N)).
Proof. unfold ctor_default. ag. Qed.
Lemma ag_ctor_num v : agree (fun Q => ctor_num Q v).
Proof. unfold ctor_num. ag. Qed.
Lemma ag_ctor_num2 v w : agree (fun Q => ctor_num2 Q v w).
Proof. unfold ctor_num2. ag. Qed.
Lemma ag_ctor_policy x : agree (fun Q => ctor_policy Q Q x).
Proof. unfold ctor_policy. ag. Qed.
Lemma ag_ctor_unprotect x : agree (fun Q => ctor_policy Q (unprotect Q) x).
Proof. unfold ctor_policy. ag. Qed.

(** fmod converts its result to the return type, which is another type for a
    protected policy and the same type for an unprotected one ([ctor_back]).
    Calls agree when the protection is the same. *)
Definition agree_at (pr : protection) {A} (f : policy N -> M A) : Prop :=
  exists o, good o /\ forall k ord, det k pr (f (P k pr ord)) o.
Lemma agree_agree_at pr {A} (f : policy N -> M A) : agree f -> agree_at pr f.
Proof. intros (o & G & H). exists o. split; [exact G|]. intros k ord. apply H. Qed.

Definition fmod_by (b : policy N -> itv N -> M (itv N)) (Q : policy N) (x y : itv N) : M (itv N) :=
  if test_input_ii Q x y then i_empty Q else
  with_rnd Q (
    let yb := if is_neg (low x) then low y else up y in
    let! q := div_down (p_ar Q) (low x) yb in
    let! n := int_down (p_ar Q) q in
    let! w := op_mul_ni (unprotect Q) n y in
    let! z := op_sub (unprotect Q) x w in
    b Q z).
Definition fmod_in_by (b : policy N -> itv N -> M (itv N)) (Q : policy N) (x : itv N) (y : T N) : M (itv N) :=
  let! e := test_input_in Q x y in
  if e then i_empty Q else
  with_rnd Q (
    let! q := div_down (p_ar Q) (low x) y in
    let! n := int_down (p_ar Q) q in
    let! iy := ctor_num (unprotect Q) y in
    let! w := op_mul_ni (unprotect Q) n iy in
    let! z := op_sub (unprotect Q) x w in
    b Q z).
Definition fmod_ni_by (b : policy N -> itv N -> M (itv N)) (Q : policy N) (x : T N) (y : itv N) : M (itv N) :=
  let! e := test_input_ni Q x y in
  if e then i_empty Q else
  with_rnd Q (
    let yb := if is_neg x then low y else up y in
    let! q := div_down (p_ar Q) x yb in
    let! n := int_down (p_ar Q) q in
    let! w := op_mul_ni (unprotect Q) n y in
    let! z := op_sub_ni (unprotect Q) x w in
    b Q z).
Definition by_policy (Q : policy N) (z : itv N) : M (itv N) := ctor_policy Q (unprotect Q) z.
Definition by_copy (Q : policy N) (z : itv N) : M (itv N) := ctor_copy z.
Lemma ag_by_copy x : agree (fun Q => by_copy Q x).
Proof. unfold by_copy, ctor_copy. ag. Qed.

Lemma ag_fmod_by b x y : (forall z, agree (fun Q => b Q z)) -> agree (fun Q => fmod_by b Q x y).
Proof.
  intros Hb. unfold fmod_by. eapply agree_if; [bfix|intros _; ag|intros _].
  apply agree_with_rnd. apply agreeI_bind; [agi|intros q]. apply agreeI_bind; [agi|intros n].
  apply agreeI_bind; [apply (agree_unprotect (fun Q => op_mul_ni Q n y)), ag_mul_ni|intros z].
  apply agreeI_bind; [apply (agree_unprotect (fun Q => op_sub Q x z)), ag_sub|intros w].
  apply agree_agreeI, Hb.
Qed.
Lemma ag_fmod_in_by b x v : (forall z, agree (fun Q => b Q z)) -> agree (fun Q => fmod_in_by b Q x v).
Proof.
  intros Hb. unfold fmod_in_by. apply agree_bind; [ag|intros [|]]; [ag|].
  apply agree_with_rnd. apply agreeI_bind; [agi|intros q]. apply agreeI_bind; [agi|intros n].
  apply agreeI_bind; [apply (agree_unprotect (fun Q => ctor_num Q v)), ag_ctor_num|intros iy].
  apply agreeI_bind; [apply (agree_unprotect (fun Q => op_mul_ni Q n iy)), ag_mul_ni|intros z].
  apply agreeI_bind; [apply (agree_unprotect (fun Q => op_sub Q x z)), ag_sub|intros w].
  apply agree_agreeI, Hb.
Qed.
Lemma ag_fmod_ni_by b v y : (forall z, agree (fun Q => b Q z)) -> agree (fun Q => fmod_ni_by b Q v y).
Proof.
  intros Hb. unfold fmod_ni_by. apply agree_bind; [ag|intros [|]]; [ag|].
  apply agree_with_rnd. apply agreeI_bind; [agi|intros q]. apply agreeI_bind; [agi|intros n].
  apply agreeI_bind; [apply (agree_unprotect (fun Q => op_mul_ni Q n y)), ag_mul_ni|intros z].
  apply agreeI_bind; [apply (agree_unprotect (fun Q => op_sub_ni Q v z)), ag_sub_ni|intros w].
  apply agree_agreeI, Hb.
Qed.
Lemma agree_at_by pr (f : (policy N -> itv N -> M (itv N)) -> policy N -> M (itv N)) (g : policy N -> M (itv N)) :
  (forall b, (forall z, agree (fun Q => b Q z)) -> agree (f b)) ->
  (forall k ord, g (P k pr ord) = f (match pr with Save => by_policy | _ => by_copy end) (P k pr ord)) ->
  agree_at pr g.
Proof.
  intros Hf E. destruct (Hf (match pr with Save => by_policy | _ => by_copy end)) as (o & G & H).
  { destruct pr; intros z; [apply ag_ctor_unprotect|apply ag_by_copy|apply ag_by_copy]. }
  exists o. split; [exact G|]. intros k ord. rewrite E. apply H.
Qed.
Lemma ag_fmod pr x y : agree_at pr (fun Q => fmod Q x y).
Proof.
  apply (agree_at_by pr (fun b Q => fmod_by b Q x y)); [intros b; apply ag_fmod_by|]. intros k ord. destruct pr; reflexivity.
Qed.
Lemma ag_fmod_in pr x v : agree_at pr (fun Q => fmod_in Q x v).
Proof.
  apply (agree_at_by pr (fun b Q => fmod_in_by b Q x v)); [intros b; apply ag_fmod_in_by|]. intros k ord. destruct pr; reflexivity.
Qed.
Lemma ag_fmod_ni pr v y : agree_at pr (fun Q => fmod_ni Q v y).
Proof.
  apply (agree_at_by pr (fun b Q => fmod_ni_by b Q v y)); [intros b; apply ag_fmod_ni_by|]. intros k ord. destruct pr; reflexivity.
Qed.

(** If the converted result is not empty, the conversion did nothing. *)
Lemma set_empty_not_xle (Q : policy N) (z : itv N) s : p_ck Q = fchecking p debug c ->
  fst (c_set_empty Q s) = Ok z -> ~ xle (fval (low z)) (fval (up z)).
Proof.
  intros EQ E. destruct (cs_action _ _ (ps_ck _ _ _ (fpolspec p Save Std debug c (fun _ => true)))) as (o & [l u L U K _|e L U]);
  unfold c_set_empty, bind in E; rewrite EQ in E; cbn [p_ck fpol] in L, U; rewrite (L s) in E; cbn [fst] in E.
  - unfold bind in E. rewrite (U s) in E. cbn [fst ret] in E. injection E as <-. exact K.
  - discriminate.
Qed.
Definition keeps (m1 m2 : M (itv N)) : Prop := forall s z s', m1 s = (Ok z, s') ->
  xle (fval (low z)) (fval (up z)) -> m2 s = (Ok z, s').
Lemma keeps_bind {A} (m : M A) (g1 g2 : A -> M (itv N)) : (forall a, keeps (g1 a) (g2 a)) ->
  keeps (bind m g1) (bind m g2).
Proof.
  intros H s z s' E K. unfold bind in *. destruct (m s) as [[a|e| | |] s1]; try discriminate. apply H; auto.
Qed.
Lemma keeps_by (Q : policy N) w : p_ck Q = fchecking p debug c -> keeps (by_policy Q w) (by_copy Q w).
Proof.
  intros EQ s z s' E K. unfold by_policy, ctor_policy in E. change (p_ck (unprotect Q)) with (p_ck Q) in E.
  destruct (ck_is_empty (p_ck Q) (low w) (up w)); [|exact E].
  exfalso. apply (set_empty_not_xle Q z s EQ); [|exact K]. rewrite E. reflexivity.
Qed.
Lemma agree_by (f : (policy N -> itv N -> M (itv N)) -> policy N -> M (itv N)) (g : policy N -> M (itv N)) z :
  (forall b, (forall z, agree (fun Q => b Q z)) -> agree (f b)) ->
  (forall k pr ord, g (P k pr ord) = f (match pr with Save => by_policy | _ => by_copy end) (P k pr ord)) ->
  keeps (f by_policy (P Std SaveNothing (fun _ => true))) (f by_copy (P Std SaveNothing (fun _ => true))) ->
  forall k0 ord0, returns (g (P k0 Save ord0)) z -> ~ fempty z -> agree g.
Proof.
  intros Hf E K k0 ord0 R NE.
  destruct (Hf by_policy ag_ctor_unprotect) as (o1 & G1 & H1). destruct (Hf by_copy ag_by_copy) as (o2 & G2 & H2).
  assert (E1 : o1 = Ok z).
  { pose proof (H1 k0 Save ord0 RNE) as A. pose proof (R RNE) as B. rewrite E in B.
    pose proof (eq_trans (eq_sym A) B) as D. injection D. auto. }
  subst o1. assert (E2 : o2 = Ok z).
  { destruct (H1 Std SaveNothing (fun _ => true) RUP) as (s1 & _ & F1); [exact Logic.I|].
    destruct (H2 Std SaveNothing (fun _ => true) RUP) as (s2 & _ & F2); [exact Logic.I|].
    pose proof (K _ _ _ F1 (NNPP _ NE)) as F3.
    pose proof (eq_trans (eq_sym F2) F3) as D. injection D. auto. }
  subst o2. exists (Ok z). split; [exact Logic.I|]. intros k pr ord. rewrite E. destruct pr; [apply (H1 k Save)|apply (H2 k SaveUnprotected)|apply (H2 k SaveNothing)].
Qed.
Lemma ag_fmod_nonempty x y z k0 ord0 : returns (fmod (P k0 Save ord0) x y) z -> ~ fempty z -> agree (fun Q => fmod Q x y).
Proof.
  intros R NE. refine (agree_by (fun b Q => fmod_by b Q x y) (fun Q => fmod Q x y) z _ _ _ k0 ord0 R NE); [intros b; apply ag_fmod_by|intros k pr ord; destruct pr; reflexivity|].
  intros s. unfold fmod_by. destruct (test_input_ii _ x y); [auto|]. revert s.
  unfold with_rnd. cbn [p_prot fpol]. do 4 (apply keeps_bind; intros ?). apply keeps_by. reflexivity.
Qed.
Lemma ag_fmod_in_nonempty x v z k0 ord0 : returns (fmod_in (P k0 Save ord0) x v) z -> ~ fempty z -> agree (fun Q => fmod_in Q x v).
Proof.
  intros R NE. refine (agree_by (fun b Q => fmod_in_by b Q x v) (fun Q => fmod_in Q x v) z _ _ _ k0 ord0 R NE); [intros b; apply ag_fmod_in_by|intros k pr ord; destruct pr; reflexivity|].
  unfold fmod_in_by. apply keeps_bind. intros [|] s; [auto|]. revert s.
  unfold with_rnd. cbn [p_prot fpol]. do 5 (apply keeps_bind; intros ?). apply keeps_by. reflexivity.
Qed.
Lemma ag_fmod_ni_nonempty v y z k0 ord0 : returns (fmod_ni (P k0 Save ord0) v y) z -> ~ fempty z -> agree (fun Q => fmod_ni Q v y).
Proof.
  intros R NE. refine (agree_by (fun b Q => fmod_ni_by b Q v y) (fun Q => fmod_ni Q v y) z _ _ _ k0 ord0 R NE); [intros b; apply ag_fmod_ni_by|intros k pr ord; destruct pr; reflexivity|].
  unfold fmod_ni_by. apply keeps_bind. intros [|] s; [auto|]. revert s.
  unfold with_rnd. cbn [p_prot fpol]. do 4 (apply keeps_bind; intros ?). apply keeps_by. reflexivity.
Qed.
Lemma ag_division_part1 x y : agree (fun Q => division_part1 Q x y).
Proof.
  unfold division_part1, div_zero_part1, div_negative, div_positive, div_non_zero. ag.
Qed.
Lemma ag_division_part2 x y b : agree (fun Q => division_part2 Q x y b).
Proof. unfold division_part2, div_zero_part2. ag. Qed.
Lemma ag_inverse x : agree (fun Q => multiplicative_inverse Q x).
Proof. unfold multiplicative_inverse. ag. Qed.

Lemma ok_pow_loop (mul : policy N -> T N -> T N -> M (T N)) :
  (forall a b, okI (fun Q => mul Q a b)) ->
  forall n x y, okI (fun Q => pow_loop (mul Q) x y n).
Proof.
  intros Hm n. induction n as [n IH|n IH|]; intros x y; simpl.
  - apply okI_bind; [apply Hm|intros x']. apply okI_bind; [apply Hm|intros y']. apply IH.
  - apply okI_bind; [apply Hm|intros x']. apply IH.
  - apply okI_bind; [apply Hm|intros x']. apply Hm.
Qed.
Lemma ok_pow_dn x n : okI (fun Q => pow_dn Q x n).
Proof.
  unfold pow_dn, pow_aux. destruct (Z.shiftr n 1); try apply okI_ret.
  apply (ok_pow_loop (fun Q => mul_down (p_ar Q))). intros. apply ok_mul_down.
Qed.
Lemma ok_pow_up x n : okI (fun Q => pow_up Q x n).
Proof.
  unfold pow_up, pow_aux. destruct (Z.shiftr n 1); try apply okI_ret.
  apply (ok_pow_loop (fun Q => mul_up (p_ar Q))). intros. apply ok_mul_up.
Qed.
Ltac okpow := repeat first
  [ okop | apply ok_pow_dn | apply ok_pow_up
  | apply okI_mk_args | apply okI_args2
  | apply okI_bind; [|intros ?]
  | eapply okI_if; [bfix| |] ].
Lemma ag_pow_pos x n : agree (fun Q => pow_pos Q x n).
Proof. unfold pow_pos. apply agree_with_rnd, okI_agreeI. okpow. Qed.
Lemma ag_pow x n : n <> int_min -> agree (fun Q => Arith2.pow Q x n).
Proof.
  intros Hn. unfold Arith2.pow. eapply agree_if; [bfix|intros _; ag|intros _].
  eapply agree_if; [bfix|intros _|intros _].
  - eapply agree_if; [bfix|intros _; ag|intros _; apply ag_ctor_num].
  - eapply agree_if; [bfix|intros _|intros _; apply ag_pow_pos].
    eapply agree_if; [bfix|intros E; apply Z.eqb_eq in E; contradiction|intros _].
    apply agree_bind; [apply ag_pow_pos|intros z; apply ag_inverse].
Qed.
Lemma ag_sqrt x : agree (fun Q => i_sqrt Q x).
Proof. unfold i_sqrt. ag. Qed.
Lemma ag_square x : agree (fun Q => square Q x).
Proof. unfold square. ag. Qed.
Lemma ag_n_add v w : agree (fun Q => n_add Q v w).
Proof. unfold n_add. ag. Qed.
Lemma ag_n_sub v w : agree (fun Q => n_sub Q v w).
Proof. unfold n_sub. ag. Qed.
Lemma ag_n_mul v w : agree (fun Q => n_mul Q v w).
Proof. unfold n_mul. ag. Qed.
Lemma ag_n_div v w : agree (fun Q => n_div Q v w).
Proof. unfold n_div. ag. Qed.

(** Conversions from another floating-point format. *)
Lemma rounds_not_nan f m r (t : flt f) : rounds m r t -> fval t <> NaN.
Proof.
  unfold rounds. destruct Rlt_bool.
  - intros [F _]. rewrite fval_finite by auto. discriminate.
  - intros (s & _ & E) K. destruct (fval_cases t) as [[_ ->]|[[E' _]|[[E' _]|[E' _]]]]; try congruence.
    simpl in E. unfold binary_overflow in E. destruct (overflow_to_inf m s); discriminate.
Qed.
Lemma fconv_isnan f g m (v : flt f) : fval (fconv f g m v) = NaN <-> fval v = NaN.
Proof.
  destruct (fval_cases v) as [[E F]|[[E F]|[[E F]|[E F]]]]; rewrite E; subst.
  - simpl. tauto.
  - simpl. split; discriminate.
  - simpl. split; discriminate.
  - split; [|discriminate]. intros K. exfalso. eapply rounds_not_nan; [apply (fconv_rounds f g m v F)|exact K].
Qed.
Lemma is_nan_only (t t' : T N) : (fval t = NaN <-> fval t' = NaN) ->
  forall s, ck_is_nan (fchecking p debug c) t s = ck_is_nan (fchecking p debug c) t' s.
Proof.
  intros E s.
  assert (B : forall a : T N, n_ne a a = true <-> fval a = NaN).
  { intros a. unfold n_ne. change (n_eq N a a) with (Beqb (a : flt (p_T p)) a). rewrite negb_true_iff.
    pose proof (Beqb_fval (a : flt (p_T p)) a) as K. destruct (Beqb (a : flt (p_T p)) a).
    - split; [discriminate|]. intros Q. destruct (proj1 K eq_refl). contradiction.
    - split; [|reflexivity]. intros _. destruct (fval_cases (a : flt (p_T p))) as [[Q _]|[[Q _]|[[Q _]|[Q _]]]]; auto;
      (assert (false = true); [|discriminate]; apply K; split; [reflexivity|congruence]). }
  assert (NE : n_ne t t = n_ne t' t').
  { pose proof (B t). pose proof (B t'). destruct (n_ne t t), (n_ne t' t'); try reflexivity;
      exfalso; intuition congruence. }
  destruct c; simpl; unfold bind, ret; simpl; rewrite ?NE; reflexivity.
Qed.
Lemma agreeP_is_nan_src g (v : flt g) : agreeP (fun Q => is_nan_src Q (src_float p g) v).
Proof.
  destruct (agreeP_is_nan (fconv g (p_T p) RNE v : T N)) as (o & G & H). exists o. split; auto.
  intros k pr ord s. unfold is_nan_src, under_mode, bind. cbn [s_toT src_float].
  rewrite <- (H k pr ord s). apply is_nan_only. rewrite !fconv_isnan. tauto.
Qed.
Lemma ag_ctor_float g (v : flt g) : agree (fun Q => ctor_src Q (src_float p g) v).
Proof.
  unfold ctor_src. apply agree_bind; [apply agreeP_agree, agreeP_is_nan_src|intros b].
  eapply agree_if; [bfix|intros _; ag|intros _]. apply agree_with_rnd, okI_agreeI. okI.
Qed.
Lemma ag_ctor_float2 g (v w : flt g) : agree (fun Q => ctor_src2 Q (src_float p g) v w).
Proof.
  unfold ctor_src2, ctor_src12. apply agree_bind; [apply agreeP_agree, agreeP_is_nan_src|intros b1].
  apply agree_bind; [|intros b].
  - eapply agree_if; [bfix|intros _; ag|intros _; apply agreeP_agree, agreeP_is_nan_src].
  - eapply agree_if; [bfix|intros _; ag|intros _]. apply agree_with_rnd, okI_agreeI. okI.
Qed.

(** Comparisons. *)
Lemma agreeP_iholder (x : itv N) : agree (fun Q => interval_holder Q x).
Proof. unfold interval_holder, cerr. ag. Qed.
Lemma agreeP_nholder (v : T N) : agree (fun Q => number_holder Q v).
Proof. unfold number_holder, cerr. ag. Qed.
Ltac cmp := apply agree_bind; [first [apply agreeP_iholder|apply agreeP_nholder]|intros r];
  unfold cerr; ag.
Lemma ag_cmp_lt x y : agree (fun Q => cmp_lt Q Q x y).
Proof. unfold cmp_lt. cmp. Qed.
Lemma ag_cmp_gt x y : agree (fun Q => cmp_gt Q Q x y).
Proof. unfold cmp_gt. cmp. Qed.
Lemma ag_cmp_le x y : agree (fun Q => cmp_le Q Q x y).
Proof. unfold cmp_le. cmp. Qed.
Lemma ag_cmp_ge x y : agree (fun Q => cmp_ge Q Q x y).
Proof. unfold cmp_ge. cmp. Qed.
Lemma ag_cmp_eq x y : agree (fun Q => cmp_eq Q Q x y).
Proof. unfold cmp_eq. cmp. Qed.
Lemma ag_cmp_ne x y : agree (fun Q => cmp_ne Q Q x y).
Proof. unfold cmp_ne. cmp. Qed.
Lemma ag_cmpn_lt x v : agree (fun Q => cmpn_lt Q x v).
Proof. unfold cmpn_lt. cmp. Qed.
Lemma ag_cmpn_gt x v : agree (fun Q => cmpn_gt Q x v).
Proof. unfold cmpn_gt. cmp. Qed.
Lemma ag_cmpn_le x v : agree (fun Q => cmpn_le Q x v).
Proof. unfold cmpn_le. cmp. Qed.
Lemma ag_cmpn_ge x v : agree (fun Q => cmpn_ge Q x v).
Proof. unfold cmpn_ge. cmp. Qed.
Lemma ag_cmpn_eq x v : agree (fun Q => cmpn_eq Q x v).
Proof. unfold cmpn_eq. cmp. Qed.
Lemma ag_cmpn_ne x v : agree (fun Q => cmpn_ne Q x v).
Proof. unfold cmpn_ne. cmp. Qed.
End Agree.

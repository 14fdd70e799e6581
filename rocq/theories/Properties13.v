(** * Property C54: rounding-control back ends *)

From Coq Require Import ZArith Lia Bool List.
From Verif Require Import Outcome HwControl SpecHw.
Import ListNotations.
Local Open Scope Z_scope.

(** Every back end that writes a control register: GNU and Borland and Microsoft
    x86 (plain and "fast"), PowerPC, SPARC, Alpha. *)
Definition is_backend (b : backend) : Prop :=
  In b [x86gcc rnd_mode; x86gcc rnd_mode_f; x86gcc rnd_mode_d; x86gcc rnd_mode_l; bcc;
        msvc false rnd_mode; msvc true rnd_mode; msvc false rnd_mode_f; msvc true rnd_mode_f;
        msvc false rnd_mode_d; msvc true rnd_mode_d; msvc false rnd_mode_l; msvc true rnd_mode_l;
        sparc; alpha] \/
  exists high, 0 <= high < 2 ^ 32 /\ b = ppc high.

(** *** Bits *)
Lemma field2_bits w lo : 0 <= lo ->
  field w lo 2 = Z.b2z (Z.testbit w lo) + 2 * Z.b2z (Z.testbit w (lo + 1)).
Proof.
  intros H. unfold field. rewrite !Z.testbit_spec' by lia.
  rewrite Z.pow_add_r by lia. change (2 ^ 1) with 2. change (2 ^ 2) with 4.
  rewrite <- Z.div_div by lia. set (q := w / 2 ^ lo).
  pose proof (Z.div_mod q 2). pose proof (Z.mod_pos_bound q 2). pose proof (Z.div_mod (q / 2) 2).
  pose proof (Z.mod_pos_bound (q / 2) 2). symmetry. apply (Z.mod_unique_pos _ _ (q / 2 / 2)); lia.
Qed.
Lemma field2_ext w w' lo : 0 <= lo -> Z.testbit w lo = Z.testbit w' lo ->
  Z.testbit w (lo + 1) = Z.testbit w' (lo + 1) -> field w lo 2 = field w' lo 2.
Proof. intros. rewrite !field2_bits by auto. congruence. Qed.
(** A word masked with one bit. *)
Lemma bit_cases w k : 0 <= k -> Z.land w (2 ^ k) = 0 \/ Z.land w (2 ^ k) = 2 ^ k.
Proof.
  intros Hk. destruct (Z.testbit w k) eqn:E; [right|left]; apply Z.bits_inj'; intros n Hn;
    rewrite Z.land_spec, Z.pow2_bits_eqb by lia; rewrite ?Z.bits_0;
    destruct (Z.eqb_spec k n); subst; rewrite ?E; auto; rewrite andb_false_r; reflexivity.
Qed.

Lemma register_bound a w : register a w -> w mod 2 ^ width_of a = w.
Proof. intros H. apply Z.mod_small, H. Qed.

(** *** Microsoft's word: only eleven bits matter *)
Definition ms_mask := 0xF031F.
Lemma land_sub n m b : Z.land m b = b -> Z.land (Z.land n m) b = Z.land n b.
Proof. intros E. rewrite <- Z.land_assoc, E. reflexivity. Qed.
Lemma msvc2hard_mask n : msvc2hard (Z.land n ms_mask) = msvc2hard n.
Proof. unfold msvc2hard, flag. rewrite !land_sub by reflexivity. reflexivity. Qed.

(** The values of [n & mask], bit by bit. *)
Fixpoint sub_masks (l : list Z) : list Z :=
  match l with
  | [] => [0]
  | k :: q => let r := sub_masks q in r ++ map (Z.lor (2 ^ k)) r
  end.
Fixpoint of_bits (l : list Z) : Z := match l with [] => 0 | k :: q => Z.lor (2 ^ k) (of_bits q) end.
Lemma sub_masks_all n l : Forall (Z.le 0) l -> In (Z.land n (of_bits l)) (sub_masks l).
Proof.
  induction l as [|k q IH]; intros F; simpl.
  - left. rewrite Z.land_0_r. reflexivity.
  - inversion F; subst. specialize (IH H2). rewrite Z.land_lor_distr_r. apply in_or_app.
    destruct (bit_cases n k H1) as [E|E]; rewrite E.
    + left. rewrite Z.lor_0_l. exact IH.
    + right. apply in_map. exact IH.
Qed.
Definition ms_bits := [0; 1; 2; 3; 4; 8; 9; 16; 17; 18; 19].
Lemma ms_value n : In (Z.land n ms_mask) (sub_masks ms_bits).
Proof. change ms_mask with (of_bits ms_bits). apply sub_masks_all. repeat constructor; lia. Qed.
Lemma ms_all (p : Z -> bool) : forallb p (sub_masks ms_bits) = true -> forall n, p (Z.land n ms_mask) = true.
Proof. intros H n. rewrite forallb_forall in H. apply H, ms_value. Qed.

(** Reading and writing back: unchanged, except that the reserved precision code
    becomes 24 bits. *)
Lemma ms_round_trip n : Z.land n MCW_PC <> MCW_PC -> hard2msvc (msvc2hard n) = Z.land n ms_mask.
Proof.
  intros H. rewrite <- msvc2hard_mask.
  assert (K : (Z.land (Z.land n ms_mask) MCW_PC =? MCW_PC) || (hard2msvc (msvc2hard (Z.land n ms_mask)) =? Z.land n ms_mask) = true).
  { revert n H. intros n _. revert n.
    apply (ms_all (fun v => (Z.land v MCW_PC =? MCW_PC) || (hard2msvc (msvc2hard v) =? v))). vm_compute. reflexivity. }
  rewrite land_sub in K by reflexivity. destruct (Z.eqb_spec (Z.land n MCW_PC) MCW_PC); [tauto|]. apply Z.eqb_eq, K.
Qed.
Lemma ms_round_trip_x64 n : Z.land (hard2msvc (msvc2hard n)) (msvc_mask true) = Z.land n (msvc_mask true).
Proof.
  rewrite <- msvc2hard_mask, <- (land_sub n ms_mask (msvc_mask true)) by reflexivity.
  apply Z.eqb_eq. revert n. apply (ms_all (fun v => Z.land (hard2msvc (msvc2hard v)) (msvc_mask true) =? Z.land v (msvc_mask true))).
  vm_compute. reflexivity.
Qed.
Lemma ms_small n : msvc2hard n mod 2 ^ 16 = msvc2hard n.
Proof.
  rewrite <- msvc2hard_mask. apply Z.eqb_eq. revert n.
  apply (ms_all (fun v => msvc2hard v mod 2 ^ 16 =? msvc2hard v)). vm_compute. reflexivity.
Qed.
Lemma ctl0 w : control87 0 0 w = w.
Proof. unfold control87. rewrite Z.ldiff_0_r, Z.land_0_l, Z.lor_0_r. reflexivity. Qed.

(** Bits of a register after _control87. *)
Lemma control87_bit new mask old k :
  Z.testbit (control87 new mask old) k = if Z.testbit mask k then Z.testbit new k else Z.testbit old k.
Proof.
  unfold control87. rewrite Z.lor_spec, Z.ldiff_spec, Z.land_spec.
  destruct (Z.testbit mask k), (Z.testbit new k), (Z.testbit old k); reflexivity.
Qed.

(** The register after set(get): whole word. *)
Definition restores (b : backend) (w0 w1 : Z) : Prop := be_set b (be_get b w0) w1 = w0.

Lemma testbit_land_eq a b m k : Z.land a m = Z.land b m -> Z.testbit m k = true -> Z.testbit a k = Z.testbit b k.
Proof.
  intros E H. assert (K : Z.testbit (Z.land a m) k = Z.testbit (Z.land b m) k) by congruence.
  rewrite !Z.land_spec, H, !andb_true_r in K. exact K.
Qed.
Lemma msvc_restores_bits x64 code w0 w1 k : Z.testbit (msvc_mask true) k = true ->
  Z.testbit (be_set (msvc x64 code) (be_get (msvc x64 code) w0) w1) k = Z.testbit w0 k.
Proof.
  intros H. cbn [be_set be_get msvc]. rewrite ctl0, ms_small, control87_bit.
  assert (Z.testbit (msvc_mask x64) k = true) as ->.
  { destruct x64; [exact H|]. change (msvc_mask false) with (Z.lor (msvc_mask true) 0x70000). rewrite Z.lor_spec, H. reflexivity. }
  apply (testbit_land_eq _ _ (msvc_mask true)); [apply ms_round_trip_x64|exact H].
Qed.
Lemma msvc_direction w w' : Z.testbit w 8 = Z.testbit w' 8 -> Z.testbit w 9 = Z.testbit w' 9 ->
  direction MSVC w = direction MSVC w'.
Proof. intros A B. unfold direction. rewrite (field2_ext w w' 8); auto. lia. Qed.
Lemma sparc_direction w w' : Z.testbit w 30 = Z.testbit w' 30 -> Z.testbit w 31 = Z.testbit w' 31 ->
  direction SPARC w = direction SPARC w'.
Proof. intros A B. unfold direction. rewrite (field2_ext w w' 30); auto. lia. Qed.
Lemma x87_direction w w' : Z.testbit w 10 = Z.testbit w' 10 -> Z.testbit w 11 = Z.testbit w' 11 ->
  direction X87 w = direction X87 w'.
Proof. intros A B. unfold direction. rewrite (field2_ext w w' 10); auto. lia. Qed.

(** ** C54 *)

(** to_nearest(), downward(), upward(), toward_zero() select their direction,
    whatever the register held. *)
Theorem C54_directions : forall b w d, is_backend b -> register (be_arch b) w ->
  direction (be_arch b) (be_set b (be_code b d) w) = d.
Proof.
  intros b w d Hb Hw.
  assert (MS : forall x64 code, (forall d, direction MSVC (hard2msvc (code d mod 2 ^ 16)) = d) ->
     direction MSVC (be_set (msvc x64 code) (code d) w) = d).
  { intros x64 code K. rewrite <- (K d) at 2. apply msvc_direction; cbn [be_set msvc]; rewrite control87_bit;
      destruct x64; reflexivity. }
  destruct Hb as [Hb|(high & Hh & ->)].
  - simpl in Hb. repeat destruct Hb as [<-|Hb]; try (destruct d; reflexivity); try (apply MS; intros [| | |]; reflexivity).
    + cbn [be_arch bcc be_set be_code].
      assert (E : direction X87 (rnd_mode d) = d) by (destruct d; reflexivity). rewrite <- E at 2.
      apply x87_direction; rewrite control87_bit; reflexivity.
    + cbn [be_arch sparc be_set be_code].
      assert (E : direction SPARC (modes 0 0xc0000000 0x80000000 0x40000000 d) = d) by (destruct d; reflexivity).
      rewrite <- E at 2. apply sparc_direction; rewrite Z.lor_spec, Z.land_spec, Z.ldiff_spec; cbn [Z.testbit fsr_read_only];
        rewrite ?andb_false_r; destruct d; reflexivity.
    + destruct Hb.
  - destruct d; reflexivity.
Qed.
Print Assumptions C54_directions.

(** set_rounding_mode(saved), saved having been read when the register held
    [w0], brings back the direction of [w0], whatever happened in between. *)
Theorem C54_restores : forall b w0 w1, is_backend b -> register (be_arch b) w0 -> register (be_arch b) w1 ->
  direction (be_arch b) (be_set b (be_get b w0) w1) = direction (be_arch b) w0.
Proof.
  intros b w0 w1 Hb H0 H1.
  assert (MS : forall x64 code, direction MSVC (be_set (msvc x64 code) (be_get (msvc x64 code) w0) w1) = direction MSVC w0).
  { intros. apply msvc_direction; apply msvc_restores_bits; reflexivity. }
  destruct Hb as [Hb|(high & Hh & ->)].
  - simpl in Hb. repeat destruct Hb as [<-|Hb]; try apply MS;
      try (cbn [x86gcc alpha be_arch be_set be_get]; f_equal; apply Z.mod_small; exact H0).
    + cbn [be_arch bcc be_set be_get]. rewrite ctl0. apply x87_direction; rewrite control87_bit; reflexivity.
    + cbn [be_arch sparc be_set be_get]. apply sparc_direction; rewrite Z.lor_spec, Z.land_spec, Z.ldiff_spec;
        rewrite (Z.mod_small w0) by exact H0; cbn [Z.testbit fsr_read_only];
        rewrite andb_false_r, andb_true_r; reflexivity.
    + destruct Hb.
  - cbn [be_arch ppc be_set be_get]. f_equal.
    rewrite Z.add_comm, Z.mod_add by lia. apply Z.mod_small; exact H0.
Qed.
Print Assumptions C54_restores.

(** The whole register comes back (exception masks and precision included) on
    x87, PowerPC and Alpha; on SPARC up to the read-only fields; with
    Microsoft's library unless the precision field held its reserved code. *)
Theorem C54_restores_register : forall b w0 w1, is_backend b ->
  register (be_arch b) w0 -> register (be_arch b) w1 ->
  (be_arch b = MSVC -> Z.land w0 MCW_PC <> MCW_PC /\ Z.ldiff w0 ms_mask = Z.ldiff w1 ms_mask /\
                       (be_set b = be_set (msvc true rnd_mode) -> Z.land w0 (Z.lor MCW_PC MCW_IC) = Z.land w1 (Z.lor MCW_PC MCW_IC))) ->
  (be_arch b = SPARC -> Z.land w0 fsr_read_only = Z.land w1 fsr_read_only) ->
  be_set b (be_get b w0) w1 = w0.
Proof.
  intros b w0 w1 Hb H0 H1 HM HS.
  assert (MF : forall code, b = msvc false code -> be_set b (be_get b w0) w1 = w0).
  { intros code ->. destruct (HM eq_refl) as (A & B & _). cbn [be_set be_get msvc]. rewrite ctl0, ms_small, (ms_round_trip _ A).
    unfold control87. change (msvc_mask false) with ms_mask. rewrite <- B, land_sub by reflexivity. apply Z.lor_ldiff_and. }
  assert (MT : forall code, b = msvc true code -> be_set b (be_get b w0) w1 = w0).
  { intros code ->. destruct (HM eq_refl) as (A & B & C). specialize (C eq_refl).
    cbn [be_set be_get msvc]. rewrite ctl0, ms_small. unfold control87. rewrite ms_round_trip_x64.
    rewrite <- (Z.lor_ldiff_and w0 (msvc_mask true)) at 2. f_equal.
    apply Z.bits_inj'. intros k Hk. rewrite !Z.ldiff_spec. destruct (Z.testbit (msvc_mask true) k) eqn:E.
    - rewrite !andb_false_r. reflexivity.
    - rewrite !andb_true_r. destruct (Z.testbit (Z.lor MCW_PC MCW_IC) k) eqn:E2.
      + symmetry. apply (testbit_land_eq _ _ _ _ C E2).
      + assert (K : Z.testbit (Z.ldiff w0 ms_mask) k = Z.testbit (Z.ldiff w1 ms_mask) k) by congruence.
        rewrite !Z.ldiff_spec in K. change ms_mask with (Z.lor (msvc_mask true) (Z.lor MCW_PC MCW_IC)) in K.
        rewrite Z.lor_spec, E, E2, !andb_true_r in K. auto. }
  destruct Hb as [Hb|(high & Hh & ->)].
  - simpl in Hb. repeat destruct Hb as [<-|Hb]; try (eapply MF; reflexivity); try (eapply MT; reflexivity);
      try (cbn [x86gcc alpha be_arch be_set be_get]; apply Z.mod_small; exact H0).
    + cbn [be_arch bcc be_set be_get]. rewrite ctl0. unfold control87. change 0xffff with (Z.ones 16).
      rewrite Z.land_ones, Z.ldiff_ones_r by lia. rewrite (Z.mod_small w0) by exact H0.
      rewrite Z.shiftr_div_pow2, (Z.div_small w1) by (lia || exact H1). reflexivity.
    + cbn [be_arch sparc be_set be_get] in *. rewrite (Z.mod_small w0) by exact H0. rewrite <- (HS eq_refl).
      rewrite Z.lor_comm. apply Z.lor_ldiff_and.
    + destruct Hb.
  - cbn [be_arch ppc be_set be_get]. rewrite Z.add_comm, Z.mod_add by lia. apply Z.mod_small; exact H0.
Qed.
Print Assumptions C54_restores_register.

(** The x87 control words also mask every exception, and select the precision
    their comments announce: extended, or that of the base type for the "fast"
    control. *)
Theorem C54_x87_words : forall d,
  x87_masked (rnd_mode d) /\ x87_precision (rnd_mode d) = Some 64 /\
  x87_masked (rnd_mode_f d) /\ x87_precision (rnd_mode_f d) = Some 24 /\
  x87_masked (rnd_mode_d d) /\ x87_precision (rnd_mode_d d) = Some 53 /\
  x87_masked (rnd_mode_l d) /\ x87_precision (rnd_mode_l d) = Some 64.
Proof. intros [| | |]; repeat split. Qed.
Print Assumptions C54_x87_words.

Lemma lib_set_code code d cur : (forall a b, code a = code b -> a = b) -> lib_set code (code d) cur = d.
Proof.
  intros Inj. unfold lib_set.
  destruct (Z.eqb_spec (code d) (code RNE)) as [E|N1]; [apply Inj in E; congruence|].
  destruct (Z.eqb_spec (code d) (code RDN)) as [E|N2]; [apply Inj in E; congruence|].
  destruct (Z.eqb_spec (code d) (code RUP)) as [E|N3]; [apply Inj in E; congruence|].
  destruct (Z.eqb_spec (code d) (code RZR)) as [E|N4]; [apply Inj in E; congruence|].
  destruct d; congruence.
Qed.
(** fesetround and its relatives, for any distinct values of the macros. *)
Theorem C54_library : forall (code : rmode -> Z) d d', (forall a b, code a = code b -> a = b) ->
  lib_set code (code d) d' = d /\ lib_set code (lib_get code d) d' = d.
Proof. intros code d d' Inj. split; apply lib_set_code; auto. Qed.
Print Assumptions C54_library.

Lemma register_set b m w : is_backend b -> register (be_arch b) w -> register (be_arch b) (be_set b m w).
Proof.
  intros Hb Hw.
  assert (LT : forall n v, 0 <= n -> 0 <= v -> (forall k, n <= k -> Z.testbit v k = false) -> 0 <= v < 2 ^ n).
  { intros n v Hn Hv K. split; auto. destruct (Z.eq_dec v 0) as [->|Nv]; [apply Z.pow_pos_nonneg; lia|].
    apply Z.log2_lt_pow2; [lia|]. destruct (Z_lt_le_dec (Z.log2 v) n); auto.
    specialize (K _ l). rewrite Z.bit_log2 in K by lia. discriminate. }
  assert (TB : forall n v k, 0 <= n -> 0 <= v < 2 ^ n -> n <= k -> Z.testbit v k = false).
  { intros n v k Hn Hv Hk. destruct (Z.eq_dec v 0) as [->|Nv]; [apply Z.bits_0|].
    apply Z.bits_above_log2; [lia|]. assert (Z.log2 v < n) by (apply Z.log2_lt_pow2; lia). lia. }
  assert (C87 : forall new mask n, 0 <= n -> 0 <= mask < 2 ^ n -> 0 <= w < 2 ^ n -> 0 <= control87 new mask w < 2 ^ n).
  { intros new mask n Hn Hm Hw'. apply LT; auto.
    - unfold control87. apply Z.lor_nonneg. split; [apply Z.ldiff_nonneg; lia|apply Z.land_nonneg; lia].
    - intros k Hk. rewrite control87_bit, (TB n mask k), (TB n w k); auto. }
  assert (MS : forall x64 code, register MSVC w -> register MSVC (be_set (msvc x64 code) m w)).
  { intros x64 code H. cbn [be_set msvc]. apply (C87 _ _ 32); [lia|destruct x64; cbv; split; congruence|exact H]. }
  destruct Hb as [Hb|(high & Hh & ->)].
  - simpl in Hb. repeat destruct Hb as [<-|Hb]; try (apply MS; exact Hw);
      try (cbn [x86gcc alpha be_arch be_set be_get]; apply Z.mod_pos_bound; reflexivity).
    + cbn [bcc be_arch be_set]. apply (C87 _ _ 16); [lia|split; [lia|reflexivity]|exact Hw].
    + cbn [sparc be_arch be_set] in *. pose proof (Z.mod_pos_bound m (2 ^ 32) eq_refl) as Hm.
      assert (Hw' : 0 <= w < 2 ^ 32) by exact Hw.
      apply LT; [cbn; lia| |].
      * apply Z.lor_nonneg. split; [apply Z.land_nonneg; lia|apply Z.ldiff_nonneg; lia].
      * intros k Hk. cbn [width_of] in Hk. rewrite Z.lor_spec, Z.land_spec, Z.ldiff_spec.
        rewrite (TB 32 w k), (TB 32 (m mod 2 ^ 32) k); auto; lia.
    + destruct Hb.
  - cbn [ppc be_arch be_set]. apply Z.mod_pos_bound. reflexivity.
Qed.

(** Any sequence of switches and (nested) save_state scopes has on the register
    exactly the effect that the rest of the model attributes to it. *)
Theorem C54_programs : forall b c w, is_backend b -> register (be_arch b) w ->
  direction (be_arch b) (ctl_run b c w) = ctl_meaning c (direction (be_arch b) w).
Proof.
  intros b c w Hb. revert w.
  assert (K : forall c w, register (be_arch b) w -> register (be_arch b) (ctl_run b c w)).
  { clear c. induction c as [m|a IHa d IHd|a IHa]; intros w Hw; cbn [ctl_run]; auto using register_set. }
  induction c as [m|a IHa d IHd|a IHa]; intros w Hw; cbn [ctl_run ctl_meaning].
  - apply C54_directions; auto.
  - rewrite IHd, IHa; auto.
  - cbv zeta. apply C54_restores; auto.
Qed.
Print Assumptions C54_programs.
Theorem C54_programs_library : forall code c d, (forall a b, code a = code b -> a = b) ->
  ctl_run_lib code c d = ctl_meaning c d.
Proof.
  intros code c d Inj. revert d. induction c as [m|a IHa e IHe|a IHa]; intros d; cbn [ctl_run_lib ctl_meaning].
  - apply lib_set_code; auto.
  - rewrite IHa, IHe. reflexivity.
  - cbv zeta. apply lib_set_code; auto.
Qed.
Print Assumptions C54_programs_library.

(** The x87 default word, a Microsoft word, the codes of x86 <fenv.h>. *)
Example C54_case :
  is_backend (x86gcc rnd_mode) /\ is_backend (msvc true rnd_mode) /\ is_backend (ppc 0xFFF80000) /\
  register X87 0x037f /\ register MSVC 0x9001f /\
  direction X87 0x037f = RNE /\
  ctl_run (x86gcc rnd_mode) (C_scope (C_seq (C_switch RUP) (C_scope (C_switch RDN)))) 0x0f7f = 0x0f7f /\
  be_set (msvc true rnd_mode) (be_code (msvc true rnd_mode) RUP) 0x9001f = 0x9021f /\
  (forall a b, modes 0 0x400 0x800 0xc00 a = modes 0 0x400 0x800 0xc00 b -> a = b).
Proof.
  split; [left; simpl; auto|]. split; [left; simpl; tauto|]. split; [right; exists 0xFFF80000; split; [split; reflexivity || discriminate|reflexivity]|].
  split; [split; reflexivity || discriminate|]. split; [split; reflexivity || discriminate|].
  split; [reflexivity|]. split; [reflexivity|]. split; [reflexivity|].
  intros [| | |] [| | |]; cbn; congruence.
Qed.

(** * Property C57: the documented Horner scheme *)

From Coq Require Import Reals ZArith Lra Lia Bool List.
From Flocq Require Import Core BinarySingleNaN.
From Verif Require Import Outcome Base Checking Interval Utility Arith Arith2 FloatNum Spec ExtR Sem
  FloatSpec FloatPol CoreArith CoreDiv CoreMore CoreFmod Inst Witness Examples.
Import ListNotations.
Local Open Scope R_scope.

Notation P_ p k debug c ord := (fpol p Save k debug c ord).

(** c0 + c1 r + c2 r^2 + ... *)
Fixpoint polynomial (cs : list R) (r : R) : R :=
  match cs with [] => 0 | c :: q => c + r * polynomial q r end.

Section Core.
Context {N : num} {val : T N -> ext} {P : policy N} {ready : rmode -> Prop}
        (H : polspec val P ready).
Notation V := (valid val).
Notation Pu := (unprotect P).
Notation HU := (polspec_unprotect val P ready H).

Lemma to_unprotected_valid z : V z -> pureM (to_unprotected P z) z.
Proof.
  intros Hz s. unfold to_unprotected. destruct (p_prot P); [|reflexivity|reflexivity].
  unfold ctor_policy. rewrite (cs_empty _ _ (ps_ck _ _ _ H) _ _ (proj1 Hz)). destruct z; reflexivity.
Qed.
Lemma array_at_ok (l : list (itv N)) i v : nth_error l i = Some v -> pureM (array_at l (Z.of_nat i)) v.
Proof.
  intros E s. unfold array_at. destruct (Z.ltb_spec (Z.of_nat i) 0); [lia|]. rewrite Nat2Z.id, E. reflexivity.
Qed.

(** [y] encloses the polynomial made of the coefficients from [i] on. *)
Definition hencl (l : list (itv N)) (x : itv N) (y : itv N) (i : nat) (n : nat) : Prop :=
  forall r cs, mem val x r -> Forall2 (mem val) (firstn n l) cs -> mem val y (polynomial (skipn i cs) r).

Lemma skipn_nth (cs : list R) i c : nth_error cs i = Some c -> skipn i cs = c :: skipn (S i) cs.
Proof.
  revert cs. induction i as [|i IH]; intros [|d q]; cbn; try discriminate.
  - intros [= ->]. reflexivity.
  - intros E. rewrite (IH q E). reflexivity.
Qed.
Lemma Forall2_nth {A B} (R0 : A -> B -> Prop) l l' i a : Forall2 R0 l l' -> nth_error l i = Some a ->
  exists b, nth_error l' i = Some b /\ R0 a b.
Proof.
  intros F. revert i. induction F as [|x y l l' K F IH]; intros [|i]; cbn; try discriminate.
  - intros [= <-]. eauto.
  - apply IH.
Qed.
Lemma Forall2_len {A B} (R0 : A -> B -> Prop) l l' : Forall2 R0 l l' -> length l = length l'.
Proof. intros F. induction F; cbn; congruence. Qed.
Lemma nth_error_firstn {A} (l : list A) n i : (i < n)%nat -> nth_error (firstn n l) i = nth_error l i.
Proof.
  revert n i. induction l as [|a l IH]; intros [|n] [|i] L; cbn; auto; try lia. apply IH. lia.
Qed.

Lemma horner_loop_ok l x n : V x -> Forall V l -> forall i y, (i < n)%nat -> (n <= length l)%nat ->
  V y -> hencl l x y i n ->
  exists z, runsI ready (horner_loop P l x i y) z /\ V z /\ hencl l x z 0 n.
Proof.
  intros Hx Hl. induction i as [|i IH]; intros y Hi Hn Hy He.
  - exists y. split; [apply runsI_ret|]. auto.
  - cbn [horner_loop].
    assert (exists c, nth_error l i = Some c) as (c & Ec).
    { destruct (nth_error l i) eqn:E; eauto. apply nth_error_None in E. lia. }
    assert (Vc : V c) by (rewrite Forall_forall in Hl; apply Hl, (nth_error_In _ _ Ec)).
    destruct (op_mul_ok HU y x Hy Hx) as (w & Rw & Tw).
    assert (Vw : V w).
    { eapply tightest_valid; [|exact Tw]. destruct (valid_mem _ _ Hy) as (s & Hs). destruct (valid_mem _ _ Hx) as (t & Ht).
      exists (s * t), s, t. auto. }
    destruct (op_add_ok HU w c Vw Vc) as (y' & Ry' & Ty').
    assert (Vy' : V y').
    { eapply tightest_valid; [|exact Ty']. destruct (valid_mem _ _ Vw) as (s & Hs). destruct (valid_mem _ _ Vc) as (t & Ht).
      exists (s + t), s, t. auto. }
    apply runsP_unprotect in Rw. apply runsP_unprotect in Ry'.
    destruct (IH y') as (z & Rz & Kz); [lia|auto|auto| |].
    { intros r cs Hr F.
      assert (Ec' : nth_error (firstn n l) i = Some c) by (rewrite nth_error_firstn by lia; exact Ec).
      destruct (Forall2_nth _ _ _ _ _ F Ec') as (d & Ed & Md). rewrite (skipn_nth _ _ _ Ed). cbn [polynomial].
      apply (proj1 Ty'). exists (polynomial (skipn (S i) cs) r * r), d. split; [|split; [exact Md|ring]].
      apply (proj1 Tw). eexists _, _. split; [apply He; eauto|]. split; [exact Hr|reflexivity]. }
    exists z. split; [|exact Kz].
    eapply runsI_bind.
    { apply runsI_args2; [exact Rw|]. eapply runsI_bind; [apply pure_runsI, array_at_ok; exact Ec|]. cbv beta.
      apply pure_runsI, to_unprotected_valid; auto. }
    cbv beta. cbn [fst snd]. eapply runsI_bind; [exact Ry'|]. exact Rz.
Qed.

Lemma horner_ok x l n : V x -> Forall V l -> (1 <= n <= Z.of_nat (length l))%Z ->
  exists z, runsP P ready (horner P x l n) z /\ V z /\
    forall r cs, mem val x r -> Forall2 (mem val) (firstn (Z.to_nat n) l) cs -> mem val z (polynomial cs r).
Proof.
  intros Hx Hl Hn. set (m := Z.to_nat (n - 1)).
  assert (En : (n - 1 = Z.of_nat m)%Z) by (unfold m; lia).
  assert (Em : Z.to_nat n = S m) by lia.
  assert (exists c, nth_error l m = Some c) as (c & Ec).
  { destruct (nth_error l m) eqn:E; eauto. apply nth_error_None in E. lia. }
  assert (Vc : V c) by (rewrite Forall_forall in Hl; apply Hl, (nth_error_In _ _ Ec)).
  destruct (horner_loop_ok l x (S m) Hx Hl m c) as (z & Rz & Vz & Kz); [lia|lia|exact Vc| |].
  { intros r cs Hr F.
    assert (Ec' : nth_error (firstn (S m) l) m = Some c) by (rewrite nth_error_firstn by lia; exact Ec).
    destruct (Forall2_nth _ _ _ _ _ F Ec') as (d & Ed & Md). rewrite (skipn_nth _ _ _ Ed).
    assert (skipn (S m) cs = []) as ->.
    { apply skipn_all2. pose proof (Forall2_len _ _ _ F) as E. rewrite firstn_length in E. lia. }
    cbn [polynomial]. replace (d + r * 0) with d by ring. exact Md. }
  exists z. split; [|split; [exact Vz|]].
  - unfold horner. apply (with_rnd_runs P ready H).
    eapply runsI_bind; [apply pure_runsI, to_unprotected_valid; auto|]. cbv beta.
    eapply runsI_bind; [rewrite En; apply pure_runsI, array_at_ok; exact Ec|]. cbv beta.
    eapply runsI_bind; [apply pure_runsI, to_unprotected_valid; auto|]. cbv beta. fold m.
    eapply runsI_bind; [exact Rz|]. cbv beta. apply pure_runsI, (ctor_back_valid H); auto.
  - intros r cs Hr F. rewrite Em in F. exact (Kz r cs Hr F).
Qed.
End Core.

(** ** C57 *)

(** In every mode the function returns, leaves the mode as it found it, and its
    result contains the value of every polynomial with coefficients in the
    array, at every point of [x]. *)
Theorem C57_horner : forall p k debug c ord (x : itv (fnum p)) (l : list (itv (fnum p))) (n : Z),
  fvalid x -> Forall fvalid l -> (1 <= n <= Z.of_nat (length l))%Z ->
  exists z, returns (horner (P_ p k debug c ord) x l n) z /\ fvalid z /\
    forall r cs, fmem x r -> Forall2 fmem (firstn (Z.to_nat n) l) cs -> fmem z (polynomial cs r).
Proof.
  intros p k debug c ord x l n Hx Hl Hn. exact (horner_ok (fpolspec p Save k debug c ord) x l n Hx Hl Hn).
Qed.
Print Assumptions C57_horner.

(** "The function could already be called inside an unprotection block": with
    the unprotected type and inside a rounding scope, the same holds, and the
    mode stays the one the scope has set up. *)
Theorem C57_horner_unprotected : forall p k debug c ord pr (x : itv (fnum p)) (l : list (itv (fnum p))) (n : Z),
  pr <> Save -> fvalid x -> Forall fvalid l -> (1 <= n <= Z.of_nat (length l))%Z ->
  exists z, fvalid z /\
    (forall mode, fready k mode -> exists mode', fready k mode' /\
       horner (fpol p pr k debug c ord) x l n mode = (Ok z, mode')) /\
    forall r cs, fmem x r -> Forall2 fmem (firstn (Z.to_nat n) l) cs -> fmem z (polynomial cs r).
Proof.
  intros p k debug c ord pr x l n Hp Hx Hl Hn.
  destruct (horner_ok (fpolspec p pr k debug c ord) x l n Hx Hl Hn) as (z & R1 & V & K).
  exists z. split; [exact V|]. split; [|exact K].
  apply (runsP_runsI _ _ _ _ R1).
Qed.
Print Assumptions C57_horner_unprotected.

(** The polynomial of the example (x^2 - 1) at 2, and one on wide intervals. *)
Example C57_case :
  fvalid (di 1 2) /\ Forall fvalid [di (-1) (-1); di 0 0; di 1 3] /\
  (forall s, run show (horner Pdef (di 2 2) [di (-1) (-1); di 0 0; di 1 1] 3) s = (Ok (show (di 3 3)), s)) /\
  (forall s, run show (horner Pdef (di 1 2) [di (-2) (-1); di 0 0; di 1 3] 3) s = (Ok (show (di (-1) 11)), s)) /\
  run show (horner Pdef (di 1 2) [di 1 1] 2) RNE = (UB, RUP).
Proof.
  split; [apply di_valid; lia|]. split; [repeat (apply Forall_cons; [apply di_valid; lia|]); apply Forall_nil|].
  split; [intros [| | |]; vm_compute; reflexivity|]. split; [intros [| | |]; vm_compute; reflexivity|].
  vm_compute. reflexivity.
Qed.

(** * C65: reading intervals, operator>> of examples/io.cpp *)

From Coq Require Import Reals ZArith Lra Lia Bool List Ascii String Eqdep_dec.
From Flocq Require Import Core BinarySingleNaN.
From Verif Require Import Outcome Base Checking Interval Utility Arith FloatNum Spec ExtR Sem CoreArith CoreUtil
  FloatSpec FloatPol Inst Witness Mutate ExIo IoProof Properties12.
Import ListNotations.
Local Open Scope R_scope.

(** ** What is read

    [scan] is the conversion from text to T of the stream, whatever it is;
    [written scan t l u rest]: t starts with "[l,u]", "[l]" or "l" (with l = u),
    with blanks anywhere, and goes on with rest.  Then the object becomes [l,u]
    and rest is left in the stream; if the bounds are not ordered the object
    becomes what the policy makes of an empty interval. *)
Theorem C65_accepts : forall p k debug c ord (scan : list ascii -> T (fnum p) * bool * list ascii) t l u rest (o : itv (fnum p)) mode,
  written scan t l u rest -> fval (l : flt (p_T p)) <> NaN -> fval (u : flt (p_T p)) <> NaN ->
  let P := fpol p Save k debug c ord in
  exists s', inp s' = rest /\ failed s' = false /\
   (xle (fval (l : flt (p_T p))) (fval (u : flt (p_T p))) ->
      read P scan (fresh_stream t) o mode = (Ok tt, mk l u, mode, s')) /\
   (~ xle (fval (l : flt (p_T p))) (fval (u : flt (p_T p))) ->
      read P scan (fresh_stream t) o mode = (updated o (i_empty P) mode, s')).
Proof.
  intros p k debug c ord scan t l u rest o mode W Nl Nu P; subst P.
  destruct (read_written p k debug c ord scan t l u rest o mode W) as (e & E).
  eexists. split; [|split; [|split]]; cycle 2.
  - intros L. rewrite E. rewrite (m_assign_ok p k debug c ord o (NVal l) (NVal u) mode L); [reflexivity|left; discriminate].
  - intros L. rewrite E. rewrite (m_assign_unordered p k debug c ord o (NVal l) (NVal u) mode Nl Nu L). reflexivity.
  - reflexivity.
  - reflexivity.
Qed.
Print Assumptions C65_accepts.

(** Any other text makes the stream fail and the object empty.  [truncated]:
    blanks only, or "[" and blanks only. *)
Theorem C65_rejects_partial : forall p k debug c ord (scan : list ascii -> T (fnum p) * bool * list ascii) t (o : itv (fnum p)) mode,
  ~ truncated t -> ~ (exists l u rest, written scan t l u rest) ->
  let P := fpol p Save k debug c ord in
  exists s', failed s' = true /\ read P scan (fresh_stream t) o mode = (updated o (i_empty P) mode, s').
Proof. intros. apply read_other; assumption. Qed.
Print Assumptions C65_rejects_partial.
(** On truncated text - the end of the input, say - the function copies a local
    variable that was never initialised. *)
Theorem C65_defined_refuted : forall p k debug c ord (scan : list ascii -> T (fnum p) * bool * list ascii) (o : itv (fnum p)) mode,
  let outcome_of t := fst (fst (fst (read (fpol p Save k debug c ord) scan (fresh_stream t) o mode))) in
  outcome_of (text "") = UB /\ outcome_of (text "[") = UB.
Proof.
  intros p k debug c ord scan o mode outcome_of. split; apply read_truncated.
  - left. constructor.
  - right. exists [], []. split; [constructor|]. split; [constructor|]. reflexivity.
Qed.
Print Assumptions C65_defined_refuted.

(** ** What is written is read back

    [read_back show scan v]: the text of v, followed by a comma or a bracket, is
    converted to a number of the same value. *)
Definition read_back {p} (show : T (fnum p) -> list ascii) (scan : list ascii -> T (fnum p) * bool * list ascii) (v : T (fnum p)) : Prop :=
  forall ch rest, ch = ","%char \/ ch = "]"%char ->
  exists v', number scan (show v ++ ch :: rest) v' (ch :: rest) /\ fval (v' : flt (p_T p)) = fval (v : flt (p_T p)).

Theorem C65_round_trip : forall p k debug c ord (show : T (fnum p) -> list ascii) scan (x o : itv (fnum p)) rest mode,
  fvalid x -> read_back show scan (low x) -> read_back show scan (up x) ->
  let P := fpol p Save k debug c ord in
  forall print, print = print_std P \/ print = print_sngl P ->
  exists z s', read P scan (fresh_stream (print show x [] ++ rest)) o mode = (Ok tt, z, mode, s') /\
    failed s' = false /\ inp s' = rest /\ fsame z x.
Proof.
  intros p k debug c ord show scan x o rest mode Vx Rl Ru P print Hp; subst P.
  assert (EV : u_empty (fpol p Save k debug c ord) x = false) by (unfold u_empty; exact (test_valid (fpolspec p Save k debug c ord) x Vx)).
  destruct Vx as (LU & _). change (xle (fval (low x : flt (p_T p))) (fval (up x : flt (p_T p)))) in LU.
  assert (Pair : exists z s', read (fpol p Save k debug c ord) scan (fresh_stream (("["%char :: show (low x) ++ ","%char :: show (up x) ++ ["]"%char]) ++ rest)) o mode = (Ok tt, z, mode, s') /\
    failed s' = false /\ inp s' = rest /\ fsame z x).
  { destruct (Rl ","%char ((show (up x) ++ ["]"%char]) ++ rest) (or_introl eq_refl)) as (l & Nl & El).
    destruct (Ru "]"%char rest (or_intror eq_refl)) as (u & Nu & Eu).
    assert (W : written scan (("["%char :: show (low x) ++ ","%char :: show (up x) ++ ["]"%char]) ++ rest) l u rest).
    { replace (("["%char :: show (low x) ++ ","%char :: show (up x) ++ ["]"%char]) ++ rest)
        with ([] ++ "["%char :: [] ++ (show (low x) ++ ","%char :: (show (up x) ++ ["]"%char]) ++ rest))
        by (cbn [app]; rewrite <- !app_assoc; cbn [app]; rewrite <- ?app_assoc; reflexivity).
      apply (w_pair scan [] [] [] [] [] (show (low x) ++ ","%char :: (show (up x) ++ ["]"%char]) ++ rest) (show (up x) ++ "]"%char :: rest));
        try constructor.
      - destruct Nl as [A _]. exact A.
      - destruct Nl as [_ B]. rewrite B. simpl. rewrite <- app_assoc. reflexivity.
      - destruct Nu as [A _]. exact A.
      - destruct Nu as [_ B]. rewrite B. reflexivity. }
    assert (L : xle (fval (l : flt (p_T p))) (fval (u : flt (p_T p)))) by (rewrite El, Eu; exact LU).
    destruct (xle_nn _ _ L) as [NL NU].
    destruct (C65_accepts p k debug c ord scan _ l u rest o mode W NL NU) as (s' & E1 & E2 & E3 & _).
    exists (mk l u), s'. split; [exact (E3 L)|]. split; [exact E2|]. split; [exact E1|]. split; [exact El|exact Eu]. }
  destruct Hp as [-> | ->]; unfold print_std, print_sngl; rewrite EV.
  - exact Pair.
  - destruct (singleton (fpol p Save k debug c ord) x) eqn:S; [|exact Pair].
    assert (EQ : fval (up x : flt (p_T p)) = fval (low x : flt (p_T p))).
    { unfold singleton in S. apply andb_prop in S. destruct S as [_ S]. symmetry. apply Beqb_fval in S. exact (proj1 S). }
    destruct (Rl "]"%char rest (or_intror eq_refl)) as (l & Nl & El).
    assert (W : written scan (([] ++ ["["%char] ++ show (low x) ++ ["]"%char]) ++ rest) l l rest).
    { replace (([] ++ ["["%char] ++ show (low x) ++ ["]"%char]) ++ rest) with ([] ++ "["%char :: [] ++ (show (low x) ++ "]"%char :: rest))
        by (cbn [app]; rewrite <- app_assoc; reflexivity).
      apply (w_one scan [] [] []); try constructor.
      - destruct Nl as [A _]. exact A.
      - destruct Nl as [_ B]. rewrite B. reflexivity. }
    assert (L : xle (fval (l : flt (p_T p))) (fval (l : flt (p_T p)))) by (apply xle_refl; rewrite El; exact (proj1 (xle_nn _ _ LU))).
    destruct (xle_nn _ _ L) as [NL NU].
    destruct (C65_accepts p k debug c ord scan _ l l rest o mode W NL NU) as (s' & E1 & E2 & E3 & _).
    exists (mk l l), s'. split; [exact (E3 L)|]. split; [exact E2|]. split; [exact E1|].
    split; [exact El|]. change (fval (l : flt (p_T p)) = fval (up x : flt (p_T p))). rewrite El, EQ. reflexivity.
Qed.
Print Assumptions C65_round_trip.
(** An empty interval is written "[]": it is read back as an empty one, and the
    stream fails. *)
Theorem C65_empty : forall p k debug c ord (show : T (fnum p) -> list ascii) scan (x o : itv (fnum p)) rest mode,
  ok_interval c x -> fempty x -> (forall v r, scan ("]"%char :: rest) <> (v, true, r)) ->
  let P := fpol p Save k debug c ord in
  forall print, print = print_std P \/ print = print_sngl P ->
  exists s', read P scan (fresh_stream (print show x [] ++ rest)) o mode = (updated o (i_empty P) mode, s') /\ failed s' = true.
Proof.
  intros p k debug c ord show scan x o rest mode Ox Ex NS P print Hp; subst P.
  assert (EV : u_empty (fpol p Save k debug c ord) x = true).
  { unfold u_empty. destruct (ok_cases p k debug c ord x Ox) as [[V _]|[_ ->]]; [exfalso; apply Ex, V|reflexivity]. }
  assert (Q : print show x [] ++ rest = "["%char :: "]"%char :: rest).
  { destruct Hp as [-> | ->]; unfold print_std, print_sngl; rewrite EV; reflexivity. }
  rewrite Q. destruct (read_other p k debug c ord scan ("["%char :: "]"%char :: rest) o mode) as (s' & F & E).
  - assert (K : ~ blanks ("["%char :: "]"%char :: rest)) by (intros B; inversion B; subst; exact (bracket_black H1)).
    intros [B|(w & w' & B & B' & E)]; [exact (K B)|].
    destruct B as [|a w Ha B].
    + injection E as <-. inversion B'. subst. exact (close_black H1).
    + injection E as <- _. exact (bracket_black Ha).
  - intros (l & u & r & W).
    assert (H0 : forall w0 w1 t1 v r1, blanks w0 -> blanks w1 -> number scan t1 v r1 -> "["%char :: "]"%char :: rest = w0 ++ "["%char :: w1 ++ t1 -> False).
    { intros w0 w1 t1 v r1 B0 B1 [(ch & t' & -> & Bc) S1] E. destruct B0 as [|a w0 Ha B0].
      - injection E as E. destruct B1 as [|b w1 Hb B1].
        + simpl in E. rewrite <- E in S1. exact (NS _ _ S1).
        + injection E as <- _. exact (close_black Hb).
      - injection E as <- _. exact (bracket_black Ha). }
    remember ("["%char :: "]"%char :: rest) as t eqn:Et in W.
    destruct W as [w0 w1 w2 w3 w4 t1 t2 l u r' B0 B1 B2 B3 B4 N1 N2|w0 w1 w2 t1 l r' B0 B1 B2 N1|w0 t1 l r' B0 [(ch & t' & -> & Bc) _] NB].
    + exact (H0 w0 w1 t1 _ _ B0 B1 N1 (eq_sym Et)).
    + exact (H0 w0 w1 t1 _ _ B0 B1 N1 (eq_sym Et)).
    + destruct B0 as [|a w0 Ha B0].
      * injection Et as -> _. exact (NB t' eq_refl).
      * injection Et as -> _. exact (bracket_black Ha).
  - exists s'. split; [exact E|exact F].
Qed.
Print Assumptions C65_empty.

(** ** A printer and a scanner that agree *)
Fixpoint digits (t : list ascii) : list ascii * list ascii :=
  match t with
  | ch :: r => if Ascii.eqb ch "0" || Ascii.eqb ch "1" then let (d, q) := digits r in (ch :: d, q) else ([], t)
  | [] => ([], [])
  end.
Fixpoint of_bits (l : list ascii) : option positive :=
  match l with
  | [] => None
  | ch :: r =>
      match of_bits r with
      | Some m => Some (if Ascii.eqb ch "0" then xO m else xI m)
      | None => if Ascii.eqb ch "1" then match r with [] => Some xH | _ => None end else None
      end
  end.
Definition scan_Z (t : list ascii) : option (Z * list ascii) :=
  match t with
  | [] => None
  | ch :: r =>
      if Ascii.eqb ch "0" then Some (0%Z, r)
      else let (d, q) := digits r in
        match of_bits d with
        | Some m => if Ascii.eqb ch "+" then Some (Zpos m, q) else if Ascii.eqb ch "-" then Some (Zneg m, q) else None
        | None => None
        end
  end.
Definition build {f} (s : bool) (m : positive) (e : Z) : flt f * bool :=
  match bool_dec (SpecFloat.bounded (prec f) (emax f) m e) true with
  | left H => (B754_finite s m e H, true)
  | right _ => (B754_zero s, false)
  end.
Definition scan_bin {f} (t : list ascii) : flt f * bool * list ascii :=
  match t with
  | [] => (B754_zero false, false, [])
  | ch :: r =>
      if Ascii.eqb ch "0" then (B754_zero false, true, r)
      else if Ascii.eqb ch "+" || Ascii.eqb ch "-" then
        let s := Ascii.eqb ch "-" in
        match r with
        | "i"%char :: "n"%char :: "f"%char :: q => (B754_infinity s, true, q)
        | _ =>
          let (d, q) := digits r in
          match of_bits d, q with
          | Some m, "p"%char :: q' =>
              match scan_Z q' with Some (e, q2) => (build s m e, q2) | None => (B754_zero false, false, q) end
          | _, _ => (B754_zero false, false, q)
          end
        end
      else (B754_zero false, false, t)
  end.
Lemma digits_bits m ch rest : ch <> "0"%char -> ch <> "1"%char -> digits (bits m ++ ch :: rest) = (bits m, ch :: rest).
Proof.
  intros N0 N1. induction m as [m IH|m IH|]; cbn [bits app digits].
  - rewrite Ascii.eqb_refl. rewrite orb_true_r. rewrite IH. reflexivity.
  - rewrite Ascii.eqb_refl. cbn [orb]. rewrite IH. reflexivity.
  - rewrite Ascii.eqb_refl, orb_true_r. destruct (Ascii.eqb_spec ch "0"); [contradiction|]. destruct (Ascii.eqb_spec ch "1"); [contradiction|]. reflexivity.
Qed.
Lemma of_bits_bits m : of_bits (bits m) = Some m.
Proof. induction m as [m IH|m IH|]; cbn [bits of_bits]; rewrite ?IH; reflexivity. Qed.
Lemma scan_Z_bits e ch rest : ch <> "0"%char -> ch <> "1"%char -> scan_Z (bits_Z e ++ ch :: rest) = Some (e, ch :: rest).
Proof.
  intros N0 N1. destruct e as [|m|m]; cbn [bits_Z app scan_Z]; [reflexivity| |];
    rewrite (digits_bits m ch rest N0 N1), of_bits_bits; reflexivity.
Qed.
Lemma build_ok {f} s m e (H : SpecFloat.bounded (prec f) (emax f) m e = true) : build (f := f) s m e = (B754_finite s m e H, true).
Proof.
  unfold build. destruct (bool_dec _ true) as [H'|NH]; [|contradiction]. rewrite (UIP_dec bool_dec H' H). reflexivity.
Qed.
Lemma bin_read_back f (v : flt f) ch rest : fval v <> NaN -> ch = ","%char \/ ch = "]"%char ->
  exists v' : flt f, number scan_bin (show_bin v ++ ch :: rest) v' (ch :: rest) /\ fval v' = fval v.
Proof.
  intros NN Hc. assert (N0 : ch <> "0"%char) by (destruct Hc; subst; discriminate). assert (N1 : ch <> "1"%char) by (destruct Hc; subst; discriminate).
  destruct v as [s|s| |s m e B]; [| |exfalso; apply NN; reflexivity|].
  - exists (B754_zero false). split; [|reflexivity]. split; [|reflexivity]. eexists. eexists. split; [reflexivity|]. unfold white. simpl. intuition discriminate.
  - exists (B754_infinity s). split; [|reflexivity]. split; [|destruct s; reflexivity].
    destruct s; (eexists; eexists; split; [reflexivity|]; unfold white; simpl; intuition discriminate).
  - exists (B754_finite s m e B). split; [|reflexivity]. split.
    + destruct s; (eexists; eexists; split; [reflexivity|]; unfold white; simpl; intuition discriminate).
    + cbn [show_bin]. rewrite <- app_comm_cons, <- app_assoc. cbn [app].
      assert (D := digits_bits m "p"%char (bits_Z e ++ ch :: rest) ltac:(discriminate) ltac:(discriminate)).
      destruct (bits_first m) as (b & l & Eb & Hb).
      assert (Q : forall s', scan_bin (f := f) ((if s' : bool then "-"%char else "+"%char) :: bits m ++ "p"%char :: bits_Z e ++ ch :: rest)
        = (build (f := f) s' m e, ch :: rest)).
      { intros s'. unfold scan_bin. rewrite D, of_bits_bits, (scan_Z_bits e ch rest N0 N1). rewrite Eb.
        destruct s', Hb as [-> | ->]; reflexivity. }
      rewrite Q, (build_ok s m e B). reflexivity.
Qed.
Example C65_case : fvalid (mk ninf (dbl 3 (-1))) /\ fvalid (di 1 1) /\
  (forall v : T (fnum double_sse), fval (v : flt binary64) <> NaN -> read_back (p := double_sse) (show_bin (f := binary64)) (scan_bin (f := binary64)) v) /\
  (let obs r := let '(o, z, m, s) := r in (o, show z, m, inp s, failed s) in
   obs (read Pbase (scan_bin (f := binary64)) (fresh_stream (text "  " ++ print_std Pbase (show_bin (f := binary64)) (di 1 2) [] ++ text "x")) (di 5 6) RNE)
     = (Ok tt, show (di 1 2), RNE, text "x", false) /\
   obs (read Pbase (scan_bin (f := binary64)) (fresh_stream (print_sngl Pbase (show_bin (f := binary64)) (di 3 3) [])) (di 5 6) RNE)
     = (Ok tt, show (di 3 3), RNE, [], false) /\
   obs (read Pbase (scan_bin (f := binary64)) (fresh_stream (text "[]")) (di 5 6) RNE)
     = (Ok tt, show (mk dnan dnan), RNE, text "]", true)) /\
  ~ truncated (text "[1,") /\ (forall v r, scan_bin (f := binary64) (text "]") <> (v, true, r)).
Proof.
  split; [apply validb_ok; reflexivity|]. split; [apply di_valid; lia|]. split; [|split; [split; [|split]; vm_compute; reflexivity|split]].
  - intros v NN ch rest Hc. exact (bin_read_back binary64 v ch rest NN Hc).
  - intros [B|(w & w' & B & B' & E)].
    + inversion B. subst. exact (bracket_black H1).
    + destruct B as [|a w Ha B].
      * injection E as <-. inversion B'. subst. revert H1. unfold white. simpl. intuition discriminate.
      * injection E as <- _. exact (bracket_black Ha).
  - intros v r K. vm_compute in K. discriminate K.
Qed.

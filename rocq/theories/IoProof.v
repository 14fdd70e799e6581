(** * What operator>> of examples/io.cpp reads: proofs *)

From Coq Require Import Reals ZArith Lra Lia Bool List Ascii.
From Flocq Require Import Core BinarySingleNaN.
From Verif Require Import Outcome Base Checking Interval Utility Arith FloatNum Spec ExtR Sem FloatSpec FloatPol Mutate Inst ExIo.
Import ListNotations.

(** ** What text denotes an interval *)
(** Space, tab, line feed, vertical tab, form feed, carriage return. *)
Definition white (c : ascii) : Prop := In c [" "; "009"; "010"; "011"; "012"; "013"]%char.
Definition blanks (w : list ascii) : Prop := Forall white w.

Lemma blank_white c : blank c = true <-> white c.
Proof.
  split.
  - intros H. unfold white. destruct c as [[] [] [] [] [] [] [] []]; vm_compute in H; try discriminate H; simpl; auto 9.
  - intros [<-|[<-|[<-|[<-|[<-|[<-|[]]]]]]]; reflexivity.
Qed.

Section Grammar.
Context {T : Type} (scan : list ascii -> T * bool * list ascii).
(** The text t starts with a number of value v; rest is what follows. *)
Definition number (t : list ascii) (v : T) (rest : list ascii) : Prop :=
  (exists ch t', t = ch :: t' /\ ~ white ch) /\ scan t = (v, true, rest).
(** [l,u], [l] or l, with blanks anywhere. *)
Inductive written : list ascii -> T -> T -> list ascii -> Prop :=
| w_pair w0 w1 w2 w3 w4 t1 t2 l u rest :
    blanks w0 -> blanks w1 -> blanks w2 -> blanks w3 -> blanks w4 ->
    number t1 l (w2 ++ ","%char :: w3 ++ t2) -> number t2 u (w4 ++ "]"%char :: rest) ->
    written (w0 ++ "["%char :: w1 ++ t1) l u rest
| w_one w0 w1 w2 t l rest : blanks w0 -> blanks w1 -> blanks w2 ->
    number t l (w2 ++ "]"%char :: rest) ->
    written (w0 ++ "["%char :: w1 ++ t) l l rest
| w_bare w0 t l rest : blanks w0 -> number t l rest -> (forall t', t <> "["%char :: t') ->
    written (w0 ++ t) l l rest.
(** Nothing where a number must start. *)
Definition truncated (t : list ascii) : Prop :=
  blanks t \/ exists w w', blanks w /\ blanks w' /\ t = w ++ "["%char :: w'.
End Grammar.

(** ** Reading steps *)
Lemma skip_app w c r : blanks w -> ~ white c -> skip (w ++ c :: r) = c :: r.
Proof.
  intros H Hc. induction H as [|a w Ha H IH]; simpl.
  - destruct (blank c) eqn:E; [apply blank_white in E; contradiction|reflexivity].
  - apply blank_white in Ha. rewrite Ha. exact IH.
Qed.
Lemma skip_blanks w : blanks w -> skip w = [].
Proof. intros H. induction H as [|a w Ha H IH]; simpl; [reflexivity|]. apply blank_white in Ha. rewrite Ha. exact IH. Qed.
Lemma skip_spec l : exists w, blanks w /\ l = w ++ skip l /\ (skip l = [] \/ exists c r, skip l = c :: r /\ ~ white c).
Proof.
  induction l as [|a l (w & Hw & E & D)]; simpl.
  - exists []. split; [constructor|]. auto.
  - destruct (blank a) eqn:B.
    + exists (a :: w). split; [constructor; [apply blank_white; exact B|exact Hw]|]. split; [simpl; congruence|exact D].
    + exists []. split; [constructor|]. split; [reflexivity|]. right. exists a, l. split; [reflexivity|].
      intros W. apply blank_white in W. congruence.
Qed.

Definition fresh_stream (t : list ascii) : stream := {| inp := t; failed := false; ended := false |}.
Lemma sentry_ok w c r : blanks w -> ~ white c -> sentry (fresh_stream (w ++ c :: r)) = (fresh_stream (c :: r), true).
Proof. intros H Hc. unfold sentry, fresh_stream. cbn [is_good failed ended inp negb andb]. rewrite (skip_app w c r H Hc). reflexivity. Qed.
Lemma sentry_end w : blanks w -> sentry (fresh_stream w) = ({| inp := []; failed := true; ended := true |}, false).
Proof. intros H. unfold sentry, fresh_stream. cbn [is_good failed ended inp negb andb]. rewrite (skip_blanks w H). reflexivity. Qed.
Lemma get_char_ok w c r c0 : blanks w -> ~ white c -> get_char (fresh_stream (w ++ c :: r)) c0 = (fresh_stream r, c).
Proof. intros H Hc. unfold get_char. rewrite (sentry_ok w c r H Hc). reflexivity. Qed.
Lemma get_char_end w c0 : blanks w -> get_char (fresh_stream w) c0 = ({| inp := []; failed := true; ended := true |}, c0).
Proof. intros H. unfold get_char. rewrite (sentry_end w H). reflexivity. Qed.
Lemma sentry_bad s : is_good s = false -> sentry s = (set_fail s, false).
Proof. unfold sentry. intros ->. reflexivity. Qed.
Lemma get_char_bad s c0 : is_good s = false -> get_char s c0 = (set_fail s, c0).
Proof. intros H. unfold get_char. rewrite (sentry_bad s H). reflexivity. Qed.
(** Either a character is read, or the stream fails. *)
Lemma get_char_cases t c0 : (exists w c r, blanks w /\ ~ white c /\ t = w ++ c :: r /\ get_char (fresh_stream t) c0 = (fresh_stream r, c)) \/
  (blanks t /\ get_char (fresh_stream t) c0 = ({| inp := []; failed := true; ended := true |}, c0)).
Proof.
  destruct (skip_spec t) as (w & Hw & E & [D|(c & r & D & Hc)]); rewrite D in E.
  - right. rewrite app_nil_r in E. subst t. split; [exact Hw|apply get_char_end; exact Hw].
  - left. exists w, c, r. split; [exact Hw|]. split; [exact Hc|]. split; [exact E|]. rewrite E. apply get_char_ok; assumption.
Qed.
Lemma bracket_black : ~ white "["%char. Proof. unfold white. simpl. intuition discriminate. Qed.
Lemma close_black : ~ white "]"%char. Proof. unfold white. simpl. intuition discriminate. Qed.
Lemma comma_black : ~ white ","%char. Proof. unfold white. simpl. intuition discriminate. Qed.

Section Read.
Context (p : platform) (k : rkind) (debug : bool) (c : ckind) (ord : site -> bool).
Notation N := (fnum p).
Notation P := (fpol p Save k debug c ord).
Notation I := (itv N).
Context (scan : list ascii -> T N * bool * list ascii).

Definition after (r : list ascii) (good : bool) : stream :=
  {| inp := r; failed := negb good; ended := match r with [] => true | _ => false end |}.
Lemma get_num_ok w t v good r (v0 : option (T N)) : blanks w -> (exists ch t', t = ch :: t' /\ ~ white ch) -> scan t = (v, good, r) ->
  get_num scan (fresh_stream (w ++ t)) v0 = (after r good, Some v).
Proof.
  intros Hw (ch & t' & -> & B) E. unfold get_num. rewrite (sentry_ok w ch t' Hw B). cbn [inp fresh_stream]. rewrite E. reflexivity.
Qed.
Lemma get_num_end w (v0 : option (T N)) : blanks w -> get_num scan (fresh_stream w) v0 = ({| inp := []; failed := true; ended := true |}, v0).
Proof. intros Hw. unfold get_num. rewrite (sentry_end w Hw). reflexivity. Qed.
Lemma get_num_cases t (v0 : option (T N)) :
  (exists w t' v good r, blanks w /\ t = w ++ t' /\ (exists ch t'', t' = ch :: t'' /\ ~ white ch) /\ scan t' = (v, good, r) /\
     get_num scan (fresh_stream t) v0 = (after r good, Some v)) \/
  (blanks t /\ get_num scan (fresh_stream t) v0 = ({| inp := []; failed := true; ended := true |}, v0)).
Proof.
  destruct (skip_spec t) as (w & Hw & E & [D|(ch & r & D & Hc)]); rewrite D in E.
  - right. rewrite app_nil_r in E. subst t. split; [exact Hw|apply get_num_end; exact Hw].
  - left. destruct (scan (ch :: r)) as [[v good] r'] eqn:S. exists w, (ch :: r), v, good, r'.
    assert (B : exists c0 t'', ch :: r = c0 :: t'' /\ ~ white c0) by (exists ch, r; auto).
    split; [exact Hw|]. split; [exact E|]. split; [exact B|]. split; [exact S|]. rewrite E. apply get_num_ok; assumption.
Qed.
Lemma after_fresh ch r : after (ch :: r) true = fresh_stream (ch :: r). Proof. reflexivity. Qed.
Lemma after_app w ch r : after (w ++ ch :: r) true = fresh_stream (w ++ ch :: r). Proof. destruct w; reflexivity. Qed.

Lemma finish_failed s l u (o : I) m : failed s = true -> finish P s l u o m = (updated o (i_empty P) m, s).
Proof.
  intros F. unfold finish, updated. rewrite F. destruct (i_empty P m) as [[e|x| | |] m1] eqn:E; try reflexivity.
  destruct e; reflexivity.
Qed.
Lemma finish_ok s l u (o : I) m : failed s = false -> finish P s l u o m = (m_assign P (NVal l) (NVal u) o m, s).
Proof. intros F. unfold finish. rewrite F. reflexivity. Qed.

(** Text that denotes an interval is read. *)
Lemma read_written t l u rest (o : I) m : written scan t l u rest ->
  exists e, read P scan (fresh_stream t) o m = (m_assign P (NVal l) (NVal u) o m, {| inp := rest; failed := false; ended := e |}).
Proof.
  intros W. destruct W as [w0 w1 w2 w3 w4 t1 t2 l u rest B0 B1 B2 B3 B4 [N1 S1] [N2 S2]|w0 w1 w2 t l rest B0 B1 B2 [N1 S1]|w0 t l rest B0 [N1 S1] NB].
  - exists false. unfold read. rewrite (get_char_ok w0 _ _ _ B0 bracket_black). rewrite Ascii.eqb_refl.
    rewrite (get_num_ok w1 t1 l true _ None B1 N1 S1). rewrite after_app.
    rewrite (get_char_ok w2 _ _ _ B2 comma_black). rewrite Ascii.eqb_refl.
    rewrite (get_num_ok w3 t2 u true _ None B3 N2 S2). rewrite after_app.
    rewrite (get_char_ok w4 _ _ _ B4 close_black). rewrite Ascii.eqb_refl. apply finish_ok. reflexivity.
  - exists false. unfold read. rewrite (get_char_ok w0 _ _ _ B0 bracket_black). rewrite Ascii.eqb_refl.
    rewrite (get_num_ok w1 t l true _ None B1 N1 S1). rewrite after_app.
    rewrite (get_char_ok w2 _ _ _ B2 close_black). change (Ascii.eqb "]" ",") with false. cbn iota.
    rewrite Ascii.eqb_refl. apply finish_ok. reflexivity.
  - exists (match rest with [] => true | _ => false end). unfold read. destruct N1 as (ch & t' & -> & Bc).
    rewrite (get_char_ok w0 _ _ _ B0 Bc).
    destruct (Ascii.eqb_spec ch "["%char) as [->|NE]; [exfalso; exact (NB t' eq_refl)|].
    unfold put_back. cbn [failed fresh_stream inp]. change {| inp := ch :: t'; failed := false; ended := false |} with (fresh_stream ([] ++ ch :: t')).
    rewrite (get_num_ok [] (ch :: t') l true rest None (Forall_nil _)); [|exists ch, t'; auto|exact S1].
    apply finish_ok. reflexivity.
Qed.

(** Where a number is missing, an indeterminate value is read. *)
Lemma read_truncated t (o : I) m : truncated t ->
  fst (fst (fst (read P scan (fresh_stream t) o m))) = UB.
Proof.
  intros [B|(w & w' & B & B' & ->)]; unfold read.
  - rewrite (get_char_end t _ B). change (Ascii.eqb "000" "[") with false. cbn iota. unfold put_back. cbn [failed inp].
    unfold get_num. rewrite sentry_bad by reflexivity. reflexivity.
  - rewrite (get_char_ok w _ _ _ B bracket_black). rewrite Ascii.eqb_refl. rewrite (get_num_end w' None B').
    rewrite get_char_bad by reflexivity. change (Ascii.eqb "[" ",") with false. reflexivity.
Qed.

Lemma set_fail_failed s : failed (set_fail s) = true. Proof. reflexivity. Qed.
(** Anything else sets failbit and empties the object. *)
Lemma read_other t (o : I) m : ~ truncated t -> ~ (exists l u rest, written scan t l u rest) ->
  exists s', failed s' = true /\ read P scan (fresh_stream t) o m = (updated o (i_empty P) m, s').
Proof.
  intros NT NW. unfold read.
  destruct (get_char_cases t "000"%char) as [(w0 & c0 & r0 & B0 & K0 & E0 & G0)|[B _]]; [|exfalso; apply NT; left; exact B].
  rewrite G0. destruct (Ascii.eqb_spec c0 "["%char) as [->|NE].
  - destruct (get_num_cases r0 None) as [(w1 & t1 & l & good1 & r1 & B1 & E1 & N1 & S1 & G1)|[B _]];
      [|exfalso; apply NT; right; exists w0, r0; auto].
    rewrite G1.
    destruct good1; [|].
    2:{ rewrite get_char_bad by reflexivity. change (Ascii.eqb "[" ",") with false. change (Ascii.eqb "[" "]") with false. cbn iota.
        eexists. split; [|apply finish_failed]; reflexivity. }
    destruct r1 as [|a1 r1].
    { rewrite get_char_bad by reflexivity. change (Ascii.eqb "[" ",") with false. change (Ascii.eqb "[" "]") with false. cbn iota.
      eexists. split; [|apply finish_failed]; reflexivity. }
    rewrite after_fresh. set (q1 := a1 :: r1) in *.
    destruct (get_char_cases q1 "["%char) as [(w2 & c2 & r2 & B2 & K2 & E2 & G2)|[B G2]]; rewrite G2.
    2:{ change (Ascii.eqb "[" ",") with false. change (Ascii.eqb "[" "]") with false. cbn iota.
        eexists. split; [|apply finish_failed]; reflexivity. }
    destruct (Ascii.eqb_spec c2 ","%char) as [->|NC].
    + destruct (get_num_cases r2 None) as [(w3 & t2 & u & good2 & r3 & B3 & E3 & N2 & S2 & G3)|[B G3]]; rewrite G3.
      2:{ rewrite get_char_bad by reflexivity. change (Ascii.eqb "," "]") with false. cbn iota. rewrite set_fail_failed.
          eexists. split; [|apply finish_failed]; reflexivity. }
      destruct good2.
      2:{ rewrite get_char_bad by reflexivity. change (Ascii.eqb "," "]") with false. cbn iota.
          eexists. split; [|apply finish_failed]; reflexivity. }
      destruct r3 as [|a3 r3].
      { rewrite get_char_bad by reflexivity. change (Ascii.eqb "," "]") with false. cbn iota.
        eexists. split; [|apply finish_failed]; reflexivity. }
      rewrite after_fresh. set (q3 := a3 :: r3) in *.
      destruct (get_char_cases q3 ","%char) as [(w4 & c4 & r4 & B4 & K4 & E4 & G4)|[B G4]]; rewrite G4.
      2:{ change (Ascii.eqb "," "]") with false. cbn iota. eexists. split; [|apply finish_failed]; reflexivity. }
      destruct (Ascii.eqb_spec c4 "]"%char) as [->|ND].
      * exfalso. apply NW. exists l, u, r4. subst t r0. apply (w_pair scan w0 w1 w2 w3 w4 t1 t2); try assumption.
        -- split; [exact N1|]. rewrite S1, E2, E3. reflexivity.
        -- split; [exact N2|]. rewrite S2, E4. reflexivity.
      * eexists. split; [|apply finish_failed]; reflexivity.
    + destruct (Ascii.eqb_spec c2 "]"%char) as [->|ND].
      * exfalso. apply NW. exists l, l, r2. subst t r0. apply (w_one scan w0 w1 w2 t1); try assumption.
        split; [exact N1|]. rewrite S1, E2. reflexivity.
      * eexists. split; [|apply finish_failed]; reflexivity.
  - unfold put_back. cbn [failed fresh_stream inp]. change {| inp := c0 :: r0; failed := false; ended := false |} with (fresh_stream ([] ++ c0 :: r0)).
    destruct (scan (c0 :: r0)) as [[v good] r'] eqn:S.
    assert (N0 : exists ch t', c0 :: r0 = ch :: t' /\ ~ white ch) by (exists c0, r0; auto).
    rewrite (get_num_ok [] (c0 :: r0) v good r' None (Forall_nil _) N0 S).
    destruct good.
    + exfalso. apply NW. exists v, v, r'. subst t. apply w_bare; [exact B0|split; assumption|]. intros t' K. congruence.
    + eexists. split; [|apply finish_failed]; reflexivity.
Qed.
End Read.

(** * What the control registers mean (processor and C library manuals) *)

From Coq Require Import ZArith List.
From Verif Require Import Outcome HwControl.
Local Open Scope Z_scope.

(** Bits [lo, lo + n) of a word. *)
Definition field (w lo n : Z) : Z := (w / 2 ^ lo) mod 2 ^ n.

(** The direction in which the processor rounds:
    - x87: RC, bits 11-10 (00 nearest, 01 down, 10 up, 11 toward zero);
    - the word of Microsoft's _control87: _MCW_RC = 0x300, same codes;
    - PowerPC: RN, the two low bits (00 nearest, 01 zero, 10 up, 11 down);
    - SPARC: RD, bits 31-30 (0 nearest, 1 zero, 2 up, 3 down);
    - Alpha: DYN, bits 59-58 (00 chopped, 01 minus infinity, 10 normal, 11 plus infinity). *)
Definition direction (a : arch) (w : Z) : rmode :=
  match a with
  | X87 => match field w 10 2 with 0 => RNE | 1 => RDN | 2 => RUP | _ => RZR end
  | MSVC => match field w 8 2 with 0 => RNE | 1 => RDN | 2 => RUP | _ => RZR end
  | PPC => match field w 0 2 with 0 => RNE | 1 => RZR | 2 => RUP | _ => RDN end
  | SPARC => match field w 30 2 with 0 => RNE | 1 => RZR | 2 => RUP | _ => RDN end
  | ALPHA => match field w 58 2 with 0 => RZR | 1 => RDN | 2 => RNE | _ => RUP end
  end.
(** Width of the register. *)
Definition width_of (a : arch) : Z :=
  match a with X87 => 16 | MSVC => 32 | PPC => 32 | SPARC => 32 | ALPHA => 64 end.
Definition register (a : arch) (w : Z) : Prop := 0 <= w < 2 ^ width_of a.

(** The x87 precision control (bits 9-8): significand bits of every result. *)
Definition x87_precision (w : Z) : option Z :=
  match field w 8 2 with 0 => Some 24 | 2 => Some 53 | 3 => Some 64 | _ => None end.
(** All six x87 exceptions masked (bits 5-0). *)
Definition x87_masked (w : Z) : Prop := field w 0 6 = 63.

(** The effect of a control program on the direction: what the rest of the
    model uses (Base.v, [control_hw]). *)
Fixpoint ctl_meaning (c : ctl_prog) (d : rmode) : rmode :=
  match c with
  | C_switch m => m
  | C_seq c1 c2 => ctl_meaning c2 (ctl_meaning c1 d)
  | C_scope _ => d
  end.

(** * Hardware rounding control (detail/*_rounding_control.hpp,
      ext/x86_fast_rounding_control.hpp)

    The FPU control register is an integer.  A back end is what its
    [rounding_control] members do to that register.  Machine instructions and
    C library functions are modelled as their manuals describe them; those
    readings are stated at each definition. *)

From Coq Require Import ZArith List.
From Verif Require Import Outcome.
Import ListNotations.
Local Open Scope Z_scope.

(** The register layouts. *)
Inductive arch := X87 | MSVC | PPC | SPARC | ALPHA.

Record backend := {
  be_arch : arch;
  be_set : Z -> Z -> Z;    (* set_rounding_mode(mode) : register before -> after *)
  be_get : Z -> Z;         (* get_rounding_mode(mode) : register -> mode *)
  be_code : rmode -> Z     (* the argument to_nearest(), downward(), upward() and
                              toward_zero() pass to set_rounding_mode *)
}.

(** struct fpu_rounding_modes, x86_rounding_control.hpp:37-43: the initialisers
    are in the order to_nearest, downward, upward, toward_zero. *)
Definition modes (n d u z : Z) (m : rmode) : Z :=
  match m with RNE => n | RDN => d | RUP => u | RZR => z end.
(** x86_rounding_control.hpp:47 *)
Definition rnd_mode := modes 0x137f 0x177f 0x1b7f 0x1f7f.
(** x86_fast_rounding_control.hpp:27-29 *)
Definition rnd_mode_f := modes 0x107f 0x147f 0x187f 0x1c7f.
Definition rnd_mode_d := modes 0x127f 0x167f 0x1a7f 0x1e7f.
Definition rnd_mode_l := modes 0x137f 0x177f 0x1b7f 0x1f7f.

(** x86gcc_rounding_control.hpp:31-35: fldcw loads the 16-bit control word,
    fnstcw stores it. *)
Definition x86gcc (code : rmode -> Z) : backend := {|
  be_arch := X87;
  be_set := fun mode _ => mode mod 2 ^ 16;
  be_get := fun cw => cw;
  be_code := code |}.

(** _control87(new, mask): the bits of [mask] are taken from [new]. *)
Definition control87 (new mask old : Z) : Z := Z.lor (Z.ldiff old mask) (Z.land new mask).

(** bcc_rounding_control.hpp:45-48; Borland's _control87 works on the hardware
    word. *)
Definition bcc : backend := {|
  be_arch := X87;
  be_set := fun mode cw => control87 mode 0xffff cw;
  be_get := fun cw => control87 0 0 cw;
  be_code := rnd_mode |}.

(** The constants of Microsoft's <float.h>. *)
Definition EM_INVALID := 0x10.
Definition EM_DENORMAL := 0x80000.
Definition EM_ZERODIVIDE := 0x8.
Definition EM_OVERFLOW := 0x4.
Definition EM_UNDERFLOW := 0x2.
Definition EM_INEXACT := 0x1.
Definition MCW_EM := 0x8001f.
Definition PC_24 := 0x20000.
Definition PC_53 := 0x10000.
Definition PC_64 := 0.
Definition MCW_PC := 0x30000.
Definition RC_NEAR := 0.
Definition RC_DOWN := 0x100.
Definition RC_UP := 0x200.
Definition RC_CHOP := 0x300.
Definition MCW_RC := 0x300.
Definition IC_AFFINE := 0x40000.
Definition MCW_IC := 0x40000.

(** if (m & bit) n |= flag; *)
Definition flag (m bit fl n : Z) : Z := if Z.land m bit =? 0 then n else Z.lor n fl.

(** msvc_rounding_control.hpp:41-62 *)
Definition hard2msvc (m : Z) : Z :=
  let n := 0 in
  let n := flag m 0x01 EM_INVALID n in
  let n := flag m 0x02 EM_DENORMAL n in
  let n := flag m 0x04 EM_ZERODIVIDE n in
  let n := flag m 0x08 EM_OVERFLOW n in
  let n := flag m 0x10 EM_UNDERFLOW n in
  let n := flag m 0x20 EM_INEXACT n in
  let pc := Z.land m 0x300 in
  let n := if pc =? 0x000 then Z.lor n PC_24 else if pc =? 0x200 then Z.lor n PC_53
           else if pc =? 0x300 then Z.lor n PC_64 else n in
  let rc := Z.land m 0xC00 in
  let n := if rc =? 0x000 then Z.lor n RC_NEAR else if rc =? 0x400 then Z.lor n RC_DOWN
           else if rc =? 0x800 then Z.lor n RC_UP else if rc =? 0xC00 then Z.lor n RC_CHOP else n in
  flag m 0x1000 IC_AFFINE n.

(** msvc_rounding_control.hpp:64-85 *)
Definition msvc2hard (n : Z) : Z :=
  let m := 0 in
  let m := flag n EM_INVALID 0x01 m in
  let m := flag n EM_DENORMAL 0x02 m in
  let m := flag n EM_ZERODIVIDE 0x04 m in
  let m := flag n EM_OVERFLOW 0x08 m in
  let m := flag n EM_UNDERFLOW 0x10 m in
  let m := flag n EM_INEXACT 0x20 m in
  let rc := Z.land n MCW_RC in
  let m := if rc =? RC_NEAR then Z.lor m 0x000 else if rc =? RC_DOWN then Z.lor m 0x400
           else if rc =? RC_UP then Z.lor m 0x800 else if rc =? RC_CHOP then Z.lor m 0xC00 else m in
  let pc := Z.land n MCW_PC in
  let m := if pc =? PC_24 then Z.lor m 0x000 else if pc =? PC_53 then Z.lor m 0x200
           else if pc =? PC_64 then Z.lor m 0x300 else m in
  if Z.land n MCW_IC =? IC_AFFINE then Z.lor m 0x1000 else m.

(** msvc_rounding_control.hpp:87-106; [x64] is whether _M_AMD64, _M_ARM or
    _M_ARM64 is defined.  The register is the word _control87 works with. *)
Definition msvc_mask (x64 : bool) : Z :=
  Z.lor (Z.lor MCW_EM MCW_RC) (if x64 then 0 else Z.lor MCW_PC MCW_IC).
Definition msvc (x64 : bool) (code : rmode -> Z) : backend := {|
  be_arch := MSVC;
  be_set := fun mode cw => control87 (hard2msvc (mode mod 2 ^ 16)) (msvc_mask x64) cw;
  be_get := fun cw => msvc2hard (control87 0 0 cw);
  be_code := code |}.

(** ppc_rounding_control.hpp:31-49: mtfsf 255 copies the low word of the
    floating-point register to the FPSCR, mffs copies the FPSCR to the low word
    ([high] is whatever the processor leaves in the high word).  The summary
    bits FEX and VX, which the processor recomputes, are not modelled. *)
Definition ppc (high : Z) : backend := {|
  be_arch := PPC;
  be_set := fun mode _ => mode mod 2 ^ 32;
  be_get := fun fpscr => high * 2 ^ 32 + fpscr;
  be_code := modes 0xFFF8000000000000 0xFFF8000000000003 0xFFF8000000000002 0xFFF8000000000001 |}.

(** sparc_rounding_control.hpp:34-72 (GNU): ld %fsr loads the state register,
    except the fields ver, ftt and qne (bits 19-13), which it leaves alone; st
    stores it. *)
Definition fsr_read_only := 0xFE000.
Definition sparc : backend := {|
  be_arch := SPARC;
  be_set := fun mode fsr => Z.lor (Z.land fsr fsr_read_only) (Z.ldiff (mode mod 2 ^ 32) fsr_read_only);
  be_get := fun fsr => fsr;
  be_code := modes 0x00000000 0xc0000000 0x80000000 0x40000000 |}.

(** alpha_rounding_control.hpp:34-52 (GNU): mt_fpcr and mf_fpcr. *)
Definition alpha : backend := {|
  be_arch := ALPHA;
  be_set := fun mode _ => mode mod 2 ^ 64;
  be_get := fun fpcr => fpcr;
  be_code := modes 0x4808000000000000 0x4408000000000000 0x4C08000000000000 0x4008000000000000 |}.

(** ** Back ends that call a C library (c99sub_rounding_control.hpp:23-32,
    ia64_rounding_control.hpp:28-40, alpha_rounding_control.hpp:60-71,
    sparc_rounding_control.hpp:40,54,63-66)

    [code] gives the values of the FE_, FP_RND_ or FP_ macros; the setter ignores an
    argument that is none of them. *)
Definition lib_set (code : rmode -> Z) (mode : Z) (cur : rmode) : rmode :=
  if mode =? code RNE then RNE else if mode =? code RDN then RDN
  else if mode =? code RUP then RUP else if mode =? code RZR then RZR else cur.
Definition lib_get (code : rmode -> Z) (cur : rmode) : Z := code cur.

(** ** What the rounding classes do with a control: switch direction, and open
    save_state scopes, which may be nested (rounding.hpp:75-85). *)
Inductive ctl_prog :=
| C_switch (m : rmode)
| C_seq (a b : ctl_prog)
| C_scope (a : ctl_prog).
Fixpoint ctl_run (b : backend) (c : ctl_prog) (w : Z) : Z :=
  match c with
  | C_switch m => be_set b (be_code b m) w
  | C_seq c1 c2 => ctl_run b c2 (ctl_run b c1 w)
  | C_scope c1 => let saved := be_get b w in be_set b saved (ctl_run b c1 w)
  end.
Fixpoint ctl_run_lib (code : rmode -> Z) (c : ctl_prog) (d : rmode) : rmode :=
  match c with
  | C_switch m => lib_set code (code m) d
  | C_seq c1 c2 => ctl_run_lib code c2 (ctl_run_lib code c1 d)
  | C_scope c1 => let saved := lib_get code d in lib_set code saved (ctl_run_lib code c1 d)
  end.

(** Model of parts of the MIPS generator, libs/compiler/mipsgen.c: the temporary
    registers, the layout of a frame and the passing of arguments. *)
From Verif Require Import Prelude CodeModel.
From Coq Require String.
Import String.StringSyntax.
Local Open Scope string_scope.
Local Open Scope list_scope.
Local Open Scope Z_scope.

(** mipsgen.c:59-148 [mips_register_t], the enumerators in their order: 0-31 are
    the general registers ([R_T0] is 8, [R_S0] is 16, [R_T8] is 24), 32-63 the
    floating ones ([R_FV0] is 32, [R_FA0] 36, [R_FT0] 40, [R_FS0] 52). *)
Definition R_A0 : Z := 4.
Definition R_T0 : Z := 8.
Definition R_T7 : Z := 15.
Definition R_S0 : Z := 16.
Definition R_T8 : Z := 24.
Definition R_T9 : Z := 25.
Definition R_FP : Z := 30.
Definition R_RA : Z := 31.
Definition R_FA0 : Z := 36.
Definition R_FT0 : Z := 40.
Definition R_FT11 : Z := 51.
Definition R_FS0 : Z := 52.

(** mipsgen.c:34-48. *)
Definition WORD_LENGTH : Z := 4.
Definition SP_SIZE : Z := 4.
Definition RA_SIZE : Z := 4.
Definition TEMP_FP_REG_AMOUNT : Z := 12.
Definition TEMP_REG_AMOUNT : Z := 10.
Definition ARG_REG_AMOUNT : Z := 4.
Definition PRESERVED_REG_AMOUNT : nat := 8.
Definition PRESERVED_FP_REG_AMOUNT : nat := 10.
(** mipsgen.c:53-54. *)
Definition FUNC_DISPL_PRESERVED : Z := 4 + 4 + 5 * 4 + 8 * 4.

(** ** Temporary registers *)

(** mipsgen.c:321 [enc->registers]: which of the 22 are taken; 3956-3959. *)
Definition no_registers : list bool := repeat false 22.

(** mipsgen.c:367-415 [lock_register] ([taken] is true) and 471-521
    [free_register]: the word is written only if it changes, which is the same. *)
Definition set_register (taken : bool) (regs : list bool) (reg : Z) : list bool :=
  if (R_T0 <=? reg) && (reg <=? R_T7) then zupd regs (reg - R_T0) taken
  else if (R_T8 <=? reg) && (reg <=? R_T9) then zupd regs (reg - R_T8 + 8) taken
  else if (R_FT0 <=? reg) && (reg <=? R_FT11) then zupd regs (reg - R_FT0 + TEMP_REG_AMOUNT) taken
  else regs.
Definition lock_register := set_register true.
Definition free_register := set_register false.

(** mipsgen.c:427-431 and 451-455, the search of a free register. *)
Fixpoint find_free (fuel : nat) (regs : list bool) (i step limit : Z) : option Z :=
  match fuel with
  | O => None
  | S fuel =>
      if i <? limit
      then do b <- znth regs i; if (b : bool) then find_free fuel regs (i + step) step limit else Some i
      else Some i
  end.
(** mipsgen.c:424-439 [get_register]; [None] is the failed assertion. *)
Definition get_register (regs : list bool) : option (Z * list bool) :=
  do i <- find_free 23 regs 0 1 TEMP_REG_AMOUNT;
  if i =? TEMP_REG_AMOUNT then None else Some (i + R_T0, zupd regs i true).
(** mipsgen.c:448-463 [get_float_register]. *)
Definition get_float_register (regs : list bool) : option (Z * list bool) :=
  do i <- find_free 23 regs TEMP_REG_AMOUNT 2 (TEMP_FP_REG_AMOUNT + TEMP_REG_AMOUNT);
  if i =? TEMP_FP_REG_AMOUNT + TEMP_REG_AMOUNT then None else Some (i + R_FT0 - TEMP_REG_AMOUNT, zupd regs i true).

(** mipsgen.c:606-814 [mips_register_to_io]: the names, in the order of the
    enumerators. *)
Definition register_names : list bytes :=
  [str "$0"; str "$at"; str "$v0"; str "$v1"; str "$a0"; str "$a1"; str "$a2"; str "$a3";
   str "$t0"; str "$t1"; str "$t2"; str "$t3"; str "$t4"; str "$t5"; str "$t6"; str "$t7";
   str "$s0"; str "$s1"; str "$s2"; str "$s3"; str "$s4"; str "$s5"; str "$s6"; str "$s7";
   str "$t8"; str "$t9"; str "$k0"; str "$k1"; str "$gp"; str "$sp"; str "$fp"; str "$ra";
   str "$f0"; str "$f1"; str "$f2"; str "$f3"; str "$f12"; str "$f13"; str "$f14"; str "$f15";
   str "$f4"; str "$f5"; str "$f6"; str "$f7"; str "$f8"; str "$f9"; str "$f10"; str "$f11";
   str "$f16"; str "$f17"; str "$f18"; str "$f19";
   str "$f20"; str "$f21"; str "$f22"; str "$f23"; str "$f24"; str "$f25"; str "$f26"; str "$f27"; str "$f28"; str "$f29"; str "$f30"; str "$f31"].
Definition mips_register_to_io (reg : Z) : option bytes := znth register_names reg.

(** ** The variables of a function *)

(** mipsgen.c:303-304 and 323, the displacements of the encoder; [d_saved] are the
    values of the local variable [scope_displacement] in the running calls of
    [emit_compound_statement] and [emit_for_statement]. *)
Record displ := mkDispl { d_scope : Z; d_max : Z; d_global : Z; d_saved : list Z }.

(** mipsgen.c:1105-1136 [displacements_add] of a local variable of [size] bytes:
    where it is, from [$fp].  Sizes are taken as unbounded numbers. *)
Definition add_local (d : displ) (size : Z) : Z * displ :=
  let scope := d_scope d + size in
  (- scope, mkDispl scope (Z.max scope (d_max d)) (d_global d) (d_saved d)).
(** The same of a global variable, from [$gp]. *)
Definition add_global (d : displ) (size : Z) : Z * displ :=
  (d_global d, mkDispl (d_scope d) (d_max d) (d_global d + size) (d_saved d)).
(** mipsgen.c:3396 and 3621, the beginning of a block or of a for. *)
Definition enter (d : displ) : displ := mkDispl (d_scope d) (d_max d) (d_global d) (d_scope d :: d_saved d).
(** mipsgen.c:3405-3406 and 3663, its end; that of a for does not take the
    maximum, which [displacements_add] has already done. *)
Definition leave (d : displ) : option displ :=
  match d_saved d with
  | s :: saved => Some (mkDispl s (Z.max (d_scope d) (d_max d)) (d_global d) saved)
  | [] => None
  end.
(** mipsgen.c:3171-3172, the beginning of a function. *)
Definition start_function (d : displ) : displ := mkDispl 0 0 (d_global d) [].
(** mipsgen.c:3951-3952. *)
Definition no_displ : displ := mkDispl 0 0 0 [].

(** mipsgen.c:3177-3194: which registers a function saves, and where, from the
    [$sp] at its entry. *)
Definition saved_registers : list (Z * Z) :=
  (R_RA, - RA_SIZE) :: (R_FP, - (RA_SIZE + SP_SIZE)) ::
  map (fun i => (R_S0 + Z.of_nat i, - (RA_SIZE + SP_SIZE + (Z.of_nat i + 1) * WORD_LENGTH))) (seq 0 PRESERVED_REG_AMOUNT) ++
  map (fun i => (R_FS0 + 2 * Z.of_nat i, - (RA_SIZE + SP_SIZE + (Z.of_nat i + 1) * WORD_LENGTH + Z.of_nat PRESERVED_REG_AMOUNT * WORD_LENGTH))) (seq 0 (Nat.div PRESERVED_FP_REG_AMOUNT 2)).
(** mipsgen.c:3287-3306: which it restores, and from where, from the [$sp] set in
    3282. *)
Definition restored_registers : list (Z * Z) :=
  map (fun i => (R_S0 + Z.of_nat i, - (RA_SIZE + SP_SIZE + (Z.of_nat i + 1) * WORD_LENGTH))) (seq 0 PRESERVED_REG_AMOUNT) ++
  map (fun i => (R_FS0 + 2 * Z.of_nat i, - (RA_SIZE + SP_SIZE + (Z.of_nat i + 1) * WORD_LENGTH + 8 * WORD_LENGTH))) (seq 0 (Nat.div PRESERVED_FP_REG_AMOUNT 2)) ++
  [(R_FP, - (RA_SIZE + SP_SIZE)); (R_RA, - RA_SIZE)].

(** mipsgen.c:3265: [$fp] from the [$sp] at the entry. *)
Definition frame_pointer (sp : Z) : Z := sp - (FUNC_DISPL_PRESERVED + WORD_LENGTH).
(** mipsgen.c:3270: [$sp] in the body, from [$fp]; arrays, which lower it while the
    body runs (2976-3061), are not modelled. *)
Definition body_sp (fp : Z) (d : displ) : Z := fp - (WORD_LENGTH + d_max d).
(** mipsgen.c:3282: [$sp] before the registers are restored. *)
Definition exit_sp (fp : Z) : Z := fp + (FUNC_DISPL_PRESERVED + WORD_LENGTH).

(** ** Arguments *)

(** Where an argument or a parameter is: in a register, or at an offset. *)
Inductive place := InRegister (reg : Z) | OnStack (displ : Z).

(** mipsgen.c:3218-3253, the loop over the parameters of a function (one word each,
    as they are passed); [true] is a
    floating one; offsets are from [$fp]. *)
Fixpoint parameters_loop (i regs fregs : Z) (kinds : list bool) : list place :=
  match kinds with
  | [] => []
  | is_float :: kinds =>
      if if negb is_float then regs <? ARG_REG_AMOUNT else fregs <? ARG_REG_AMOUNT / 2
      then if (is_float : bool)
           then InRegister (R_FA0 + 2 * fregs) :: parameters_loop (i + 1) regs (fregs + 1) kinds
           else InRegister (R_A0 + regs) :: parameters_loop (i + 1) (regs + 1) fregs kinds
      else OnStack (i * WORD_LENGTH + FUNC_DISPL_PRESERVED + WORD_LENGTH) :: parameters_loop (i + 1) regs fregs kinds
  end.
Definition parameters (kinds : list bool) : list place := parameters_loop 0 0 0 kinds.

(** mipsgen.c:2199-2269, the loop over the arguments of a call: where each is when
    the function is entered; offsets are from [$sp]. *)
Fixpoint arguments_loop (i args fargs : Z) (kinds : list bool) : list place :=
  match kinds with
  | [] => []
  | is_float :: kinds =>
      (if (if is_float then fargs else args) <? ARG_REG_AMOUNT
       then InRegister (if is_float then R_FA0 + fargs else R_A0 + args)
       else OnStack (i * WORD_LENGTH)) ::
      (if (is_float : bool) then arguments_loop (i + 1) args (fargs + 2) kinds else arguments_loop (i + 1) (args + 1) fargs kinds)
  end.
Definition arguments (kinds : list bool) : list place := arguments_loop 0 0 0 kinds.

(** mipsgen.c:2186-2194: [$sp] while the arguments of a call are made and the
    function runs; with no argument the [size_t] wraps and [$sp] moves up. *)
Definition call_sp (sp : Z) (amount : nat) : Z := sp - (Z.of_nat amount - 1) * WORD_LENGTH.
(** mipsgen.c:2219-2226: the words a call writes on the stack, one for each
    argument: the argument or the value of its register before the call. *)
Definition call_words (sp : Z) (amount : nat) : list Z := map (fun i => call_sp sp amount + Z.of_nat i * WORD_LENGTH) (seq 0 amount).

(** mipsgen.c:2247-2259 with 2228-2235: the registers a call saves before it puts an
    argument into them, each with the word it is saved in and whether it is
    floating, in the order of [prev_arg_displ]. *)
Fixpoint call_saved (i args fargs : Z) (kinds : list bool) : list (Z * Z * bool) :=
  match kinds with
  | [] => []
  | is_float :: kinds =>
      let rest := if (is_float : bool) then call_saved (i + 1) args (fargs + 2) kinds else call_saved (i + 1) (args + 1) fargs kinds in
      if (if is_float then fargs else args) <? ARG_REG_AMOUNT
      then (if is_float then R_FA0 + fargs else R_A0 + args, i * WORD_LENGTH, is_float) :: rest
      else rest
  end.
(** mipsgen.c:2278-2291: the registers loaded after the call, and from which words. *)
Fixpoint call_restored (i j : Z) (prev : list (Z * bool)) : list (Z * Z) :=
  match prev with
  | [] => []
  | (displ, is_float) :: prev =>
      if (is_float : bool) then (R_FA0 + 2 * j, displ) :: call_restored i (j + 1) prev
      else (R_A0 + i, displ) :: call_restored (i + 1) j prev
  end.

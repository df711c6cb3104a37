(** The virtual machine, as far as the theorems about generated code need it.

    The machine is not part of the repository.  This is its meaning as the
    names and comments of libs/compiler/instructions.h and the way codegen.c
    uses the instructions describe it: it is a trusted specification.  The
    operand stack is kept apart from the cells of the variables.  Only the
    instructions for words, places and jumps are given; at any other the machine
    stops.  The arithmetic of a machine word is given by a function [w], which
    brings a result back into the range of a word: every theorem holds for
    every [w]. *)
From Verif Require Import Prelude TypesModel LexModel ParseModel InstrModel.

Definition cells := Z -> Z.
Definition store (m : cells) (a v : Z) : cells := fun x => if x =? a then v else m x.

(** ** Operators on words *)
Section Words.
Variable w : Z -> Z.

Definition truth (b : bool) : Z := if b then 1 else 0.

(** The value of [a op b]; none when the operation has no result. *)
Definition operate (op : binary) (a b : Z) : option Z :=
  match op with
  | BIN_MUL => Some (w (a * b))
  | BIN_DIV => if b =? 0 then None else Some (w (Z.quot a b))
  | BIN_REM => if b =? 0 then None else Some (w (Z.rem a b))
  | BIN_ADD => Some (w (a + b))
  | BIN_SUB => Some (w (a - b))
  | BIN_SHL => if (0 <=? b) && (b <? 64) then Some (w (a * 2 ^ b)) else None
  | BIN_SHR => if (0 <=? b) && (b <? 64) then Some (w (a / 2 ^ b)) else None
  | BIN_LT => Some (truth (a <? b))
  | BIN_GT => Some (truth (b <? a))
  | BIN_LE => Some (truth (a <=? b))
  | BIN_GE => Some (truth (b <=? a))
  | BIN_EQ => Some (truth (a =? b))
  | BIN_NE => Some (truth (negb (a =? b)))
  | BIN_AND => Some (w (Z.land a b))
  | BIN_XOR => Some (w (Z.lxor a b))
  | BIN_OR => Some (w (Z.lor a b))
  | BIN_LOG_AND => Some (truth (negb (a =? 0) && negb (b =? 0)))
  | BIN_LOG_OR => Some (truth (negb (a =? 0) || negb (b =? 0)))
  | _ => None
  end.

(** The value a variable with the value [old] gets by [variable op v]. *)
Definition assigned (op : binary) (old v : Z) : option Z :=
  match op with
  | BIN_ASSIGN => Some v
  | BIN_MUL_ASSIGN => operate BIN_MUL old v
  | BIN_DIV_ASSIGN => operate BIN_DIV old v
  | BIN_REM_ASSIGN => operate BIN_REM old v
  | BIN_ADD_ASSIGN => operate BIN_ADD old v
  | BIN_SUB_ASSIGN => operate BIN_SUB old v
  | BIN_SHL_ASSIGN => operate BIN_SHL old v
  | BIN_SHR_ASSIGN => operate BIN_SHR old v
  | BIN_AND_ASSIGN => operate BIN_AND old v
  | BIN_XOR_ASSIGN => operate BIN_XOR old v
  | BIN_OR_ASSIGN => operate BIN_OR old v
  | _ => None
  end.

(** What [++] and [--] leave in the variable and what their value is. *)
Definition stepped (op : unary) (old : Z) : option (Z * Z) :=
  match op with
  | UN_POSTINC => Some (w (old + 1), old)
  | UN_POSTDEC => Some (w (old - 1), old)
  | UN_PREINC => Some (w (old + 1), w (old + 1))
  | UN_PREDEC => Some (w (old - 1), w (old - 1))
  | _ => None
  end.

Definition operate1 (op : unary) (a : Z) : option Z :=
  match op with
  | UN_MINUS => Some (w (- a))
  | UN_NOT => Some (w (Z.lnot a))
  | UN_LOGNOT => Some (truth (a =? 0))
  | UN_ABS => Some (w (Z.abs a))
  | _ => None
  end.
End Words.

(** ** Instructions *)

(** Operations on the two topmost words. *)
Definition op_codes : list (Z * binary) :=
  [(IC_REM, BIN_REM); (IC_SHL, BIN_SHL); (IC_SHR, BIN_SHR); (IC_AND, BIN_AND); (IC_XOR, BIN_XOR); (IC_OR, BIN_OR);
   (IC_LOG_AND, BIN_LOG_AND); (IC_LOG_OR, BIN_LOG_OR); (IC_EQ, BIN_EQ); (IC_NE, BIN_NE); (IC_LT, BIN_LT); (IC_GT, BIN_GT);
   (IC_LE, BIN_LE); (IC_GE, BIN_GE); (IC_ADD, BIN_ADD); (IC_SUB, BIN_SUB); (IC_MUL, BIN_MUL); (IC_DIV, BIN_DIV)].

Definition op1_codes : list (Z * unary) :=
  [(IC_UNMINUS, UN_MINUS); (IC_NOT, UN_NOT); (IC_LOG_NOT, UN_LOGNOT); (IC_ABSI, UN_ABS)].

(** Where an instruction finds the variable: its displacement is the next word
    of the code, or its address is on the stack. *)
Inductive variant := VWord | VStack.

(** Assignments: the operator, the variant, whether the value stays on the stack. *)
Definition set_codes : list (Z * (binary * variant * bool)) :=
  [(IC_REM_ASSIGN, (BIN_REM_ASSIGN, VWord, true)); (IC_SHL_ASSIGN, (BIN_SHL_ASSIGN, VWord, true));
   (IC_SHR_ASSIGN, (BIN_SHR_ASSIGN, VWord, true)); (IC_AND_ASSIGN, (BIN_AND_ASSIGN, VWord, true));
   (IC_XOR_ASSIGN, (BIN_XOR_ASSIGN, VWord, true)); (IC_OR_ASSIGN, (BIN_OR_ASSIGN, VWord, true));
   (IC_ASSIGN, (BIN_ASSIGN, VWord, true)); (IC_ADD_ASSIGN, (BIN_ADD_ASSIGN, VWord, true));
   (IC_SUB_ASSIGN, (BIN_SUB_ASSIGN, VWord, true)); (IC_MUL_ASSIGN, (BIN_MUL_ASSIGN, VWord, true));
   (IC_DIV_ASSIGN, (BIN_DIV_ASSIGN, VWord, true));
   (IC_REM_ASSIGN_AT, (BIN_REM_ASSIGN, VStack, true)); (IC_SHL_ASSIGN_AT, (BIN_SHL_ASSIGN, VStack, true));
   (IC_SHR_ASSIGN_AT, (BIN_SHR_ASSIGN, VStack, true)); (IC_AND_ASSIGN_AT, (BIN_AND_ASSIGN, VStack, true));
   (IC_XOR_ASSIGN_AT, (BIN_XOR_ASSIGN, VStack, true)); (IC_OR_ASSIGN_AT, (BIN_OR_ASSIGN, VStack, true));
   (IC_ASSIGN_AT, (BIN_ASSIGN, VStack, true)); (IC_ADD_ASSIGN_AT, (BIN_ADD_ASSIGN, VStack, true));
   (IC_SUB_ASSIGN_AT, (BIN_SUB_ASSIGN, VStack, true)); (IC_MUL_ASSIGN_AT, (BIN_MUL_ASSIGN, VStack, true));
   (IC_DIV_ASSIGN_AT, (BIN_DIV_ASSIGN, VStack, true));
   (IC_REM_ASSIGN_V, (BIN_REM_ASSIGN, VWord, false)); (IC_SHL_ASSIGN_V, (BIN_SHL_ASSIGN, VWord, false));
   (IC_SHR_ASSIGN_V, (BIN_SHR_ASSIGN, VWord, false)); (IC_AND_ASSIGN_V, (BIN_AND_ASSIGN, VWord, false));
   (IC_XOR_ASSIGN_V, (BIN_XOR_ASSIGN, VWord, false)); (IC_OR_ASSIGN_V, (BIN_OR_ASSIGN, VWord, false));
   (IC_ASSIGN_V, (BIN_ASSIGN, VWord, false)); (IC_ADD_ASSIGN_V, (BIN_ADD_ASSIGN, VWord, false));
   (IC_SUB_ASSIGN_V, (BIN_SUB_ASSIGN, VWord, false)); (IC_MUL_ASSIGN_V, (BIN_MUL_ASSIGN, VWord, false));
   (IC_DIV_ASSIGN_V, (BIN_DIV_ASSIGN, VWord, false));
   (IC_REM_ASSIGN_AT_V, (BIN_REM_ASSIGN, VStack, false)); (IC_SHL_ASSIGN_AT_V, (BIN_SHL_ASSIGN, VStack, false));
   (IC_SHR_ASSIGN_AT_V, (BIN_SHR_ASSIGN, VStack, false)); (IC_AND_ASSIGN_AT_V, (BIN_AND_ASSIGN, VStack, false));
   (IC_XOR_ASSIGN_AT_V, (BIN_XOR_ASSIGN, VStack, false)); (IC_OR_ASSIGN_AT_V, (BIN_OR_ASSIGN, VStack, false));
   (IC_ASSIGN_AT_V, (BIN_ASSIGN, VStack, false)); (IC_ADD_ASSIGN_AT_V, (BIN_ADD_ASSIGN, VStack, false));
   (IC_SUB_ASSIGN_AT_V, (BIN_SUB_ASSIGN, VStack, false)); (IC_MUL_ASSIGN_AT_V, (BIN_MUL_ASSIGN, VStack, false));
   (IC_DIV_ASSIGN_AT_V, (BIN_DIV_ASSIGN, VStack, false))].

Definition step_codes : list (Z * (unary * variant * bool)) :=
  [(IC_POST_INC, (UN_POSTINC, VWord, true)); (IC_POST_DEC, (UN_POSTDEC, VWord, true));
   (IC_PRE_INC, (UN_PREINC, VWord, true)); (IC_PRE_DEC, (UN_PREDEC, VWord, true));
   (IC_POST_INC_AT, (UN_POSTINC, VStack, true)); (IC_POST_DEC_AT, (UN_POSTDEC, VStack, true));
   (IC_PRE_INC_AT, (UN_PREINC, VStack, true)); (IC_PRE_DEC_AT, (UN_PREDEC, VStack, true));
   (IC_POST_INC_V, (UN_POSTINC, VWord, false)); (IC_POST_DEC_V, (UN_POSTDEC, VWord, false));
   (IC_PRE_INC_V, (UN_PREINC, VWord, false)); (IC_PRE_DEC_V, (UN_PREDEC, VWord, false));
   (IC_POST_INC_AT_V, (UN_POSTINC, VStack, false)); (IC_POST_DEC_AT_V, (UN_POSTDEC, VStack, false));
   (IC_PRE_INC_AT_V, (UN_PREINC, VStack, false)); (IC_PRE_DEC_AT_V, (UN_PREDEC, VStack, false))].

(** Instructions with a fixed form. *)
Inductive fixed := FLi | FLoad | FLat | FLa | FSlice | FSelect | FB | FBe0 | FBne0 | FDuplicate | FNop.
Definition fixed_codes : list (Z * fixed) :=
  [(IC_LI, FLi); (IC_LOAD, FLoad); (IC_LAT, FLat); (IC_LA, FLa); (IC_SLICE, FSlice); (IC_SELECT, FSelect); (IC_B, FB);
   (IC_BE0, FBe0); (IC_BNE0, FBne0); (IC_DUPLICATE, FDuplicate); (IC_NOP, FNop)].

Fixpoint look {A} (l : list (Z * A)) (k : Z) : option A :=
  match l with [] => None | (x, a) :: l => if x =? k then Some a else look l k end.

(** ** The machine *)
Record vm := mkVm { pc : Z; stack : list Z; data : cells }.

(** Where the cells of the running function and the global cells start.  A
    displacement above zero is counted from the first, any other from the
    second. *)
Record layout := mkLayout { frame : Z; globals : Z }.
Definition address_of (l : layout) (displ : Z) : Z := if 0 <? displ then frame l + displ else globals l - displ.

Section Machine.
Variable w : Z -> Z.
Variable l : layout.
Variable code : list Z.

(** Write [v] to the cell [a]; [r] is the value of the operation. *)
Definition wrote (p : Z) (st : list Z) (m : cells) (a v r : Z) (keep : bool) : vm :=
  mkVm p (if keep then r :: st else st) (store m a v).

Definition step (s : vm) : option vm :=
  let p := pc s in
  let st := stack s in
  let m := data s in
  do i <- znth code p;
  let arg := znth code (p + 1) in
  match look fixed_codes i, look op_codes i, look op1_codes i, look set_codes i, look step_codes i with
  | Some f, _, _, _, _ =>
      match f with
      | FLi => do a <- arg; Some (mkVm (p + 2) (a :: st) m)
      | FLoad => do a <- arg; Some (mkVm (p + 2) (m (address_of l a) :: st) m)
      | FLa => do a <- arg; Some (mkVm (p + 2) (address_of l a :: st) m)
      | FLat => match st with a :: st => Some (mkVm (p + 1) (m a :: st) m) | _ => None end
      | FSlice =>
          do n <- arg;
          match st with
          | i :: a :: st => if (0 <=? i) && (i <? m (a - 1)) then Some (mkVm (p + 2) (a + i * n :: st) m) else None
          | _ => None
          end
      | FSelect => do n <- arg; match st with a :: st => Some (mkVm (p + 2) (a + n :: st) m) | _ => None end
      | FB => do a <- arg; Some (mkVm a st m)
      | FBe0 => do a <- arg; match st with v :: st => Some (mkVm (if v =? 0 then a else p + 2) st m) | _ => None end
      | FBne0 => do a <- arg; match st with v :: st => Some (mkVm (if v =? 0 then p + 2 else a) st m) | _ => None end
      | FDuplicate => match st with v :: st => Some (mkVm (p + 1) (v :: v :: st) m) | _ => None end
      | FNop => Some (mkVm (p + 1) st m)
      end
  | _, Some op, _, _, _ =>
      match st with b :: a :: st => do r <- operate w op a b; Some (mkVm (p + 1) (r :: st) m) | _ => None end
  | _, _, Some op, _, _ =>
      match st with a :: st => do r <- operate1 w op a; Some (mkVm (p + 1) (r :: st) m) | _ => None end
  | _, _, _, Some (op, VWord, keep), _ =>
      do d <- arg;
      match st with
      | v :: st => do r <- assigned w op (m (address_of l d)) v; Some (wrote (p + 2) st m (address_of l d) r r keep)
      | _ => None
      end
  | _, _, _, Some (op, VStack, keep), _ =>
      match st with
      | v :: a :: st => do r <- assigned w op (m a) v; Some (wrote (p + 1) st m a r r keep)
      | _ => None
      end
  | _, _, _, _, Some (op, VWord, keep) =>
      do d <- arg;
      do ' (v, r) <- stepped w op (m (address_of l d)); Some (wrote (p + 2) st m (address_of l d) v r keep)
  | _, _, _, _, Some (op, VStack, keep) =>
      match st with
      | a :: st => do ' (v, r) <- stepped w op (m a); Some (wrote (p + 1) st m a v r keep)
      | _ => None
      end
  | _, _, _, _, _ => None
  end.

(** Execution of any number of instructions. *)
Inductive runs : vm -> vm -> Prop :=
| runs_here s : runs s s
| runs_step s t u : step s = Some t -> runs t u -> runs s u.

(** The machine executes at least [n] instructions. *)
Fixpoint goes_on (n : nat) (s : vm) : Prop :=
  match n with O => True | S n => exists t, step s = Some t /\ goes_on n t end.
End Machine.

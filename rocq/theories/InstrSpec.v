(** What the instructions on words and variables stand for, read off the names
    in libs/compiler/instructions.h: the operator; for assignments and steps
    whether the address of the variable is on the stack, whether it is a
    floating variable and whether the result is dropped. *)
From Verif Require Import Prelude TypesModel LexModel ParseModel InstrModel.

Inductive meaning :=
| IsOperator (op : binary) (floating : bool)
| IsSign (op : unary) (floating : bool)
| IsSet (op : binary) (at_address floating void : bool)
| IsStep (op : unary) (at_address floating void : bool).

Definition meanings : list (Z * meaning) :=
  [(IC_REM, IsOperator BIN_REM false); (IC_SHL, IsOperator BIN_SHL false); (IC_SHR, IsOperator BIN_SHR false);
   (IC_AND, IsOperator BIN_AND false); (IC_XOR, IsOperator BIN_XOR false); (IC_OR, IsOperator BIN_OR false);
   (IC_LOG_AND, IsOperator BIN_LOG_AND false); (IC_LOG_OR, IsOperator BIN_LOG_OR false);
   (IC_EQ, IsOperator BIN_EQ false); (IC_NE, IsOperator BIN_NE false); (IC_LT, IsOperator BIN_LT false);
   (IC_GT, IsOperator BIN_GT false); (IC_LE, IsOperator BIN_LE false); (IC_GE, IsOperator BIN_GE false);
   (IC_ADD, IsOperator BIN_ADD false); (IC_SUB, IsOperator BIN_SUB false); (IC_MUL, IsOperator BIN_MUL false);
   (IC_DIV, IsOperator BIN_DIV false);
   (IC_EQ_R, IsOperator BIN_EQ true); (IC_NE_R, IsOperator BIN_NE true); (IC_LT_R, IsOperator BIN_LT true);
   (IC_GT_R, IsOperator BIN_GT true); (IC_LE_R, IsOperator BIN_LE true); (IC_GE_R, IsOperator BIN_GE true);
   (IC_ADD_R, IsOperator BIN_ADD true); (IC_SUB_R, IsOperator BIN_SUB true); (IC_MUL_R, IsOperator BIN_MUL true);
   (IC_DIV_R, IsOperator BIN_DIV true);
   (IC_UNMINUS, IsSign UN_MINUS false); (IC_UNMINUS_R, IsSign UN_MINUS true); (IC_NOT, IsSign UN_NOT false);
   (IC_LOG_NOT, IsSign UN_LOGNOT false);

   (IC_REM_ASSIGN, IsSet BIN_REM_ASSIGN false false false); (IC_SHL_ASSIGN, IsSet BIN_SHL_ASSIGN false false false);
   (IC_SHR_ASSIGN, IsSet BIN_SHR_ASSIGN false false false); (IC_AND_ASSIGN, IsSet BIN_AND_ASSIGN false false false);
   (IC_XOR_ASSIGN, IsSet BIN_XOR_ASSIGN false false false); (IC_OR_ASSIGN, IsSet BIN_OR_ASSIGN false false false);
   (IC_ASSIGN, IsSet BIN_ASSIGN false false false); (IC_ADD_ASSIGN, IsSet BIN_ADD_ASSIGN false false false);
   (IC_SUB_ASSIGN, IsSet BIN_SUB_ASSIGN false false false); (IC_MUL_ASSIGN, IsSet BIN_MUL_ASSIGN false false false);
   (IC_DIV_ASSIGN, IsSet BIN_DIV_ASSIGN false false false);
   (IC_REM_ASSIGN_AT, IsSet BIN_REM_ASSIGN true false false); (IC_SHL_ASSIGN_AT, IsSet BIN_SHL_ASSIGN true false false);
   (IC_SHR_ASSIGN_AT, IsSet BIN_SHR_ASSIGN true false false); (IC_AND_ASSIGN_AT, IsSet BIN_AND_ASSIGN true false false);
   (IC_XOR_ASSIGN_AT, IsSet BIN_XOR_ASSIGN true false false); (IC_OR_ASSIGN_AT, IsSet BIN_OR_ASSIGN true false false);
   (IC_ASSIGN_AT, IsSet BIN_ASSIGN true false false); (IC_ADD_ASSIGN_AT, IsSet BIN_ADD_ASSIGN true false false);
   (IC_SUB_ASSIGN_AT, IsSet BIN_SUB_ASSIGN true false false); (IC_MUL_ASSIGN_AT, IsSet BIN_MUL_ASSIGN true false false);
   (IC_DIV_ASSIGN_AT, IsSet BIN_DIV_ASSIGN true false false);
   (IC_ASSIGN_R, IsSet BIN_ASSIGN false true false); (IC_ADD_ASSIGN_R, IsSet BIN_ADD_ASSIGN false true false);
   (IC_SUB_ASSIGN_R, IsSet BIN_SUB_ASSIGN false true false); (IC_MUL_ASSIGN_R, IsSet BIN_MUL_ASSIGN false true false);
   (IC_DIV_ASSIGN_R, IsSet BIN_DIV_ASSIGN false true false);
   (IC_ASSIGN_AT_R, IsSet BIN_ASSIGN true true false); (IC_ADD_ASSIGN_AT_R, IsSet BIN_ADD_ASSIGN true true false);
   (IC_SUB_ASSIGN_AT_R, IsSet BIN_SUB_ASSIGN true true false); (IC_MUL_ASSIGN_AT_R, IsSet BIN_MUL_ASSIGN true true false);
   (IC_DIV_ASSIGN_AT_R, IsSet BIN_DIV_ASSIGN true true false);
   (IC_REM_ASSIGN_V, IsSet BIN_REM_ASSIGN false false true); (IC_SHL_ASSIGN_V, IsSet BIN_SHL_ASSIGN false false true);
   (IC_SHR_ASSIGN_V, IsSet BIN_SHR_ASSIGN false false true); (IC_AND_ASSIGN_V, IsSet BIN_AND_ASSIGN false false true);
   (IC_XOR_ASSIGN_V, IsSet BIN_XOR_ASSIGN false false true); (IC_OR_ASSIGN_V, IsSet BIN_OR_ASSIGN false false true);
   (IC_ASSIGN_V, IsSet BIN_ASSIGN false false true); (IC_ADD_ASSIGN_V, IsSet BIN_ADD_ASSIGN false false true);
   (IC_SUB_ASSIGN_V, IsSet BIN_SUB_ASSIGN false false true); (IC_MUL_ASSIGN_V, IsSet BIN_MUL_ASSIGN false false true);
   (IC_DIV_ASSIGN_V, IsSet BIN_DIV_ASSIGN false false true);
   (IC_REM_ASSIGN_AT_V, IsSet BIN_REM_ASSIGN true false true); (IC_SHL_ASSIGN_AT_V, IsSet BIN_SHL_ASSIGN true false true);
   (IC_SHR_ASSIGN_AT_V, IsSet BIN_SHR_ASSIGN true false true); (IC_AND_ASSIGN_AT_V, IsSet BIN_AND_ASSIGN true false true);
   (IC_XOR_ASSIGN_AT_V, IsSet BIN_XOR_ASSIGN true false true); (IC_OR_ASSIGN_AT_V, IsSet BIN_OR_ASSIGN true false true);
   (IC_ASSIGN_AT_V, IsSet BIN_ASSIGN true false true); (IC_ADD_ASSIGN_AT_V, IsSet BIN_ADD_ASSIGN true false true);
   (IC_SUB_ASSIGN_AT_V, IsSet BIN_SUB_ASSIGN true false true); (IC_MUL_ASSIGN_AT_V, IsSet BIN_MUL_ASSIGN true false true);
   (IC_DIV_ASSIGN_AT_V, IsSet BIN_DIV_ASSIGN true false true);
   (IC_ASSIGN_R_V, IsSet BIN_ASSIGN false true true); (IC_ADD_ASSIGN_R_V, IsSet BIN_ADD_ASSIGN false true true);
   (IC_SUB_ASSIGN_R_V, IsSet BIN_SUB_ASSIGN false true true); (IC_MUL_ASSIGN_R_V, IsSet BIN_MUL_ASSIGN false true true);
   (IC_DIV_ASSIGN_R_V, IsSet BIN_DIV_ASSIGN false true true);
   (IC_ASSIGN_AT_R_V, IsSet BIN_ASSIGN true true true); (IC_ADD_ASSIGN_AT_R_V, IsSet BIN_ADD_ASSIGN true true true);
   (IC_SUB_ASSIGN_AT_R_V, IsSet BIN_SUB_ASSIGN true true true); (IC_MUL_ASSIGN_AT_R_V, IsSet BIN_MUL_ASSIGN true true true);
   (IC_DIV_ASSIGN_AT_R_V, IsSet BIN_DIV_ASSIGN true true true);

   (IC_POST_INC, IsStep UN_POSTINC false false false); (IC_POST_DEC, IsStep UN_POSTDEC false false false);
   (IC_PRE_INC, IsStep UN_PREINC false false false); (IC_PRE_DEC, IsStep UN_PREDEC false false false);
   (IC_POST_INC_AT, IsStep UN_POSTINC true false false); (IC_POST_DEC_AT, IsStep UN_POSTDEC true false false);
   (IC_PRE_INC_AT, IsStep UN_PREINC true false false); (IC_PRE_DEC_AT, IsStep UN_PREDEC true false false);
   (IC_POST_INC_R, IsStep UN_POSTINC false true false); (IC_POST_DEC_R, IsStep UN_POSTDEC false true false);
   (IC_PRE_INC_R, IsStep UN_PREINC false true false); (IC_PRE_DEC_R, IsStep UN_PREDEC false true false);
   (IC_POST_INC_AT_R, IsStep UN_POSTINC true true false); (IC_POST_DEC_AT_R, IsStep UN_POSTDEC true true false);
   (IC_PRE_INC_AT_R, IsStep UN_PREINC true true false); (IC_PRE_DEC_AT_R, IsStep UN_PREDEC true true false);
   (IC_POST_INC_V, IsStep UN_POSTINC false false true); (IC_POST_DEC_V, IsStep UN_POSTDEC false false true);
   (IC_PRE_INC_V, IsStep UN_PREINC false false true); (IC_PRE_DEC_V, IsStep UN_PREDEC false false true);
   (IC_POST_INC_AT_V, IsStep UN_POSTINC true false true); (IC_POST_DEC_AT_V, IsStep UN_POSTDEC true false true);
   (IC_PRE_INC_AT_V, IsStep UN_PREINC true false true); (IC_PRE_DEC_AT_V, IsStep UN_PREDEC true false true);
   (IC_POST_INC_R_V, IsStep UN_POSTINC false true true); (IC_POST_DEC_R_V, IsStep UN_POSTDEC false true true);
   (IC_PRE_INC_R_V, IsStep UN_PREINC false true true); (IC_PRE_DEC_R_V, IsStep UN_PREDEC false true true);
   (IC_POST_INC_AT_R_V, IsStep UN_POSTINC true true true); (IC_POST_DEC_AT_R_V, IsStep UN_POSTDEC true true true);
   (IC_PRE_INC_AT_R_V, IsStep UN_PREINC true true true); (IC_PRE_DEC_AT_R_V, IsStep UN_PREDEC true true true)].

(** The meaning a variant has; none when a meaning has no such variant. *)
Definition at_address (m : meaning) : option meaning :=
  match m with
  | IsSet op false f v => Some (IsSet op true f v)
  | IsStep op false f v => Some (IsStep op true f v)
  | _ => None
  end.
Definition floating (m : meaning) : option meaning :=
  match m with
  | IsOperator op false => Some (IsOperator op true)
  | IsSign op false => Some (IsSign op true)
  | IsSet op a false v => Some (IsSet op a true v)
  | IsStep op a false v => Some (IsStep op a true v)
  | _ => None
  end.
Definition void (m : meaning) : option meaning :=
  match m with
  | IsSet op a f false => Some (IsSet op a f true)
  | IsStep op a f false => Some (IsStep op a f true)
  | _ => None
  end.

Definition means (i : Z) (m : meaning) : Prop := In (i, m) meanings.
(** Instructions used without a result or as floating ones are made from the
    others last, so a variant is only asked of instructions with a result. *)
Definition has_result (m : meaning) : bool :=
  match m with IsSet _ _ _ v | IsStep _ _ _ v => negb v | _ => true end.
Definition is_word (m : meaning) : bool :=
  match m with IsOperator _ f | IsSign _ f | IsSet _ _ f _ | IsStep _ _ f _ => negb f end.

(** Model of libs/compiler/instructions.h and instructions.c: the codes of the
    instructions of the virtual machine and the functions which turn operators
    into codes and codes into their variants.

    Simplification: an enumeration value is its number.  The system error of
    [builtin_to_instruction] on an unknown function is not recorded. *)
From Verif Require Import Prelude TypesModel TypesSpec LexModel ParseModel.

(** libs/compiler/instructions.h:28-260 [instruction_t]; members without a value
    get the value of the member before plus one. *)
Definition IC_GETID : Z := (-27).
Definition IC_SCANF : Z := (-26).
Definition IC_PRINTF : Z := (-25).
Definition IC_PRINT : Z := (-24).
Definition IC_PRINTID : Z := (-23).
Definition MIN_INSTRUCTION_CODE : Z := 9000.
Definition IC_REM_ASSIGN : Z := 9001.
Definition IC_SHL_ASSIGN : Z := 9002.
Definition IC_SHR_ASSIGN : Z := 9003.
Definition IC_AND_ASSIGN : Z := 9004.
Definition IC_XOR_ASSIGN : Z := 9005.
Definition IC_OR_ASSIGN : Z := 9006.
Definition IC_ASSIGN : Z := 9007.
Definition IC_ADD_ASSIGN : Z := 9008.
Definition IC_SUB_ASSIGN : Z := 9009.
Definition IC_MUL_ASSIGN : Z := 9010.
Definition IC_DIV_ASSIGN : Z := 9011.
Definition IC_REM_ASSIGN_AT : Z := 9012.
Definition IC_SHL_ASSIGN_AT : Z := 9013.
Definition IC_SHR_ASSIGN_AT : Z := 9014.
Definition IC_AND_ASSIGN_AT : Z := 9015.
Definition IC_XOR_ASSIGN_AT : Z := 9016.
Definition IC_OR_ASSIGN_AT : Z := 9017.
Definition IC_ASSIGN_AT : Z := 9018.
Definition IC_ADD_ASSIGN_AT : Z := 9019.
Definition IC_SUB_ASSIGN_AT : Z := 9020.
Definition IC_MUL_ASSIGN_AT : Z := 9021.
Definition IC_DIV_ASSIGN_AT : Z := 9022.
Definition IC_REM : Z := 9023.
Definition IC_SHL : Z := 9024.
Definition IC_SHR : Z := 9025.
Definition IC_AND : Z := 9026.
Definition IC_XOR : Z := 9027.
Definition IC_OR : Z := 9028.
Definition IC_LOG_AND : Z := 9029.
Definition IC_LOG_OR : Z := 9030.
Definition IC_EQ : Z := 9031.
Definition IC_NE : Z := 9032.
Definition IC_LT : Z := 9033.
Definition IC_GT : Z := 9034.
Definition IC_LE : Z := 9035.
Definition IC_GE : Z := 9036.
Definition IC_ADD : Z := 9037.
Definition IC_SUB : Z := 9038.
Definition IC_MUL : Z := 9039.
Definition IC_DIV : Z := 9040.
Definition IC_POST_INC : Z := 9041.
Definition IC_POST_DEC : Z := 9042.
Definition IC_PRE_INC : Z := 9043.
Definition IC_PRE_DEC : Z := 9044.
Definition IC_POST_INC_AT : Z := 9045.
Definition IC_POST_DEC_AT : Z := 9046.
Definition IC_PRE_INC_AT : Z := 9047.
Definition IC_PRE_DEC_AT : Z := 9048.
Definition IC_UNMINUS : Z := 9049.
Definition IC_NOT : Z := 9052.
Definition IC_LOG_NOT : Z := 9053.
Definition IC_ASSIGN_R : Z := 9057.
Definition IC_ADD_ASSIGN_R : Z := 9058.
Definition IC_SUB_ASSIGN_R : Z := 9059.
Definition IC_MUL_ASSIGN_R : Z := 9060.
Definition IC_DIV_ASSIGN_R : Z := 9061.
Definition IC_ASSIGN_AT_R : Z := 9068.
Definition IC_ADD_ASSIGN_AT_R : Z := 9069.
Definition IC_SUB_ASSIGN_AT_R : Z := 9070.
Definition IC_MUL_ASSIGN_AT_R : Z := 9071.
Definition IC_DIV_ASSIGN_AT_R : Z := 9072.
Definition IC_EQ_R : Z := 9081.
Definition IC_NE_R : Z := 9082.
Definition IC_LT_R : Z := 9083.
Definition IC_GT_R : Z := 9084.
Definition IC_LE_R : Z := 9085.
Definition IC_GE_R : Z := 9086.
Definition IC_ADD_R : Z := 9087.
Definition IC_SUB_R : Z := 9088.
Definition IC_MUL_R : Z := 9089.
Definition IC_DIV_R : Z := 9090.
Definition IC_POST_INC_R : Z := 9091.
Definition IC_POST_DEC_R : Z := 9092.
Definition IC_PRE_INC_R : Z := 9093.
Definition IC_PRE_DEC_R : Z := 9094.
Definition IC_POST_INC_AT_R : Z := 9095.
Definition IC_POST_DEC_AT_R : Z := 9096.
Definition IC_PRE_INC_AT_R : Z := 9097.
Definition IC_PRE_DEC_AT_R : Z := 9098.
Definition IC_UNMINUS_R : Z := 9099.
Definition IC_REM_ASSIGN_V : Z := 9201.
Definition IC_SHL_ASSIGN_V : Z := 9202.
Definition IC_SHR_ASSIGN_V : Z := 9203.
Definition IC_AND_ASSIGN_V : Z := 9204.
Definition IC_XOR_ASSIGN_V : Z := 9205.
Definition IC_OR_ASSIGN_V : Z := 9206.
Definition IC_ASSIGN_V : Z := 9207.
Definition IC_ADD_ASSIGN_V : Z := 9208.
Definition IC_SUB_ASSIGN_V : Z := 9209.
Definition IC_MUL_ASSIGN_V : Z := 9210.
Definition IC_DIV_ASSIGN_V : Z := 9211.
Definition IC_REM_ASSIGN_AT_V : Z := 9212.
Definition IC_SHL_ASSIGN_AT_V : Z := 9213.
Definition IC_SHR_ASSIGN_AT_V : Z := 9214.
Definition IC_AND_ASSIGN_AT_V : Z := 9215.
Definition IC_XOR_ASSIGN_AT_V : Z := 9216.
Definition IC_OR_ASSIGN_AT_V : Z := 9217.
Definition IC_ASSIGN_AT_V : Z := 9218.
Definition IC_ADD_ASSIGN_AT_V : Z := 9219.
Definition IC_SUB_ASSIGN_AT_V : Z := 9220.
Definition IC_MUL_ASSIGN_AT_V : Z := 9221.
Definition IC_DIV_ASSIGN_AT_V : Z := 9222.
Definition IC_ASSIGN_R_V : Z := 9257.
Definition IC_ADD_ASSIGN_R_V : Z := 9258.
Definition IC_SUB_ASSIGN_R_V : Z := 9259.
Definition IC_MUL_ASSIGN_R_V : Z := 9260.
Definition IC_DIV_ASSIGN_R_V : Z := 9261.
Definition IC_ASSIGN_AT_R_V : Z := 9268.
Definition IC_ADD_ASSIGN_AT_R_V : Z := 9269.
Definition IC_SUB_ASSIGN_AT_R_V : Z := 9270.
Definition IC_MUL_ASSIGN_AT_R_V : Z := 9271.
Definition IC_DIV_ASSIGN_AT_R_V : Z := 9272.
Definition IC_POST_INC_V : Z := 9241.
Definition IC_POST_DEC_V : Z := 9242.
Definition IC_PRE_INC_V : Z := 9243.
Definition IC_PRE_DEC_V : Z := 9244.
Definition IC_POST_INC_AT_V : Z := 9245.
Definition IC_POST_DEC_AT_V : Z := 9246.
Definition IC_PRE_INC_AT_V : Z := 9247.
Definition IC_PRE_DEC_AT_V : Z := 9248.
Definition IC_POST_INC_R_V : Z := 9291.
Definition IC_POST_DEC_R_V : Z := 9292.
Definition IC_PRE_INC_R_V : Z := 9293.
Definition IC_PRE_DEC_R_V : Z := 9294.
Definition IC_POST_INC_AT_R_V : Z := 9295.
Definition IC_POST_DEC_AT_R_V : Z := 9296.
Definition IC_PRE_INC_AT_R_V : Z := 9297.
Definition IC_PRE_DEC_AT_R_V : Z := 9298.
Definition IC_NOP : Z := 9453.
Definition IC_DEFARR : Z := 9454.
Definition IC_LI : Z := 9455.
Definition IC_LID : Z := 9456.
Definition IC_LOAD : Z := 9457.
Definition IC_LOADD : Z := 9458.
Definition IC_LAT : Z := 9459.
Definition IC_LATD : Z := 9460.
Definition IC_STOP : Z := 9461.
Definition IC_SELECT : Z := 9462.
Definition IC_FUNC_BEG : Z := 9463.
Definition IC_LA : Z := 9464.
Definition IC_CALL1 : Z := 9465.
Definition IC_CALL2 : Z := 9466.
Definition IC_RETURN_VAL : Z := 9467.
Definition IC_RETURN_VOID : Z := 9468.
Definition IC_B : Z := 9469.
Definition IC_BE0 : Z := 9470.
Definition IC_BNE0 : Z := 9471.
Definition IC_SLICE : Z := 9472.
Definition IC_WIDEN : Z := 9473.
Definition IC_WIDEN1 : Z := 9474.
Definition IC_DUPLICATE : Z := 9475.
Definition IC_STRING_INIT : Z := 9476.
Definition IC_ARR_INIT : Z := 9477.
Definition IC_STRUCT_WITH_ARR : Z := 9478.
Definition IC_BEG_INIT : Z := 9481.
Definition IC_ROWING : Z := 9482.
Definition IC_ROWING_D : Z := 9483.
Definition IC_COPY00 : Z := 9300.
Definition IC_COPY01 : Z := 9301.
Definition IC_COPY10 : Z := 9302.
Definition IC_COPY11 : Z := 9303.
Definition IC_COPY0ST : Z := 9304.
Definition IC_COPY1ST : Z := 9305.
Definition IC_COPY0ST_ASSIGN : Z := 9306.
Definition IC_COPY1ST_ASSIGN : Z := 9307.
Definition IC_COPYST : Z := 9308.
Definition IC_ABS : Z := 9534.
Definition IC_SQRT : Z := 9535.
Definition IC_EXP : Z := 9536.
Definition IC_SIN : Z := 9537.
Definition IC_COS : Z := 9538.
Definition IC_LOG : Z := 9539.
Definition IC_LOG10 : Z := 9540.
Definition IC_ASIN : Z := 9541.
Definition IC_RAND : Z := 9542.
Definition IC_ROUND : Z := 9543.
Definition IC_STRCPY : Z := 9544.
Definition IC_STRNCPY : Z := 9545.
Definition IC_STRCAT : Z := 9546.
Definition IC_STRNCAT : Z := 9547.
Definition IC_STRCMP : Z := 9548.
Definition IC_STRNCMP : Z := 9549.
Definition IC_STRSTR : Z := 9550.
Definition IC_STRLEN : Z := 9551.
Definition IC_MSG_SEND : Z := 9552.
Definition IC_MSG_RECEIVE : Z := 9553.
Definition IC_JOIN : Z := 9554.
Definition IC_SLEEP : Z := 9555.
Definition IC_SEM_CREATE : Z := 9556.
Definition IC_SEM_WAIT : Z := 9557.
Definition IC_SEM_POST : Z := 9558.
Definition IC_CREATE : Z := 9559.
Definition IC_INIT : Z := 9560.
Definition IC_DESTROY : Z := 9561.
Definition IC_EXIT : Z := 9562.
Definition IC_GETNUM : Z := 9563.
Definition IC_UPB : Z := 9588.
Definition IC_ROBOT_SEND_INT : Z := 9589.
Definition IC_ROBOT_SEND_FLOAT : Z := 9590.
Definition IC_ROBOT_SEND_STRING : Z := 9591.
Definition IC_ROBOT_RECEIVE_INT : Z := 9592.
Definition IC_ROBOT_RECEIVE_FLOAT : Z := 9593.
Definition IC_ROBOT_RECEIVE_STRING : Z := 9594.
Definition IC_ASSERT : Z := 9595.
Definition IC_ABSI : Z := 9651.
Definition IC_FOPEN : Z := 9652.
Definition IC_FCLOSE : Z := 9653.
Definition IC_FGETC : Z := 9654.
Definition IC_FPUTC : Z := 9655.
Definition MAX_INSTRUCTION_CODE : Z := 9656.

(** libs/compiler/operations.h:160-218 [builtin_t], the functions with an instruction of their own. *)
Definition BI_SQRT : Z := 30.
Definition BI_EXP : Z := 18.
Definition BI_SIN : Z := 14.
Definition BI_COS : Z := 10.
Definition BI_LOG : Z := 22.
Definition BI_LOG10 : Z := 26.
Definition BI_ASIN : Z := 6.
Definition BI_RAND : Z := 34.
Definition BI_ROUND : Z := 38.
Definition BI_STRNCPY : Z := 42.
Definition BI_STRCAT : Z := 46.
Definition BI_STRCMP : Z := 50.
Definition BI_STRNCMP : Z := 54.
Definition BI_STRSTR : Z := 58.
Definition BI_ASSERT : Z := 2.
Definition BI_MSG_SEND : Z := 126.
Definition BI_MSG_RECEIVE : Z := 130.
Definition BI_T_JOIN : Z := 98.
Definition BI_T_SLEEP : Z := 94.
Definition BI_SEM_CREATE : Z := 114.
Definition BI_SEM_WAIT : Z := 118.
Definition BI_SEM_POST : Z := 122.
Definition BI_T_CREATE : Z := 86.
Definition BI_T_INIT : Z := 106.
Definition BI_T_DESTROY : Z := 110.
Definition BI_T_EXIT : Z := 102.
Definition BI_T_GETNUM : Z := 90.
Definition BI_ROBOT_SEND_INT : Z := 62.
Definition BI_ROBOT_SEND_FLOAT : Z := 66.
Definition BI_ROBOT_SEND_STRING : Z := 70.
Definition BI_ROBOT_RECEIVE_INT : Z := 74.
Definition BI_ROBOT_RECEIVE_FLOAT : Z := 78.
Definition BI_ROBOT_RECEIVE_STRING : Z := 82.
Definition BI_FOPEN : Z := 134.
Definition BI_FGETC : Z := 138.
Definition BI_FPUTC : Z := 142.
Definition BI_FCLOSE : Z := 146.
Definition BEGIN_USER_FUNC : Z := 170.

(** libs/compiler/instructions.c:25-71. *)
Definition builtin_table : list (Z * Z) :=
  [(BI_SQRT, IC_SQRT);
   (BI_EXP, IC_EXP);
   (BI_SIN, IC_SIN);
   (BI_COS, IC_COS);
   (BI_LOG, IC_LOG);
   (BI_LOG10, IC_LOG10);
   (BI_ASIN, IC_ASIN);
   (BI_RAND, IC_RAND);
   (BI_ROUND, IC_ROUND);
   (BI_STRNCPY, IC_STRNCPY);
   (BI_STRCAT, IC_STRCAT);
   (BI_STRCMP, IC_STRCMP);
   (BI_STRNCMP, IC_STRNCMP);
   (BI_STRSTR, IC_STRSTR);
   (BI_ASSERT, IC_ASSERT);
   (BI_MSG_SEND, IC_MSG_SEND);
   (BI_MSG_RECEIVE, IC_MSG_RECEIVE);
   (BI_T_JOIN, IC_JOIN);
   (BI_T_SLEEP, IC_SLEEP);
   (BI_SEM_CREATE, IC_SEM_CREATE);
   (BI_SEM_WAIT, IC_SEM_WAIT);
   (BI_SEM_POST, IC_SEM_POST);
   (BI_T_CREATE, IC_CREATE);
   (BI_T_INIT, IC_INIT);
   (BI_T_DESTROY, IC_DESTROY);
   (BI_T_EXIT, IC_EXIT);
   (BI_T_GETNUM, IC_GETNUM);
   (BI_ROBOT_SEND_INT, IC_ROBOT_SEND_INT);
   (BI_ROBOT_SEND_FLOAT, IC_ROBOT_SEND_FLOAT);
   (BI_ROBOT_SEND_STRING, IC_ROBOT_SEND_STRING);
   (BI_ROBOT_RECEIVE_INT, IC_ROBOT_RECEIVE_INT);
   (BI_ROBOT_RECEIVE_FLOAT, IC_ROBOT_RECEIVE_FLOAT);
   (BI_ROBOT_RECEIVE_STRING, IC_ROBOT_RECEIVE_STRING);
   (BI_FOPEN, IC_FOPEN);
   (BI_FGETC, IC_FGETC);
   (BI_FPUTC, IC_FPUTC);
   (BI_FCLOSE, IC_FCLOSE)].
Definition builtin_to_instruction (f : Z) : Z := match table_find builtin_table f with Some i => i | None => IC_NOP end.

(** libs/compiler/instructions.c:73-91. *)
Definition unary_to_instruction (op : unary) : Z :=
  match op with
  | UN_POSTINC => IC_POST_INC
  | UN_POSTDEC => IC_POST_DEC
  | UN_PREINC => IC_PRE_INC
  | UN_PREDEC => IC_PRE_DEC
  | UN_ADDRESS => IC_LA
  | UN_INDIRECTION => IC_LOAD
  | UN_MINUS => IC_UNMINUS
  | UN_NOT => IC_NOT
  | UN_LOGNOT => IC_LOG_NOT
  | UN_ABS => IC_ABSI
  | _ => IC_NOP
  end.

(** libs/compiler/instructions.c:93-130. *)
Definition binary_to_instruction (op : binary) : Z :=
  match op with
  | BIN_MUL => IC_MUL
  | BIN_DIV => IC_DIV
  | BIN_REM => IC_REM
  | BIN_ADD => IC_ADD
  | BIN_SUB => IC_SUB
  | BIN_SHL => IC_SHL
  | BIN_SHR => IC_SHR
  | BIN_LT => IC_LT
  | BIN_GT => IC_GT
  | BIN_LE => IC_LE
  | BIN_GE => IC_GE
  | BIN_EQ => IC_EQ
  | BIN_NE => IC_NE
  | BIN_AND => IC_AND
  | BIN_XOR => IC_XOR
  | BIN_OR => IC_OR
  | BIN_LOG_AND => IC_LOG_AND
  | BIN_LOG_OR => IC_LOG_OR
  | BIN_ASSIGN => IC_ASSIGN
  | BIN_MUL_ASSIGN => IC_MUL_ASSIGN
  | BIN_DIV_ASSIGN => IC_DIV_ASSIGN
  | BIN_REM_ASSIGN => IC_REM_ASSIGN
  | BIN_ADD_ASSIGN => IC_ADD_ASSIGN
  | BIN_SUB_ASSIGN => IC_SUB_ASSIGN
  | BIN_SHL_ASSIGN => IC_SHL_ASSIGN
  | BIN_SHR_ASSIGN => IC_SHR_ASSIGN
  | BIN_AND_ASSIGN => IC_AND_ASSIGN
  | BIN_XOR_ASSIGN => IC_XOR_ASSIGN
  | BIN_OR_ASSIGN => IC_OR_ASSIGN
  | _ => IC_NOP
  end.

(** libs/compiler/instructions.c:133-156. *)
Definition address_table : list (Z * Z) :=
  [(IC_PRE_INC, IC_PRE_INC_AT);
   (IC_PRE_DEC, IC_PRE_DEC_AT);
   (IC_POST_INC, IC_POST_INC_AT);
   (IC_POST_DEC, IC_POST_DEC_AT);
   (IC_REM_ASSIGN, IC_REM_ASSIGN_AT);
   (IC_SHL_ASSIGN, IC_SHL_ASSIGN_AT);
   (IC_SHR_ASSIGN, IC_SHR_ASSIGN_AT);
   (IC_AND_ASSIGN, IC_AND_ASSIGN_AT);
   (IC_XOR_ASSIGN, IC_XOR_ASSIGN_AT);
   (IC_OR_ASSIGN, IC_OR_ASSIGN_AT);
   (IC_ASSIGN, IC_ASSIGN_AT);
   (IC_ADD_ASSIGN, IC_ADD_ASSIGN_AT);
   (IC_SUB_ASSIGN, IC_SUB_ASSIGN_AT);
   (IC_MUL_ASSIGN, IC_MUL_ASSIGN_AT);
   (IC_DIV_ASSIGN, IC_DIV_ASSIGN_AT)].
Definition instruction_to_address_ver (i : Z) : Z := match table_find address_table i with Some j => j | None => i end.

(** libs/compiler/instructions.c:20-21 *)
Definition DISPL_TO_FLOAT : Z := 50.
Definition DISPL_TO_VOID : Z := 200.
Definition within (i lo hi : Z) : bool := (lo <=? i) && (i <=? hi).
(** libs/compiler/instructions.c:158-165. *)
Definition instruction_to_floating_ver (i : Z) : Z :=
  if within i IC_ASSIGN IC_DIV_ASSIGN || within i IC_ASSIGN_AT IC_DIV_ASSIGN_AT || within i IC_EQ IC_UNMINUS
  then i + DISPL_TO_FLOAT else i.

(** libs/compiler/instructions.c:167-175. *)
Definition instruction_to_void_ver (i : Z) : Z :=
  if within i IC_ASSIGN IC_DIV_ASSIGN_AT || within i IC_POST_INC IC_PRE_DEC_AT
     || within i IC_ASSIGN_R IC_DIV_ASSIGN_AT_R || within i IC_POST_INC_R IC_PRE_DEC_AT_R
  then i + DISPL_TO_VOID else i.

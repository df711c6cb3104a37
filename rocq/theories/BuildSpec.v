(** What a user of the language knows about constant expressions and about
    assignments.  Nothing here mentions how builder.c decides. *)
From Coq Require Import Floats.SpecFloat.
From Verif Require Import Prelude TypesModel TypesSpec LexModel ParseModel BuildModel.

(** ** Values of constant expressions *)
Inductive value := VInt (z : Z) | VBool (b : bool) | VFloat (d : spec_float) | VNull.

(** A result that 64 bits can hold. *)
Definition representable (z : Z) : bool := (- 2 ^ 63 <=? z) && (z <? 2 ^ 63).
Definition exact (z : Z) : option value := if representable z then Some (VInt z) else None.

(** IEEE double arithmetic is that of Coq's SpecFloat at precision 53. *)
Definition to_double (v : value) : option spec_float :=
  match v with
  | VInt z => Some (binary_normalize 53 1024 z 0 false)
  | VFloat d => Some d
  | _ => None
  end.
Definition truth (v : value) : option bool :=
  match v with VInt z => Some (negb (z =? 0)) | VBool b => Some b | VNull => Some false | VFloat _ => None end.

(** Integer operators: the exact result when C defines one.  Division truncates,
    shifts take an amount below 64, a left shift a non-negative number. *)
Definition int_op (op : binary) (a b : Z) : option value :=
  match op with
  | BIN_MUL => exact (a * b)
  | BIN_ADD => exact (a + b)
  | BIN_SUB => exact (a - b)
  | BIN_DIV => if b =? 0 then None else exact (Z.quot a b)
  | BIN_REM => if (b =? 0) || negb (representable (Z.quot a b)) then None else Some (VInt (a - b * Z.quot a b))
  | BIN_SHL => if (0 <=? b) && (b <? 64) && (0 <=? a) then exact (a * 2 ^ b) else None
  | BIN_SHR => if (0 <=? b) && (b <? 64) then Some (VInt (a / 2 ^ b)) else None
  | BIN_AND => Some (VInt (Z.land a b))
  | BIN_XOR => Some (VInt (Z.lxor a b))
  | BIN_OR => Some (VInt (Z.lor a b))
  | BIN_LT => Some (VBool (a <? b))
  | BIN_GT => Some (VBool (a >? b))
  | BIN_LE => Some (VBool (a <=? b))
  | BIN_GE => Some (VBool (a >=? b))
  | BIN_EQ => Some (VBool (a =? b))
  | BIN_NE => Some (VBool (negb (a =? b)))
  | _ => None
  end.
Definition float_op (op : binary) (a b : spec_float) : option value :=
  match op with
  | BIN_MUL => Some (VFloat (SFmul 53 1024 a b))
  | BIN_DIV => Some (VFloat (SFdiv 53 1024 a b))
  | BIN_ADD => Some (VFloat (SFadd 53 1024 a b))
  | BIN_SUB => Some (VFloat (SFsub 53 1024 a b))
  | BIN_LT => Some (VBool (SFltb a b))
  | BIN_GT => Some (VBool (SFltb b a))
  | BIN_LE => Some (VBool (SFleb a b))
  | BIN_GE => Some (VBool (SFleb b a))
  | BIN_EQ => Some (VBool (SFeqb a b))
  | BIN_NE => Some (VBool (negb (SFeqb a b)))
  | _ => None
  end.

(** Both operands evaluated. *)
Definition both (op : binary) (v w : value) : option value :=
  match op with
  | BIN_COMMA => Some w
  | _ =>
      match v, w with
      | VInt a, VInt b => int_op op a b
      | VFloat _, VInt _ | VInt _, VFloat _ | VFloat _, VFloat _ =>
          do a <- to_double v; do b <- to_double w; float_op op a b
      | VBool a, VBool b =>
          match op with BIN_EQ => Some (VBool (Bool.eqb a b)) | BIN_NE => Some (VBool (xorb a b)) | _ => None end
      | VNull, VNull =>
          match op with BIN_EQ => Some (VBool true) | BIN_NE => Some (VBool false) | _ => None end
      | _, _ => None
      end
  end.

(** [&&] and [||] look at the right operand only when they must. *)
Definition binary_value (op : binary) (v w : option value) : option value :=
  match op with
  | BIN_LOG_AND => do a <- v; do x <- truth a;
                   if x then do b <- w; do y <- truth b; Some (VBool y) else Some (VBool false)
  | BIN_LOG_OR => do a <- v; do x <- truth a;
                  if x then Some (VBool true) else do b <- w; do y <- truth b; Some (VBool y)
  | _ => do a <- v; do b <- w; both op a b
  end.

Definition unary_value (op : unary) (v : option value) : option value :=
  do a <- v;
  match op, a with
  | UN_MINUS, VInt z => exact (- z)
  | UN_MINUS, VFloat d => Some (VFloat (SFopp d))
  | UN_ABS, VInt z => if z <? 0 then exact (- z) else Some (VInt z)
  | UN_ABS, VFloat d => Some (VFloat (if SFleb (S754_zero false) d then d else SFopp d))
  | UN_NOT, VInt z => Some (VInt (- z - 1))
  | UN_LOGNOT, _ => do x <- truth a; Some (VBool (negb x))
  | _, _ => None
  end.

(** Constant expressions as the user writes them.  The literals of an
    enumeration are integers. *)
Inductive cexp :=
| CLit (t : ty) (l : lit)
| CUnary (op : unary) (e : cexp)
| CBinary (op : binary) (e f : cexp).

Definition lit_value (l : lit) : option value :=
  match l with
  | LNull _ => Some VNull
  | LBool b => Some (VBool b)
  | LChar c => Some (VInt c)
  | LInt v => Some (VInt v)
  | LFloat d => Some (VFloat d)
  | LString _ => None
  end.
Fixpoint cvalue (e : cexp) : option value :=
  match e with
  | CLit _ l => lit_value l
  | CUnary op e => unary_value op (cvalue e)
  | CBinary op e f => binary_value op (cvalue e) (cvalue f)
  end.

(** Every part of the expression has a value. *)
Fixpoint defined (e : cexp) : Prop :=
  cvalue e <> None /\
  match e with
  | CLit _ _ => True
  | CUnary _ e => defined e
  | CBinary _ e f => defined e /\ defined f
  end.

(** The type of a literal. *)
Definition lit_ok (t : ty) (l : lit) : Prop :=
  match l with
  | LNull _ => t = t_null
  | LBool _ => t = t_bool
  | LChar _ => t = t_char
  | LInt _ => t = t_int \/ exists s v, t = TEnum s v
  | LFloat _ => t = t_float
  | LString _ => t = t_string
  end.
Fixpoint literals_ok (e : cexp) : Prop :=
  match e with
  | CLit t l => lit_ok t l
  | CUnary _ e => literals_ok e
  | CBinary _ e f => literals_ok e /\ literals_ok f
  end.

(** No operand of [&&] and [||] is the null pointer. *)
Definition null_free (e : cexp) : Prop := match e with CLit _ (LNull _) => False | _ => True end.
Fixpoint no_null_logic (e : cexp) : Prop :=
  match e with
  | CLit _ _ => True
  | CUnary _ e => no_null_logic e
  | CBinary op e f =>
      no_null_logic e /\ no_null_logic f /\
      match op with BIN_LOG_AND | BIN_LOG_OR => null_free f | _ => True end
  end.

(** Operators the grammar allows in a constant expression: no assignment. *)
Fixpoint pure_ops (e : cexp) : Prop :=
  match e with
  | CLit _ _ => True
  | CUnary _ e => pure_ops e
  | CBinary op e f => pure_ops e /\ pure_ops f /\ is_assignment op = false
  end.

(** The calls the parser makes for it: operands first, then the operator; the
    errors add up. *)
Fixpoint build (e : cexp) : bres :=
  match e with
  | CLit t l => ok (NLit t l)
  | CUnary op e => do ' (n, a) <- build e; do ' (m, b) <- build_unary n op; Some (m, a + b)
  | CBinary op e f =>
      do ' (n, a) <- build e; do ' (m, b) <- build f; do ' (k, c) <- build_binary n m op; Some (k, a + b + c)
  end.

(** The value the syntax tree stands for at run time. *)
Fixpoint node_value (n : node) : option value :=
  match n with
  | NLit _ l => lit_value l
  | NCast t _ e => if ty_eqb t t_float then do v <- node_value e; do d <- to_double v; Some (VFloat d) else None
  | NUnary _ _ op e => unary_value op (node_value e)
  | NBinary _ op l r => binary_value op (node_value l) (node_value r)
  | _ => None
  end.

(** ** Assignable values *)
Definition integer_type (t : ty) : Prop := t = t_int \/ t = t_char \/ exists s v, t = TEnum s v.

(** A constant can be given a value when it is created, not later. *)
Definition writable (creation : bool) (t : ty) : Prop := creation = true \/ is_const t = false.

(** [assignable c t e]: a variable of type [t] can be given the value [e], at its
    creation if [c] holds.  Lists go to structures member by member, to arrays
    element by element. *)
Inductive assignable (c : bool) (t : ty) : node -> Prop :=
| as_same e : writable c t -> is_initializer e = false -> strip t = strip (type_of e) -> assignable c t e
| as_integer e : writable c t -> is_initializer e = false ->
    integer_type (strip t) -> integer_type (strip (type_of e)) -> assignable c t e
| as_float e : writable c t -> is_initializer e = false ->
    strip t = t_float -> integer_type (strip (type_of e)) -> assignable c t e
| as_null e p : writable c t -> is_initializer e = false ->
    strip t = TPointer p -> strip (type_of e) = t_null -> assignable c t e
| as_const e p : writable c t -> is_initializer e = false ->
    strip t = TPointer (TConst p) -> strip (type_of e) = TPointer p -> assignable c t e
| as_struct u es ms : writable c t -> strip t = TStruct ms -> List.length ms = List.length es ->
    (forall i m e, nth_error ms i = Some m -> nth_error es i = Some e -> assignable c (fst m) e) ->
    assignable c t (NInit u es)
| as_array u es p : writable c t -> strip t = TArray p -> (forall e, In e es -> assignable c p e) ->
    assignable c t (NInit u es).

(** An expression without broken parts in its lists, whose literals are of their
    types, and with at most one [const] at the top of its types. *)
Definition one_const (t : ty) : Prop := match t with TConst (TConst _) => False | _ => True end.
Fixpoint intact (n : node) : Prop :=
  match n with
  | NBroken => False
  | NLit t l => lit_ok t l
  | NInit _ es => (fix all es := match es with [] => True | e :: es => intact e /\ all es end) es
  | _ => one_const (type_of n)
  end.
(** At most one [const] in a row anywhere. *)
Fixpoint tidy (t : ty) : Prop :=
  one_const t /\
  match t with
  | TSimple _ | TEnum _ _ => True
  | TPointer t | TArray t | TConst t => tidy t
  | TStruct ms => (fix all (ms : list (ty * Z)) := match ms with [] => True | m :: ms => tidy (fst m) /\ all ms end) ms
  | TFunction r ps => tidy r /\ (fix all ps := match ps with [] => True | p :: ps => tidy p /\ all ps end) ps
  end.

(** The value after conversion takes as much room as the variable, and is a
    double exactly if the variable is one. *)
Inductive stored (t : ty) : node -> Prop :=
| st_value e : is_initializer e = false ->
    size_of (type_of e) = size_of t -> (strip t = t_float <-> strip (type_of e) = t_float) -> stored t e
| st_struct es ms : strip t = TStruct ms -> List.length ms = List.length es ->
    (forall i m e, nth_error ms i = Some m -> nth_error es i = Some e -> stored (fst m) e) -> stored t (NInit (strip t) es)
| st_array es p : strip t = TArray p -> (forall e, In e es -> stored p e) -> stored t (NInit (strip t) es).

(** In C an object is modifiable if neither it nor a part of it is constant. *)
Fixpoint has_const (t : ty) : bool :=
  match t with
  | TConst _ => true
  | TStruct ms => (fix any (ms : list (ty * Z)) := match ms with [] => false | m :: ms => has_const (fst m) || any ms end) ms
  | TArray t => has_const t
  | _ => false
  end.
(** The object an expression designates lies inside a constant object. *)
Fixpoint inside_const (n : node) : bool :=
  is_const (type_of n) ||
  match n with
  | NMember _ _ _ false base => inside_const base
  | NMember _ _ _ true base => is_const (element (type_of base))
  | NSubscript _ base _ => inside_const base
  | _ => false
  end.

(** ** Format strings of [printf] *)
Inductive format : list Z -> list ty -> Prop :=
| fm_end : format [] []
| fm_char c s ts : c <> 37 -> format s ts -> format (c :: s) ts
| fm_percent s ts : format s ts -> format (37 :: 37 :: s) ts
| fm_int c s ts : In c [105; 1094; 99; 1083] -> format s ts -> format (37 :: c :: s) (t_int :: ts)
| fm_float c s ts : In c [102; 1074] -> format s ts -> format (37 :: c :: s) (t_float :: ts)
| fm_string c s ts : In c [115; 1089] -> format s ts -> format (37 :: c :: s) (t_string :: ts).

(** ** Verdicts *)
(** No error was reported and the tree was built. *)
Definition accepted (b : bres) (n : node) : Prop := b = Some (n, 0) /\ is_correct n = true.
(** An error was reported. *)
Definition refused (b : bres) : Prop := exists n k, b = Some (n, k) /\ 0 < k.

(** What a compound assignment asks of its operands besides. *)
Definition assign_ok (op : binary) (l r : node) : Prop :=
  match op with
  | BIN_ASSIGN => True
  | BIN_REM_ASSIGN | BIN_SHL_ASSIGN | BIN_SHR_ASSIGN | BIN_AND_ASSIGN | BIN_XOR_ASSIGN | BIN_OR_ASSIGN =>
      integer_type (strip (type_of l)) /\ integer_type (strip (type_of r))
  | _ => (integer_type (strip (type_of l)) \/ strip (type_of l) = t_float)
         /\ (integer_type (strip (type_of r)) \/ strip (type_of r) = t_float)
  end.

(** As many arguments as parameters, each assignable. *)
Definition args_ok (ts : list ty) (es : list node) : Prop :=
  List.length ts = List.length es
  /\ forall i t e, nth_error ts i = Some t -> nth_error es i = Some e -> assignable true t e.

(** The library functions with rules of their own. *)
Definition library (n : node) : bool :=
  match n with NIdent _ id => (id =? BI_PRINTF) || (id =? BI_PRINT) || (id =? BI_PRINTID) || (id =? BI_GETID) | _ => false end.


(** Only numbers and truth values, and the operators that fold. *)
Fixpoint plain_constants (e : cexp) : Prop :=
  match e with
  | CLit _ (LBool _) | CLit _ (LInt _) | CLit _ (LFloat _) => True
  | CLit _ _ => False
  | CUnary _ e => plain_constants e
  | CBinary op e f => op <> BIN_COMMA /\ plain_constants e /\ plain_constants f
  end.

(** Model of libs/compiler/builder.c: how expressions and declarations are
    checked and turned into nodes of the syntax tree.

    Simplifications.  A node is a value, with its type, category and operands;
    the storage of the tree is modelled in TreeModel.v.  The code keeps the
    number of a type in the type table, the model keeps the type expression
    (TypesSpec.v): numbers are compared exactly where the model compares
    expressions (C29, C56 say when the two agree).  The types of constants of
    enumerations never reach an expression, because
    builder.c:559-578 replaces such a name by an integer literal of the
    enumeration.  Locations are kept only where the code confuses one with a
    value (the null literal).  Errors are counted; warnings are dropped.
    [None] marks undefined behaviour of C. *)
From Coq Require Import Floats.SpecFloat.
From Verif Require Import Prelude TypesModel TypesSpec LexModel ParseModel.

(** libs/compiler/AST.c:20-420: expressions.  A null literal has no value
    argument: the argument after its type and category is the beginning of its
    location (AST.c [expression_null_literal]). *)
Inductive lit :=
| LNull (begin : Z)
| LBool (b : bool)
| LChar (c : Z)
| LInt (v : Z)
| LFloat (d : spec_float)
| LString (index : Z).

Inductive node :=
| NIdent (t : ty) (id : Z)
| NLit (t : ty) (l : lit)
| NSubscript (t : ty) (base index : node)
| NCall (t : ty) (callee : node) (args : list node)
| NMember (t : ty) (lvalue : bool) (index : Z) (arrow : bool) (base : node)
| NCast (t from : ty) (e : node)
| NUnary (t : ty) (lvalue : bool) (op : unary) (e : node)
| NBinary (t : ty) (op : binary) (l r : node)
| NTernary (t : ty) (c l r : node)
| NAssign (t : ty) (op : binary) (l r : node)
| NInit (t : ty) (es : list node)
| NBroken.

(** libs/compiler/AST.c [expression_get_type]. *)
Definition type_of (n : node) : ty :=
  match n with
  | NIdent t _ | NLit t _ | NSubscript t _ _ | NCall t _ _ | NMember t _ _ _ _ | NCast t _ _
  | NUnary t _ _ _ | NBinary t _ _ _ | NTernary t _ _ _ | NAssign t _ _ _ | NInit t _ => t
  | NBroken => TSimple TYPE_UNDEFINED
  end.

(** libs/compiler/AST.c [expression_is_lvalue]: names and elements always are. *)
Definition is_lvalue (n : node) : bool :=
  match n with
  | NIdent _ _ | NSubscript _ _ _ => true
  | NMember _ lv _ _ _ | NUnary _ lv _ _ => lv
  | _ => false
  end.

(** libs/compiler/node.c [node_is_correct]. *)
Definition is_correct (n : node) : bool := match n with NBroken => false | _ => true end.
Definition is_literal (n : node) : bool := match n with NLit _ _ => true | _ => false end.

(** libs/compiler/AST.c [expression_literal_get_integer]: argument 2 of the
    node, whatever the literal is.  For a floating literal it is the first word
    of the bits of the number: not modelled, never asked for. *)
Definition lit_integer (l : lit) : option Z :=
  match l with
  | LNull begin => Some begin
  | LBool b => Some (if b then 1 else 0)
  | LChar c => Some c
  | LInt v => Some v
  | LString i => Some i
  | LFloat _ => None
  end.
Definition lit_floating (l : lit) : option spec_float := match l with LFloat d => Some d | _ => None end.

(** ** Type predicates, libs/compiler/syntax.c:587-740, on type expressions *)
Definition t_int := TSimple TYPE_INTEGER.
Definition t_bool := TSimple TYPE_BOOLEAN.
Definition t_float := TSimple TYPE_FLOATING.
Definition t_char := TSimple TYPE_CHARACTER.
Definition t_void := TSimple TYPE_VOID.
Definition t_null := TSimple TYPE_NULL_POINTER.
Definition t_string := TArray t_char.
Definition t_undefined := TSimple TYPE_UNDEFINED.

Fixpoint strip (t : ty) : ty := match t with TConst t => strip t | _ => t end.
(** syntax.c:709-712, applied only to constant types in the builder. *)
Definition unqualified (t : ty) : ty := match t with TConst t => t | _ => t end.
Definition is_const (t : ty) : bool := match t with TConst _ => true | _ => false end.
Definition is_simple (c : Z) (t : ty) : bool := match t with TSimple d => d =? c | _ => false end.

(** syntax.c:613-616 *)
Definition is_boolean (t : ty) : bool := is_simple TYPE_BOOLEAN (strip t).
(** syntax.c:618-623 *)
Definition is_integer (t : ty) : bool :=
  match strip t with TSimple c => (c =? TYPE_CHARACTER) || (c =? TYPE_INTEGER) | TEnum _ _ => true | _ => false end.
(** syntax.c:625-628 *)
Definition is_floating (t : ty) : bool := is_simple TYPE_FLOATING (strip t).
(** syntax.c:630-633 *)
Definition is_arithmetic (t : ty) : bool := is_integer t || is_floating t.
(** syntax.c:635-643: these two do not look below [const]. *)
Definition is_void (t : ty) : bool := is_simple TYPE_VOID t.
Definition is_null_pointer (t : ty) : bool := is_simple TYPE_NULL_POINTER t.
(** syntax.c:650-682 *)
Definition is_array (t : ty) : bool := match strip t with TArray _ => true | _ => false end.
Definition is_structure (t : ty) : bool := match strip t with TStruct _ => true | _ => false end.
Definition is_pointer (t : ty) : bool := match strip t with TPointer _ => true | _ => false end.
Definition is_enum (t : ty) : bool := match strip t with TEnum _ _ => true | _ => false end.
Definition is_function (t : ty) : bool := match t with TFunction _ _ => true | _ => false end.
(** syntax.c:684-687 *)
Definition is_scalar (t : ty) : bool := is_boolean t || is_integer t || is_pointer t || is_null_pointer t.
(** syntax.c:714-800: the parts of a type, looked for below [const]. *)
Definition element (t : ty) : ty := match strip t with TArray t | TPointer t => t | _ => t_undefined end.
Definition members (t : ty) : list (ty * Z) := match strip t with TStruct ms => ms | _ => [] end.
(** syntax.c:694-697 *)
Definition is_string (t : ty) : bool := is_array t && is_simple TYPE_CHARACTER (element t).
(** syntax.c:699-702 *)
Definition is_struct_pointer (t : ty) : bool := is_pointer t && is_structure (element t).

(** Equality of types, for the comparison of their numbers. *)
Fixpoint ty_eqb (t u : ty) {struct t} : bool :=
  match t, u with
  | TSimple c, TSimple d => c =? d
  | TPointer t, TPointer u | TArray t, TArray u | TConst t, TConst u => ty_eqb t u
  | TStruct ms, TStruct ns =>
      (fix go ms ns := match ms, ns with
                       | [], [] => true
                       | (t, a) :: ms, (u, b) :: ns => ty_eqb t u && (a =? b) && go ms ns
                       | _, _ => false
                       end) ms ns
  | TFunction r ps, TFunction s qs =>
      ty_eqb r s && (fix go ps qs := match ps, qs with
                                     | [], [] => true
                                     | t :: ps, u :: qs => ty_eqb t u && go ps qs
                                     | _, _ => false
                                     end) ps qs
  | TEnum s v, TEnum s' v' => (s =? s') && (v =? v')
  | _, _ => false
  end.

(** ** Arithmetic of the machine the compiler runs on *)

(** [item_t] is a 64-bit signed integer: overflow is undefined. *)
Definition in64 (z : Z) : option Z := if (LLONG_MIN <=? z) && (z <=? LLONG_MAX) then Some z else None.
Definition shift_ok (b : Z) : bool := (0 <=? b) && (b <? 64).
Definition c_div (a b : Z) : option Z := if b =? 0 then None else in64 (Z.quot a b).
(** [a % b] is undefined when [a / b] is not representable. *)
Definition c_rem (a b : Z) : option Z := if b =? 0 then None else do q <- in64 (Z.quot a b); Some (Z.rem a b).
Definition c_shl (a b : Z) : option Z := if shift_ok b && (0 <=? a) then in64 (a * 2 ^ b) else None.
Definition c_shr (a b : Z) : option Z := if shift_ok b then Some (a / 2 ^ b) else None.

Definition d_sub := SFsub 53 1024.
Definition d_div := SFdiv 53 1024.
Definition d_ge0 (d : spec_float) : bool := match SFcompare d (S754_zero false) with Some Lt | None => false | _ => true end.
Definition d_abs (d : spec_float) : spec_float := if d_ge0 d then d else SFopp d.
Definition d_lt (a b : spec_float) : bool := match SFcompare a b with Some Lt => true | _ => false end.
Definition d_le (a b : spec_float) : bool := match SFcompare a b with Some Lt | Some Eq => true | _ => false end.
Definition d_eq (a b : spec_float) : bool := match SFcompare a b with Some Eq => true | _ => false end.

(** ** Nodes and errors *)
Definition bres := option (node * Z).
Definition ok (n : node) : bres := Some (n, 0).
Definition err : bres := Some (NBroken, 1).

(** builder.c:580-603 *)
Definition mk_bool (b : bool) : bres := ok (NLit t_bool (LBool b)).
Definition mk_int (v : option Z) : bres := do z <- v; ok (NLit t_int (LInt z)).
Definition mk_float (d : spec_float) : bres := ok (NLit t_float (LFloat d)).

(** builder.c:75-136 [fold_unary_expression] *)
Definition fold_unary (t : ty) (lv : bool) (e : node) (op : unary) : bres :=
  match e with
  | NLit u l =>
      match u with
      | TSimple c =>
          if c =? TYPE_NULL_POINTER then mk_bool true
          else if c =? TYPE_BOOLEAN then do v <- lit_integer l; mk_bool (v =? 0)
          else if c =? TYPE_INTEGER then
            do v <- lit_integer l;
            match op with
            | UN_MINUS => mk_int (in64 (- v))
            | UN_NOT => mk_int (Some (Z.lnot v))
            | UN_LOGNOT => mk_bool (v =? 0)
            | UN_ABS => mk_int (if 0 <=? v then Some v else in64 (- v))
            | _ => ok NBroken
            end
          else if c =? TYPE_FLOATING then
            do d <- lit_floating l;
            match op with
            | UN_MINUS => mk_float (SFopp d)
            | UN_ABS => mk_float (d_abs d)
            | _ => ok NBroken
            end
          else ok (NUnary t lv op e)
      | TEnum _ _ =>
          do v <- lit_integer l;
          match op with
          | UN_MINUS => mk_int (in64 (- v))
          | UN_NOT => mk_int (Some (Z.lnot v))
          | UN_LOGNOT => mk_bool (v =? 0)
          | UN_ABS => mk_int (if 0 <=? v then Some v else in64 (- v))
          | _ => ok NBroken
          end
      | _ => ok (NUnary t lv op e)
      end
  | _ => ok (NUnary t lv op e)
  end.

(** builder.c:150-198, the operators on two words. *)
Definition fold_ints (op : binary) (a b : Z) : bres :=
  match op with
  | BIN_MUL => mk_int (in64 (a * b))
  | BIN_DIV => mk_int (c_div a b)
  | BIN_REM => mk_int (c_rem a b)
  | BIN_ADD => mk_int (in64 (a + b))
  | BIN_SUB => mk_int (in64 (a - b))
  | BIN_SHL => mk_int (c_shl a b)
  | BIN_SHR => mk_int (c_shr a b)
  | BIN_LT => mk_bool (a <? b)
  | BIN_GT => mk_bool (b <? a)
  | BIN_LE => mk_bool (a <=? b)
  | BIN_GE => mk_bool (b <=? a)
  | BIN_EQ => mk_bool (a =? b)
  | BIN_NE => mk_bool (negb (a =? b))
  | BIN_AND => mk_int (Some (Z.land a b))
  | BIN_XOR => mk_int (Some (Z.lxor a b))
  | BIN_OR => mk_int (Some (Z.lor a b))
  | BIN_LOG_AND => mk_bool (negb (a =? 0) && negb (b =? 0))
  | BIN_LOG_OR => mk_bool (negb (a =? 0) || negb (b =? 0))
  | _ => ok NBroken
  end.

(** builder.c:200-233, the operators on two doubles. *)
Definition fold_floats (op : binary) (a b : spec_float) : bres :=
  match op with
  | BIN_MUL => mk_float (d_mul a b)
  | BIN_DIV => mk_float (d_div a b)
  | BIN_ADD => mk_float (d_add a b)
  | BIN_SUB => mk_float (d_sub a b)
  | BIN_LT => mk_bool (d_lt a b)
  | BIN_GT => mk_bool (d_lt b a)
  | BIN_LE => mk_bool (d_le a b)
  | BIN_GE => mk_bool (d_le b a)
  | BIN_EQ => mk_bool (d_eq a b)
  | BIN_NE => mk_bool (negb (d_eq a b))
  | _ => ok NBroken
  end.

(** builder.c:138-238 [fold_binary_expression]: the type of the left operand
    decides. *)
Definition fold_binary (t : ty) (l r : node) (op : binary) : bres :=
  match l, r with
  | NLit u a, NLit _ b =>
      let words := do x <- lit_integer a; do y <- lit_integer b; fold_ints op x y in
      match u with
      | TEnum _ _ => words
      | TSimple c =>
          if (c =? TYPE_INTEGER) || (c =? TYPE_BOOLEAN) then words
          else if c =? TYPE_FLOATING then do x <- lit_floating a; do y <- lit_floating b; fold_floats op x y
          else ok (NBinary t op l r)
      | _ => ok (NBinary t op l r)
      end
  | _, _ => ok (NBinary t op l r)
  end.

(** builder.c:750-782 [build_cast_expression] *)
Definition build_cast (target : ty) (e : node) : option node :=
  if negb (is_correct e) then Some NBroken
  else if ty_eqb target (type_of e) then Some e
  else match e with
       | NLit _ l => do v <- lit_integer l; Some (NLit t_float (LFloat (d_of v)))
       | _ => Some (NCast target (type_of e) e)
       end.

(** builder.c:59-73 [usual_arithmetic_conversions]: the common type and the two
    operands converted to it. *)
Definition conversions (l r : node) : option (ty * node * node) :=
  if is_floating (type_of l) || is_floating (type_of r) then
    do l' <- build_cast t_float l; do r' <- build_cast t_float r; Some (t_float, l', r')
  else Some (t_int, l, r).

(** builder.c:440-557 [check_assignment_operands]: [Some (Some n)] when it
    returns true, [n] being the initialiser after the conversions it inserts;
    [Some None] when it reports an error and returns false. *)
Fixpoint check (expected : ty) (init : node) (decl : bool) {struct init} : option (option node) :=
  if negb (is_correct init) then Some (Some init)
  else if is_const expected && negb decl then Some None
  else
    let target := if is_const expected then unqualified expected else expected in
    match init with
    | NInit _ es =>
        if is_structure target then
          if zlen (members target) =? zlen es then
            (fix go (ms : list (ty * Z)) (es done : list node) {struct es} : option (option node) :=
               match es, ms with
               | e :: es, m :: ms =>
                   do o <- check (fst m) e decl;
                   match o with Some e' => go ms es (e' :: done) | None => Some None end
               | _, _ => Some (Some (NInit target (rev done)))
               end) (members target) es []
          else Some None
        else if is_array target then
          (fix go (es done : list node) {struct es} : option (option node) :=
             match es with
             | e :: es =>
                 do o <- check (element target) e decl;
                 match o with Some e' => go es (e' :: done) | None => Some None end
             | [] => Some (Some (NInit target (rev done)))
             end) es []
        else Some None
    | _ =>
        let actual := if is_const (type_of init) then unqualified (type_of init) else type_of init in
        if is_floating target && is_integer actual then do n <- build_cast target init; Some (Some n)
        else if is_integer target && is_enum actual then Some (Some init)
        else if is_integer target && is_integer actual then Some (Some init)
        else if is_pointer target && is_null_pointer actual then Some (Some init)
        else if is_pointer target && is_pointer actual
                && negb (is_const (element target)) && is_const (element actual) then Some None
        else if is_pointer target && is_pointer actual
                && is_const (element target) && ty_eqb (element actual) (unqualified (element target)) then
          Some (Some init)
        else if ty_eqb target actual then Some (Some init)
        else Some None
    end.

(** builder.c:610-636 *)
Definition build_subscript (base index : node) : bres :=
  if negb (is_correct base) || negb (is_correct index) then ok NBroken
  else if negb (is_array (type_of base)) then err
  else if negb (is_integer (type_of index)) then err
  else ok (NSubscript (element (type_of base)) base index).

(** The identifiers of the library functions with a check of their own,
    libs/compiler/operations.h:213-216. *)
Definition BI_PRINTF : Z := 154.
Definition BI_PRINT : Z := 158.
Definition BI_PRINTID : Z := 162.
Definition BI_GETID : Z := 166.
Definition MAX_PRINTF_ARGS : Z := 20.

(** builder.c:241-299 [evaluate_args] over the characters of the format string:
    the types its placeholders expect, [None] for an error. *)
Fixpoint evaluate_args (s : list Z) (args : list ty) {struct s} : option (list ty) :=
  match s with
  | [] => Some (rev args)
  | c :: s =>
      if c =? 37 (* % *) then
        match s with
        | [] => None
        | sp :: s =>
            if sp =? 37 then evaluate_args s args
            else if zlen args =? MAX_PRINTF_ARGS then None
            else if (sp =? 105) || (sp =? 1094) || (sp =? 99) || (sp =? 1083) (* i ц c л *) then
              evaluate_args s (t_int :: args)
            else if (sp =? 102) || (sp =? 1074) (* f в *) then evaluate_args s (t_float :: args)
            else if (sp =? 115) || (sp =? 1089) (* s с *) then evaluate_args s (t_string :: args)
            else None
        end
      else evaluate_args s args
  end.

(** The loop over arguments, builder.c:672-688 and 331-343: each is checked
    against the type it goes to. *)
Fixpoint check_args (ts : list ty) (args : list node) : option (option (list node)) :=
  match ts, args with
  | t :: ts, a :: args =>
      do o <- check t a true;
      match o with
      | Some a' => do rest <- check_args ts args;
                   match rest with Some args' => Some (Some (a' :: args')) | None => Some None end
      | None => Some None
      end
  | _, _ => Some (Some [])
  end.

Section Calls.
(** The text of the string literals, libs/compiler/syntax.c [string_get]. *)
Variable text : Z -> list Z.

(** builder.c:301-347: an error in the format counts, and the call is built all
    the same when no arguments are given. *)
Definition build_printf (callee : node) (args : list node) : bres :=
  match args with
  | [] => err
  | fst :: rest =>
      if MAX_PRINTF_ARGS <=? zlen args then err
      else match fst with
           | NLit t (LString i) =>
               if is_string t then
                 match evaluate_args (text i) [] with
                 | Some ts =>
                     if zlen ts =? zlen rest then
                       do o <- check_args ts rest;
                       match o with Some rest' => ok (NCall t_int callee (fst :: rest')) | None => err end
                     else err
                 | None => if zlen rest =? 0 then Some (NCall t_int callee args, 1) else Some (NBroken, 2)
                 end
               else err
           | _ => err
           end
  end.

(** builder.c:349-416 *)
Definition build_print (callee : node) (args : list node) : bres :=
  match args with
  | [] => err
  | _ => if existsb (fun a => is_pointer (type_of a)) args then err else ok (NCall t_void callee args)
  end.
Definition build_ids (callee : node) (args : list node) : bres :=
  match args with
  | [] => err
  | _ => if existsb (fun a => match a with NIdent _ _ | NBroken => false | _ => true end) args then err
         else ok (NCall t_void callee args)
  end.

(** builder.c:638-694 *)
Definition build_call (callee : node) (args : list node) : bres :=
  if negb (is_correct callee) then ok NBroken
  else match type_of callee with
       | TFunction ret ps =>
           let plain_call :=
             if zlen ps =? zlen args then
               do o <- check_args ps args;
               match o with Some args' => ok (NCall ret callee args') | None => err end
             else err in
           match callee with
           | NIdent _ id =>
               if id =? BI_PRINTF then build_printf callee args
               else if id =? BI_PRINT then build_print callee args
               else if (id =? BI_PRINTID) || (id =? BI_GETID) then build_ids callee args
               else plain_call
           | _ => plain_call
           end
       | _ => err
       end.
End Calls.

(** builder.c:726-744: the first member of that name. *)
Fixpoint find_member (name i : Z) (ms : list (ty * Z)) : option (Z * ty) :=
  match ms with
  | [] => None
  | (t, n) :: ms => if name =? n then Some (i, t) else find_member name (i + 1) ms
  end.

(** builder.c:696-748 *)
Definition build_member (base : node) (name : Z) (arrow : bool) : bres :=
  if negb (is_correct base) then ok NBroken
  else if (if arrow then negb (is_struct_pointer (type_of base)) else negb (is_structure (type_of base))) then err
  else
    let st := if arrow then element (type_of base) else type_of base in
    let lv := if arrow then true else is_lvalue base in
    match find_member name 0 (members st) with
    | Some (i, t) => ok (NMember (if is_const st && negb (is_const t) then TConst t else t) lv i arrow base)
    | None => err
    end.

(** builder.c:784-892 *)
Definition build_unary (e : node) (op : unary) : bres :=
  if negb (is_correct e) then ok NBroken
  else
    let t := type_of e in
    match op with
    | UN_POSTINC | UN_POSTDEC | UN_PREINC | UN_PREDEC =>
        if negb (is_lvalue e) then err
        else if negb (is_arithmetic t) then err
        else ok (NUnary t false op e)
    | UN_ADDRESS => if negb (is_lvalue e) then err else ok (NUnary (TPointer t) false op e)
    | UN_INDIRECTION => if negb (is_pointer t) then err else ok (NUnary (element t) true op e)
    | UN_ABS | UN_MINUS => if negb (is_arithmetic t) then err else fold_unary t false e op
    | UN_NOT => if negb (is_integer t) then err else fold_unary t_int false e op
    | UN_LOGNOT => if negb (is_scalar t) then err else fold_unary t_bool false e op
    | UN_UPB => if negb (is_array t) then err else fold_unary t_int false e op
    end.

(** libs/compiler/operations.c:148-168 *)
Definition is_assignment (op : binary) : bool :=
  match op with
  | BIN_ASSIGN | BIN_ADD_ASSIGN | BIN_SUB_ASSIGN | BIN_MUL_ASSIGN | BIN_DIV_ASSIGN | BIN_REM_ASSIGN
  | BIN_XOR_ASSIGN | BIN_OR_ASSIGN | BIN_AND_ASSIGN | BIN_SHL_ASSIGN | BIN_SHR_ASSIGN => true
  | _ => false
  end.

(** builder.c:894-1046 *)
Definition build_binary (l r : node) (op : binary) : bres :=
  if negb (is_correct l) || negb (is_correct r) then ok NBroken
  else
    let lt := type_of l in
    let rt := type_of r in
    let assign := fun (need : bool) =>
      if negb (is_lvalue l) then err
      else do o <- check lt r false;
           match o with
           | None => err
           | Some r' => if need then ok (NAssign lt op l r') else err
           end in
    match op with
    | BIN_REM | BIN_SHL | BIN_SHR | BIN_AND | BIN_XOR | BIN_OR =>
        if negb (is_integer lt) || negb (is_integer rt) then err else fold_binary t_int l r op
    | BIN_MUL | BIN_DIV | BIN_ADD | BIN_SUB =>
        if negb (is_arithmetic lt) || negb (is_arithmetic rt) then err
        else do ' (t, l, r) <- conversions l r; fold_binary t l r op
    | BIN_LT | BIN_GT | BIN_LE | BIN_GE =>
        if negb (is_arithmetic lt) || negb (is_arithmetic rt) then err
        else do ' (_, l, r) <- conversions l r; fold_binary t_bool l r op
    | BIN_EQ | BIN_NE =>
        if is_arithmetic lt && is_arithmetic rt then
          do ' (_, l, r) <- conversions l r; fold_binary t_bool l r op
        else if (is_pointer lt && is_null_pointer rt) || (is_null_pointer lt && is_pointer rt) || ty_eqb lt rt then
          fold_binary t_bool l r op
        else err
    | BIN_LOG_AND | BIN_LOG_OR =>
        if negb (is_scalar lt) || negb (is_scalar rt) then err else fold_binary t_bool l r op
    | BIN_ASSIGN => assign true
    | BIN_REM_ASSIGN | BIN_SHL_ASSIGN | BIN_SHR_ASSIGN | BIN_AND_ASSIGN | BIN_XOR_ASSIGN | BIN_OR_ASSIGN =>
        assign (is_integer lt && is_integer rt)
    | BIN_MUL_ASSIGN | BIN_DIV_ASSIGN | BIN_ADD_ASSIGN | BIN_SUB_ASSIGN =>
        assign (is_arithmetic lt && is_arithmetic rt)
    | BIN_COMMA => ok (NBinary rt op l r)
    end.

Definition is_initializer (n : node) : bool := match n with NInit _ _ => true | _ => false end.

(** builder.c:1048-1097 *)
Definition build_ternary (c l r : node) : bres :=
  if negb (is_correct c) || negb (is_correct l) || negb (is_correct r) then ok NBroken
  else if is_initializer l || is_initializer r then err
  else if negb (is_scalar (type_of c)) then err
  else
    let lt := type_of l in
    let rt := type_of r in
    if is_arithmetic lt && is_arithmetic rt then
      do ' (t, l, r) <- conversions l r; ok (NTernary t c l r)
    else if is_pointer lt && is_null_pointer rt then ok (NTernary lt c l r)
    else if (is_null_pointer lt && is_pointer rt) || ty_eqb lt rt then ok (NTernary rt c l r)
    else err.

(** builder.c:1099-1110 *)
Definition build_initializer (es : list node) : bres :=
  match es with [] => err | _ => ok (NInit t_undefined es) end.

(** builder.c:1112-1121 *)
Definition build_constant (e : node) : bres := if is_literal e then ok e else err.

(** builder.c:1208-1246 the type of a declared variable: [bounds] array
    dimensions. *)
Definition declared_type (t : ty) (star const : bool) (bounds : nat) : ty :=
  let t := if star then TPointer t else t in
  let t := if const then TConst t else t in
  Nat.iter bounds TArray t.

(** builder.c:1248-1251: the initialiser of a declaration. *)
Definition build_init (t : ty) (init : node) : bres :=
  do o <- check t init true; match o with Some n => ok n | None => Some (init, 1) end.

(** builder.c:1459-1494: the value of a return statement in a function that
    returns [ret]. *)
Definition build_return (ret : ty) (e : node) : bres :=
  if negb (is_correct e) then ok NBroken
  else if is_void ret then err
  else if ty_eqb ret (TPointer t_void) then ok e
  else do o <- check ret e true; match o with Some n => ok n | None => Some (e, 1) end.

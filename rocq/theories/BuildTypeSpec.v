(** Which expressions have a type, and which. *)
From Verif Require Import Prelude TypesModel TypesSpec LexModel ParseModel BuildModel BuildSpec.
Local Open Scope Z_scope.

(** ** Kinds of types; [const] at the top does not matter unless said. *)
Definition arithmetic_type (t : ty) : Prop := integer_type (strip t) \/ strip t = t_float.
Definition scalar_type (t : ty) : Prop :=
  integer_type (strip t) \/ strip t = t_bool \/ (exists p, strip t = TPointer p) \/ t = t_null.
(** The type of an operation on two numbers. *)
Inductive common (t u : ty) : ty -> Prop :=
| c_float : strip t = t_float \/ strip u = t_float -> common t u t_float
| c_int : strip t <> t_float -> strip u <> t_float -> common t u t_int.

(** Member number [i] is the first called [name]. *)
Definition first_member (ms : list (ty * Z)) (name : Z) (i : nat) (t : ty) : Prop :=
  nth_error ms i = Some (t, name) /\ forall j u, (j < i)%nat -> nth_error ms j <> Some (u, name).
(** A member of a constant structure is constant. *)
Definition member_type (st t : ty) : ty :=
  match st, t with
  | TConst _, TConst _ => t
  | TConst _, _ => TConst t
  | _, _ => t
  end.

(** ** Operators *)
(** [unary_has op t place t' place']: [op] applied to something of type [t], which
    may be assigned to if [place] holds. *)
Inductive unary_has : unary -> ty -> bool -> ty -> bool -> Prop :=
| uh_count op t : In op [UN_POSTINC; UN_POSTDEC; UN_PREINC; UN_PREDEC] -> arithmetic_type t -> unary_has op t true t false
| uh_address t : unary_has UN_ADDRESS t true (TPointer t) false
| uh_indirection t p place : strip t = TPointer p -> unary_has UN_INDIRECTION t place p true
| uh_sign op t place : In op [UN_ABS; UN_MINUS] -> arithmetic_type t -> unary_has op t place t false
| uh_not t place : integer_type (strip t) -> unary_has UN_NOT t place t_int false
| uh_lognot t place : scalar_type t -> unary_has UN_LOGNOT t place t_bool false
| uh_upb t p place : strip t = TArray p -> unary_has UN_UPB t place t_int false.
(** The operators without assignments. *)
Inductive binary_has : binary -> ty -> ty -> ty -> Prop :=
| bh_int op t u : In op [BIN_REM; BIN_SHL; BIN_SHR; BIN_AND; BIN_XOR; BIN_OR] ->
    integer_type (strip t) -> integer_type (strip u) -> binary_has op t u t_int
| bh_arith op t u v : In op [BIN_MUL; BIN_DIV; BIN_ADD; BIN_SUB] ->
    arithmetic_type t -> arithmetic_type u -> common t u v -> binary_has op t u v
| bh_order op t u : In op [BIN_LT; BIN_GT; BIN_LE; BIN_GE] -> arithmetic_type t -> arithmetic_type u -> binary_has op t u t_bool
| bh_equal op t u : In op [BIN_EQ; BIN_NE] ->
    (arithmetic_type t /\ arithmetic_type u) \/ ((exists p, strip t = TPointer p) /\ u = t_null)
    \/ (t = t_null /\ exists p, strip u = TPointer p) \/ t = u -> binary_has op t u t_bool
| bh_logic op t u : In op [BIN_LOG_AND; BIN_LOG_OR] -> scalar_type t -> scalar_type u -> binary_has op t u t_bool
| bh_comma t u : binary_has BIN_COMMA t u u.
(** The type of [c ? l : r] by the types of [l] and [r]. *)
Inductive choice_has : ty -> ty -> ty -> Prop :=
| ch_numbers t u v : arithmetic_type t -> arithmetic_type u -> common t u v -> choice_has t u v
| ch_null_right t p : strip t = TPointer p -> choice_has t t_null t
| ch_null_left u p : strip u = TPointer p -> choice_has t_null u u
| ch_same t : ~ arithmetic_type t -> choice_has t t t.

(** ** Expressions: operators over finished parts (names, literals, calls,
    assignments, lists) *)
Inductive sexp :=
| SDone (n : node)
| SSubscript (base index : sexp)
| SMember (base : sexp) (name : Z) (arrow : bool)
| SUnary (op : unary) (e : sexp)
| SBinary (op : binary) (l r : sexp)
| STernary (c l r : sexp).

Definition listing (e : sexp) : Prop := match e with SDone (NInit _ _) => True | _ => False end.
(** The name of a constant of an enumeration. *)
Definition enum_constant (e : sexp) : Prop := match e with SDone (NLit (TEnum _ _) _) => True | _ => False end.

(** [has e t place]: [e] has type [t]; it may be assigned to if [place] holds. *)
Inductive has : sexp -> ty -> bool -> Prop :=
| has_done n : has (SDone n) (type_of n) (is_lvalue n)
| has_subscript b i tb pb ti pi t : has b tb pb -> has i ti pi -> strip tb = TArray t -> integer_type (strip ti) ->
    has (SSubscript b i) t true
| has_member b tb pb ms i name t : has b tb pb -> strip tb = TStruct ms -> first_member ms name i t ->
    has (SMember b name false) (member_type tb t) pb
| has_arrow b tb pb st ms i name t : has b tb pb -> strip tb = TPointer st -> strip st = TStruct ms -> first_member ms name i t ->
    has (SMember b name true) (member_type st t) true
| has_unary op e t place t' place' : has e t place -> unary_has op t place t' place' ->
    (In op [UN_ABS; UN_MINUS] -> ~ enum_constant e) -> has (SUnary op e) t' place'
| has_sign op e : In op [UN_ABS; UN_MINUS] -> enum_constant e -> has (SUnary op e) t_int false
| has_binary op l r tl pl tr pr t : has l tl pl -> has r tr pr -> binary_has op tl tr t -> has (SBinary op l r) t false
| has_ternary c l r tc pc tl pl tr pr t : has c tc pc -> has l tl pl -> has r tr pr ->
    scalar_type tc -> ~ listing l -> ~ listing r -> choice_has tl tr t -> has (STernary c l r) t false.

(** The parts are finished: not broken, literals of their types; no assignments
    among the operators here. *)
Fixpoint finished (e : sexp) : Prop :=
  match e with
  | SDone n => is_correct n = true /\ match n with NLit t l => lit_ok t l | _ => True end
  | SSubscript a b => finished a /\ finished b
  | SMember a _ _ => finished a
  | SUnary _ a => finished a
  | SBinary op a b => finished a /\ finished b /\ is_assignment op = false
  | STernary a b c => finished a /\ finished b /\ finished c
  end.

(** The calls the parser makes: operands first; the errors add up. *)
Fixpoint build_all (e : sexp) : bres :=
  match e with
  | SDone n => ok n
  | SSubscript a b => do ' (n, i) <- build_all a; do ' (m, j) <- build_all b; do ' (k, c) <- build_subscript n m; Some (k, i + j + c)
  | SMember a name arrow => do ' (n, i) <- build_all a; do ' (k, c) <- build_member n name arrow; Some (k, i + c)
  | SUnary op a => do ' (n, i) <- build_all a; do ' (k, c) <- build_unary n op; Some (k, i + c)
  | SBinary op a b => do ' (n, i) <- build_all a; do ' (m, j) <- build_all b; do ' (k, c) <- build_binary n m op; Some (k, i + j + c)
  | STernary a b d =>
      do ' (n, i) <- build_all a; do ' (m, j) <- build_all b; do ' (o, h) <- build_all d;
      do ' (k, c) <- build_ternary n m o; Some (k, i + j + h + c)
  end.

(** No operator has only literals as operands: nothing to compute while compiling. *)
Definition literal (e : sexp) : Prop := match e with SDone (NLit _ _) => True | _ => False end.
Fixpoint nothing_to_fold (e : sexp) : Prop :=
  match e with
  | SDone _ => True
  | SSubscript a b => nothing_to_fold a /\ nothing_to_fold b
  | SMember a _ _ => nothing_to_fold a
  | SUnary _ a => nothing_to_fold a /\ ~ literal a
  | SBinary _ a b => nothing_to_fold a /\ nothing_to_fold b /\ ~ (literal a /\ literal b)
  | STernary a b c => nothing_to_fold a /\ nothing_to_fold b /\ nothing_to_fold c
  end.

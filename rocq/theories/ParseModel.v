(** Model of the parser of expressions and statements
    (libs/compiler/parser.c:106-753, 1303-1839, libs/compiler/operations.c).

    - the parser reads a list of tokens, the ones [lex] (LexModel.v) gives; the
      head of the list is [prs->tk], and the empty list is the end of the file,
      where [lex] goes on giving [TK_EOF];
    - locations are left out; an error is a number in a counter;
    - the nodes are built by the functions of builder.c; here a node is the term
      that says which of them was called, with which arguments.  The parser of
      expressions never looks at a node; the parser of statements asks if an
      expression is correct, see below;
    - every call takes fuel and gives [None] when the fuel runs out. *)
From Verif Require Import Prelude LexModel.
From Coq Require Import SpecFloat.

(** ** Tokens *)
Inductive tok :=
| TIdent (name : Z) | TChar (c : Z) | TInt (v : Z) | TFloat (v : spec_float) | TString (n : Z)
| TKey (k : Z).
Definition kind (t : tok) : Z :=
  match t with
  | TIdent _ => TK_IDENTIFIER | TChar _ => TK_CHAR_LITERAL | TInt _ => TK_INT_LITERAL
  | TFloat _ => TK_FLOAT_LITERAL | TString _ => TK_STRING_LITERAL | TKey k => k
  end.
(** libs/compiler/token.c:17-140: the parts of a token the parser reads. *)
Definition tok_of (t : token) : tok :=
  match t_data t with
  | DRepr r => TIdent r | DChar c => TChar c | DInt v => TInt v | DFloat v => TFloat v | DString n => TString n
  | DNone => TKey (t_kind t)
  end.
Definition cur (l : list tok) : Z := match l with [] => TK_EOF | t :: _ => kind t end.

(** ** Operators *)

(** libs/compiler/operations.h:28-101. *)
Inductive unary := UN_POSTINC | UN_POSTDEC | UN_PREINC | UN_PREDEC | UN_ADDRESS | UN_INDIRECTION | UN_MINUS | UN_NOT | UN_LOGNOT | UN_ABS | UN_UPB.
Inductive binary :=
| BIN_MUL | BIN_DIV | BIN_REM | BIN_ADD | BIN_SUB | BIN_SHL | BIN_SHR | BIN_LT | BIN_GT | BIN_LE | BIN_GE
| BIN_EQ | BIN_NE | BIN_AND | BIN_XOR | BIN_OR | BIN_LOG_AND | BIN_LOG_OR
| BIN_ASSIGN | BIN_MUL_ASSIGN | BIN_DIV_ASSIGN | BIN_REM_ASSIGN | BIN_ADD_ASSIGN | BIN_SUB_ASSIGN
| BIN_SHL_ASSIGN | BIN_SHR_ASSIGN | BIN_AND_ASSIGN | BIN_XOR_ASSIGN | BIN_OR_ASSIGN | BIN_COMMA.

(** libs/compiler/operations.c:21-39 [token_to_unary]; [None] for the system
    error. *)
Definition token_to_unary (k : Z) : option unary :=
  if k =? TK_PLUS_PLUS then Some UN_PREINC else if k =? TK_MINUS_MINUS then Some UN_PREDEC
  else if k =? TK_AMP then Some UN_ADDRESS else if k =? TK_STAR then Some UN_INDIRECTION
  else if k =? TK_MINUS then Some UN_MINUS else if k =? TK_TILDE then Some UN_NOT
  else if k =? TK_EXCLAIM then Some UN_LOGNOT else if k =? TK_ABS then Some UN_ABS
  else if k =? TK_UPB then Some UN_UPB else None.

(** libs/compiler/operations.c:41-81 [token_to_binary]; the table.  [None] for
    the system error. *)
Definition binary_table : list (Z * binary) :=
  [(TK_PLUS, BIN_ADD); (TK_MINUS, BIN_SUB); (TK_STAR, BIN_MUL); (TK_SLASH, BIN_DIV); (TK_PERCENT, BIN_REM); (TK_CARET, BIN_XOR);
   (TK_PIPE, BIN_OR); (TK_AMP, BIN_AND); (TK_EQUAL, BIN_ASSIGN); (TK_LESS, BIN_LT); (TK_GREATER, BIN_GT); (TK_PLUS_EQUAL, BIN_ADD_ASSIGN);
   (TK_MINUS_EQUAL, BIN_SUB_ASSIGN); (TK_STAR_EQUAL, BIN_MUL_ASSIGN); (TK_SLASH_EQUAL, BIN_DIV_ASSIGN); (TK_PERCENT_EQUAL, BIN_REM_ASSIGN);
   (TK_EXCLAIM_EQUAL, BIN_NE); (TK_CARET_EQUAL, BIN_XOR_ASSIGN); (TK_PIPE_EQUAL, BIN_OR_ASSIGN); (TK_PIPE_PIPE, BIN_LOG_OR);
   (TK_AMP_EQUAL, BIN_AND_ASSIGN); (TK_AMP_AMP, BIN_LOG_AND); (TK_EQUAL_EQUAL, BIN_EQ); (TK_LESS_EQUAL, BIN_LE); (TK_LESS_LESS, BIN_SHL);
   (TK_GREATER_EQUAL, BIN_GE); (TK_GREATER_GREATER, BIN_SHR); (TK_LESS_LESS_EQUAL, BIN_SHL_ASSIGN);
   (TK_GREATER_GREATER_EQUAL, BIN_SHR_ASSIGN); (TK_COMMA, BIN_COMMA)].
Fixpoint table_find {A} (l : list (Z * A)) (k : Z) : option A :=
  match l with [] => None | (x, a) :: l => if k =? x then Some a else table_find l k end.
Definition token_to_binary (k : Z) : option binary := table_find binary_table k.

(** libs/compiler/operations.h:103-120 [precedence_t]. *)
Definition PREC_UNKNOWN : Z := 0.
Definition PREC_COMMA : Z := 1.
Definition PREC_ASSIGNMENT : Z := 2.
Definition PREC_CONDITIONAL : Z := 3.
Definition PREC_LOGICAL_OR : Z := 4.
Definition PREC_LOGICAL_AND : Z := 5.
Definition PREC_OR : Z := 6.
Definition PREC_XOR : Z := 7.
Definition PREC_AND : Z := 8.
Definition PREC_EQUALITY : Z := 9.
Definition PREC_RELATIONAL : Z := 10.
Definition PREC_SHIFT : Z := 11.
Definition PREC_ADDITIVE : Z := 12.
Definition PREC_MULTIPLICATIVE : Z := 13.

(** libs/compiler/operations.c:83-147 [get_operator_precedence]. *)
Definition precedence_table : list (Z * Z) :=
  [(TK_COMMA, PREC_COMMA);
   (TK_EQUAL, PREC_ASSIGNMENT); (TK_STAR_EQUAL, PREC_ASSIGNMENT); (TK_SLASH_EQUAL, PREC_ASSIGNMENT); (TK_PERCENT_EQUAL, PREC_ASSIGNMENT);
   (TK_PLUS_EQUAL, PREC_ASSIGNMENT); (TK_MINUS_EQUAL, PREC_ASSIGNMENT); (TK_LESS_LESS_EQUAL, PREC_ASSIGNMENT);
   (TK_GREATER_GREATER_EQUAL, PREC_ASSIGNMENT); (TK_AMP_EQUAL, PREC_ASSIGNMENT); (TK_CARET_EQUAL, PREC_ASSIGNMENT); (TK_PIPE_EQUAL, PREC_ASSIGNMENT);
   (TK_QUESTION, PREC_CONDITIONAL); (TK_PIPE_PIPE, PREC_LOGICAL_OR); (TK_AMP_AMP, PREC_LOGICAL_AND); (TK_PIPE, PREC_OR); (TK_CARET, PREC_XOR);
   (TK_AMP, PREC_AND); (TK_EQUAL_EQUAL, PREC_EQUALITY); (TK_EXCLAIM_EQUAL, PREC_EQUALITY);
   (TK_GREATER_EQUAL, PREC_RELATIONAL); (TK_LESS_EQUAL, PREC_RELATIONAL); (TK_GREATER, PREC_RELATIONAL); (TK_LESS, PREC_RELATIONAL);
   (TK_LESS_LESS, PREC_SHIFT); (TK_GREATER_GREATER, PREC_SHIFT); (TK_PLUS, PREC_ADDITIVE); (TK_MINUS, PREC_ADDITIVE);
   (TK_STAR, PREC_MULTIPLICATIVE); (TK_SLASH, PREC_MULTIPLICATIVE); (TK_PERCENT, PREC_MULTIPLICATIVE)].
Definition get_operator_precedence (k : Z) : Z :=
  match table_find precedence_table k with Some p => p | None => PREC_UNKNOWN end.

(** ** Nodes *)

(** What the parser passes to builder.c: [build_identifier_expression],
    [build_character_literal_expression], [build_integer_literal_expression],
    [build_floating_literal_expression], [build_string_literal_expression],
    [build_null_literal_expression], [build_boolean_literal_expression],
    [build_subscript_expression], [build_call_expression],
    [build_member_expression], [build_unary_expression],
    [build_binary_expression], [build_ternary_expression],
    [build_constant_expression], [build_initializer], [node_broken]. *)
Inductive expr :=
| EIdent (name : Z) | EChar (c : Z) | EInt (v : Z) | EFloat (v : spec_float) | EString (n : Z) | ENull | EBool (b : bool)
| ESubscript (base index : expr) | ECall (callee : expr) (args : list expr) | EMember (base : expr) (name : Z) (is_arrow : bool)
| EUnary (op : unary) (e : expr) | EBinary (op : binary) (a b : expr) | ETernary (c a b : expr)
| EInit (inits : list expr) | EBroken.

(** The rest of the tokens and the number of errors reported so far. *)
Definition st : Type := list tok * Z.
(** libs/compiler/parser.c:106-116 [parser_error]. *)
Definition error (s : st) : st := (fst s, snd s + 1).
(** libs/compiler/parser.c:125-130 [consume_token]. *)
Definition consume (s : st) : st := (tl (fst s), snd s).
Definition is (s : st) (k : Z) : bool := cur (fst s) =? k.
(** libs/compiler/parser.c:152-161 [try_consume_token]. *)
Definition try_consume (s : st) (k : Z) : bool * st := if is s k then (true, consume s) else (false, s).
(** libs/compiler/parser.c:171-191 [expect_and_consume]. *)
Definition expect_and_consume (s : st) (expected : Z) : st :=
  if is s expected then consume s
  else if (expected =? TK_SEMICOLON) && (cur (tl (fst s)) =? TK_SEMICOLON) && (is s TK_R_PAREN || is s TK_R_SQUARE)
  then consume (consume (error s))
  else error s.

(** libs/compiler/parser.c:194-197 [has_token_set]. *)
Definition has_token_set (tokens k : Z) : bool := negb (Z.land tokens k =? 0).
(** libs/compiler/parser.c:205-246 [skip_until]. *)
Fixpoint skip_until (fuel : nat) (tokens : Z) (l : list tok) {struct fuel} : option (list tok) :=
  match fuel with
  | O => None
  | S fuel =>
      let k := cur l in
      if k =? TK_EOF then Some l
      else if k =? TK_L_PAREN then do l <- skip_until fuel TK_R_PAREN (tl l); skip_until fuel tokens l
      else if k =? TK_L_SQUARE then do l <- skip_until fuel TK_R_SQUARE (tl l); skip_until fuel tokens l
      else if k =? TK_L_BRACE then do l <- skip_until fuel TK_R_BRACE (tl l); skip_until fuel tokens l
      else if k =? TK_QUESTION then do l <- skip_until fuel TK_COLON (tl l); skip_until fuel tokens l
      else if ((k =? TK_R_PAREN) || (k =? TK_R_SQUARE) || (k =? TK_R_BRACE) || (k =? TK_COLON) || (k =? TK_SEMICOLON)) && has_token_set tokens k
      then Some l
      else skip_until fuel tokens (tl l)
  end.
Definition skip (fuel : nat) (tokens : Z) (s : st) : option st := do l <- skip_until fuel tokens (fst s); Some (l, snd s).

(** libs/compiler/parser.c:533-550: the tokens of unary operators. *)
Definition is_unary (k : Z) : bool :=
  (k =? TK_PLUS_PLUS) || (k =? TK_MINUS_MINUS) || (k =? TK_AMP) || (k =? TK_STAR) || (k =? TK_MINUS) || (k =? TK_TILDE)
  || (k =? TK_EXCLAIM) || (k =? TK_ABS) || (k =? TK_UPB).

(** ** Expressions *)

(** libs/compiler/parser.c:301-372. *)
Fixpoint parse_primary_expression (fuel : nat) (s : st) {struct fuel} : option (expr * st) :=
  match fuel with
  | O => None
  | S fuel =>
      match fst s with
      | TIdent name :: _ => Some (EIdent name, consume s)
      | TChar c :: _ => Some (EChar c, consume s)
      | TInt v :: _ => Some (EInt (s64 v), consume s)
      | TFloat v :: _ => Some (EFloat v, consume s)
      | TString n :: _ => Some (EString n, consume s)
      | _ =>
          if is s TK_NULL then Some (ENull, consume s)
          else if is s TK_TRUE then Some (EBool true, consume s)
          else if is s TK_FALSE then Some (EBool false, consume s)
          else if is s TK_L_PAREN then
            do ' (e, s) <- parse_expression fuel (consume s);
            if is s TK_R_PAREN then Some (e, consume s) else Some (EBroken, error s)
          else Some (EBroken, error s)
      end
  end
(** libs/compiler/parser.c:385-396; the [do] loop. *)
with parse_initializer_list (fuel : nat) (s : st) {struct fuel} : option (list expr * st) :=
  match fuel with
  | O => None
  | S fuel =>
      do ' (e, s) <- parse_initializer fuel s;
      if is s TK_COMMA then do ' (es, s) <- parse_initializer_list fuel (consume s); Some (e :: es, s)
      else Some ([e], s)
  end
(** libs/compiler/parser.c:414-513. *)
with parse_postfix_expression (fuel : nat) (s : st) {struct fuel} : option (expr * st) :=
  match fuel with
  | O => None
  | S fuel => do ' (e, s) <- parse_primary_expression fuel s; postfix_loop fuel e s
  end
(** libs/compiler/parser.c:418-512, the loop. *)
with postfix_loop (fuel : nat) (operand : expr) (s : st) {struct fuel} : option (expr * st) :=
  match fuel with
  | O => None
  | S fuel =>
      if is s TK_L_SQUARE then
        do ' (index, s) <- parse_expression fuel (consume s);
        if is s TK_R_SQUARE then postfix_loop fuel (ESubscript operand index) (consume s)
        else
          do s <- skip fuel (Z.lor TK_R_SQUARE TK_SEMICOLON) (error s);
          postfix_loop fuel EBroken (snd (try_consume s TK_R_SQUARE))
      else if is s TK_L_PAREN then
        let s := consume s in
        if is s TK_R_PAREN then postfix_loop fuel (ECall operand []) (consume s)
        else
          do ' (args, s) <- parse_initializer_list fuel s;
          if is s TK_R_PAREN then postfix_loop fuel (ECall operand args) (consume s)
          else
            do s <- skip fuel (Z.lor TK_R_PAREN TK_SEMICOLON) (error s);
            postfix_loop fuel EBroken (snd (try_consume s TK_R_PAREN))
      else if is s TK_PERIOD || is s TK_ARROW then
        let is_arrow := is s TK_ARROW in
        let s := consume s in
        match fst s with
        | TIdent name :: _ => postfix_loop fuel (EMember operand name is_arrow) (consume s)
        | _ => postfix_loop fuel EBroken (error s)
        end
      else if is s TK_PLUS_PLUS then postfix_loop fuel (EUnary UN_POSTINC operand) (consume s)
      else if is s TK_MINUS_MINUS then postfix_loop fuel (EUnary UN_POSTDEC operand) (consume s)
      else Some (operand, s)
  end
(** libs/compiler/parser.c:531-555. *)
with parse_unary_expression (fuel : nat) (s : st) {struct fuel} : option (expr * st) :=
  match fuel with
  | O => None
  | S fuel =>
      if is_unary (cur (fst s)) then
        do op <- token_to_unary (cur (fst s));
        do ' (e, s) <- parse_unary_expression fuel (consume s);
        Some (EUnary op e, s)
      else parse_postfix_expression fuel s
  end
(** libs/compiler/parser.c:566-614; one round of the loop, then the others. *)
with parse_RHS_of_binary_expression (fuel : nat) (LHS : expr) (min_prec : Z) (s : st) {struct fuel} : option (expr * st) :=
  match fuel with
  | O => None
  | S fuel =>
      let op_token_kind := cur (fst s) in
      let this_prec := get_operator_precedence op_token_kind in
      if this_prec >=? min_prec then
        let s := consume s in
        let is_binary := negb (this_prec =? PREC_CONDITIONAL) in
        do ' (middle, s) <-
          (if is_binary then Some (EBroken, s)
           else
             do ' (middle, s) <- parse_initializer fuel s;
             Some (middle, if is s TK_COLON then consume s else error s));
        do ' (RHS, s) <- (if is s TK_L_BRACE then parse_initializer fuel s else parse_unary_expression fuel s);
        let next_prec := get_operator_precedence (cur (fst s)) in
        let right := (this_prec =? PREC_CONDITIONAL) || (this_prec =? PREC_ASSIGNMENT) in
        do ' (RHS, s) <-
          (if (this_prec <? next_prec) || ((this_prec =? next_prec) && right)
           then parse_RHS_of_binary_expression fuel RHS (this_prec + (if right then 0 else 1)) s
           else Some (RHS, s));
        if is_binary then
          do op <- token_to_binary op_token_kind;
          parse_RHS_of_binary_expression fuel (EBinary op LHS RHS) min_prec s
        else parse_RHS_of_binary_expression fuel (ETernary LHS middle RHS) min_prec s
      else Some (LHS, s)
  end
(** libs/compiler/parser.c:630-634. *)
with parse_assignment_expression (fuel : nat) (s : st) {struct fuel} : option (expr * st) :=
  match fuel with
  | O => None
  | S fuel => do ' (LHS, s) <- parse_unary_expression fuel s; parse_RHS_of_binary_expression fuel LHS PREC_ASSIGNMENT s
  end
(** libs/compiler/parser.c:647-651. *)
with parse_expression (fuel : nat) (s : st) {struct fuel} : option (expr * st) :=
  match fuel with
  | O => None
  | S fuel => do ' (LHS, s) <- parse_assignment_expression fuel s; parse_RHS_of_binary_expression fuel LHS PREC_COMMA s
  end
(** libs/compiler/parser.c:682-715. *)
with parse_initializer (fuel : nat) (s : st) {struct fuel} : option (expr * st) :=
  match fuel with
  | O => None
  | S fuel =>
      if is s TK_L_BRACE then
        let s := consume s in
        if is s TK_R_BRACE then Some (EBroken, error (consume s))
        else
          do ' (inits, s) <- parse_initializer_list fuel s;
          if is s TK_R_BRACE then Some (EInit inits, consume s)
          else
            do s <- skip fuel (Z.lor TK_R_BRACE TK_SEMICOLON) (error s);
            Some (EBroken, snd (try_consume s TK_R_BRACE))
      else parse_assignment_expression fuel s
  end.
(** libs/compiler/parser.c:663-669; the node goes to [build_constant_expression]. *)
Definition parse_constant_expression (fuel : nat) (s : st) : option (expr * st) :=
  do ' (LHS, s) <- parse_unary_expression fuel s; parse_RHS_of_binary_expression fuel LHS PREC_CONDITIONAL s.

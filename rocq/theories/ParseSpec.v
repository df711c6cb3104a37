(** What expressions mean as texts: the grammar of C (ISO C11, 6.5) with the
    operators of RuC, written down independently of the parser. *)
From Verif Require Import Prelude LexModel ParseModel.
From Coq Require Import SpecFloat.

(** The operators with their levels, 4 (logical or) to 13 (multiplication). *)
Inductive operator : binary -> Z -> Z -> Prop :=
| op_mul : operator BIN_MUL TK_STAR 13 | op_div : operator BIN_DIV TK_SLASH 13 | op_rem : operator BIN_REM TK_PERCENT 13
| op_add : operator BIN_ADD TK_PLUS 12 | op_sub : operator BIN_SUB TK_MINUS 12
| op_shl : operator BIN_SHL TK_LESS_LESS 11 | op_shr : operator BIN_SHR TK_GREATER_GREATER 11
| op_lt : operator BIN_LT TK_LESS 10 | op_gt : operator BIN_GT TK_GREATER 10
| op_le : operator BIN_LE TK_LESS_EQUAL 10 | op_ge : operator BIN_GE TK_GREATER_EQUAL 10
| op_eq : operator BIN_EQ TK_EQUAL_EQUAL 9 | op_ne : operator BIN_NE TK_EXCLAIM_EQUAL 9
| op_and : operator BIN_AND TK_AMP 8 | op_xor : operator BIN_XOR TK_CARET 7 | op_or : operator BIN_OR TK_PIPE 6
| op_land : operator BIN_LOG_AND TK_AMP_AMP 5 | op_lor : operator BIN_LOG_OR TK_PIPE_PIPE 4.
Inductive assignment_operator : binary -> Z -> Prop :=
| as_plain : assignment_operator BIN_ASSIGN TK_EQUAL
| as_mul : assignment_operator BIN_MUL_ASSIGN TK_STAR_EQUAL | as_div : assignment_operator BIN_DIV_ASSIGN TK_SLASH_EQUAL
| as_rem : assignment_operator BIN_REM_ASSIGN TK_PERCENT_EQUAL | as_add : assignment_operator BIN_ADD_ASSIGN TK_PLUS_EQUAL
| as_sub : assignment_operator BIN_SUB_ASSIGN TK_MINUS_EQUAL | as_shl : assignment_operator BIN_SHL_ASSIGN TK_LESS_LESS_EQUAL
| as_shr : assignment_operator BIN_SHR_ASSIGN TK_GREATER_GREATER_EQUAL | as_and : assignment_operator BIN_AND_ASSIGN TK_AMP_EQUAL
| as_xor : assignment_operator BIN_XOR_ASSIGN TK_CARET_EQUAL | as_or : assignment_operator BIN_OR_ASSIGN TK_PIPE_EQUAL.
Inductive prefix_operator : unary -> Z -> Prop :=
| pr_inc : prefix_operator UN_PREINC TK_PLUS_PLUS | pr_dec : prefix_operator UN_PREDEC TK_MINUS_MINUS
| pr_address : prefix_operator UN_ADDRESS TK_AMP | pr_deref : prefix_operator UN_INDIRECTION TK_STAR
| pr_minus : prefix_operator UN_MINUS TK_MINUS | pr_not : prefix_operator UN_NOT TK_TILDE
| pr_lognot : prefix_operator UN_LOGNOT TK_EXCLAIM | pr_abs : prefix_operator UN_ABS TK_ABS | pr_upb : prefix_operator UN_UPB TK_UPB.

(** [gram p e t]: [t] is a text of the expression [e] at level [p]: 1
    expression, 2 assignment, 3 conditional, 4 to 13 binary operators, 14 unary,
    15 postfix, 16 primary. *)
Inductive gram : Z -> expr -> list tok -> Prop :=
| g_ident n : gram 16 (EIdent n) [TIdent n]
| g_char c : gram 16 (EChar c) [TChar c]
| g_int v : gram 16 (EInt (s64 v)) [TInt v]
| g_float v : gram 16 (EFloat v) [TFloat v]
| g_string n : gram 16 (EString n) [TString n]
| g_null : gram 16 ENull [TKey TK_NULL]
| g_true : gram 16 (EBool true) [TKey TK_TRUE]
| g_false : gram 16 (EBool false) [TKey TK_FALSE]
| g_parens e t : gram 1 e t -> gram 16 e (TKey TK_L_PAREN :: t ++ [TKey TK_R_PAREN])
| g_subscript e t i u : gram 15 e t -> gram 1 i u -> gram 15 (ESubscript e i) (t ++ TKey TK_L_SQUARE :: u ++ [TKey TK_R_SQUARE])
| g_call0 e t : gram 15 e t -> gram 15 (ECall e []) (t ++ [TKey TK_L_PAREN; TKey TK_R_PAREN])
| g_call e t es u : gram 15 e t -> gram_list es u -> gram 15 (ECall e es) (t ++ TKey TK_L_PAREN :: u ++ [TKey TK_R_PAREN])
| g_member e t n : gram 15 e t -> gram 15 (EMember e n false) (t ++ [TKey TK_PERIOD; TIdent n])
| g_arrow e t n : gram 15 e t -> gram 15 (EMember e n true) (t ++ [TKey TK_ARROW; TIdent n])
| g_postinc e t : gram 15 e t -> gram 15 (EUnary UN_POSTINC e) (t ++ [TKey TK_PLUS_PLUS])
| g_postdec e t : gram 15 e t -> gram 15 (EUnary UN_POSTDEC e) (t ++ [TKey TK_MINUS_MINUS])
| g_prefix op k e t : prefix_operator op k -> gram 14 e t -> gram 14 (EUnary op e) (TKey k :: t)
| g_binary op k p a t b u : operator op k p -> gram p a t -> gram (p + 1) b u -> gram p (EBinary op a b) (t ++ TKey k :: u)
| g_conditional c t a u b v : gram 4 c t -> gram_init a u -> gram 3 b v ->
    gram 3 (ETernary c a b) (t ++ TKey TK_QUESTION :: u ++ TKey TK_COLON :: v)
| g_assignment op k a t b u : assignment_operator op k -> gram 14 a t -> gram_init b u -> gram 2 (EBinary op a b) (t ++ TKey k :: u)
| g_comma a t b u : gram 1 a t -> gram 2 b u -> gram 1 (EBinary BIN_COMMA a b) (t ++ TKey TK_COMMA :: u)
| g_up p e t : 1 <= p -> gram (p + 1) e t -> gram p e t
with gram_init : expr -> list tok -> Prop :=
| gi_expr e t : gram 2 e t -> gram_init e t
| gi_braces es t : gram_list es t -> gram_init (EInit es) (TKey TK_L_BRACE :: t ++ [TKey TK_R_BRACE])
with gram_list : list expr -> list tok -> Prop :=
| gl_one e t : gram_init e t -> gram_list [e] t
| gl_more e t es u : gram_init e t -> gram_list es u -> gram_list (e :: es) (t ++ TKey TK_COMMA :: u).
Scheme gram_ind3 := Minimality for gram Sort Prop
with gram_init_ind3 := Minimality for gram_init Sort Prop
with gram_list_ind3 := Minimality for gram_list Sort Prop.
Combined Scheme gram_mutual from gram_ind3, gram_init_ind3, gram_list_ind3.

(** [agram p b e t]: the same with two liberties, which is all the parser
    checks by itself: the left side of an assignment may be any conditional
    expression (the check for an lvalue is left to the builder of nodes), and a
    braced list may stand for an operand, except for the first one ([b] false).
    Theorem C24_accepted says that nothing else passes. *)
Inductive agram : Z -> bool -> expr -> list tok -> Prop :=
| a_ident b n : agram 16 b (EIdent n) [TIdent n]
| a_char b c : agram 16 b (EChar c) [TChar c]
| a_int b v : agram 16 b (EInt (s64 v)) [TInt v]
| a_float b v : agram 16 b (EFloat v) [TFloat v]
| a_string b n : agram 16 b (EString n) [TString n]
| a_null b : agram 16 b ENull [TKey TK_NULL]
| a_true b : agram 16 b (EBool true) [TKey TK_TRUE]
| a_false b : agram 16 b (EBool false) [TKey TK_FALSE]
| a_parens b e t : agram 1 false e t -> agram 16 b e (TKey TK_L_PAREN :: t ++ [TKey TK_R_PAREN])
| a_subscript b e t i u : agram 15 b e t -> agram 1 false i u -> agram 15 b (ESubscript e i) (t ++ TKey TK_L_SQUARE :: u ++ [TKey TK_R_SQUARE])
| a_call0 b e t : agram 15 b e t -> agram 15 b (ECall e []) (t ++ [TKey TK_L_PAREN; TKey TK_R_PAREN])
| a_call b e t es u : agram 15 b e t -> agram_list es u -> agram 15 b (ECall e es) (t ++ TKey TK_L_PAREN :: u ++ [TKey TK_R_PAREN])
| a_member b e t n : agram 15 b e t -> agram 15 b (EMember e n false) (t ++ [TKey TK_PERIOD; TIdent n])
| a_arrow b e t n : agram 15 b e t -> agram 15 b (EMember e n true) (t ++ [TKey TK_ARROW; TIdent n])
| a_postinc b e t : agram 15 b e t -> agram 15 b (EUnary UN_POSTINC e) (t ++ [TKey TK_PLUS_PLUS])
| a_postdec b e t : agram 15 b e t -> agram 15 b (EUnary UN_POSTDEC e) (t ++ [TKey TK_MINUS_MINUS])
| a_prefix b op k e t : prefix_operator op k -> agram 14 false e t -> agram 14 b (EUnary op e) (TKey k :: t)
| a_braces es t : agram_list es t -> agram 14 true (EInit es) (TKey TK_L_BRACE :: t ++ [TKey TK_R_BRACE])
| a_binary b op k p x t y u : operator op k p -> agram p b x t -> agram (p + 1) true y u -> agram p b (EBinary op x y) (t ++ TKey k :: u)
| a_conditional b c t x u y v : agram 4 b c t -> agram_init x u -> agram 3 true y v ->
    agram 3 b (ETernary c x y) (t ++ TKey TK_QUESTION :: u ++ TKey TK_COLON :: v)
| a_assignment b op k x t y u : assignment_operator op k -> agram 3 b x t -> agram 2 true y u -> agram 2 b (EBinary op x y) (t ++ TKey k :: u)
| a_comma b x t y u : agram 1 b x t -> agram 2 true y u -> agram 1 b (EBinary BIN_COMMA x y) (t ++ TKey TK_COMMA :: u)
| a_up b p e t : 1 <= p -> agram (p + 1) b e t -> agram p b e t
with agram_init : expr -> list tok -> Prop :=
| ai_expr e t : agram 2 false e t -> agram_init e t
| ai_braces es t : agram_list es t -> agram_init (EInit es) (TKey TK_L_BRACE :: t ++ [TKey TK_R_BRACE])
with agram_list : list expr -> list tok -> Prop :=
| al_one e t : agram_init e t -> agram_list [e] t
| al_more e t es u : agram_init e t -> agram_list es u -> agram_list (e :: es) (t ++ TKey TK_COMMA :: u).
Scheme agram_ind3 := Minimality for agram Sort Prop
with agram_init_ind3 := Minimality for agram_init Sort Prop
with agram_list_ind3 := Minimality for agram_list Sort Prop.
Combined Scheme agram_mutual from agram_ind3, agram_init_ind3, agram_list_ind3.

(** The parser with enough fuel for the text. *)
Definition enough (l : list tok) : nat := 16 * length l + 16.
Definition parse (l : list tok) (errors : Z) : option (expr * st) := parse_expression (enough l) (l, errors).
(** A token that cannot continue an expression. *)
Definition ends_expression (l : list tok) : Prop :=
  let k := cur l in k = TK_EOF \/ k = TK_R_PAREN \/ k = TK_R_SQUARE \/ k = TK_R_BRACE \/ k = TK_COLON \/ k = TK_SEMICOLON.

(** ** Writing an expression with as few parentheses as the grammar needs *)
Definition op_level (op : binary) : Z :=
  match op with
  | BIN_MUL | BIN_DIV | BIN_REM => 13 | BIN_ADD | BIN_SUB => 12 | BIN_SHL | BIN_SHR => 11
  | BIN_LT | BIN_GT | BIN_LE | BIN_GE => 10 | BIN_EQ | BIN_NE => 9 | BIN_AND => 8 | BIN_XOR => 7 | BIN_OR => 6
  | BIN_LOG_AND => 5 | BIN_LOG_OR => 4 | BIN_COMMA => 1 | _ => 2
  end.
Definition op_token (op : binary) : Z :=
  match op with
  | BIN_MUL => TK_STAR | BIN_DIV => TK_SLASH | BIN_REM => TK_PERCENT | BIN_ADD => TK_PLUS | BIN_SUB => TK_MINUS
  | BIN_SHL => TK_LESS_LESS | BIN_SHR => TK_GREATER_GREATER | BIN_LT => TK_LESS | BIN_GT => TK_GREATER | BIN_LE => TK_LESS_EQUAL | BIN_GE => TK_GREATER_EQUAL
  | BIN_EQ => TK_EQUAL_EQUAL | BIN_NE => TK_EXCLAIM_EQUAL | BIN_AND => TK_AMP | BIN_XOR => TK_CARET | BIN_OR => TK_PIPE
  | BIN_LOG_AND => TK_AMP_AMP | BIN_LOG_OR => TK_PIPE_PIPE
  | BIN_ASSIGN => TK_EQUAL | BIN_MUL_ASSIGN => TK_STAR_EQUAL | BIN_DIV_ASSIGN => TK_SLASH_EQUAL | BIN_REM_ASSIGN => TK_PERCENT_EQUAL
  | BIN_ADD_ASSIGN => TK_PLUS_EQUAL | BIN_SUB_ASSIGN => TK_MINUS_EQUAL | BIN_SHL_ASSIGN => TK_LESS_LESS_EQUAL | BIN_SHR_ASSIGN => TK_GREATER_GREATER_EQUAL
  | BIN_AND_ASSIGN => TK_AMP_EQUAL | BIN_XOR_ASSIGN => TK_CARET_EQUAL | BIN_OR_ASSIGN => TK_PIPE_EQUAL | BIN_COMMA => TK_COMMA
  end.
Definition prefix_token (op : unary) : option Z :=
  match op with
  | UN_PREINC => Some TK_PLUS_PLUS | UN_PREDEC => Some TK_MINUS_MINUS | UN_ADDRESS => Some TK_AMP | UN_INDIRECTION => Some TK_STAR
  | UN_MINUS => Some TK_MINUS | UN_NOT => Some TK_TILDE | UN_LOGNOT => Some TK_EXCLAIM | UN_ABS => Some TK_ABS | UN_UPB => Some TK_UPB
  | UN_POSTINC | UN_POSTDEC => None
  end.
Definition level (e : expr) : Z :=
  match e with
  | ESubscript _ _ | ECall _ _ | EMember _ _ _ | EUnary UN_POSTINC _ | EUnary UN_POSTDEC _ => 15
  | EUnary _ _ => 14 | ETernary _ _ _ => 3 | EBinary op _ _ => op_level op | _ => 16
  end.
Definition brackets (l : Z) (t : list tok) (r : Z) : list tok := TKey l :: t ++ [TKey r].
(** An operand at level [p]: in parentheses only if it binds weaker. *)
Definition operand (p : Z) (e : expr) (t : list tok) : list tok := if level e <? p then brackets TK_L_PAREN t TK_R_PAREN else t.
Definition initializer (e : expr) (t : list tok) : list tok := match e with EInit _ => t | _ => operand 2 e t end.
Fixpoint separate (l : list (list tok)) : list tok :=
  match l with [] => [] | [t] => t | t :: l => t ++ TKey TK_COMMA :: separate l end.
Fixpoint show (e : expr) : list tok :=
  match e with
  | EIdent n => [TIdent n] | EChar c => [TChar c] | EInt v => [TInt v] | EFloat v => [TFloat v] | EString n => [TString n]
  | ENull => [TKey TK_NULL] | EBool b => [TKey (if b then TK_TRUE else TK_FALSE)]
  | ESubscript a i => operand 15 a (show a) ++ brackets TK_L_SQUARE (show i) TK_R_SQUARE
  | ECall a es => operand 15 a (show a) ++ brackets TK_L_PAREN (separate (map (fun e => initializer e (show e)) es)) TK_R_PAREN
  | EMember a n arrow => operand 15 a (show a) ++ [TKey (if arrow then TK_ARROW else TK_PERIOD); TIdent n]
  | EUnary UN_POSTINC a => operand 15 a (show a) ++ [TKey TK_PLUS_PLUS]
  | EUnary UN_POSTDEC a => operand 15 a (show a) ++ [TKey TK_MINUS_MINUS]
  | EUnary op a => TKey (match prefix_token op with Some k => k | None => 0 end) :: operand 14 a (show a)
  | EBinary op a b =>
      let p := op_level op in
      (if p =? 2 then operand 14 a (show a) else operand p a (show a))
        ++ TKey (op_token op) :: (if p =? 2 then initializer b (show b) else operand (p + 1) b (show b))
  | ETernary c a b => operand 4 c (show c) ++ TKey TK_QUESTION :: initializer a (show a) ++ TKey TK_COLON :: operand 3 b (show b)
  | EInit es => brackets TK_L_BRACE (separate (map (fun e => initializer e (show e)) es)) TK_R_BRACE
  | EBroken => []
  end.
(** The expressions that can be written: braced lists are not empty and stand
    only where C has initializers; integers fit in 64 bits. *)
Fixpoint writable (braces : bool) (e : expr) : Prop :=
  let all := fix all l := match l with [] => True | e :: l => writable true e /\ all l end in
  match e with
  | EIdent _ | EChar _ | EFloat _ | EString _ | ENull | EBool _ => True
  | EInt v => - 2 ^ 63 <= v < 2 ^ 63
  | ESubscript a i => writable false a /\ writable false i
  | ECall a es => writable false a /\ all es
  | EMember a _ _ | EUnary _ a => writable false a
  | EBinary op a b => writable false a /\ writable (op_level op =? 2) b
  | ETernary c a b => writable false c /\ writable true a /\ writable false b
  | EInit es => braces = true /\ es <> [] /\ all es
  | EBroken => False
  end.

(** ** Error recovery *)

(** Brackets as the recovery sees them: [? :] counts as a pair. *)
Inductive pair : Z -> Z -> Prop :=
| pr_paren : pair TK_L_PAREN TK_R_PAREN | pr_square : pair TK_L_SQUARE TK_R_SQUARE
| pr_brace : pair TK_L_BRACE TK_R_BRACE | pr_question : pair TK_QUESTION TK_COLON.
Definition bracket (k : Z) : Prop := exists c, pair k c \/ pair c k.
(** The tokens a set can name, and a set of them. *)
Definition stopper (T k : Z) : Prop := In k [TK_R_PAREN; TK_R_SQUARE; TK_R_BRACE; TK_COLON; TK_SEMICOLON] /\ Z.land T k <> 0.
(** A text with matched brackets. *)
Inductive balanced : list tok -> Prop :=
| b_nil : balanced []
| b_plain x t : kind x <> TK_EOF -> ~ bracket (kind x) -> balanced t -> balanced (x :: t)
| b_group k c u t : pair k c -> balanced u -> balanced t -> balanced (TKey k :: u ++ TKey c :: t).
(** A text with matched brackets and no token of [T] outside of them. *)
Inductive before (T : Z) : list tok -> Prop :=
| f_nil : before T []
| f_plain x t : kind x <> TK_EOF -> ~ bracket (kind x) -> ~ stopper T (kind x) -> before T t -> before T (x :: t)
| f_group k c u t : pair k c -> balanced u -> before T t -> before T (TKey k :: u ++ TKey c :: t).
(** The same where no group has a closing bracket of the set in force around
    it. *)
Inductive flat (T : Z) : list tok -> Prop :=
| fl_nil : flat T []
| fl_plain x t : kind x <> TK_EOF -> ~ bracket (kind x) -> ~ stopper T (kind x) -> flat T t -> flat T (x :: t)
| fl_group k c u t : pair k c -> ~ stopper T c -> flat c u -> flat T t -> flat T (TKey k :: u ++ TKey c :: t).
Definition recover (T : Z) (l : list tok) : option (list tok) := skip_until (2 * length l + 1) T l.

(** Model of the parser of statements (libs/compiler/parser.c:717-753,
    1303-1839).

    The symbol table is an abstract environment: [enter] and [leave] stand for
    [scope_block_enter] and [scope_block_exit] (IdentModel.v has them in full),
    [type_name] for [ident_is_type_specifier] of the name's reference, and
    [declaration] for [parse_declaration] (parser.c:1247-1290), which gets the
    tokens and the errors so far.  [correct] and [constant] say if the node the
    builder makes of an expression, or of a constant expression, is not broken;
    when it is broken, at least one error has been reported by then (by the
    parser or by the builder).  The checks [build_condition], [build_case_statement]
    and the like make on finished nodes are left out: they can add errors, but
    the parser does not look at their result. *)
From Verif Require Import Prelude LexModel ParseModel ParseSpec.

Inductive init_of_for (D : Type) := NoInit | InitExpr (e : expr) | InitDecl (d : D).
Arguments NoInit {D}. Arguments InitExpr {D}. Arguments InitDecl {D}.
(** The arguments of the [build_..._statement] calls; a broken condition is
    [EBroken]. *)
Inductive stmt (D : Type) :=
| SCase (e : expr) (body : stmt D) | SDefault (body : stmt D) | SBlock (items : list (stmt D)) | SNull
| SIf (c : expr) (a : stmt D) (b : option (stmt D)) | SSwitch (c : expr) (body : stmt D)
| SWhile (c : expr) (body : stmt D) | SDo (body : stmt D) (c : expr)
| SFor (i : init_of_for D) (c n : option expr) (body : stmt D)
| SContinue | SBreak | SReturn (e : option expr) | SExpr (e : expr) | SDecl (d : D) | SBroken.
Arguments SCase {D}. Arguments SDefault {D}. Arguments SBlock {D}. Arguments SNull {D}. Arguments SIf {D}. Arguments SSwitch {D}.
Arguments SWhile {D}. Arguments SDo {D}. Arguments SFor {D}. Arguments SContinue {D}. Arguments SBreak {D}. Arguments SReturn {D}.
Arguments SExpr {D}. Arguments SDecl {D}. Arguments SBroken {D}.

(** libs/compiler/parser.c:32-44 [parser]: the fields the statements use. *)
Record ps (E : Type) := mkPs { p_s : st; p_env : E; p_loop : bool; p_switch : bool; p_return : bool }.
Arguments mkPs {E}. Arguments p_s {E}. Arguments p_env {E}. Arguments p_loop {E}. Arguments p_switch {E}. Arguments p_return {E}.

Section Statements.
Variables E D : Type.
Variables enter leave : E -> E.
Variable type_name : E -> Z -> bool.
Variable declaration : E -> st -> option (D * (st * E)).
Variables correct constant : E -> expr -> bool.
Notation ps := (ps E).
Notation stmt := (stmt D).

Definition with_s (p : ps) (s : st) : ps := mkPs s (p_env p) (p_loop p) (p_switch p) (p_return p).
Definition with_env (p : ps) (e : E) : ps := mkPs (p_s p) e (p_loop p) (p_switch p) (p_return p).
Definition with_loop (p : ps) (b : bool) : ps := mkPs (p_s p) (p_env p) b (p_switch p) (p_return p).
Definition with_switch (p : ps) (b : bool) : ps := mkPs (p_s p) (p_env p) (p_loop p) b (p_return p).
Definition with_return (p : ps) : ps := mkPs (p_s p) (p_env p) (p_loop p) (p_switch p) true.
Definition toks (p : ps) : list tok := fst (p_s p).
Definition pis (p : ps) (k : Z) : bool := is (p_s p) k.
Definition pconsume (p : ps) : ps := with_s p (consume (p_s p)).
Definition perror (p : ps) : ps := with_s p (error (p_s p)).
Definition ptry (p : ps) (k : Z) : bool * ps := if pis p k then (true, pconsume p) else (false, p).
Definition pexpect (p : ps) (k : Z) : ps := with_s p (expect_and_consume (p_s p) k).
Definition pskip (T : Z) (p : ps) : option ps := do l <- recover T (toks p); Some (with_s p (l, snd (p_s p))).

(** [parse_expression] and [node_is_correct] on its result. *)
Definition built (ok : bool) (before after : st) : st := if ok then after else (fst after, Z.max (snd after) (snd before + 1)).
Definition read_expression (p : ps) : option (expr * bool * ps) :=
  do ' (e, s) <- parse_expression (enough (toks p)) (p_s p);
  let ok := correct (p_env p) e in Some (e, ok, with_s p (built ok (p_s p) s)).
(** [parse_constant_expression] and [node_is_correct] on its result. *)
Definition read_constant (p : ps) : option (expr * bool * ps) :=
  do ' (e, s) <- parse_constant_expression (enough (toks p)) (p_s p);
  let ok := constant (p_env p) e in Some (e, ok, with_s p (built ok (p_s p) s)).

(** libs/compiler/parser.c:726-753 [parse_condition]. *)
Definition parse_condition (p : ps) : option (expr * ps) :=
  if negb (pis p TK_L_PAREN) then do p <- pskip TK_SEMICOLON (perror p); Some (EBroken, p)
  else
    do ' (e, ok, p) <- read_expression (pconsume p);
    if negb ok then do p <- pskip (Z.lor TK_R_PAREN TK_SEMICOLON) p; Some (EBroken, snd (ptry p TK_R_PAREN))
    else
      let '(closed, p) := ptry p TK_R_PAREN in
      if closed then Some (e, p) else do p <- pskip TK_SEMICOLON (perror p); Some (EBroken, p).

(** libs/compiler/parser.c:1303-1337 [is_declaration_specifier]. *)
Definition is_declaration_specifier (p : ps) : bool :=
  match toks p with
  | TIdent name :: _ => type_name (p_env p) name
  | l => existsb (Z.eqb (cur l)) [TK_VOID; TK_BOOL; TK_CHAR; TK_INT; TK_LONG; TK_FLOAT; TK_DOUBLE; TK_STRUCT; TK_ENUM; TK_FILE; TK_TYPEDEF; TK_CONST]
  end.
Definition parse_declaration (p : ps) : option (D * ps) :=
  do ' (d, (s, e)) <- declaration (p_env p) (p_s p); Some (d, with_env (with_s p s) e).

Section One.
(** The statements inside are parsed by [parse_statement]. *)
Variable parse_statement : ps -> option (stmt * ps).

Definition broken_after (T : Z) (p : ps) : option (stmt * ps) := do p <- pskip T p; Some (SBroken, p).

(** libs/compiler/parser.c:1348-1371. *)
Definition parse_case_statement (p : ps) : option (stmt * ps) :=
  let p := pconsume p in
  if negb (p_switch p) then broken_after TK_SEMICOLON (perror p)
  else
    do ' (e, ok, p) <- read_constant p;
    if negb ok then broken_after (Z.lor TK_SEMICOLON TK_R_BRACE) p
    else
      do ' (body, p) <- parse_statement (pexpect p TK_COLON);
      Some (SCase e body, p).
(** libs/compiler/parser.c:1383-1399. *)
Definition parse_default_statement (p : ps) : option (stmt * ps) :=
  let p := pconsume p in
  if negb (p_switch p) then broken_after TK_SEMICOLON (perror p)
  else
    do ' (body, p) <- parse_statement (pexpect p TK_COLON);
    Some (SDefault body, p).
(** libs/compiler/parser.c:1424-1429, the loop; [fuel] bounds its rounds. *)
Fixpoint parse_items (fuel : nat) (p : ps) : option (list stmt * ps) :=
  match fuel with
  | O => None
  | S fuel =>
      if pis p TK_R_BRACE || pis p TK_EOF then Some ([], p)
      else
        do ' (x, p) <- (if is_declaration_specifier p then do ' (d, p) <- parse_declaration p; Some (SDecl d, p) else parse_statement p);
        do ' (xs, p) <- parse_items fuel p;
        Some (x :: xs, p)
  end.
(** libs/compiler/parser.c:1419-1442. *)
Definition parse_compound_statement_body (p : ps) : option (stmt * ps) :=
  let p := pconsume p in
  do ' (xs, p) <- parse_items (S (length (toks p))) p;
  if negb (pis p TK_R_BRACE) then Some (SBroken, perror p)
  else Some (SBlock xs, pconsume p).
(** libs/compiler/parser.c:1451-1458. *)
Definition parse_compound_statement (p : ps) : option (stmt * ps) :=
  let p := with_env p (enter (p_env p)) in
  do ' (x, p) <- parse_compound_statement_body p;
  Some (x, with_env p (leave (p_env p))).
(** libs/compiler/parser.c:1470-1481. *)
Definition parse_expression_statement (p : ps) : option (stmt * ps) :=
  do ' (e, ok, p) <- read_expression p;
  if negb ok then broken_after TK_SEMICOLON p else Some (SExpr e, pexpect p TK_SEMICOLON).
(** libs/compiler/parser.c:1494-1509. *)
Definition parse_if_statement (p : ps) : option (stmt * ps) :=
  do ' (c, p) <- parse_condition (pconsume p);
  do ' (a, p) <- parse_statement p;
  let '(has_else, p) := ptry p TK_ELSE in
  if has_else then do ' (b, p) <- parse_statement p; Some (SIf c a (Some b), p) else Some (SIf c a None, p).
(** libs/compiler/parser.c:1521-1534. *)
Definition parse_switch_statement (p : ps) : option (stmt * ps) :=
  do ' (c, p) <- parse_condition (pconsume p);
  let old := p_switch p in
  do ' (body, p) <- parse_statement (with_switch p true);
  Some (SSwitch c body, with_switch p old).
(** libs/compiler/parser.c:1546-1559. *)
Definition parse_while_statement (p : ps) : option (stmt * ps) :=
  do ' (c, p) <- parse_condition (pconsume p);
  let old := p_loop p in
  do ' (body, p) <- parse_statement (with_loop p true);
  Some (SWhile c body, with_loop p old).
(** libs/compiler/parser.c:1571-1592. *)
Definition parse_do_statement (p : ps) : option (stmt * ps) :=
  let p := pconsume p in
  let old := p_loop p in
  do ' (body, p) <- parse_statement (with_loop p true);
  let p := with_loop p old in
  let '(has_while, p) := ptry p TK_WHILE in
  if negb has_while then broken_after TK_SEMICOLON (perror p)
  else
    do ' (c, p) <- parse_condition p;
    Some (SDo body c, pexpect p TK_SEMICOLON).

(** libs/compiler/parser.c:1605-1694: the parts of [parse_for_statement] up to
    the body; [inr] for an early [return node_broken()], which leaves the scope
    open. *)
Definition stop_for {A} (p : ps) : option ((A * ps) + (stmt * ps)) := do r <- broken_after TK_SEMICOLON p; Some (inr r).
Definition parse_for_init (p : ps) : option ((init_of_for D * ps) + (stmt * ps)) :=
  let '(empty, p) := ptry p TK_SEMICOLON in
  if empty then Some (inl (NoInit, p))
  else if is_declaration_specifier p then do ' (d, p) <- parse_declaration p; Some (inl (InitDecl d, p))
  else
    do ' (e, ok, p) <- read_expression p;
    if negb ok then stop_for p
    else
      let '(semi, p) := ptry p TK_SEMICOLON in
      if semi then Some (inl (InitExpr e, p)) else stop_for (perror p).
Definition parse_for_condition (p : ps) : option ((option expr * ps) + (stmt * ps)) :=
  let '(empty, p) := ptry p TK_SEMICOLON in
  if empty then Some (inl (None, p))
  else
    do ' (e, ok, p) <- read_expression p;
    if negb ok then stop_for p
    else
      let '(semi, p) := ptry p TK_SEMICOLON in
      if semi then Some (inl (Some e, p)) else stop_for (perror p).
Definition parse_for_increment (p : ps) : option ((option expr * ps) + (stmt * ps)) :=
  do r <-
    (if negb (pis p TK_R_PAREN) then
       do ' (e, ok, p) <- read_expression p;
       if negb ok then stop_for p else Some (inl (Some e, p))
     else Some (inl (None, p)));
  match r with
  | inr b => Some (inr b)
  | inl (n, p) =>
      let '(closed, p) := ptry p TK_R_PAREN in
      if closed then Some (inl (n, p)) else stop_for (perror p)
  end.
Definition parse_for_statement (p : ps) : option (stmt * ps) :=
  let p := pconsume p in
  let p := with_env p (enter (p_env p)) in
  if negb (pis p TK_L_PAREN) then broken_after TK_SEMICOLON (perror p)
  else
    do r <- parse_for_init (pconsume p);
    match r with
    | inr b => Some b
    | inl (i, p) =>
        do r <- parse_for_condition p;
        match r with
        | inr b => Some b
        | inl (c, p) =>
            do r <- parse_for_increment p;
            match r with
            | inr b => Some b
            | inl (n, p) =>
                let old := p_loop p in
                do ' (body, p) <- parse_statement (with_loop p true);
                let p := with_loop p old in
                Some (SFor i c n body, with_env p (leave (p_env p)))
            end
        end
    end.
(** libs/compiler/parser.c:1706-1720. *)
Definition parse_continue_statement (p : ps) : option (stmt * ps) :=
  let p := pconsume p in
  if negb (p_loop p) then broken_after TK_SEMICOLON (perror p)
  else Some (SContinue, pexpect p TK_SEMICOLON).
(** libs/compiler/parser.c:1732-1746. *)
Definition parse_break_statement (p : ps) : option (stmt * ps) :=
  let p := pconsume p in
  if negb (p_loop p || p_switch p) then broken_after TK_SEMICOLON (perror p)
  else Some (SBreak, pexpect p TK_SEMICOLON).
(** libs/compiler/parser.c:1758-1778. *)
Definition parse_return_statement (p : ps) : option (stmt * ps) :=
  let p := with_return (pconsume p) in
  let '(empty, p) := ptry p TK_SEMICOLON in
  if empty then Some (SReturn None, p)
  else
    do ' (e, ok, p) <- read_expression p;
    if ok then Some (SReturn (Some e), pexpect p TK_SEMICOLON) else broken_after TK_SEMICOLON p.
End One.

(** libs/compiler/parser.c:1795-1839. *)
Fixpoint parse_statement (fuel : nat) (p : ps) : option (stmt * ps) :=
  match fuel with
  | O => None
  | S fuel =>
      let parse := parse_statement fuel in
      if pis p TK_CASE then parse_case_statement parse p
      else if pis p TK_DEFAULT then parse_default_statement parse p
      else if pis p TK_L_BRACE then parse_compound_statement parse p
      else if pis p TK_SEMICOLON then Some (SNull, pconsume p)
      else if pis p TK_IF then parse_if_statement parse p
      else if pis p TK_SWITCH then parse_switch_statement parse p
      else if pis p TK_WHILE then parse_while_statement parse p
      else if pis p TK_DO then parse_do_statement parse p
      else if pis p TK_FOR then parse_for_statement parse p
      else if pis p TK_CONTINUE then parse_continue_statement p
      else if pis p TK_BREAK then parse_break_statement p
      else if pis p TK_RETURN then parse_return_statement p
      else parse_expression_statement p
  end.
End Statements.

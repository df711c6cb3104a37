(** The texts of statements the parser takes without a message: as StmtSpec.v,
    but with the expressions [agram] (ParseSpec.v) the parser takes, and with
    texts of declarations [dtext env d t env'] as a parameter. *)
From Verif Require Import Prelude LexModel ParseModel ParseSpec StmtModel StmtSpec.

Section Accept.
Variables E D : Type.
Variables enter leave : E -> E.
Variable type_name : E -> Z -> bool.
Variable dtext : E -> D -> list tok -> E -> Prop.
Variables correct constant : E -> expr -> bool.

Definition aexpr (env : E) (e : expr) (t : list tok) : Prop := agram 1 false e t /\ correct env e = true.
Definition aopt (env : E) (e : option expr) (t : list tok) : Prop := match e with None => t = [] | Some e => aexpr env e t end.
(** The first part of a [for], with its semicolon. *)
Inductive aitext : E -> init_of_for D -> list tok -> E -> Prop :=
| ai_none env : aitext env NoInit [TKey TK_SEMICOLON] env
| ai_expr env e t : aexpr env e t -> aitext env (InitExpr e) (t ++ [TKey TK_SEMICOLON]) env
| ai_decl env d t env' : dtext env d t env' -> aitext env (InitDecl d) t env'.
(** [astext env x t env']: [t] is a text of the statement [x] in [env]; [env']
    is the environment after it. *)
Inductive astext : E -> stmt D -> list tok -> E -> Prop :=
| as_case env e t b u env' : agram 3 false e t -> constant env e = true -> astext env b u env' -> astext env (SCase e b) (TKey TK_CASE :: t ++ TKey TK_COLON :: u) env'
| as_default env b u env' : astext env b u env' -> astext env (SDefault b) (TKey TK_DEFAULT :: TKey TK_COLON :: u) env'
| as_block env xs t env' : asitems (enter env) xs t env' -> astext env (SBlock xs) (TKey TK_L_BRACE :: t ++ [TKey TK_R_BRACE]) (leave env')
| as_null env : astext env SNull [TKey TK_SEMICOLON] env
| as_if env c t a u env' : aexpr env c t -> astext env a u env' -> astext env (SIf c a None) (TKey TK_IF :: in_parens t ++ u) env'
| as_if_else env c t a u env1 b v env' : aexpr env c t -> astext env a u env1 -> dangling a = false -> astext env1 b v env' ->
    astext env (SIf c a (Some b)) (TKey TK_IF :: in_parens t ++ u ++ TKey TK_ELSE :: v) env'
| as_switch env c t b u env' : aexpr env c t -> astext env b u env' -> astext env (SSwitch c b) (TKey TK_SWITCH :: in_parens t ++ u) env'
| as_while env c t b u env' : aexpr env c t -> astext env b u env' -> astext env (SWhile c b) (TKey TK_WHILE :: in_parens t ++ u) env'
| as_do env c t b u env' : astext env b u env' -> aexpr env' c t -> astext env (SDo b c) (TKey TK_DO :: u ++ TKey TK_WHILE :: in_parens t ++ [TKey TK_SEMICOLON]) env'
| as_for env i t env1 c u n v b w env' : aitext (enter env) i t env1 -> aopt env1 c u -> aopt env1 n v -> astext env1 b w env' ->
    astext env (SFor i c n b) (TKey TK_FOR :: TKey TK_L_PAREN :: t ++ u ++ TKey TK_SEMICOLON :: v ++ TKey TK_R_PAREN :: w) (leave env')
| as_continue env : astext env SContinue [TKey TK_CONTINUE; TKey TK_SEMICOLON] env
| as_break env : astext env SBreak [TKey TK_BREAK; TKey TK_SEMICOLON] env
| as_return env e t : aopt env e t -> astext env (SReturn e) (TKey TK_RETURN :: t ++ [TKey TK_SEMICOLON]) env
| as_expr env e t : aexpr env e t -> astext env (SExpr e) (t ++ [TKey TK_SEMICOLON]) env
with asitems : E -> list (stmt D) -> list tok -> E -> Prop :=
| ai_nil env : asitems env [] [] env
| ai_stmt env x t env1 xs u env' : astext env x t env1 -> asitems env1 xs u env' -> asitems env (x :: xs) (t ++ u) env'
| ai_dec env d t env1 xs u env' : dtext env d t env1 -> asitems env1 xs u env' -> asitems env (SDecl d :: xs) (t ++ u) env'.
End Accept.

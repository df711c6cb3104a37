(** What statements mean as texts, and where jumps may stand. *)
From Verif Require Import Prelude LexModel ParseModel ParseSpec StmtModel.

(** [jumps_ok loop switch x]: in [x], which stands inside a loop if [loop] and
    inside a switch if [switch], every continue is inside a loop, every break
    inside a loop or a switch, every case and default inside a switch. *)
Fixpoint jumps_ok {D} (loop switch : bool) (x : stmt D) : bool :=
  match x with
  | SContinue => loop
  | SBreak => loop || switch
  | SCase _ b | SDefault b => switch && jumps_ok loop switch b
  | SBlock l => (fix all l := match l with [] => true | x :: l => jumps_ok loop switch x && all l end) l
  | SIf _ a None => jumps_ok loop switch a
  | SIf _ a (Some b) => jumps_ok loop switch a && jumps_ok loop switch b
  | SSwitch _ b => jumps_ok loop true b
  | SWhile _ b | SDo b _ | SFor _ _ _ b => jumps_ok true switch b
  | SNull | SReturn _ | SExpr _ | SDecl _ | SBroken => true
  end.
(** A statement that a following [else] would continue. *)
Fixpoint dangling {D} (x : stmt D) : bool :=
  match x with
  | SIf _ _ None => true
  | SIf _ _ (Some b) | SCase _ b | SDefault b | SSwitch _ b | SWhile _ b | SFor _ _ _ b => dangling b
  | _ => false
  end.
Fixpoint has_return {D} (x : stmt D) : bool :=
  match x with
  | SReturn _ => true
  | SCase _ b | SDefault b | SSwitch _ b | SWhile _ b | SDo b _ | SFor _ _ _ b => has_return b
  | SBlock l => (fix any l := match l with [] => false | x :: l => has_return x || any l end) l
  | SIf _ a None => has_return a
  | SIf _ a (Some b) => has_return a || has_return b
  | _ => false
  end.

Section Texts.
Variables E D : Type.
Variables enter leave : E -> E.
Variable type_name : E -> Z -> bool.
Variable declaration : E -> st -> option (D * (st * E)).
Variables correct constant : E -> expr -> bool.

(** The first token starts a declaration. *)
Definition declares (env : E) (l : list tok) : bool :=
  match l with
  | TIdent name :: _ => type_name env name
  | l => existsb (Z.eqb (cur l)) [TK_VOID; TK_BOOL; TK_CHAR; TK_INT; TK_LONG; TK_FLOAT; TK_DOUBLE; TK_STRUCT; TK_ENUM; TK_FILE; TK_TYPEDEF; TK_CONST]
  end.
(** [t] is a text of the declaration [d], whatever follows. *)
Definition decl_text (env : E) (d : D) (t : list tok) (env' : E) : Prop :=
  declares env t = true /\ forall rest errors, declaration env (t ++ rest, errors) = Some (d, ((rest, errors), env')).
Definition keys (l : list Z) : list tok := map TKey l.
Definition in_parens (t : list tok) : list tok := TKey TK_L_PAREN :: t ++ [TKey TK_R_PAREN].
Definition opt_text (env : E) (e : option expr) (t : list tok) : Prop :=
  match e with None => t = [] | Some e => gram 1 e t /\ correct env e = true end.

(** The first part of a [for], with its semicolon. *)
Inductive itext : E -> init_of_for D -> list tok -> E -> Prop :=
| ti_none env : itext env NoInit [TKey TK_SEMICOLON] env
| ti_expr env e t : gram 1 e t -> correct env e = true -> declares env t = false -> itext env (InitExpr e) (t ++ [TKey TK_SEMICOLON]) env
| ti_for_decl env d t env' : decl_text env d t env' -> itext env (InitDecl d) t env'.
(** [stext env x t env']: [t] is a text of the statement [x] in [env]; [env']
    is the environment after it. *)
Inductive stext : E -> stmt D -> list tok -> E -> Prop :=
| t_case env e t b u env' : gram 3 e t -> constant env e = true -> stext env b u env' -> stext env (SCase e b) (TKey TK_CASE :: t ++ TKey TK_COLON :: u) env'
| t_default env b u env' : stext env b u env' -> stext env (SDefault b) (TKey TK_DEFAULT :: TKey TK_COLON :: u) env'
| t_block env xs t env' : sitems (enter env) xs t env' -> stext env (SBlock xs) (TKey TK_L_BRACE :: t ++ [TKey TK_R_BRACE]) (leave env')
| t_null env : stext env SNull [TKey TK_SEMICOLON] env
| t_if env c t a u env' : gram 1 c t -> correct env c = true -> stext env a u env' -> stext env (SIf c a None) (TKey TK_IF :: in_parens t ++ u) env'
| t_if_else env c t a u env1 b v env' : gram 1 c t -> correct env c = true -> stext env a u env1 -> dangling a = false -> stext env1 b v env' ->
    stext env (SIf c a (Some b)) (TKey TK_IF :: in_parens t ++ u ++ TKey TK_ELSE :: v) env'
| t_switch env c t b u env' : gram 1 c t -> correct env c = true -> stext env b u env' -> stext env (SSwitch c b) (TKey TK_SWITCH :: in_parens t ++ u) env'
| t_while env c t b u env' : gram 1 c t -> correct env c = true -> stext env b u env' -> stext env (SWhile c b) (TKey TK_WHILE :: in_parens t ++ u) env'
| t_do env c t b u env' : stext env b u env' -> gram 1 c t -> correct env' c = true -> stext env (SDo b c) (TKey TK_DO :: u ++ TKey TK_WHILE :: in_parens t ++ [TKey TK_SEMICOLON]) env'
| t_for env i t env1 c u n v b w env' : itext (enter env) i t env1 -> opt_text env1 c u -> opt_text env1 n v -> stext env1 b w env' ->
    stext env (SFor i c n b) (TKey TK_FOR :: TKey TK_L_PAREN :: t ++ u ++ TKey TK_SEMICOLON :: v ++ TKey TK_R_PAREN :: w) (leave env')
| t_continue env : stext env SContinue [TKey TK_CONTINUE; TKey TK_SEMICOLON] env
| t_break env : stext env SBreak [TKey TK_BREAK; TKey TK_SEMICOLON] env
| t_return env e t : opt_text env e t -> stext env (SReturn e) (TKey TK_RETURN :: t ++ [TKey TK_SEMICOLON]) env
| t_expr env e t : gram 1 e t -> correct env e = true -> stext env (SExpr e) (t ++ [TKey TK_SEMICOLON]) env
with sitems : E -> list (stmt D) -> list tok -> E -> Prop :=
| ti_nil env : sitems env [] [] env
| ti_stmt env x t env1 xs u env' : stext env x t env1 -> declares env t = false -> sitems env1 xs u env' -> sitems env (x :: xs) (t ++ u) env'
| ti_decl env d t env1 xs u env' : decl_text env d t env1 -> sitems env1 xs u env' -> sitems env (SDecl d :: xs) (t ++ u) env'.
Scheme stext_ind3 := Minimality for stext Sort Prop
with sitems_ind3 := Minimality for sitems Sort Prop.
Combined Scheme stext_mutual from stext_ind3, sitems_ind3.
End Texts.

(** Storage of variables, independently of how it is given out: which variables
    are visible at the points of a function, and when cells overlap. *)
From Verif Require Import Prelude LVec TypesModel TypesSpec LexModel ParseModel InstrModel BuildModel CodeModel.

(** The variables a list of declarations declares. *)
Definition names (ds : list decl) : list Z := flat_map (fun d => match d with DVar id _ _ => [id] | DStruct _ _ => [] end) ds.
(** The variables visible after a statement, where [scope] is visible before:
    declarations are visible to the end of the block; a label belongs to the
    statement behind it. *)
Fixpoint after (scope : list Z) (s : stmt) : list Z :=
  match s with
  | SDecl ds => scope ++ names ds
  | SCase _ s | SDefault s => after scope s
  | _ => scope
  end.
(** The visible variables at every point of a statement. *)
Definition opt {A B} (f : A -> list B) (o : option A) : list B := match o with Some a => f a | None => [] end.
Fixpoint points (scope : list Z) (s : stmt) {struct s} : list (list Z) :=
  let fix block (scope : list Z) (ss : list stmt) : list (list Z) :=
    match ss with [] => [] | s :: ss => points scope s ++ block (after scope s) ss end in
  scope :: match s with
  | SDecl ds => [scope ++ names ds]
  | SCase _ s | SDefault s => points scope s
  | SCompound ss => block scope ss
  | SIf _ s other => points scope s ++ opt (points scope) other
  | SSwitch _ s | SWhile _ s | SDo s _ => points scope s
  | SFor init _ _ body => opt (points scope) init ++ points (match init with Some s => after scope s | None => scope end) body
  | _ => []
  end.

(** All variables declared in a statement. *)
Fixpoint declared (s : stmt) : list Z :=
  match s with
  | SDecl ds => names ds
  | SCase _ s | SDefault s | SSwitch _ s | SWhile _ s | SDo s _ => declared s
  | SCompound ss => flat_map declared ss
  | SIf _ s other => declared s ++ opt declared other
  | SFor init _ _ body => opt declared init ++ declared body
  | _ => []
  end.

(** The names which are called. *)
Fixpoint calls (n : node) : list Z :=
  match n with
  | NIdent _ _ | NLit _ _ | NBroken => []
  | NSubscript _ a b | NBinary _ _ a b | NAssign _ _ a b => calls a ++ calls b
  | NCall _ f args => get_id f :: flat_map calls args
  | NMember _ _ _ _ a | NCast _ _ a | NUnary _ _ _ a => calls a
  | NTernary _ a b d => calls a ++ calls b ++ calls d
  | NInit _ es => flat_map calls es
  end.
Fixpoint member_calls (m : smember) : list Z :=
  match m with MField _ bs => flat_map calls bs | MStruct _ ms => flat_map member_calls ms end.
Definition decl_calls (d : decl) : list Z :=
  match d with
  | DVar _ bs init => flat_map (opt calls) bs ++ opt calls init
  | DStruct _ ms => flat_map member_calls ms
  end.
Fixpoint stmt_calls (s : stmt) : list Z :=
  match s with
  | SDecl ds => flat_map decl_calls ds
  | SCase x s | SSwitch x s | SWhile x s | SDo s x => calls x ++ stmt_calls s
  | SDefault s => stmt_calls s
  | SCompound ss => flat_map stmt_calls ss
  | SExpr x => calls x
  | SIf x s other => calls x ++ stmt_calls s ++ opt stmt_calls other
  | SFor init x next body => opt stmt_calls init ++ opt calls x ++ opt calls next ++ stmt_calls body
  | SReturn x => opt calls x
  | SNull | SContinue | SBreak => []
  end.

(** The cells of a variable: [first, first + size).  A list of variables is
    packed between two bounds when they lie there and no two of them overlap. *)
Definition apart (first size : Z -> Z) (x y : Z) : Prop := first x + size x <= first y \/ first y + size y <= first x.
Inductive packed (first size : Z -> Z) (lo hi : Z) : list Z -> Prop :=
| packed_nil : packed first size lo hi []
| packed_cons x l : lo <= first x -> first x + size x <= hi -> Forall (apart first size x) l -> packed first size lo hi l ->
    packed first size lo hi (x :: l).

(** The cells a compiled program uses for a variable: the frame of a function and
    the global storage both count upwards, global displacements are negative. *)
Definition first_cell (e : enc) (id : Z) : Z := Z.abs (displacements_get e id).
Definition cells_of (c : ctx) (id : Z) : Z := size_of (c_type c id).

(** The functions and variables of a whole program. *)
Definition top_names (d : topdecl) : list Z :=
  match d with TopDecl d => names [d] | TopFunc id params body => id :: params ++ declared body end.
Definition top_calls (d : topdecl) : list Z :=
  match d with TopDecl d => decl_calls d | TopFunc _ _ body => stmt_calls body end.
Definition globals (d : topdecl) : list Z := match d with TopDecl d => names [d] | TopFunc _ _ _ => [] end.

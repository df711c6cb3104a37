(** A program's declarations and scopes carried out on the identifier table. *)
From Verif Require Import Prelude TypesModel IdentModel IdentSpec.

(** The parser keeps what the scopes returned on its stack. *)
Inductive saved := SBlock (scp : scope) | SFunc (displ : Z).
Record world := mkWorld { w_sx : idents; w_saved : list saved }.

(** The calls of [ident_add]: builder.c:1191 and 1266, parser.c:881, 1060, 1151,
    2073 and 2164, syntax.c:159. *)
Definition declare (s : idents) (t : types) (x : Z) (d : decl) : option (Z * idents) :=
  match d with
  | DVariable ty => ident_add t s x 0 ty 3
  | DParameter ty => ident_add t s x 0 ty 1
  | DFunParameter ty => ident_add t s x (-1) ty 1
  | DType how ty => ident_add t s x 1000 ty how
  | DConstant how ty v => enum_constant_add t s x ty v how
  | DFunction n ty => do ' (id, s) <- ident_add t s x n ty 1; Some (id, snd (function_definition s id))
  | DPrototype n ty => ident_add t s x n ty 2
  end.

Definition exec (w : world) (o : op) : option (Z * world) :=
  match o with
  | Declare t x d => do ' (id, s) <- declare (w_sx w) t x d; Some (id, mkWorld s (w_saved w))
  | Spelling x y => Some (0, mkWorld (spelling_add (w_sx w) y (repr_get_reference (w_sx w) x)) (w_saved w))
  | EnterFunction =>
      let (d, s) := scope_func_enter (w_sx w) in Some (0, mkWorld s (SFunc d :: w_saved w))
  | LeaveFunction =>
      match w_saved w with
      | SFunc d :: sv => do ' (r, s) <- scope_func_exit (w_sx w) d; Some (r, mkWorld s sv)
      | _ => None
      end
  | EnterBlock =>
      let (scp, s) := scope_block_enter (w_sx w) in Some (0, mkWorld s (SBlock scp :: w_saved w))
  | LeaveBlock =>
      match w_saved w with
      | SBlock scp :: sv => do s <- scope_block_exit (w_sx w) scp; Some (0, mkWorld s sv)
      | _ => None
      end
  end.

Fixpoint run (w : world) (ops : list op) : option world :=
  match ops with
  | [] => Some w
  | o :: ops => do ' (_, w) <- exec w o; run w ops
  end.
Definition initial (K : Z -> Z) : world := mkWorld (ident_create K) [].

(** What a program's declarations and scopes mean, independently of the
    identifier table. *)
From Verif Require Import Prelude TypesModel.

(** A declaration of the language. *)
Inductive decl :=
| DVariable (type : Z)                 (* a variable *)
| DParameter (type : Z)                (* a parameter *)
| DFunParameter (type : Z)             (* a parameter that is a function *)
| DType (how type : Z)                 (* a struct, enum or typedef name *)
| DConstant (how type value : Z)       (* a constant of an enum *)
| DFunction (number type : Z)          (* a function with its body *)
| DPrototype (number type : Z).        (* a function without a body *)

(** What a program does, in order.  The table of types at that moment comes with
    a declaration.  [Spelling x y]: the built-in function [x] has another
    spelling [y]. *)
Inductive op :=
| Declare (t : types) (x : Z) (d : decl)
| Spelling (x y : Z)
| EnterFunction | LeaveFunction | EnterBlock | LeaveBlock.

(** A scope: its names, newest first, each with the number of its identifier and
    whether it is still only a prototype; and the memory its declarations
    take, newest first. *)
Inductive slot := Var (id size : Z) | Fun (id : Z) | Hole (size : Z).
Definition slot_size (v : slot) : Z := match v with Var _ n | Hole n => n | Fun _ => 1 end.
Record frame := mkFrame { f_names : list (Z * (Z * bool)); f_slots : list slot }.

(** An identifier that was declared. *)
Record note := mkNote { n_name : Z; n_decl : decl }.

(** A program so far: open scopes, innermost first, the last one is global;
    identifiers in the order of their declarations; the number of the
    identifier of [main]; everything that ever took memory in the current
    function. *)
Record program := mkProgram {
  p_frames : list frame; p_notes : list note; p_main : option Z; p_ever : list slot }.

Fixpoint assoc {A} (l : list (Z * A)) (x : Z) : option A :=
  match l with
  | [] => None
  | (y, v) :: l => if x =? y then Some v else assoc l x
  end.
(** The identifier a name stands for: the innermost scope that has it. *)
Fixpoint lookup (fs : list frame) (x : Z) : option (Z * bool) :=
  match fs with
  | [] => None
  | f :: fs => match assoc (f_names f) x with Some v => Some v | None => lookup fs x end
  end.

(** Identifiers are numbered 2, 6, 10, ... *)
Definition new_id (p : program) : Z := 2 + 4 * zlen (p_notes p).

Definition d_type (d : decl) : Z :=
  match d with DVariable t | DParameter t | DFunParameter t | DType _ t | DConstant _ t _ | DFunction _ t | DPrototype _ t => t end.
Definition is_prototype (d : decl) : bool := match d with DPrototype _ _ => true | _ => false end.
Definition is_function (d : decl) : bool := match d with DFunction _ _ => true | _ => false end.
Definition is_type (d : decl) : bool := match d with DType _ _ => true | _ => false end.

(** The value recorded with a declaration; for variables it is their place. *)
Definition d_value (d : decl) : option Z :=
  match d with
  | DType _ _ => Some 1000
  | DConstant _ _ v => Some v
  | DFunction n _ | DPrototype n _ => Some n
  | _ => None
  end.
(** The memory a declaration takes. *)
Definition d_slots (t : types) (d : decl) (id : Z) : list slot :=
  match d, type_size t (d_type d) with
  | (DVariable _ | DParameter _), Some n => [Var id n]
  | DConstant _ _ _, Some n => [Hole n]
  | DFunParameter _, _ => [Fun id]
  | _, _ => []
  end.

(** [K x]: what the name [x] stood for at first: ITEM_MAX nothing, 0 it is a
    spelling of [main], something negative for the other keywords. *)
Section Rules.
Variable K : Z -> Z.

(** The rules for a declaration of the name [x] in the innermost scope. *)
Inductive verdict := Accepted | Repeated | SecondMain.
Definition judge (p : program) (x : Z) (d : decl) : verdict :=
  if K x =? 0 then match p_main p with Some _ => SecondMain | None => Accepted end
  else
    match p_frames p with
    | [] => Accepted
    | f :: _ =>
        match assoc (f_names f) x with
        | None => Accepted
        | Some (_, proto) => if proto && is_function d then Accepted else Repeated
        end
    end.

(** The identifier of the prototype gets the number of its function. *)
Definition define (p : program) (x : Z) (d : decl) (notes : list note) : list note :=
  match d, lookup (p_frames p) x with
  | DFunction n _, Some (i, _) =>
      match znth notes ((i - 2) / 4) with
      | Some (mkNote y (DPrototype _ ty)) => zupd notes ((i - 2) / 4) (mkNote y (DPrototype n ty))
      | _ => notes
      end
  | _, _ => notes
  end.

(** The program after an accepted step. *)
Definition after (p : program) (o : op) : program :=
  match o with
  | Declare t x d =>
      let id := new_id p in
      let notes := define p x d (p_notes p ++ [mkNote x d]) in
      let main := if K x =? 0 then Some id else p_main p in
      match p_frames p with
      | [] => p
      | f :: fs =>
          let names := if K x =? 0 then f_names f else (x, (id, is_prototype d)) :: f_names f in
          mkProgram (mkFrame names (d_slots t d id ++ f_slots f) :: fs) notes main (d_slots t d id ++ p_ever p)
      end
  | Spelling x y =>
      match p_frames p, lookup (p_frames p) x with
      | f :: fs, Some v => mkProgram (mkFrame ((y, v) :: f_names f) (f_slots f) :: fs) (p_notes p) (p_main p) (p_ever p)
      | _, _ => p
      end
  | EnterFunction => mkProgram (mkFrame [] [] :: p_frames p) (p_notes p) (p_main p) []
  | EnterBlock => mkProgram (mkFrame [] [] :: p_frames p) (p_notes p) (p_main p) (p_ever p)
  | LeaveFunction | LeaveBlock => mkProgram (tl (p_frames p)) (p_notes p) (p_main p) (p_ever p)
  end.

(** The steps a parser takes.  A function is declared in the global scope; its
    number and its type are below 1000; the parameters come before anything
    else in the function; blocks are in functions; an enum constant or type in
    the global scope is not declared as part of a function definition; [main]
    has no prototype; a prototype and its definition have the same type. *)
Definition depth (p : program) : Z := zlen (p_frames p).
Definition only_parameters (p : program) : Prop :=
  match p_frames p with [f; _] => p_ever p = f_slots f | _ => False end.
Definition legal_decl (p : program) (t : types) (d : decl) : Prop :=
  match d with
  | DVariable ty => exists n, type_size t ty = Some n /\ 0 <= n
  | DParameter ty => depth p = 2 /\ exists n, type_size t ty = Some n /\ 0 <= n
  | DFunParameter _ => only_parameters p
  | DType how _ => depth p = 1 -> how <> 1
  | DConstant how ty _ => (depth p = 1 -> how <> 1) /\ exists n, type_size t ty = Some n /\ 0 <= n
  | DFunction n ty | DPrototype n ty => depth p = 1 /\ 1 < n < 1000 /\ ty < 1000
  end.
Definition legal (p : program) (o : op) : Prop :=
  match o with
  | Declare t x d => 0 < x /\ (K x = ITEM_MAX \/ K x = 0) /\ legal_decl p t d /\ new_id p + 4 < ITEM_MAX
      /\ (K x = 0 -> is_prototype d = false)
      /\ (forall n ty i b m, d = DFunction n ty -> K x <> 0 -> lookup (p_frames p) x = Some (i, b) ->
          znth (p_notes p) ((i - 2) / 4) = Some m -> d_type (n_decl m) = ty)
  | Spelling x y => depth p = 1 /\ 0 < y /\ K y = ITEM_MAX /\ lookup (p_frames p) y = None
      /\ exists i, lookup (p_frames p) x = Some (i, false)
  | EnterFunction => depth p = 1 /\ p_notes p <> []
  | LeaveFunction => depth p = 2
  | EnterBlock => 2 <= depth p
  | LeaveBlock => 3 <= depth p
  end.
Definition accepted (p : program) (o : op) : Prop :=
  match o with Declare _ x d => judge p x d = Accepted | _ => True end.

Definition start : program := mkProgram [mkFrame [] []] [] None [].

(** [story p ops q]: from [p] a correct program takes the steps [ops]. *)
Inductive story : program -> list op -> program -> Prop :=
| story_end p : story p [] p
| story_step p o ops q : legal p o -> accepted p o -> story (after p o) ops q -> story p (o :: ops) q.
End Rules.

(** Steps whose scopes are closed in the order they were opened. *)
Inductive balanced : list op -> Prop :=
| bal_nil : balanced []
| bal_declare t x d b : balanced b -> balanced (Declare t x d :: b)
| bal_block b c : balanced b -> balanced c -> balanced (EnterBlock :: b ++ LeaveBlock :: c)
| bal_function b c : balanced b -> balanced c -> balanced (EnterFunction :: b ++ LeaveFunction :: c).

(** The first cell of a variable, from what is recorded with identifiers: the
    value itself, or without its sign for a function parameter.  Global memory
    is counted by the value without its sign. *)
Definition cell (displ : Z -> Z) (v : slot) : option Z :=
  match v with Var id _ => Some (displ id) | Fun id => Some (- displ id) | Hole _ => None end.
Definition global_cell (displ : Z -> Z) (v : slot) : option Z :=
  match v with Var id _ => Some (- displ id) | Fun _ | Hole _ => None end.
Definition apart (at_ : slot -> option Z) (v u : slot) : Prop :=
  forall a b, at_ v = Some a -> at_ u = Some b -> a + slot_size v <= b \/ b + slot_size u <= a.
Definition within (at_ : slot -> option Z) (lo hi : Z) (v : slot) : Prop :=
  forall a, at_ v = Some a -> lo <= a /\ a + slot_size v <= hi.
(** Variables of the open scopes, without and with the global one. *)
Definition locals (p : program) : list slot := flat_map f_slots (removelast (p_frames p)).
Definition globals (p : program) : list slot := f_slots (last (p_frames p) (mkFrame [] [])).

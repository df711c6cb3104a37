(** Calls on a tree. *)
From Verif Require Import Prelude LVec TreeModel TreeSpec.
Local Open Scope Z_scope.

(** One call: its result and the cells after it.  [nop] is the type [node_set_child]
    gives the node that keeps the place, OP_NOP (libs/compiler/AST.c:30-35). *)
Definition tdo (nop : Z) (c : list Z) (op : top) : option (Z * list Z) :=
  match op with
  | TChild n i => Some (node_get_child c n i, c)
  | TParent n => do r <- node_get_parent c n; Some (r, c)
  | TType n => Some (node_get_type c n, c)
  | TArgc n => Some (node_get_argc c n, c)
  | TArg n i => Some (node_get_arg c n i, c)
  | TAmount n => Some (node_get_amount c n, c)
  | TNext n => do r <- node_get_next c n; Some (r, c)
  | TLoad n => Some (node_load c (node_save n), c)
  | TAddChild n ty => Some (node_add_child c n ty)
  | TAddArg n x => Some (node_add_arg c n x)
  | TSetType n ty => Some (node_set_type c n ty)
  | TSetArg n i x => Some (node_set_arg c n i x)
  | TInsert n ty argc => node_insert c n ty argc
  | TSwap a b => node_swap c a b
  | TOrder a b => node_order c a b
  | TRemove n => node_remove c n
  | TMove p n => do c <- node_set_child c nop p n; Some (0, c)
  end.

(** The most cells a call adds. *)
Definition t_room (op : top) : Z := match op with TInsert _ _ argc => 5 + argc | _ => 5 end.
(** The cells of a tree stay below 2^62. *)
Definition fits (c : list Z) (op : top) : Prop := zlen c + t_room op < 2 ^ 62.

(** The cells and the tree they stand for, after any calls. *)
Inductive treach (nop : Z) : list Z -> tree -> Prop :=
| treach_new : treach nop (snd (node_get_root [])) t_empty
| treach_step c t op r c' t' : treach nop c t -> tlegal t op -> fits c op -> tdo nop c op = Some (r, c') -> tspec t op r t' -> treach nop c' t'.

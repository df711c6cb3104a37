(** What an ordered tree is.  Nodes are numbers, the root is 0. *)
From Verif Require Import Prelude.
Local Open Scope Z_scope.

(** Children in order, type and arguments of every node.  [t_last] is the node made
    last, the one that may still be given more arguments; [None] after a removal. *)
Record tree := mkTree { t_kids : Z -> list Z; t_type : Z -> Z; t_args : Z -> list Z; t_last : option Z }.

(** [below f n m]: [m] is [n] or a descendant of [n]. *)
Inductive below (f : Z -> list Z) (n : Z) : Z -> Prop :=
| below_self : below f n n
| below_kid m k : below f n m -> In k (f m) -> below f n k.
(** The nodes of the tree. *)
Definition node_of (t : tree) (n : Z) : Prop := below (t_kids t) 0 n.

(** [walk f n l]: [l] lists [n] and everything below it in pre-order. *)
Inductive walk (f : Z -> list Z) : Z -> list Z -> Prop :=
| walk_node n ls : Forall2 (walk f) (f n) ls -> walk f n (n :: concat ls).

Definition upd {A} (f : Z -> A) (n : Z) (x : A) : Z -> A := fun m => if m =? n then x else f m.
(** One name in place of another, and two names exchanged. *)
Definition put (a b k : Z) : Z := if k =? a then b else k.
Definition exch (a b k : Z) : Z := if k =? a then b else if k =? b then a else k.

Definition t_empty : tree := mkTree (fun _ => []) (fun _ => 0) (fun _ => []) (Some 0).

Inductive top :=
| TChild (n i : Z) | TParent (n : Z) | TType (n : Z) | TArgc (n : Z) | TArg (n i : Z) | TAmount (n : Z) | TNext (n : Z) | TLoad (n : Z)
| TAddChild (n ty : Z) | TAddArg (n x : Z) | TSetType (n ty : Z) | TSetArg (n i x : Z)
| TInsert (n ty argc : Z) | TSwap (a b : Z) | TOrder (a b : Z) | TRemove (n : Z) | TMove (p n : Z).

(** Calls with a meaning: on nodes of the tree; arguments are added to the node made
    last, or refused; two nodes are exchanged when neither contains the other; the
    root stays where it is; a node is not moved below itself; "next" is asked of a
    tree with more than a root. *)
Definition tlegal (t : tree) (op : top) : Prop :=
  match op with
  | TChild n i | TArg n i => node_of t n /\ 0 <= i
  | TParent n | TType n | TArgc n | TAmount n | TLoad n | TAddChild n _ => node_of t n
  | TNext n => node_of t n /\ t_kids t 0 <> []
  | TSetType n _ => node_of t n
  | TSetArg n i _ => node_of t n /\ 0 <= i
  | TAddArg n _ => node_of t n /\ (t_last t = Some n \/ t_kids t n <> [])
  | TInsert n _ argc => node_of t n /\ n <> 0 /\ 0 <= argc
  | TSwap a b | TOrder a b => node_of t a /\ node_of t b /\ ~ below (t_kids t) a b /\ ~ below (t_kids t) b a
  | TRemove n => node_of t n /\ n <> 0
  | TMove p n => node_of t p /\ node_of t n /\ n <> 0 /\ ~ below (t_kids t) n p
  end.

Definition tspec (t : tree) (op : top) (r : Z) (t' : tree) : Prop :=
  let 'mkTree kids ty args last := t in
  match op with
  | TChild n i => r = nth (Z.to_nat i) (kids n) SIZE_MAX /\ t' = t
  | TParent n => (n = 0 /\ r = SIZE_MAX \/ In n (kids r) /\ node_of t r) /\ t' = t
  | TType n => r = (if n =? 0 then ITEM_MAX else ty n) /\ t' = t
  | TArgc n => r = zlen (args n) /\ t' = t
  | TArg n i => r = nth (Z.to_nat i) (args n) ITEM_MAX /\ t' = t
  | TAmount n => r = zlen (kids n) /\ t' = t
  | TNext n => (exists before after, walk kids 0 (before ++ n :: after) /\ r = hd SIZE_MAX after) /\ t' = t
  | TLoad n => r = n /\ t' = t
  | TAddChild n y => ~ node_of t r /\ t' = mkTree (upd (upd kids n (kids n ++ [r])) r []) (upd ty r y) (upd args r []) (Some r)
  | TAddArg n x =>
    match kids n with
    | [] => r = 0 /\ t' = mkTree kids ty (upd args n (args n ++ [x])) last
    | _ => r = -2 /\ t' = t
    end
  | TSetType n y => if n =? 0 then r = -2 /\ t' = t else r = 0 /\ t' = mkTree kids (upd ty n y) args last
  | TSetArg n i x => if i <? zlen (args n) then r = 0 /\ t' = mkTree kids ty (upd args n (zupd (args n) i x)) last else r = -1 /\ t' = t
  | TInsert n y argc => ~ node_of t r /\ t' = mkTree (upd (fun m => map (put n r) (kids m)) r [n]) (upd ty r y) (upd args r (repeat 0 (Z.to_nat argc))) (Some r)
  | TSwap a b => r = 0 /\ t' = mkTree (fun m => map (exch a b) (kids m)) ty args last
  | TOrder a b => r = 0 /\ t' = mkTree (fun m => map (exch a b) (kids (exch a b m))) ty args last
  | TRemove n => r = 0 /\ t' = mkTree (fun m => filter (fun k => negb (k =? n)) (kids m)) ty args None
  | TMove p n => r = 0 /\ exists f, t' = mkTree f ty args None
      /\ forall m, node_of t m -> f m = filter (fun k => negb (k =? n)) (kids m) ++ (if m =? p then [n] else [])
  end.

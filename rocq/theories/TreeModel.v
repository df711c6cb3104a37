(** Model of libs/utils/tree.c: an ordered tree inside one vector of integers, and
    of [node_set_child] in libs/compiler/AST.c.

    Simplifications.  The vector is the list of its cells (LVec.v, justified by
    C01): it is correct and memory does not run out.  A node is its index; SIZE_MAX
    is the broken node, the [tree] field is left out (all nodes are of one tree).
    Sizes stay below 2^63, so [to_negative] and [from_negative] are plain negation.
    [index - 2] wraps round for the root; both the wrapped index and the negative
    one lie outside the vector, where reading gives ITEM_MAX and writing does
    nothing.  [None] is a loop that does not end. *)
From Verif Require Import Prelude VectorSpec LVec.
Local Open Scope Z_scope.

Definition BROKEN : Z := SIZE_MAX.
(** libs/utils/tree.c:526-529 [node_is_correct]. *)
Definition node_is_correct (nd : Z) : bool := negb (nd =? BROKEN).

(** libs/utils/tree.c:20-33 [is_negative], [to_negative], [from_negative]. *)
Definition is_negative (v : Z) : bool := v <? 0.
Definition to_negative (v : Z) : Z := - v.
Definition from_negative (v : Z) : Z := - v.

(** libs/utils/tree.c:36-41 [vector_swap]. *)
Definition vector_swap (c : list Z) (i j : Z) : list Z :=
  let temp := lv_get c i in
  let c := lv_set c i (lv_get c j) in
  lv_set c j temp.

(** libs/utils/tree.c:44-62. *)
Definition ref_next (nd : Z) : Z := nd - 2.
Definition ref_amount (nd : Z) : Z := nd.
Definition ref_children (nd : Z) : Z := nd + 1.
Definition ref_argc (nd : Z) : Z := nd + 2.

(** libs/utils/tree.c:191-194 [node_get_amount]. *)
Definition node_get_amount (c : list Z) (nd : Z) : Z := if node_is_correct nd then lv_get c (ref_amount nd) else 0.
(** libs/utils/tree.c:171-174 [node_get_argc]. *)
Definition node_get_argc (c : list Z) (nd : Z) : Z := if node_is_correct nd then lv_get c (ref_argc nd) else 0.
(** libs/utils/tree.c:166-169 [node_get_type]. *)
Definition node_get_type (c : list Z) (nd : Z) : Z :=
  if node_is_correct nd && negb (nd =? 0) then lv_get c (nd - 1) else ITEM_MAX.
(** libs/utils/tree.c:176-179 [node_get_arg]; the double and int64 variants
    (181-189) are the same when [item_t] has 64 bits. *)
Definition node_get_arg (c : list Z) (nd i : Z) : Z :=
  if i <? node_get_argc c nd then lv_get c (ref_argc nd + 1 + i) else ITEM_MAX.

(** libs/utils/tree.c:101-106, the loop of [node_search_parent]. *)
Fixpoint search_loop (fuel : nat) (c : list Z) (index number : Z) : option (Z * Z) :=
  if negb (is_negative index) && negb (index =? 0) then
    match fuel with
    | O => None
    | S fuel => search_loop fuel c (lv_get c (index - 2)) (number + 1)
    end
  else Some (index, number).
(** libs/utils/tree.c:93-115 [node_search_parent]: the parent and the number of the
    node among its children. *)
Definition node_search_parent (c : list Z) (nd : Z) : option (Z * Z) :=
  if negb (node_is_correct nd) || (nd =? 0) then Some (BROKEN, 0)
  else
    do ' (index, number) <- search_loop (length c) c (lv_get c (ref_next nd)) 1;
    let parent := from_negative index in
    Some (parent, u64 (node_get_amount c parent - number)).
(** libs/utils/tree.c:160-163 [node_get_parent]. *)
Definition node_get_parent (c : list Z) (nd : Z) : option Z := option_map fst (node_search_parent c nd).

(** libs/utils/tree.c:127-141 [node_get_root]. *)
Definition node_get_root (c : list Z) : Z * list Z :=
  if zlen c =? 0 then (0, lv_increase c 3)
  else if (zlen c <? 3) || (lv_get c 2 <? 0) then (BROKEN, c)
  else (0, c).

(** libs/utils/tree.c:143-158 [node_get_child]. *)
Definition node_get_child (c : list Z) (nd index : Z) : Z :=
  if negb (node_is_correct nd) || (index >=? node_get_amount c nd) then BROKEN
  else Nat.iter (Z.to_nat index) (fun i => lv_get c (i - 2)) (lv_get c (ref_children nd)).

(** libs/utils/tree.c:208-212, the loop of [node_get_next]. *)
Fixpoint next_loop (fuel : nat) (c : list Z) (index : Z) : option Z :=
  if is_negative index then
    match fuel with
    | O => None
    | S fuel => next_loop fuel c (lv_get c (from_negative index - 2))
    end
  else Some index.
(** libs/utils/tree.c:197-219 [node_get_next]; [node_set_next] (221-231) assigns its
    result unless it is broken. *)
Definition node_get_next (c : list Z) (nd : Z) : option Z :=
  if negb (node_is_correct nd) then Some BROKEN
  else
    do index <- (if node_get_amount c nd =? 0 then next_loop (length c) c (lv_get c (ref_next nd)) else Some (lv_get c (ref_children nd)));
    Some (if negb (index =? 0) then index else BROKEN).

(** libs/utils/tree.c:234-260 [node_add_child]. *)
Definition node_add_child (c : list Z) (nd type : Z) : Z * list Z :=
  if negb (node_is_correct nd) then (BROKEN, c)
  else
    let c := lv_add c (to_negative nd) in
    let c := lv_add c type in
    let child := zlen c in
    let c := lv_add c 0 in
    let c := lv_increase c 2 in
    let amount := node_get_amount c nd in
    let c := lv_set c (ref_amount nd) (amount + 1) in
    if amount =? 0 then (child, lv_set c (ref_children nd) child)
    else let prev := node_get_child c nd (amount - 1) in (child, lv_set c (ref_next prev) child).

(** libs/utils/tree.c:262-275 [node_set_type]. *)
Definition node_set_type (c : list Z) (nd type : Z) : Z * list Z :=
  if negb (node_is_correct nd) then (-1, c)
  else if nd =? 0 then (-2, c)
  else (lv_set_st c (nd - 1), lv_set c (nd - 1) type).

(** libs/utils/tree.c:277-293 [node_add_arg]; 295-329 are the same when [item_t] has
    64 bits. *)
Definition node_add_arg (c : list Z) (nd arg : Z) : Z * list Z :=
  if negb (node_is_correct nd) then (-1, c)
  else if negb (node_get_amount c nd =? 0) then (-2, c)
  else
    let c := lv_add c arg in
    (0, lv_set c (ref_argc nd) (node_get_argc c nd + 1)).

(** libs/utils/tree.c:331-339 [node_set_arg]. *)
Definition node_set_arg (c : list Z) (nd i arg : Z) : Z * list Z :=
  if i >=? node_get_argc c nd then (-1, c)
  else (lv_set_st c (ref_argc nd + 1 + i), lv_set c (ref_argc nd + 1 + i) arg).

(** libs/utils/tree.c:373-378 [node_save]. *)
Definition node_save (nd : Z) : Z := if node_is_correct nd then nd else SIZE_MAX.
(** libs/utils/tree.c:380-389 [node_load]. *)
Definition node_load (c : list Z) (index : Z) : Z :=
  if lv_get c (u64 (index + 2)) >=? s64 (zlen c - index - 2) then BROKEN else index.

(** libs/utils/tree.c:391-421 [node_insert]. *)
Definition node_insert (c : list Z) (nd type argc : Z) : option (Z * list Z) :=
  do ' (parent, index) <- node_search_parent c nd;
  if negb (node_is_correct parent) then Some (BROKEN, c)
  else
    let reference := if index =? 0 then ref_children parent else ref_next (node_get_child c parent (index - 1)) in
    let c := lv_add c (lv_get c (ref_next nd)) in
    let c := lv_add c type in
    let child := zlen c in
    let c := lv_add c 1 in
    let c := lv_add c nd in
    let c := lv_add c argc in
    let c := lv_increase c argc in
    let c := lv_set c reference child in
    let c := lv_set c (ref_next nd) (to_negative child) in
    Some (child, c).

(** The cell that leads to child number [index] of [parent]: what the four branches
    of [node_swap] compute. *)
Definition ref_to (c : list Z) (parent index : Z) : Z :=
  if index =? 0 then ref_children parent else ref_next (node_get_child c parent (index - 1)).
(** libs/utils/tree.c:450-487 [node_swap]. *)
Definition node_swap (c : list Z) (fst snd : Z) : option (Z * list Z) :=
  do ' (fst_parent, fst_index) <- node_search_parent c fst;
  do ' (snd_parent, snd_index) <- node_search_parent c snd;
  if negb (node_is_correct fst_parent) || negb (node_is_correct snd_parent) then Some (-1, c)
  else
    let c := vector_swap c (ref_to c fst_parent fst_index) (ref_to c snd_parent snd_index) in
    Some (0, vector_swap c (ref_next fst) (ref_next snd)).

(** libs/utils/tree.c:423-448 [node_order]. *)
Definition node_order (c : list Z) (fst snd : Z) : option (Z * list Z) :=
  do ' (r, c) <- node_swap c fst snd;
  if negb (r =? 0) then Some (-1, c)
  else
    let c := vector_swap c (ref_amount fst) (ref_amount snd) in
    let c := vector_swap c (ref_children fst) (ref_children snd) in
    let fst_amount := node_get_amount c fst in
    let c := if negb (fst_amount =? 0) then lv_set c (ref_next (node_get_child c fst (fst_amount - 1))) (to_negative fst) else c in
    let snd_amount := node_get_amount c snd in
    let c := if negb (snd_amount =? 0) then lv_set c (ref_next (node_get_child c snd (snd_amount - 1))) (to_negative snd) else c in
    Some (0, c).

(** libs/utils/tree.c:489-524 [node_remove]. *)
Definition node_remove (c : list Z) (nd : Z) : option (Z * list Z) :=
  do ' (parent, index) <- node_search_parent c nd;
  if negb (node_is_correct parent) then Some (-1, c)
  else
    let '(c, nd) :=
      if index =? 0 then
        let c := lv_set c (ref_amount parent) (node_get_amount c parent - 1) in
        (if negb (node_get_amount c parent =? 0) then lv_set c (ref_children parent) (lv_get c (ref_next nd)) else c, nd)
      else
        let prev := node_get_child c parent (index - 1) in
        let reference := lv_get c (ref_next prev) in
        let c := lv_set c (ref_next prev) (lv_get c (reference - 2)) in
        (lv_set c (ref_amount parent) (node_get_amount c parent - 1), reference) in
    if (node_get_amount c nd =? 0) && (ref_argc nd + node_get_argc c nd =? zlen c - 1)
    then Some (0, lv_resize c (ref_next nd)) else Some (0, c).

(** libs/compiler/operations.h [OP_NOP]: the type of the node that keeps the place,
    any type will do. *)
(** libs/compiler/AST.c:30-35 [node_set_child]. *)
Definition node_set_child (c : list Z) (nop parent child : Z) : option (list Z) :=
  let '(temp, c) := node_add_child c parent nop in
  do ' (_, c) <- node_swap c child temp;
  do ' (_, c) <- node_remove c temp;
  Some c.

(** Model of the identifier table and the scopes of libs/compiler/syntax.c. *)
From Verif Require Import Prelude LVec TypesModel.

(** libs/compiler/syntax.h [struct syntax], the fields used here.  The
    references stored in the table of representations are a function from
    representation numbers (C11 says the map keeps them apart); the table of
    types is the argument [t] of the functions that look at it. *)
Record idents := mkIdents {
  id_cells : list Z;
  id_cur : Z;
  id_refs : Z -> Z;
  id_main : Z;
  id_predef : list Z;
  id_displ : Z;
  id_max_displ : Z;
  id_max_displg : Z;
  id_lg : Z
}.
Definition with_cells (s : idents) (c : list Z) : idents :=
  mkIdents c (id_cur s) (id_refs s) (id_main s) (id_predef s) (id_displ s) (id_max_displ s) (id_max_displg s) (id_lg s).
Definition with_refs (s : idents) (r : Z -> Z) : idents :=
  mkIdents (id_cells s) (id_cur s) r (id_main s) (id_predef s) (id_displ s) (id_max_displ s) (id_max_displg s) (id_lg s).
Definition with_main (s : idents) (m : Z) : idents :=
  mkIdents (id_cells s) (id_cur s) (id_refs s) m (id_predef s) (id_displ s) (id_max_displ s) (id_max_displg s) (id_lg s).
Definition with_predef (s : idents) (p : list Z) : idents :=
  mkIdents (id_cells s) (id_cur s) (id_refs s) (id_main s) p (id_displ s) (id_max_displ s) (id_max_displg s) (id_lg s).
Definition with_frame (s : idents) (cur displ max maxg lg : Z) : idents :=
  mkIdents (id_cells s) cur (id_refs s) (id_main s) (id_predef s) displ max maxg lg.

(** libs/compiler/syntax.c:902-910 [repr_get_reference], [repr_set_reference];
    a negative number stands for an index outside the table of
    representations, which map.c:344-353 refuses. *)
Definition repr_get_reference (s : idents) (repr : Z) : Z := id_refs s repr.
Definition set_ref (r : Z -> Z) (repr ref : Z) : Z -> Z :=
  if repr <? 0 then r else fun x => if x =? repr then ref else r x.
Definition repr_set_reference (s : idents) (repr ref : Z) : idents := with_refs s (set_ref (id_refs s) repr ref).

(** libs/compiler/syntax.c:463-505: the four cells of an identifier.  An index
    is a [size_t]; SIZE_MAX - 1 + 2 wraps around to 0. *)
Definition ident_get (s : idents) (i : Z) : Z := lv_get (id_cells s) (u64 i).
Definition ident_set (s : idents) (i v : Z) : idents := with_cells s (lv_set (id_cells s) (u64 i) v).
Definition ident_get_prev (s : idents) (index : Z) : Z := ident_get s index.
Definition ident_get_repr (s : idents) (index : Z) : Z := ident_get s (index + 1).
Definition ident_get_type (s : idents) (index : Z) : Z := ident_get s (index + 2).
Definition ident_get_displ (s : idents) (index : Z) : Z := ident_get s (index + 3).
Definition ident_set_repr (s : idents) (index v : Z) : idents := ident_set s (index + 1) v.
Definition ident_set_type (s : idents) (index v : Z) : idents := ident_set s (index + 2) v.
Definition ident_set_displ (s : idents) (index v : Z) : idents := ident_set s (index + 3) v.

(** libs/compiler/syntax.c:503-511 [ident_is_type_specifier], [ident_is_local]. *)
Definition ident_is_type_specifier (s : idents) (index : Z) : bool := ident_get_displ s index >=? 1000.
Definition ident_is_local (s : idents) (index : Z) : bool := ident_get_displ s index >? 0.

(** libs/compiler/syntax.c:103-118 [get_static]. *)
Definition get_static (t : types) (s : idents) (type : Z) : option (Z * idents) :=
  do size <- type_size t type;
  let old_displ := id_displ s in
  let displ := old_displ + id_lg s * size in
  Some (old_displ,
    if id_lg s >? 0 then
      with_frame s (id_cur s) displ (if displ >? id_max_displ s then displ else id_max_displ s) (id_max_displg s) (id_lg s)
    else with_frame s (id_cur s) displ (id_max_displ s) (- displ) (id_lg s)).

(** libs/compiler/syntax.c:448-455: the definition of [repr] removes it from the
    list of prototypes. *)
Definition predef_clear (predef : list Z) (repr : Z) : list Z := map (fun x => if x =? repr then 0 else x) predef.

(** libs/compiler/syntax.c:407-459, the second half of [ident_add]: the new
    identifier is filled in. *)
Definition ident_fill (t : types) (s : idents) (last_id repr kind type func_def : Z) : option idents :=
  let s := ident_set_repr s last_id repr in
  let s := ident_set_type s last_id type in
  if kind <? 0 then
    let displ := id_displ s in
    let s := ident_set_displ s last_id (- displ) in
    Some (with_frame s (id_cur s) (displ + 1) (displ + 1) (id_max_displg s) (id_lg s))
  else if kind =? 0 then
    do ' (displ, s) <- get_static t s type;
    Some (ident_set_displ s last_id displ)
  else if kind =? 1 then Some (ident_set_displ (ident_set_type s last_id 0) last_id 0)
  else if kind >=? 1000 then Some (ident_set_displ s last_id kind)
  else if (kind >? 1) && (type <? 1000) then
    let s := ident_set_displ s last_id kind in
    if func_def =? 2 then
      Some (with_predef (ident_set_repr s last_id (- ident_get_repr s last_id)) (id_predef s ++ [repr]))
    else Some (with_predef s (predef_clear (id_predef s) repr))
  else Some s.

(** libs/compiler/syntax.c:378-461 [ident_add]. *)
Definition ident_add (t : types) (s : idents) (repr kind type func_def : Z) : option (Z * idents) :=
  let last_id := zlen (id_cells s) in
  let ref := repr_get_reference s repr in
  let s := with_cells s (lv_increase (lv_add (id_cells s) (if ref =? ITEM_MAX then ITEM_MAX - 1 else ref)) 3) in
  if (ref =? 0) && negb (id_main s =? 0) then Some (SIZE_MAX, s)
  else
    let s := if ref =? 0 then with_main s last_id else s in
    let prev := u64 (ident_get_prev s last_id) in
    let s := if negb (prev =? 0) then repr_set_reference s repr last_id else s in
    if negb (kind =? 1) && negb (ident_get_prev s last_id =? ITEM_MAX - 1)
       && (prev >=? id_cur s) && (negb (func_def =? 1) || (ident_get_repr s prev >? 0))
    then Some (SIZE_MAX - 1, s)
    else do s <- ident_fill t s last_id repr kind type func_def; Some (last_id, s).

(** libs/compiler/syntax.c:915-925 [scope_block_enter]; the result is [scope]. *)
Record scope := mkScope { sc_displ : Z; sc_lg : Z; sc_cur : Z }.
Definition scope_block_enter (s : idents) : scope * idents :=
  (mkScope (id_displ s) (id_lg s) (id_cur s),
   with_frame s (zlen (id_cells s)) (id_displ s) (id_max_displ s) (id_max_displg s) (id_lg s)).

(** libs/compiler/syntax.c:934-938 and 968-972, the loop that gives the names
    back.  [i] is unsigned; [None]: it has not ended after a pass over every
    identifier. *)
Fixpoint restore (fuel : nat) (s : idents) (i : Z) : option idents :=
  if i >=? id_cur s then
    match fuel with
    | O => None
    | S fuel =>
        let prev := ident_get_prev s i in
        restore fuel (repr_set_reference s (ident_get_repr s i) (if prev =? ITEM_MAX - 1 then ITEM_MAX else prev)) (u64 (i - 4))
    end
  else Some s.
Definition restore_all (s : idents) : option idents := restore (length (id_cells s)) s (u64 (zlen (id_cells s) - 4)).

(** libs/compiler/syntax.c:927-944 [scope_block_exit]; the test of the argument
    is left out, the parser passes what [scope_block_enter] returned. *)
Definition scope_block_exit (s : idents) (scp : scope) : option idents :=
  do s <- restore_all s;
  Some (with_frame s (sc_cur scp) (sc_displ scp) (id_max_displ s) (id_max_displg s) (sc_lg scp)).

(** libs/compiler/syntax.c:946-960 [scope_func_enter]. *)
Definition scope_func_enter (s : idents) : Z * idents :=
  (id_displ s, with_frame s (zlen (id_cells s)) 3 3 (id_max_displg s) 1).

(** libs/compiler/syntax.c:962-980 [scope_func_exit]. *)
Definition scope_func_exit (s : idents) (displ : Z) : option (Z * idents) :=
  do s <- restore_all s;
  Some (id_max_displ s, with_frame s 2 displ (id_max_displ s) (id_max_displg s) (-1)).

(** libs/compiler/syntax.c:265-279 of [sx_create]: the table before the built-in
    functions; [refs] are the keywords. *)
Definition ident_create (refs : Z -> Z) : idents := mkIdents [0; 0] 2 refs 0 [] (-3) 3 3 (-1).

(** libs/compiler/syntax.c:295-309 of [sx_is_correct], when no error has been
    reported. *)
Definition tables_are_correct (s : idents) : bool := negb (id_main s =? 0) && forallb (fun x => x =? 0) (id_predef s).

(** libs/compiler/parser.c:1058-1062 [parse_init_enum_field_declarator]. *)
Definition enum_constant_add (t : types) (s : idents) (repr type value func_def : Z) : option (Z * idents) :=
  do ' (id, s) <- ident_add t s repr 0 type func_def; Some (id, ident_set_displ s id value).

(** libs/compiler/parser.c:2034-2059, the beginning of
    [parse_function_definition]: the identifier of the prototype gets the number
    of the function.  The result says whether the body is parsed. *)
Definition function_definition (s : idents) (function_id : Z) : bool * idents :=
  if function_id =? SIZE_MAX then (false, s)
  else
    let func_type := ident_get_type s function_id in
    let function_number := ident_get_displ s function_id in
    let prev := ident_get_prev s function_id in
    if (prev >? 1) && negb (prev =? ITEM_MAX - 1) then
      if negb (func_type =? ident_get_type s prev) then (false, s)
      else (true, ident_set_displ s prev function_number)
    else (true, s).

(** libs/compiler/syntax.c:156-175 of [builtin_add]: another spelling of a
    built-in function; map.c:181-184 keeps a reference that is already there.
    A spelling in the table that has no reference counts as a new one. *)
Definition spelling_add (s : idents) (repr id : Z) : idents :=
  if repr_get_reference s repr =? ITEM_MAX then repr_set_reference s repr id else s.

(** Model of the type table of libs/compiler/syntax.c. *)
From Verif Require Import Prelude LVec.

(** libs/compiler/syntax.h [type_t]. *)
Definition TYPE_VARARG : Z := -9.
Definition TYPE_NULL_POINTER : Z := -8.
Definition TYPE_FILE : Z := -7.
Definition TYPE_VOID : Z := -6.
Definition TYPE_BOOLEAN : Z := -4.
Definition TYPE_FLOATING : Z := -3.
Definition TYPE_CHARACTER : Z := -2.
Definition TYPE_INTEGER : Z := -1.
Definition TYPE_UNDEFINED : Z := 0.
Definition TYPE_MSG_INFO : Z := 2.
Definition TYPE_FUNCTION : Z := 1001.
Definition TYPE_STRUCTURE : Z := 1002.
Definition TYPE_ARRAY : Z := 1003.
Definition TYPE_POINTER : Z := 1004.
Definition TYPE_ENUM : Z := 1005.
Definition TYPE_CONST : Z := 1006.

(** The vector [types] and [start_type] of [struct syntax].  An index is a
    [size_t]: a negative number here stands for one far outside the vector. *)
Record types := mkTypes { ty_cells : list Z; ty_start : Z }.

(** libs/compiler/syntax.c:235-238 [type_get]. *)
Definition type_get (t : types) (i : Z) : Z := lv_get (ty_cells t) i.

(** libs/compiler/syntax.c:645-648 [type_is_const]. *)
Definition type_is_const (t : types) (type : Z) : bool := (type >? 0) && (type_get t type =? TYPE_CONST).

(** libs/compiler/syntax.c:709-712 [type_const_get_unqualified_type]. *)
Definition type_const_get_unqualified_type (t : types) (type : Z) : Z :=
  if type_is_const t type then type_get t (type + 1) else ITEM_MAX.

(** The recursion common to the functions below: first of all each of them
    calls itself with the unqualified type.  [None]: it would never end. *)
Fixpoint strip (fuel : nat) (t : types) (type : Z) : option Z :=
  if type_is_const t type then
    match fuel with O => None | S fuel => strip fuel t (type_const_get_unqualified_type t type) end
  else Some type.
Definition unqualified (t : types) (type : Z) : option Z := strip (length (ty_cells t)) t type.

(** libs/compiler/syntax.c:103-118, 121-151 [type_is_equal]: the loop over the fields. *)
Fixpoint fields_equal (t : types) (first second : Z) (n : nat) : bool :=
  match n with
  | O => true
  | S n => (type_get t first =? type_get t second) && fields_equal t (first + 1) (second + 1) n
  end.
Fixpoint type_is_equal (fuel : nat) (t : types) (first second : Z) : option bool :=
  if negb (type_get t first =? type_get t second) then Some false
  else
    let type := type_get t first in
    if type =? TYPE_CONST then
      match fuel with
      | O => None
      | S fuel => type_is_equal fuel t (type_const_get_unqualified_type t first) (type_const_get_unqualified_type t second)
      end
    else
      let length := if (type =? TYPE_STRUCTURE) || (type =? TYPE_FUNCTION) then 2 + type_get t (first + 2) else 1 in
      Some (fields_equal t (first + 1) (second + 1) (Z.to_nat length)).

(** libs/compiler/syntax.c:527-543, the search for a duplicate of the record at
    [ty_start]. *)
Fixpoint find_equal (fuel : nat) (t : types) (old : Z) : option Z :=
  if old =? 0 then Some 0
  else
    do eq <- type_is_equal (length (ty_cells t)) t (ty_start t + 1) (old + 1);
    if eq then Some old
    else match fuel with O => None | S fuel => find_equal fuel t (type_get t old) end.

(** libs/compiler/syntax.c:514-545 [type_add]. *)
Definition type_add (t : types) (record : list Z) : option (Z * types) :=
  let start := zlen (ty_cells t) in
  let t1 := mkTypes (lv_add (ty_cells t) (ty_start t) ++ record) start in
  do old <- find_equal (length (ty_cells t1)) t1 (type_get t1 start);
  if old =? 0 then Some (start + 1, t1)
  else Some (old + 1, mkTypes (lv_resize (ty_cells t1) start) (type_get t1 start)).

(** libs/compiler/syntax.c:784-787 [type_array], 789-792 [type_string],
    878-881 [type_pointer], 883-886 [type_const]. *)
Definition type_array (t : types) (type : Z) : option (Z * types) := type_add t [TYPE_ARRAY; type].
Definition type_string (t : types) : option (Z * types) := type_add t [TYPE_ARRAY; TYPE_CHARACTER].
Definition type_pointer (t : types) (type : Z) : option (Z * types) := type_add t [TYPE_POINTER; type].
Definition type_const (t : types) (type : Z) : option (Z * types) := type_add t [TYPE_CONST; type].

(** libs/compiler/parser.c:2019-2023, the end of [parse_function_declarator]
    (and libs/compiler/syntax.c:815-876 [type_function] after its parameters
    are made): [local_modetab] has 100 cells, 3 of them for the head. *)
Definition type_function (t : types) (ret : Z) (params : list Z) : option (Z * types) :=
  if zlen params <=? 97 then type_add t (TYPE_FUNCTION :: ret :: zlen params :: params) else None.

(** libs/compiler/syntax.c:562-565 [type_get_class]. *)
Definition type_get_class (t : types) (type : Z) : Z := if type >? 0 then type_get t type else type.

(** libs/compiler/syntax.c:668-671 [type_is_enum_field]. *)
Definition type_is_enum_field (t : types) (type : Z) : bool := (type <? 0) && (type_get t (- type) =? TYPE_ENUM).

(** libs/compiler/syntax.c:650-682: [type_is_array], [type_is_structure],
    [type_is_enum], [type_is_pointer]. *)
Definition is_class (t : types) (class type : Z) : option bool :=
  do u <- unqualified t type; Some ((u >? 0) && (type_get t u =? class)).
Definition type_is_array (t : types) := is_class t TYPE_ARRAY.
Definition type_is_structure (t : types) := is_class t TYPE_STRUCTURE.
Definition type_is_enum (t : types) := is_class t TYPE_ENUM.
Definition type_is_pointer (t : types) := is_class t TYPE_POINTER.
(** libs/compiler/syntax.c:673-676 [type_is_function]. *)
Definition type_is_function (t : types) (type : Z) : bool := (type >? 0) && (type_get t type =? TYPE_FUNCTION).

(** libs/compiler/syntax.c:613-616 [type_is_boolean], 625-628
    [type_is_floating], 704-707 [type_is_file]. *)
Definition is_simple (t : types) (code type : Z) : option bool :=
  do u <- unqualified t type; Some (u =? code).
Definition type_is_boolean (t : types) := is_simple t TYPE_BOOLEAN.
Definition type_is_floating (t : types) := is_simple t TYPE_FLOATING.
Definition type_is_file (t : types) := is_simple t TYPE_FILE.
(** libs/compiler/syntax.c:618-623 [type_is_integer]. *)
Definition type_is_integer (t : types) (type : Z) : option bool :=
  do u <- unqualified t type;
  do en <- type_is_enum t u;
  Some ((u =? TYPE_CHARACTER) || (u =? TYPE_INTEGER) || en || type_is_enum_field t u).
(** libs/compiler/syntax.c:630-643 [type_is_arithmetic], [type_is_void],
    [type_is_null_pointer]. *)
Definition type_is_arithmetic (t : types) (type : Z) : option bool :=
  do i <- type_is_integer t type; do f <- type_is_floating t type; Some (i || f).
Definition type_is_void (type : Z) : bool := type =? TYPE_VOID.
Definition type_is_null_pointer (type : Z) : bool := type =? TYPE_NULL_POINTER.
(** libs/compiler/syntax.c:684-692 [type_is_scalar], [type_is_aggregate]. *)
Definition type_is_scalar (t : types) (type : Z) : option bool :=
  do b <- type_is_boolean t type; do i <- type_is_integer t type; do p <- type_is_pointer t type;
  Some (b || i || p || type_is_null_pointer type).
Definition type_is_aggregate (t : types) (type : Z) : option bool :=
  do a <- type_is_array t type; do s <- type_is_structure t type; Some (a || s).

(** libs/compiler/syntax.c:714-718 [type_array_get_element_type], 778-782
    [type_pointer_get_element_type]. *)
Definition type_array_get_element_type (t : types) (type : Z) : option Z :=
  do u <- unqualified t type; do a <- type_is_array t u; Some (if a then type_get t (u + 1) else ITEM_MAX).
Definition type_pointer_get_element_type (t : types) (type : Z) : option Z :=
  do u <- unqualified t type; do p <- type_is_pointer t u; Some (if p then type_get t (u + 1) else ITEM_MAX).
(** libs/compiler/syntax.c:694-702 [type_is_string], [type_is_struct_pointer]. *)
Definition type_is_string (t : types) (type : Z) : option bool :=
  do a <- type_is_array t type; do el <- type_array_get_element_type t type; Some (a && (el =? TYPE_CHARACTER)).
Definition type_is_struct_pointer (t : types) (type : Z) : option bool :=
  do p <- type_is_pointer t type; do el <- type_pointer_get_element_type t type; do s <- type_is_structure t el; Some (p && s).

(** libs/compiler/syntax.c:744-760: members of a structure. *)
Definition type_structure_get_member_amount (t : types) (type : Z) : option Z :=
  do u <- unqualified t type; do s <- type_is_structure t u; Some (if s then type_get t (u + 2) / 2 else SIZE_MAX).
Definition type_structure_get_member_name (t : types) (type i : Z) : option Z :=
  do u <- unqualified t type; do s <- type_is_structure t u; Some (if s then type_get t (u + 4 + 2 * i) else SIZE_MAX).
Definition type_structure_get_member_type (t : types) (type i : Z) : option Z :=
  do u <- unqualified t type; do s <- type_is_structure t u; Some (if s then type_get t (u + 3 + 2 * i) else ITEM_MAX).

(** libs/compiler/syntax.c:763-776: parts of a function type. *)
Definition type_function_get_return_type (t : types) (type : Z) : Z :=
  if type_is_function t type then type_get t (type + 1) else ITEM_MAX.
Definition type_function_get_parameter_amount (t : types) (type : Z) : Z :=
  if type_is_function t type then type_get t (type + 2) else SIZE_MAX.
Definition type_function_get_parameter_type (t : types) (type i : Z) : Z :=
  if type_is_function t type then type_get t (type + 3 + i) else ITEM_MAX.

(** libs/compiler/syntax.c:567-585 [type_size]. *)
Definition type_size (t : types) (type : Z) : option Z :=
  do u <- unqualified t type;
  do s <- type_is_structure t u;
  if s then Some (type_get t (u + 1))
  else do f <- type_is_floating t u; Some (if f then 2 else 1).

(** libs/compiler/syntax.c:587-611 [type_requires_initialization]; the loop over
    the members (591-600) first. *)
Fixpoint any_member (f : Z -> option bool) (t : types) (type : Z) (k : nat) (i : Z) : option bool :=
  match k with
  | O => Some false
  | S k =>
      do m <- type_structure_get_member_type t type i;
      do r <- f m;
      if r then Some true else any_member f t type k (i + 1)
  end.
Fixpoint type_requires_initialization (fuel : nat) (t : types) (type : Z) : option bool :=
  match fuel with
  | O => None
  | S fuel =>
      let class := type_get_class t type in
      if class =? TYPE_STRUCTURE then
        do n <- type_structure_get_member_amount t type;
        any_member (type_requires_initialization fuel t) t type (Z.to_nat n) 0
      else if class =? TYPE_ARRAY then
        do el <- type_array_get_element_type t type; type_requires_initialization fuel t el
      else Some (class =? TYPE_CONST)
  end.

(** libs/compiler/syntax.c:721-742 [type_structure]: the members are given by
    two vectors of one size; [local_modetab] has 100 cells. *)
Fixpoint struct_size (t : types) (members : list (Z * Z)) : option Z :=
  match members with
  | [] => Some 0
  | (type, _) :: members => do n <- type_size t type; do m <- struct_size t members; Some (n + m)
  end.
Definition type_structure (t : types) (members : list (Z * Z)) : option (Z * types) :=
  if 3 + 2 * zlen members <=? 100 then
    do displ <- struct_size t members;
    type_add t (TYPE_STRUCTURE :: displ :: zlen members * 2 :: flat_map (fun m => [fst m; snd m]) members)
  else None.

(** libs/compiler/syntax.c:547-560 [type_enum_add_fields]. *)
Definition type_enum_add_fields (t : types) (record : list Z) : option (Z * types) :=
  do en <- type_is_enum t (zlen (ty_cells t) - 1);
  if en then Some (ty_start t + 1, mkTypes (ty_cells t ++ record) (ty_start t)) else Some (ITEM_MAX, t).

(** libs/compiler/parser.c:1077 and 1126-1130 of [parse_enum_declaration_list]:
    a new enumeration with the given values and names. *)
Definition type_enum (t : types) (fields : list (Z * Z)) : option (Z * types) :=
  if 2 + 2 * zlen fields <=? 100 then
    do ' (type, t) <- type_add t [TYPE_ENUM];
    let cells := flat_map (fun m => [fst m; snd m]) fields in
    do ' (_, t) <- type_enum_add_fields t (Z.quot (match fields with (v, _) :: _ => v | [] => 0 end) 2 :: zlen fields * 2 :: cells);
    Some (type, t)
  else None.

(** libs/compiler/syntax.c:89-101 [type_init]; the representations of the two
    names are parameters. *)
Definition type_init (num_th data : Z) : types :=
  mkTypes [0; 0; TYPE_STRUCTURE; 2; 4; TYPE_INTEGER; num_th; TYPE_INTEGER; data] 1.

(** libs/compiler/codegen.c:530-535, in [emit_member_lvalue]: the displacement of
    a member. *)
Fixpoint member_displ_loop (t : types) (type : Z) (n : nat) (i displ : Z) : option Z :=
  match n with
  | O => Some displ
  | S n =>
      do m <- type_structure_get_member_type t type i;
      do size <- type_size t m;
      member_displ_loop t type n (i + 1) (displ + size)
  end.
Definition member_displ (t : types) (type index : Z) : option Z := member_displ_loop t type (Z.to_nat index) 0 0.

(** Model of libs/utils/vector.c and libs/utils/stack.h (built with ITEM = -64,
    libs/utils/item.h:28, so DOUBLE_SIZE = INT64_SIZE = 1).

    - a heap block is a Coq list whose length is the allocated number of
      cells; writing or reading outside it is undefined behaviour ([None]);
    - [realloc] may fail ([mem = false]) or succeed, and fills the new cells
      with arbitrary values ([junk]);
    - a [double] is represented by its 64-bit pattern read as [int64_t]. *)
From Verif Require Import Prelude.

(** libs/utils/vector.h:29-35 [struct vector]; [v_array = None] is NULL. *)
Record vector := mkVec { v_array : option (list Z); v_size : Z; v_alloc : Z }.

(** What the environment decides during one call. *)
Record env := mkEnv { mem_ok : bool; junk : Z -> Z }.

Definition junk_list (e : env) (n : Z) : list Z :=
  map (fun k => junk e (Z.of_nat k)) (seq 0 (Z.to_nat n)).

(** [realloc(p, n * sizeof(item_t))] keeps the common prefix. *)
Definition realloc (e : env) (a : list Z) (n : Z) : list Z :=
  if n <=? zlen a then firstn (Z.to_nat n) a else a ++ junk_list e (n - zlen a).

(** [memset(&a[from], 0, n * sizeof(item_t))], undefined outside the block. *)
Definition memset0 (a : list Z) (from n : Z) : option (list Z) :=
  if (0 <=? from) && (from + n <=? zlen a)
  then Some (firstn (Z.to_nat from) a ++ repeat 0 (Z.to_nat n)
             ++ skipn (Z.to_nat (from + n)) a)
  else None.

(** Read / write one cell of a block. *)
Definition load (a : list Z) (i : Z) : option Z := znth a i.
Definition store (a : list Z) (i x : Z) : option (list Z) :=
  if (0 <=? i) && (i <? zlen a) then Some (zupd a i x) else None.

(** Number of cells in a block of [n * sizeof(item_t)] bytes, with the wrapping
    [size_t] product. *)
Definition cells (n : Z) : Z := u64 (n * 8) / 8.

(** libs/utils/vector.c:22-44 [change_size]: status and new state. *)
Definition change_size (e : env) (v : vector) (a : list Z) (size : Z)
  : option (Z * vector) :=
  let grow := v_alloc v <? size in
  if grow && negb (mem_ok e) then Some (-1, v)
  else
    let alloc' := if grow then (if u64 (2 * v_alloc v) <? size then size else u64 (2 * v_alloc v))
                  else v_alloc v in
    let a1 := if grow then realloc e a (cells alloc') else a in
    do a2 <- (if v_size v <? size then memset0 a1 (v_size v) (size - v_size v) else Some a1);
    Some (0, mkVec (Some a2) size alloc').

(** libs/utils/vector.c:56-65 [vector_create]; [malloc] fails when [mem_ok] is false. *)
Definition vector_create (e : env) (alloc : Z) : vector :=
  let n := if alloc =? 0 then 1 else alloc in
  mkVec (if mem_ok e then Some (junk_list e (cells n)) else None) 0 n.

(** libs/utils/vector.c:68-77 [vector_add]. *)
Definition vector_add (e : env) (v : vector) (value : Z) : option (Z * vector) :=
  match v_array v with
  | None => Some (SIZE_MAX, v)
  | Some a =>
      do '(st, v1) <- change_size e v a (u64 (v_size v + 1));
      if negb (st =? 0) then Some (SIZE_MAX, v1)
      else match v_array v1 with
           | None => None
           | Some a1 =>
               do a2 <- store a1 (u64 (v_size v1 - 1)) value;
               Some (u64 (v_size v1 - 1), mkVec (Some a2) (v_size v1) (v_alloc v1))
           end
  end.

(** libs/utils/vector.c:79-99 [vector_add_double], [vector_add_int64]: with
    DOUBLE_SIZE = INT64_SIZE = 1, [item_store_*] writes the 64-bit pattern into
    one cell (libs/utils/item.c:213-246 with status [item_int64]). *)
Definition vector_add_int64 (e : env) (v : vector) (value : Z) : option (Z * vector) :=
  vector_add e v value.
Definition vector_add_double (e : env) (v : vector) (pattern : Z) : option (Z * vector) :=
  vector_add e v pattern.

(** libs/utils/vector.c:102-111 [vector_set]. *)
Definition vector_set (v : vector) (index value : Z) : option (Z * vector) :=
  match v_array v with
  | None => Some (-1, v)
  | Some a =>
      if v_size v <=? index then Some (-1, v)
      else do a1 <- store a index value; Some (0, mkVec (Some a1) (v_size v) (v_alloc v))
  end.

(** libs/utils/vector.c:113-131 [vector_set_double], [vector_set_int64]: note
    the wrapping sum [index + DOUBLE_SIZE]; the result is the number of cells. *)
Definition vector_set_int64 (v : vector) (index value : Z) : option (Z * vector) :=
  match v_array v with
  | None => Some (SIZE_MAX, v)
  | Some a =>
      if v_size v <? u64 (index + 1) then Some (SIZE_MAX, v)
      else do a1 <- store a index value; Some (1, mkVec (Some a1) (v_size v) (v_alloc v))
  end.

(** libs/utils/vector.c:134-142 [vector_get]. *)
Definition vector_get (v : vector) (index : Z) : option Z :=
  match v_array v with
  | None => Some ITEM_MAX
  | Some a => if v_size v <=? index then Some ITEM_MAX else load a index
  end.

(** libs/utils/vector.c:154-162 [vector_get_int64]. *)
Definition vector_get_int64 (v : vector) (index : Z) : option Z :=
  match v_array v with
  | None => Some LLONG_MAX
  | Some a => if v_size v <? u64 (index + 1) then Some LLONG_MAX else load a index
  end.

(** Pattern of [DBL_MAX]; libs/utils/item.c:225-236 [item_restore_double_for_target]
    returns it also when the stored pattern is [LLONG_MAX]. *)
Definition DBL_MAX_bits : Z := 9218868437227405311.
Definition restore_double (pattern : Z) : Z :=
  if pattern =? LLONG_MAX then DBL_MAX_bits else pattern.

(** libs/utils/vector.c:144-152 [vector_get_double]. *)
Definition vector_get_double (v : vector) (index : Z) : option Z :=
  match v_array v with
  | None => Some DBL_MAX_bits
  | Some a => if v_size v <? u64 (index + 1) then Some DBL_MAX_bits
              else do p <- load a index; Some (restore_double p)
  end.

(** libs/utils/vector.c:165-173 [vector_remove]; lines 186-195
    [vector_remove_int64] are the same with INT64_SIZE = 1. *)
Definition vector_remove (v : vector) : option (Z * vector) :=
  match v_array v with
  | None => Some (ITEM_MAX, v)
  | Some a =>
      if v_size v =? 0 then Some (ITEM_MAX, v)
      else do x <- load a (v_size v - 1);
           Some (x, mkVec (v_array v) (v_size v - 1) (v_alloc v))
  end.

(** libs/utils/vector.c:175-184 [vector_remove_double]. *)
Definition vector_remove_double (v : vector) : option (Z * vector) :=
  match v_array v with
  | None => Some (DBL_MAX_bits, v)
  | Some a =>
      if v_size v <? 1 then Some (DBL_MAX_bits, v)
      else do x <- load a (v_size v - 1);
           Some (restore_double x, mkVec (v_array v) (v_size v - 1) (v_alloc v))
  end.

(** libs/utils/vector.c:198-206 [vector_increase], [vector_resize]. *)
Definition vector_increase (e : env) (v : vector) (size : Z) : option (Z * vector) :=
  match v_array v with
  | None => Some (-1, v)
  | Some a => change_size e v a (u64 (v_size v + size))
  end.
Definition vector_resize (e : env) (v : vector) (size : Z) : option (Z * vector) :=
  match v_array v with
  | None => Some (-1, v)
  | Some a => change_size e v a size
  end.

(** libs/utils/vector.c:208-216 [vector_size], [vector_is_correct]. *)
Definition vector_is_correct (v : vector) : bool :=
  match v_array v with None => false | Some _ => true end.
Definition vector_size (v : vector) : Z :=
  if vector_is_correct v then v_size v else SIZE_MAX.

(** libs/utils/vector.c:219-230 [vector_clear]. *)
Definition vector_clear (v : vector) : Z * vector :=
  match v_array v with
  | None => (-1, v)
  | Some _ => (0, mkVec None (v_size v) (v_alloc v))
  end.

(** ** libs/utils/stack.h: a stack is a vector. *)

(** libs/utils/stack.h:37-40 [stack_create]. *)
Definition stack_create := vector_create.
(** libs/utils/stack.h:51-54 [stack_push]; lines 64-80 are the same since
    DOUBLE_SIZE = INT64_SIZE = 1. *)
Definition stack_push (e : env) (s : vector) (x : Z) : option (Z * vector) :=
  do '(r, s1) <- vector_add e s x; Some (if r =? SIZE_MAX then -1 else 0, s1).
(** libs/utils/stack.h:90-93 [stack_pop]. *)
Definition stack_pop := vector_remove.
(** libs/utils/stack.h:127-130 [stack_peek]. *)
Definition stack_peek (s : vector) : option Z :=
  vector_get s (u64 (vector_size s - 1)).
(** libs/utils/stack.h:139-153 [stack_peek_double], [stack_peek_int64]. *)
Definition stack_peek_double (s : vector) : option Z :=
  vector_get_double s (u64 (vector_size s - 1)).
Definition stack_peek_int64 (s : vector) : option Z :=
  vector_get_int64 s (u64 (vector_size s - 1)).
(** libs/utils/stack.h:163-178 [stack_reset], [stack_size]. *)
Definition stack_reset (e : env) (s : vector) : option (Z * vector) := vector_resize e s 0.
Definition stack_size := vector_size.

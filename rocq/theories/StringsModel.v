(** Model of libs/utils/strings.c: a table of strings in one arena.
    Blocks are lists whose length is the allocated size; accesses outside are
    [None]; the allocator may refuse ([o_alloc]) and fresh memory is arbitrary
    ([o_junk]).  Sizes are assumed not to reach 2^64. *)
From Verif Require Import Prelude Utf8Model UniioModel.

(** libs/utils/strings.h:29-38 [struct strings]; the two [alloc] members are the
    lengths of the lists. *)
Record strings := mkStr {
  s_all : bytes;      (* all_strings, all_strings_alloc *)
  s_size : Z;         (* all_strings_size *)
  s_idx : list Z;     (* indexes, indexes_alloc *)
  s_n : Z             (* indexes_size *) }.

Definition put (l : list Z) (i x : Z) : option (list Z) :=
  if (0 <=? i) && (i <? zlen l) then Some (zupd l i x) else None.

(** libs/utils/strings.c:24-40 [strings_add_index]: [false] is the failure. *)
Definition strings_add_index (e : oenv) (v : strings) : option (bool * strings) :=
  if s_n v =? zlen (s_idx v) then
    if o_alloc e (2 * zlen (s_idx v) * 8) then
      do idx <- put (s_idx v ++ o_fresh e (zlen (s_idx v))) (s_n v) (s_size v);
      Some (true, mkStr (s_all v) (s_size v) idx (s_n v))
    else Some (false, v)
  else
    do idx <- put (s_idx v) (s_n v) (s_size v);
    Some (true, mkStr (s_all v) (s_size v) idx (s_n v)).

(** libs/utils/strings.c:42-58 [strings_increase]; the recursion doubles the
    block, [fuel] bounds it. *)
Fixpoint strings_increase (fuel : nat) (e : oenv) (v : strings) (size : Z) : option (bool * strings) :=
  if s_size v + size <=? zlen (s_all v) then Some (true, v)
  else
    match fuel with
    | O => None
    | S fuel =>
        if o_alloc e (2 * zlen (s_all v))
        then strings_increase fuel e
               (mkStr (s_all v ++ o_fresh e (zlen (s_all v))) (s_size v) (s_idx v) (s_n v)) size
        else Some (false, v)
    end.

(** libs/utils/strings.c:70-94 [strings_create], both allocations succeeding. *)
Definition strings_create (e : oenv) (alloc : Z) : strings :=
  let n := if alloc =? 0 then 1 else alloc in
  mkStr (o_fresh e (n * 256)) 0 (o_fresh e n) 0.

(** libs/utils/strings.c:104-112, the loop of [strings_add]. *)
Fixpoint add_loop (e : oenv) (v : strings) (str : bytes) : option (bool * strings) :=
  match str with
  | [] => Some (true, v)
  | b :: str =>
      do ' (ok, v) <- strings_increase 64 e v 2;
      if negb ok then Some (false, v)
      else
        do all <- put (s_all v) (s_size v) b;
        add_loop e (mkStr all (s_size v + 1) (s_idx v) (s_n v)) str
  end.

(** libs/utils/strings.c:97-116 [strings_add]. *)
Definition strings_add (e : oenv) (v : strings) (str : bytes) : option (Z * strings) :=
  match str with
  | [] => Some (SIZE_MAX, v)
  | _ =>
      do ' (ok, v) <- strings_add_index e v;
      if negb ok then Some (SIZE_MAX, v)
      else
        do ' (ok, v) <- add_loop e v str;
        if negb ok then Some (SIZE_MAX, v)
        else
          do all <- put (s_all v) (s_size v) 0;
          Some (s_n v, mkStr all (s_size v + 1) (s_idx v) (s_n v + 1))
  end.

(** [utf8_to_string(&all[p], c)]: the bytes and a NUL are written, nothing at
    all when the symbol is out of range. *)
Definition put_symbol (all : bytes) (p c : Z) : option (bytes * Z) :=
  match utf8_to_string c with
  | [] => Some (all, 0)
  | s => do all <- write_at all p (s ++ [0]); Some (all, zlen s)
  end.

(** libs/utils/strings.c:125-133, 146-160, the loops of [strings_add_by_utf8] and
    [strings_add_by_vector] over the symbols before the terminator. *)
Fixpoint add_symbols (e : oenv) (v : strings) (cs : list Z) : option (bool * strings) :=
  match cs with
  | [] => Some (true, v)
  | c :: cs =>
      do ' (ok, v) <- strings_increase 64 e v (utf8_size c + 1);
      if negb ok then Some (false, v)
      else
        do ' (all, n) <- put_symbol (s_all v) (s_size v) c;
        add_symbols e (mkStr all (s_size v + n) (s_idx v) (s_n v)) cs
  end.

Fixpoint before_nul (cs : list Z) : list Z :=
  match cs with
  | [] => []
  | c :: cs => if c =? 0 then [] else c :: before_nul cs
  end.

(** libs/utils/strings.c:118-137 [strings_add_by_utf8]; [cs] are the symbols
    before the terminator. *)
Definition strings_add_by_utf8 (e : oenv) (v : strings) (cs : list Z) : option (Z * strings) :=
  match cs with
  | [] => Some (SIZE_MAX, v)
  | _ =>
      do ' (ok, v) <- strings_add_index e v;
      if negb ok then Some (SIZE_MAX, v)
      else
        do ' (ok, v) <- add_symbols e v cs;
        if negb ok then Some (SIZE_MAX, v)
        else Some (s_n v, mkStr (s_all v) (s_size v + 1) (s_idx v) (s_n v + 1))
  end.

(** libs/utils/strings.c:139-164 [strings_add_by_vector]; [vec] is the contents
    of the vector ([vector_get(str, 0)] is ITEM_MAX when it is empty, and the
    loop converts each item to [char32_t]). *)
Definition strings_add_by_vector (e : oenv) (v : strings) (vec : list Z) : option (Z * strings) :=
  if match znth vec 0 with Some c => c =? 0 | None => ITEM_MAX =? 0 end then Some (SIZE_MAX, v)
  else
    do ' (ok, v) <- strings_add_index e v;
    if negb ok then Some (SIZE_MAX, v)
    else
      do ' (ok, v) <- add_symbols e v (before_nul (map (fun x => x mod 4294967296) vec));
      if negb ok then Some (SIZE_MAX, v)
      else Some (s_n v, mkStr (s_all v) (s_size v + 1) (s_idx v) (s_n v + 1)).

(** The C string found at offset [p] of the arena. *)
Definition string_at (v : strings) (p : Z) : option bytes := c_string (skipn (Z.to_nat p) (s_all v)).

(** libs/utils/strings.c:167-175 [strings_get]; [Some None] is NULL. *)
Definition strings_get (v : strings) (index : Z) : option (option bytes) :=
  if s_n v <=? index then Some None
  else do p <- znth (s_idx v) index; do s <- string_at v p; Some (Some s).

(** libs/utils/strings.c:177-187 [strings_get_length]. *)
Definition strings_get_length (v : strings) (index : Z) : option Z :=
  if s_n v <=? index then Some 0
  else if index =? s_n v - 1
  then do p <- znth (s_idx v) index; Some (u64 (s_size v - p - 1))
  else do p <- znth (s_idx v) index; do q <- znth (s_idx v) (index + 1); Some (u64 (q - p - 1)).

(** libs/utils/strings.c:190-199 [strings_remove]. *)
Definition strings_remove (v : strings) : option (option bytes * strings) :=
  if s_n v =? 0 then Some (None, v)
  else
    do p <- znth (s_idx v) (s_n v - 1);
    let v := mkStr (s_all v) p (s_idx v) (s_n v - 1) in
    do s <- string_at v p; Some (Some s, v).

(** libs/utils/strings.c:202-205 [strings_size]. *)
Definition strings_size (v : strings) : Z := s_n v.

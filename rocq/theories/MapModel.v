(** Model of libs/utils/map.c: a dictionary from strings to items.
    Blocks are lists whose length is the allocated size; accesses outside are
    [None], and so is a walk that does not end.  Sizes are assumed not to reach
    2^64. *)
From Verif Require Import Prelude Utf8Model UniioModel StringsModel.

(** libs/utils/map.c:24-29 [struct map_hash]. *)
Record cell := mkCell { c_next : Z; c_ref : Z; c_value : Z }.

(** libs/utils/map.h:37-47 [struct map]; the [alloc] members are the lengths. *)
Record map_t := mkMap {
  m_keys : bytes; m_ksize : Z; m_knext : Z;
  m_vals : list cell; m_vsize : Z }.

Definition MAP_HASH_MAX : Z := 256.
Definition MAP_KEY_SIZE : Z := 8.
Definition MAX_SYMBOL_SIZE : Z := 8.

Definition set_knext (m : map_t) (n : Z) : map_t := mkMap (m_keys m) (m_ksize m) n (m_vals m) (m_vsize m).

Definition fresh_cells (e : oenv) (n : Z) : list cell :=
  map (fun x => mkCell x x x) (o_fresh e n).

(** libs/utils/map.c:32-49 [map_add_key_symbol]; [false] is the failure -1. *)
Fixpoint map_add_key_symbol (fuel : nat) (e : oenv) (m : map_t) (ch : Z) : option (bool * map_t) :=
  if MAX_SYMBOL_SIZE <=? u64 (zlen (m_keys m) - m_knext m) then
    do ' (keys, n) <- put_symbol (m_keys m) (m_knext m) ch;
    Some (true, mkMap keys (m_ksize m) (m_knext m + n) (m_vals m) (m_vsize m))
  else
    match fuel with
    | O => None
    | S fuel =>
        if o_alloc e (2 * zlen (m_keys m))
        then map_add_key_symbol fuel e
               (mkMap (m_keys m ++ o_fresh e (zlen (m_keys m))) (m_ksize m) (m_knext m) (m_vals m) (m_vsize m)) ch
        else Some (false, m)
    end.

(** libs/utils/map.c:67-76, the loop of [map_get_hash].  [mem] is the key and
    its NUL; the position in it is the number of bytes written to the arena. *)
Fixpoint hash_loop (fuel : nat) (e : oenv) (m : map_t) (mem : bytes) (hash : Z) : option (Z * map_t) :=
  match fuel with
  | O => None
  | S fuel =>
      let p := m_knext m - m_ksize m in
      do b <- znth mem p;
      if b =? 0 then Some (hash mod MAP_HASH_MAX, m)
      else
        do ch <- utf8_convert (skipn (Z.to_nat p) mem);
        do ' (ok, m) <- map_add_key_symbol 64 e m ch;
        if negb ok then Some (SIZE_MAX, m) else hash_loop fuel e m mem (hash + ch)
  end.

(** libs/utils/map.c:51-79 [map_get_hash]. *)
Definition map_get_hash (e : oenv) (m : map_t) (key : bytes) : option (Z * map_t) :=
  match key with
  | [] => Some (SIZE_MAX, m)
  | _ =>
      let mem := key ++ [0] in
      let m := set_knext m (m_ksize m) in
      do ch <- utf8_convert mem;
      do ' (ok, m) <- map_add_key_symbol 64 e m ch;
      if negb ok then Some (SIZE_MAX, m) else hash_loop (S (List.length mem)) e m mem ch
  end.

(** libs/utils/map.c:90-99, the loop of [map_get_hash_by_utf8]; [key] are the
    symbols before the terminator. *)
Fixpoint hash_utf8_loop (e : oenv) (m : map_t) (key : list Z) (hash : Z) : option (Z * map_t) :=
  match key with
  | [] => Some (hash mod MAP_HASH_MAX, m)
  | ch :: key =>
      do ' (ok, m) <- map_add_key_symbol 64 e m ch;
      if negb ok then Some (SIZE_MAX, m) else hash_utf8_loop e m key (hash + ch)
  end.

(** libs/utils/map.c:81-102 [map_get_hash_by_utf8]. *)
Definition map_get_hash_by_utf8 (e : oenv) (m : map_t) (key : list Z) : option (Z * map_t) :=
  match key with
  | [] => Some (SIZE_MAX, m)
  | _ => hash_utf8_loop e (set_knext m (m_ksize m)) key 0
  end.

(** libs/utils/map.c:126-136, the loop of [map_get_hash_by_io]: hash, last
    character, input, map. *)
Fixpoint hash_io_loop (fuel : nat) (e : oenv) (m : map_t) (io : input) (last hash : Z) : option (Z * Z * input * map_t) :=
  if utf8_is_letter last || utf8_is_digit last then
    match fuel with
    | O => None
    | S fuel =>
        do ' (ok, m) <- map_add_key_symbol 64 e m last;
        if negb ok then Some (SIZE_MAX, last, io, m)
        else
          let '(next, io) := uni_scan_char io in hash_io_loop fuel e m io next (hash + last)
    end
  else Some (hash mod MAP_HASH_MAX, last, io, m).

(** libs/utils/map.c:104-138 [map_get_hash_by_io]. *)
Definition map_get_hash_by_io (e : oenv) (m : map_t) (io : input) : option (Z * Z * input * map_t) :=
  let m := set_knext m (m_ksize m) in
  let '(last, io) := uni_scan_char io in
  if negb (utf8_is_letter last) && negb (last =? 35) then Some (SIZE_MAX, last, io, m)
  else
    do ' (ok, m) <- map_add_key_symbol 64 e m last;
    if negb ok then Some (SIZE_MAX, last, io, m)
    else
      let '(next, io) := uni_scan_char io in
      hash_io_loop (S (List.length (in_data io))) e m io next last.

(** libs/utils/map.c:141-144 [map_cmp_key] (as a test of equality). *)
Definition map_cmp_key (m : map_t) (index : Z) : option bool :=
  do c <- znth (m_vals m) index;
  do s <- c_string (skipn (Z.to_nat (c_ref c)) (m_keys m));
  do t <- c_string (skipn (Z.to_nat (m_ksize m)) (m_keys m));
  if (0 <=? c_ref c) && (c_ref c <? zlen (m_keys m)) then Some (bytes_eqb s t) else None.

(** libs/utils/map.c:153-161 and 178-186: the walk shared by the two functions;
    [inl i] an entry with this key before the last one, [inr i] the last one. *)
Fixpoint map_walk (fuel : nat) (m : map_t) (index : Z) : option (Z + Z) :=
  match fuel with
  | O => None
  | S fuel =>
      do c <- znth (m_vals m) index;
      if c_next c =? SIZE_MAX then Some (inr index)
      else
        do eq <- map_cmp_key m index;
        if eq : bool then Some (inl index) else map_walk fuel m (c_next c)
  end.

(** libs/utils/map.c:146-169 [map_get_index_by_hash]. *)
Definition map_get_index_by_hash (m : map_t) (hash : Z) : option Z :=
  if hash =? SIZE_MAX then Some SIZE_MAX
  else
    do w <- map_walk (S (List.length (m_vals m))) m hash;
    match w with
    | inl i => Some i
    | inr i =>
        do c <- znth (m_vals m) i;
        if c_ref c =? SIZE_MAX then Some SIZE_MAX
        else do eq <- map_cmp_key m i; Some (if eq : bool then i else SIZE_MAX)
    end.

Definition put_cell (m : map_t) (i : Z) (c : cell) : option map_t :=
  if (0 <=? i) && (i <? zlen (m_vals m))
  then Some (mkMap (m_keys m) (m_ksize m) (m_knext m) (zupd (m_vals m) i c) (m_vsize m))
  else None.

(** libs/utils/map.c:171-220 [map_add_by_hash]. *)
Definition map_add_by_hash (e : oenv) (m : map_t) (hash value : Z) : option (Z * map_t) :=
  if hash =? SIZE_MAX then Some (SIZE_MAX, m)
  else
    do w <- map_walk (S (List.length (m_vals m))) m hash;
    match w with
    | inl i => Some (if value =? ITEM_MAX then i else SIZE_MAX, m)
    | inr i =>
        do c <- znth (m_vals m) i;
        if c_ref c =? SIZE_MAX then
          do m <- put_cell m i (mkCell (c_next c) (m_ksize m) value);
          Some (i, mkMap (m_keys m) (m_knext m + 1) (m_knext m) (m_vals m) (m_vsize m))
        else
          do eq <- map_cmp_key m i;
          if eq : bool then Some (if value =? ITEM_MAX then i else SIZE_MAX, m)
          else
            let full := m_vsize m =? zlen (m_vals m) in
            if full && negb (o_alloc e (2 * zlen (m_vals m) * 24)) then Some (SIZE_MAX, m)
            else
              let m := if full
                then mkMap (m_keys m) (m_ksize m) (m_knext m)
                       (m_vals m ++ fresh_cells e (zlen (m_vals m))) (m_vsize m)
                else m in
              do c <- znth (m_vals m) i;
              let n := m_vsize m in
              do m <- put_cell m i (mkCell n (c_ref c) (c_value c));
              do m <- put_cell m n (mkCell SIZE_MAX (m_ksize m) value);
              Some (n, mkMap (m_keys m) (m_knext m + 1) (m_knext m) (m_vals m) (n + 1))
    end.

(** libs/utils/map.c:222-232 [map_set_by_hash]. *)
Definition map_set_by_hash (m : map_t) (hash value : Z) : option (Z * map_t) :=
  do i <- map_get_index_by_hash m hash;
  if i =? SIZE_MAX then Some (SIZE_MAX, m)
  else
    do c <- znth (m_vals m) i;
    do m <- put_cell m i (mkCell (c_next c) (c_ref c) value);
    Some (i, m).

(** libs/utils/map.c:234-243 [map_get_by_hash]. *)
Definition map_get_by_hash (m : map_t) (hash : Z) : option Z :=
  do i <- map_get_index_by_hash m hash;
  if i =? SIZE_MAX then Some ITEM_MAX else do c <- znth (m_vals m) i; Some (c_value c).

(** libs/utils/map.c:264-294 [map_create], both allocations succeeding; the
    members [value] of the cells and [keys_next] are not initialised. *)
Definition map_create (e : oenv) (alloc : Z) : map_t :=
  let n := MAP_HASH_MAX + alloc in
  mkMap (o_fresh e (n * MAP_KEY_SIZE)) 0 (o_junk e 0)
    (map (fun x => mkCell SIZE_MAX SIZE_MAX x) (o_fresh e MAP_HASH_MAX) ++ fresh_cells e alloc) MAP_HASH_MAX.

(** libs/utils/map.c:344-353 [map_set_by_index]. *)
Definition map_set_by_index (m : map_t) (index value : Z) : option (Z * map_t) :=
  if m_vsize m <=? index then Some (-1, m)
  else
    do c <- znth (m_vals m) index;
    if c_ref c =? SIZE_MAX then Some (-1, m)
    else do m <- put_cell m index (mkCell (c_next c) (c_ref c) value); Some (0, m).

(** libs/utils/map.c:387-392 [map_get_by_index]. *)
Definition map_get_by_index (m : map_t) (index : Z) : option Z :=
  if index <? m_vsize m then
    do c <- znth (m_vals m) index;
    Some (if c_ref c =? SIZE_MAX then ITEM_MAX else c_value c)
  else Some ITEM_MAX.

(** libs/utils/map.c:395-400 [map_to_string]; [Some None] is NULL. *)
Definition map_to_string (m : map_t) (index : Z) : option (option bytes) :=
  if index <? m_vsize m then
    do c <- znth (m_vals m) index;
    if c_ref c =? SIZE_MAX then Some None
    else do s <- c_string (skipn (Z.to_nat (c_ref c)) (m_keys m)); Some (Some s)
  else Some None.

(** libs/utils/map.c:402-405 [map_last_read]. *)
Definition map_last_read (m : map_t) : option (option bytes) :=
  if m_ksize m <? m_knext m
  then do s <- c_string (skipn (Z.to_nat (m_ksize m)) (m_keys m)); Some (Some s)
  else Some None.

(** How a key is given: a C string (the UTF-8 text of the symbols), an array
    of symbols, or the identifier at the current position of an input. *)
Inductive keysrc :=
| KStr (s : bytes)
| KUtf8 (cs : list Z)
| KIo (io : input).

(** Hash of a key from any source, and what the by-io variants report: last
    character read and the input. *)
Definition get_hash (e : oenv) (m : map_t) (k : keysrc) : option (Z * option (Z * input) * map_t) :=
  match k with
  | KStr s => do ' (h, m) <- map_get_hash e m s; Some (h, None, m)
  | KUtf8 cs => do ' (h, m) <- map_get_hash_by_utf8 e m cs; Some (h, None, m)
  | KIo io => do ' (h, last, io, m) <- map_get_hash_by_io e m io; Some (h, Some (last, io), m)
  end.

(** libs/utils/map.c:313-326 [map_add], [map_add_by_utf8], [map_add_by_io]. *)
Definition map_add (e : oenv) (m : map_t) (k : keysrc) (value : Z) : option (Z * option (Z * input) * map_t) :=
  do ' (h, x, m) <- get_hash e m k; do ' (r, m) <- map_add_by_hash e m h value; Some (r, x, m).

(** libs/utils/map.c:297-310 [map_reserve], [map_reserve_by_utf8], [map_reserve_by_io]. *)
Definition map_reserve (e : oenv) (m : map_t) (k : keysrc) : option (Z * option (Z * input) * map_t) :=
  do ' (h, x, m) <- get_hash e m k; do ' (r, m) <- map_add_by_hash e m h ITEM_MAX; Some (r, x, m).

(** libs/utils/map.c:329-342 [map_set], [map_set_by_utf8], [map_set_by_io]. *)
Definition map_set (e : oenv) (m : map_t) (k : keysrc) (value : Z) : option (Z * option (Z * input) * map_t) :=
  do ' (h, x, m) <- get_hash e m k; do ' (r, m) <- map_set_by_hash m h value; Some (r, x, m).

(** libs/utils/map.c:356-369 [map_get_index], [map_get_index_by_utf8], [map_get_index_by_io]. *)
Definition map_get_index (e : oenv) (m : map_t) (k : keysrc) : option (Z * option (Z * input) * map_t) :=
  do ' (h, x, m) <- get_hash e m k; do r <- map_get_index_by_hash m h; Some (r, x, m).

(** libs/utils/map.c:372-385 [map_get], [map_get_by_utf8], [map_get_by_io]. *)
Definition map_get (e : oenv) (m : map_t) (k : keysrc) : option (Z * option (Z * input) * map_t) :=
  do ' (h, x, m) <- get_hash e m k; do r <- map_get_by_hash m h; Some (r, x, m).

(** Model of libs/utils/hash.c and hash.h over list-level vectors. *)
From Verif Require Import Prelude VectorSpec LVec.

Definition MAX_HASH : Z := 256.
Definition VALUE_SIZE : Z := 4.

(** libs/utils/hash.c:37-40 [get_hash]. *)
Definition key_hash (key : Z) : Z := u64 key mod MAX_HASH.

(** libs/utils/hash.c:52-57 [hash_create]; the capacity does not show. *)
Definition hash_create : list Z := lv_increase [] MAX_HASH.

(** libs/utils/hash.c:73-87, the loop of [hash_add]: [None] the key was met,
    otherwise the last cell, the value in it and the reusable record. *)
Fixpoint add_loop (fuel : nat) (hs : list Z) (key amount prev index record : Z) : option (option (Z * Z * Z)) :=
  if negb (index =? ITEM_MAX) && negb (index =? 0) then
    match fuel with
    | O => None
    | S fuel =>
        let temp := lv_get hs (u64 (index + 1)) in
        if (record =? ITEM_MAX) && (temp =? ITEM_MAX) && (u64 (lv_get hs (u64 (index + 2))) =? amount) then
          add_loop fuel hs key amount (u64 index) (lv_get hs (u64 index)) index
        else if temp =? key then Some None
        else add_loop fuel hs key amount (u64 index) (lv_get hs (u64 index)) record
    end
  else Some (Some (prev, index, record)).

(** libs/utils/hash.c:92-95, clearing a reused record. *)
Fixpoint clear_loop (n : nat) (hs : list Z) (base i : Z) : list Z :=
  match n with
  | O => hs
  | S n => clear_loop n (lv_set hs (u64 (base + 3 + i)) 0) base (i + 1)
  end.

(** libs/utils/hash.c:60-115 [hash_add]: index of the record (SIZE_MAX on
    failure) and the new table. *)
Definition hash_add (hs : list Z) (key amount : Z) : option (Z * list Z) :=
  let prev := key_hash key in
  let index := lv_get hs prev in
  do found <- (if negb (index =? 0) then add_loop (S (length hs)) hs key amount prev index ITEM_MAX
               else Some (Some (prev, index, ITEM_MAX)));
  match found with
  | None => Some (SIZE_MAX, hs)
  | Some (prev, index, record) =>
      let reuse := negb (record =? ITEM_MAX) in
      if negb reuse && (index =? ITEM_MAX) then Some (SIZE_MAX, hs)
      else
        let hs := if reuse then clear_loop (Z.to_nat amount) hs record 0 else hs in
        let index := if reuse then record else index in
        if index =? 0 then
          let index := zlen hs in
          let hs := lv_set hs prev index in
          let hs := lv_increase hs (u64 (3 + amount)) in
          let hs := lv_set hs (u64 (index + 2)) amount in
          let hs := lv_set hs (u64 (index + 1)) key in
          Some (index, hs)
        else Some (u64 index, lv_set hs (u64 (index + 1)) key)
  end.

(** libs/utils/hash.c:126-138, the loop of [hash_get_index]. *)
Fixpoint index_loop (fuel : nat) (hs : list Z) (key index : Z) : option Z :=
  if negb (index =? ITEM_MAX) && negb (index =? 0) then
    match fuel with
    | O => None
    | S fuel =>
        if lv_get hs (u64 (index + 1)) =? key then Some (u64 index)
        else index_loop fuel hs key (lv_get hs (u64 index))
    end
  else Some SIZE_MAX.

(** libs/utils/hash.c:118-139 [hash_get_index]. *)
Definition hash_get_index (hs : list Z) (key : Z) : option Z :=
  index_loop (S (length hs)) hs key (lv_get hs (key_hash key)).

(** libs/utils/hash.h:152-155 [hash_get_key]. *)
Definition hash_get_key (hs : list Z) (index : Z) : Z := lv_get hs (u64 (index + 1)).

(** libs/utils/hash.h:165-169 [hash_get_amount_by_index]. *)
Definition hash_get_amount_by_index (hs : list Z) (index : Z) : Z :=
  let amount := lv_get hs (u64 (index + 2)) in
  if negb (index =? SIZE_MAX) && negb (amount =? ITEM_MAX) then u64 amount else 0.

(** libs/utils/hash.h:181-184 [hash_get_by_index]. *)
Definition hash_get_by_index (hs : list Z) (index num : Z) : Z :=
  if num <? hash_get_amount_by_index hs index then lv_get hs (u64 (index + 3 + num)) else ITEM_MAX.

(** libs/utils/hash.h:199-217 [hash_get_double_by_index],
    [hash_get_int64_by_index]; the sizes are 1, a double is its pattern. *)
Definition hash_get_double_by_index (hs : list Z) (index num : Z) : Z :=
  if u64 (num + 1) <=? hash_get_amount_by_index hs index
  then spec_dbl (or_else (znth hs (u64 (index + 3 + num))) 9218868437227405311) else 9218868437227405311.
Definition hash_get_int64_by_index (hs : list Z) (index num : Z) : Z :=
  if u64 (num + 1) <=? hash_get_amount_by_index hs index
  then or_else (znth hs (u64 (index + 3 + num))) LLONG_MAX else LLONG_MAX.

(** libs/utils/hash.h:230-233 [hash_set_by_index]. *)
Definition hash_set_by_index (hs : list Z) (index num value : Z) : Z * list Z :=
  if num <? hash_get_amount_by_index hs index
  then (lv_set_st hs (u64 (index + 3 + num)), lv_set hs (u64 (index + 3 + num)) value) else (-1, hs).

(** libs/utils/hash.h:245-263 [hash_set_double_by_index], [hash_set_int64_by_index]. *)
Definition hash_set_int64_by_index (hs : list Z) (index num value : Z) : Z * list Z :=
  if u64 (num + 1) <=? hash_get_amount_by_index hs index then
    let i := u64 (index + 3 + num) in
    (if i <? zlen hs then 1 else SIZE_MAX, lv_set hs i value)
  else (SIZE_MAX, hs).

(** libs/utils/hash.h:281-284 [hash_remove_by_index]. *)
Definition hash_remove_by_index (hs : list Z) (index : Z) : Z * list Z :=
  if negb (index =? SIZE_MAX)
  then (lv_set_st hs (u64 (index + 1)), lv_set hs (u64 (index + 1)) ITEM_MAX) else (-1, hs).

(** libs/utils/hash.c:141-162 [hash_get_amount], [hash_get],
    [hash_get_double], [hash_get_int64]. *)
Definition hash_get_amount (hs : list Z) (key : Z) : option Z :=
  do i <- hash_get_index hs key; Some (hash_get_amount_by_index hs i).
Definition hash_get (hs : list Z) (key num : Z) : option Z :=
  do i <- hash_get_index hs key; Some (hash_get_by_index hs i num).
Definition hash_get_double (hs : list Z) (key num : Z) : option Z :=
  do i <- hash_get_index hs key; Some (hash_get_double_by_index hs i num).
Definition hash_get_int64 (hs : list Z) (key num : Z) : option Z :=
  do i <- hash_get_index hs key; Some (hash_get_int64_by_index hs i num).

(** libs/utils/hash.c:165-169 [hash_set]. *)
Definition hash_set (hs : list Z) (key num value : Z) : option (Z * list Z) :=
  do i <- hash_get_index hs key;
  let '(st, hs) := hash_set_by_index hs i num value in
  Some (if st =? 0 then i else SIZE_MAX, hs).

(** libs/utils/hash.c:171-181 [hash_set_double], [hash_set_int64]: the size
    returned is compared with DBL_MAX and LLONG_MAX, which it never equals. *)
Definition hash_set_double (hs : list Z) (key num pattern : Z) : option (Z * list Z) :=
  do i <- hash_get_index hs key;
  let '(st, hs) := hash_set_int64_by_index hs i num pattern in Some (i, hs).
Definition hash_set_int64 (hs : list Z) (key num value : Z) : option (Z * list Z) :=
  do i <- hash_get_index hs key;
  let '(st, hs) := hash_set_int64_by_index hs i num value in
  Some (if negb (st =? LLONG_MAX) then i else SIZE_MAX, hs).

(** libs/utils/hash.c:184-187 [hash_remove]. *)
Definition hash_remove (hs : list Z) (key : Z) : option (Z * list Z) :=
  do i <- hash_get_index hs key; Some (hash_remove_by_index hs i).

(** Model of libs/utils/item.c built with the default ITEM = -64
    (libs/utils/item.h:28): [item_t] is [int64_t]. *)
From Verif Require Import Prelude.
From Coq Require Import String.
Local Open Scope string_scope.
Local Open Scope Z_scope.

(** libs/utils/item.h:86-98 [item_status]. *)
Inductive item_status :=
| item_error | item_int64 | item_int32 | item_int16 | item_int8
| item_uint64 | item_uint32 | item_uint16 | item_uint8 | item_types.

Definition status_eqb (a b : item_status) : bool :=
  match a, b with
  | item_error, item_error | item_int64, item_int64 | item_int32, item_int32
  | item_int16, item_int16 | item_int8, item_int8 | item_uint64, item_uint64
  | item_uint32, item_uint32 | item_uint16, item_uint16 | item_uint8, item_uint8
  | item_types, item_types => true
  | _, _ => false
  end.

(** libs/utils/item.c:49-70 [item_get_size].  The correction at lines 64-67
    ([abs(ITEM) <= 32 / size]) never applies for ITEM = -64. *)
Definition item_get_size (st : item_status) : Z :=
  match st with
  | item_error | item_types => 0
  | item_int64 | item_uint64 => 1
  | item_int32 | item_uint32 => 2
  | item_int16 | item_uint16 => 4
  | item_int8 | item_uint8 => 8
  end.

(** libs/utils/item.c:72-75 [item_get_shift]. *)
Definition item_get_shift (size : Z) : Z := 64 / size.

(** libs/utils/item.c:77-86 [item_get_mask]: the loop doubles [i] from 8 while
    [i < shift]; three rounds suffice since [shift <= 64]. *)
Fixpoint mask_loop (n : nat) (i shift mask : Z) : Z :=
  match n with
  | O => mask
  | S n => if i <? shift
           then mask_loop n (i * 2) shift (Z.lor (u64 (Z.shiftl mask i)) mask)
           else mask
  end.
Definition item_get_mask (shift : Z) : Z := mask_loop 4 8 shift 255.

(** libs/utils/item.c:98-148 [item_get_status]: [flags] are the workspace
    flags in order; the workspace is correct. *)
Definition flag_status (flag : bytes) : option item_status :=
  if bytes_eqb flag (str "-i64") then Some item_int64
  else if bytes_eqb flag (str "-i32") then Some item_int32
  else if bytes_eqb flag (str "-i16") then Some item_int16
  else if bytes_eqb flag (str "-i8") then Some item_int8
  else if bytes_eqb flag (str "-u64") then Some item_uint64
  else if bytes_eqb flag (str "-u32") then Some item_uint32
  else if bytes_eqb flag (str "-u16") then Some item_uint16
  else if bytes_eqb flag (str "-u8") then Some item_uint8
  else None.
Fixpoint status_loop (flags : list bytes) (status : item_status) : item_status :=
  match flags with
  | [] => status
  | flag :: flags =>
      if status_eqb status item_error then status
      else status_loop flags
             match flag_status flag with
             | Some s => if status_eqb status item_types then s else item_error
             | None => status
             end
  end.
Definition item_get_status (flags : list bytes) : item_status :=
  let status := status_loop flags item_types in
  if status_eqb status item_types then item_int32 else status.

(** libs/utils/item.c:150-181 [item_get_min]. *)
Definition item_get_min (st : item_status) : Z :=
  match st with
  | item_int8 => -128
  | item_int16 => -32768
  | item_int32 => -2147483648
  | item_int64 => LLONG_MIN
  | _ => 0
  end.

(** libs/utils/item.c:183-228 [item_get_max]; [ITEM_MAX >= ULLONG_MAX] is
    false, so the last case gives [ITEM_MAX]. *)
Definition item_get_max (st : item_status) : Z :=
  match st with
  | item_int8 => 127
  | item_uint8 => 255
  | item_int16 => 32767
  | item_uint16 => 65535
  | item_int32 => 2147483647
  | item_uint32 => 4294967295
  | item_int64 => LLONG_MAX
  | item_uint64 => ITEM_MAX
  | _ => 0
  end.

Definition is_signed (st : item_status) : bool :=
  match st with item_int64 | item_int32 | item_int16 | item_int8 => true | _ => false end.

Definition not64 (x : Z) : Z := u64 (Z.lnot x).

(** libs/utils/item.c:267-294 [item_store_int64_for_target]: the words written
    to [stg] in order ([None] for [SIZE_MAX]).  The final [temp <<= 64] for a
    one-word target is undefined in C but its result is not used; it is
    modelled by [u64 (Z.shiftl temp 64)] = 0. *)
Fixpoint store_loop (n : nat) (i : Z) (value shift mask sign temp : Z) : list Z :=
  match n with
  | O => []
  | S n =>
      let w := s64 (Z.shiftr (Z.land (u64 value) temp) (shift * i)) in
      let w := if Z.land (u64 w) sign =? 0 then w
               else s64 (Z.lor (u64 w) (not64 mask)) in
      w :: store_loop n (i + 1) value shift mask sign (u64 (Z.shiftl temp shift))
  end.
Definition item_store_int64_for_target (st : item_status) (value : Z) : option (list Z) :=
  let size := item_get_size st in
  if size =? 0 then None
  else
    let shift := item_get_shift size in
    let mask := item_get_mask shift in
    let sign := if is_signed st then Z.land (Z.shiftr (not64 mask) 1) mask else 0 in
    Some (store_loop (Z.to_nat size) 0 value shift mask sign mask).

(** libs/utils/item.c:301-319 [item_restore_int64_for_target]; the caller must
    pass at least [item_get_size] words, otherwise the read is out of bounds. *)
Fixpoint restore_loop (n : nat) (i : Z) (stg : list Z) (shift mask value : Z) : option Z :=
  match n with
  | O => Some value
  | S n =>
      match znth stg i with
      | None => None
      | Some w =>
          restore_loop n (i + 1) stg shift mask
            (s64 (Z.lor (u64 value) (u64 (Z.shiftl (Z.land (u64 w) mask) (shift * i)))))
      end
  end.
Definition item_restore_int64_for_target (st : item_status) (stg : list Z) : option Z :=
  let size := item_get_size st in
  if size =? 0 then Some LLONG_MAX
  else
    let shift := item_get_shift size in
    restore_loop (Z.to_nat size) 0 stg shift (item_get_mask shift) 0.

(** libs/utils/item.c:236-259 [item_store_double_for_target],
    [item_restore_double_for_target] on 64-bit patterns. *)
Definition DBL_MAX_bits : Z := 9218868437227405311.
Definition item_store_double_for_target := item_store_int64_for_target.
Definition item_restore_double_for_target (st : item_status) (stg : list Z) : option Z :=
  match item_restore_int64_for_target st stg with
  | None => None
  | Some temp => Some (if temp =? LLONG_MAX then DBL_MAX_bits else temp)
  end.

(** libs/utils/item.c:322-325 [item_check_var]. *)
Definition item_check_var (st : item_status) (var : Z) : bool :=
  (item_get_min st <=? var) && (var <=? item_get_max st).

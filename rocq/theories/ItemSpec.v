(** Specification of the target words: fixed-width two's complement words,
    least significant first. *)
From Verif Require Import Prelude ItemModel.

(** Width in bits and signedness of a target word. *)
Definition width (st : item_status) : Z :=
  match st with
  | item_int64 | item_uint64 => 64
  | item_int32 | item_uint32 => 32
  | item_int16 | item_uint16 => 16
  | item_int8 | item_uint8 => 8
  | _ => 0
  end.

Definition target (st : item_status) : Prop := st <> item_error /\ st <> item_types.

(** The mathematical range of a target word. *)
Definition word_range (st : item_status) (x : Z) : Prop :=
  match st with
  | item_int64 | item_int32 | item_int16 | item_int8 =>
      - 2 ^ (width st - 1) <= x < 2 ^ (width st - 1)
  | item_uint64 | item_uint32 | item_uint16 | item_uint8 => 0 <= x < 2 ^ width st
  | _ => False
  end.

(** Value denoted by words of width [w], least significant word first. *)
Fixpoint words_value (w : Z) (ws : list Z) : Z :=
  match ws with [] => 0 | x :: ws => x + 2 ^ w * words_value w ws end.

(** Command line flags that name a target. *)
From Coq Require Import String.
Local Open Scope string_scope.
Definition flag_table : list (bytes * item_status) :=
  [(str "-i64", item_int64); (str "-i32", item_int32); (str "-i16", item_int16); (str "-i8", item_int8);
   (str "-u64", item_uint64); (str "-u32", item_uint32); (str "-u16", item_uint16); (str "-u8", item_uint8)].
Definition names_target (f : bytes) : bool :=
  List.existsb (fun p => bytes_eqb f (fst p)) flag_table.

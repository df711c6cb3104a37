(** Specification of the table of integer-keyed records. *)
From Verif Require Import Prelude VectorSpec HashModel.

(** What is stored under each key: the index of the record and its values. *)
Definition hstate := Z -> option (Z * list Z).
Definition hempty : hstate := fun _ => None.
Definition hput (S : hstate) (key : Z) (v : option (Z * list Z)) : hstate :=
  fun k => if k =? key then v else S k.

Inductive hop :=
| HAdd (key amount : Z)             (* hash_add *)
| HIndex (key : Z)                  (* hash_get_index *)
| HAmount (key : Z)                 (* hash_get_amount *)
| HGet (key num : Z)                (* hash_get *)
| HGet64 (key num : Z)              (* hash_get_int64 *)
| HGetDouble (key num : Z)          (* hash_get_double *)
| HSet (key num v : Z)              (* hash_set *)
| HSet64 (key num v : Z)            (* hash_set_int64 *)
| HSetDouble (key num v : Z)        (* hash_set_double *)
| HRemove (key : Z)                 (* hash_remove *)
| HKeyAt (i : Z)                    (* hash_get_key *)
| HAmountAt (i : Z)                 (* hash_get_amount_by_index *)
| HGetAt (i num : Z)                (* hash_get_by_index *)
| HSetAt (i num v : Z)              (* hash_set_by_index *)
| HRemoveAt (i : Z).                (* hash_remove_by_index *)

(** A key may be any item but ITEM_MAX.  Calls by index take an index of a
    present record.  The 64-bit and double setters are called with a valid
    position only (see [C12_failed_set_reported_as_success_refuted]). *)
Definition legal (S : hstate) (op : hop) : Prop :=
  let key_ok k := is_int64 k /\ k <> ITEM_MAX in
  match op with
  | HAdd k n => key_ok k /\ 0 <= n
  | HIndex k | HAmount k | HRemove k => key_ok k
  | HGet k n | HSet k n _ => key_ok k /\ is_size n
  | HGet64 k n | HGetDouble k n => key_ok k /\ 0 <= n < SIZE_MAX
  | HSet64 k n _ | HSetDouble k n _ => key_ok k /\ match S k with Some (_, vs) => 0 <= n < zlen vs | None => 0 <= n < SIZE_MAX end
  | HKeyAt i | HAmountAt i | HRemoveAt i => exists k vs, S k = Some (i, vs)
  | HGetAt i n | HSetAt i n _ => (exists k vs, S k = Some (i, vs)) /\ is_size n
  end.

Definition same (S S' : hstate) : Prop := forall k, S' k = S k.

(** What each call returns and does. *)
Definition hspec (S : hstate) (op : hop) (r : Z) (S' : hstate) : Prop :=
  match op with
  | HAdd k n =>
      match S k with
      | Some _ => r = SIZE_MAX /\ same S S'
      | None => 0 <= r < SIZE_MAX /\ (forall k' vs, S k' <> Some (r, vs))
                /\ same (hput S k (Some (r, repeat 0 (Z.to_nat n)))) S'
      end
  | HIndex k => r = match S k with Some (i, _) => i | None => SIZE_MAX end /\ same S S'
  | HAmount k => r = match S k with Some (_, vs) => zlen vs | None => 0 end /\ same S S'
  | HGet k n => r = match S k with Some (_, vs) => or_else (znth vs n) ITEM_MAX | None => ITEM_MAX end /\ same S S'
  | HGet64 k n => r = match S k with Some (_, vs) => or_else (znth vs n) LLONG_MAX | None => LLONG_MAX end /\ same S S'
  | HGetDouble k n =>
      r = spec_dbl (match S k with Some (_, vs) => or_else (znth vs n) 9218868437227405311 | None => 9218868437227405311 end)
      /\ same S S'
  | HSet k n v | HSet64 k n v | HSetDouble k n v =>
      match S k with
      | Some (i, vs) => if n <? zlen vs then r = i /\ same (hput S k (Some (i, zupd vs n v))) S'
                        else r = SIZE_MAX /\ same S S'
      | None => r = SIZE_MAX /\ same S S'
      end
  | HRemove k =>
      match S k with
      | Some _ => r = 0 /\ same (hput S k None) S'
      | None => r = -1 /\ same S S'
      end
  | HKeyAt i => (exists vs, S r = Some (i, vs)) /\ same S S'
  | HAmountAt i => (forall k vs, S k = Some (i, vs) -> r = zlen vs) /\ same S S'
  | HGetAt i n => (forall k vs, S k = Some (i, vs) -> r = or_else (znth vs n) ITEM_MAX) /\ same S S'
  | HSetAt i n v => forall k vs, S k = Some (i, vs) ->
      if n <? zlen vs then r = 0 /\ same (hput S k (Some (i, zupd vs n v))) S' else r = -1 /\ same S S'
  | HRemoveAt i => forall k vs, S k = Some (i, vs) -> r = 0 /\ same (hput S k None) S'
  end.

(** Running one call on the model. *)
Definition hexec (hs : list Z) (op : hop) : option (Z * list Z) :=
  let q (r : option Z) := do r <- r; Some (r, hs) in
  match op with
  | HAdd k n => hash_add hs k n
  | HIndex k => q (hash_get_index hs k)
  | HAmount k => q (hash_get_amount hs k)
  | HGet k n => q (hash_get hs k n)
  | HGet64 k n => q (hash_get_int64 hs k n)
  | HGetDouble k n => q (hash_get_double hs k n)
  | HSet k n v => hash_set hs k n v
  | HSet64 k n v => hash_set_int64 hs k n v
  | HSetDouble k n v => hash_set_double hs k n v
  | HRemove k => hash_remove hs k
  | HKeyAt i => Some (hash_get_key hs i, hs)
  | HAmountAt i => Some (hash_get_amount_by_index hs i, hs)
  | HGetAt i n => Some (hash_get_by_index hs i n, hs)
  | HSetAt i n v => Some (hash_set_by_index hs i n v)
  | HRemoveAt i => Some (hash_remove_by_index hs i)
  end.

(** Cells a call may add. *)
Definition hop_size (op : hop) : Z := match op with HAdd _ n => 3 + n | _ => 0 end.

(** Tables and states reached by legal histories that stay below 2^60 cells. *)
Inductive hreach : list Z -> hstate -> Prop :=
| hr_create : hreach hash_create hempty
| hr_step hs S op r hs' S' : hreach hs S -> legal S op -> zlen hs + hop_size op < 2 ^ 60 ->
    hexec hs op = Some (r, hs') -> hspec S op r S' -> hreach hs' S'.

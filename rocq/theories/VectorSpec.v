(** Specification of the growable vector and of the stack: a plain list. *)
From Verif Require Import Prelude.

(** Calls a client can make (C identifiers in comments). *)
Inductive vop :=
| OAdd (x : Z)              (* vector_add / vector_add_int64 / vector_add_double *)
| OSet (i x : Z)            (* vector_set *)
| OSet64 (i x : Z)          (* vector_set_int64 / vector_set_double *)
| OGet (i : Z)              (* vector_get *)
| OGet64 (i : Z)            (* vector_get_int64 *)
| OGetDouble (i : Z)        (* vector_get_double, as a bit pattern *)
| ORemove                   (* vector_remove / vector_remove_int64 *)
| ORemoveDouble             (* vector_remove_double, as a bit pattern *)
| OIncrease (n : Z)         (* vector_increase *)
| OResize (n : Z)           (* vector_resize *)
| OSize.                    (* vector_size *)

Definition or_else (o : option Z) (d : Z) : Z := match o with Some x => x | None => d end.

(** The bit pattern [LLONG_MAX] (a NaN) is the only one a double read distorts. *)
Definition spec_dbl (p : Z) : Z := if p =? LLONG_MAX then 9218868437227405311 else p.

(** A list resized to [n] cells: old prefix, zeros after it. *)
Definition resized (l : list Z) (n : Z) : list Z :=
  firstn (Z.to_nat n) l ++ repeat 0 (Z.to_nat (n - zlen l)).

(** [vspec mem l op r l']: on contents [l], call [op] returns [r] and leaves
    contents [l'].  A call that needs memory may fail only if the
    environment refuses memory ([mem = false]), and then changes nothing. *)
Definition vspec (mem : bool) (l : list Z) (op : vop) (r : Z) (l' : list Z) : Prop :=
  match op with
  | OAdd x => (r = zlen l /\ l' = l ++ [x]) \/ (mem = false /\ r = SIZE_MAX /\ l' = l)
  | OSet i x => if i <? zlen l then r = 0 /\ l' = zupd l i x else r = -1 /\ l' = l
  | OSet64 i x => if i <? zlen l then r = 1 /\ l' = zupd l i x else r = SIZE_MAX /\ l' = l
  | OGet i => r = or_else (znth l i) ITEM_MAX /\ l' = l
  | OGet64 i => r = or_else (znth l i) LLONG_MAX /\ l' = l
  | OGetDouble i => r = spec_dbl (or_else (znth l i) 9218868437227405311) /\ l' = l
  | ORemove => (l = [] /\ r = ITEM_MAX /\ l' = []) \/ l = l' ++ [r]
  | ORemoveDouble => (l = [] /\ r = 9218868437227405311 /\ l' = [])
                     \/ (exists p, l = l' ++ [p] /\ r = spec_dbl p)
  | OIncrease n => (r = 0 /\ l' = l ++ repeat 0 (Z.to_nat n)) \/ (mem = false /\ r = -1 /\ l' = l)
  | OResize n => (r = 0 /\ l' = resized l n) \/ (mem = false /\ zlen l < n /\ r = -1 /\ l' = l)
  | OSize => r = zlen l /\ l' = l
  end.

(** A whole history: environment answers, calls, results. *)
Inductive vtrace : list Z -> list (bool * vop) -> list Z -> list Z -> Prop :=
| vt_nil l : vtrace l [] [] l
| vt_cons mem op h r rs l l1 l2 :
    vspec mem l op r l1 -> vtrace l1 h rs l2 -> vtrace l ((mem, op) :: h) (r :: rs) l2.

(** Arguments are [size_t] values; the two-word accessors must not be given
    the index [SIZE_MAX] (see [vector_get_int64_wrap_refuted]). *)
Definition vop_ok (op : vop) : Prop :=
  match op with
  | OSet i _ | OGet i => is_size i
  | OSet64 i _ | OGet64 i | OGetDouble i => 0 <= i < SIZE_MAX
  | OIncrease n | OResize n => 0 <= n
  | _ => True
  end.

(** Cells a call may ask for. *)
Definition vop_demand (op : vop) : Z :=
  match op with OAdd _ => 1 | OIncrease n | OResize n => n | _ => 0 end.
Definition demand (h : list vop) : Z := fold_right (fun op s => vop_demand op + s) 0 h.

(** ** Stack *)
Inductive sop := SPush (x : Z) | SPop | SPeek | SReset | SSize.

Definition sspec (mem : bool) (l : list Z) (op : sop) (r : Z) (l' : list Z) : Prop :=
  (* the head of [l] is the top of the stack *)
  match op with
  | SPush x => (r = 0 /\ l' = x :: l) \/ (mem = false /\ r = -1 /\ l' = l)
  | SPop => match l with [] => r = ITEM_MAX /\ l' = [] | x :: t => r = x /\ l' = t end
  | SPeek => match l with [] => r = ITEM_MAX | x :: _ => r = x end /\ l' = l
  | SReset => r = 0 /\ l' = []
  | SSize => r = zlen l /\ l' = l
  end.

Inductive strace : list Z -> list (bool * sop) -> list Z -> list Z -> Prop :=
| st_nil l : strace l [] [] l
| st_cons mem op h r rs l l1 l2 :
    sspec mem l op r l1 -> strace l1 h rs l2 -> strace l ((mem, op) :: h) (r :: rs) l2.

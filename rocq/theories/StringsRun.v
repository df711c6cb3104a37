(** Histories of calls to the string table, run on the model.  Each call comes
    with the environment (allocator, fresh memory) it sees. *)
From Verif Require Import Prelude Utf8Model UniioModel StringsModel StringsSpec.

(** Memory is never refused. *)
Definition mem_always (e : oenv) : Prop := forall n, 0 < n < 2 ^ 64 -> o_alloc e n = true.

Definition strexec (e : oenv) (v : strings) (op : strop) : option (strres * strings) :=
  match op with
  | SAdd s => do ' (r, v) <- strings_add e v s; Some (RNum r, v)
  | SAddUtf8 cs => do ' (r, v) <- strings_add_by_utf8 e v cs; Some (RNum r, v)
  | SAddVector cs => do ' (r, v) <- strings_add_by_vector e v cs; Some (RNum r, v)
  | SGet i => do r <- strings_get v i; Some (RText r, v)
  | SLength i => do r <- strings_get_length v i; Some (RNum r, v)
  | SRemove => do ' (r, v) <- strings_remove v; Some (RText r, v)
  | SSize => Some (RNum (strings_size v), v)
  end.
Fixpoint strrun (v : strings) (h : list (oenv * strop)) : option (list strres * strings) :=
  match h with
  | [] => Some ([], v)
  | (e, op) :: h => do ' (r, v) <- strexec e v op; do ' (rs, v) <- strrun v h; Some (r :: rs, v)
  end.


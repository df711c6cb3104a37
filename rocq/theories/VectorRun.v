(** Running a client's history of calls on the model of vector.c / stack.h. *)
From Verif Require Import Prelude VectorModel VectorSpec.

(** One call. *)
Definition vexec (e : env) (v : vector) (op : vop) : option (Z * vector) :=
  match op with
  | OAdd x => vector_add e v x
  | OSet i x => vector_set v i x
  | OSet64 i x => vector_set_int64 v i x
  | OGet i => do r <- vector_get v i; Some (r, v)
  | OGet64 i => do r <- vector_get_int64 v i; Some (r, v)
  | OGetDouble i => do r <- vector_get_double v i; Some (r, v)
  | ORemove => vector_remove v
  | ORemoveDouble => vector_remove_double v
  | OIncrease n => vector_increase e v n
  | OResize n => vector_resize e v n
  | OSize => Some (vector_size v, v)
  end.

Fixpoint vrun (v : vector) (h : list (env * vop)) : option (list Z * vector) :=
  match h with
  | [] => Some ([], v)
  | (e, op) :: h =>
      do '(r, v1) <- vexec e v op;
      do '(rs, v2) <- vrun v1 h;
      Some (r :: rs, v2)
  end.

(** The environment's answers about memory, as the specification sees them. *)
Definition mems (h : list (env * vop)) : list (bool * vop) := map (fun p => (mem_ok (fst p), snd p)) h.

(** All cells readable through the interface. *)
Definition contents (v : vector) : list (option Z) :=
  map (fun k => vector_get v (Z.of_nat k)) (seq 0 (Z.to_nat (vector_size v))).

(** The stack. *)
Definition sexec (e : env) (s : vector) (op : sop) : option (Z * vector) :=
  match op with
  | SPush x => stack_push e s x
  | SPop => stack_pop s
  | SPeek => do r <- stack_peek s; Some (r, s)
  | SReset => stack_reset e s
  | SSize => Some (stack_size s, s)
  end.

Fixpoint srun (v : vector) (h : list (env * sop)) : option (list Z * vector) :=
  match h with
  | [] => Some ([], v)
  | (e, op) :: h =>
      do '(r, v1) <- sexec e v op;
      do '(rs, v2) <- srun v1 h;
      Some (r :: rs, v2)
  end.

Definition smems (h : list (env * sop)) : list (bool * sop) := map (fun p => (mem_ok (fst p), snd p)) h.


(** Bound on all sizes: 8-byte cells in a 64-bit address space. *)
Definition two60 : Z := 1152921504606846976.


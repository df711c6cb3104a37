(** C01 and C02: the vector is a list, the stack is LIFO. *)
From Verif Require Import Prelude VectorModel VectorSpec VectorRun VectorProofs.

(** C01.  For every history of calls (with any answers of the memory
    allocator and any initial contents of fresh memory) whose total demand is
    below 2^60 cells, no call has undefined behaviour, every returned value is
    the one the list specification allows, and the readable contents at the
    end are the specified list. *)
Theorem C01_vector_is_a_list : forall e0 alloc h,
  mem_ok e0 = true -> 0 <= alloc < two60 ->
  Forall vop_ok (map snd h) -> demand (map snd h) < two60 ->
  exists rs v l, vrun (vector_create e0 alloc) h = Some (rs, v)
    /\ vtrace [] (mems h) rs l
    /\ contents v = map Some l.
Proof. exact vector_ok. Qed.
Print Assumptions C01_vector_is_a_list.

Definition e_ok : env := mkEnv true (fun k => 777 + k).
Definition e_no : env := mkEnv false (fun k => k).

Example C01_example_hyps :
  let h := [(e_ok, OAdd 5); (e_ok, OAdd 6); (e_no, OAdd 7); (e_ok, OResize 5);
            (e_ok, OSet 4 9); (e_ok, OResize 1); (e_ok, OIncrease 2); (e_ok, OGet 2);
            (e_ok, OGet SIZE_MAX); (e_ok, ORemove); (e_ok, OSet64 1 3); (e_ok, OSize)] in
  mem_ok e_ok = true /\ 0 <= 1 < two60 /\ Forall vop_ok (map snd h) /\ demand (map snd h) < two60
  /\ option_map fst (vrun (vector_create e_ok 1) h)
     = Some [0; 1; SIZE_MAX; 0; 0; 0; 0; 0; ITEM_MAX; 0; 1; 2].
Proof.
  cbv zeta. split; [reflexivity|]. split; [unfold two60; lia|]. split.
  - repeat constructor; cbn; unfold is_size, SIZE_MAX, two64; lia.
  - split; vm_compute; reflexivity.
Qed.

(** The one hole in the two-word accessors: at index [SIZE_MAX] the bound check
    wraps around and the access is outside the block, whatever the vector
    holds. *)
Theorem C01_vector_get_int64_wrap_refuted :
  exists v, vector_get_int64 v SIZE_MAX = None /\ vector_get v SIZE_MAX = Some ITEM_MAX
    /\ exists e, v = vector_create e 1.
Proof. exists (vector_create e_ok 1). split; [vm_compute; reflexivity|]. split; [vm_compute; reflexivity|]. exists e_ok. reflexivity. Qed.
Print Assumptions C01_vector_get_int64_wrap_refuted.

(** C02.  Push, pop, peek, reset and size follow the LIFO specification. *)
Theorem C02_stack_is_lifo : forall e0 alloc h,
  mem_ok e0 = true -> 0 <= alloc < two60 -> zlen h < two60 ->
  exists rs s l, srun (stack_create e0 alloc) h = Some (rs, s)
    /\ strace [] (smems h) rs l /\ contents s = map Some (rev l).
Proof. exact stack_ok. Qed.
Print Assumptions C02_stack_is_lifo.

(** C02, as a direct law: pushing any list of items and popping as many gives
    the items back in reverse order and an empty stack. *)
Theorem C02_push_all_pop_all : forall e0 alloc xs es1 es2,
  mem_ok e0 = true -> 0 <= alloc < two60 -> 2 * zlen xs < two60 ->
  length es1 = length xs -> length es2 = length xs ->
  Forall (fun e => mem_ok e = true) es1 ->
  exists s, srun (stack_create e0 alloc)
     (combine es1 (map SPush xs) ++ combine es2 (map (fun _ => SPop) xs))
     = Some (map (fun _ => 0) xs ++ rev xs, s) /\ contents s = [].
Proof. exact stack_push_pop_ok. Qed.
Print Assumptions C02_push_all_pop_all.

Example C02_example :
  option_map fst (srun (stack_create e_ok 0)
    [(e_ok, SPop); (e_ok, SPush 1); (e_ok, SPush 2); (e_ok, SPush 3); (e_ok, SPop); (e_no, SPeek);
     (e_ok, SSize); (e_no, SReset); (e_ok, SPeek)])
  = Some [ITEM_MAX; 0; 0; 0; 3; 2; 2; 0; ITEM_MAX].
Proof. vm_compute. reflexivity. Qed.

(** C02 fails for the two-word peeks: on an empty stack they read outside the
    block, for every initial size and every environment. *)
Theorem C02_peek_int64_empty_refuted : forall e alloc,
  mem_ok e = true -> 0 <= alloc < two60 ->
  stack_peek_int64 (stack_create e alloc) = None
  /\ stack_peek_double (stack_create e alloc) = None.
Proof. exact peek_int64_empty. Qed.
Print Assumptions C02_peek_int64_empty_refuted.

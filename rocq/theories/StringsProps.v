(** C09: the string table. *)
From Verif Require Import Prelude Utf8Model Utf8Spec UniioModel StringsModel StringsSpec StringsRun StringsProofs.
From Coq Require String.
Import String.StringSyntax.
Local Open Scope string_scope.
Local Open Scope list_scope.
Local Open Scope Z_scope.

(** C09.  Every history of calls on a new table gives the results the list of
    strings gives ([strspec]), whatever the initial allocation and whatever
    fresh memory contains. *)
Theorem C09_string_table_is_a_list : forall e0 alloc h,
  0 <= alloc < 2 ^ 50 -> Forall mem_always (map fst h) -> Forall strop_ok (map snd h) ->
  strops_size (map snd h) < 2 ^ 59 ->
  exists v, strrun (strings_create e0 alloc) h = Some (fst (strspecs [] (map snd h)), v).
Proof. exact strings_full. Qed.
Print Assumptions C09_string_table_is_a_list.

Definition e_any : oenv := mkOenv (fun _ => true) (fun i => 65 + i mod 26).

Example C09_example :
  let h := map (fun op => (e_any, op))
    [SAdd (str "alpha"); SAddUtf8 [0x43F; 0x20AC]; SGet 0; SLength 1; SAdd (str ""); SAddVector [66; 67];
     SRemove; SSize; SGet 1; SGet 2; SRemove; SRemove; SRemove; SAdd (str "z"); SLength 0] in
  Forall strop_ok (map snd h) /\ Forall mem_always (map fst h) /\
  option_map fst (strrun (strings_create e_any 0) h) =
    Some [RNum 0; RNum 1; RText (Some (str "alpha")); RNum 5; RNum SIZE_MAX; RNum 2;
          RText (Some (str "BC")); RNum 2; RText (Some (encs [0x43F; 0x20AC])); RText None;
          RText (Some (encs [0x43F; 0x20AC])); RText (Some (str "alpha")); RText None; RNum 0; RNum 1].
Proof.
  split; [|split]; [..|vm_compute; reflexivity].
  - cbn [map snd]. repeat (apply Forall_cons || apply Forall_nil); cbn [strop_ok]; try lia; try exact I;
      repeat match goal with |- _ /\ _ => split end; try discriminate;
      repeat (apply Forall_cons || apply Forall_nil); unfold good_symbol; try lia; vm_compute; discriminate.
  - cbn [map fst]. repeat (apply Forall_cons || apply Forall_nil); intros n _; reflexivity.
Qed.

(** C09 fails for an empty text handed over in a vector (the literal [""]): the
    call succeeds, but the terminating byte is never written, so the string
    read back is whatever the fresh memory holds. *)
Theorem C09_empty_vector_refuted : forall b, 1 <= b < 256 ->
  exists e, mem_always e /\
  exists v, strings_add_by_vector e (strings_create e 1) [] = Some (0, v)
    /\ strings_get v 0 = Some (Some [b]).
Proof.
  intros b Hb. exists (mkOenv (fun _ => true) (fun i => if i =? 0 then b else 0)). split; [intros n _; reflexivity|].
  eexists. split; [vm_compute; reflexivity|].
  unfold strings_get, string_at. cbn [s_n s_idx s_all Z.leb Z.compare]. rewrite znth_cons_0. cbn [bind Z.to_nat skipn c_string].
  replace (b =? 0) with false by lia. reflexivity.
Qed.
Print Assumptions C09_empty_vector_refuted.

(** When memory is refused in the middle of [strings_add], the call reports
    failure but the bytes already copied stay in the arena, so the length of the
    string before them is wrong from then on. *)
Theorem C09_length_after_failure_refuted :
  let e := mkOenv (fun n => n <=? 8) (fun _ => 0) in
  exists v1 v2, strings_add e (strings_create e 1) [65; 66] = Some (0, v1)
    /\ strings_add (mkOenv (fun n => n <=? 16) (fun _ => 0)) v1 (repeat 67 300) = Some (SIZE_MAX, v2)
    /\ strings_get v2 0 = Some (Some [65; 66]) /\ strings_get_length v2 0 = Some 254.
Proof.
  cbv zeta. eexists _, _. split; [vm_compute; reflexivity|].
  split; [vm_compute; reflexivity|]. split; vm_compute; reflexivity.
Qed.
Print Assumptions C09_length_after_failure_refuted.

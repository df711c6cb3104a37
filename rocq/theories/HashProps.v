(** C12: the table of integer-keyed records. *)
From Verif Require Import Prelude VectorSpec LVec HashModel HashSpec HashProofs.

(** C12.  In every table reached by a history of calls, every further call
    returns and does what the finite map from keys to tuples says. *)
Theorem C12_hash_is_a_table_of_records : forall hs S op,
  hreach hs S -> legal S op -> zlen hs + hop_size op < 2 ^ 60 ->
  exists r hs' S', hexec hs op = Some (r, hs') /\ hspec S op r S'.
Proof. exact hash_full. Qed.
Print Assumptions C12_hash_is_a_table_of_records.

Definition hrun (ops : list hop) : option (list Z * list Z) :=
  fold_left (fun st op => do ' (rs, hs) <- st; do ' (r, hs) <- hexec hs op; Some (rs ++ [r], hs)) ops (Some ([], hash_create)).

(** Keys 5, 261 and -251 share a bucket; 261 is removed and its record reused. *)
Example C12_example :
  option_map fst (hrun [HAdd 5 2; HAdd 261 1; HAdd 5 1; HSet 5 1 77; HSet 261 0 88; HRemove 261; HGet 261 0; HAdd (-251) 1;
                        HIndex (-251); HGet (-251) 0; HGet 5 1; HAmount 5; HAdd 261 1; HKeyAt 261; HSet 5 2 9; HRemove 1])
  = Some [256; 261; SIZE_MAX; 256; 261; 0; ITEM_MAX; 261; 261; 0; 77; 2; 265; -251; SIZE_MAX; -1].
Proof. vm_compute. reflexivity. Qed.

(** The hypotheses are met along such a history. *)
Example C12_example_reach : exists hs S, hreach hs S /\ legal S (HAdd 261 1) /\ zlen hs + hop_size (HAdd 261 1) < 2 ^ 60
  /\ S 5 = Some (256, [0; 0]) /\ S 261 = None.
Proof.
  exists (snd (match hash_add hash_create 5 2 with Some p => p | None => (0, []) end)), (hput hempty 5 (Some (256, [0; 0]))).
  assert (K: forall x, 0 <= x < 1000 -> is_int64 x /\ x <> ITEM_MAX) by (intros; unfold is_int64, LLONG_MIN, ITEM_MAX, LLONG_MAX, two63; lia).
  split; [|split; [|split; [vm_compute; reflexivity|split; reflexivity]]].
  - apply (hr_step hash_create hempty (HAdd 5 2) 256); [constructor| |vm_compute; reflexivity|vm_compute; reflexivity|].
    + split; [apply K; lia|lia].
    + cbn [hspec hempty]. split; [vm_compute; intuition congruence|]. split; [discriminate|]. intros k. reflexivity.
  - split; [apply K; lia|lia].
Qed.

(** The setters for 64-bit and floating values report success even when the
    position is outside the record and nothing was stored. *)
Theorem C12_failed_set_reported_as_success_refuted :
  option_map fst (hrun [HAdd 5 2; HSet64 5 9 1; HSetDouble 5 9 1; HSet 5 9 1]) = Some [256; 256; 256; SIZE_MAX].
Proof. vm_compute. reflexivity. Qed.
Print Assumptions C12_failed_set_reported_as_success_refuted.

(** C03 and C48: splitting 64-bit values into target words; choosing the target. *)
From Verif Require Import Prelude ItemModel ItemSpec ItemProofs.
From Coq Require Import String.
Local Open Scope string_scope.
Local Open Scope Z_scope.

(** C03.  For every target and every 64-bit value the words written are
    64/width many, their low bits are the value's bits in order, every word is
    in the target's range (for u64 only if the value is not negative, see
    below), and reading the words back gives the value. *)
Theorem C03_store_restore_int64 : forall st V, target st -> is_int64 V ->
  exists ws, item_store_int64_for_target st V = Some ws
    /\ Z.of_nat (List.length ws) * width st = 64
    /\ words_value (width st) (map (fun w => w mod 2 ^ width st) ws) = V mod two64
    /\ (st <> item_uint64 \/ 0 <= V -> Forall (word_range st) ws)
    /\ item_restore_int64_for_target st ws = Some V.
Proof. exact store_full. Qed.
Print Assumptions C03_store_restore_int64.

(** C03.  [item_check_var] accepts exactly the values of the target's range
    (among the values an [item_t] can hold). *)
Theorem C03_check_var_is_range : forall st x, target st -> is_int64 x ->
  item_check_var st x = true <-> word_range st x.
Proof. exact check_var_ok. Qed.
Print Assumptions C03_check_var_is_range.

(** C03 for doubles, as bit patterns, except the pattern [LLONG_MAX]. *)
Theorem C03_store_restore_double : forall st P, target st -> is_int64 P -> P <> LLONG_MAX ->
  exists ws, item_store_double_for_target st P = Some ws
    /\ item_restore_double_for_target st ws = Some P.
Proof. exact store_double_full. Qed.
Print Assumptions C03_store_restore_double.

Example C03_example :
  item_store_int64_for_target item_int8 (-2) = Some [-2; -1; -1; -1; -1; -1; -1; -1]
  /\ item_store_int64_for_target item_uint16 (-65537) = Some [65535; 65534; 65535; 65535]
  /\ item_restore_int64_for_target item_uint16 [65535; 65534; 65535; 65535] = Some (-65537).
Proof. vm_compute. auto. Qed.

(** C03 is false for u64: a negative value yields a word the range check refuses. *)
Theorem C03_u64_negative_refuted :
  exists V ws, is_int64 V /\ item_store_int64_for_target item_uint64 V = Some ws
    /\ existsb (fun w => negb (item_check_var item_uint64 w)) ws = true.
Proof. exists (-1), [-1]. split; [unfold is_int64, LLONG_MIN, LLONG_MAX, two63; lia|]. vm_compute. auto. Qed.
Print Assumptions C03_u64_negative_refuted.

(** C03 is false for the double whose pattern is [LLONG_MAX] (a NaN): it is read
    back as DBL_MAX. *)
Theorem C03_double_pattern_refuted : forall st, target st ->
  exists ws, item_store_double_for_target st LLONG_MAX = Some ws
    /\ item_restore_double_for_target st ws = Some DBL_MAX_bits /\ DBL_MAX_bits <> LLONG_MAX.
Proof. exact double_nan. Qed.
Print Assumptions C03_double_pattern_refuted.

(** C48.  The target is the one named on the command line, int32 if none is
    named, an error if more than one is named; other flags do not matter. *)
Theorem C48_target_selection : forall fl,
  (filter names_target fl = [] -> item_get_status fl = item_int32)
  /\ (forall f s, filter names_target fl = [f] -> In (f, s) flag_table -> item_get_status fl = s)
  /\ (forall f g r, filter names_target fl = f :: g :: r -> item_get_status fl = item_error).
Proof. exact get_status_spec. Qed.
Print Assumptions C48_target_selection.

Example C48_example :
  item_get_status [str "-o"; str "-u8"; str "-Wno"] = item_uint8
  /\ filter names_target [str "-o"; str "-u8"; str "-Wno"] = [str "-u8"]
  /\ In (str "-u8", item_uint8) flag_table
  /\ item_get_status [str "-i8"; str "x"; str "-i16"] = item_error.
Proof. repeat split; try (vm_compute; reflexivity). unfold flag_table. cbn [In]. tauto. Qed.

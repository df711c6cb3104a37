(** C39: the exported text. *)
From Verif Require Import Prelude LVec ItemModel ItemSpec TypesModel TypesSpec LexModel ParseModel InstrModel BuildModel CodeModel ExportSpec ExportProofs.

(** Export succeeds exactly if every word of every table is in the range of the
    target words. *)
Theorem C39_refuses : forall c shebang e types,
  target (c_target c) -> Forall (Forall is_int64) (tables e types) ->
  (snd (enc_export c shebang e types) = true <-> Forall (Forall (word_range (c_target c))) (tables e types)).
Proof. exact export_fits. Qed.
Print Assumptions C39_refuses.

(** Then the text after the first line holds the sizes of the tables and the size
    of the global storage, and on the following lines exactly the tables. *)
Theorem C39_exact : forall c shebang e types,
  Forall (Forall is_int64) (tables e types) -> Forall (fun t => is_int64 (zlen t)) (tables e types) -> is_int64 (e_max_global e) ->
  snd (enc_export c shebang e types) = true ->
  exists text, fst (enc_export c shebang e types) = shebang ++ text
    /\ read_lines text = Some ((map zlen (tables e types) ++ [e_max_global e; 0]) :: tables e types).
Proof. exact export_reads. Qed.
Print Assumptions C39_exact.

Definition ex_ctx (st : item_status) : ctx :=
  mkCtx (fun _ => t_int) (fun _ => 0) (fun _ => 0) (fun _ => []) (fun _ => []) (fun _ => 0) (fun _ => 0) st.
Definition ex_enc : enc := fold_left mem_add [-5; 32767; 0; 1234567] (enc_create 10).
Example C39_example :
  snd (enc_export (ex_ctx item_int32) [] ex_enc [7; -8]) = true /\ snd (enc_export (ex_ctx item_int16) [] ex_enc [7; -8]) = false
  /\ read_lines (fst (enc_export (ex_ctx item_int32) [] ex_enc [7; -8]))
     = Some [[8; 2; 0; 0; 2; 3; 0]; [0; 0; 0; 0; -5; 32767; 0; 1234567]; [0; 0]; []; []; [7; -8]]
  /\ Forall (Forall is_int64) (tables ex_enc [7; -8]) /\ target item_int32.
Proof.
  split; [vm_compute; reflexivity|]. split; [vm_compute; reflexivity|]. split; [vm_compute; reflexivity|].
  split; [|split; discriminate]. cbn. unfold is_int64, LLONG_MIN, LLONG_MAX, two63. repeat (constructor; try lia).
Qed.

(** The size of the global storage in the first line is not checked: a target
    of 8 bit words gets a size of 1000. *)
Theorem C39_global_size_refuted :
  let e := set_frame (set_mem (enc_create 10) []) 0 0 1000 in
  snd (enc_export (ex_ctx item_int8) [] e []) = true /\ ~ word_range item_int8 (e_max_global e)
  /\ read_lines (fst (enc_export (ex_ctx item_int8) [] e [])) = Some [[0; 2; 0; 0; 0; 1000; 0]; []; [0; 0]; []; []; []].
Proof.
  cbv zeta. split; [vm_compute; reflexivity|]. split; [|vm_compute; reflexivity]. cbn. lia.
Qed.
Print Assumptions C39_global_size_refuted.

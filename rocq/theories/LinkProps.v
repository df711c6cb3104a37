(** C36: calls of functions defined later. *)
From Verif Require Import Prelude LVec ItemModel TypesModel TypesSpec LexModel ParseModel InstrModel BuildModel CodeModel LinkSpec LinkProofs.

(** At the start no call is pending and no function of the program is defined. *)
Definition start (e : enc) : account := mkAccount [] [] [] (e_mem e) (e_funcs e) (e_params e).
Definition untouched (e : enc) : Prop :=
  0 < mem_size e /\ 0 < zlen (e_funcs e) /\ (forall id, 0 <= id < zlen (e_displs e) -> displacements_get e id = 0).

(** After any history of words written and patched, calls compiled and functions
    defined, in any order: the code has the words which were written, every call
    holds the number of the definition of its function once there is one, the
    number leads to the place of the definition, and nothing else is changed.
    Missing: that the code generator patches no call, see below. *)
Theorem C36_linked_partial : forall c e xs,
  let size := zlen (e_displs e) in
  let l := fold_left (note c size) xs (start e) in
  let e' := fold_left (act c) xs e in
  untouched e -> proper_all c size (start e) xs = true ->
  zlen (e_mem e') = zlen (text l)
  /\ (forall a v, belongs l a = Some v -> znth (e_mem e') a = Some v)
  /\ e_funcs e' = table l
  /\ (forall id n, known (numbers l) id = Some n -> displacements_get e' id = n)
  /\ e_hung e' = e_hung e.
Proof.
  intros c e xs size l e' (P & F & Z0) Pr.
  assert (G0 : good size e (start e)).
  { constructor; cbn; auto; try discriminate; try constructor; try contradiction.
    - rewrite Z0 by assumption. lia.
    - rewrite Z0 by assumption. reflexivity. }
  destruct (linked c size xs e (start e) G0 Pr) as [G H]. fold l e' in G, H.
  split; [apply (g_long _ _ _ G)|]. split; [intros a v; apply (good_belongs _ _ _ _ _ G)|]. split; [apply (g_table _ _ _ G)|].
  split; [|exact H]. intros id n K. apply (g_numbers _ _ _ G id n K).
Qed.
Print Assumptions C36_linked_partial.

(** The target of a call is compiled by this action. *)
Theorem C36_call_is_action : forall c t f args e, BEGIN_USER_FUNC <= f -> f <> BI_PRINTF -> f <> BI_PRINT -> f <> BI_PRINTID -> f <> BI_GETID ->
  exists e1, (exists v, e1 = mem_add v IC_CALL2) /\ emit_expression c (NCall t (NIdent t f) args) e = act c e1 (ACall f).
Proof.
  intros c t f args e H N1 N2 N3 N4. unfold emit_expression. cbn [emit is_lvalue get_id].
  replace (f =? BI_PRINTF) with false by lia. replace (f =? BI_PRINT) with false by lia. replace (f =? BI_PRINTID) with false by lia.
  replace (f =? BI_GETID) with false by lia. replace (BEGIN_USER_FUNC <=? f) with true by lia. cbn [snd]. eexists. split; [eexists; reflexivity|reflexivity].
Qed.
Print Assumptions C36_call_is_action.

(** Functions [f] and [g] with prototypes, identifiers 200 and 204, and
    definitions 208 and 212. *)
Definition ex_ctx : ctx :=
  mkCtx (fun _ => TFunction t_int []) (fun id => if id =? 208 then 200 else if id =? 212 then 204 else ITEM_MAX)
        (fun _ => 0) (fun _ => []) (fun _ => []) (fun _ => 0) (fun _ => 0) item_int32.
Definition ex_history : list action :=
  [AWord 1; ACall 200; AWord 2; ACall 204; ACall 200; ASet 4 7; ACall 204; ADefine 212; AWord 3; ACall 200; ACall 212; ADefine 208; ACall 208].
Example C36_linked_example :
  let l := fold_left (note ex_ctx 300) ex_history (start (enc_create 300)) in
  untouched (enc_create 300) /\ proper_all ex_ctx 300 (start (enc_create 300)) ex_history = true
  /\ zlen (e_displs (enc_create 300)) = 300
  /\ map (belongs l) [4; 5; 6; 7; 8; 9; 10; 11; 12; 13] = map Some [7; 3; 2; 2; 3; 2; 3; 3; 2; 3]
  /\ e_mem (fold_left (act ex_ctx) ex_history (enc_create 300)) = [0; 0; 0; 0; 7; 3; 2; 2; 3; 2; 3; 3; 2; 3]
  /\ table l = [0; 0; 10; 13].
Proof.
  cbv zeta. split; [|vm_compute; auto]. split; [vm_compute; reflexivity|]. split; [vm_compute; reflexivity|].
  intros id H. unfold displacements_get, lv_get. change (e_displs (enc_create 300)) with (repeat 0 300) in *. rewrite znth_repeat; [reflexivity|].
  change (zlen (repeat 0 300)) with 300 in H. lia.
Qed.

(** The full statement is false: a statement [f();] at the right place makes the
    code generator take the address of the call before for an instruction and
    change it into the instruction without a result.  The first call is not
    linked, and a word elsewhere is overwritten. *)
Definition call_f : stmt := SExpr (NCall t_int (NIdent (TFunction t_int []) 200) []).
Definition far_enc : enc := mem_increase (enc_create 300) (9008 - 4).
Theorem C36_linked_refuted :
  let e1 := emit_statement ex_ctx call_f far_enc in
  let e2 := emit_statement ex_ctx call_f e1 in
  let e3 := act ex_ctx (mem_increase e2 1000) (ADefine 208) in
  displacements_get e3 208 = 2
  /\ mem_get e1 9009 = IC_CALL2 /\ mem_get e2 9012 = IC_CALL2
  /\ mem_get e3 9013 = 2 /\ mem_get e3 9010 <> 2 /\ mem_get e3 9210 = 2.
Proof. cbv zeta. vm_compute. repeat split; discriminate. Qed.
Print Assumptions C36_linked_refuted.

(** A function passed as an argument before its definition is not linked at all:
    whatever follows, the word for it stays 0. *)
Theorem C36_argument_refuted :
  let take := SExpr (NCall t_int (NIdent (TFunction t_int [TFunction t_int []]) 204) [NIdent (TFunction t_int []) 200]) in
  let e1 := emit_statement ex_ctx take (enc_create 300) in
  let e2 := act ex_ctx e1 (ADefine 208) in
  displacements_get e2 208 = 2 /\ e_mem e2 = [0; 0; 0; 0; IC_CALL1; IC_LI; 0; IC_CALL2; 0].
Proof. cbv zeta. vm_compute. auto. Qed.
Print Assumptions C36_argument_refuted.

(** C31: storage of variables. *)
From Verif Require Import Prelude LVec ItemModel TypesModel TypesSpec LexModel ParseModel InstrModel BuildModel CodeModel StoreSpec StoreProofs StoreStmt StoreUnit.

(** At every point of a function, for every nesting of blocks, the visible
    variables lie in the frame above its first three cells, no two of them
    overlap, and the frame size is the one in the header of the function.
    Identifiers are declared once (C27), and what is called is not a variable,
    or it is a parameter. *)
Theorem C31_frames : forall c id params body e,
  let variables := params ++ declared body in
  let e' := emit_function_definition c id params body e in
  NoDup variables -> Forall (fun x => 0 <= x < zlen (e_displs e)) variables ->
  (forall x, In x variables -> In x (stmt_calls body) -> In x params) ->
  exists frame, mem_get e' (mem_size e + 1) = frame
    /\ forall visible, In visible (points params body) ->
       (forall x, In x visible -> 3 <= first_cell e' x /\ first_cell e' x + cells_of c x <= frame)
       /\ (forall i j x y, i <> j -> nth_error visible i = Some x -> nth_error visible j = Some y -> apart (first_cell e') (cells_of c) x y).
Proof.
  intros c id params body e variables e' ND R HC.
  destruct (function_step c id params body e ND) as (_ & _ & _ & _ & frame & H & F).
  - intros x Hx. rewrite Forall_forall in R. split; [|apply R, Hx]. destruct (in_dec Z.eq_dec x (stmt_calls body)) as [J|J]; [right; apply HC; assumption|left; exact J].
  - exists frame. split; [exact H|]. intros visible V. rewrite Forall_forall in F. specialize (F visible V). split.
    + intros x Hx. exact (packed_inside _ _ _ _ _ _ F Hx).
    + clear -F. induction F as [|z l A B D F IH]; intros i j x y N Hx Hy; [destruct i; discriminate|].
      rewrite Forall_forall in D. destruct i as [|i], j as [|j]; cbn in Hx, Hy; [congruence| | |eapply (IH i j); eauto].
      * injection Hx as ->. apply D. eapply nth_error_In; eauto.
      * injection Hy as ->. destruct (D x) as [Q|Q]; [eapply nth_error_In; eauto|right; exact Q|left; exact Q].
Qed.
Print Assumptions C31_frames.

(** The variables declared outside functions, for every program: they do not
    overlap, lie below the size of the global storage which is exported, and are
    marked as global by a negative displacement. *)
Theorem C31_globals : forall c main ds e,
  let e' := emit_translation_unit c main ds e in
  e_params e = None -> 3 <= e_max_global e ->
  NoDup (flat_map top_names ds) -> Forall (fun x => 0 <= x < zlen (e_displs e)) (flat_map top_names ds) ->
  (forall x, In x (flat_map globals ds) -> ~ In x (flat_map top_calls ds)) ->
  (forall id params body, In (TopFunc id params body) ds -> forall x, In x (params ++ declared body) -> In x (stmt_calls body) -> In x params) ->
  packed (first_cell e') (cells_of c) 3 (e_max_global e') (flat_map globals ds)
  /\ Forall (fun x => displacements_get e' x < 0) (flat_map globals ds).
Proof.
  intros c main ds e e' P M ND R NC HF.
  assert (P0 : placed c (zlen (e_displs e)) e []) by (repeat split; auto; constructor).
  destruct (placed_unit c (zlen (e_displs e)) ds e [] P0 ND) as (_ & _ & _ & A & B); [|exact NC| |split; [exact A|exact B]].
  - intros x Hx. rewrite Forall_forall in R. auto.
  - intros id params body Hd x Hx. destruct (in_dec Z.eq_dec x (stmt_calls body)) as [J|J]; [right; eapply HF; eauto|left; exact J].
Qed.
Print Assumptions C31_globals.

(** A function with a parameter [p], nested blocks, a loop with a variable of its
    own and a structure: storage is given out again, variables visible together
    do not share it. *)
Definition point : ty := TStruct [(t_int, 0); (t_float, 1)].
Definition ex_ctx : ctx :=
  mkCtx (fun id => if id =? 210 then point else if id =? 200 then TFunction t_int [t_int] else t_int)
        (fun _ => ITEM_MAX) (fun _ => 0) (fun _ => []) (fun _ => []) (fun _ => 0) (fun _ => 0) item_int32.
Definition call_self : stmt := SExpr (NCall t_int (NIdent (TFunction t_int [t_int]) 200) [NIdent t_int 204]).
Definition ex_body : stmt :=
  SCompound [SDecl [DVar 206 [] None];
             SCompound [SDecl [DVar 208 [] None]; SDecl [DVar 210 [] None]; call_self];
             SFor (Some (SDecl [DVar 212 [] None])) None None (SCompound [SDecl [DVar 214 [] None]; SBreak]);
             SDecl [DVar 216 [] None]].
Example C31_frames_example :
  let e' := emit_function_definition ex_ctx 200 [204] ex_body (enc_create 300) in
  NoDup ([204] ++ declared ex_body) /\ Forall (fun x => 0 <= x < 300) ([204] ++ declared ex_body)
  /\ (forall x, In x ([204] ++ declared ex_body) -> In x (stmt_calls ex_body) -> In x [204])
  /\ In [204; 206; 208; 210] (points [204] ex_body) /\ In [204; 206; 212; 214] (points [204] ex_body) /\ In [204; 206; 216] (points [204] ex_body)
  /\ map (first_cell e') [204; 206; 208; 210; 212; 214; 216] = [3; 4; 5; 6; 5; 6; 5] /\ mem_get e' 5 = 9.
Proof.
  cbv zeta. split; [repeat constructor; cbn; lia|]. split; [repeat constructor; lia|]. split; [intros x H [<-|[]]; cbn in H; lia|].
  split; [vm_compute; tauto|]. split; [vm_compute; tauto|]. split; [vm_compute; tauto|]. split; vm_compute; reflexivity.
Qed.
Example C31_globals_example :
  let ds := [TopDecl (DVar 202 [] None); TopDecl (DVar 210 [] None); TopFunc 200 [204] (SCompound [SDecl [DVar 206 [] None]; call_self]); TopDecl (DVar 220 [] None)] in
  let e' := emit_translation_unit ex_ctx 200 ds (enc_create 300) in
  NoDup (flat_map top_names ds) /\ Forall (fun x => 0 <= x < 300) (flat_map top_names ds)
  /\ (forall x, In x (flat_map globals ds) -> ~ In x (flat_map top_calls ds))
  /\ flat_map globals ds = [202; 210; 220] /\ map (first_cell e') [202; 210; 220] = [3; 4; 7] /\ e_max_global e' = 8.
Proof.
  cbv zeta. split; [repeat constructor; cbn; lia|]. split; [repeat constructor; lia|]. split; [cbn; lia|]. split; [reflexivity|]. split; vm_compute; reflexivity.
Qed.

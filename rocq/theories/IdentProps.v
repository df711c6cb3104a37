(** Properties of the identifier table: C27, C28, C58, C59, C60, C61. *)
From Verif Require Import Prelude VectorSpec LVec TypesModel TypesProps IdentModel IdentSpec IdentRun IdentTable IdentProofs IdentSteps IdentHistory IdentFacts.

(** A program for the examples.  Names: 50 is [main], 51 is a keyword; 1 is a
    built-in function with the other spelling 2.
<<
      struct pair a;                              name 3
      int f(int);                                 name 4
      int f(int b) { struct pair c;               names 5, 6
                     { int c; int b; }
                     { typedef int d;             name 7
                       enum { e = 77 };           name 8
                       { int c;
>>  *)
Definition e_K (x : Z) : Z := if x =? 50 then 0 else if x =? 51 then -5 else ITEM_MAX.
Definition e_ops1 : list op :=
  [Declare e_state 1 (DFunction 2 24); Spelling 1 2; Declare e_state 3 (DVariable 13); Declare e_state 4 (DPrototype 3 24);
   Declare e_state 4 (DFunction 4 24); EnterFunction; Declare e_state 5 (DParameter TYPE_INTEGER); Declare e_state 6 (DVariable 13)].
Definition e_body : list op :=
  [Declare e_state 6 (DVariable TYPE_INTEGER); Declare e_state 5 (DVariable 13)].
Definition e_ops2 : list op :=
  [EnterBlock; Declare e_state 7 (DType 0 TYPE_INTEGER); Declare e_state 8 (DConstant 0 (-34) 77); EnterBlock; Declare e_state 6 (DVariable TYPE_INTEGER)].
Definition play (K : Z -> Z) (p : program) (ops : list op) : program := fold_left (after K) ops p.
Definition e_p1 : program := Eval vm_compute in play e_K start e_ops1.
Definition e_p2 : program := Eval vm_compute in play e_K e_p1 (EnterBlock :: e_body ++ [LeaveBlock]).
Definition e_p3 : program := Eval vm_compute in play e_K e_p2 e_ops2.

Ltac leg :=
  lazymatch goal with
  | |- legal _ _ (Declare _ _ _) =>
      split; [vm_compute; reflexivity|]; split; [first [left; vm_compute; reflexivity|right; vm_compute; reflexivity]|];
      split; [cbn; repeat split; try (vm_compute; reflexivity); try (eexists; split; [vm_compute; reflexivity|lia]); try (vm_compute; discriminate)|];
      split; [vm_compute; reflexivity|]; split; [vm_compute; auto; discriminate|];
      vm_compute; intros; repeat match goal with H : Some _ = Some _ |- _ => injection H as <- | H : DFunction _ _ = _ |- _ => injection H as <- <- | H : Some _ = Some _ |- _ => injection H as <- <- end; try discriminate; try reflexivity
  | |- legal _ _ (Spelling _ _) =>
      split; [vm_compute; reflexivity|]; split; [vm_compute; reflexivity|]; split; [vm_compute; reflexivity|]; split; [vm_compute; reflexivity|]; eexists; vm_compute; reflexivity
  | |- legal _ _ EnterFunction => split; [vm_compute; reflexivity|vm_compute; discriminate]
  | |- _ => vm_compute; first [reflexivity|discriminate]
  end.
Ltac tell :=
  repeat (eapply story_step; [leg|vm_compute; first [reflexivity|exact Logic.I]|
    match goal with |- story ?K ?p ?ops ?q => let p' := eval vm_compute in p in change (story K p' ops q) end]); apply story_end.
Example e_story1 : story e_K start e_ops1 e_p1.
Proof. tell. Qed.
Example e_story2 : story e_K e_p1 (EnterBlock :: e_body ++ [LeaveBlock]) e_p2.
Proof. tell. Qed.
Example e_story3 : story e_K e_p2 e_ops2 e_p3.
Proof. tell. Qed.
Example e_balanced : balanced e_body.
Proof. repeat constructor. Qed.
Definition e_all : list op := e_ops1 ++ (EnterBlock :: e_body ++ [LeaveBlock]) ++ e_ops2.
Lemma e_story : story e_K start e_all e_p3.
Proof. apply story_app. exists e_p1. split; [apply e_story1|]. apply story_app. exists e_p2. split; [apply e_story2|apply e_story3]. Qed.
Definition e_w : world := match run (initial e_K) e_all with Some w => w | None => initial e_K end.
Example e_run : run (initial e_K) e_all = Some e_w.
Proof. vm_compute. reflexivity. Qed.

Definition played (w : world) (ops : list op) : world := match run w ops with Some w => w | None => w end.

(** C27: a block or a function leaves every name as it was. *)
Theorem C27_scopes_restore_names K ops p w enter leave body q :
  story K start ops p -> run (initial K) ops = Some w ->
  (enter = EnterBlock /\ leave = LeaveBlock) \/ (enter = EnterFunction /\ leave = LeaveFunction) ->
  balanced body -> story K p (enter :: body ++ [leave]) q ->
  exists w', run w (enter :: body ++ [leave]) = Some w'
    /\ (forall x, repr_get_reference (w_sx w') x = repr_get_reference (w_sx w) x)
    /\ id_displ (w_sx w') = id_displ (w_sx w) /\ id_lg (w_sx w') = id_lg (w_sx w).
Proof. exact (scopes_restore K ops p w enter leave body q). Qed.
Print Assumptions C27_scopes_restore_names.
Definition e_w1 : world := played (initial e_K) e_ops1.
Example C27_case : let w := e_w1 in let w1 := played w (EnterBlock :: e_body) in
  let w' := played w (EnterBlock :: e_body ++ [LeaveBlock]) in
  run (initial e_K) e_ops1 = Some w /\ run w (EnterBlock :: e_body ++ [LeaveBlock]) = Some w'
  /\ map (repr_get_reference (w_sx w)) [5; 6] = [18; 22] /\ map (repr_get_reference (w_sx w1)) [5; 6] = [30; 26]
  /\ map (repr_get_reference (w_sx w')) [5; 6] = [18; 22].
Proof. vm_compute. repeat split. Qed.

(** The table never fails and never loops on what a parser asks. *)
Theorem C27_requests_succeed K ops p : story K start ops p -> exists w, run (initial K) ops = Some w.
Proof. intros H. destruct (story_run K ops _ _ _ _ (inv_start K) H) as (w & es & R & _). eauto. Qed.
Print Assumptions C27_requests_succeed.

(** C28: a name refers to its declaration in the innermost scope that has one. *)
Theorem C28_innermost_declaration K ops p w x : story K start ops p -> run (initial K) ops = Some w ->
  repr_get_reference (w_sx w) x = match lookup (p_frames p) x with Some (i, _) => i | None => K x end.
Proof. exact (names_innermost K ops p w x). Qed.
Print Assumptions C28_innermost_declaration.
Example C28_case : map (repr_get_reference (w_sx e_w)) [1; 2; 3; 4; 5; 6; 7; 8; 9; 50; 51] = [2; 2; 6; 14; 18; 42; 34; 38; ITEM_MAX; 0; -5]
  /\ map (fun x => option_map fst (lookup (p_frames e_p3) x)) [1; 2; 3; 4; 5; 6; 7; 8; 9; 50; 51]
     = [Some 2; Some 2; Some 6; Some 14; Some 18; Some 42; Some 34; Some 38; None; None; None].
Proof. vm_compute. repeat split. Qed.

(** A declaration gets a new identifier exactly when the rules accept it: a name
    is declared once in a scope, except for a function after its prototype, and
    [main] is declared once. *)
Theorem C28_redeclaration_rejected K ops p w t x d : story K start ops p -> run (initial K) ops = Some w -> legal K p (Declare t x d) ->
  exists w', exec w (Declare t x d)
    = Some (match judge K p x d with Accepted => new_id p | Repeated => SIZE_MAX - 1 | SecondMain => SIZE_MAX end, w').
Proof. exact (declared_verdict K ops p w t x d). Qed.
Print Assumptions C28_redeclaration_rejected.
Example C28_redeclaration_case :
  legal e_K e_p3 (Declare e_state 6 (DVariable TYPE_INTEGER)) /\ judge e_K e_p3 6 (DVariable TYPE_INTEGER) = Repeated
  /\ legal e_K e_p3 (Declare e_state 5 (DVariable TYPE_INTEGER)) /\ judge e_K e_p3 5 (DVariable TYPE_INTEGER) = Accepted.
Proof. split; [leg|]. split; [vm_compute; reflexivity|]. split; [leg|vm_compute; reflexivity]. Qed.

(** After a rejected declaration the name no longer refers to the accepted one
    but to an identifier without a type. *)
Theorem C28_rejected_declaration_hides_refuted :
  let w := played (initial e_K) [Declare e_state 3 (DVariable TYPE_FLOATING)] in
  let w' := played w [Declare e_state 3 (DVariable TYPE_INTEGER)] in
  judge e_K (after e_K start (Declare e_state 3 (DVariable TYPE_FLOATING))) 3 (DVariable TYPE_INTEGER) = Repeated
  /\ repr_get_reference (w_sx w) 3 = 2 /\ ident_get_type (w_sx w) 2 = TYPE_FLOATING
  /\ repr_get_reference (w_sx w') 3 = 6 /\ ident_get_type (w_sx w') 6 = TYPE_UNDEFINED.
Proof. vm_compute. repeat split. Qed.

(** C58: variables alive together share no cells; the function asks for enough
    memory for all of its variables. *)
Theorem C58_variables_disjoint K ops p w : story K start ops p -> run (initial K) ops = Some w ->
  let displ := ident_get_displ (w_sx w) in
  ForallOrdPairs (apart (cell displ)) (locals p) /\ ForallOrdPairs (apart (global_cell displ)) (globals p)
  /\ (2 <= depth p -> Forall (within (cell displ) 3 (id_max_displ (w_sx w))) (p_ever p))
  /\ (2 <= depth p -> Forall (within (cell displ) 3 (id_max_displ (w_sx w))) (locals p))
  /\ Forall (within (global_cell displ) 3 (id_max_displg (w_sx w))) (globals p).
Proof. exact (memory K ops p w). Qed.
Print Assumptions C58_variables_disjoint.
Example C58_case : locals e_p3 = [Var 42 1; Hole 1; Var 22 3; Var 18 1] /\ globals e_p3 = [Var 6 3]
  /\ map (cell (ident_get_displ (w_sx e_w))) (locals e_p3) = [Some 8; None; Some 4; Some 3]
  /\ map (cell (ident_get_displ (w_sx e_w))) [Var 26 1; Var 30 3] = [Some 7; Some 8]
  /\ id_max_displ (w_sx e_w) = 11 /\ map (global_cell (ident_get_displ (w_sx e_w))) (globals e_p3) = [Some 3] /\ id_max_displg (w_sx e_w) = 6.
Proof. vm_compute. repeat split. Qed.

Theorem C58_function_memory K ops p w w' r : story K start ops p -> run (initial K) ops = Some w -> legal K p LeaveFunction ->
  exec w LeaveFunction = Some (r, w') -> Forall (within (cell (ident_get_displ (w_sx w'))) 3 r) (p_ever p).
Proof. intros S R L. exact (function_memory K ops p w _ w' r S R L eq_refl). Qed.
Print Assumptions C58_function_memory.
Example C58_function_case : legal e_K e_p2 LeaveFunction /\ option_map fst (exec (played e_w1 (EnterBlock :: e_body ++ [LeaveBlock])) LeaveFunction) = Some 11 /\ p_ever e_p2 = [Var 30 3; Var 26 1; Var 22 3; Var 18 1].
Proof. split; [leg|]. split; vm_compute; reflexivity. Qed.

(** C59: what was declared stays recorded: the name, with a minus while it is a
    prototype, the type, and the value of a constant or a function. *)
Theorem C59_declarations_recorded K ops p w k m : story K start ops p -> run (initial K) ops = Some w -> znth (p_notes p) k = Some m ->
  let id := 2 + 4 * k in let s := w_sx w in
  Z.abs (ident_get_repr s id) = n_name m /\ (ident_get_repr s id < 0 <-> is_prototype (n_decl m) = true)
  /\ ident_get_type s id = d_type (n_decl m) /\ (forall v, d_value (n_decl m) = Some v -> ident_get_displ s id = v).
Proof. exact (recorded K ops p w k m). Qed.
Print Assumptions C59_declarations_recorded.
Example C59_case : znth (p_notes e_p3) 9 = Some (mkNote 8 (DConstant 0 (-34) 77)) /\ ident_get_displ (w_sx e_w) 38 = 77
  /\ znth (p_notes e_p3) 2 = Some (mkNote 4 (DPrototype 4 24)) /\ ident_get_displ (w_sx e_w) 10 = 4 /\ ident_get_repr (w_sx e_w) 10 = -4.
Proof. vm_compute. repeat split. Qed.

(** The number of a function with a type from 1000 on is not recorded, and its
    prototype counts as a definition: the definition is rejected. *)
Theorem C59_late_types_refuted : let w := played (initial e_K) [Declare e_state 4 (DPrototype 3 1000)] in
  repr_get_reference (w_sx w) 4 = 2 /\ ident_get_displ (w_sx w) 2 = 0
  /\ option_map fst (exec w (Declare e_state 4 (DFunction 4 1000))) = Some (SIZE_MAX - 1).
Proof. vm_compute. repeat split. Qed.

(** C60: names of types are recognised.  Missing: other identifiers are taken
    for types when their place or value is 1000 or more. *)
Theorem C60_types_recognised K ops p w k m : story K start ops p -> run (initial K) ops = Some w -> znth (p_notes p) k = Some m ->
  is_type (n_decl m) = true -> ident_is_type_specifier (w_sx w) (2 + 4 * k) = true.
Proof.
  intros S R H T. destruct (recorded K ops p w k m S R H) as (_ & _ & _ & V). unfold ident_is_type_specifier.
  destruct (n_decl m); try discriminate. rewrite (V 1000 eq_refl). reflexivity.
Qed.
Print Assumptions C60_types_recognised.
Theorem C60_others_are_not_types_partial K ops p w : story K start ops p -> run (initial K) ops = Some w ->
  let is_type_name := ident_is_type_specifier (w_sx w) in
  (forall k x n ty, znth (p_notes p) k = Some (mkNote x (DFunction n ty)) -> n < 1000 -> is_type_name (2 + 4 * k) = false)
  /\ (forall k x n ty, znth (p_notes p) k = Some (mkNote x (DPrototype n ty)) -> n < 1000 -> is_type_name (2 + 4 * k) = false)
  /\ (forall k x how ty v, znth (p_notes p) k = Some (mkNote x (DConstant how ty v)) -> v < 1000 -> is_type_name (2 + 4 * k) = false)
  /\ (forall id n, In (Var id n) (globals p) -> is_type_name id = false)
  /\ (2 <= depth p -> id_max_displ (w_sx w) < 1000 -> forall id n, In (Var id n) (p_ever p) -> 0 <= n -> is_type_name id = false)
  /\ (2 <= depth p -> forall id, In (Fun id) (p_ever p) -> is_type_name id = false).
Proof.
  intros S R T. assert (V: forall k m v, znth (p_notes p) k = Some m -> d_value (n_decl m) = Some v -> v < 1000 -> T (2 + 4 * k) = false).
  { intros k m v H D L. destruct (recorded K ops p w k m S R H) as (_ & _ & _ & E). unfold T, ident_is_type_specifier. rewrite (E v D). lia. }
  destruct (not_types K ops p w S R) as (A & B & C).
  split; [intros; eapply V; eauto; reflexivity|]. split; [intros; eapply V; eauto; reflexivity|]. split; [intros; eapply V; eauto; reflexivity|]. auto.
Qed.
Print Assumptions C60_others_are_not_types_partial.
Example C60_case : map (ident_is_type_specifier (w_sx e_w)) [2; 6; 10; 14; 18; 22; 34; 38; 42]
  = [false; false; false; false; false; false; true; false; false].
Proof. vm_compute. reflexivity. Qed.

(** An enumeration constant with the value 1000 is taken for a type. *)
Theorem C60_large_constants_refuted : let w := played (initial e_K) [Declare e_state 8 (DConstant 0 (-34) 1000)] in
  repr_get_reference (w_sx w) 8 = 2 /\ ident_is_type_specifier (w_sx w) 2 = true.
Proof. vm_compute. repeat split. Qed.
(** So is a variable of a function with 997 cells of variables before it. *)
Definition e_many : list op :=
  Declare e_state 50 (DFunction 2 24) :: EnterFunction :: map (fun k => Declare e_state (100 + Z.of_nat k) (DVariable TYPE_INTEGER)) (seq 0 998).
Theorem C60_large_functions_refuted : match run (initial e_K) e_many with
  | Some w => ident_is_type_specifier (w_sx w) (repr_get_reference (w_sx w) 1097) | None => false end = true.
Proof. vm_compute. reflexivity. Qed.

(** C61: a program is complete when [main] is declared and no name of the global
    scope has only a prototype. *)
Theorem C61_complete_programs K ops p w : story K start ops p -> run (initial K) ops = Some w ->
  (tables_are_correct (w_sx w) = true <-> p_main p <> None
   /\ forall x i b, 0 < x -> assoc (f_names (last (p_frames p) (mkFrame [] []))) x = Some (i, b) -> b = false).
Proof. exact (final_check K ops p w). Qed.
Print Assumptions C61_complete_programs.
Example C61_case :
  tables_are_correct (w_sx e_w) = false /\
  (match run e_w [LeaveBlock; LeaveBlock; LeaveFunction; Declare e_state 50 (DFunction 5 24); EnterFunction; LeaveFunction] with
   | Some w => tables_are_correct (w_sx w) | None => false end = true) /\
  (match run (initial e_K) [Declare e_state 50 (DFunction 5 24); Declare e_state 4 (DPrototype 3 24)] with
   | Some w => tables_are_correct (w_sx w) | None => true end = false).
Proof. vm_compute. repeat split. Qed.
(** A variable with the name [main] counts. *)
Theorem C61_main_is_a_function_refuted : let w := played (initial e_K) [Declare e_state 50 (DVariable TYPE_INTEGER)] in
  ident_get_type (w_sx w) 2 = TYPE_INTEGER /\ tables_are_correct (w_sx w) = true.
Proof. vm_compute. repeat split. Qed.

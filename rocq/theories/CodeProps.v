(** C33, C34, C35, C37: the code generated for expressions and statements. *)
From Verif Require Import Prelude LVec ItemModel TypesModel TypesSpec LexModel ParseModel InstrModel BuildModel CodeModel VmSpec CodeSpec CodeEmit CodeProofs CodeInterp.

(** ** A program for the examples

    Identifiers from 170 on: [x], [y] and [z] are integers, [p] a pointer to an
    integer, [pp] a pointer to a pointer, [a] an array, [b] a pointer to a truth
    value, [far] an integer with a large displacement. *)
Definition x := 170. Definition y := 174. Definition z := 178. Definition p := 182. Definition pp := 186.
Definition a := 190. Definition b := 194. Definition far := 198.
Definition ex_ctx : ctx :=
  mkCtx (fun id => if id =? p then TPointer t_int else if id =? pp then TPointer (TPointer t_int)
                   else if id =? a then TArray t_int else if id =? b then TPointer t_bool else t_int)
        (fun _ => 0) (fun _ => 0) (fun _ => []) (fun _ => []) (fun _ => 0) (fun _ => 0) item_int32.
Definition ex_enc : enc :=
  fold_left (fun e d => set_displs e (lv_set (e_displs e) (fst d) (snd d)))
            [(x, 3); (y, 4); (z, 5); (p, 6); (pp, 7); (a, 8); (b, 9); (far, 9100)] (enc_create 300).
Definition ex_lay : layout := mkLayout 1000 0.
Definition same (v : Z) : Z := v.
(** The cells: [x] is 2, [y] is 5, [z] is 0, [p] points to [x], [pp] to [p]. *)
Definition ex_cells : cells := fun i =>
  if i =? 1003 then 2 else if i =? 1004 then 5 else if i =? 1006 then 1003 else if i =? 1007 then 1006
  else if i =? 1008 then 2001 else if i =? 2000 then 3 else if i =? 2001 then 11 else if i =? 2002 then 22 else if i =? 2003 then 33 else 0.
Definition var (id : Z) : node := NIdent (c_type ex_ctx id) id.
Definition num (v : Z) : node := NLit t_int (LInt v).
Definition bin (op : binary) (l r : node) : node := NBinary t_int op l r.
Definition set_ (op : binary) (l r : node) : node := NAssign t_int op l r.

(** The address of a variable. *)
Definition ex_at (e : enc) (id : Z) : Z := address_of ex_lay (displacements_get e id).

(** ** C33 *)

(** Running the code of an expression performs its assignments and leaves the
    stack as it was plus one word: the value.  Operands of [&&], [||] and [?:]
    are evaluated as the meaning of the expression says.  After [a || b], where
    [a] is not a truth value, the word is only zero exactly when the value is.
    Missing: calls, floating and structure values, and the places listed in
    [supported], see the refutations. *)
Theorem C33_expressions_partial : forall c e n rest w lay st m v m',
  let disp := displacements_get e in
  let e' := emit_expression c n e in
  supported c disp n Value = true ->
  value_of w (fun id => address_of lay (disp id)) n m = Some (v, m') ->
  exists v',
    runs w lay (e_mem e' ++ rest) (mkVm (mem_size e) st m) (mkVm (mem_size e') (v' :: st) m')
    /\ (v' = 0 <-> v = 0) /\ (exact_value n = true -> v' = v).
Proof. exact expression_runs. Qed.
Print Assumptions C33_expressions_partial.

(** [x > 1 && (y = x * 3 + a[1]) != 0 ? *p - z++ : y /= z]. *)
Definition ex_expression : node :=
  NTernary t_int
    (bin BIN_LOG_AND (bin BIN_GT (var x) (num 1))
       (bin BIN_NE (set_ BIN_ASSIGN (var y) (bin BIN_ADD (bin BIN_MUL (var x) (num 3)) (NSubscript t_int (var a) (num 1)))) (num 0)))
    (bin BIN_SUB (NUnary t_int true UN_INDIRECTION (var p)) (NUnary t_int false UN_POSTINC (var z)))
    (set_ BIN_DIV_ASSIGN (var y) (var z)).
Example C33_example : supported ex_ctx (displacements_get ex_enc) ex_expression Value = true /\ exact_value ex_expression = true
  /\ match value_of same (ex_at ex_enc) ex_expression ex_cells with Some (v, m) => (v, m 1004, m 1005) = (2, 28, 1) | None => False end.
Proof. vm_compute. auto. Qed.

(** The full statement is false.  [x || y] with [x] equal to 2 leaves 2;
    [**pp] leaves [*pp]; the value of a truth value reached through a pointer is
    loaded as a floating number. *)
Definition leaves (n : node) (k : nat) (v : Z) : Prop :=
  match after same ex_lay (e_mem (emit_expression ex_ctx n ex_enc)) k (mkVm (mem_size ex_enc) [] ex_cells) with
  | Some t => pc t = mem_size (emit_expression ex_ctx n ex_enc) /\ stack t = [v]
  | None => False
  end.
Definition is_worth (n : node) (v : Z) : Prop :=
  match value_of same (ex_at ex_enc) n ex_cells with Some (r, _) => r = v | None => False end.
Theorem C33_expressions_refuted :
  (let n := bin BIN_LOG_OR (var x) (var y) in is_worth n 1 /\ leaves n 3 2)
  /\ (let n := NUnary t_int true UN_INDIRECTION (NUnary (TPointer t_int) true UN_INDIRECTION (var pp)) in
      is_worth n 2 /\ leaves n 2 1003)
  /\ (let n := NUnary t_bool true UN_INDIRECTION (var b) in
      e_mem (emit_expression ex_ctx n ex_enc) = e_mem ex_enc ++ [IC_LOAD; 9; IC_LATD]).
Proof. vm_compute. auto 10. Qed.
Print Assumptions C33_expressions_refuted.

(** ** C34 *)

(** Running the code of a function body follows its statements: control comes
    to the end of the body, or to the return which the body reaches, and the
    cells are changed as the statements say.  The header holds the frame size and
    the address behind the function.  Missing: calls, arrays and structures in
    declarations, switches which are not tidy, statements which do not end. *)
Theorem C34_functions_partial : forall c id params body e seen seen' rest w lay st m o m',
  let e' := emit_function_definition c id params body e in
  let disp := displacements_get e' in
  supported_stmt c disp body = true -> jumps_ok false false body = true -> order seen body = Some seen' ->
  (forall i, In i (declares body) -> 0 <= i < zlen (e_displs e)) ->
  (forall t, In t (e_procs e) -> is_structure (fst t) = true) ->
  (znth (e_mem e') (mem_size e) = Some IC_FUNC_BEG
   /\ znth (e_mem e') (mem_size e + 1) = Some (e_max_local e')
   /\ znth (e_mem e') (mem_size e + 2) = Some (mem_size e')
   /\ znth (e_mem e') (mem_size e' - 1) = Some IC_RETURN_VOID)
  /\ (exec w (fun id => address_of lay (disp id)) body m o m' ->
      reaches w lay (e_mem e' ++ rest) (no_switch body) (mem_size e' - 1) o st (mkVm (mem_size e + 3) st m) m').
Proof. exact function_runs. Qed.
Print Assumptions C34_functions_partial.

(** The same for one statement, which may be anywhere in the code. *)
Theorem C34_statements_partial : forall c e s seen seen' rest w lay st m o m',
  let e' := emit_statement c s e in
  let disp := displacements_get e' in
  supported_stmt c disp s = true -> jumps_ok false false s = true -> order seen s = Some seen' ->
  (forall id, In id (declares s) -> 0 <= id < zlen (e_displs e)) -> 0 < mem_size e ->
  (forall t, In t (e_procs e) -> is_structure (fst t) = true) ->
  exec w (fun id => address_of lay (disp id)) s m o m' ->
  reaches w lay (e_mem e' ++ rest) (no_switch s) (mem_size e') o st (mkVm (mem_size e) st m) m'.
Proof. exact statement_runs. Qed.
Print Assumptions C34_statements_partial.

(** [{ int x = 0; for (int z = 0; z < 10; z++) { if (z == 2) continue;
    if (z > 4) break; x += z; } while (x) { do x--; while (x > 3); if (x == 3) return x; } }]. *)
Definition ex_body : stmt :=
  SCompound
    [SDecl [DVar x [] (Some (num 0))];
     SFor (Some (SDecl [DVar z [] (Some (num 0))])) (Some (bin BIN_LT (var z) (num 10))) (Some (NUnary t_int false UN_POSTINC (var z)))
       (SCompound
          [SIf (bin BIN_EQ (var z) (num 2)) SContinue None; SIf (bin BIN_GT (var z) (num 4)) SBreak None;
           SExpr (set_ BIN_ADD_ASSIGN (var x) (var z))]);
     SWhile (var x)
       (SCompound
          [SDo (SExpr (NUnary t_int false UN_POSTDEC (var x))) (bin BIN_GT (var x) (num 3));
           SIf (bin BIN_EQ (var x) (num 3)) (SReturn (Some (var x))) None])].
Definition ex_function : enc := emit_function_definition ex_ctx y [] ex_body (enc_create 300).

Example C34_example :
  supported_stmt ex_ctx (displacements_get ex_function) ex_body = true /\ jumps_ok false false ex_body = true
  /\ order [] ex_body <> None /\ no_switch ex_body = true /\ e_procs (enc_create 300) = []
  /\ (forall i, In i (declares ex_body) -> 0 <= i < zlen (e_displs (enc_create 300)))
  /\ exists m', exec same (ex_at ex_function) ex_body ex_cells (OReturn (Some 3)) m' /\ m' (ex_at ex_function x) = 3.
Proof.
  split; [vm_compute; reflexivity|]. split; [reflexivity|]. split; [discriminate|]. split; [reflexivity|]. split; [reflexivity|].
  split; [replace (zlen (e_displs (enc_create 300))) with 300 by (vm_compute; reflexivity); intros i [<-|[<-|[]]]; unfold x, z; lia|].
  apply (execution _ _ 100). vm_compute. auto.
Qed.

(** ** C35 *)

(** Running the code of a switch executes the statements from the selected
    label on, or none, until a break.  Missing: the body must be tidy: every
    section before another label ends in a jump and [default] is the last label;
    and a word stays on the stack. *)
Theorem C35_switch_partial : forall c e x ss seen seen' rest w lay st m v m1 o m',
  let s := SSwitch x (SCompound ss) in
  let e' := emit_statement c s e in
  let disp := displacements_get e' in
  let at_ id := address_of lay (disp id) in
  supported_stmt c disp s = true -> jumps_ok false false s = true -> order seen s = Some seen' ->
  (forall id, In id (declares s) -> 0 <= id < zlen (e_displs e)) -> 0 < mem_size e ->
  (forall t, In t (e_procs e) -> is_structure (fst t) = true) ->
  value_of w at_ x m = Some (v, m1) -> exec_all w at_ (select v ss) m1 o m' ->
  reaches w lay (e_mem e' ++ rest) false (mem_size e') (match o with OBreak => ONext | _ => o end) st (mkVm (mem_size e) st m) m'.
Proof.
  intros c e x' ss seen seen' rest w lay st m v m1 o m' s e' disp at_ S J O I N P V X.
  apply (statement_runs c e s seen seen' rest w lay st m _ m'); auto. eapply ex_switch; eassumption.
Qed.
Print Assumptions C35_switch_partial.

(** [switch (x) { case 1: y = 1; break; case 2: { y = 7; z = y; } break; case 3: return 5; default: y = 9; z = 8; }]. *)
Definition ex_switch_body : list stmt :=
  [SCase (num 1) (SExpr (set_ BIN_ASSIGN (var y) (num 1))); SBreak;
   SCase (num 2) (SCompound [SExpr (set_ BIN_ASSIGN (var y) (num 7)); SExpr (set_ BIN_ASSIGN (var z) (var y))]); SBreak;
   SCase (num 3) (SReturn (Some (num 5)));
   SDefault (SExpr (set_ BIN_ASSIGN (var y) (num 9))); SExpr (set_ BIN_ASSIGN (var z) (num 8))].
Definition ex_switch_ : stmt := SSwitch (var x) (SCompound ex_switch_body).
Example C35_example :
  let e' := emit_statement ex_ctx ex_switch_ ex_enc in
  supported_stmt ex_ctx (displacements_get e') ex_switch_ = true /\ jumps_ok false false ex_switch_ = true
  /\ order [] ex_switch_ <> None /\ declares ex_switch_ = [] /\ 0 < mem_size ex_enc /\ e_procs ex_enc = []
  /\ exists m', exec same (ex_at e') ex_switch_ ex_cells ONext m' /\ m' (ex_at e' y) = 7 /\ m' (ex_at e' z) = 7.
Proof.
  cbv zeta. split; [vm_compute; reflexivity|]. split; [reflexivity|]. split; [discriminate|]. split; [reflexivity|].
  split; [vm_compute; reflexivity|]. split; [vm_compute; reflexivity|]. apply (execution _ _ 100). vm_compute. auto.
Qed.

(** The full statement is false.  The statement assigns to [z], and the code
    ends with the words [st] on the stack. *)
Definition means (s : stmt) (v : Z) : Prop :=
  exists m', exec same (ex_at (emit_statement ex_ctx s ex_enc)) s ex_cells ONext m' /\ m' (ex_at ex_enc z) = v.
Definition does (s : stmt) (k : nat) (v : Z) (st : list Z) : Prop :=
  match after same ex_lay (e_mem (emit_statement ex_ctx s ex_enc)) k (mkVm (mem_size ex_enc) [] ex_cells) with
  | Some t => pc t = mem_size (emit_statement ex_ctx s ex_enc) /\ stack t = st /\ data t (ex_at ex_enc z) = v
  | None => False
  end.
Definition assign_z (v : Z) : stmt := SExpr (set_ BIN_ASSIGN (var z) (num v)).
(** A word stays on the stack: [switch (x) { case 2: z = 1; }].
    Falling through tests the next label: [switch (x) { case 2: z = 1; case 3: z = 2; }].
    A default which is not the last label is taken first:
    [switch (x) { default: z = 1; break; case 2: z = 2; }]. *)
Theorem C35_switch_refuted :
  (let s := SSwitch (var x) (SCompound [SCase (num 2) (assign_z 1)]) in means s 1 /\ does s 7 1 [2])
  /\ (let s := SSwitch (var x) (SCompound [SCase (num 2) (assign_z 1); SCase (num 3) (assign_z 2)]) in means s 2 /\ does s 11 1 [2])
  /\ (let s := SSwitch (var x) (SCompound [SDefault (assign_z 1); SBreak; SCase (num 2) (assign_z 2)]) in means s 2 /\ does s 4 1 [2]).
Proof.
  cbv zeta. unfold means. split; [|split]; (split; [apply (execution _ _ 100); vm_compute; auto|vm_compute; auto]).
Qed.
Print Assumptions C35_switch_refuted.

(** ** C37 *)

(** The code of an expression used as a statement leaves the stack unchanged and
    has the effects of the expression.  Missing: only the expressions of
    [supported _ _ _ Void]. *)
Theorem C37_discarded_partial : forall c e n rest w lay st m v m',
  let disp := displacements_get e in
  let e' := emit_void_expression c n e in
  supported c disp n Void = true ->
  value_of w (fun id => address_of lay (disp id)) n m = Some (v, m') ->
  runs w lay (e_mem e' ++ rest) (mkVm (mem_size e) st m) (mkVm (mem_size e') st m').
Proof. exact void_runs. Qed.
Print Assumptions C37_discarded_partial.

(** [x = y = 3, a[1] %= x, p[0]++] where [p[0]] is written with a star. *)
Definition ex_void : node :=
  bin BIN_COMMA (set_ BIN_ASSIGN (var x) (set_ BIN_ASSIGN (var y) (num 3)))
    (bin BIN_COMMA (set_ BIN_REM_ASSIGN (NSubscript t_int (var a) (num 1)) (var x))
       (NUnary t_int false UN_POSTINC (NUnary t_int true UN_INDIRECTION (var p)))).
Example C37_example : supported ex_ctx (displacements_get ex_enc) ex_void Void = true
  /\ match value_of same (ex_at ex_enc) ex_void ex_cells with Some (_, m) => (m 1003, m 1004, m 2002) = (4, 3, 1) | None => False end.
Proof. vm_compute. auto. Qed.

(** The full statement is false: [x %= 2;], [x + 1;] and [a[1];] leave a word on
    the stack, as does [x ? (y = 1) : (z = 2);] when [x] is not zero; and the
    displacement of a variable 9000 cells away is taken for an instruction, so
    that [far = 7;] leaves its value. *)
Definition leaves_void (n : node) (k : nat) (st : list Z) : Prop :=
  match after same ex_lay (e_mem (emit_void_expression ex_ctx n ex_enc)) k (mkVm (mem_size ex_enc) [] ex_cells) with
  | Some t => pc t = mem_size (emit_void_expression ex_ctx n ex_enc) /\ stack t = st
  | None => False
  end.
Theorem C37_discarded_refuted :
  leaves_void (set_ BIN_REM_ASSIGN (var x) (num 2)) 2 [0]
  /\ leaves_void (bin BIN_ADD (var x) (num 1)) 3 [3]
  /\ leaves_void (NSubscript t_int (var a) (num 1)) 3 [2002]
  /\ leaves_void (NTernary t_int (var x) (set_ BIN_ASSIGN (var y) (num 1)) (set_ BIN_ASSIGN (var z) (num 2))) 5 [1]
  /\ leaves_void (set_ BIN_ASSIGN (var far) (num 7)) 2 [7].
Proof. vm_compute. auto 10. Qed.
Print Assumptions C37_discarded_refuted.

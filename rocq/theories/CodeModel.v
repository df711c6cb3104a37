(** Model of libs/compiler/codegen.c: the generator of code for the virtual
    machine.

    Simplifications.  Vectors are lists (LVec.v).  The syntax tree is the value
    of BuildModel.v, extended here with declarations and statements in the shape
    libs/compiler/AST.h gives them; function definitions occur only at the top
    level, as libs/compiler/parser.c builds them.  Type numbers are type
    expressions; the table of initialisation procedures is keyed by the type.
    What the syntax tables answer is a read-only context: the type and the
    previous entry of an identifier, its name, the texts of string literals and
    the number of a type.  The code overwrites an entry of the identifier table
    to remember that the identifier was exported by [printid]; the model
    keeps these numbers in a list of its own.  Errors are counted.  A loop which
    does not end sets a flag, [e_hung].  Not modelled: the return values of
    [vector_set], [vector_add] (memory is available), [system_error]. *)
From Coq Require Import Floats.SpecFloat.
From Verif Require Import Prelude LVec ItemModel Utf8Model TypesModel TypesSpec LexModel ParseModel InstrModel BuildModel.

(** A value or a default. *)
Definition dflt {A} (o : option A) (d : A) : A := match o with Some a => a | None => d end.

(** ** Statements and declarations, libs/compiler/AST.h:600-1300 *)
Inductive smember :=
| MField (t : ty) (bounds : list node)
| MStruct (t : ty) (ms : list smember).

Inductive decl :=
| DVar (id : Z) (bounds : list (option node)) (init : option node)
| DStruct (t : ty) (ms : list smember).

Inductive stmt :=
| SDecl (ds : list decl)
| SCase (e : node) (s : stmt)
| SDefault (s : stmt)
| SCompound (ss : list stmt)
| SExpr (e : node)
| SNull
| SIf (c : node) (s : stmt) (other : option stmt)
| SSwitch (c : node) (body : stmt)
| SWhile (c : node) (body : stmt)
| SDo (body : stmt) (c : node)
| SFor (init : option stmt) (c : option node) (next : option node) (body : stmt)
| SContinue
| SBreak
| SReturn (e : option node).

Inductive topdecl :=
| TopDecl (d : decl)
| TopFunc (id : Z) (params : list Z) (body : stmt).

(** ** The encoder, libs/compiler/codegen.c:61-85 *)
Record ctx := mkCtx {
  c_type : Z -> ty;                (* ident_get_type *)
  c_prev : Z -> Z;                 (* ident_get_prev *)
  c_repr : Z -> Z;                 (* ident_get_repr *)
  c_name : Z -> bytes;             (* repr_get_name of it *)
  c_text : Z -> bytes;             (* string_get *)
  c_number : ty -> Z;              (* the number of a type *)
  c_bits : spec_float -> Z;        (* the 64 bits of a double *)
  c_target : item_status
}.

Record enc := mkEnc {
  e_mem : list Z;
  e_procs : list (ty * Z);
  e_idents : list Z;
  e_reprs : list Z;
  e_displs : list Z;
  e_funcs : list Z;
  e_cond : Z;
  e_case : Z;
  e_break : Z;
  e_displ : Z;
  e_max_local : Z;
  e_max_global : Z;
  e_params : option (list Z);      (* parameters of curr_func *)
  e_exported : list (Z * Z);       (* identifiers compress_ident has met *)
  e_errors : Z;
  e_hung : bool
}.

Definition set_mem (e : enc) (m : list Z) : enc :=
  mkEnc m (e_procs e) (e_idents e) (e_reprs e) (e_displs e) (e_funcs e) (e_cond e) (e_case e) (e_break e) (e_displ e)
        (e_max_local e) (e_max_global e) (e_params e) (e_exported e) (e_errors e) (e_hung e).
Definition set_procs (e : enc) (p : list (ty * Z)) : enc :=
  mkEnc (e_mem e) p (e_idents e) (e_reprs e) (e_displs e) (e_funcs e) (e_cond e) (e_case e) (e_break e) (e_displ e)
        (e_max_local e) (e_max_global e) (e_params e) (e_exported e) (e_errors e) (e_hung e).
Definition set_tables (e : enc) (i r : list Z) (x : list (Z * Z)) : enc :=
  mkEnc (e_mem e) (e_procs e) i r (e_displs e) (e_funcs e) (e_cond e) (e_case e) (e_break e) (e_displ e)
        (e_max_local e) (e_max_global e) (e_params e) x (e_errors e) (e_hung e).
Definition set_displs (e : enc) (d : list Z) : enc :=
  mkEnc (e_mem e) (e_procs e) (e_idents e) (e_reprs e) d (e_funcs e) (e_cond e) (e_case e) (e_break e) (e_displ e)
        (e_max_local e) (e_max_global e) (e_params e) (e_exported e) (e_errors e) (e_hung e).
Definition set_funcs (e : enc) (f : list Z) : enc :=
  mkEnc (e_mem e) (e_procs e) (e_idents e) (e_reprs e) (e_displs e) f (e_cond e) (e_case e) (e_break e) (e_displ e)
        (e_max_local e) (e_max_global e) (e_params e) (e_exported e) (e_errors e) (e_hung e).
Definition set_jumps (e : enc) (cond case brk : Z) : enc :=
  mkEnc (e_mem e) (e_procs e) (e_idents e) (e_reprs e) (e_displs e) (e_funcs e) cond case brk (e_displ e)
        (e_max_local e) (e_max_global e) (e_params e) (e_exported e) (e_errors e) (e_hung e).
Definition set_frame (e : enc) (displ local global : Z) : enc :=
  mkEnc (e_mem e) (e_procs e) (e_idents e) (e_reprs e) (e_displs e) (e_funcs e) (e_cond e) (e_case e) (e_break e) displ
        local global (e_params e) (e_exported e) (e_errors e) (e_hung e).
Definition set_params (e : enc) (p : option (list Z)) : enc :=
  mkEnc (e_mem e) (e_procs e) (e_idents e) (e_reprs e) (e_displs e) (e_funcs e) (e_cond e) (e_case e) (e_break e) (e_displ e)
        (e_max_local e) (e_max_global e) p (e_exported e) (e_errors e) (e_hung e).
Definition add_error (e : enc) : enc :=
  mkEnc (e_mem e) (e_procs e) (e_idents e) (e_reprs e) (e_displs e) (e_funcs e) (e_cond e) (e_case e) (e_break e) (e_displ e)
        (e_max_local e) (e_max_global e) (e_params e) (e_exported e) (e_errors e + 1) (e_hung e).
Definition hang (e : enc) : enc :=
  mkEnc (e_mem e) (e_procs e) (e_idents e) (e_reprs e) (e_displs e) (e_funcs e) (e_cond e) (e_case e) (e_break e) (e_displ e)
        (e_max_local e) (e_max_global e) (e_params e) (e_exported e) (e_errors e) true.

(** codegen.c:104-143: the memory table. *)
Definition mem_size (e : enc) : Z := zlen (e_mem e).
Definition mem_add (e : enc) (v : Z) : enc := set_mem e (lv_add (e_mem e) v).
Definition mem_increase (e : enc) (n : Z) : enc := set_mem e (lv_increase (e_mem e) n).
Definition mem_set (e : enc) (i v : Z) : enc := set_mem e (lv_set (e_mem e) i v).
Definition mem_get (e : enc) (i : Z) : Z := lv_get (e_mem e) i.
(** codegen.c:140-143: the address is the size before. *)
Definition mem_reserve (e : enc) : enc := mem_add e 0.
(** codegen.c:119-128. *)
Definition mem_add_double (c : ctx) (e : enc) (d : spec_float) : enc :=
  fold_left mem_add (dflt (item_store_double_for_target (c_target c) (c_bits c d)) []) e.

(** codegen.c:146-154: the procedure of a type; 0 when there is none. *)
Fixpoint proc_find (l : list (ty * Z)) (t : ty) : Z :=
  match l with [] => 0 | (u, a) :: l => if ty_eqb u t then a else proc_find l t end.
Definition proc_get (e : enc) (t : ty) : Z := proc_find (e_procs e) t.
Definition proc_set (e : enc) (t : ty) (a : Z) : enc := set_procs e ((t, a) :: e_procs e).

(** codegen.c:165-189. *)
Definition displacements_add (c : ctx) (e : enc) (id : Z) : Z * enc :=
  let t := c_type c id in
  let size := size_of t in
  match e_params e with
  | Some _ =>
      let result := if is_function t then - e_displ e else e_displ e in
      let displ := e_displ e + size in
      (result, set_displs (set_frame e displ (Z.max displ (e_max_local e)) (e_max_global e)) (lv_set (e_displs e) id result))
  | None =>
      let result := - e_max_global e in
      (result, set_displs (set_frame e (e_displ e) (e_max_local e) (e_max_global e + size)) (lv_set (e_displs e) id result))
  end.

(** codegen.c:199-202. *)
Definition displacements_get (e : enc) (id : Z) : Z := lv_get (e_displs e) id.

(** The loops over chains of jumps, codegen.c:219-229, 267-295: every word of
    the chain starting at [addr] gets [v], until the address [stop] is met; the
    memory, or [None] when the chain is longer than the memory. *)
Fixpoint patch_chain (fuel : nat) (m : list Z) (addr stop v : Z) : option (list Z) :=
  if addr =? stop then Some m
  else match fuel with
       | O => None
       | S fuel => patch_chain fuel (lv_set m addr v) (lv_get m addr) stop v
       end.
Definition patched (e : enc) (addr stop v : Z) : enc :=
  match patch_chain (length (e_mem e)) (e_mem e) addr stop v with
  | Some m => set_mem e m
  | None => hang e
  end.

(** codegen.c:212-231. *)
Definition functions_add (c : ctx) (e : enc) (id address : Z) : enc :=
  let number := zlen (e_funcs e) in
  let e := set_funcs e (lv_add (e_funcs e) address) in
  let e := set_displs e (lv_set (e_displs e) id number) in
  let predecl := displacements_get e (c_prev c id) in
  if predecl <? 0 then patched e (- predecl) 0 number else e.

(** codegen.c:241-264. *)
Definition functions_get (e : enc) (id : Z) : Z * enc :=
  let displ := displacements_get e id in
  if existsb (fun p => p =? id) (dflt (e_params e) []) then (displ, e)
  else (Z.abs displ, if displ <=? 0 then set_displs e (lv_set (e_displs e) id (- mem_size e)) else e).

(** codegen.c:267-295. *)
Definition addr_begin_condition (e : enc) (addr : Z) : enc :=
  let e' := patched e (e_cond e) addr addr in set_jumps e' addr (e_case e') (e_break e').
Definition addr_end_condition (e : enc) : enc :=
  let e' := patched e (e_cond e) 0 (mem_size e) in set_jumps e' 0 (e_case e') (e_break e').
Definition addr_end_break (e : enc) : enc :=
  let e' := patched e (e_break e) 0 (mem_size e) in set_jumps e' (e_cond e') (e_case e') 0.

(** ** Expressions *)

(** codegen.c:45-59: an address is on the stack, or a variable has a
    displacement. *)
Inductive lvalue := LVariable (t : ty) (displ : Z) | LAddress (t : ty).
Definition no_lvalue : lvalue := LVariable t_undefined ITEM_MAX.

(** codegen.c:429-465. *)
Definition emit_load_of_lvalue (e : enc) (v : lvalue) : enc :=
  match v with
  | LVariable t displ =>
      if is_structure t then mem_add (mem_add (mem_add e IC_COPY0ST) displ) (size_of t)
      else mem_add (mem_add e (if is_floating t then IC_LOADD else IC_LOAD)) displ
  | LAddress t =>
      if is_structure t then mem_add (mem_add e IC_COPY1ST) (size_of t)
      else if negb (is_array t) && negb (is_pointer t) then mem_add e (if is_integer t then IC_LAT else IC_LATD)
      else e
  end.

(** The displacement of a member, codegen.c:533-538 and 943-948. *)
Definition member_displ (t : ty) (index : Z) : Z :=
  fold_left Z.add (map (fun m => size_of (fst m)) (firstn (Z.to_nat index) (members t))) 0.

(** A string in the code, codegen.c:688-707: the address of its text, a jump
    over it, its length and its characters. *)
Fixpoint characters (fuel : nat) (s : bytes) : list Z :=
  match fuel, s with
  | S fuel, b :: _ =>
      if b =? 0 then []
      else dflt (utf8_convert s) 0 :: characters fuel (skipn (Z.to_nat (utf8_symbol_size b)) s)
  | _, _ => []
  end.
Definition emit_block (e : enc) (words : list Z) (length : Z) : enc :=
  let e := mem_add e IC_LI in
  let reserved := mem_size e + 4 in
  let e := mem_add e reserved in
  let e := mem_increase (mem_add e IC_B) 2 in
  let e := fold_left mem_add words e in
  let e := mem_set e (reserved - 1) length in
  mem_set e (reserved - 2) (mem_size e).

(** codegen.c:634-713. *)
Definition emit_literal (c : ctx) (e : enc) (t : ty) (l : lit) : enc :=
  let li v := mem_add (mem_add e IC_LI) v in
  match unqualified t with
  | TSimple k =>
      if k =? TYPE_NULL_POINTER then li 0
      else if k =? TYPE_BOOLEAN then li (match l with LBool false => 0 | LBool true => 1 | _ => 0 end)
      else if (k =? TYPE_CHARACTER) || (k =? TYPE_INTEGER) then li (dflt (lit_integer l) 0)
      else if k =? TYPE_FLOATING then mem_add_double c (mem_add e IC_LID) (dflt (lit_floating l) (S754_zero false))
      else e
  | TEnum _ _ => li (dflt (lit_integer l) 0)
  | TArray _ =>
      match l with
      | LString i => let text := characters (length (c_text c i)) (c_text c i) in emit_block e text (zlen text)
      | _ => e
      end
  | _ => e
  end.

(** codegen.c:768-793. *)
Definition compress_ident (c : ctx) (e : enc) (id : Z) : enc :=
  match table_find (e_exported e) id with
  | Some ref => mem_add e ref
  | None =>
      let ref := zlen (e_idents e) - 1 in
      let idents := e_idents e ++ [zlen (e_reprs e) - 2; c_number c (unqualified (c_type c id)); displacements_get e id] in
      let reprs := e_reprs e ++ characters (length (c_name c id)) (c_name c id) ++ [0] in
      mem_add (set_tables e idents reprs ((id, ref) :: e_exported e)) ref
  end.

(** codegen.c:1294-1311, what is done after the code of the value. *)
Definition make_void (e : enc) : enc :=
  let index := if mem_get e (mem_size e - 1) <? MIN_INSTRUCTION_CODE then mem_size e - 2 else mem_size e - 1 in
  mem_set e index (instruction_to_void_ver (mem_get e index)).

(** How an expression is emitted: for its value, for its place or for its
    effect only. *)
Inductive mode := Value | Place | Void.

Definition get_id (n : node) : Z := match n with NIdent _ id => id | _ => 0 end.
Definition is_logical (op : binary) : bool := match op with BIN_LOG_AND | BIN_LOG_OR => true | _ => false end.
Definition is_initializer (n : node) : bool := match n with NInit _ _ => true | _ => false end.
Definition is_step (op : unary) : bool :=
  match op with UN_POSTINC | UN_POSTDEC | UN_PREINC | UN_PREDEC => true | _ => false end.

(** A literal in an initialiser passed to a function, codegen.c:744-757. *)
Definition emit_argument_literal (c : ctx) (ints : bool) (e : enc) (n : node) : enc :=
  let e := if is_literal n then e else add_error e in
  match n with
  | NLit _ l =>
      if ints then mem_add e (dflt (lit_integer l) 0) else mem_add_double c e (dflt (lit_floating l) (S754_zero false))
  | _ => e
  end.

(** codegen.c:475-625 (places), 721-766 (arguments), 801-1311 (values and
    expressions used for their effect).  A member of a value which is not an
    lvalue is copied, codegen.c:933-953. *)
Fixpoint emit (c : ctx) (n : node) (how : mode) (e : enc) {struct n} : lvalue * enc :=
  let place (e : enc) : lvalue * enc :=
    match n with
    | NIdent _ id => (LVariable (unqualified (c_type c id)) (displacements_get e id), e)
    | NSubscript t base index =>
        let e := snd (emit c base Value e) in
        let e := snd (emit c index Value e) in
        let e := mem_add (mem_add e IC_SLICE) (size_of t) in
        (LAddress t, if is_array t then mem_add e IC_LAT else e)
    | NMember t _ index arrow base =>
        let select (t' : ty) (e : enc) :=
          let e := mem_add (mem_add e IC_SELECT) (member_displ t' index) in
          (LAddress t, if is_array t || is_pointer t then mem_add e IC_LAT else e) in
        if arrow then select (element (type_of base)) (snd (emit c base Value e))
        else
          let (v, e) := emit c base Place e in
          match v with
          | LVariable _ displ =>
              let m := member_displ (type_of base) index in
              (LVariable t (if 0 <? displ then displ + m else displ - m), e)
          | LAddress _ => select (type_of base) e
          end
    | NUnary t _ _ operand =>
        let (v, e) := emit c operand Place e in
        match v with
        | LVariable _ displ => (LAddress (unqualified t), mem_add (mem_add e IC_LOAD) displ)
        | LAddress _ => (LAddress (unqualified t), e)
        end
    | _ => (no_lvalue, e)
    end in
  let argument (e : enc) (a : node) : enc :=
    if is_function (type_of a) then
      let displ := displacements_get e (get_id a) in
      mem_add (mem_add e (if 0 <=? displ then IC_LI else IC_LOAD)) (Z.abs displ)
    else match a with
         | NInit _ es =>
             let ints := match es with f :: _ => is_integer (type_of f) | [] => false end in
             let e := mem_add e IC_LI in
             let reserved := mem_size e + 4 in
             let e := mem_increase (mem_add (mem_add e reserved) IC_B) 2 in
             let e := fold_left (emit_argument_literal c ints) es e in
             let e := mem_set e (reserved - 1) (zlen es) in
             mem_set e (reserved - 2) (mem_size e)
         | _ => snd (emit c a Value e)
         end in
  let value (e : enc) : enc :=
    match n with
    | NLit t l => emit_literal c e t l
    | NCall _ callee args =>
        let func := get_id callee in
        if func =? BI_PRINTF then
          match args with
          | [] => e
          | format :: rest =>
              let e := fold_left (fun e a => snd (emit c a Value e)) rest e in
              let e := snd (emit c format Value e) in
              mem_add (mem_add e IC_PRINTF) (fold_left Z.add (map (fun a => size_of (type_of a)) rest) 0)
          end
        else if func =? BI_PRINT then
          fold_left (fun e a => mem_add (mem_add (snd (emit c a Value e)) IC_PRINT) (c_number c (unqualified (type_of a)))) args e
        else if func =? BI_PRINTID then
          fold_left (fun e a => compress_ident c (mem_add e IC_PRINTID) (get_id a)) args e
        else if func =? BI_GETID then
          fold_left (fun e a => compress_ident c (mem_add e IC_GETID) (get_id a)) args e
        else if BEGIN_USER_FUNC <=? func then
          let e := fold_left argument args (mem_add e IC_CALL1) in
          let e := mem_add e IC_CALL2 in
          let (displ, e) := functions_get e func in
          mem_add e displ
        else
          mem_add (fold_left argument args e) (builtin_to_instruction func)
    | NMember t _ index _ base =>
        let e := snd (emit c base Value e) in
        mem_add (mem_add (mem_add (mem_add e IC_COPYST) (member_displ (type_of base) index)) (size_of t)) (size_of (type_of base))
    | NCast t from x =>
        let e := snd (emit c x Value e) in
        if is_integer (type_of x) && is_floating t then mem_add e IC_WIDEN else e
    | NUnary t _ op x =>
        if is_step op then
          let (v, e) := emit c x Place e in
          let i := unary_to_instruction op in
          let i := match v with LAddress _ => instruction_to_address_ver i | _ => i end in
          let e := mem_add e (if is_floating t then instruction_to_floating_ver i else i) in
          match v with LVariable _ displ => mem_add e displ | _ => e end
        else
          match op with
          | UN_ADDRESS =>
              let (v, e) := emit c x Place e in
              match v with LVariable _ displ => mem_add (mem_add e IC_LA) displ | _ => e end
          | UN_MINUS => mem_add (snd (emit c x Value e)) (if is_integer t then IC_UNMINUS else IC_UNMINUS_R)
          | UN_NOT => mem_add (snd (emit c x Value e)) IC_NOT
          | UN_LOGNOT => mem_add (snd (emit c x Value e)) IC_LOG_NOT
          | UN_ABS => mem_add (snd (emit c x Value e)) (if is_integer t then IC_ABSI else IC_ABS)
          | UN_UPB => mem_add (snd (emit c x Value (mem_add (mem_add e IC_LI) 0))) IC_UPB
          | _ => e
          end
    | NBinary _ op l r =>
        match op with
        | BIN_COMMA => snd (emit c r Value (snd (emit c l Void e)))
        | _ =>
            let e := snd (emit c l Value e) in
            let (addr, e) :=
              if is_logical op then
                let e := mem_add (mem_add e IC_DUPLICATE) (match op with BIN_LOG_AND => IC_BE0 | _ => IC_BNE0 end) in
                (mem_size e, mem_reserve e)
              else (SIZE_MAX, e) in
            let e := snd (emit c r Value e) in
            let e := if is_logical op then mem_set e addr (mem_size e + 1) else e in
            let i := binary_to_instruction op in
            mem_add e (if is_floating (type_of l) then instruction_to_floating_ver i else i)
        end
    | NTernary _ x l r =>
        let e := mem_add (snd (emit c x Value e)) IC_BE0 in
        let addr := mem_size e in
        let e := snd (emit c l Value (mem_reserve e)) in
        let e := mem_add (mem_set e addr (mem_size e + 2)) IC_B in
        let addr := mem_size e in
        let e := snd (emit c r Value (mem_reserve e)) in
        mem_set e addr (mem_size e)
    | NAssign t op l r =>
        let (v, e) := emit c l Place e in
        let e := snd (emit c r Value e) in
        if is_structure t then
          let e := match v with
                   | LVariable _ displ => mem_add (mem_add e IC_COPY0ST_ASSIGN) displ
                   | LAddress _ => mem_add e IC_COPY1ST_ASSIGN
                   end in
          mem_add e (size_of t)
        else
          let i := binary_to_instruction op in
          let i := match v with LAddress _ => instruction_to_address_ver i | _ => i end in
          let i := if is_floating t then instruction_to_floating_ver i else i in
          let e := mem_add e i in
          match v with LVariable _ displ => mem_add e displ | _ => e end
    | NInit t es =>
        let e := if is_array t then mem_add (mem_add e IC_BEG_INIT) (zlen es) else e in
        fold_left (fun e x => snd (emit c x Value e)) es e
    | _ => e
    end in
  match how with
  | Place => place e
  | Value =>
      (no_lvalue, if is_lvalue n then let (v, e) := place e in emit_load_of_lvalue e v else value e)
  | Void =>
      (no_lvalue, if is_lvalue n then snd (place e) else make_void (value e))
  end.

Definition emit_expression (c : ctx) (n : node) (e : enc) : enc := snd (emit c n Value e).
Definition emit_lvalue (c : ctx) (n : node) (e : enc) : lvalue * enc := emit c n Place e.
Definition emit_void_expression (c : ctx) (n : node) (e : enc) : enc := snd (emit c n Void e).

(** ** Declarations *)

(** codegen.c:1331-1356. *)
Fixpoint only_strings (n : node) : bool :=
  match n with
  | NLit t _ => is_string t
  | NInit _ es => forallb only_strings es
  | _ => false
  end.

(** codegen.c:1366-1390, the loop over the dimensions: the element type at the
    end, the number of dimensions, whether a bound is missing. *)
Fixpoint emit_bounds (c : ctx) (t : ty) (bounds : list (option node)) (dims : Z) (empty : bool) (e : enc) : ty * Z * bool * enc :=
  match t with
  | TArray u | TConst (TArray u) =>
      match bounds with
      | Some b :: bounds => emit_bounds c u bounds (dims + 1) empty (emit_expression c b e)
      | None :: bounds => emit_bounds c u bounds (dims + 1) true (if is_array u then add_error e else e)
      | [] => emit_bounds c u [] (dims + 1) empty e
      end
  | _ => (t, dims, empty, e)
  end.

Definition usable (proc : Z) : bool := negb (proc =? 0) && negb (proc =? ITEM_MAX).

(** codegen.c:1364-1432. *)
Definition emit_array_declaration (c : ctx) (id : Z) (bounds : list (option node)) (init : option node) (e : enc) : enc :=
  let '(t, dims, empty, e) := emit_bounds c (c_type c id) bounds 0 false e in
  let t := unqualified t in
  let '(displ, e) := displacements_add c e id in
  let proc := proc_get e t in
  let has := match init with Some _ => true | None => false end in
  let usual := if empty then 0 else 1 in
  let e := fold_left mem_add [IC_DEFARR; (if has then dims - 1 else dims); size_of t; displ; (if usable proc then proc else 0)] e in
  let addr := mem_size e in
  let e := fold_left mem_add [usual; (if has then 1 else 0); 0] e in
  match init with
  | None => e
  | Some i =>
      let e := emit_expression c i e in
      let usual' := if only_strings i then usual + 2 else usual in
      let e := if only_strings i then mem_set e addr usual' else e in
      fold_left mem_add [IC_ARR_INIT; dims; size_of t; displ; usual'] e
  end.

(** codegen.c:1440-1477. *)
Definition emit_variable_declaration (c : ctx) (id : Z) (bounds : list (option node)) (init : option node) (e : enc) : enc :=
  let t := c_type c id in
  if is_array t then emit_array_declaration c id bounds init e
  else
    let (displ, e) := displacements_add c e id in
    let u := unqualified t in
    let proc := proc_get e u in
    let e := if usable proc then mem_add (mem_add (mem_add e IC_STRUCT_WITH_ARR) displ) proc else e in
    match init with
    | None => e
    | Some i =>
        let e := emit_expression c i e in
        if is_structure u then mem_add (mem_add (mem_add e IC_COPY0ST_ASSIGN) displ) (size_of u)
        else mem_add (mem_add e (if is_floating u then IC_ASSIGN_R_V else IC_ASSIGN_V)) displ
    end.

(** codegen.c:1486-1517. *)
Fixpoint array_base (t : ty) : ty := match t with TArray u | TConst (TArray u) => array_base u | _ => t end.
Definition emit_member_declaration (c : ctx) (t : ty) (bounds : list node) (displ : Z) (e : enc) : enc :=
  if is_array t then
    let u := array_base t in
    let e := fold_left (fun e b => emit_expression c b e) bounds e in
    let proc := proc_get e u in
    fold_left mem_add [IC_DEFARR; zlen bounds; size_of u; displ; (if usable proc then proc else 0); 1; 0; 1] e
  else e.

(** codegen.c:1525-1568, 1612-1658. *)
Fixpoint emit_smember (c : ctx) (m : smember) (displ : Z) (e : enc) {struct m} : Z * enc :=
  match m with
  | MField u bounds => (displ + size_of u, emit_member_declaration c u bounds displ e)
  | MStruct t ms =>
      (displ,
       if existsb (fun m => is_array (fst m)) (members t) then
         let e := mem_add e IC_B in
         let addr := mem_size e in
         let e := proc_set (mem_reserve e) t (addr + 1) in
         let e := snd (fold_left (fun p m => emit_smember c m (fst p) (snd p)) ms (0, e)) in
         let e := mem_add e IC_STOP in
         mem_set e addr (mem_size e)
       else e)
  end.
Definition emit_struct (c : ctx) (t : ty) (ms : list smember) (e : enc) : enc := snd (emit_smember c (MStruct t ms) 0 e).

Definition emit_declaration (c : ctx) (d : decl) (e : enc) : enc :=
  match d with
  | DVar id bounds init => emit_variable_declaration c id bounds init e
  | DStruct t ms => emit_struct c t ms e
  end.

(** ** Statements *)

(** codegen.c:1666-1702: a label patches the jump of the label before. *)
Definition patch_case (e : enc) : enc := if e_case e =? 0 then e else mem_set e (e_case e) (mem_size e).
Definition set_case (e : enc) (a : Z) : enc := set_jumps e (e_cond e) a (e_break e).
Definition set_cond (e : enc) (a : Z) : enc := set_jumps e a (e_case e) (e_break e).
Definition set_break (e : enc) (a : Z) : enc := set_jumps e (e_cond e) (e_case e) a.
Definition set_displ (e : enc) (d : Z) : enc := set_frame e d (e_max_local e) (e_max_global e).

(** codegen.c:1650-2009. *)
Fixpoint emit_statement (c : ctx) (s : stmt) (e : enc) {struct s} : enc :=
  match s with
  | SDecl ds => fold_left (fun e d => emit_declaration c d e) ds e
  | SCase x s =>
      let e := mem_add (patch_case e) IC_DUPLICATE in
      let e := mem_add (mem_add (emit_expression c x e) IC_EQ) IC_BE0 in
      let addr := mem_size e in
      emit_statement c s (set_case (mem_reserve e) addr)
  | SDefault s => emit_statement c s (set_case (patch_case e) 0)
  | SCompound ss =>
      let displ := e_displ e in
      set_displ (fold_left (fun e s => emit_statement c s e) ss e) displ
  | SExpr x => emit_void_expression c x e
  | SNull => e
  | SIf x s other =>
      let e := mem_add (emit_expression c x e) IC_BE0 in
      let addr := mem_size e in
      let e := emit_statement c s (mem_reserve e) in
      match other with
      | None => mem_set e addr (mem_size e)
      | Some s' =>
          let e := mem_add (mem_set e addr (mem_size e + 2)) IC_B in
          let addr := mem_size e in
          let e := emit_statement c s' (mem_reserve e) in
          mem_set e addr (mem_size e)
      end
  | SSwitch x body =>
      let old_break := e_break e in
      let old_case := e_case e in
      let e := emit_expression c x (set_case (set_break e 0) 0) in
      let e := emit_statement c body e in
      let e := if 0 <? e_case e then mem_set e (e_case e) (mem_size e) else e in
      set_break (set_case (addr_end_break e) old_case) old_break
  | SWhile x body =>
      let old_break := e_break e in
      let old_cond := e_cond e in
      let addr := mem_size e in
      let e := mem_add (emit_expression c x (set_cond e addr)) IC_BE0 in
      let e := mem_add (set_break e (mem_size e)) 0 in
      let e := emit_statement c body e in
      let e := mem_add (mem_add (addr_begin_condition e addr) IC_B) addr in
      set_cond (set_break (addr_end_break e) old_break) old_cond
  | SDo body x =>
      let old_break := e_break e in
      let old_cond := e_cond e in
      let addr := mem_size e in
      let e := emit_statement c body (set_break (set_cond e 0) 0) in
      let e := emit_expression c x (addr_end_condition e) in
      let e := mem_add (mem_add e IC_BNE0) addr in
      set_cond (set_break (addr_end_break e) old_break) old_cond
  | SFor init cond next body =>
      let displ := e_displ e in
      let e := match init with Some s => emit_statement c s e | None => e end in
      let old_break := e_break e in
      let old_cond := e_cond e in
      let e := set_break (set_cond e 0) 0 in
      let addr := mem_size e in
      let e := match cond with
               | Some x =>
                   let e := mem_add (emit_expression c x e) IC_BE0 in
                   mem_add (set_break e (mem_size e)) 0
               | None => e
               end in
      let e := addr_end_condition (emit_statement c body e) in
      let e := match next with Some x => emit_void_expression c x e | None => e end in
      let e := mem_add (mem_add e IC_B) addr in
      set_displ (set_cond (set_break (addr_end_break e) old_break) old_cond) displ
  | SContinue =>
      let e := mem_add (mem_add e IC_B) (e_cond e) in set_cond e (mem_size e - 1)
  | SBreak =>
      let e := mem_add (mem_add e IC_B) (e_break e) in set_break e (mem_size e - 1)
  | SReturn None => mem_add e IC_RETURN_VOID
  | SReturn (Some x) =>
      mem_add (mem_add (emit_expression c x e) IC_RETURN_VAL) (size_of (type_of x))
  end.

(** codegen.c:1576-1604, [DISPL_START] codegen.c:29. *)
Definition DISPL_START : Z := 3.
Definition emit_function_definition (c : ctx) (id : Z) (params : list Z) (body : stmt) (e : enc) : enc :=
  let e := functions_add c e id (mem_size e) in
  let e := set_frame (set_params e (Some params)) DISPL_START DISPL_START (e_max_global e) in
  let e := fold_left (fun e p => snd (displacements_add c e p)) params e in
  let e := mem_add e IC_FUNC_BEG in
  let displ_addr := mem_size e in
  let e := mem_reserve e in
  let jump_addr := mem_size e in
  let e := emit_statement c body (mem_reserve e) in
  let e := mem_add e IC_RETURN_VOID in
  let e := mem_set e displ_addr (e_max_local e) in
  let e := mem_set e jump_addr (mem_size e) in
  set_params e None.

(** codegen.c:2017-2032. *)
Definition emit_top (c : ctx) (d : topdecl) (e : enc) : enc :=
  match d with
  | TopDecl d => emit_declaration c d e
  | TopFunc id params body => emit_function_definition c id params body e
  end.
Definition emit_translation_unit (c : ctx) (main : Z) (ds : list topdecl) (e : enc) : enc :=
  let e := fold_left (fun e d => emit_top c d e) ds e in
  fold_left mem_add [IC_CALL1; IC_CALL2; displacements_get e main; IC_STOP] e.

(** codegen.c:306-328: the encoder at the start; [n] is the size of the
    identifier table. *)
Definition enc_create (n : Z) : enc :=
  mkEnc (lv_increase [] 4) [] [] [] (lv_increase [] n) (lv_increase [] 2) 0 0 0 0 0 3 None [] 0 false.

(** ** Export, codegen.c:338-381 *)
Definition tables (e : enc) (types : list Z) : list (list Z) := [e_mem e; e_funcs e; e_idents e; e_reprs e; types].

(** Decimal notation, the conversions [%zi] and [%lli] of [printf]. *)
Fixpoint digits (fuel : nat) (n : Z) (acc : bytes) : bytes :=
  match fuel with
  | O => acc
  | S fuel => let acc := (48 + n mod 10) :: acc in if n / 10 =? 0 then acc else digits fuel (n / 10) acc
  end.
Definition decimal (z : Z) : bytes :=
  if z <? 0 then 45 :: digits 20 (- z) [] else digits 20 z [].

(** codegen.c:338-355 [print_table]: the text and whether it succeeded. *)
Fixpoint print_items (st : item_status) (l : list Z) : bytes * bool :=
  match l with
  | [] => ([10], true)
  | x :: l =>
      if item_check_var st x then let (t, ok) := print_items st l in (decimal x ++ 32 :: t, ok) else ([], false)
  end.
Fixpoint print_tables (st : item_status) (ts : list (list Z)) : bytes * bool :=
  match ts with
  | [] => ([], true)
  | t :: ts =>
      let (s, ok) := print_items st t in
      if ok then let (s', ok') := print_tables st ts in (s ++ s', ok') else (s, false)
  end.
(** codegen.c:364-381 [enc_export]; [shebang] is its first line. *)
Definition export_header (e : enc) (types : list Z) : bytes :=
  flat_map (fun t => decimal (zlen t) ++ [32]) (tables e types) ++ decimal (e_max_global e) ++ [32; 48; 10].
Definition enc_export (c : ctx) (shebang : bytes) (e : enc) (types : list Z) : bytes * bool :=
  let (s, ok) := print_tables (c_target c) (tables e types) in (shebang ++ export_header e types ++ s, ok).

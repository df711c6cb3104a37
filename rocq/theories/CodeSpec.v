(** What a program means, independently of the code generated for it: the value
    and effect of expressions on words and the effect of statements.

    Every variable has cells; an array is the address of its first element, and
    the cell before that element holds the number of elements.  Operands are
    evaluated from left to right, the place of an assignment before the value.
    Calls, floating and structure values have no meaning here ([None]). *)
From Verif Require Import Prelude TypesModel TypesSpec LexModel ParseModel InstrModel BuildModel CodeModel VmSpec.

(** The word a literal stands for. *)
Definition lit_value (t : ty) (l : lit) : option Z :=
  match unqualified t, l with
  | TSimple k, LNull _ => if k =? TYPE_NULL_POINTER then Some 0 else None
  | TSimple k, LBool b => if k =? TYPE_BOOLEAN then Some (truth b) else None
  | TSimple k, LChar v => if k =? TYPE_CHARACTER then Some v else None
  | TSimple k, LInt v => if k =? TYPE_INTEGER then Some v else None
  | TEnum _ _, LInt v => Some v
  | _, _ => None
  end.

(** The distance of a member from the start of the structure. *)
Fixpoint offset (ms : list (ty * Z)) (i : nat) : Z :=
  match i, ms with S i, m :: ms => size_of (fst m) + offset ms i | _, _ => 0 end.

Definition one_word (t : ty) : bool := negb (is_structure t) && negb (is_floating t).

Section Meaning.
Variable w : Z -> Z.             (* brings a result into the range of a word *)
Variable at_ : Z -> Z.           (* the address of the variable with an identifier *)

(** ** Expressions: the place (an address) or the value, and the cells after. *)
Fixpoint eval (n : node) (place : bool) (m : cells) {struct n} : option (Z * cells) :=
  let where_ :=
    match n with
    | NIdent _ id => Some (at_ id, m)
    | NSubscript t base index =>
        do ' (a, m) <- eval base false m;
        do ' (i, m) <- eval index false m;
        if (0 <=? i) && (i <? m (a - 1)) then Some (a + i * size_of t, m) else None
    | NMember _ _ i true base =>
        do ' (a, m) <- eval base false m; Some (a + offset (members (element (type_of base))) (Z.to_nat i), m)
    | NMember _ _ i false base =>
        do ' (a, m) <- eval base true m; Some (a + offset (members (type_of base)) (Z.to_nat i), m)
    | NUnary _ _ UN_INDIRECTION x => eval x false m
    | _ => None
    end in
  if place then where_
  else if is_lvalue n then
    if one_word (type_of n) then do ' (a, m) <- where_; Some (m a, m) else None
  else
    match n with
    | NLit t l => do v <- lit_value t l; Some (v, m)
    | NUnary _ _ UN_ADDRESS x => eval x true m
    | NUnary _ _ op x =>
        if is_step op then
          do ' (a, m) <- eval x true m; do ' (v, r) <- stepped w op (m a); Some (r, store m a v)
        else do ' (v, m) <- eval x false m; do r <- operate1 w op v; Some (r, m)
    | NBinary _ BIN_COMMA l r => do ' (_, m) <- eval l false m; eval r false m
    | NBinary _ BIN_LOG_AND l r =>
        do ' (a, m) <- eval l false m;
        if a =? 0 then Some (0, m) else do ' (b, m) <- eval r false m; Some (truth (negb (b =? 0)), m)
    | NBinary _ BIN_LOG_OR l r =>
        do ' (a, m) <- eval l false m;
        if a =? 0 then do ' (b, m) <- eval r false m; Some (truth (negb (b =? 0)), m) else Some (1, m)
    | NBinary _ op l r =>
        do ' (a, m) <- eval l false m; do ' (b, m) <- eval r false m; do v <- operate w op a b; Some (v, m)
    | NTernary _ x l r => do ' (v, m) <- eval x false m; if v =? 0 then eval r false m else eval l false m
    | NAssign _ op l r =>
        do ' (a, m) <- eval l true m; do ' (v, m) <- eval r false m;
        do v <- assigned w op (m a) v; Some (v, store m a v)
    | _ => None
    end.
Definition value_of (n : node) (m : cells) : option (Z * cells) := eval n false m.
Definition place_of (n : node) (m : cells) : option (Z * cells) := eval n true m.

(** ** Statements *)
Inductive outcome := ONext | OBreak | OContinue | OReturn (v : option Z).

(** After a loop body: go on looping, leave the loop normally, or leave the
    function. *)
Definition stays (o : outcome) : bool := match o with ONext | OContinue => true | _ => false end.

(** The statements of a switch body from the label [v] selects. *)
Fixpoint has_case (v : Z) (s : stmt) : bool :=
  match s with
  | SCase (NLit t l) s => match lit_value t l with Some x => (x =? v) || has_case v s | None => has_case v s end
  | SCase _ s | SDefault s => has_case v s
  | _ => false
  end.
Fixpoint has_default (s : stmt) : bool :=
  match s with SDefault _ => true | SCase _ s => has_default s | _ => false end.
Fixpoint from_first (p : stmt -> bool) (ss : list stmt) : option (list stmt) :=
  match ss with [] => None | s :: r => if p s then Some ss else from_first p r end.
Definition select (v : Z) (ss : list stmt) : list stmt :=
  match from_first (has_case v) ss with
  | Some r => r
  | None => match from_first has_default ss with Some r => r | None => [] end
  end.

Inductive exec : stmt -> cells -> outcome -> cells -> Prop :=
| ex_decl ds m m' : exec_decls ds m m' -> exec (SDecl ds) m ONext m'
| ex_case x s m o m' : exec s m o m' -> exec (SCase x s) m o m'
| ex_default s m o m' : exec s m o m' -> exec (SDefault s) m o m'
| ex_compound ss m o m' : exec_all ss m o m' -> exec (SCompound ss) m o m'
| ex_expr x m v m' : value_of x m = Some (v, m') -> exec (SExpr x) m ONext m'
| ex_null m : exec SNull m ONext m
| ex_then x s other m v m1 o m' :
    value_of x m = Some (v, m1) -> v <> 0 -> exec s m1 o m' -> exec (SIf x s other) m o m'
| ex_else x s s' m m1 o m' :
    value_of x m = Some (0, m1) -> exec s' m1 o m' -> exec (SIf x s (Some s')) m o m'
| ex_skip x s m m1 : value_of x m = Some (0, m1) -> exec (SIf x s None) m ONext m1
| ex_switch x ss m v m1 o m' :
    value_of x m = Some (v, m1) -> exec_all (select v ss) m1 o m' ->
    exec (SSwitch x (SCompound ss)) m (match o with OBreak => ONext | _ => o end) m'
| ex_while_end x body m m1 : value_of x m = Some (0, m1) -> exec (SWhile x body) m ONext m1
| ex_while_again x body m v m1 o m2 o' m' :
    value_of x m = Some (v, m1) -> v <> 0 -> exec body m1 o m2 -> stays o = true ->
    exec (SWhile x body) m2 o' m' -> exec (SWhile x body) m o' m'
| ex_while_leave x body m v m1 o m' :
    value_of x m = Some (v, m1) -> v <> 0 -> exec body m1 o m' -> stays o = false ->
    exec (SWhile x body) m (match o with OBreak => ONext | _ => o end) m'
| ex_do_end x body m o m1 m' :
    exec body m o m1 -> stays o = true -> value_of x m1 = Some (0, m') -> exec (SDo body x) m ONext m'
| ex_do_again x body m o m1 v m2 o' m' :
    exec body m o m1 -> stays o = true -> value_of x m1 = Some (v, m2) -> v <> 0 ->
    exec (SDo body x) m2 o' m' -> exec (SDo body x) m o' m'
| ex_do_leave x body m o m' :
    exec body m o m' -> stays o = false -> exec (SDo body x) m (match o with OBreak => ONext | _ => o end) m'
| ex_for c next body m o m' : exec_for c next body m o m' -> exec (SFor None c next body) m o m'
| ex_for_init s c next body m m1 o m' :
    exec s m ONext m1 -> exec_for c next body m1 o m' -> exec (SFor (Some s) c next body) m o m'
| ex_continue m : exec SContinue m OContinue m
| ex_break m : exec SBreak m OBreak m
| ex_return m : exec (SReturn None) m (OReturn None) m
| ex_return_value x m v m' : value_of x m = Some (v, m') -> exec (SReturn (Some x)) m (OReturn (Some v)) m'

with exec_all : list stmt -> cells -> outcome -> cells -> Prop :=
| ex_nil m : exec_all [] m ONext m
| ex_cons s ss m m1 o m' : exec s m ONext m1 -> exec_all ss m1 o m' -> exec_all (s :: ss) m o m'
| ex_jump s ss m o m' : exec s m o m' -> o <> ONext -> exec_all (s :: ss) m o m'

(** A declaration with an initialiser writes its value to the variable. *)
with exec_decls : list decl -> cells -> cells -> Prop :=
| ex_no_decl m : exec_decls [] m m
| ex_struct t ms ds m m' : exec_decls ds m m' -> exec_decls (DStruct t ms :: ds) m m'
| ex_var id bounds ds m m' : exec_decls ds m m' -> exec_decls (DVar id bounds None :: ds) m m'
| ex_init id bounds x ds m v m1 m' :
    value_of x m = Some (v, m1) -> exec_decls ds (store m1 (at_ id) v) m' -> exec_decls (DVar id bounds (Some x) :: ds) m m'

(** The loop of a [for] statement, after its initialisation. *)
with exec_for : option node -> option node -> stmt -> cells -> outcome -> cells -> Prop :=
| ex_for_end x next body m m1 : value_of x m = Some (0, m1) -> exec_for (Some x) next body m ONext m1
| ex_for_again c next body m m1 o m2 m3 o' m' :
    match c with Some x => exists v, value_of x m = Some (v, m1) /\ v <> 0 | None => m1 = m end ->
    exec body m1 o m2 -> stays o = true ->
    match next with Some x => exists v, value_of x m2 = Some (v, m3) | None => m3 = m2 end ->
    exec_for c next body m3 o' m' -> exec_for c next body m o' m'
| ex_for_leave c next body m m1 o m' :
    match c with Some x => exists v, value_of x m = Some (v, m1) /\ v <> 0 | None => m1 = m end ->
    exec body m1 o m' -> stays o = false ->
    exec_for c next body m (match o with OBreak => ONext | _ => o end) m'.
End Meaning.

(** ** The programs the theorems speak about

    Codegen.c produces wrong code for some programs; the theorems exclude them
    and refutations in CodeProps.v show what happens to them. *)

(** A variable or a member of a variable: the generator knows its displacement. *)
Fixpoint direct (n : node) : bool :=
  match n with NIdent _ _ => true | NMember _ _ _ false base => direct base | _ => false end.

(** Reaching the place of such an element or member already loads its value. *)
Definition loads (n : node) : bool :=
  negb (direct n) &&
  match n with NSubscript t _ _ => is_array t | NMember t _ _ _ _ => is_array t || is_pointer t | _ => false end.

(** The value is 0 or 1. *)
Fixpoint zero_one (n : node) : bool :=
  match n with
  | NLit _ (LBool _) => true
  | NUnary _ _ UN_LOGNOT _ => true
  | NBinary _ op l r =>
      match op with
      | BIN_LT | BIN_GT | BIN_LE | BIN_GE | BIN_EQ | BIN_NE | BIN_LOG_AND => true
      | BIN_LOG_OR => zero_one l
      | BIN_COMMA => zero_one r
      | _ => false
      end
  | NTernary _ _ l r => zero_one l && zero_one r
  | _ => false
  end.

(** [a || b] leaves [a] when [a] is not zero: the code computes the exact value
    only if [a] is 0 or 1, otherwise only whether the value is zero. *)
Fixpoint exact_value (n : node) : bool :=
  match n with
  | NBinary _ BIN_LOG_OR l _ => zero_one l
  | NBinary _ BIN_COMMA _ r => exact_value r
  | NTernary _ _ l r => exact_value l && exact_value r
  | _ => true
  end.

(** Operators. *)
Definition is_plain_operator (op : binary) : bool :=
  match op with
  | BIN_MUL | BIN_DIV | BIN_REM | BIN_ADD | BIN_SUB | BIN_SHL | BIN_SHR | BIN_LT | BIN_GT | BIN_LE | BIN_GE
  | BIN_EQ | BIN_NE | BIN_AND | BIN_XOR | BIN_OR => true
  | _ => false
  end.
Definition is_assignment (op : binary) : bool :=
  match op with
  | BIN_ASSIGN | BIN_MUL_ASSIGN | BIN_DIV_ASSIGN | BIN_REM_ASSIGN | BIN_ADD_ASSIGN | BIN_SUB_ASSIGN
  | BIN_SHL_ASSIGN | BIN_SHR_ASSIGN | BIN_AND_ASSIGN | BIN_XOR_ASSIGN | BIN_OR_ASSIGN => true
  | _ => false
  end.
(** Assignments to a variable which have a variant without a result. *)
Definition is_droppable (op : binary) : bool :=
  match op with BIN_ASSIGN | BIN_MUL_ASSIGN | BIN_DIV_ASSIGN | BIN_ADD_ASSIGN | BIN_SUB_ASSIGN => true | _ => false end.

Section Supported.
Variable c : ctx.
Variable disp : Z -> Z.          (* the displacement of an identifier *)

Fixpoint displ_of (n : node) : Z :=
  match n with
  | NIdent _ id => disp id
  | NMember _ _ i _ base =>
      let d := displ_of base in
      let o := offset (members (type_of base)) (Z.to_nat i) in if 0 <? d then d + o else d - o
  | _ => 0
  end.

Definition droppable (l : node) (op : binary) : bool :=
  if direct l then (displ_of l <? MIN_INSTRUCTION_CODE) && is_droppable op else true.
Definition droppable_step (l : node) : bool :=
  if direct l then displ_of l <? MIN_INSTRUCTION_CODE else true.

(** Expressions for which the code is right: for the value, the place, or the
    effect only. *)
Fixpoint supported (n : node) (how : mode) {struct n} : bool :=
  let place :=
    match n with
    | NIdent t id => ty_eqb (c_type c id) t
    | NSubscript t base index =>
        supported base Value && supported index Value && exact_value base && exact_value index
    | NMember _ lv _ arrow base =>
        lv && (if arrow then supported base Value && exact_value base else supported base Place && (direct base || negb (loads base)))
    | NUnary _ lv UN_INDIRECTION x => lv && supported x Place && (direct x && one_word (type_of x) || loads x)
    | _ => false
    end in
  let value :=
    match n with
    | NLit t l => match lit_value t l with Some _ => true | None => false end
    | NUnary t _ op x =>
        if is_step op then negb (is_floating t) && supported x Place && (direct x || negb (loads x))
        else
          match op with
          | UN_ADDRESS => supported x Place && (direct x || negb (loads x))
          | UN_MINUS | UN_ABS => is_integer t && supported x Value && exact_value x
          | UN_NOT => supported x Value && exact_value x
          | UN_LOGNOT => supported x Value
          | _ => false
          end
    | NBinary _ op l r =>
        match op with
        | BIN_COMMA => supported l Void && supported r Value
        | BIN_LOG_AND | BIN_LOG_OR => negb (is_floating (type_of l)) && supported l Value && supported r Value
        | _ =>
            is_plain_operator op && negb (is_floating (type_of l)) && supported l Value && supported r Value
            && exact_value l && exact_value r
        end
    | NTernary _ x l r => supported x Value && supported l Value && supported r Value
    | NAssign t op l r =>
        one_word t && is_assignment op && supported l Place && (direct l || negb (loads l)) && supported r Value && exact_value r
    | _ => false
    end in
  match how with
  | Place => place
  | Value =>
      if is_lvalue n then
        place && one_word (type_of n) && (direct n || loads n || is_integer (type_of n))
      else value
  | Void =>
      if is_lvalue n then place && direct n && one_word (type_of n)
      else
        value &&
        match n with
        | NAssign _ op l _ => droppable l op
        | NUnary _ _ op x => is_step op && droppable_step x
        | NBinary _ BIN_COMMA l r => negb (is_lvalue r) && supported r Void
        | _ => false
        end
  end.
Definition computed (n : node) : bool := supported n Value && exact_value n.

(** Statements. *)
Definition supported_decl (d : decl) : bool :=
  match d with
  | DVar id _ init =>
      one_word (c_type c id) && negb (is_array (c_type c id))
      && match init with Some x => computed x | None => true end
  | DStruct t _ => negb (existsb (fun m => is_array (fst m)) (members t))
  end.

(** A switch body in which every section ends in a jump, except the last, and
    only the last may be [default]: [closed] says that control does not come
    from the statement above. *)
Definition is_jump (s : stmt) : bool := match s with SBreak | SContinue | SReturn _ => true | _ => false end.
Definition is_label (s : stmt) : bool := match s with SCase _ _ | SDefault _ => true | _ => false end.
Fixpoint tidy (closed : bool) (ss : list stmt) : bool :=
  match ss with
  | [] => true
  | SCase _ s :: ss => closed && tidy (is_jump s) ss
  | SDefault _ :: ss => closed && negb (existsb is_label ss)
  | s :: ss => tidy (is_jump s) ss
  end.
Definition tidy_switch (ss : list stmt) : bool :=
  match ss with s :: _ => is_label s | [] => true end && tidy true ss.
Definition is_constant (x : node) : bool :=
  match x with NLit t l => match lit_value t l with Some _ => true | None => false end | _ => false end.

Fixpoint supported_stmt (s : stmt) {struct s} : bool :=
  match s with
  | SDecl ds => forallb supported_decl ds
  | SCase _ _ | SDefault _ => false
  | SCompound ss => forallb supported_stmt ss
  | SExpr x => supported x Void
  | SNull | SContinue | SBreak | SReturn None => true
  | SIf x s other => supported x Value && supported_stmt s && match other with Some s' => supported_stmt s' | None => true end
  | SSwitch x (SCompound ss) =>
      computed x && tidy_switch ss
      && forallb (fun s => match s with
                           | SCase x s => is_constant x && supported_stmt s
                           | SDefault s => supported_stmt s
                           | s => supported_stmt s
                           end) ss
  | SSwitch _ _ => false
  | SWhile x body => supported x Value && supported_stmt body
  | SDo body x => supported_stmt body && supported x Value
  | SFor init x next body =>
      match init with Some s => supported_stmt s | None => true end
      && match x with Some x => supported x Value | None => true end
      && match next with Some x => supported x Void | None => true end
      && supported_stmt body
  | SReturn (Some x) => computed x
  end.
End Supported.

(** No switch: the code leaves nothing on the stack. *)
Fixpoint no_switch (s : stmt) : bool :=
  match s with
  | SSwitch _ _ => false
  | SCase _ s | SDefault s | SWhile _ s | SDo s _ => no_switch s
  | SCompound ss => forallb no_switch ss
  | SIf _ s other => no_switch s && match other with Some s' => no_switch s' | None => true end
  | SFor init _ _ body => match init with Some s => no_switch s | None => true end && no_switch body
  | _ => true
  end.

(** Every break is inside a loop or a switch and every continue inside a loop
    (see C25); the flags say whether the statement is inside one. *)
Fixpoint jumps_ok (brk cont : bool) (s : stmt) : bool :=
  match s with
  | SBreak => brk
  | SContinue => cont
  | SCase _ s | SDefault s => jumps_ok brk cont s
  | SCompound ss => forallb (jumps_ok brk cont) ss
  | SIf _ s other => jumps_ok brk cont s && match other with Some s' => jumps_ok brk cont s' | None => true end
  | SSwitch _ s => jumps_ok true cont s
  | SWhile _ s | SDo s _ => jumps_ok true true s
  | SFor init _ _ body => match init with Some s => jumps_ok brk cont s | None => true end && jumps_ok true true body
  | _ => true
  end.

(** ** Which identifiers a program uses and declares *)
Fixpoint uses (n : node) : list Z :=
  match n with
  | NIdent _ id => [id]
  | NLit _ _ | NBroken => []
  | NSubscript _ a b | NBinary _ _ a b | NAssign _ _ a b => uses a ++ uses b
  | NCall _ f args => uses f ++ flat_map uses args
  | NMember _ _ _ _ x | NCast _ _ x | NUnary _ _ _ x => uses x
  | NTernary _ a b d => uses a ++ uses b ++ uses d
  | NInit _ es => flat_map uses es
  end.
Definition opt_uses (o : option node) : list Z := match o with Some x => uses x | None => [] end.
Definition decl_uses (d : decl) : list Z := match d with DVar _ _ init => opt_uses init | DStruct _ _ => [] end.
Definition decl_ids (d : decl) : list Z := match d with DVar id _ _ => [id] | DStruct _ _ => [] end.

Fixpoint declares (s : stmt) : list Z :=
  match s with
  | SDecl ds => flat_map decl_ids ds
  | SCase _ s | SDefault s | SSwitch _ s | SWhile _ s | SDo s _ => declares s
  | SCompound ss => flat_map declares ss
  | SIf _ s other => declares s ++ match other with Some s' => declares s' | None => [] end
  | SFor init _ _ body => match init with Some s => declares s | None => [] end ++ declares body
  | _ => []
  end.

(** No identifier is declared after it was used or declared, starting with the
    identifiers [seen]; the list of the identifiers met. *)
Definition meet (ids seen : list Z) : list Z := ids ++ seen.
Definition fresh (id : Z) (seen : list Z) : bool := negb (existsb (fun x => x =? id) seen).
Definition order_decl (seen : list Z) (d : decl) : option (list Z) :=
  match d with
  | DVar id _ init => if fresh id seen then Some (meet (opt_uses init) (id :: seen)) else None
  | DStruct _ _ => Some seen
  end.
Definition in_order {A} (f : list Z -> A -> option (list Z)) : list Z -> list A -> option (list Z) :=
  fix go (seen : list Z) (l : list A) : option (list Z) :=
    match l with [] => Some seen | x :: l => do seen <- f seen x; go seen l end.
Fixpoint order (seen : list Z) (s : stmt) {struct s} : option (list Z) :=
  match s with
  | SDecl ds => in_order order_decl seen ds
  | SCase x s => order (meet (uses x) seen) s
  | SDefault s => order seen s
  | SCompound ss => in_order (fun seen s => order seen s) seen ss
  | SExpr x => Some (meet (uses x) seen)
  | SNull | SContinue | SBreak => Some seen
  | SIf x s other =>
      do seen <- order (meet (uses x) seen) s; match other with Some s' => order seen s' | None => Some seen end
  | SSwitch x s | SWhile x s => order (meet (uses x) seen) s
  | SDo s x => do seen <- order seen s; Some (meet (uses x) seen)
  | SFor init x next body =>
      do seen <- match init with Some s => order seen s | None => Some seen end;
      do seen <- order (meet (opt_uses x) seen) body;
      Some (meet (opt_uses next) seen)
  | SReturn x => Some (meet (opt_uses x) seen)
  end.

(** ** What the machine does for a statement

    From the state [s] the machine comes to the end [fin] of the code of the
    statement, or to an instruction which returns from the function with the
    value the statement returns; the cells are then [m].  On the stack are the
    words [st] which were there before and, above them, words which code left
    behind: none when [quiet]. *)
Definition reaches (w : Z -> Z) (lay : layout) (C : list Z) (quiet : bool) (fin : Z) (o : outcome) (st : list Z) (s : vm) (m : cells) : Prop :=
  exists j, (quiet = true -> j = []) /\
  match o with
  | ONext => runs w lay C s (mkVm fin (j ++ st) m)
  | OReturn None => exists p, znth C p = Some IC_RETURN_VOID /\ runs w lay C s (mkVm p (j ++ st) m)
  | OReturn (Some v) => exists p, znth C p = Some IC_RETURN_VAL /\ runs w lay C s (mkVm p (v :: j ++ st) m)
  | _ => False
  end.

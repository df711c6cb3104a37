(** Model of the parser of declarations and of whole programs
    (libs/compiler/parser.c:789-1290, 1870-2257).

    The symbol table and the checks of the builder stand outside, as the
    variables of the section below.  Each call that writes to the table, or that
    checks a finished node, is an [entry] given to [note], which answers with a
    type, the new table and the number of errors it reports.

    A run can go wrong in four ways, see [fault].  The C program does not get any
    further then; the model notes the fault and goes on at the end of the file,
    only to have a result.  No theorem says anything of the rest of such a run.
    [prs->func_def], as far as it goes to the symbol table, is a part of the
    table.  Locations are left out. *)
From Verif Require Import Prelude LexModel ParseModel ParseSpec StmtModel.

(** The types the parser tells apart (libs/compiler/syntax.h:40-75,
    libs/compiler/syntax.c:528-845); [CTable] is any other entry of the table of
    types, in particular each structure and each enumeration. *)
Inductive ctype :=
| CUndefined | CVoid | CBoolean | CCharacter | CInteger | CFloating | CFile
| CConst (t : ctype) | CPointer (t : ctype) | CArray (t : ctype) | CFunction (result : ctype) (params : list ctype) | CTable (i : Z).
Definition is_const (t : ctype) : bool := match t with CConst _ => true | _ => false end.
Definition is_undefined (t : ctype) : bool := match t with CUndefined => true | _ => false end.
Definition is_void (t : ctype) : bool := match t with CVoid => true | _ => false end.
Definition is_pointer (t : ctype) : bool := match t with CPointer _ => true | _ => false end.

(** The arguments of [build_declarator] and [build_member_declaration]
    (libs/compiler/parser.c:1245, 963); a bound [None] is an empty one. *)
Record declarator := mkDeclarator {
  dr_type : ctype; dr_name : Z; dr_star : bool; dr_const : bool; dr_bounds : list (option expr); dr_init : option expr }.
(** The arguments of [build_declaration] (parser.c:1286); [None] is a broken
    declarator. *)
Record decl := mkDecl { dc_type : ctype; dc_vars : list (option declarator) }.

Inductive entry :=
| NTypedef (name : Z) (t : ctype)                                 (* parser.c:880 *)
| NMember (d : declarator)                                        (* parser.c:963 *)
| NStruct (name : option Z) (members : list (option declarator))  (* parser.c:999, 1007; answers the type *)
| NEnumType                                                       (* parser.c:1077; answers the type *)
| NEnumerator (name : Z) (t : ctype) (value : Z)                  (* parser.c:1058-1062 *)
| NEnumFields (t : ctype) (fields : list (Z * Z))                 (* parser.c:1126-1129 *)
| NEnumName (name : Z) (t : ctype)                                (* parser.c:1153-1155; answers the type *)
| NVariable (d : declarator)                                      (* parser.c:1245 *)
| NNothing                                                        (* libs/compiler/builder.c:1288-1291 *)
| NParameter (name : Z) (is_function : bool)                      (* parser.c:1918, 1968 *)
| NFunction (name : Z) (t : ctype) (func_def : Z)                 (* parser.c:2162 *)
| NBody (name : Z) (t : ctype)                                    (* parser.c:2037-2085 *)
| NLeave.                                                         (* parser.c:2102 *)

(** How a run can end badly: in a loop that never ends, with a failed assertion
    of [token_get_ident_name], with a write past the end of [local_modetab], with
    an overflow of a signed integer. *)
Inductive fault := Hang | Assertion | Overrun | Overflow.
(** The symbol table, [prs->was_type_def], and the first fault. *)
Record denv (E : Type) := mkDenv { v_env : E; v_type_def : bool; v_fault : option fault }.
Arguments mkDenv {E}. Arguments v_env {E}. Arguments v_type_def {E}. Arguments v_fault {E}.

(** What the program is made of: the children of the root (parser.c:2203-2232). *)
Inductive external :=
| XVariable (d : option declarator) | XFunction (name : Z) (t : ctype) (func_def : Z) (body : option (stmt decl)) | XBroken.

Definition INT_MAX : Z := 2147483647.

Section Declarations.
Variable E : Type.
Variable note : E -> entry -> ctype * E * nat.
(** The type of a name that is a type specifier (parser.c:847-857). *)
Variable type_of : E -> Z -> option ctype.
(** The type of a declared name (parser.c:1042-1049, 1159-1166). *)
Variable tag_of : E -> Z -> option ctype.
Variable correct : E -> expr -> bool.
(** [build_constant_expression] (parser.c:668): [None] if the node is broken,
    else the value and whether its type is an integer or the enumeration. *)
Variable enum_value : E -> ctype -> expr -> option (Z * bool).
Variables enter leave : E -> E.
Variable constant : E -> expr -> bool.
(** [repr_get_reference(...) == TK_MAIN] (parser.c:2134), and the type main may
    have for its parameter (parser.c:2155). *)
Variable is_main : E -> Z -> bool.
Variable main_parameter : ctype -> bool.
(** The function is skipped: main again, or a prototype of another type
    (parser.c:2029-2035, 2043-2052). *)
Variable skipped : E -> Z -> ctype -> bool.

Notation V := (denv E).
Notation P := (ps V).
Definition v_correct (v : V) (e : expr) : bool := correct (v_env v) e.
Definition v_constant (v : V) (e : expr) : bool := constant (v_env v) e.
Definition v_enter (v : V) : V := mkDenv (enter (v_env v)) (v_type_def v) (v_fault v).
Definition v_leave (v : V) : V := mkDenv (leave (v_env v)) (v_type_def v) (v_fault v).
Definition v_type_name (v : V) (name : Z) : bool := match type_of (v_env v) name with Some _ => true | None => false end.
Definition table (p : P) : E := v_env (p_env p).
Definition with_table (p : P) (e : E) : P := with_env V p (mkDenv e (v_type_def (p_env p)) (v_fault (p_env p))).
Definition type_defined (p : P) (b : bool) : P := with_env V p (mkDenv (table p) b (v_fault (p_env p))).
Definition stop (f : fault) (p : P) : P :=
  with_s V (with_env V p (mkDenv (table p) (v_type_def (p_env p)) (match v_fault (p_env p) with Some g => Some g | None => Some f end))) ([], snd (p_s p)).
Definition enters (x : entry) (p : P) : ctype * P :=
  let '(t, e, n) := note (table p) x in (t, with_s V (with_table p e) (fst (p_s p), snd (p_s p) + Z.of_nat n)).
Definition noted (x : entry) (p : P) : P := snd (enters x p).
Definition pskip_to (T k : Z) (p : P) : option P := do p <- pskip V T p; Some (snd (ptry V p k)).
Definition star_const (p : P) : bool * bool * P :=
  let '(star, p) := ptry V p TK_STAR in
  if star then let '(c, p) := ptry V p TK_CONST in (true, c, p) else (false, false, p).

(** libs/compiler/parser.c:941-960, 1208-1232: the loops over the bounds, where
    an empty bound is an error for a member ([empty] false). *)
Fixpoint parse_bounds (fuel : nat) (empty : bool) (T : Z) (p : P) : option (list (option expr) * P) :=
  match fuel with
  | O => None
  | S fuel =>
      let '(more, p) := ptry V p TK_L_SQUARE in
      if negb more then Some ([], p)
      else
        let '(none, p) := ptry V p TK_R_SQUARE in
        if none then
          do ' (bs, p) <- parse_bounds fuel empty T (if empty then p else perror V p);
          Some (if empty then None :: bs else bs, p)
        else
          do ' (e, ok, p) <- read_expression V v_correct p;
          do p <- (if negb ok then pskip_to T TK_R_SQUARE p
                   else let '(closed, p) := ptry V p TK_R_SQUARE in
                        if closed then Some p else pskip_to T TK_R_SQUARE (perror V p));
          do ' (bs, p) <- parse_bounds fuel empty T p;
          Some (Some e :: bs, p)
  end.

(** libs/compiler/parser.c:1193-1249. *)
Definition read_initializer (p : P) : option (expr * bool * P) :=
  do ' (e, s) <- parse_initializer (enough (toks V p)) (p_s p);
  let ok := v_correct (p_env p) e in Some (e, ok, with_s V p (built ok (p_s p) s)).
Definition parse_init_declarator (type : ctype) (p : P) : option (option declarator * P) :=
  let '(star, const, p) := star_const p in
  match toks V p with
  | TIdent name :: _ =>
      let p := pconsume V p in
      do ' (bounds, p) <- parse_bounds (S (length (toks V p))) true (Z.lor TK_R_SQUARE (Z.lor TK_COMMA TK_SEMICOLON)) p;
      let '(assigned, p) := ptry V p TK_EQUAL in
      do ' (init, p) <-
        (if assigned then
           do ' (e, ok, p) <- read_initializer p;
           if ok then Some (Some e, p) else do p <- pskip V (Z.lor TK_COMMA TK_SEMICOLON) p; Some (None, p)
         else Some (None, p));
      let d := mkDeclarator type name star const bounds init in
      Some (Some d, noted (NVariable d) p)
  | _ => do p <- pskip V (Z.lor TK_COMMA TK_SEMICOLON) (perror V p); Some (None, p)
  end.

Section Specifier.
(** [parse_type_specifier]; the second result says that a structure was added to
    [parent]. *)
Variable parse_type_specifier : P -> option (ctype * bool * P).

(** libs/compiler/parser.c:920-967. *)
Definition parse_member_declaration (p : P) : option (option declarator * P) :=
  do ' (type, _, p) <- parse_type_specifier p;
  let '(star, const, p) := star_const p in
  match toks V p with
  | TIdent name :: _ =>
      let p := pconsume V p in
      do ' (bounds, p) <- parse_bounds (S (length (toks V p))) false (Z.lor TK_R_SQUARE TK_SEMICOLON) p;
      let p := pexpect V p TK_SEMICOLON in
      let d := mkDeclarator type name star const bounds None in
      Some (Some d, noted (NMember d) p)
  | _ => do p <- pskip_to (Z.lor TK_SEMICOLON TK_R_BRACE) TK_SEMICOLON (perror V p); Some (None, p)
  end.
(** libs/compiler/parser.c:993-997, the loop.  At the end of the file a round
    leaves the parser where it is (Theorem C74_struct_round), so that it never
    ends. *)
Fixpoint parse_members (fuel : nat) (p : P) : option (list (option declarator) * P) :=
  match fuel with
  | O => None
  | S fuel =>
      if pis V p TK_R_BRACE then Some ([], pconsume V p)
      else if pis V p TK_EOF then Some ([], stop Hang p)
      else
        do ' (m, p) <- parse_member_declaration p;
        do ' (ms, p) <- parse_members fuel p;
        Some (m :: ms, p)
  end.
(** libs/compiler/parser.c:984-1008. *)
Definition parse_struct_declaration (name : option Z) (p : P) : option (ctype * bool * P) :=
  let p := pconsume V (type_defined p true) in
  do ' (ms, p) <- parse_members (S (length (toks V p))) p;
  let '(t, p) := enters (NStruct name ms) p in Some (t, true, p).
(** libs/compiler/parser.c:1022-1056. *)
Definition parse_struct_specifier (p : P) : option (ctype * bool * P) :=
  let p := pconsume V p in
  match toks V p with
  | TIdent name :: _ =>
      let p := pconsume V p in
      if pis V p TK_L_BRACE then parse_struct_declaration (Some name) p
      else match tag_of (table p) name with
           | None => Some (CUndefined, false, perror V p)
           | Some t => Some (t, false, p)
           end
  | _ => if pis V p TK_L_BRACE then parse_struct_declaration None p else Some (CUndefined, false, perror V p)
  end.

(** libs/compiler/parser.c:1079-1124, the loop.  [md] is [local_md]; the array has
    100 items.  The result [None] is the early [return TYPE_UNDEFINED].  A name is
    taken from the token after the recovery, which is never an identifier. *)
Fixpoint parse_enumerators (fuel : nat) (type : ctype) (md value : Z) (p : P) : option (option (list (Z * Z)) * P) :=
  match fuel with
  | O => None
  | S fuel =>
      match toks V p with
      | TIdent name :: _ =>
          let p := pconsume V p in
          let again md value p :=
            let '(closed, p) := ptry V p TK_R_BRACE in
            if closed then Some (Some [], p) else parse_enumerators fuel type md value p in
          let field value p :=
            let p := noted (NEnumerator name type value) p in
            if value =? LLONG_MAX then Some (None, stop Overflow p)
            else if 100 <=? md + 1 then Some (None, stop Overrun p)
            else
              let p := if pis V p TK_R_BRACE then p else pexpect V p TK_COMMA in
              do ' (fs, p) <- again (md + 2) (value + 1) p;
              Some (match fs with Some fs => Some ((value, name) :: fs) | None => None end, p) in
          if pis V p TK_EQUAL then
            let p := pconsume V p in
            do ' (e, s) <- parse_constant_expression (enough (toks V p)) (p_s p);
            let verdict := enum_value (table p) type e in
            let p := with_s V p (built (match verdict with Some _ => true | None => false end) (p_s p) s) in
            match verdict with
            | None => again md value p
            | Some (v, integer) => if (v =? INT_MAX) || negb integer then Some (None, perror V p) else field v p
            end
          else field value p
      | _ =>
          do p <- pskip V (Z.lor TK_SEMICOLON TK_R_BRACE) (perror V p);
          Some (None, stop Assertion p)
      end
  end.
(** libs/compiler/parser.c:1064-1131. *)
Definition parse_enum_declaration_list (p : P) : option (ctype * P) :=
  let p := pconsume V p in
  let '(empty, p) := ptry V p TK_R_BRACE in
  if empty then Some (CUndefined, perror V p)
  else
    let '(type, p) := enters NEnumType p in
    do ' (fields, p) <- parse_enumerators (S (length (toks V p))) type 2 0 p;
    match fields with
    | None => Some (CUndefined, p)
    | Some fs => Some (type, noted (NEnumFields type fs) p)
    end.
(** libs/compiler/parser.c:1133-1172; the caller has consumed [enum]. *)
Definition parse_enum_specifier (p : P) : option (ctype * bool * P) :=
  match toks V p with
  | TIdent name :: _ =>
      let p := pconsume V p in
      if pis V p TK_L_BRACE then
        do ' (t, p) <- parse_enum_declaration_list p;
        let '(t, p) := enters (NEnumName name t) p in
        Some (t, false, type_defined p true)
      else match tag_of (table p) name with
           | None => Some (CUndefined, false, perror V p)
           | Some t => Some (t, false, p)
           end
  | _ =>
      if pis V p TK_L_BRACE then
        do ' (t, p) <- parse_enum_declaration_list p;
        Some (t, false, type_defined p true)
      else Some (CUndefined, false, perror V p)
  end.

(** libs/compiler/parser.c:825-845. *)
Definition parse_const (p : P) : option (ctype * bool * P) :=
  do ' (t, made, p) <- parse_type_specifier (pconsume V p);
  if is_undefined t then Some (CUndefined, made, p)
  else if is_const t then Some (CUndefined, made, perror V p)
  else Some (CConst t, made, p).
(** libs/compiler/parser.c:870-901. *)
Definition parse_typedef (p : P) : option (ctype * bool * P) :=
  do ' (t, made, p) <- parse_type_specifier (pconsume V p);
  if is_undefined t then do p <- pskip V TK_SEMICOLON p; Some (CUndefined, made, p)
  else
    let '(star, p) := ptry V p TK_STAR in
    let t := if star then CPointer t else t in
    match toks V p with
    | TIdent name :: _ =>
        let p := type_defined (noted (NTypedef name t) (pconsume V p)) true in
        if negb (pis V p TK_SEMICOLON) then Some (CUndefined, made, perror V p) else Some (t, made, p)
    | _ => do p <- pskip V TK_SEMICOLON (perror V p); Some (CUndefined, made, p)
    end.
End Specifier.

(** libs/compiler/parser.c:789-903. *)
Fixpoint parse_type_specifier (fuel : nat) (p : P) : option (ctype * bool * P) :=
  match fuel with
  | O => None
  | S fuel =>
      let parse := parse_type_specifier fuel in
      match toks V p with
      | TIdent name :: _ =>
          let q := pconsume V p in
          match type_of (table p) name with
          | None => Some (CUndefined, false, perror V q)
          | Some t => Some (t, false, q)
          end
      | _ =>
          if pis V p TK_VOID then Some (CVoid, false, pconsume V p)
          else if pis V p TK_BOOL then Some (CBoolean, false, pconsume V p)
          else if pis V p TK_CHAR then Some (CCharacter, false, pconsume V p)
          else if pis V p TK_INT || pis V p TK_LONG then Some (CInteger, false, pconsume V p)
          else if pis V p TK_FLOAT || pis V p TK_DOUBLE then Some (CFloating, false, pconsume V p)
          else if pis V p TK_FILE then Some (CFile, false, pconsume V p)
          else if pis V p TK_CONST then parse_const parse p
          else if pis V p TK_STRUCT then parse_struct_specifier parse p
          else if pis V p TK_ENUM then parse_enum_specifier (pconsume V p)
          else if pis V p TK_TYPEDEF then parse_typedef parse p
          else Some (CUndefined, false, perror V p)
      end
  end.
Definition specifier (p : P) : option (ctype * bool * P) := parse_type_specifier (S (length (toks V p))) p.

(** libs/compiler/parser.c:1275-1279, the loop. *)
Fixpoint parse_declarators (fuel : nat) (type : ctype) (p : P) : option (list (option declarator) * P) :=
  match fuel with
  | O => None
  | S fuel =>
      do ' (d, p) <- parse_init_declarator type p;
      let '(more, p) := ptry V p TK_COMMA in
      if more then do ' (ds, p) <- parse_declarators fuel type p; Some (d :: ds, p) else Some ([d], p)
  end.
(** libs/compiler/parser.c:1265-1290, with the check of [build_declaration]. *)
Definition parse_decl (p : P) : option (decl * P) :=
  do ' (type, made, p) <- specifier p;
  do ' (ds, p) <- (if negb (pis V p TK_SEMICOLON) then parse_declarators (S (length (toks V p))) type p else Some ([], p));
  let p := pexpect V p TK_SEMICOLON in
  let p := match ds with [] => if made then p else noted NNothing p | _ => p end in
  Some (mkDecl type ds, p).
(** The same as the statement parser calls it. *)
Definition block_declaration (v : V) (s : st) : option (decl * (st * V)) :=
  do ' (d, p) <- parse_decl (mkPs s v false false false); Some (d, (p_s p, p_env p)).

(** ** Functions *)

(** libs/compiler/parser.c:1938-1948, the loop over [[]] after a parameter. *)
Fixpoint parse_squares (fuel : nat) (t : ctype) (p : P) : option (ctype * P) :=
  match fuel with
  | O => None
  | S fuel =>
      let '(more, p) := ptry V p TK_L_SQUARE in
      if negb more then Some (t, p)
      else
        let '(closed, p) := ptry V p TK_R_SQUARE in
        do p <- (if closed then Some p
                 else pskip_to (Z.lor (Z.lor TK_R_SQUARE TK_COMMA) (Z.lor TK_R_PAREN TK_SEMICOLON)) TK_R_SQUARE (perror V p));
        parse_squares fuel (CArray t) p
  end.
(** A parameter: early [return TYPE_UNDEFINED], or the type and the new
    [func_def]. *)
Definition parameter : Type := option (ctype * Z).

Section Declarator.
(** [parse_function_declarator(prs, 0, 2, type)]. *)
Variable inner : ctype -> P -> option (ctype * P).

(** libs/compiler/parser.c:1950-1990: a function as a parameter; [None] in the
    result for an early return. *)
Definition parse_function_parameter (level : bool) (arg_func : Z) (was_ident : bool) (t : ctype) (p : P)
  : option (option (ctype * bool) * P) :=
  let '(open, p) := ptry V p TK_L_PAREN in
  if negb open then Some (Some (t, was_ident), p)
  else
    let p := pexpect V p TK_STAR in
    let go was_ident p :=
      let p := pexpect V (pexpect V p TK_R_PAREN) TK_L_PAREN in
      do p <- (if (arg_func =? 1) || (arg_func =? 2)
               then pskip V (Z.lor TK_COMMA (Z.lor TK_R_PAREN TK_SEMICOLON)) (perror V p) else Some p);
      do ' (t, p) <- inner t p;
      Some (Some (t, was_ident), p) in
    match toks V p with
    | TIdent name :: _ =>
        if level && negb was_ident then go true (pconsume V (noted (NParameter name true) p))
        else Some (None, perror V p)
    | _ => go was_ident p
    end.
(** libs/compiler/parser.c:1884-2013, one round of the loop, up to the store. *)
Definition parse_parameter (level : bool) (func_def : Z) (p : P) : option (parameter * P) :=
  do ' (t, _, p) <- specifier p;
  let '(star, const, p) := star_const p in
  let t := if star then CPointer t else t in
  let t := if const then CConst t else t in
  let after was_ident p :=
    let p := if is_void t && negb (pis V p TK_L_PAREN) then perror V p else p in
    let row := pis V p TK_L_SQUARE in
    let p := if row && is_pointer t && negb was_ident then perror V p else p in
    do ' (t, p) <- parse_squares (S (length (toks V p))) t p;
    do ' (r, p) <- parse_function_parameter level (if row then 2 else if star then 1 else 0) was_ident t p;
    match r with
    | None => Some (None, p)
    | Some (t, was_ident) =>
        if func_def =? 3 then Some (Some (t, if was_ident then 1 else 2), p)
        else if (func_def =? 2) && was_ident then
          do p <- pskip V (Z.lor TK_R_PAREN TK_SEMICOLON) (perror V p);
          let '(body, p) := ptry V p TK_L_BRACE in
          do p <- (if body then pskip_to TK_R_BRACE TK_R_BRACE p else Some p);
          Some (None, p)
        else if (func_def =? 1) && negb was_ident then
          do p <- pskip V (Z.lor TK_R_PAREN TK_SEMICOLON) (perror V p); Some (None, p)
        else Some (Some (t, func_def), p)
    end in
  match toks V p with
  | TIdent name :: _ =>
      if level then after true (pconsume V (noted (NParameter name false) p))
      else do p <- pskip_to (Z.lor TK_R_PAREN TK_SEMICOLON) TK_R_PAREN (perror V p); Some (None, p)
  | _ => after false p
  end.
(** libs/compiler/parser.c:1882-2016, the loop; [md] is [local_md]. *)
Fixpoint parse_parameters (fuel : nat) (level : bool) (func_def md : Z) (p : P) : option (option (list ctype * Z) * P) :=
  match fuel with
  | O => None
  | S fuel =>
      do ' (r, p) <- parse_parameter level func_def p;
      match r with
      | None => Some (None, p)
      | Some (t, func_def) =>
          if 100 <=? md then Some (None, stop Overrun p)
          else
            let '(more, p) := ptry V p TK_COMMA in
            if more then
              do ' (r, p) <- parse_parameters fuel level func_def (md + 1) p;
              Some (match r with Some (ts, d) => Some (t :: ts, d) | None => None end, p)
            else Some (Some ([t], func_def), p)
      end
  end.
(** libs/compiler/parser.c:1870-2027; the second result is the new
    [prs->func_def], [None] if it stays. *)
Definition declarator_body (level : bool) (func_def : Z) (result : ctype) (p : P) : option (ctype * option Z * P) :=
  let '(empty, p) := ptry V p TK_R_PAREN in
  if empty then Some (CFunction result [], Some 0, p)
  else
    do ' (r, p) <- parse_parameters (S (length (toks V p))) level func_def 3 p;
    match r with
    | None => Some (CUndefined, None, p)
    | Some (ts, d) => Some (CFunction result ts, Some d, pexpect V p TK_R_PAREN)
    end.
End Declarator.
Fixpoint inner_declarator (fuel : nat) (result : ctype) (p : P) : option (ctype * P) :=
  match fuel with
  | O => None
  | S fuel => do ' (t, _, p) <- declarator_body (inner_declarator fuel) false 2 result p; Some (t, p)
  end.
Definition parse_function_declarator (result : ctype) (p : P) : option (ctype * option Z * P) :=
  declarator_body (inner_declarator (S (length (toks V p)))) true 3 result p.

Notation statement p := (parse_statement V decl v_enter v_leave v_type_name block_declaration v_correct v_constant (length (toks V p))).
(** libs/compiler/parser.c:2029-2104. *)
Definition skip_body (p : P) : option (option (stmt decl) * P) := do p <- pskip_to TK_R_BRACE TK_R_BRACE p; Some (None, p).
Definition no_return (p : P) : P := mkPs (p_s p) (p_env p) (p_loop p) (p_switch p) false.
Definition parse_function_definition (name : Z) (t result : ctype) (p : P) : option (option (stmt decl) * P) :=
  if skipped (table p) name t then skip_body (noted (NBody name t) p)
  else
    let p := noted (NBody name t) (no_return p) in
    do ' (body, p) <- parse_compound_statement_body V decl v_type_name block_declaration (statement p) p;
    let p := if negb (is_void result) && negb (p_return p) then perror V p else p in
    Some (Some body, noted NLeave p).
(** libs/compiler/parser.c:2134-2160. *)
Definition main_errors (result t : ctype) (func_def : Z) : Z :=
  (match result with CInteger | CVoid => 0 | _ => 1 end) + (if func_def =? 1 then 0 else 1)
  + match t with
    | CFunction _ [] => 0
    | CFunction _ [x] => if main_parameter x then 0 else 1
    | CFunction _ _ => 1
    | _ => 0
    end.
(** libs/compiler/parser.c:2113-2184; at an identifier with [(] after it.  The
    result [snd] is [prs->func_def]. *)
Definition parse_function_declaration (func_def : Z) (result : ctype) (p : P) : option (external * Z * P) :=
  let p := if is_const result then perror V p else p in
  match toks V p with
  | TIdent name :: _ =>
      do ' (t, d, p) <- parse_function_declarator result (pconsume V (pconsume V p));
      let func_def := match d with Some d => d | None => func_def end in
      let func_def := if func_def =? 0 then (if pis V p TK_L_BRACE then 1 else 2) else func_def in
      let p := if is_main (table p) name then with_s V p (fst (p_s p), snd (p_s p) + main_errors result t func_def) else p in
      let p := noted (NFunction name t func_def) p in
      do ' (body, p) <-
        (if pis V p TK_L_BRACE then
           if func_def =? 1 then parse_function_definition name t result p
           else skip_body (perror V p)
         else if func_def =? 1 then Some (None, snd (ptry V (perror V p) TK_SEMICOLON))
         else Some (None, p));
      Some (XFunction name t func_def body, func_def, p)
  | _ => None
  end.

(** libs/compiler/parser.c:2204-2237, the loop. *)
Fixpoint parse_externals (fuel : nat) (func_def : Z) (group : ctype) (p : P) : option (list external * Z * P) :=
  match fuel with
  | O => None
  | S fuel =>
      let '(star, p) := ptry V p TK_STAR in
      let type := if star then CPointer group else group in
      do ' (x, func_def, p) <-
        match toks V p with
        | TIdent _ :: l =>
            if cur l =? TK_L_PAREN then parse_function_declaration func_def type p
            else if is_void group then Some (XBroken, func_def, perror V p)
            else do ' (d, p) <- parse_init_declarator type p; Some (XVariable d, func_def, p)
        | _ => do p <- pskip V (Z.lor TK_COMMA TK_SEMICOLON) (perror V p); Some (XBroken, func_def, p)
        end;
      let '(more, p) := ptry V p TK_COMMA in
      if more then do ' (xs, func_def, p) <- parse_externals fuel func_def group p; Some (x :: xs, func_def, p)
      else Some ([x], func_def, p)
  end.
(** libs/compiler/parser.c:2193-2243. *)
Definition parse_external_definition (p : P) : option (list external * P) :=
  do ' (group, _, p) <- specifier (type_defined p false);
  let '(done, q) := if v_type_def (p_env p) then ptry V p TK_SEMICOLON else (false, p) in
  if done then Some ([], q)
  else
    do ' (xs, func_def, p) <- parse_externals (S (length (toks V p))) 3 group p;
    Some (xs, if func_def =? 1 then p else pexpect V p TK_SEMICOLON).
(** libs/compiler/parser.c:2251-2257. *)
Fixpoint parse_translation_unit (fuel : nat) (p : P) : option (list external * P) :=
  match fuel with
  | O => None
  | S fuel =>
      do ' (xs, p) <- parse_external_definition p;
      if pis V p TK_EOF then Some (xs, p)
      else do ' (ys, p) <- parse_translation_unit fuel p; Some (xs ++ ys, p)
  end.
Definition program (p : P) : option (list external * P) := parse_translation_unit (S (length (toks V p))) p.
End Declarations.

(** What declarations and programs mean as texts, and when a run of the parser can
    go wrong. *)
From Verif Require Import Prelude LexModel ParseModel ParseSpec StmtModel StmtSpec DeclModel.

(** ** Where a run can go wrong *)
Definition commas (l : list tok) : Z := zlen (filter (fun t => kind t =? TK_COMMA) l).
(** [cause f l]: the tokens without which the fault [f] cannot happen: [struct]
    for a loop without an end, [enum] for a failed assertion and for an overflow,
    [enum] or 97 commas for a write out of bounds. *)
Definition cause (f : fault) (l : list tok) : Prop :=
  match f with
  | Hang => exists x, In x l /\ kind x = TK_STRUCT
  | Assertion | Overflow => exists x, In x l /\ kind x = TK_ENUM
  | Overrun => (exists x, In x l /\ kind x = TK_ENUM) \/ 97 <= commas l
  end.
(** ** Lists of names and parameters
    [names ns]: the names between commas. *)
Fixpoint names (ns : list Z) : list tok :=
  match ns with
  | [] => []
  | [n] => [TIdent n]
  | n :: r => TIdent n :: TKey TK_COMMA :: names r
  end.
(** [ints n]: [n] parameters without a name, each [int]. *)
Fixpoint ints (n : nat) : list tok :=
  match n with
  | O => []
  | S O => [TKey TK_INT]
  | S r => TKey TK_INT :: TKey TK_COMMA :: ints r
  end.
Definition tag (name : option Z) : list tok := match name with Some n => [TIdent n] | None => [] end.

(** ** The texts of declarations
    Each relation says which tokens are a text of a thing and how the symbol table
    changes: by the entries the thing makes ([says], without an error), in the
    order of the text. *)
Section Texts.
Variable E : Type.
Variable note : E -> entry -> ctype * E * nat.
Variables type_of tag_of : E -> Z -> option ctype.
Variable correct : E -> expr -> bool.
Variable enum_value : E -> ctype -> expr -> option (Z * bool).
Definition says (env : E) (x : entry) (t : ctype) (env' : E) : Prop := note env x = (t, env', 0%nat).
Definition stars (star const : bool) : list tok := if star then TKey TK_STAR :: (if const then [TKey TK_CONST] else []) else [].
(** [[e]], and [[]] where [empty] allows it. *)
Inductive btext (empty : bool) (env : E) : list tok -> list (option expr) -> Prop :=
| b_none : btext empty env [] []
| b_empty l bs : empty = true -> btext empty env l bs -> btext empty env (TKey TK_L_SQUARE :: TKey TK_R_SQUARE :: l) (None :: bs)
| b_size e t l bs : gram 1 e t -> correct env e = true -> btext empty env l bs ->
    btext empty env (TKey TK_L_SQUARE :: t ++ TKey TK_R_SQUARE :: l) (Some e :: bs).
(** Enumerators: the value written, or one more than the value before. *)
Inductive enumerator (env : E) (ty : ctype) (value : Z) : list tok -> Z -> Z -> E -> Prop :=
| e_next name u env' : says env (NEnumerator name ty value) u env' -> enumerator env ty value [TIdent name] name value env'
| e_given name e t v u env' : gram 3 e t -> enum_value env ty e = Some (v, true) -> v <> INT_MAX -> says env (NEnumerator name ty v) u env' ->
    enumerator env ty value (TIdent name :: TKey TK_EQUAL :: t) name v env'.
Inductive etext (ty : ctype) : E -> Z -> list tok -> list (Z * Z) -> E -> Prop :=
| e_last env value l name v env' : enumerator env ty value l name v env' -> v <> LLONG_MAX -> etext ty env value l [(v, name)] env'
| e_comma env value l name v env' : enumerator env ty value l name v env' -> v <> LLONG_MAX -> etext ty env value (l ++ [TKey TK_COMMA]) [(v, name)] env'
| e_more env value l name v env1 r fs env' : enumerator env ty value l name v env1 -> v <> LLONG_MAX -> etext ty env1 (v + 1) r fs env' ->
    etext ty env value (l ++ TKey TK_COMMA :: r) ((v, name) :: fs) env'.
Definition basic : list (Z * ctype) :=
  [(TK_VOID, CVoid); (TK_BOOL, CBoolean); (TK_CHAR, CCharacter); (TK_INT, CInteger); (TK_LONG, CInteger); (TK_FLOAT, CFloating); (TK_DOUBLE, CFloating); (TK_FILE, CFile)].
(** [tspec env l t made defined env']: [l] is a type specifier for the type [t];
    [made]: it has the members of a structure; [defined]: it has a list of members
    or enumerators. *)
Inductive tspec : E -> list tok -> ctype -> bool -> bool -> E -> Prop :=
| ts_basic env k t : In (k, t) basic -> tspec env [TKey k] t false false env
| ts_name env n t : type_of env n = Some t -> tspec env [TIdent n] t false false env
| ts_const env l t made d env' : tspec env l t made d env' -> is_undefined t = false -> is_const t = false -> tspec env (TKey TK_CONST :: l) (CConst t) made d env'
| ts_struct_tag env n t : tag_of env n = Some t -> tspec env [TKey TK_STRUCT; TIdent n] t false false env
| ts_enum_tag env n t : tag_of env n = Some t -> tspec env [TKey TK_ENUM; TIdent n] t false false env
| ts_struct env name l ms env1 t env' : mtext env l ms env1 -> says env1 (NStruct name (map Some ms)) t env' ->
    tspec env (TKey TK_STRUCT :: tag name ++ TKey TK_L_BRACE :: l ++ [TKey TK_R_BRACE]) t true true env'
| ts_enum env ty env0 l fs env1 u env' : says env NEnumType ty env0 -> etext ty env0 0 l fs env1 -> (length fs <= 49)%nat -> says env1 (NEnumFields ty fs) u env' ->
    tspec env (TKey TK_ENUM :: TKey TK_L_BRACE :: l ++ [TKey TK_R_BRACE]) ty false true env'
| ts_enum_name env ty env0 l fs env1 u env2 name t env' : says env NEnumType ty env0 -> etext ty env0 0 l fs env1 -> (length fs <= 49)%nat -> says env1 (NEnumFields ty fs) u env2 ->
    says env2 (NEnumName name ty) t env' ->
    tspec env (TKey TK_ENUM :: TIdent name :: TKey TK_L_BRACE :: l ++ [TKey TK_R_BRACE]) t false true env'
with mtext : E -> list tok -> list declarator -> E -> Prop :=
| m_none env : mtext env [] [] env
| m_member env l t made d env1 star const name b bs dr u env2 r ms env' : tspec env l t made d env1 -> (const = true -> star = true) -> btext false env1 b bs ->
    dr = mkDeclarator t name star const bs None -> says env1 (NMember dr) u env2 -> mtext env2 r ms env' ->
    mtext env (l ++ stars star const ++ TIdent name :: b ++ TKey TK_SEMICOLON :: r) (dr :: ms) env'.
Scheme tspec_ind2 := Minimality for tspec Sort Prop
with mtext_ind2 := Minimality for mtext Sort Prop.
Combined Scheme tspec_mutual from tspec_ind2, mtext_ind2.
(** A declarator with its initializer. *)
Inductive init_text (env : E) : list tok -> option expr -> Prop :=
| i_none : init_text env [] None
| i_some e t : gram_init e t -> correct env e = true -> init_text env (TKey TK_EQUAL :: t) (Some e).
Inductive dtext (env : E) (t : ctype) : list tok -> declarator -> E -> Prop :=
| d_text star const name b bs i init dr u env' : (const = true -> star = true) -> btext true env b bs -> init_text env i init ->
    dr = mkDeclarator t name star const bs init -> says env (NVariable dr) u env' ->
    dtext env t (stars star const ++ TIdent name :: b ++ i) dr env'.
Inductive dlist (t : ctype) : E -> list tok -> list declarator -> E -> Prop :=
| dl_one env l d env' : dtext env t l d env' -> dlist t env l [d] env'
| dl_more env l d env1 r ds env' : dtext env t l d env1 -> dlist t env1 r ds env' -> dlist t env (l ++ TKey TK_COMMA :: r) (d :: ds) env'.
(** A declaration in a block: a type and declarators, or a structure alone. *)
Inductive dectext (env : E) : list tok -> decl -> bool -> E -> Prop :=
| dt_vars l t made d env1 r ds env' : tspec env l t made d env1 -> dlist t env1 r ds env' -> dectext env (l ++ r ++ [TKey TK_SEMICOLON]) (mkDecl t (map Some ds)) d env'
| dt_struct l t d env' : tspec env l t true d env' -> dectext env (l ++ [TKey TK_SEMICOLON]) (mkDecl t []) d env'.

(** *** Functions and programs *)
Definition arrays (k : nat) (t : ctype) : ctype := Nat.iter k CArray t.
Definition squares (k : nat) : list tok := concat (repeat [TKey TK_L_SQUARE; TKey TK_R_SQUARE] k).
Definition ptype (star const : bool) (t : ctype) : ctype := let t := if star then CPointer t else t in if const then CConst t else t.
(** The name of a parameter, if it has one: [how] says whether it is a function. *)
Inductive pname (env : E) (how : bool) : bool -> list tok -> E -> Prop :=
| n_none : pname env how false [] env
| n_name name u env' : says env (NParameter name how) u env' -> pname env how true [TIdent name] env'.
(** [param named env l t defined env']: a parameter, or a parameter which is a
    function; [fdecl named env result l t defined env']: what follows the opening
    parenthesis of a function with the type [t].  In the type of a function which
    is a parameter nothing has a name. *)
Inductive param : bool -> E -> list tok -> ctype -> bool -> E -> Prop :=
| p_plain named env l t made d env1 star const x k env' : tspec env l t made d env1 -> (const = true -> star = true) -> pname env1 false named x env' ->
    is_void (ptype star const t) = false -> (k <> 0%nat -> named = true \/ is_pointer (ptype star const t) = false) ->
    param named env (l ++ stars star const ++ x ++ squares k) (arrays k (ptype star const t)) d env'
| p_function named env l t made d env1 x env2 r t' d' env' : tspec env l t made d env1 -> pname env1 true named x env2 -> fdecl false env2 t r t' d' env' ->
    param named env (l ++ TKey TK_L_PAREN :: TKey TK_STAR :: x ++ TKey TK_R_PAREN :: TKey TK_L_PAREN :: r) t' (d || d') env'
with plist : bool -> E -> list tok -> list ctype -> bool -> E -> Prop :=
| pl_one named env l t d env' : param named env l t d env' -> plist named env l [t] d env'
| pl_more named env l t d env1 r ts d' env' : param named env l t d env1 -> plist named env1 r ts d' env' -> plist named env (l ++ TKey TK_COMMA :: r) (t :: ts) (d || d') env'
with fdecl : bool -> E -> ctype -> list tok -> ctype -> bool -> E -> Prop :=
| fd_none named env result : fdecl named env result [TKey TK_R_PAREN] (CFunction result []) false env
| fd_some named env result l ts d env' : plist named env l ts d env' -> (length ts <= 97)%nat -> fdecl named env result (l ++ [TKey TK_R_PAREN]) (CFunction result ts) d env'.
Scheme param_ind2 := Minimality for param Sort Prop
with plist_ind2 := Minimality for plist Sort Prop
with fdecl_ind2 := Minimality for fdecl Sort Prop.
Combined Scheme param_mutual from param_ind2, plist_ind2, fdecl_ind2.

Variables enter leave : E -> E.
Variable constant : E -> expr -> bool.
Variable is_main : E -> Z -> bool.
Variable main_parameter : ctype -> bool.
Variable skipped : E -> Z -> ctype -> bool.
(** The items of a block with the declarations as [parse_decl] reads them: by C75
    each text of a declaration is one. *)
Notation items := (sitems (denv E) decl (v_enter E enter) (v_leave E leave) (v_type_name E type_of)
  (block_declaration E note type_of tag_of correct enum_value) (v_correct E correct) (v_constant E constant)).
Definition pointed (star : bool) (t : ctype) : ctype := if star then CPointer t else t.
(** Outside of functions: a variable or the head of a function, after the type
    [group]. *)
Inductive xtext (group : ctype) (env : E) : list tok -> external -> bool -> E -> Prop :=
| x_variable star l d env' : is_void group = false -> dtext env (pointed star group) l d env' -> dr_star d = false ->
    xtext group env (stars star false ++ l) (XVariable (Some d)) false env'
| x_prototype star name l t d env1 u env' : is_const (pointed star group) = false -> fdecl false env (pointed star group) l t d env1 -> is_main env1 name = false ->
    says env1 (NFunction name t 2) u env' ->
    xtext group env (stars star false ++ TIdent name :: TKey TK_L_PAREN :: l) (XFunction name t 2 None) d env'.
Inductive xlist (group : ctype) : E -> list tok -> list external -> E -> Prop :=
| xl_one env l x d env' : xtext group env l x d env' -> xlist group env l [x] env'
| xl_more env l x d env1 r xs env' : xtext group env l x d env1 -> xlist group env1 r xs env' -> xlist group env (l ++ TKey TK_COMMA :: r) (x :: xs) env'.
Definition good_main (result : ctype) (t : ctype) : Prop :=
  (result = CInteger \/ result = CVoid) /\ (t = CFunction result [] \/ exists x, t = CFunction result [x] /\ main_parameter x = true).
Inductive extext (env : E) : list tok -> list external -> E -> Prop :=
| ex_types l t made env' : tspec env l t made true env' -> extext env (l ++ [TKey TK_SEMICOLON]) [] env'
| ex_typedef l t made d env1 star name u env' : tspec env l t made d env1 -> is_undefined t = false -> says env1 (NTypedef name (pointed star t)) u env' ->
    extext env (TKey TK_TYPEDEF :: l ++ stars star false ++ [TIdent name; TKey TK_SEMICOLON]) [] env'
| ex_list l t made d env1 r xs env' : tspec env l t made d env1 -> xlist t env1 r xs env' -> extext env (l ++ r ++ [TKey TK_SEMICOLON]) xs env'
| ex_function l group made d env1 star name r t d' env2 u env3 u' env4 xs b td env5 u'' env' :
    tspec env l group made d env1 -> is_const (pointed star group) = false -> fdecl true env1 (pointed star group) r t d' env2 ->
    (is_main env2 name = true -> good_main (pointed star group) t) ->
    says env2 (NFunction name t 1) u env3 -> skipped env3 name t = false -> says env3 (NBody name t) u' env4 ->
    items (mkDenv env4 (d || d') None) xs b (mkDenv env5 td None) -> jumps_ok false false (SBlock xs) = true ->
    is_void (pointed star group) = true \/ has_return (SBlock xs) = true -> says env5 NLeave u'' env' ->
    extext env (l ++ stars star false ++ TIdent name :: TKey TK_L_PAREN :: r ++ TKey TK_L_BRACE :: b ++ [TKey TK_R_BRACE]) [XFunction name t 1 (Some (SBlock xs))] env'.
Inductive ptext : E -> list tok -> list external -> E -> Prop :=
| pt_one env l xs env' : extext env l xs env' -> ptext env l xs env'
| pt_more env l xs env1 r ys env' : extext env l xs env1 -> ptext env1 r ys env' -> ptext env (l ++ r) (xs ++ ys) env'.
End Texts.

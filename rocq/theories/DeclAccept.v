(** The texts of declarations and programs the parser takes without a message.
    As DeclSpec.v, with the expressions the parser takes (ParseSpec.v, [agram])
    and with what else it lets through: [const] before [typedef], [typedef] of
    anything in a block, a name before the star of a parameter which is a
    function, functions with bodies between other declarators. *)
From Verif Require Import Prelude LexModel ParseModel ParseSpec StmtModel StmtSpec StmtAccept DeclModel DeclSpec.

(** Whether no semicolon stands at the end of a list of declarators: the last
    function of the list has a body. *)
Fixpoint body_last (b : bool) (xs : list external) : bool :=
  match xs with
  | [] => b
  | XFunction _ _ func_def _ :: r => body_last (func_def =? 1) r
  | _ :: r => body_last b r
  end.

Section Texts.
Variable E : Type.
Variable note : E -> entry -> ctype * E * nat.
Variables type_of tag_of : E -> Z -> option ctype.
Variable correct : E -> expr -> bool.
Variable enum_value : E -> ctype -> expr -> option (Z * bool).
Notation says := (says E note).
Notation aexpr := (aexpr E correct).

Inductive abtext (empty : bool) (env : E) : list tok -> list (option expr) -> Prop :=
| ab_none : abtext empty env [] []
| ab_empty l bs : empty = true -> abtext empty env l bs -> abtext empty env (TKey TK_L_SQUARE :: TKey TK_R_SQUARE :: l) (None :: bs)
| ab_size e t l bs : aexpr env e t -> abtext empty env l bs -> abtext empty env (TKey TK_L_SQUARE :: t ++ TKey TK_R_SQUARE :: l) (Some e :: bs).
Inductive aenumerator (env : E) (ty : ctype) (value : Z) : list tok -> Z -> Z -> E -> Prop :=
| ae_next name u env' : says env (NEnumerator name ty value) u env' -> aenumerator env ty value [TIdent name] name value env'
| ae_given name e t v u env' : agram 3 false e t -> enum_value env ty e = Some (v, true) -> v <> INT_MAX -> says env (NEnumerator name ty v) u env' ->
    aenumerator env ty value (TIdent name :: TKey TK_EQUAL :: t) name v env'.
Inductive aetext (ty : ctype) : E -> Z -> list tok -> list (Z * Z) -> E -> Prop :=
| ae_last env value l name v env' : aenumerator env ty value l name v env' -> v <> LLONG_MAX -> aetext ty env value l [(v, name)] env'
| ae_comma env value l name v env' : aenumerator env ty value l name v env' -> v <> LLONG_MAX -> aetext ty env value (l ++ [TKey TK_COMMA]) [(v, name)] env'
| ae_more env value l name v env1 r fs env' : aenumerator env ty value l name v env1 -> v <> LLONG_MAX -> aetext ty env1 (v + 1) r fs env' ->
    aetext ty env value (l ++ TKey TK_COMMA :: r) ((v, name) :: fs) env'.
(** As [tspec] of DeclSpec.v; [td]: it is a [typedef], so that a semicolon must
    follow. *)
Inductive atspec : bool -> E -> list tok -> ctype -> bool -> bool -> E -> Prop :=
| ats_basic env k t : In (k, t) basic -> atspec false env [TKey k] t false false env
| ats_name env n t : type_of env n = Some t -> atspec false env [TIdent n] t false false env
| ats_const td env l t made d env' : atspec td env l t made d env' -> is_const t = false -> atspec td env (TKey TK_CONST :: l) (CConst t) made d env'
| ats_typedef env l t made d env1 star name u env' : atspec false env l t made d env1 -> says env1 (NTypedef name (pointed star t)) u env' ->
    atspec true env (TKey TK_TYPEDEF :: l ++ stars star false ++ [TIdent name]) (pointed star t) made true env'
| ats_struct_tag env n t : tag_of env n = Some t -> atspec false env [TKey TK_STRUCT; TIdent n] t false false env
| ats_enum_tag env n t : tag_of env n = Some t -> atspec false env [TKey TK_ENUM; TIdent n] t false false env
| ats_struct env name l ms env1 t env' : amtext env l ms env1 -> says env1 (NStruct name (map Some ms)) t env' ->
    atspec false env (TKey TK_STRUCT :: tag name ++ TKey TK_L_BRACE :: l ++ [TKey TK_R_BRACE]) t true true env'
| ats_enum env ty env0 l fs env1 u env' : says env NEnumType ty env0 -> aetext ty env0 0 l fs env1 -> (length fs <= 49)%nat -> says env1 (NEnumFields ty fs) u env' ->
    atspec false env (TKey TK_ENUM :: TKey TK_L_BRACE :: l ++ [TKey TK_R_BRACE]) ty false true env'
| ats_enum_name env ty env0 l fs env1 u env2 name t env' : says env NEnumType ty env0 -> aetext ty env0 0 l fs env1 -> (length fs <= 49)%nat -> says env1 (NEnumFields ty fs) u env2 ->
    says env2 (NEnumName name ty) t env' ->
    atspec false env (TKey TK_ENUM :: TIdent name :: TKey TK_L_BRACE :: l ++ [TKey TK_R_BRACE]) t false true env'
with amtext : E -> list tok -> list declarator -> E -> Prop :=
| am_none env : amtext env [] [] env
| am_member env l t made d env1 star const name b bs dr u env2 r ms env' : atspec false env l t made d env1 -> (const = true -> star = true) -> abtext false env1 b bs ->
    dr = mkDeclarator t name star const bs None -> says env1 (NMember dr) u env2 -> amtext env2 r ms env' ->
    amtext env (l ++ stars star const ++ TIdent name :: b ++ TKey TK_SEMICOLON :: r) (dr :: ms) env'.
Inductive ainit_text (env : E) : list tok -> option expr -> Prop :=
| ain_none : ainit_text env [] None
| ain_some e t : agram_init e t -> correct env e = true -> ainit_text env (TKey TK_EQUAL :: t) (Some e).
Inductive adtext (env : E) (t : ctype) : list tok -> declarator -> E -> Prop :=
| ad_text star const name b bs i init dr u env' : (const = true -> star = true) -> abtext true env b bs -> ainit_text env i init ->
    dr = mkDeclarator t name star const bs init -> says env (NVariable dr) u env' ->
    adtext env t (stars star const ++ TIdent name :: b ++ i) dr env'.
Inductive adlist (t : ctype) : E -> list tok -> list declarator -> E -> Prop :=
| adl_one env l d env' : adtext env t l d env' -> adlist t env l [d] env'
| adl_more env l d env1 r ds env' : adtext env t l d env1 -> adlist t env1 r ds env' -> adlist t env (l ++ TKey TK_COMMA :: r) (d :: ds) env'.
(** A declaration in a block; without declarators and without members it is
    taken only if the builder takes it, which answers with an error
    (libs/compiler/builder.c:1288-1291). *)
Inductive adectext (env : E) : decl -> list tok -> E -> Prop :=
| adt_vars l t made d env1 r ds env' : atspec false env l t made d env1 -> adlist t env1 r ds env' -> adectext env (mkDecl t (map Some ds)) (l ++ r ++ [TKey TK_SEMICOLON]) env'
| adt_struct td l t d env' : atspec td env l t true d env' -> adectext env (mkDecl t []) (l ++ [TKey TK_SEMICOLON]) env'
| adt_nothing td l t d env1 u env' : atspec td env l t false d env1 -> says env1 NNothing u env' -> adectext env (mkDecl t []) (l ++ [TKey TK_SEMICOLON]) env'.

(** *** Functions and programs *)
Inductive aparam : bool -> E -> list tok -> ctype -> E -> Prop :=
| ap_plain named env l t made d env1 star const x k env' : atspec false env l t made d env1 -> (const = true -> star = true) -> pname E note env1 false named x env' ->
    is_void (ptype star const t) = false -> (k <> 0%nat -> named = true \/ is_pointer (ptype star const t) = false) ->
    aparam named env (l ++ stars star const ++ x ++ squares k) (arrays k (ptype star const t)) env'
| ap_function named env l t made d env1 x env2 r t' env' : atspec false env l t made d env1 -> pname E note env1 true named x env2 -> afdecl false env2 t r t' env' ->
    aparam named env (l ++ TKey TK_L_PAREN :: TKey TK_STAR :: x ++ TKey TK_R_PAREN :: TKey TK_L_PAREN :: r) t' env'
| ap_before env l t made d env1 name u env2 r t' env' : atspec false env l t made d env1 -> says env1 (NParameter name false) u env2 -> afdecl false env2 t r t' env' ->
    aparam true env (l ++ TIdent name :: TKey TK_L_PAREN :: TKey TK_STAR :: TKey TK_R_PAREN :: TKey TK_L_PAREN :: r) t' env'
with aplist : bool -> E -> list tok -> list ctype -> E -> Prop :=
| apl_one named env l t env' : aparam named env l t env' -> aplist named env l [t] env'
| apl_more named env l t env1 r ts env' : aparam named env l t env1 -> aplist named env1 r ts env' -> aplist named env (l ++ TKey TK_COMMA :: r) (t :: ts) env'
with afdecl : bool -> E -> ctype -> list tok -> ctype -> E -> Prop :=
| afd_none named env result : afdecl named env result [TKey TK_R_PAREN] (CFunction result []) env
| afd_some named env result l ts env' : aplist named env l ts env' -> (length ts <= 97)%nat -> afdecl named env result (l ++ [TKey TK_R_PAREN]) (CFunction result ts) env'.

Variables enter leave : E -> E.
Variable constant : E -> expr -> bool.
Variable is_main : E -> Z -> bool.
Variable main_parameter : ctype -> bool.
Variable skipped : E -> Z -> ctype -> bool.
Inductive axtext (group : ctype) (env : E) : list tok -> external -> E -> Prop :=
| ax_variable star l d env' : is_void group = false -> adtext env (pointed star group) l d env' -> dr_star d = false ->
    axtext group env (stars star false ++ l) (XVariable (Some d)) env'
| ax_prototype star name l t env1 u env' : is_const (pointed star group) = false -> afdecl false env (pointed star group) l t env1 -> is_main env1 name = false ->
    says env1 (NFunction name t 2) u env' ->
    axtext group env (stars star false ++ TIdent name :: TKey TK_L_PAREN :: l) (XFunction name t 2 None) env'
| ax_function star name r t env2 u env3 u' env4 xs b env5 u'' env' : is_const (pointed star group) = false -> afdecl true env (pointed star group) r t env2 ->
    (is_main env2 name = true -> good_main main_parameter (pointed star group) t) ->
    says env2 (NFunction name t 1) u env3 -> skipped env3 name t = false -> says env3 (NBody name t) u' env4 ->
    asitems E decl enter leave adectext correct constant env4 xs b env5 -> jumps_ok false false (SBlock xs) = true ->
    is_void (pointed star group) = true \/ has_return (SBlock xs) = true -> says env5 NLeave u'' env' ->
    axtext group env (stars star false ++ TIdent name :: TKey TK_L_PAREN :: r ++ TKey TK_L_BRACE :: b ++ [TKey TK_R_BRACE]) (XFunction name t 1 (Some (SBlock xs))) env'.
Inductive axlist (group : ctype) : E -> list tok -> list external -> E -> Prop :=
| axl_one env l x env' : axtext group env l x env' -> axlist group env l [x] env'
| axl_more env l x env1 r xs env' : axtext group env l x env1 -> axlist group env1 r xs env' -> axlist group env (l ++ TKey TK_COMMA :: r) (x :: xs) env'.
Inductive aextext (env : E) : list tok -> list external -> E -> Prop :=
| aex_types td l t made env' : atspec td env l t made true env' -> aextext env (l ++ [TKey TK_SEMICOLON]) [] env'
| aex_list l t made d env1 r xs env' : atspec false env l t made d env1 -> axlist t env1 r xs env' ->
    aextext env (l ++ r ++ if body_last false xs then [] else [TKey TK_SEMICOLON]) xs env'.
Inductive aptext : E -> list tok -> list external -> E -> Prop :=
| apt_one env l xs env' : aextext env l xs env' -> aptext env l xs env'
| apt_more env l xs env1 r ys env' : aextext env l xs env1 -> aptext env1 r ys env' -> aptext env (l ++ r) (xs ++ ys) env'.
End Texts.

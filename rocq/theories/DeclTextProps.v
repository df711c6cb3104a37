(** C75: the texts of declarations, functions and programs are read as what they
    say, for every symbol table and every verdict of the builder.  Partial: the
    forms of C under "Texts of C which are not read as that" are refused, and the
    names of the functions in a list of declarators, [int a, f() {}], are left out
    of the grammar. *)
From Verif Require Import Prelude LexModel ParseModel ParseSpec ParseProofs ParseBack ParseSkip StmtModel StmtSpec StmtTexts DeclModel DeclSpec DeclProofs DeclEnds DeclTexts DeclUnits DeclProps.

Section Props.
Variable E : Type.
Variable note : E -> entry -> ctype * E * nat.
Variables type_of tag_of : E -> Z -> option ctype.
Variable correct : E -> expr -> bool.
Variable enum_value : E -> ctype -> expr -> option (Z * bool).
Variables enter leave : E -> E.
Variable constant : E -> expr -> bool.
Variable is_main : E -> Z -> bool.
Variable main_parameter : ctype -> bool.
Variable skipped : E -> Z -> ctype -> bool.
Notation V := (denv E).
Notation program := (program E note type_of tag_of correct enum_value enter leave constant is_main main_parameter skipped).
Notation definition := (parse_external_definition E note type_of tag_of correct enum_value enter leave constant is_main main_parameter skipped).
Notation declaration := (block_declaration E note type_of tag_of correct enum_value).
Notation says := (says E note).
Notation tspec := (tspec E note type_of tag_of correct enum_value).
Notation fdecl := (fdecl E note type_of tag_of correct enum_value).
Notation dectext := (dectext E note type_of tag_of correct enum_value).
Notation ptext := (ptext E note type_of tag_of correct enum_value enter leave constant is_main main_parameter skipped).
(** The parser before the tokens [l], with nothing gone wrong. *)
Notation at_ ret l errors e td := (mkPs (l, errors) (mkDenv e td None) false false ret).
Notation start l errors e := (at_ false l errors e false).

(** C75: a text of a declaration in a block is read, whatever follows it and
    without an error, as that declaration: the tree, and the symbol table with
    exactly the entries of the text, in their order. *)
Theorem C75_declaration_read_partial : forall env l d defined env' td fl, dectext env l d defined env' ->
  decl_text V decl (v_type_name E type_of) declaration (mkDenv env td fl) d l (mkDenv env' (td || defined) fl).
Proof.
  intros env l d defined env' td fl H. split; [apply (dectext_declares E note type_of tag_of correct enum_value fl false false false _ _ _ _ _ _ H); reflexivity|].
  intros rest n. unfold block_declaration. pose proof (dectext_at E note type_of tag_of correct enum_value fl false false false _ _ _ _ _ H rest n td) as X. unfold DeclTexts.at_ in X. rewrite X. reflexivity.
Qed.
(** A text of a program is read to its end without an error and without anything
    going wrong as that program. *)
Theorem C75_program_read_partial : forall env l xs env' errors, ptext env l xs env' ->
  exists q, program (start l errors env) = Some (xs, q) /\ toks V q = [] /\ snd (p_s q) = errors /\ v_env (p_env q) = env' /\ v_fault (p_env q) = None.
Proof.
  intros env l xs env' errors H. destruct (ptext_at E note type_of tag_of correct enum_value enter leave constant is_main main_parameter skipped _ _ _ _ H false errors false (S (length l))) as (re & d & X); [lia|].
  eexists. split; [exact X|]. repeat split.
Qed.
(** So a text is the text of one program only. *)
Theorem C75_text_of_one_program : forall env l xs e1 ys e2, ptext env l xs e1 -> ptext env l ys e2 -> xs = ys /\ e1 = e2.
Proof.
  intros env l xs e1 ys e2 H1 H2. apply (C75_program_read_partial _ _ _ _ 0) in H1 as (q1 & X1 & _ & _ & <- & _). apply (C75_program_read_partial _ _ _ _ 0) in H2 as (q2 & X2 & _ & _ & <- & _).
  rewrite X1 in X2. injection X2 as <- <-. split; reflexivity.
Qed.

(** *** Texts of C which are not read as that *)

(** A function declared with names of its parameters: the names are taken as the
    start of a body, and the missing body is an error. *)
Theorem C75_named_prototypes_refuted : forall env l group made d env1 star name r result ts d' env2 u env' rest errors td ret,
  tspec env l group made d env1 -> result = pointed star group -> is_const result = false -> fdecl true env1 result r (CFunction result ts) d' env2 -> ts <> [] ->
  is_main env2 name = false -> says env2 (NFunction name (CFunction result ts) 1) u env' -> cur rest <> TK_COMMA ->
  exists td', definition (at_ ret (l ++ stars star false ++ TIdent name :: TKey TK_L_PAREN :: r ++ TKey TK_SEMICOLON :: rest) errors env td)
    = Some ([XFunction name (CFunction result ts) 1 None], at_ ret rest (errors + 1) env' td').
Proof.
  intros env l group made d env1 star name r result ts d' env2 u env' rest errors td ret S R NC F NE NM SY C. subst result. exists (d || d').
  change (at_ ret (l ++ stars star false ++ TIdent name :: TKey TK_L_PAREN :: r ++ TKey TK_SEMICOLON :: rest) errors env td) with (DeclTexts.at_ E None false false ret (l ++ stars star false ++ TIdent name :: TKey TK_L_PAREN :: r ++ TKey TK_SEMICOLON :: rest) errors env td).
  unfold parse_external_definition. rewrite defined_at. rewrite (specifier_at E note type_of tag_of correct enum_value ret _ _ _ _ _ _ S) by (destruct star; discriminate). cbn [bind]. rewrite try_no by (destruct star; discriminate).
  set (L := stars star false ++ _). replace (if v_type_def _ then _ else _) with (false, DeclTexts.at_ E None false false ret L errors env1 (false || d)) by (destruct (v_type_def _); reflexivity). rewrite toks_at, externals_unf. unfold one_external. generalize (length L). intros fuel. unfold L. rewrite star_only by discriminate. rewrite toks_at.
  change (cur (TKey TK_L_PAREN :: r ++ TKey TK_SEMICOLON :: rest) =? TK_L_PAREN) with true. cbn iota. fold (pointed star group). unfold parse_function_declaration. rewrite NC. cbv zeta. rewrite toks_at, !consume_at.
  destruct (fdecl_at E note type_of tag_of correct enum_value ret _ _ _ _ _ _ _ F (TKey TK_SEMICOLON :: rest) errors (false || d)) as (ts' & T & Y). injection T as <-. rewrite Y. cbn [bind orb]. destruct ts as [|t0 ts]; [contradiction|]. change (fd_of true) with 1. change (1 =? 0) with false. cbn iota.
  change (table E (DeclTexts.at_ E None false false ret (TKey TK_SEMICOLON :: rest) errors env2 (d || d'))) with env2. rewrite NM. rewrite (noted_at E note None false false ret _ _ _ _ _ _ _ SY). rewrite pis_at. change (cur (TKey TK_SEMICOLON :: rest) =? TK_L_BRACE) with false. cbn iota. change (1 =? 1) with true. cbn iota. cbn [bind].
  change (perror V (DeclTexts.at_ E None false false ret (TKey TK_SEMICOLON :: rest) errors env' (d || d'))) with (DeclTexts.at_ E None false false ret (TKey TK_SEMICOLON :: rest) (errors + 1) env' (d || d')). rewrite try_yes. cbn [snd]. rewrite try_no by exact C. reflexivity.
Qed.
(** Outside of functions a pointer to [void] is refused like a variable of type
    [void], *)
Theorem C75_void_pointers_refuted : forall env l group made d env1 star name rest errors td ret, tspec env l group made d env1 -> is_void group = true -> cur rest <> TK_L_PAREN ->
  exists td', definition (at_ ret (l ++ stars star false ++ TIdent name :: rest) errors env td) = Some ([XBroken], at_ ret (TIdent name :: rest) (errors + 2) env1 td').
Proof.
  intros env l group made d env1 star name rest errors td ret S NV C. exists d.
  change (at_ ret (l ++ stars star false ++ TIdent name :: rest) errors env td) with (DeclTexts.at_ E None false false ret (l ++ stars star false ++ TIdent name :: rest) errors env td).
  unfold parse_external_definition. rewrite defined_at. rewrite (specifier_at E note type_of tag_of correct enum_value ret _ _ _ _ _ _ S) by (destruct star; discriminate). cbn [bind]. rewrite try_no by (destruct star; discriminate).
  set (L := stars star false ++ _). replace (if v_type_def _ then _ else _) with (false, DeclTexts.at_ E None false false ret L errors env1 (false || d)) by (destruct (v_type_def _); reflexivity). rewrite toks_at, externals_unf. unfold one_external. generalize (length L). intros fuel. unfold L. rewrite star_only by discriminate. rewrite toks_at.
  replace (cur rest =? TK_L_PAREN) with false by lia. rewrite NV. cbn [bind orb]. change (perror V (DeclTexts.at_ E None false false ret (TIdent name :: rest) errors env1 d)) with (DeclTexts.at_ E None false false ret (TIdent name :: rest) (errors + 1) env1 d). rewrite try_no by discriminate.
  cbn [bind]. change (3 =? 1) with false. cbn iota. unfold pexpect, expect_and_consume, is, DeclTexts.at_. cbn [p_s fst cur kind]. change (TK_IDENTIFIER =? TK_SEMICOLON) with false. cbn iota. unfold with_s, error, fst, snd. cbn [p_s p_env p_loop p_switch p_return]. change ((TK_IDENTIFIER =? TK_R_PAREN) || (TK_IDENTIFIER =? TK_R_SQUARE)) with false. rewrite andb_false_r, <- Z.add_assoc. reflexivity.
Qed.
(** and so are a pointer to a pointer and a constant pointer; in a block the
    latter is a text by [d_text]. *)
Theorem C75_pointers_refuted : forall env l group made d env1 k name rest errors td ret, tspec env l group made d env1 -> k = TK_STAR \/ k = TK_CONST ->
  exists td', definition (at_ ret (l ++ TKey TK_STAR :: TKey k :: TIdent name :: TKey TK_SEMICOLON :: rest) errors env td) = Some ([XBroken], at_ ret rest (errors + 1) env1 td').
Proof.
  intros env l group made d env1 k name rest errors td ret S K. exists d.
  change (at_ ret (l ++ TKey TK_STAR :: TKey k :: TIdent name :: TKey TK_SEMICOLON :: rest) errors env td) with (DeclTexts.at_ E None false false ret (l ++ TKey TK_STAR :: TKey k :: TIdent name :: TKey TK_SEMICOLON :: rest) errors env td).
  unfold parse_external_definition. rewrite defined_at. rewrite (specifier_at E note type_of tag_of correct enum_value ret _ _ _ _ _ _ S) by discriminate. cbn [bind]. rewrite try_no by discriminate.
  set (L := TKey TK_STAR :: _). replace (if v_type_def _ then _ else _) with (false, DeclTexts.at_ E None false false ret L errors env1 (false || d)) by (destruct (v_type_def _); reflexivity). rewrite toks_at, externals_unf. unfold one_external. generalize (length L). intros fuel. unfold L. rewrite try_yes, toks_at.
  unfold pskip, perror. destruct K as [->| ->]; reflexivity.
Qed.
(** In a block a definition of a type without a variable is always an error
    ([NNothing], libs/compiler/builder.c:1288-1291), unless it has members of a
    structure: though the entries are made. *)
Hypothesis nothing_reported : forall env, exists t env' k, note env NNothing = (t, env', S k).
Theorem C75_local_types_refuted : forall env l t d env1 rest errors td fl, tspec env l t false d env1 ->
  exists env' td' errors', declaration (mkDenv env td fl) (l ++ TKey TK_SEMICOLON :: rest, errors) = Some (mkDecl t [], ((rest, errors'), mkDenv env' td' fl)) /\ errors < errors'
    /\ env' = snd (fst (note env1 NNothing)).
Proof.
  intros env l t d env1 rest errors td fl S. destruct (nothing_reported env1) as (u & env' & k & N). exists env', (td || d), (errors + Z.of_nat (Datatypes.S k)). rewrite N. cbn [fst snd]. split; [|split; [lia|reflexivity]].
  unfold block_declaration, parse_decl, specifier. pose proof (proj2 (proj1 (specs E note type_of tag_of correct enum_value fl false false false) _ _ _ _ _ _ S) (TKey TK_SEMICOLON :: rest) errors td (Datatypes.S (length (l ++ TKey TK_SEMICOLON :: rest)))) as X.
  unfold DeclTexts.at_ in X. unfold toks. cbn [p_s fst]. rewrite X; [|discriminate|lia]. cbn [bind]. unfold pis. cbn [p_s]. change (is (TKey TK_SEMICOLON :: rest, errors) TK_SEMICOLON) with true. cbn [negb bind].
  change (pexpect V _ TK_SEMICOLON) with (DeclTexts.at_ E fl false false false rest errors env1 (td || d)). unfold noted, enters. change (table E (DeclTexts.at_ E fl false false false rest errors env1 (td || d))) with env1. rewrite N. reflexivity.
Qed.
Theorem C75_local_typedefs_refuted : forall env l t made d env1 star name u env2 rest errors td fl, tspec env l t made d env1 -> made = false -> is_undefined t = false -> says env1 (NTypedef name (pointed star t)) u env2 ->
  exists env' td' errors', declaration (mkDenv env td fl) (TKey TK_TYPEDEF :: l ++ stars star false ++ TIdent name :: TKey TK_SEMICOLON :: rest, errors)
    = Some (mkDecl (pointed star t) [], ((rest, errors'), mkDenv env' td' fl)) /\ errors < errors' /\ env' = snd (fst (note env2 NNothing)).
Proof.
  intros env l t made d env1 star name u env2 rest errors td fl S MD U SY. destruct (nothing_reported env2) as (u' & env' & k & N). exists env', true, (errors + Z.of_nat (Datatypes.S k)). rewrite N. cbn [fst snd]. split; [|split; [lia|reflexivity]]. subst made.
  unfold block_declaration, parse_decl, specifier. unfold toks. cbn [p_s fst length].
  assert (Q: forall f, (length (l ++ stars star false ++ TIdent name :: TKey TK_SEMICOLON :: rest) < f)%nat -> parse_type_specifier E note type_of tag_of correct enum_value (Datatypes.S f) (DeclTexts.at_ E fl false false false (TKey TK_TYPEDEF :: l ++ stars star false ++ TIdent name :: TKey TK_SEMICOLON :: rest) errors env td)
      = Some (pointed star t, false, DeclTexts.at_ E fl false false false (TKey TK_SEMICOLON :: rest) errors env2 true)).
  { intros f L. transitivity (parse_typedef E note (parse_type_specifier E note type_of tag_of correct enum_value f) (DeclTexts.at_ E fl false false false (TKey TK_TYPEDEF :: l ++ stars star false ++ TIdent name :: TKey TK_SEMICOLON :: rest) errors env td)); [reflexivity|].
    unfold parse_typedef. rewrite consume_at. rewrite (proj2 (proj1 (specs E note type_of tag_of correct enum_value fl false false false) _ _ _ _ _ _ S)); [|destruct star; discriminate|exact L]. cbn [bind]. rewrite U.
    assert (ST: ptry V (DeclTexts.at_ E fl false false false (stars star false ++ TIdent name :: TKey TK_SEMICOLON :: rest) errors env1 (td || d)) TK_STAR = (star, DeclTexts.at_ E fl false false false (TIdent name :: TKey TK_SEMICOLON :: rest) errors env1 (td || d))) by (destruct star; reflexivity).
    rewrite ST, toks_at, consume_at. fold (pointed star t). rewrite (noted_at E note fl false false false _ _ _ _ _ _ _ SY). rewrite defined_at, pis_at. reflexivity. }
  unfold DeclTexts.at_ in Q. rewrite Q by lia. cbn [bind]. unfold pis. cbn [p_s]. change (is (TKey TK_SEMICOLON :: rest, errors) TK_SEMICOLON) with true. cbn [negb bind].
  change (pexpect V _ TK_SEMICOLON) with (DeclTexts.at_ E fl false false false rest errors env2 true). unfold noted, enters. change (table E (DeclTexts.at_ E fl false false false rest errors env2 true)) with env2. rewrite N. reflexivity.
Qed.
End Props.
Print Assumptions C75_declaration_read_partial.
Print Assumptions C75_program_read_partial.
Print Assumptions C75_text_of_one_program.
Print Assumptions C75_named_prototypes_refuted.
Print Assumptions C75_void_pointers_refuted.
Print Assumptions C75_pointers_refuted.
Print Assumptions C75_local_types_refuted.
Print Assumptions C75_local_typedefs_refuted.

(** *** Examples
    With the symbol table of C74. *)
Notation X := (list (Z * ctype)).
Notation xptext := (ptext X xnote xfind xfind xcorrect xvalue (fun e => e) (fun e => e) xcorrect (fun _ n => n =? 0) (fun _ => true) (fun _ _ _ => false)).
Definition c_struct : list tok := [TKey TK_STRUCT; TIdent 1; TKey TK_L_BRACE; TKey TK_INT; TKey TK_STAR; TIdent 2; TKey TK_SEMICOLON; TKey TK_FLOAT; TIdent 3; TKey TK_L_SQUARE; TInt 2; TKey TK_R_SQUARE; TKey TK_SEMICOLON; TKey TK_R_BRACE; TKey TK_SEMICOLON].
Definition c_typedef : list tok := [TKey TK_TYPEDEF; TKey TK_INT; TKey TK_STAR; TIdent 4; TKey TK_SEMICOLON].
Definition c_enum : list tok := [TKey TK_ENUM; TKey TK_L_BRACE; TIdent 5; TKey TK_COMMA; TIdent 6; TKey TK_EQUAL; TInt 7; TKey TK_COMMA; TIdent 7; TKey TK_R_BRACE; TIdent 8; TKey TK_EQUAL; TInt 1; TKey TK_COMMA; TKey TK_STAR; TIdent 9; TKey TK_SEMICOLON].
Definition c_function : list tok :=
  [TKey TK_INT; TIdent 10; TKey TK_L_PAREN; TIdent 4; TIdent 11; TKey TK_L_SQUARE; TKey TK_R_SQUARE; TKey TK_COMMA; TKey TK_VOID; TKey TK_L_PAREN; TKey TK_STAR; TIdent 12; TKey TK_R_PAREN; TKey TK_L_PAREN; TKey TK_INT; TKey TK_R_PAREN; TKey TK_R_PAREN;
   TKey TK_L_BRACE; TKey TK_INT; TIdent 13; TKey TK_SEMICOLON; TKey TK_RETURN; TIdent 13; TKey TK_SEMICOLON; TKey TK_R_BRACE].
Definition c_tree : list external :=
  [XVariable (Some (mkDeclarator (CTable 1) 8 false false [] (Some (EInt 1)))); XVariable (Some (mkDeclarator (CPointer (CTable 1)) 9 false false [] None));
   XFunction 10 (CFunction CInteger [CArray (CPointer CInteger); CFunction CVoid [CInteger]]) 1
     (Some (SBlock [SDecl (mkDecl CInteger [Some (mkDeclarator CInteger 13 false false [] None)]); SReturn (Some (EIdent 13))]))].
Lemma ex_int p v : 1 <= p <= 16 -> gram p (EInt (s64 v)) [TInt v].
Proof. intros H. assert (A: forall k, Z.of_nat k < 16 -> gram (16 - Z.of_nat k) (EInt (s64 v)) [TInt v]). { induction k as [|k IH]; intros L; [constructor|]. apply g_up; [lia|]. replace (16 - Z.of_nat (S k) + 1) with (16 - Z.of_nat k) by lia. apply IH. lia. } replace p with (16 - Z.of_nat (Z.to_nat (16 - p))) by lia. apply A. lia. Qed.
Lemma ex_ident p v : 1 <= p <= 16 -> gram p (EIdent v) [TIdent v].
Proof. intros H. assert (A: forall k, Z.of_nat k < 16 -> gram (16 - Z.of_nat k) (EIdent v) [TIdent v]). { induction k as [|k IH]; intros L; [constructor|]. apply g_up; [lia|]. replace (16 - Z.of_nat (S k) + 1) with (16 - Z.of_nat k) by lia. apply IH. lia. } replace p with (16 - Z.of_nat (Z.to_nat (16 - p))) by lia. apply A. lia. Qed.
Ltac basic_type := apply ts_basic; cbn; tauto.
Example C75_ex : exists e, xptext [] (c_struct ++ c_typedef ++ c_enum ++ c_function) c_tree e.
Proof.
  exists [(4, CPointer CInteger); (1, CTable 1)].
  change c_tree with ([] ++ [] ++ firstn 2 c_tree ++ skipn 2 c_tree). eapply pt_more; [|eapply pt_more; [|eapply pt_more; [|apply pt_one]]].
  - change c_struct with ((TKey TK_STRUCT :: tag (Some 1) ++ TKey TK_L_BRACE :: (([TKey TK_INT] ++ stars true false ++ TIdent 2 :: [] ++ TKey TK_SEMICOLON :: ([TKey TK_FLOAT] ++ stars false false ++ TIdent 3 :: (TKey TK_L_SQUARE :: [TInt 2] ++ TKey TK_R_SQUARE :: []) ++ TKey TK_SEMICOLON :: []))) ++ [TKey TK_R_BRACE]) ++ [TKey TK_SEMICOLON]).
    eapply ex_types. eapply ts_struct; [|reflexivity].
    eapply m_member; [basic_type|discriminate|constructor|reflexivity|reflexivity|]. eapply m_member; [basic_type|discriminate| |reflexivity|reflexivity|constructor].
    apply (b_size _ _ _ _ (EInt 2)); [apply (ex_int 1 2); lia|reflexivity|constructor].
  - eapply (ex_typedef _ _ _ _ _ _ _ _ _ _ _ _ _ [TKey TK_INT] CInteger false false _ true 4 (CPointer CInteger)); [basic_type|reflexivity|reflexivity].
  - change c_enum with ((TKey TK_ENUM :: TKey TK_L_BRACE :: (([TIdent 5]) ++ TKey TK_COMMA :: ((TIdent 6 :: TKey TK_EQUAL :: [TInt 7]) ++ TKey TK_COMMA :: [TIdent 7])) ++ [TKey TK_R_BRACE]) ++ ((stars false false ++ (stars false false ++ TIdent 8 :: [] ++ [TKey TK_EQUAL; TInt 1])) ++ TKey TK_COMMA :: (stars true false ++ (stars false false ++ TIdent 9 :: [] ++ []))) ++ [TKey TK_SEMICOLON]).
    eapply ex_list.
    + eapply (ts_enum _ _ _ _ _ _ _ _ _ _ [(0, 5); (7, 6); (8, 7)]); [reflexivity| |cbn; lia|reflexivity].
      eapply e_more; [eapply e_next; reflexivity|discriminate|]. eapply e_more; [eapply e_given; [apply (ex_int 3 7); lia|reflexivity|discriminate|reflexivity]|discriminate|]. eapply e_last; [eapply e_next; reflexivity|discriminate].
    + eapply xl_more.
      * eapply x_variable; [reflexivity| |reflexivity]. eapply d_text; [discriminate|constructor|eapply i_some; [apply gi_expr; apply (ex_int 2 1); lia|reflexivity]|reflexivity|reflexivity].
      * eapply xl_one. eapply x_variable; [reflexivity| |reflexivity]. eapply d_text; [discriminate|constructor|constructor|reflexivity|reflexivity].
  - change c_function with ([TKey TK_INT] ++ stars false false ++ TIdent 10 :: TKey TK_L_PAREN :: ((([TIdent 4] ++ stars false false ++ [TIdent 11] ++ squares 1) ++ TKey TK_COMMA :: ([TKey TK_VOID] ++ TKey TK_L_PAREN :: TKey TK_STAR :: [TIdent 12] ++ TKey TK_R_PAREN :: TKey TK_L_PAREN :: (([TKey TK_INT] ++ stars false false ++ [] ++ squares 0) ++ [TKey TK_R_PAREN]))) ++ [TKey TK_R_PAREN])
      ++ TKey TK_L_BRACE :: (([TKey TK_INT] ++ (stars false false ++ TIdent 13 :: [] ++ []) ++ [TKey TK_SEMICOLON]) ++ (TKey TK_RETURN :: [TIdent 13] ++ [TKey TK_SEMICOLON]) ++ []) ++ [TKey TK_R_BRACE]).
    eapply ex_function; [basic_type|reflexivity| |discriminate|reflexivity|reflexivity|reflexivity| |reflexivity|right; reflexivity|reflexivity].
    + eapply fd_some; [|cbn; lia]. eapply pl_more; [|apply pl_one].
      * eapply (p_plain _ _ _ _ _ _ _ _ _ _ _ _ _ false false); [apply ts_name; reflexivity|discriminate|eapply n_name; reflexivity|reflexivity|auto].
      * eapply p_function; [basic_type|eapply n_name; reflexivity|]. eapply fd_some; [|cbn; lia]. apply pl_one. change CInteger with (arrays 0 (ptype false false CInteger)). eapply (p_plain _ _ _ _ _ _ _ _ _ _ _ _ _ false false); [basic_type|discriminate|constructor|reflexivity|intros K; destruct K; reflexivity].
    + eapply ti_decl; [eapply C75_declaration_read_partial; eapply (dt_vars _ _ _ _ _ _ _ _ _ _ _ _ _ [mkDeclarator CInteger 13 false false [] None]); [basic_type|]; apply dl_one; eapply d_text; [discriminate|constructor|constructor|reflexivity|reflexivity]|].
      eapply ti_stmt; [eapply t_return; split; [apply (ex_ident 1 13); lia|reflexivity]|reflexivity|constructor].
Qed.

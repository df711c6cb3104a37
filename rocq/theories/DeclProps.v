(** The properties of the parser of declarations and of programs.  Each theorem
    holds for every symbol table ([note], [type_of], [tag_of], [enter], [leave],
    [is_main], [skipped]) and every verdict of the builder ([correct],
    [enum_value], [constant], [main_parameter]) which sees that a broken
    expression is broken. *)
From Verif Require Import Prelude LexModel ParseModel ParseSpec ParseFuel ParseBack StmtModel StmtSpec DeclModel DeclSpec DeclProofs DeclEnds DeclFaults.

Section Props.
Variable E : Type.
Variable note : E -> entry -> ctype * E * nat.
Variables type_of tag_of : E -> Z -> option ctype.
Variable correct : E -> expr -> bool.
Variable enum_value : E -> ctype -> expr -> option (Z * bool).
Variables enter leave : E -> E.
Variable constant : E -> expr -> bool.
Variable is_main : E -> Z -> bool.
Variable main_parameter : ctype -> bool.
Variable skipped : E -> Z -> ctype -> bool.
Hypothesis broken_seen : forall env, correct env EBroken = false.
Notation V := (denv E).
Notation program := (program E note type_of tag_of correct enum_value enter leave constant is_main main_parameter skipped).
(** The parser before the first of the tokens [l], with nothing gone wrong. *)
Notation start l errors e := (mkPs (l, errors) (mkDenv e false None) false false false).

(** C74: on every sequence of tokens the parser of a program returns, at the end
    of the file, having only moved on and added errors; something goes wrong only
    in texts with [struct], with [enum] or with 97 commas. *)
Theorem C74_program_ends_partial : forall l errors e, exists xs q, program (start l errors e) = Some (xs, q)
  /\ (exists passed, l = passed ++ toks V q) /\ cur (toks V q) = TK_EOF /\ errors <= snd (p_s q)
  /\ forall f, v_fault (p_env q) = Some f -> cause f l.
Proof.
  intros l errors e. destruct (program_is E note type_of tag_of correct enum_value enter leave constant is_main main_parameter skipped broken_seen (start l errors e)) as (xs & q & X & [A B] & C & D).
  exists xs, q. repeat split; auto. intros f H. apply D in H as [H|H]; [discriminate|exact H].
Qed.
(** So a program without [struct] and [enum] and with fewer than 97 commas is
    read safely. *)
Theorem C74_plain_programs_are_safe : forall l errors e, Forall (fun x => kind x <> TK_STRUCT /\ kind x <> TK_ENUM) l -> commas l < 97 ->
  exists xs q, program (start l errors e) = Some (xs, q) /\ v_fault (p_env q) = None /\ cur (toks V q) = TK_EOF.
Proof.
  intros l errors e F C. destruct (C74_program_ends_partial l errors e) as (xs & q & X & _ & Y & _ & D). exists xs, q. split; [exact X|]. split; [|exact Y].
  rewrite Forall_forall in F. destruct (v_fault (p_env q)) as [f|]; [|reflexivity]. exfalso. specialize (D f eq_refl).
  destruct f; cbn [cause] in D; [|..]; try (destruct D as (x & I & K); apply F in I; tauto). destruct D as [(x & I & K)|D]; [apply F in I; tauto|lia].
Qed.
(** A declaration inside a block is read in one go as well: it returns and moves
    past at least one token, as C63 asks of it. *)
Theorem C74_block_declaration_ends : forall env s, declares V (v_type_name E type_of) env (fst s) = true ->
  exists d s' env', block_declaration E note type_of tag_of correct enum_value env s = Some (d, (s', env')) /\ (length (fst s') < length (fst s))%nat
    /\ (exists passed, fst s = passed ++ fst s') /\ snd s <= snd s'.
Proof.
  intros env s H. destruct (decl_total E note type_of tag_of correct enum_value env s H) as (d & s' & env' & X & Y). exists d, s', env'. split; [exact X|]. split; [exact Y|].
  apply decl_forward in X as [A B]. auto.
Qed.

(** *** What does not end or goes wrong *)

(** At the end of the file a round of the loop over the members of a structure
    adds two errors and changes nothing else. *)
Theorem C74_struct_round : forall f p, toks V p = [] ->
  exists q, parse_member_declaration E note correct (parse_type_specifier E note type_of tag_of correct enum_value (S f)) p = Some (None, q)
    /\ toks V q = [] /\ p_env q = p_env p /\ snd (p_s q) = snd (p_s p) + 2.
Proof. intros f p. unshelve eapply struct_round; eassumption. Qed.
(** So no program which starts with a structure whose list of members is not
    closed is ever read to its end. *)
Theorem C74_unclosed_structures_refuted : forall name l errors e, Forall (fun x => kind x <> TK_R_BRACE) l ->
  exists xs q, program (start (TKey TK_STRUCT :: tag name ++ TKey TK_L_BRACE :: l) errors e) = Some (xs, q) /\ v_fault (p_env q) <> None.
Proof. intros. apply unclosed_struct; auto. Qed.
(** An enumeration whose list starts with something else than a name fails an
    assertion of the compiler. *)
Theorem C74_enumerator_names_refuted : forall name x l errors e, kind x <> TK_R_BRACE -> (forall y, x <> TIdent y) ->
  exists xs q, program (start (TKey TK_ENUM :: tag name ++ TKey TK_L_BRACE :: x :: l) errors e) = Some (xs, q) /\ v_fault (p_env q) = Some Assertion.
Proof. intros. apply enum_no_name; auto. Qed.
(** Fifty enumerators are written past the end of an array. *)
Theorem C74_fifty_enumerators_refuted : forall name ns l errors e, (50 <= length ns)%nat -> cur l <> TK_EQUAL ->
  exists xs q, program (start (TKey TK_ENUM :: tag name ++ TKey TK_L_BRACE :: names ns ++ l) errors e) = Some (xs, q) /\ v_fault (p_env q) = Some Overrun.
Proof. intros. apply many_enumerators; auto. Qed.
(** Ninety-eight parameters are, too. *)
Theorem C74_many_parameters_refuted : forall n result l errors e, (98 <= n)%nat -> cur l = TK_R_PAREN ->
  exists t d q, parse_function_declarator E note type_of tag_of correct enum_value result (start (ints n ++ l) errors e) = Some (t, d, q) /\ v_fault (p_env q) = Some Overrun.
Proof. intros. unshelve eapply many_parameters; eauto. Qed.
End Props.
Print Assumptions C74_program_ends_partial.
Print Assumptions C74_plain_programs_are_safe.
Print Assumptions C74_block_declaration_ends.
Print Assumptions C74_struct_round.
Print Assumptions C74_unclosed_structures_refuted.
Print Assumptions C74_enumerator_names_refuted.
Print Assumptions C74_fifty_enumerators_refuted.
Print Assumptions C74_many_parameters_refuted.

(** *** Examples
    A symbol table which knows the names entered as types. *)
Definition xnote (e : list (Z * ctype)) (x : entry) : ctype * list (Z * ctype) * nat :=
  match x with
  | NTypedef n t => (t, (n, t) :: e, 0%nat)
  | NStruct (Some n) _ => (CTable n, (n, CTable n) :: e, 0%nat)
  | NStruct None _ => (CTable 0, e, 0%nat)
  | NEnumType => (CTable 1, e, 0%nat)
  | NEnumName n t => (t, (n, t) :: e, 0%nat)
  | NNothing => (CUndefined, e, 1%nat)
  | _ => (CUndefined, e, 0%nat)
  end.
Definition xfind (e : list (Z * ctype)) (n : Z) : option ctype := option_map snd (find (fun x => fst x =? n) e).
Definition xcorrect (e : list (Z * ctype)) (x : expr) : bool := match x with EBroken => false | _ => true end.
Definition xvalue (e : list (Z * ctype)) (t : ctype) (x : expr) : option (Z * bool) := match x with EInt v => Some (v, true) | EBroken => None | _ => Some (0, false) end.
Definition xprogram := program (list (Z * ctype)) xnote xfind xfind xcorrect xvalue (fun e => e) (fun e => e) xcorrect (fun _ n => n =? 0) (fun _ => true) (fun _ _ _ => false).
Definition xrun (l : list tok) := option_map (fun r => (fst r, toks (denv (list (Z * ctype))) (snd r), snd (p_s (snd r)), v_fault (p_env (snd r)))) (xprogram (mkPs (l, 0) (mkDenv [] false None) false false false)).
(** [typedef struct S { int a; float b[2]; } T; enum { A, B = 7, C }; const T x = 1, *y; void main() { T z; ; }] *)
Example C74_ex : xrun ([TKey TK_TYPEDEF; TKey TK_STRUCT; TIdent 1; TKey TK_L_BRACE; TKey TK_INT; TIdent 2; TKey TK_SEMICOLON; TKey TK_FLOAT; TIdent 3; TKey TK_L_SQUARE; TInt 2; TKey TK_R_SQUARE; TKey TK_SEMICOLON; TKey TK_R_BRACE; TIdent 4; TKey TK_SEMICOLON]
    ++ [TKey TK_ENUM; TKey TK_L_BRACE; TIdent 5; TKey TK_COMMA; TIdent 6; TKey TK_EQUAL; TInt 7; TKey TK_COMMA; TIdent 7; TKey TK_R_BRACE; TKey TK_SEMICOLON]
    ++ [TKey TK_CONST; TIdent 4; TIdent 8; TKey TK_EQUAL; TInt 1; TKey TK_COMMA; TKey TK_STAR; TIdent 9; TKey TK_SEMICOLON]
    ++ [TKey TK_VOID; TIdent 0; TKey TK_L_PAREN; TKey TK_R_PAREN; TKey TK_L_BRACE; TIdent 4; TIdent 10; TKey TK_SEMICOLON; TKey TK_SEMICOLON; TKey TK_R_BRACE])
  = Some ([XVariable (Some (mkDeclarator (CConst (CTable 1)) 8 false false [] (Some (EInt 1)))); XVariable (Some (mkDeclarator (CPointer (CConst (CTable 1))) 9 false false [] None));
      XFunction 0 (CFunction CVoid []) 1 (Some (SBlock [SDecl (mkDecl (CTable 1) [Some (mkDeclarator (CTable 1) 10 false false [] None)]); SNull]))], [], 0, None).
Proof. reflexivity. Qed.
(** The hypotheses of the refutations: a structure cut off, an enumeration of a
    number, fifty names, 98 parameters. *)
Example C74_struct_ex : option_map snd (xrun [TKey TK_STRUCT; TIdent 1; TKey TK_L_BRACE; TKey TK_INT; TIdent 2; TKey TK_SEMICOLON]) = Some (Some Hang).
Proof. reflexivity. Qed.
Example C74_enum_ex : option_map snd (xrun [TKey TK_ENUM; TKey TK_L_BRACE; TInt 5; TKey TK_R_BRACE; TKey TK_SEMICOLON]) = Some (Some Assertion).
Proof. reflexivity. Qed.
Example C74_many_ex : option_map snd (xrun (TKey TK_ENUM :: TKey TK_L_BRACE :: names (repeat 1 50) ++ [TKey TK_R_BRACE; TKey TK_SEMICOLON])) = Some (Some Overrun)
  /\ option_map snd (xrun (TKey TK_ENUM :: TKey TK_L_BRACE :: names (repeat 1 49) ++ [TKey TK_R_BRACE; TKey TK_SEMICOLON])) = Some None
  /\ option_map snd (xrun (TKey TK_INT :: TIdent 3 :: TKey TK_L_PAREN :: ints 98 ++ [TKey TK_R_PAREN; TKey TK_SEMICOLON])) = Some (Some Overrun)
  /\ option_map snd (xrun (TKey TK_INT :: TIdent 3 :: TKey TK_L_PAREN :: ints 97 ++ [TKey TK_R_PAREN; TKey TK_SEMICOLON])) = Some None.
Proof. vm_compute. repeat split. Qed.

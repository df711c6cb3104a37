(** C76: what the parser takes without a message is a text of what it gives.
    The texts are those of StmtAccept.v and DeclAccept.v. *)
From Verif Require Import Prelude LexModel ParseModel ParseSpec ParseFuel ParseProofs StmtModel StmtSpec StmtProofs StmtAccept DeclModel DeclSpec DeclEnds DeclAccept DeclBack AcceptBlocks DeclTexts DeclUnits DeclProps DeclTextProps UnitBack.

Section Props.
Variable E : Type.
Variable note : E -> entry -> ctype * E * nat.
Variables type_of tag_of : E -> Z -> option ctype.
Variable correct : E -> expr -> bool.
Variable enum_value : E -> ctype -> expr -> option (Z * bool).
Variables enter leave : E -> E.
Variable constant : E -> expr -> bool.
(** The symbol table holds no undefined types: a name of a type, a tag, and a
    structure or an enumeration entered without an error have a type. *)
Hypothesis type_known : forall env n t, type_of env n = Some t -> is_undefined t = false.
Hypothesis tag_known : forall env n t, tag_of env n = Some t -> is_undefined t = false.
Hypothesis note_known : forall env x t env', says E note env x t env' -> match x with NStruct _ _ | NEnumType | NEnumName _ _ => True | _ => False end -> is_undefined t = false.
Notation V := (denv E).
Notation declaration := (block_declaration E note type_of tag_of correct enum_value).
Notation statement := (parse_statement V decl (v_enter E enter) (v_leave E leave) (v_type_name E type_of) declaration (v_correct E correct) (v_constant E constant)).
Notation adectext := (adectext E note type_of tag_of correct enum_value).
Notation astext := (astext E decl enter leave adectext correct constant).
Notation asitems := (asitems E decl enter leave adectext correct constant).

(** C76: if a declaration in a block is parsed and no error is counted, then the
    tokens consumed are a text of the declaration given, and the symbol table has
    exactly the entries of that text. *)
Theorem C76_declaration_is_text : forall v l errors d l' v',
  declaration v (l, errors) = Some (d, ((l', errors), v')) -> v_fault v' = None ->
  exists t, l = t ++ l' /\ adectext (v_env v) d t (v_env v').
Proof. intros v l errors d l' v' H F. exact (decl_text _ _ _ _ _ _ type_known tag_known note_known _ _ _ _ _ H F eq_refl). Qed.
(** The same of a statement, with every jump inside what it leaves, no [else]
    left over which could belong to it, and a [return] seen if there is one. *)
Theorem C76_statement_is_text : forall fuel v l errors loop switch ret x l' v' loop' switch' ret',
  statement fuel (mkPs (l, errors) v loop switch ret) = Some (x, mkPs (l', errors) v' loop' switch' ret') -> v_fault v' = None ->
  (exists t, l = t ++ l' /\ astext (v_env v) x t (v_env v')) /\ jumps_ok loop switch x = true /\ (dangling x = true -> cur l' <> TK_ELSE) /\ ret' = ret || has_return x.
Proof.
  intros fuel v l errors loop switch ret x l' v' loop' switch' ret' H F.
  destruct (statement_text _ _ _ _ _ _ _ _ _ type_known tag_known note_known _ _ _ _ H F) as (_ & _ & J & T). destruct (T eq_refl) as (A & B & C). split; [exact A|]. split; [exact J|]. split; [exact B|exact C].
Qed.
(** The same of the block of a function. *)
Theorem C76_body_is_text : forall fuel v l errors loop switch ret x l' v' loop' switch' ret',
  parse_compound_statement_body V decl (v_type_name E type_of) declaration (statement fuel) (mkPs (TKey TK_L_BRACE :: l, errors) v loop switch ret) = Some (x, mkPs (l', errors) v' loop' switch' ret') -> v_fault v' = None ->
  exists xs t, x = SBlock xs /\ l = t ++ TKey TK_R_BRACE :: l' /\ asitems (v_env v) xs t (v_env v') /\ jumps_ok loop switch x = true /\ ret' = ret || has_return x.
Proof.
  intros fuel v l errors loop switch ret x l' v' loop' switch' ret' H F.
  destruct (fun K => body_text _ _ _ _ _ _ _ _ _ type_known tag_known note_known fuel _ _ _ K H) as (_ & _ & _ & _ & J & T); [reflexivity|].
  destruct (T F eq_refl) as (xs & t & X & L & G & R). exists xs, t. injection L as L. repeat (split; auto).
Qed.
(** Errors are never taken back. *)
Theorem C76_errors_only_grow : forall fuel p x q, statement fuel p = Some (x, q) -> v_fault (p_env q) = None -> snd (p_s p) <= snd (p_s q).
Proof. intros fuel p x q H F. apply (statement_text _ _ _ _ _ _ _ _ _ type_known tag_known note_known _ _ _ _ H F). Qed.

Variable is_main : E -> Z -> bool.
Variable main_parameter : ctype -> bool.
Variable skipped : E -> Z -> ctype -> bool.
(** A function entered without an error whose body is skipped is reported before
    its body (libs/compiler/parser.c:2043-2052). *)
Hypothesis skipped_reported : forall env name t u env', says E note env (NFunction name t 1) u env' -> skipped env' name t = true -> snd (note env' (NBody name t)) <> 0%nat.
Notation program := (program E note type_of tag_of correct enum_value enter leave constant is_main main_parameter skipped).
Notation ptext := (ptext E note type_of tag_of correct enum_value enter leave constant is_main main_parameter skipped).
Notation aptext := (aptext E note type_of tag_of correct enum_value enter leave constant is_main main_parameter skipped).
Notation start l errors e td ret := (mkPs (l, errors) (mkDenv e td None) false false ret).

(** The same of a program: the whole of its tokens up to the end of the file. *)
Theorem C76_program_is_text : forall env l errors td ret xs q,
  program (start l errors env td ret) = Some (xs, q) -> snd (p_s q) = errors -> v_fault (p_env q) = None ->
  exists t rest, l = t ++ rest /\ cur rest = TK_EOF /\ aptext env t xs (v_env (p_env q)).
Proof.
  intros env l errors td ret xs q H Q F.
  destruct (unit_back E note type_of tag_of correct enum_value type_known tag_known note_known enter leave constant is_main main_parameter skipped skipped_reported _ (start l errors env td ret) _ _ eq_refl eq_refl H) as (_ & EO & T).
  destruct T as (t & L & G); [split; [exact F|exact Q]|]. exists t, (toks V q). split; [exact L|]. split; [exact EO|exact G].
Qed.
(** So every other sequence of tokens is reported: parsing ends, and with more
    errors than before, or something went wrong (C74 says what and when). *)
Theorem C76_no_text_is_reported : forall env l errors td ret, (forall env, correct env EBroken = false) ->
  (forall t rest xs env', l = t ++ rest -> cur rest = TK_EOF -> ~ aptext env t xs env') ->
  exists xs q, program (start l errors env td ret) = Some (xs, q) /\ (errors < snd (p_s q) \/ v_fault (p_env q) <> None).
Proof.
  intros env l errors td ret BS NO. destruct (program_is E note type_of tag_of correct enum_value enter leave constant is_main main_parameter skipped BS (start l errors env td ret)) as (xs & q & H & _).
  exists xs, q. split; [exact H|]. destruct (v_fault (p_env q)) eqn:F; [right; discriminate|left].
  pose proof (unit_back E note type_of tag_of correct enum_value type_known tag_known note_known enter leave constant is_main main_parameter skipped skipped_reported _ (start l errors env td ret) _ _ eq_refl eq_refl H) as ((_ & LE & _) & _). cbn [p_s snd] in LE.
  destruct (Z.eq_dec (snd (p_s q)) errors) as [Q|Q]; [|lia]. exfalso. destruct (C76_program_is_text _ _ _ _ _ _ _ H Q F) as (t & rest & L & EO & G). exact (NO _ _ _ _ L EO G).
Qed.
(** The texts of C75 are among the texts accepted. *)
Theorem C76_texts_are_accepted : forall env l xs env', ptext env l xs env' -> exists t rest, l = t ++ rest /\ cur rest = TK_EOF /\ aptext env t xs env'.
Proof.
  intros env l xs env' H. apply (C75_program_read_partial _ _ _ _ _ _ _ _ _ _ _ _ _ _ _ _ 0) in H as (q & X & T & Q & <- & F). exact (C76_program_is_text _ _ _ _ _ _ _ X Q F).
Qed.
End Props.
Print Assumptions C76_program_is_text.
Print Assumptions C76_no_text_is_reported.
Print Assumptions C76_texts_are_accepted.
Print Assumptions C76_declaration_is_text.
Print Assumptions C76_statement_is_text.
Print Assumptions C76_body_is_text.
Print Assumptions C76_errors_only_grow.

(** *** Examples *)
Definition known (t : ctype) : ctype := if is_undefined t then CInteger else t.
Definition ynote (e : list (Z * ctype)) (x : entry) : ctype * list (Z * ctype) * nat :=
  match x with
  | NTypedef n t => (t, (n, t) :: e, 0%nat)
  | NStruct (Some n) _ => (CTable n, (n, CTable n) :: e, 0%nat)
  | NStruct None _ => (CTable 0, e, 0%nat)
  | NEnumType => (CTable 1, e, 0%nat)
  | NEnumName n t => (known t, (n, t) :: e, 0%nat)
  | NNothing => (CUndefined, e, 1%nat)
  | _ => (CUndefined, e, 0%nat)
  end.
Definition yfind (e : list (Z * ctype)) (n : Z) : option ctype := option_map (fun x => known (snd x)) (find (fun x => fst x =? n) e).
Definition ycorrect (e : list (Z * ctype)) (x : expr) : bool := match x with EBroken => false | _ => true end.
Definition yvalue (e : list (Z * ctype)) (t : ctype) (x : expr) : option (Z * bool) := match x with EInt v => Some (v, true) | EBroken => None | _ => Some (0, false) end.
Lemma known_is t : is_undefined (known t) = false.
Proof. unfold known. destruct (is_undefined t) eqn:X; [reflexivity|exact X]. Qed.
Lemma yfind_known : forall env n t, yfind env n = Some t -> is_undefined t = false.
Proof. intros env n t. unfold yfind. destruct (find _ env); [|discriminate]. intros [= <-]. apply known_is. Qed.
Lemma ynote_known : forall env x t env', says _ ynote env x t env' -> match x with NStruct _ _ | NEnumType | NEnumName _ _ => True | _ => False end -> is_undefined t = false.
Proof. intros env x t env' H K. unfold says in H. destruct x; try contradiction; cbn in H; [destruct name as [n|]| |]; injection H as <- _; try reflexivity; apply known_is. Qed.
Notation X := (list (Z * ctype)).
Notation ydecl := (block_declaration X ynote yfind yfind ycorrect yvalue).
Notation ystatement := (parse_statement (denv X) decl (v_enter X (fun e => e)) (v_leave X (fun e => e)) (v_type_name X yfind) ydecl (v_correct X ycorrect) (v_constant X ycorrect)).
(** [{ struct S { int a; } x, *y = 1; for (int i; i; ) if (x) break; else return x; }] *)
Definition y_block : list tok :=
  [TKey TK_L_BRACE; TKey TK_STRUCT; TIdent 1; TKey TK_L_BRACE; TKey TK_INT; TIdent 2; TKey TK_SEMICOLON; TKey TK_R_BRACE; TIdent 3; TKey TK_COMMA; TKey TK_STAR; TIdent 4; TKey TK_EQUAL; TInt 1; TKey TK_SEMICOLON;
   TKey TK_FOR; TKey TK_L_PAREN; TKey TK_INT; TIdent 5; TKey TK_SEMICOLON; TIdent 5; TKey TK_SEMICOLON; TKey TK_R_PAREN; TKey TK_IF; TKey TK_L_PAREN; TIdent 3; TKey TK_R_PAREN; TKey TK_BREAK; TKey TK_SEMICOLON;
   TKey TK_ELSE; TKey TK_RETURN; TIdent 3; TKey TK_SEMICOLON; TKey TK_R_BRACE].
Example C76_ex : exists x v', ystatement 100%nat (mkPs (y_block ++ [TKey TK_SEMICOLON], 0) (mkDenv [] false None) false false false) = Some (x, mkPs ([TKey TK_SEMICOLON], 0) v' false false true) /\ v_fault v' = None /\
  (exists t, y_block ++ [TKey TK_SEMICOLON] = t ++ [TKey TK_SEMICOLON] /\ StmtAccept.astext X decl (fun e => e) (fun e => e) (DeclAccept.adectext X ynote yfind yfind ycorrect yvalue) ycorrect ycorrect [] x t (v_env v')).
Proof.
  eexists _, _. split; [vm_compute; reflexivity|]. split; [reflexivity|].
  refine (proj1 (C76_statement_is_text X ynote yfind yfind ycorrect yvalue (fun e => e) (fun e => e) ycorrect yfind_known yfind_known ynote_known 100%nat (mkDenv [] false None) _ 0 false false false _ _ _ false false true _ _)); [vm_compute; reflexivity|reflexivity].
Qed.
(** A text which is none of a declaration, [const const int x;], is reported. *)
Example C76_error_ex : option_map (fun r => snd (fst (snd r))) (ydecl (mkDenv [] false None) ([TKey TK_CONST; TKey TK_CONST; TKey TK_INT; TIdent 3; TKey TK_SEMICOLON], 0)) = Some 1.
Proof. vm_compute. reflexivity. Qed.
Notation yprogram := (program X ynote yfind yfind ycorrect yvalue (fun e => e) (fun e => e) ycorrect (fun _ n => n =? 0) (fun _ => true) (fun _ _ _ => false)).
Notation yptext := (DeclAccept.aptext X ynote yfind yfind ycorrect yvalue (fun e => e) (fun e => e) ycorrect (fun _ n => n =? 0) (fun _ => true) (fun _ _ _ => false)).
(** [int a, f(int x) { return x; } void main() { struct S { int a; } ... }], a
    function with a body in a list, and no semicolon after it. *)
Definition y_program : list tok :=
  [TKey TK_INT; TIdent 7; TKey TK_COMMA; TIdent 8; TKey TK_L_PAREN; TKey TK_INT; TIdent 9; TKey TK_R_PAREN; TKey TK_L_BRACE; TKey TK_RETURN; TIdent 9; TKey TK_SEMICOLON; TKey TK_R_BRACE;
   TKey TK_VOID; TIdent 0; TKey TK_L_PAREN; TKey TK_R_PAREN] ++ y_block.
Example C76_program_ex : exists xs q t rest, yprogram (mkPs (y_program, 0) (mkDenv [] false None) false false false) = Some (xs, q) /\ y_program = t ++ rest /\ cur rest = TK_EOF /\ yptext [] t xs (v_env (p_env q)).
Proof.
  assert (R: exists xs q, yprogram (mkPs (y_program, 0) (mkDenv [] false None) false false false) = Some (xs, q) /\ snd (p_s q) = 0 /\ v_fault (p_env q) = None) by (eexists _, _; split; [vm_compute; reflexivity|split; reflexivity]).
  destruct R as (xs & q & R & Q & F). pose proof (C76_program_is_text X ynote yfind yfind ycorrect yvalue (fun e => e) (fun e => e) ycorrect yfind_known yfind_known ynote_known (fun _ n => n =? 0) (fun _ => true) (fun _ _ _ => false) ltac:(discriminate) [] y_program 0 false false xs q R Q F) as (t & rest & T).
  exists xs, q, t, rest. split; [exact R|exact T].
Qed.
(** The empty program is no text: it is reported. *)
Example C76_empty_ex : exists xs q, yprogram (mkPs ([], 0) (mkDenv [] false None) false false false) = Some (xs, q) /\ 0 < snd (p_s q).
Proof. eexists _, _. split; [vm_compute; reflexivity|reflexivity]. Qed.

(** Theorems about parsing expressions and recovering from errors. *)
From Verif Require Import Prelude LexModel ParseModel ParseSpec ParseFuel ParseProofs ParseBack ParseSkip.
From Coq Require Import SpecFloat.

(** C24: an expression written with parentheses only where precedence and
    associativity need them is read back as the same tree, for every tree over
    all operators. *)
Theorem C24_grouping : forall e rest errors, writable false e -> ends_expression rest -> parse (show e ++ rest) errors = Some (e, (rest, errors)).
Proof. exact show_parses. Qed.
Print Assumptions C24_grouping.
(** a = b + c * -d[1], (x && y || f(1, {2, 3})) ? *p : q++ *)
Definition C24_tree : expr :=
  EBinary BIN_COMMA
    (EBinary BIN_ASSIGN (EIdent 1) (EBinary BIN_ADD (EIdent 2) (EBinary BIN_MUL (EIdent 3) (EUnary UN_MINUS (ESubscript (EIdent 4) (EInt 1))))))
    (ETernary (EBinary BIN_LOG_OR (EBinary BIN_LOG_AND (EIdent 5) (EIdent 6)) (ECall (EIdent 7) [EInt 1; EInit [EInt 2; EInt 3]]))
       (EUnary UN_INDIRECTION (EIdent 8)) (EUnary UN_POSTINC (EIdent 9))).
Example C24_case : writable false C24_tree /\ ends_expression [TKey TK_SEMICOLON]
  /\ show (EBinary BIN_MUL (EBinary BIN_ADD (EIdent 1) (EIdent 2)) (EIdent 3))
     = [TKey TK_L_PAREN; TIdent 1; TKey TK_PLUS; TIdent 2; TKey TK_R_PAREN; TKey TK_STAR; TIdent 3]
  /\ show (EBinary BIN_SUB (EBinary BIN_SUB (EIdent 1) (EIdent 2)) (EIdent 3)) = [TIdent 1; TKey TK_MINUS; TIdent 2; TKey TK_MINUS; TIdent 3].
Proof. vm_compute. intuition discriminate. Qed.

(** The same for any text of the grammar, with any extra parentheses. *)
Theorem C24_grammar : forall e t rest errors, gram 1 e t -> ends_expression rest -> parse (t ++ rest) errors = Some (e, (rest, errors)).
Proof. intros e t rest n G. apply agram_parse. apply gram_agram. exact G. Qed.
Print Assumptions C24_grammar.
Example C24_grammar_case : gram 1 (EBinary BIN_SUB (EIdent 1) (EBinary BIN_SUB (EIdent 2) (EIdent 3)))
  [TIdent 1; TKey TK_MINUS; TKey TK_L_PAREN; TIdent 2; TKey TK_MINUS; TIdent 3; TKey TK_R_PAREN].
Proof.
  apply (g_lower 1 12); [|lia]. refine (g_binary BIN_SUB TK_MINUS 12 _ [TIdent 1] _ _ op_sub _ _); [apply (g_lower 12 16); [constructor|lia]|].
  apply (g_lower 13 16); [|lia]. refine (g_parens _ [TIdent 2; TKey TK_MINUS; TIdent 3] _). apply (g_lower 1 12); [|lia].
  refine (g_binary BIN_SUB TK_MINUS 12 _ [TIdent 2] _ [TIdent 3] op_sub _ _); [apply (g_lower 12 16); [constructor|lia]|apply (g_lower 13 16); [constructor|lia]].
Qed.

(** The grammar gives one tree to a text. *)
Theorem C24_one_tree : forall e e' t, gram 1 e t -> gram 1 e' t -> e = e'.
Proof.
  intros e e' t G G'. pose proof (C24_grammar e t [] 0 G (or_introl eq_refl)) as H. pose proof (C24_grammar e' t [] 0 G' (or_introl eq_refl)) as H'. congruence.
Qed.
Print Assumptions C24_one_tree.

(** And back: what is read without an error is a text of the grammar, up to the
    two liberties of [agram]; every other text is reported. *)
Theorem C24_accepted : forall l errors e rest, parse l errors = Some (e, (rest, errors)) -> exists t, l = t ++ rest /\ agram 1 false e t.
Proof. intros l n e rest H. exact (parse_agram _ _ _ _ _ H eq_refl). Qed.
Print Assumptions C24_accepted.
(** "1 + ;" and "f(1,)" are reported *)
Example C24_accepted_case :
  (exists e rest, parse [TInt 1; TKey TK_PLUS; TKey TK_SEMICOLON] 0 = Some (e, (rest, 1)))
  /\ (exists e rest, parse [TIdent 1; TKey TK_L_PAREN; TInt 1; TKey TK_COMMA; TKey TK_R_PAREN; TKey TK_SEMICOLON] 0 = Some (e, (rest, 1))).
Proof. split; do 2 eexists; vm_compute; reflexivity. Qed.

(** C (ISO C11 6.5.15) has a whole expression between [?] and [:]; here
    "a ? b, c : d" is refused. *)
Theorem C24_comma_in_conditional_refuted :
  ~ (forall c a b t u v rest errors, gram 4 c t -> gram 1 a u -> gram 3 b v -> ends_expression rest ->
       parse (t ++ TKey TK_QUESTION :: u ++ TKey TK_COLON :: v ++ rest) errors = Some (ETernary c a b, (rest, errors))).
Proof.
  intros H. specialize (H (EIdent 1) (EBinary BIN_COMMA (EIdent 2) (EIdent 3)) (EIdent 4) [TIdent 1] [TIdent 2; TKey TK_COMMA; TIdent 3] [TIdent 4] [] 0).
  assert (G4: gram 4 (EIdent 1) [TIdent 1]) by (apply (g_lower 4 16); [constructor|lia]).
  assert (G3: gram 3 (EIdent 4) [TIdent 4]) by (apply (g_lower 3 16); [constructor|lia]).
  assert (G1: gram 1 (EBinary BIN_COMMA (EIdent 2) (EIdent 3)) [TIdent 2; TKey TK_COMMA; TIdent 3]).
  { refine (g_comma _ [TIdent 2] _ [TIdent 3] _ _); [apply (g_lower 1 16); [constructor|lia]|apply (g_lower 2 16); [constructor|lia]]. }
  specialize (H G4 G1 G3 (or_introl eq_refl)). vm_compute in H. discriminate.
Qed.
Print Assumptions C24_comma_in_conditional_refuted.

(** C62: reading an expression ends on every list of tokens; the tokens left
    are an end of the list, and reported errors are not taken back. *)
Theorem C62_reading_ends : forall l errors, exists e rest errors' t,
  parse l errors = Some (e, (rest, errors')) /\ l = t ++ rest /\ errors <= errors'.
Proof. intros l n. destruct (parse_total l n) as (e & [rest n'] & E & [[t T] L]). exists e, rest, n', t. auto. Qed.
Print Assumptions C62_reading_ends.
Example C62_case : parse [TKey TK_L_PAREN; TKey TK_L_PAREN; TKey TK_STAR] 0 <> None.
Proof. vm_compute. discriminate. Qed.

(** C26: the full statement: recovery stops at the first token of the set
    outside of brackets.  It is false: the closing bracket of an inner group
    ends the outer group too. *)
Theorem C26_skips_groups_refuted :
  ~ (forall T t rest, before T t -> cur rest = TK_EOF \/ stopper T (cur rest) -> recover T (t ++ rest) = Some rest).
Proof.
  (* ((a); b); *)
  intros H. specialize (H TK_SEMICOLON [TKey TK_L_PAREN; TKey TK_L_PAREN; TIdent 1; TKey TK_R_PAREN; TKey TK_SEMICOLON; TIdent 2; TKey TK_R_PAREN] [TKey TK_SEMICOLON]).
  assert (P: forall n, ~ bracket (kind (TIdent n))) by (intros n [c [B|B]]; inversion B).
  assert (Ps: ~ bracket (kind (TKey TK_SEMICOLON))) by (intros [c [B|B]]; inversion B).
  assert (B: before TK_SEMICOLON [TKey TK_L_PAREN; TKey TK_L_PAREN; TIdent 1; TKey TK_R_PAREN; TKey TK_SEMICOLON; TIdent 2; TKey TK_R_PAREN]).
  { refine (f_group _ TK_L_PAREN TK_R_PAREN [TKey TK_L_PAREN; TIdent 1; TKey TK_R_PAREN; TKey TK_SEMICOLON; TIdent 2] [] pr_paren _ _); [|constructor].
    refine (b_group TK_L_PAREN TK_R_PAREN [TIdent 1] [TKey TK_SEMICOLON; TIdent 2] pr_paren _ _); [apply b_plain; auto; [discriminate|constructor]|].
    apply b_plain; auto; [discriminate|]. apply b_plain; auto; [discriminate|constructor]. }
  specialize (H B). assert (S: stopper TK_SEMICOLON (cur [TKey TK_SEMICOLON])) by (split; [cbn; auto 10|vm_compute; discriminate]).
  specialize (H (or_intror S)). vm_compute in H. discriminate.
Qed.
Print Assumptions C26_skips_groups_refuted.

(** What holds: it does when no group stands directly inside a group of its own
    kind, nor inside a search for its own closing bracket. *)
Theorem C26_skips_groups_partial : forall T t rest, flat T t -> cur rest = TK_EOF \/ stopper T (cur rest) -> recover T (t ++ rest) = Some rest.
Proof. intros T t rest F R. apply recover_skips. apply flat_skips; auto. Qed.
Print Assumptions C26_skips_groups_partial.
(** a (b [c; d] ) ; *)
Example C26_case : flat TK_SEMICOLON [TIdent 1; TKey TK_L_PAREN; TIdent 2; TKey TK_L_SQUARE; TIdent 3; TKey TK_SEMICOLON; TIdent 4; TKey TK_R_SQUARE; TKey TK_R_PAREN]
  /\ stopper TK_SEMICOLON (cur [TKey TK_SEMICOLON]).
Proof.
  assert (P: forall n, ~ bracket (kind (TIdent n))) by (intros n [c [B|B]]; inversion B).
  assert (Q: forall n T, ~ stopper T (kind (TIdent n))) by (intros n T [S _]; cbn in S; intuition discriminate).
  split; [|split; [cbn; auto 10|vm_compute; discriminate]].
  apply fl_plain; auto; [discriminate|].
  refine (fl_group _ TK_L_PAREN TK_R_PAREN [TIdent 2; TKey TK_L_SQUARE; TIdent 3; TKey TK_SEMICOLON; TIdent 4; TKey TK_R_SQUARE] [] pr_paren _ _ _); [intros [_ S]; vm_compute in S; auto| |constructor].
  apply fl_plain; auto; [discriminate|].
  refine (fl_group _ TK_L_SQUARE TK_R_SQUARE [TIdent 3; TKey TK_SEMICOLON; TIdent 4] [] pr_square _ _ _); [intros [_ S]; vm_compute in S; auto| |constructor].
  apply fl_plain; auto; [discriminate|]. apply fl_plain; [discriminate|intros [c [B|B]]; inversion B|intros [_ S]; vm_compute in S; auto|].
  apply fl_plain; auto; [discriminate|constructor].
Qed.

(** Recovery always ends, in front of the end of the text or a token of the
    set, having only dropped tokens. *)
Theorem C26_recovery_ends : forall T l, exists t rest, recover T l = Some rest /\ l = t ++ rest /\ (cur rest = TK_EOF \/ stopper T (cur rest)).
Proof.
  intros T l. destruct (skip_ends (2 * length l + 1) T l ltac:(lia)) as (r & E & _). destruct (skip_suffix _ _ _ _ E) as [t Et].
  exists t, r. split; [exact E|]. split; [exact Et|]. eapply skip_stops; eauto.
Qed.
Print Assumptions C26_recovery_ends.
Example C26_recovery_case : recover TK_SEMICOLON [TKey TK_L_PAREN; TIdent 1; TKey TK_SEMICOLON] = Some [].
Proof. vm_compute. reflexivity. Qed.

(** The properties of the statement parser.  Each theorem holds for every symbol
    table ([enter], [leave], [type_name]), every parser of declarations
    ([declaration], which may only drop tokens and add errors) and every verdict
    of the builder ([correct], [constant]). *)
From Verif Require Import Prelude LexModel ParseModel ParseSpec ParseFuel ParseBack StmtModel StmtSpec StmtProofs StmtTexts StmtEnds StmtScope.

Section Props.
Variables E D : Type.
Variables enter leave : E -> E.
Variable type_name : E -> Z -> bool.
Variable declaration : E -> st -> option (D * (st * E)).
Variables correct constant : E -> expr -> bool.
Hypothesis decl_forward : forall env s d s' env', declaration env s = Some (d, (s', env')) -> sfx s s'.
Notation parse_with := (parse_statement E D enter leave type_name declaration correct constant).
(** As many levels of statements as there are tokens. *)
Notation statement p := (parse_with (S (length (toks E p))) p).
Notation text := (stext E D enter leave type_name declaration correct constant).

(** C25: whatever the tokens are, in the tree the parser returns each continue is
    inside a loop, each break inside a loop or a switch and each case or default
    inside a switch, where the outermost statement has the place the parser was
    in; and after the statement the parser is in that place again. *)
Theorem C25_jumps_inside : forall fuel p x q, parse_with fuel p = Some (x, q) ->
  jumps_ok (p_loop p) (p_switch p) x = true /\ p_loop q = p_loop p /\ p_switch q = p_switch p.
Proof.
  intros fuel p x q H. apply (fine_statement E D enter leave type_name declaration correct constant decl_forward) in H as [(_ & A & B) J]. auto.
Qed.

(** The text of a statement whose jumps stand where they may is read as that
    statement, with nothing reported, and its return is noticed. *)
Theorem C25_texts_read : forall env x t env' rest errors loop switch ret, text env x t env' -> jumps_ok loop switch x = true ->
  (dangling x = true -> cur rest <> TK_ELSE) ->
  statement (mkPs (t ++ rest, errors) env loop switch ret) = Some (x, mkPs (rest, errors) env' loop switch (ret || has_return x)).
Proof.
  intros env x t env' rest errors loop switch ret T J Dg.
  apply (proj1 (texts E D enter leave type_name declaration correct constant decl_forward) _ _ _ _ T rest errors loop switch ret (S (length (t ++ rest)))); auto.
Qed.

(** The text of a statement with a jump out of place is always reported. *)
Theorem C25_violations_reported : forall env x t env' rest errors loop switch ret, text env x t env' -> jumps_ok loop switch x = false ->
  (dangling x = true -> cur rest <> TK_ELSE) ->
  forall y q, statement (mkPs (t ++ rest, errors) env loop switch ret) = Some (y, q) -> errors < snd (p_s q).
Proof.
  intros env x t env' rest errors loop switch ret T J Dg y q H.
  refine (proj2 (proj1 (texts E D enter leave type_name declaration correct constant decl_forward) _ _ _ _ T rest errors loop switch ret (S (length (t ++ rest))) _ Dg) J y q H). lia.
Qed.

(** C63: the parser returns on every sequence of tokens and moves past at least
    one token, if the parser of declarations does and the builder sees that a
    broken expression is broken. *)
Theorem C63_statement_ends :
  (forall env s, declares E type_name env (fst s) = true ->
    exists d s' env', declaration env s = Some (d, (s', env')) /\ (length (fst s') < length (fst s))%nat) ->
  (forall env, correct env EBroken = false) ->
  forall p, exists x q, statement p = Some (x, q)
    /\ (exists dropped, toks E p = dropped ++ toks E q /\ (cur (toks E p) <> TK_EOF -> dropped <> [])) /\ snd (p_s p) <= snd (p_s q).
Proof.
  intros T B p. destruct (statement_ends E D enter leave type_name declaration correct constant decl_forward T B (S (length (toks E p))) p) as (x & q & H); [unfold plen, len, toks; lia|].
  exists x, q. split; [exact H|].
  pose proof (strict_statement E D enter leave type_name declaration correct constant decl_forward T B (S (length (toks E p))) p x q H) as S.
  apply (fine_statement E D enter leave type_name declaration correct constant decl_forward) in H as [([[d A] C] & _) _]. split; [|exact C].
  exists d. split; [exact A|]. intros N. specialize (S N). intros ->. unfold plen, len in S. rewrite A in S. cbn [app] in S. lia.
Qed.

(** C64: a statement read without a new error leaves as many scopes open as there
    were. *)
Theorem C64_scopes_close : forall depth : E -> Z,
  (forall env, depth (enter env) = depth env + 1) -> (forall env, depth (leave env) = depth env - 1) ->
  (forall env s d s' env', declaration env s = Some (d, (s', env')) -> depth env' = depth env) ->
  forall fuel p x q, parse_with fuel p = Some (x, q) -> snd (p_s q) = snd (p_s p) -> depth (p_env q) = depth (p_env p).
Proof.
  intros depth En Le De fuel p x q H N. apply (bal_statement E D enter leave type_name declaration correct constant decl_forward depth En Le De) in H as [_ H]. apply H. exact N.
Qed.
End Props.
Print Assumptions C25_jumps_inside.
Print Assumptions C25_texts_read.
Print Assumptions C25_violations_reported.
Print Assumptions C63_statement_ends.
Print Assumptions C64_scopes_close.

(** ** A symbol table to try them on: the number of open scopes; a declaration
    is any three tokens. *)
Definition toy_declaration (env : Z) (s : st) : option (Z * (st * Z)) := Some (cur (fst s), ((tl (tl (tl (fst s))), snd s), env)).
Definition toy_correct (env : Z) (e : expr) : bool := match e with EBroken => false | _ => true end.
Definition toy (p : ps Z) := parse_statement Z Z (fun d => d + 1) (fun d => d - 1) (fun _ _ => false) toy_declaration toy_correct toy_correct (S (length (toks Z p))) p.
Lemma toy_forward : forall env s d s' env', toy_declaration env s = Some (d, (s', env')) -> sfx s s'.
Proof.
  intros env s d s' env' [= _ <- _]. apply (sfx_trans _ (consume s)); [apply sfx_consume|]. apply (sfx_trans _ (consume (consume s))); apply sfx_consume.
Qed.
(** while (x) { int a; switch (y) { case 1: break; default: continue; } } *)
Definition toy_text : list tok :=
  TKey TK_WHILE :: in_parens [TIdent 1] ++
  TKey TK_L_BRACE :: ([TKey TK_INT; TIdent 2; TKey TK_SEMICOLON] ++
    (TKey TK_SWITCH :: in_parens [TIdent 3] ++
      TKey TK_L_BRACE :: ((TKey TK_CASE :: [TInt 1] ++ TKey TK_COLON :: [TKey TK_BREAK; TKey TK_SEMICOLON]) ++
        (TKey TK_DEFAULT :: TKey TK_COLON :: [TKey TK_CONTINUE; TKey TK_SEMICOLON]) ++ []) ++ [TKey TK_R_BRACE]) ++ [])
  ++ [TKey TK_R_BRACE].
Definition toy_tree : stmt Z :=
  SWhile (EIdent 1) (SBlock [SDecl TK_INT; SSwitch (EIdent 3) (SBlock [SCase (EInt 1) SBreak; SDefault SContinue])]).
Example C25_case : stext Z Z (fun d => d + 1) (fun d => d - 1) (fun _ _ => false) toy_declaration toy_correct toy_correct 0 toy_tree toy_text 0
  /\ jumps_ok false false toy_tree = true /\ jumps_ok false false (SIf (EIdent 1) (SSwitch (EIdent 1) (SDefault (@SContinue Z))) None) = false.
Proof.
  split; [|split; reflexivity].
  assert (G: forall p n, 1 <= p <= 13 -> gram p (EIdent n) [TIdent n]) by (intros p n P; apply (g_lower p 16); [constructor|lia]).
  assert (GI: gram 3 (EInt 1) [TInt 1]) by (apply (g_lower 3 16); [apply (g_int 1)|lia]).
  unfold toy_tree, toy_text. apply t_while; [apply G; lia|reflexivity|].
  refine (t_block Z Z (fun d => d + 1) (fun d => d - 1) _ _ _ _ 0 _ _ 1 _).
  eapply (ti_decl _ _ _ _ _ _ _ _ _ _ [TKey TK_INT; TIdent 2; TKey TK_SEMICOLON]); [split; [reflexivity|intros; reflexivity]|].
  eapply ti_stmt; [|reflexivity|constructor].
  apply t_switch; [apply G; lia|reflexivity|].
  refine (t_block Z Z (fun d => d + 1) (fun d => d - 1) _ _ _ _ 1 _ _ 2 _).
  eapply ti_stmt; [apply t_case; [exact GI|reflexivity|apply t_break]|reflexivity|].
  eapply ti_stmt; [apply t_default, t_continue|reflexivity|constructor].
Qed.
(** continue inside a switch that is in no loop *)
Example C25_bad_case : exists y q, toy (mkPs (TKey TK_SWITCH :: in_parens [TIdent 3] ++ [TKey TK_CONTINUE; TKey TK_SEMICOLON], 0) 0 false false false) = Some (y, q) /\ snd (p_s q) = 1.
Proof. do 2 eexists. split; vm_compute; reflexivity. Qed.
Example C63_case : (forall env s, declares Z (fun _ _ => false) env (fst s) = true -> exists d s' env', toy_declaration env s = Some (d, (s', env')) /\ (length (fst s') < length (fst s))%nat)
  /\ forall env, toy_correct env EBroken = false.
Proof.
  split; [|reflexivity]. intros env [l n] H. do 3 eexists. split; [reflexivity|]. cbn [fst snd] in *. destruct l as [|a [|b [|c l]]]; cbn [tl length]; try lia. discriminate.
Qed.

(** With errors it is not so: [for x;] leaves a scope open. *)
Theorem C64_scopes_close_refuted : ~ (forall p x q, toy p = Some (x, q) -> p_env q = p_env p).
Proof.
  intros H. specialize (H (mkPs ([TKey TK_FOR; TIdent 1; TKey TK_SEMICOLON], 0) 0 false false false) SBroken (mkPs ([TKey TK_SEMICOLON], 1) 1 false false false) eq_refl).
  discriminate.
Qed.
Print Assumptions C64_scopes_close_refuted.
Example C64_case : forall env, (fun d : Z => d + 1) env = (fun d : Z => d) env + 1 /\ (fun d : Z => d - 1) env = (fun d : Z => d) env - 1
  /\ forall s d s' env', toy_declaration env s = Some (d, (s', env')) -> env' = env.
Proof. intros env. split; [reflexivity|]. split; [reflexivity|]. intros s d s' env' [= _ _ <-]. reflexivity. Qed.

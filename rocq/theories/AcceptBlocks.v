(** Statements and blocks with the declarations of DeclModel.v: what is parsed
    without a message is a text of what the parser gives. *)
From Verif Require Import Prelude LexModel ParseModel ParseSpec ParseFuel ParseProofs StmtModel StmtSpec StmtProofs StmtAccept StmtBack DeclModel DeclSpec DeclProofs DeclEnds DeclAccept DeclBack.

Scheme astext_two := Induction for astext Sort Prop with asitems_two := Induction for asitems Sort Prop.
Combined Scheme astexts from astext_two, asitems_two.

Section B.
Variable E : Type.
Variable note : E -> entry -> ctype * E * nat.
Variables type_of tag_of : E -> Z -> option ctype.
Variable correct : E -> expr -> bool.
Variable enum_value : E -> ctype -> expr -> option (Z * bool).
Variables enter leave : E -> E.
Variable constant : E -> expr -> bool.
Hypothesis type_known : forall env n t, type_of env n = Some t -> is_undefined t = false.
Hypothesis tag_known : forall env n t, tag_of env n = Some t -> is_undefined t = false.
Hypothesis note_known : forall env x t env', says E note env x t env' -> match x with NStruct _ _ | NEnumType | NEnumName _ _ => True | _ => False end -> is_undefined t = false.
Notation V := (denv E).
Notation P := (ps V).
Notation table := (table E).
Notation toks := (toks V).
Notation errs p := (snd (p_s p)).
Notation adectext := (adectext E note type_of tag_of correct enum_value).
Notation block_decl := (block_declaration E note type_of tag_of correct enum_value).
Notation pstmt := (parse_statement V decl (v_enter E enter) (v_leave E leave) (v_type_name E type_of) block_decl (v_correct E correct) (v_constant E constant)).
Notation pbody f := (parse_compound_statement_body V decl (v_type_name E type_of) block_decl (pstmt f)).
Notation vtext := (fun (v : V) d t (v' : V) => adectext (v_env v) d t (v_env v')).
Notation astext := (astext E decl enter leave adectext correct constant).
Notation asitems := (asitems E decl enter leave adectext correct constant).
Notation vstext := (StmtAccept.astext V decl (v_enter E enter) (v_leave E leave) vtext (v_correct E correct) (v_constant E constant)).
Notation vsitems := (StmtAccept.asitems V decl (v_enter E enter) (v_leave E leave) vtext (v_correct E correct) (v_constant E constant)).

Lemma project : (forall v x t v', vstext v x t v' -> astext (v_env v) x t (v_env v')) /\ (forall v xs t v', vsitems v xs t v' -> asitems (v_env v) xs t (v_env v')).
Proof.
  clear. apply (astexts V decl (v_enter E enter) (v_leave E leave) vtext (v_correct E correct) (v_constant E constant) (fun v x t v' _ => astext (v_env v) x t (v_env v')) (fun v xs t v' _ => asitems (v_env v) xs t (v_env v')));
    intros; try (econstructor; eassumption).
  apply (as_for E decl enter leave adectext correct constant (v_env env) i t (v_env env1) c u n v b w (v_env env')); auto.
    match goal with H : StmtAccept.aitext _ _ _ _ _ _ _ _ |- _ => remember (v_enter E enter env) as ve eqn:VE; destruct H; subst end; constructor; auto.
Qed.
Definition fine (v : V) : Prop := v_fault v = None.
Lemma decl_fine env s d s' env' : block_decl env s = Some (d, (s', env')) -> fine env' -> fine env.
Proof.
  unfold block_declaration. set (p := mkPs s env false false false). intros H F. destruct (parse_decl _ _ _ _ _ _ p) as [[d1 q]|] eqn:X; cbn [bind] in H; [|discriminate]. injection H as <- <- <-.
  apply (DeclBack.decl_back _ _ _ _ _ _ type_known tag_known note_known) in X as ((A & _) & _). exact (A F).
Qed.
Lemma decl_text env s d s' env' : block_decl env s = Some (d, (s', env')) -> fine env' -> snd s' = snd s -> exists t, fst s = t ++ fst s' /\ vtext env d t env'.
Proof.
  unfold block_declaration. set (p := mkPs s env false false false). intros H F Q. destruct (parse_decl _ _ _ _ _ _ p) as [[d1 q]|] eqn:X; cbn [bind] in H; [|discriminate]. injection H as <- <- <-.
  apply (DeclBack.decl_back _ _ _ _ _ _ type_known tag_known note_known) in X as (_ & X). destruct X as (l & T & G); [split; [exact F|exact Q]|]. exists l. split; [exact T|exact G].
Qed.
Lemma statement_text f p x q : pstmt f p = Some (x, q) -> fine (p_env q) -> fine (p_env p) /\ errs p <= errs q /\ jumps_ok (p_loop p) (p_switch p) x = true /\ (errs q = errs p ->
  (exists t, toks p = t ++ toks q /\ astext (table p) x t (table q)) /\ (dangling x = true -> cur (toks q) <> TK_ELSE) /\ p_return q = p_return p || has_return x).
Proof.
  intros H F. pose proof (fine_statement V decl (v_enter E enter) (v_leave E leave) (v_type_name E type_of) block_decl (v_correct E correct) (v_constant E constant) (decl_forward E note type_of tag_of correct enum_value) f p x q H) as (A & J).
  apply adv_errs in A. apply (back_statement V decl (v_enter E enter) (v_leave E leave) (v_type_name E type_of) block_decl (v_correct E correct) (v_constant E constant) vtext fine (decl_forward E note type_of tag_of correct enum_value) decl_fine decl_text (fun _ h => h) (fun _ h => h)) in H. destruct (H F) as (F0 & B). split; [exact F0|]. split; [exact A|]. split; [exact J|].
  intros Q. destruct (B Q) as ((t & T & G) & C & R). split; [exists t; split; [exact T|apply project; exact G]|]. split; [exact C|exact R].
Qed.
Lemma body_text f p x q : pis V p TK_L_BRACE = true -> pbody f p = Some (x, q) -> (fine (p_env q) -> fine (p_env p)) /\ errs p <= errs q /\ p_loop q = p_loop p /\ p_switch q = p_switch p /\ jumps_ok (p_loop p) (p_switch p) x = true /\
  (fine (p_env q) -> errs q = errs p -> exists xs t, x = SBlock xs /\ toks p = TKey TK_L_BRACE :: t ++ TKey TK_R_BRACE :: toks q /\ asitems (table p) xs t (table q) /\ p_return q = p_return p || has_return x).
Proof.
  intros K H. pose proof (fine_statement V decl (v_enter E enter) (v_leave E leave) (v_type_name E type_of) block_decl (v_correct E correct) (v_constant E constant) (decl_forward E note type_of tag_of correct enum_value) f) as FS.
  pose proof (back_statement V decl (v_enter E enter) (v_leave E leave) (v_type_name E type_of) block_decl (v_correct E correct) (v_constant E constant) vtext fine (decl_forward E note type_of tag_of correct enum_value) decl_fine decl_text (fun _ h => h) (fun _ h => h) f) as BS.
  pose proof (back_body V decl (v_enter E enter) (v_leave E leave) (v_type_name E type_of) block_decl (v_correct E correct) (v_constant E constant) vtext fine (decl_forward E note type_of tag_of correct enum_value) decl_fine decl_text _ FS BS _ _ _ K H) as B.
  assert (A: adv V p q /\ jumps_ok (p_loop p) (p_switch p) x = true).
  { unfold parse_compound_statement_body in H. destruct (parse_items _ _ _ _ _ _ _) as [[xs p1]|] eqn:X; cbn [bind] in H; [|discriminate]. pose proof (fine_items V decl _ _ (decl_forward E note type_of tag_of correct enum_value) _ FS _ _ _ _ X) as (A & J).
    destruct (negb (pis V p1 TK_R_BRACE)); injection H as <- <-; split; try exact J; try reflexivity.
    - eapply adv_trans; [|eapply adv_trans; [exact A|]]; split; auto; [apply sfx_consume|apply sfx_error].
    - eapply adv_trans; [|eapply adv_trans; [exact A|]]; split; auto; apply sfx_consume. }
  destruct A as (A & J). split; [intros F; apply (B F)|]. split; [apply adv_errs in A; exact A|]. destruct A as (_ & L & W). split; [exact L|]. split; [exact W|]. split; [exact J|].
  intros F Q. destruct (B F) as (_ & B'). destruct (B' Q) as (xs & t & X1 & X2 & X3 & X4). exists xs, t. split; [exact X1|]. split; [exact X2|]. split; [apply project; exact X3|exact X4].
Qed.
End B.

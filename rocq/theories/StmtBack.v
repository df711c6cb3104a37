(** A statement parsed without a message is a text of the statement. *)
From Verif Require Import Prelude LexModel ParseModel ParseSpec ParseFuel ParseProofs ParseBack ParseSkip StmtModel StmtSpec StmtProofs StmtAccept.

Ltac nokey := cbn [In]; intros [|[|[|[|[|[|]]]]]]; auto; discriminate.
Definition literal (k : Z) : Prop := In k [TK_EOF; TK_IDENTIFIER; TK_CHAR_LITERAL; TK_INT_LITERAL; TK_FLOAT_LITERAL; TK_STRING_LITERAL].
Lemma const_back f s e s' : parse_constant_expression f s = Some (e, s') -> snd s <= snd s' /\ (snd s' = snd s -> exists t, fst s = t ++ fst s' /\ agram 3 false e t).
Proof.
  unfold parse_constant_expression. destruct (parse_unary_expression f s) as [[x s1]|] eqn:X; cbn [bind]; [|discriminate]. intros H.
  destruct (accepted f) as (_ & _ & _ & _ & Hun & Hrhs & _). apply Hun in X as (L1 & X). apply Hrhs in H as (L2 & H); [|unfold PREC_CONDITIONAL; lia].
  split; [lia|]. intros Q. destruct (X ltac:(lia)) as (t & T & G). pose proof (prec_le (cur (fst s1))) as PL.
  destruct (H ltac:(lia) 14 false t G) as (u & U & G2 & _); [unfold PREC_CONDITIONAL; lia|unfold prec; lia|lia|]. exists (t ++ u). split; [rewrite T, U, app_assoc; reflexivity|exact G2].
Qed.

Section Steps.
Variable E : Type.
Variables correct constant : E -> expr -> bool.
Notation P := (ps E).
Notation read_e := (read_expression E correct).
Notation read_c := (read_constant E constant).
Notation pcond := (parse_condition E correct).
Notation aexpr := (aexpr E correct).
Notation errs p := (snd (p_s p)).
Notation toks := (toks E).
Lemma adv_errs p q : adv E p q -> errs p <= errs q.
Proof. clear correct constant. intros ((_ & L) & _). exact L. Qed.
Lemma consume_back p k : pis E p k = true -> ~ literal k -> toks p = TKey k :: toks (pconsume E p).
Proof. clear correct constant. intros H N. destruct (key_inv _ _ H N) as (l & X & Y). transitivity (TKey k :: fst (consume (p_s p))); [rewrite Y; exact X|reflexivity]. Qed.
Lemma expect_back p k : errs (pexpect E p k) = errs p -> ~ literal k -> toks p = TKey k :: toks (pexpect E p k).
Proof. clear correct constant.
  unfold pexpect, expect_and_consume. cbn. intros H N. destruct (is (p_s p) k) eqn:X; [exact (consume_back p k X N)|].
  destruct (_ && _); cbn in H; lia.
Qed.
Lemma try_back p k b q : ptry E p k = (b, q) -> ~ literal k -> p_env q = p_env p /\ p_return q = p_return p /\ errs q = errs p /\
  (b = true -> toks p = TKey k :: toks q) /\ (b = false -> q = p /\ pis E p k = false).
Proof. clear correct constant.
  unfold ptry. destruct (pis E p k) eqn:X; intros [= <- <-] N; repeat split; try discriminate; auto. intros _. apply consume_back; auto.
Qed.
Lemma skip_back T p q : pskip E T p = Some q -> p_env q = p_env p /\ p_return q = p_return p /\ errs q = errs p.
Proof. clear correct constant. unfold pskip. destruct (recover T (StmtModel.toks E p)) as [l|]; cbn [bind]; [|discriminate]. intros [= <-]. auto. Qed.
Lemma read_back p e b q : read_e p = Some (e, b, q) -> p_env q = p_env p /\ p_return q = p_return p /\ errs p <= errs q /\ (b = false -> errs p < errs q) /\
  (errs q = errs p -> exists t, toks p = t ++ toks q /\ aexpr (p_env p) e t).
Proof. clear constant.
  unfold read_expression. destruct (parse_expression _ _) as [[e1 s]|] eqn:X; cbn [bind]; [|discriminate]. intros [= <- <- <-].
  destruct (accepted (enough (StmtModel.toks E p))) as (_ & _ & _ & _ & _ & _ & _ & A & _). apply A in X as (L & X). cbn. unfold built, StmtAccept.aexpr.
  destruct (correct (p_env p) e1) eqn:C; cbn; repeat split; auto; try discriminate; try lia. intros Q. destruct (X Q) as (t & T & G & _). exists t. repeat split; auto.
Qed.
Lemma constant_back p e b q : read_c p = Some (e, b, q) -> p_env q = p_env p /\ p_return q = p_return p /\ errs p <= errs q /\ (b = false -> errs p < errs q) /\
  (errs q = errs p -> exists t, toks p = t ++ toks q /\ agram 3 false e t /\ constant (p_env p) e = true).
Proof. clear correct.
  unfold read_constant. destruct (parse_constant_expression _ _) as [[e1 s]|] eqn:X; cbn [bind]; [|discriminate]. intros [= <- <- <-].
  apply const_back in X as (L & X). cbn. unfold built.
  destruct (constant (p_env p) e1) eqn:C; cbn; repeat split; auto; try discriminate; try lia. intros Q. destruct (X Q) as (t & T & G). exists t. repeat split; auto.
Qed.
Lemma cond_back p e q : pcond p = Some (e, q) -> p_env q = p_env p /\ p_return q = p_return p /\ errs p <= errs q /\
  (errs q = errs p -> exists t, toks p = in_parens t ++ toks q /\ aexpr (p_env p) e t).
Proof. clear constant.
  intros H. unfold parse_condition in H. destruct (pis E p TK_L_PAREN) eqn:K; cbn [negb] in H.
  2:{ destruct (pskip E _ _) as [r|] eqn:X; cbn [bind] in H; [|discriminate]. injection H as _ <-. apply skip_back in X as (A & B & C). cbn in *. repeat split; auto; lia. }
  apply consume_back in K; [|nokey]. destruct (read_e (pconsume E p)) as [[[x b] p1]|] eqn:X; cbn [bind] in H; [|discriminate]. apply read_back in X as (A1 & R1 & L1 & N1 & T1).
  cbn in A1, R1, L1, N1. destruct b; cbn [negb] in H.
  2:{ specialize (N1 eq_refl). destruct (pskip E _ p1) as [r|] eqn:Y; cbn [bind] in H; [|discriminate]. injection H as _ <-. apply skip_back in Y as (A2 & R2 & L2).
      destruct (ptry E r TK_R_PAREN) as [b r1] eqn:Z. apply try_back in Z as (A3 & R3 & L3 & _); [|nokey]. cbn [snd] in *. repeat split; try congruence; lia. }
  destruct (ptry E p1 TK_R_PAREN) as [b p2] eqn:Z. apply try_back in Z as (A2 & R2 & L2 & T2 & _); [|nokey]. destruct b.
  - injection H as <- <-. repeat split; try congruence. intros Q. destruct T1 as (t & T & G); [cbn; lia|]. exists t. split; [|exact G].
    rewrite K, T, T2 by auto. unfold in_parens. cbn [app]. rewrite <- app_assoc. reflexivity.
  - destruct (pskip E _ _) as [r|] eqn:Y; cbn [bind] in H; [|discriminate]. injection H as _ <-. apply skip_back in Y as (A3 & R3 & L3). cbn in *. repeat split; try congruence; lia.
Qed.
End Steps.

Section B.
Variables E D : Type.
Variables enter leave : E -> E.
Variable type_name : E -> Z -> bool.
Variable declaration : E -> st -> option (D * (st * E)).
Variables correct constant : E -> expr -> bool.
Variable dtext : E -> D -> list tok -> E -> Prop.
(** What can be lost on the way, and never comes back: the absence of a fault. *)
Variable ok : E -> Prop.
Hypothesis decl_forward : forall env s d s' env', declaration env s = Some (d, (s', env')) -> sfx s s'.
Hypothesis decl_ok : forall env s d s' env', declaration env s = Some (d, (s', env')) -> ok env' -> ok env.
Hypothesis decl_back : forall env s d s' env', declaration env s = Some (d, (s', env')) -> ok env' -> snd s' = snd s ->
  exists t, fst s = t ++ fst s' /\ dtext env d t env'.
Hypothesis enter_ok : forall env, ok (enter env) -> ok env.
Hypothesis leave_ok : forall env, ok (leave env) -> ok env.
Notation P := (ps E).
Notation S := (stmt D).
Notation read_e := (read_expression E correct).
Notation read_c := (read_constant E constant).
Notation pcond := (parse_condition E correct).
Notation isdecl := (is_declaration_specifier E type_name).
Notation pdecl := (parse_declaration E D declaration).
Notation astext := (astext E D enter leave dtext correct constant).
Notation asitems := (asitems E D enter leave dtext correct constant).
Notation aitext := (aitext E D dtext correct).
Notation aexpr := (aexpr E correct).
Notation aopt := (aopt E correct).
Notation errs p := (snd (p_s p)).
Notation toks := (toks E).

Lemma broken_back T p x q : broken_after E D T p = Some (x, q) -> p_env q = p_env p /\ errs q = errs p.
Proof. unfold broken_after. destruct (pskip E T p) as [r|] eqn:X; cbn [bind]; [|discriminate]. intros [= _ <-]. apply skip_back in X. tauto. Qed.
Lemma decl_bk p d q : pdecl p = Some (d, q) -> ok (p_env q) -> ok (p_env p) /\ p_return q = p_return p /\ (errs q = errs p -> exists t, toks p = t ++ toks q /\ dtext (p_env p) d t (p_env q)).
Proof.
  unfold parse_declaration. destruct (declaration (p_env p) (p_s p)) as [[d1 [s e]]|] eqn:X; cbn [bind]; [|discriminate]. intros [= <- <-]. cbn. intros O.
  split; [eapply decl_ok; eauto|]. split; auto. intros Q. exact (decl_back _ _ _ _ _ X O Q).
Qed.

(** ** The statements *)
Definition closed (x : S) (l : list tok) : Prop := dangling x = true -> cur l <> TK_ELSE.
Definition back (p : P) (x : S) (q : P) : Prop := ok (p_env q) -> ok (p_env p) /\
  (errs q = errs p -> (exists t, toks p = t ++ toks q /\ astext (p_env p) x t (p_env q)) /\ closed x (toks q) /\ p_return q = p_return p || has_return x).
Definition backs (parse : P -> option (S * P)) : Prop := forall p x q, parse p = Some (x, q) -> back p x q.
Lemma back_bad p x q : p_env q = p_env p -> errs p < errs q -> back p x q.
Proof. intros A L O. split; [congruence|]. intros Q. lia. Qed.
Section One.
Variable parse : P -> option (S * P).
Hypothesis F : fine E D parse.
Hypothesis IH : backs parse.
Ltac bad H := apply back_bad; [rewrite (proj1 (broken_back _ _ _ _ H)); auto|rewrite (proj2 (broken_back _ _ _ _ H)); cbn in *; try lia].

Lemma back_case p x q : pis E p TK_CASE = true -> parse_case_statement E D constant parse p = Some (x, q) -> back p x q.
Proof.
  intros K H. apply consume_back in K; [|nokey]. unfold parse_case_statement in H. destruct (p_switch (pconsume E p)); cbn [negb] in H; [|bad H].
  destruct (read_c (pconsume E p)) as [[[e b] p1]|] eqn:X; cbn [bind] in H; [|discriminate]. apply constant_back in X as (A1 & R1 & L1 & N1 & T1). cbn in A1, R1, L1, N1.
  destruct b; cbn [negb] in H; [|specialize (N1 eq_refl); bad H].
  destruct (parse (pexpect E p1 TK_COLON)) as [[y p2]|] eqn:Y; cbn [bind] in H; [|discriminate]. injection H as <- <-.
  pose proof (adv_errs E _ _ (adv_expect E p1 TK_COLON)) as L2. pose proof (adv_errs E _ _ (proj1 (F _ _ _ Y))) as L3. apply IH in Y. intros O. destruct (Y O) as (O1 & Z).
  cbn in O1. split; [congruence|]. intros Q. destruct T1 as (t & T & G & C); [cbn in *; lia|]. destruct Z as ((u & U & V) & W & R); [lia|].
  split; [|split; [exact W|cbn in R |- *; congruence]]. exists (TKey TK_CASE :: t ++ TKey TK_COLON :: u). split; [|constructor; auto; cbn in V; rewrite <- A1; exact V].
  rewrite K, T. pose proof (expect_back E p1 TK_COLON ltac:(lia) ltac:(nokey)) as X. rewrite X, U. cbn [app]. rewrite <- app_assoc. reflexivity.
Qed.
Lemma back_default p x q : pis E p TK_DEFAULT = true -> parse_default_statement E D parse p = Some (x, q) -> back p x q.
Proof.
  intros K H. apply consume_back in K; [|nokey]. unfold parse_default_statement in H. destruct (p_switch (pconsume E p)); cbn [negb] in H; [|bad H].
  set (p1 := pconsume E p) in *. destruct (parse (pexpect E p1 TK_COLON)) as [[y p2]|] eqn:Y; cbn [bind] in H; [|discriminate]. injection H as <- <-.
  pose proof (adv_errs E _ _ (adv_expect E p1 TK_COLON)) as L2. pose proof (adv_errs E _ _ (proj1 (F _ _ _ Y))) as L3. apply IH in Y. intros O. destruct (Y O) as (O1 & Z).
  cbn in O1. split; [exact O1|]. intros Q. change (errs p) with (errs p1) in Q. destruct Z as ((u & U & V) & W & R); [lia|].
  split; [|split; [exact W|exact R]]. exists (TKey TK_DEFAULT :: TKey TK_COLON :: u). split; [|constructor; exact V].
  rewrite K. pose proof (expect_back E p1 TK_COLON ltac:(lia) ltac:(nokey)) as X. rewrite X, U. reflexivity.
Qed.
Lemma back_items : forall f p xs q, parse_items E D type_name declaration parse f p = Some (xs, q) -> ok (p_env q) -> ok (p_env p) /\
  (errs q = errs p -> (exists t, toks p = t ++ toks q /\ asitems (p_env p) xs t (p_env q)) /\ p_return q = p_return p || has_return (SBlock xs)).
Proof.
  induction f as [|f IHf]; intros p xs q H O; [discriminate|]. pose proof (fine_items E D type_name declaration decl_forward parse F _ _ _ _ H) as (M & _). apply adv_errs in M.
  cbn [parse_items] in H. destruct (pis E p TK_R_BRACE || pis E p TK_EOF).
  { injection H as <- <-. split; auto. intros _. split; [exists []; split; [reflexivity|constructor]|]. cbn. rewrite orb_false_r. reflexivity. }
  match type of H with bind ?a _ = _ => destruct a as [[x p1]|] eqn:X; cbn [bind] in H; [|discriminate] end.
  destruct (parse_items E D type_name declaration parse f p1) as [[ys p2]|] eqn:Y; cbn [bind] in H; [|discriminate]. injection H as <- <-.
  pose proof (fine_items E D type_name declaration decl_forward parse F _ _ _ _ Y) as (M2 & _). apply adv_errs in M2. apply IHf in Y as (O1 & Y); [|exact O].
  destruct (isdecl p).
  - destruct (pdecl p) as [[d p3]|] eqn:Z; cbn [bind] in X; [|discriminate]. injection X as <- <-. pose proof (adv_errs E _ _ (adv_decl E D declaration decl_forward _ _ _ Z)) as M1.
    apply decl_bk in Z as (O2 & R2 & Z); [|exact O1]. split; auto. intros Q. destruct Y as ((u & U & V) & R); [lia|]. destruct Z as (t & T & W); [lia|].
    split; [|rewrite R, R2; reflexivity]. exists (t ++ u). split; [rewrite T, U, app_assoc; reflexivity|]. eapply ai_dec; eauto.
  - pose proof (adv_errs E _ _ (proj1 (F _ _ _ X))) as M1. destruct (IH _ _ _ X O1) as (O2 & Z). split; auto. intros Q. destruct Y as ((u & U & V) & R); [lia|].
    destruct Z as ((t & T & W) & _ & R1); [lia|]. split; [|rewrite R, R1; cbn [has_return]; rewrite orb_assoc; reflexivity]. exists (t ++ u). split; [rewrite T, U, app_assoc; reflexivity|]. eapply ai_stmt; eauto.
Qed.
Lemma back_body p x q : pis E p TK_L_BRACE = true -> parse_compound_statement_body E D type_name declaration parse p = Some (x, q) -> ok (p_env q) -> ok (p_env p) /\
  (errs q = errs p -> exists xs t, x = SBlock xs /\ toks p = TKey TK_L_BRACE :: t ++ TKey TK_R_BRACE :: toks q /\ asitems (p_env p) xs t (p_env q) /\ p_return q = p_return p || has_return x).
Proof.
  intros K H O. apply consume_back in K; [|nokey]. unfold parse_compound_statement_body in H. destruct (parse_items _ _ _ _ _ _ _) as [[xs p1]|] eqn:X; cbn [bind] in H; [|discriminate].
  pose proof (fine_items E D type_name declaration decl_forward parse F _ _ _ _ X) as (M & _). apply adv_errs in M. cbn in M.
  assert (O1: ok (p_env p1)) by (destruct (negb (pis E p1 TK_R_BRACE)); injection H as _ <-; exact O). apply back_items in X as (O2 & X); [|exact O1]. split; [exact O2|]. intros Q.
  destruct (pis E p1 TK_R_BRACE) eqn:Z; cbn [negb] in H; injection H as <- <-; cbn in Q; [|lia]. apply consume_back in Z; [|nokey]. destruct X as ((t & T & V) & R); [exact Q|].
  exists xs, t. repeat split; auto. rewrite K, T, Z. reflexivity.
Qed.
Lemma back_block p x q : pis E p TK_L_BRACE = true -> parse_compound_statement E D enter leave type_name declaration parse p = Some (x, q) -> back p x q.
Proof.
  intros K H. unfold parse_compound_statement in H. set (p0 := with_env E p (enter (p_env p))) in *.
  destruct (parse_compound_statement_body _ _ _ _ _ p0) as [[y p1]|] eqn:X; cbn [bind] in H; [|discriminate]. injection H as <- <-. intros O. cbn in O.
  apply back_body in X as (O1 & X); [|exact K|apply leave_ok; exact O]. split; [apply enter_ok; exact O1|]. intros Q. destruct X as (xs & t & -> & T & V & R); [exact Q|].
  split; [|split; [discriminate|exact R]]. exists (TKey TK_L_BRACE :: t ++ [TKey TK_R_BRACE]). split; [|constructor; exact V]. change (toks p0) with (toks p) in T.
  rewrite T. cbn [app]. rewrite <- app_assoc. reflexivity.
Qed.
Lemma back_expr p x q : parse_expression_statement E D correct p = Some (x, q) -> back p x q.
Proof.
  intros H. unfold parse_expression_statement in H. destruct (read_e p) as [[[e b] p1]|] eqn:X; cbn [bind] in H; [|discriminate]. apply read_back in X as (A1 & R1 & L1 & N1 & T1).
  destruct b; cbn [negb] in H; [|specialize (N1 eq_refl); bad H]. injection H as <- <-. intros O. cbn in O. split; [congruence|]. intros Q.
  pose proof (adv_errs E _ _ (adv_expect E p1 TK_SEMICOLON)) as L2. destruct T1 as (t & T & G); [lia|]. pose proof (expect_back E p1 TK_SEMICOLON ltac:(lia) ltac:(nokey)) as X.
  split; [|split; [discriminate|cbn; rewrite orb_false_r; exact R1]]. exists (t ++ [TKey TK_SEMICOLON]). split; [rewrite T, X, <- app_assoc; reflexivity|]. cbn. rewrite A1. constructor; auto.
Qed.
Lemma back_if p x q : pis E p TK_IF = true -> parse_if_statement E D correct parse p = Some (x, q) -> back p x q.
Proof.
  intros K H. apply consume_back in K; [|nokey]. unfold parse_if_statement in H. destruct (pcond (pconsume E p)) as [[c p1]|] eqn:X; cbn [bind] in H; [|discriminate].
  apply cond_back in X as (A1 & R1 & L1 & T1). cbn in A1, R1, L1. change (errs (pconsume E p)) with (errs p) in T1. change (p_env (pconsume E p)) with (p_env p) in T1. destruct (parse p1) as [[a p2]|] eqn:Y; cbn [bind] in H; [|discriminate].
  pose proof (adv_errs E _ _ (proj1 (F _ _ _ Y))) as L2. apply IH in Y. destruct (ptry E p2 TK_ELSE) as [b p3] eqn:Z. apply try_back in Z as (A3 & R3 & L3 & T3 & N3); [|nokey].
  destruct b.
  - destruct (parse p3) as [[y p4]|] eqn:W; cbn [bind] in H; [|discriminate]. pose proof (adv_errs E _ _ (proj1 (F _ _ _ W))) as L4. apply IH in W. injection H as <- <-.
    intros O. destruct (W O) as (O3 & W'). rewrite A3 in O3. destruct (Y O3) as (O1 & Y'). split; [congruence|]. intros Q. specialize (T3 eq_refl).
    destruct T1 as (t & T & G); [lia|]. destruct Y' as ((u & U & V) & C & R); [lia|]. destruct W' as ((v & V1 & V2) & C2 & R4); [lia|].
    split; [|split; [exact C2|cbn [has_return]; rewrite R4, R3, R, R1, orb_assoc; reflexivity]].
    exists (TKey TK_IF :: in_parens t ++ u ++ TKey TK_ELSE :: v). split; [rewrite K, T, U, T3, V1; cbn [app]; rewrite <- !app_assoc; reflexivity|].
    rewrite A1 in V. rewrite A3 in V2. eapply as_if_else; eauto. destruct (dangling a) eqn:DA; auto. exfalso. apply (C DA). rewrite T3. reflexivity.
  - injection H as <- <-. destruct (N3 eq_refl) as (-> & NE). intros O. destruct (Y O) as (O1 & Y'). split; [congruence|]. intros Q. destruct T1 as (t & T & G); [lia|].
    destruct Y' as ((u & U & V) & C & R); [lia|]. split; [|split; [|cbn [has_return]; congruence]].
    + exists (TKey TK_IF :: in_parens t ++ u). split; [rewrite K, T, U; cbn [app]; rewrite <- !app_assoc; reflexivity|]. rewrite A1 in V. constructor; auto.
    + intros _ X. unfold pis, is in NE. unfold StmtModel.toks in X. rewrite X in NE. discriminate.
Qed.
Lemma back_switch p x q : pis E p TK_SWITCH = true -> parse_switch_statement E D correct parse p = Some (x, q) -> back p x q.
Proof.
  intros K H. apply consume_back in K; [|nokey]. unfold parse_switch_statement in H. destruct (pcond (pconsume E p)) as [[c p1]|] eqn:X; cbn [bind] in H; [|discriminate].
  apply cond_back in X as (A1 & R1 & L1 & T1). cbn in A1, R1, L1. change (errs (pconsume E p)) with (errs p) in T1. change (p_env (pconsume E p)) with (p_env p) in T1. set (p1' := with_switch E p1 true) in *. assert (E1: errs p1' = errs p1 /\ p_env p1' = p_env p1 /\ p_return p1' = p_return p1 /\ toks p1' = toks p1) by auto. destruct E1 as (E1 & E2 & E3 & E4). destruct (parse p1') as [[a p2]|] eqn:Y; cbn [bind] in H; [|discriminate].
  pose proof (adv_errs E _ _ (proj1 (F _ _ _ Y))) as L2. clearbody p1'. apply IH in Y. injection H as <- <-. intros O. destruct (Y O) as (O1 & Y'). split; [congruence|]. intros Q. cbn in Q.
  destruct T1 as (t & T & G); [lia|]. destruct Y' as ((u & U & V) & C & R); [lia|]. rewrite E4 in U. rewrite E2 in V. split; [|split; [exact C|cbn; congruence]].
  exists (TKey TK_SWITCH :: in_parens t ++ u). split; [rewrite K, T; cbn [app]; rewrite <- app_assoc; f_equal; f_equal; exact U|]. rewrite A1 in V. constructor; auto.
Qed.
Lemma back_while p x q : pis E p TK_WHILE = true -> parse_while_statement E D correct parse p = Some (x, q) -> back p x q.
Proof.
  intros K H. apply consume_back in K; [|nokey]. unfold parse_while_statement in H. destruct (pcond (pconsume E p)) as [[c p1]|] eqn:X; cbn [bind] in H; [|discriminate].
  apply cond_back in X as (A1 & R1 & L1 & T1). cbn in A1, R1, L1. change (errs (pconsume E p)) with (errs p) in T1. change (p_env (pconsume E p)) with (p_env p) in T1. set (p1' := with_loop E p1 true) in *. assert (E1: errs p1' = errs p1 /\ p_env p1' = p_env p1 /\ p_return p1' = p_return p1 /\ toks p1' = toks p1) by auto. destruct E1 as (E1 & E2 & E3 & E4). destruct (parse p1') as [[a p2]|] eqn:Y; cbn [bind] in H; [|discriminate].
  pose proof (adv_errs E _ _ (proj1 (F _ _ _ Y))) as L2. clearbody p1'. apply IH in Y. injection H as <- <-. intros O. destruct (Y O) as (O1 & Y'). split; [congruence|]. intros Q. cbn in Q.
  destruct T1 as (t & T & G); [lia|]. destruct Y' as ((u & U & V) & C & R); [lia|]. rewrite E4 in U. rewrite E2 in V. split; [|split; [exact C|cbn; congruence]].
  exists (TKey TK_WHILE :: in_parens t ++ u). split; [rewrite K, T; cbn [app]; rewrite <- app_assoc; f_equal; f_equal; exact U|]. rewrite A1 in V. constructor; auto.
Qed.
Lemma back_do p x q : pis E p TK_DO = true -> parse_do_statement E D correct parse p = Some (x, q) -> back p x q.
Proof.
  intros K H. apply consume_back in K; [|nokey]. unfold parse_do_statement in H. set (p0 := pconsume E p) in *.
  destruct (parse (with_loop E p0 true)) as [[a p1]|] eqn:Y; cbn [bind] in H; [|discriminate]. pose proof (adv_errs E _ _ (proj1 (F _ _ _ Y))) as L1. apply IH in Y.
  destruct (ptry E (with_loop E p1 (p_loop p0)) TK_WHILE) as [b p2] eqn:Z. apply try_back in Z as (A2 & R2 & L2 & T2 & _); [|nokey]. cbn in L1, A2, R2, L2. destruct b; cbn [negb] in H.
  - destruct (pcond p2) as [[c p3]|] eqn:X; cbn [bind] in H; [|discriminate]. apply cond_back in X as (A3 & R3 & L3 & T3). injection H as <- <-. intros O. cbn in O.
    destruct (Y ltac:(congruence)) as (O1 & Y'). split; [exact O1|]. intros Q. pose proof (adv_errs E _ _ (adv_expect E p3 TK_SEMICOLON)) as L4. cbn in Y'.
    destruct Y' as ((u & U & V) & C & R); [lia|]. destruct T3 as (t & T & G); [lia|]. specialize (T2 eq_refl). pose proof (expect_back E p3 TK_SEMICOLON ltac:(lia) ltac:(nokey)) as X.
    split; [|split; [discriminate|cbn [has_return]; cbn in *; congruence]]. exists (TKey TK_DO :: u ++ TKey TK_WHILE :: in_parens t ++ [TKey TK_SEMICOLON]). split.
    + rewrite K. change (toks p0 = u ++ toks p1) in U. rewrite U. change (toks p1 = TKey TK_WHILE :: toks p2) in T2. rewrite T2, T, X. cbn [app]. rewrite <- !app_assoc. cbn [app]. rewrite <- !app_assoc. reflexivity.
    + cbn. rewrite A3, A2. constructor; [exact V|]. rewrite <- A2. exact G.
  - intros O. pose proof (broken_back _ _ _ _ H) as (A3 & L3). cbn in A3, L3. destruct (Y ltac:(congruence)) as (O1 & _). split; [exact O1|]. intros Q. change (errs p0) with (errs p) in *. cbn in *. lia.
Qed.

(** The three parts of a [for] head: a part that breaks the head off has reported. *)
Definition hback {A} (p : P) (r : option ((A * P) + (S * P))) (T : A -> list tok -> E -> Prop) : Prop :=
  forall v, r = Some v -> match v with
  | inl (a, q) => errs p <= errs q /\ (ok (p_env q) -> ok (p_env p) /\ p_return q = p_return p /\ (errs q = errs p -> exists t, toks p = t ++ toks q /\ T a t (p_env q)))
  | inr (x, q) => (ok (p_env q) -> ok (p_env p)) /\ errs p < errs q end.
Lemma hback_stop {A} p q T : errs p < errs q -> (ok (p_env q) -> ok (p_env p)) -> hback p (@stop_for E D A q) T.
Proof.
  intros L O v H. unfold stop_for in H. destruct (broken_after E D TK_SEMICOLON q) as [[x r]|] eqn:X; cbn [bind] in H; [|discriminate]. injection H as <-.
  apply broken_back in X as (A1 & L1). split; [rewrite A1; exact O|lia].
Qed.
Lemma back_init p : hback p (parse_for_init E D type_name declaration correct p) (fun i t e => aitext (p_env p) i t e).
Proof.
  unfold parse_for_init. destruct (ptry E p TK_SEMICOLON) as [b p1] eqn:X. apply try_back in X as (A1 & R1 & L1 & T1 & N1); [|nokey]. destruct b.
  { intros v [= <-]. split; [lia|]. intros O. repeat split; try congruence. intros _. exists [TKey TK_SEMICOLON]. split; [apply T1; auto|]. rewrite A1. constructor. }
  destruct (N1 eq_refl) as (-> & _). clear N1 T1 A1 R1 L1. destruct (isdecl p).
  { intros v H. destruct (pdecl p) as [[d p2]|] eqn:Y; cbn [bind] in H; [|discriminate]. injection H as <-. pose proof (adv_errs E _ _ (adv_decl E D declaration decl_forward _ _ _ Y)) as M.
    split; auto. intros O. apply decl_bk in Y as (O1 & R & Y); auto. repeat split; auto. intros Q. destruct (Y Q) as (t & T & G). exists t. split; auto. constructor. exact G. }
  destruct (read_e p) as [[[e b] p2]|] eqn:Y; cbn [bind]; [|intros v; discriminate]. apply read_back in Y as (A1 & R1 & L1 & N1 & T1).
  destruct b; cbn [negb]; [|apply hback_stop; [auto|congruence]]. destruct (ptry E p2 TK_SEMICOLON) as [b p3] eqn:Z. apply try_back in Z as (A2 & R2 & L2 & T2 & N2); [|nokey]. destruct b.
  - intros v [= <-]. split; [lia|]. intros O. repeat split; try congruence. intros Q. destruct T1 as (t & T & G); [lia|]. exists (t ++ [TKey TK_SEMICOLON]).
    split; [rewrite T, T2, <- app_assoc; reflexivity|]. rewrite A2, A1. constructor. exact G.
  - apply hback_stop; cbn; [lia|congruence].
Qed.
Lemma back_condition p : hback p (parse_for_condition E D correct p) (fun c t e => e = p_env p /\ exists u, t = u ++ [TKey TK_SEMICOLON] /\ aopt (p_env p) c u).
Proof.
  unfold parse_for_condition. destruct (ptry E p TK_SEMICOLON) as [b p1] eqn:X. apply try_back in X as (A1 & R1 & L1 & T1 & N1); [|nokey]. destruct b.
  { intros v [= <-]. split; [lia|]. intros O. repeat split; try congruence. intros _. exists [TKey TK_SEMICOLON]. split; [apply T1; auto|]. split; auto. exists []. split; reflexivity. }
  destruct (N1 eq_refl) as (-> & _). clear N1 T1 A1 R1 L1.
  destruct (read_e p) as [[[e b] p2]|] eqn:Y; cbn [bind]; [|intros v; discriminate]. apply read_back in Y as (A1 & R1 & L1 & N1 & T1).
  destruct b; cbn [negb]; [|apply hback_stop; [auto|congruence]]. destruct (ptry E p2 TK_SEMICOLON) as [b p3] eqn:Z. apply try_back in Z as (A2 & R2 & L2 & T2 & N2); [|nokey]. destruct b.
  - intros v [= <-]. split; [lia|]. intros O. repeat split; try congruence. intros Q. destruct T1 as (t & T & G); [lia|]. exists (t ++ [TKey TK_SEMICOLON]).
    split; [rewrite T, T2, <- app_assoc; reflexivity|]. split; [congruence|]. exists t. split; auto.
  - apply hback_stop; cbn; [lia|congruence].
Qed.
Lemma back_increment p : hback p (parse_for_increment E D correct p) (fun c t e => e = p_env p /\ exists u, t = u ++ [TKey TK_R_PAREN] /\ aopt (p_env p) c u).
Proof.
  unfold parse_for_increment.
  match goal with |- hback p (bind ?a _) _ => assert (Hd: hback p a (fun c t e => e = p_env p /\ aopt (p_env p) c t)) end.
  { destruct (pis E p TK_R_PAREN); cbn [negb].
    { intros v [= <-]. split; [lia|]. intros O. repeat split; auto. intros _. exists []. split; [reflexivity|]. split; reflexivity. }
    destruct (read_e p) as [[[e b] p2]|] eqn:Y; cbn [bind]; [|intros v; discriminate]. apply read_back in Y as (A1 & R1 & L1 & N1 & T1).
    destruct b; cbn [negb]; [|apply hback_stop; [auto|congruence]]. intros v [= <-]. split; [auto|]. intros O. repeat split; try congruence. intros Q.
    destruct T1 as (t & T & G); [lia|]. exists t. repeat split; auto; apply G. }
  match goal with |- hback p (bind ?a _) _ => destruct a as [[[n p1]|[b p1]]|] end; cbn [bind]; [| |intros v; discriminate].
  - destruct (Hd _ eq_refl) as (L1 & Hd'). destruct (ptry E p1 TK_R_PAREN) as [b p3] eqn:Z. apply try_back in Z as (A2 & R2 & L2 & T2 & N2); [|nokey]. destruct b.
    + intros v [= <-]. split; [lia|]. intros O. rewrite A2 in O. destruct (Hd' O) as (O1 & R1 & T1). repeat split; try congruence. intros Q. destruct T1 as (t & T & TE & G); [lia|].
      exists (t ++ [TKey TK_R_PAREN]). split; [rewrite T, T2, <- app_assoc; reflexivity|]. rewrite A2. split; [exact TE|]. exists t. auto.
    + apply hback_stop; cbn; [lia|]. intros O. rewrite A2 in O. apply (Hd' O).
  - intros v [= <-]. apply (Hd _ eq_refl).
Qed.
Lemma back_for p x q : pis E p TK_FOR = true -> parse_for_statement E D enter leave type_name declaration correct parse p = Some (x, q) -> back p x q.
Proof.
  intros K H. apply consume_back in K; [|nokey]. unfold parse_for_statement in H. set (p0 := with_env E (pconsume E p) (enter (p_env (pconsume E p)))) in *.
  assert (EP: errs p0 = errs p) by reflexivity. destruct (pis E p0 TK_L_PAREN) eqn:K2; cbn [negb] in H.
  2:{ pose proof (broken_back _ _ _ _ H) as (A3 & L3). cbn in A3, L3. intros O. split; [apply enter_ok; rewrite A3 in O; exact O|]. intros Q. lia. }
  apply consume_back in K2; [|nokey]. change (toks p0) with (toks (pconsume E p)) in K2. set (p00 := pconsume E p0) in *. assert (E0: errs p00 = errs p) by reflexivity.
  pose proof (back_init p00) as H1. destruct (parse_for_init _ _ _ _ _ _) as [[[i p1]|[b p1]]|]; cbn [bind] in H; [| |discriminate]; specialize (H1 _ eq_refl); cbn iota beta in H1.
  2:{ injection H as <- <-. destruct H1 as (O1 & L). intros O. split; [apply enter_ok, O1, O|]. intros Q. lia. }
  destruct H1 as (L1 & H1).
  pose proof (back_condition p1) as H2. destruct (parse_for_condition _ _ _ _) as [[[c p2]|[b p2]]|]; cbn [bind] in H; [| |discriminate]; specialize (H2 _ eq_refl); cbn iota beta in H2.
  2:{ injection H as <- <-. destruct H2 as (O1 & L). intros O. split; [apply enter_ok; apply H1, O1, O|]. intros Q. lia. }
  destruct H2 as (L2 & H2).
  pose proof (back_increment p2) as H3. destruct (parse_for_increment _ _ _ _) as [[[n p3]|[b p3]]|]; cbn [bind] in H; [| |discriminate]; specialize (H3 _ eq_refl); cbn iota beta in H3.
  2:{ injection H as <- <-. destruct H3 as (O1 & L). intros O. split; [apply enter_ok; apply H1; apply H2, O1, O|]. intros Q. lia. }
  destruct H3 as (L3 & H3).
  destruct (parse (with_loop E p3 true)) as [[a p4]|] eqn:Y; cbn [bind] in H; [|discriminate]. pose proof (adv_errs E _ _ (proj1 (F _ _ _ Y))) as L4. cbn in L4. apply IH in Y. injection H as <- <-.
  intros O. cbn in O. apply leave_ok in O. destruct (Y O) as (O3 & Y'). cbn in O3. destruct (H3 O3) as (O2 & R3 & T3). destruct (H2 O2) as (O1 & R2 & T2). destruct (H1 O1) as (O0 & R1 & T1).
  split; [apply enter_ok; exact O0|]. intros Q. cbn in Q. destruct T1 as (t & T1 & G1); [lia|]. destruct T2 as (u0 & T2 & A2 & u & -> & G2); [lia|]. destruct T3 as (v0 & T3 & A3 & v & -> & G3); [lia|].
  cbn in Y'. destruct Y' as ((w & U & V) & C & R); [lia|]. change (toks (with_loop E p3 true)) with (toks p3) in U. split; [|split].
  - exists (TKey TK_FOR :: TKey TK_L_PAREN :: t ++ u ++ TKey TK_SEMICOLON :: v ++ TKey TK_R_PAREN :: w). split.
    + rewrite K, K2. change (TKey TK_FOR :: TKey TK_L_PAREN :: toks p00 = (TKey TK_FOR :: TKey TK_L_PAREN :: t ++ u ++ TKey TK_SEMICOLON :: v ++ TKey TK_R_PAREN :: w) ++ toks p4).
      rewrite T1, T2, T3, U. cbn [app]. repeat (rewrite <- !app_assoc; cbn [app]). reflexivity.
    + cbn. rewrite A3, A2 in V. eapply as_for; [exact G1|exact G2| |exact V]. rewrite A2 in G3. exact G3.
  - exact C.
  - cbn. cbn in R. rewrite R, R3, R2, R1. reflexivity.
Qed.
Lemma back_continue p x q : pis E p TK_CONTINUE = true -> parse_continue_statement E D p = Some (x, q) -> back p x q.
Proof.
  intros K H. apply consume_back in K; [|nokey]. unfold parse_continue_statement in H. destruct (p_loop (pconsume E p)); cbn [negb] in H; [|bad H]. injection H as <- <-. intros O. split; [exact O|].
  intros Q. pose proof (expect_back E (pconsume E p) TK_SEMICOLON Q ltac:(nokey)) as X. split; [|split; [discriminate|cbn; rewrite orb_false_r; reflexivity]].
  exists [TKey TK_CONTINUE; TKey TK_SEMICOLON]. split; [rewrite K, X; reflexivity|constructor].
Qed.
Lemma back_break p x q : pis E p TK_BREAK = true -> parse_break_statement E D p = Some (x, q) -> back p x q.
Proof.
  intros K H. apply consume_back in K; [|nokey]. unfold parse_break_statement in H. destruct (_ || _); cbn [negb] in H; [|bad H]. injection H as <- <-. intros O. split; [exact O|].
  intros Q. pose proof (expect_back E (pconsume E p) TK_SEMICOLON Q ltac:(nokey)) as X. split; [|split; [discriminate|cbn; rewrite orb_false_r; reflexivity]].
  exists [TKey TK_BREAK; TKey TK_SEMICOLON]. split; [rewrite K, X; reflexivity|constructor].
Qed.
Lemma back_return p x q : pis E p TK_RETURN = true -> parse_return_statement E D correct p = Some (x, q) -> back p x q.
Proof.
  intros K H. apply consume_back in K; [|nokey]. unfold parse_return_statement in H. set (p0 := with_return E (pconsume E p)) in *. change (toks (pconsume E p)) with (toks p0) in K.
  assert (EP: errs p0 = errs p /\ p_env p0 = p_env p /\ p_return p0 = true) by auto. destruct EP as (EP & EE & ER). clearbody p0.
  destruct (ptry E p0 TK_SEMICOLON) as [b p1] eqn:X. apply try_back in X as (A1 & R1 & L1 & T1 & N1); [|nokey]. destruct b.
  - injection H as <- <-. intros O. split; [congruence|]. intros _. split; [|split; [discriminate|cbn; rewrite orb_true_r; congruence]]. exists (TKey TK_RETURN :: [] ++ [TKey TK_SEMICOLON]).
    split; [rewrite K, T1 by auto; reflexivity|]. rewrite A1, EE. constructor. reflexivity.
  - destruct (N1 eq_refl) as (-> & _). destruct (read_e p0) as [[[e b] p2]|] eqn:Y; cbn [bind] in H; [|discriminate]. apply read_back in Y as (A2 & R2 & L2 & N2 & T2).
    destruct b; [|specialize (N2 eq_refl); apply back_bad; [rewrite (proj1 (broken_back _ _ _ _ H)); congruence|rewrite (proj2 (broken_back _ _ _ _ H)); lia]].
    injection H as <- <-. intros O. cbn in O. split; [congruence|]. intros Q. pose proof (adv_errs E _ _ (adv_expect E p2 TK_SEMICOLON)) as L3. destruct T2 as (t & T & G); [lia|].
    pose proof (expect_back E p2 TK_SEMICOLON ltac:(lia) ltac:(nokey)) as X. split; [|split; [discriminate|cbn; rewrite orb_true_r; congruence]].
    exists (TKey TK_RETURN :: t ++ [TKey TK_SEMICOLON]). split; [rewrite K, T, X; cbn [app]; rewrite <- app_assoc; reflexivity|]. cbn. rewrite A2, EE. rewrite EE in G. constructor. exact G.
Qed.
End One.
Lemma back_statement : forall f, backs (parse_statement E D enter leave type_name declaration correct constant f).
Proof.
  induction f as [|f IH]; intros p x q H; [discriminate|]. cbn [parse_statement] in H.
  pose proof (fine_statement E D enter leave type_name declaration correct constant decl_forward f) as F.
  destruct (pis E p TK_CASE) eqn:K1; [eapply back_case; eauto|]. destruct (pis E p TK_DEFAULT) eqn:K2; [eapply back_default; eauto|].
  destruct (pis E p TK_L_BRACE) eqn:K3; [eapply back_block; eauto|]. destruct (pis E p TK_SEMICOLON) eqn:K4.
  { injection H as <- <-. apply consume_back in K4; [|nokey]. intros O. split; [exact O|]. intros _. split; [|split; [discriminate|cbn; rewrite orb_false_r; reflexivity]].
    exists [TKey TK_SEMICOLON]. split; [exact K4|constructor]. }
  destruct (pis E p TK_IF) eqn:K5; [eapply back_if; eauto|]. destruct (pis E p TK_SWITCH) eqn:K6; [eapply back_switch; eauto|].
  destruct (pis E p TK_WHILE) eqn:K7; [eapply back_while; eauto|]. destruct (pis E p TK_DO) eqn:K8; [eapply back_do; eauto|]. destruct (pis E p TK_FOR) eqn:K9; [eapply back_for; eauto|].
  destruct (pis E p TK_CONTINUE) eqn:K10; [eapply back_continue; eauto|]. destruct (pis E p TK_BREAK) eqn:K11; [eapply back_break; eauto|].
  destruct (pis E p TK_RETURN) eqn:K12; [eapply back_return; eauto|]. eapply back_expr; eauto.
Qed.
End B.

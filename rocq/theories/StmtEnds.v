(** Parsing a statement ends, and moves past at least one token. *)
From Verif Require Import Prelude LexModel ParseModel ParseSpec ParseFuel ParseProofs ParseBack ParseSkip StmtModel StmtSpec StmtProofs.

(** ** An expression of no tokens is broken *)
Section Total.
Variable f : nat.
Lemma use_exp s e s' : (16 * length (fst s) + 6 < f)%nat -> parse_expression f s = Some (e, s') -> sfx s s'.
Proof. intros L H. destruct (total f) as (_ & _ & _ & _ & _ & _ & _ & T & _). destruct (T s L) as (r & X & Y). rewrite X in H. injection H as ->. exact Y. Qed.
Lemma use_list s e s' : (16 * length (fst s) + 7 < f)%nat -> parse_initializer_list f s = Some (e, s') -> sfx s s'.
Proof. intros L H. destruct (total f) as (_ & T & _). destruct (T s L) as (r & X & Y). rewrite X in H. injection H as ->. exact Y. Qed.
Lemma use_ini s e s' : (16 * length (fst s) + 6 < f)%nat -> parse_initializer f s = Some (e, s') -> sfx s s'.
Proof. intros L H. destruct (total f) as (_ & _ & _ & _ & _ & _ & _ & _ & T). destruct (T s L) as (r & X & Y). rewrite X in H. injection H as ->. exact Y. Qed.
Lemma use_un s e s' : (16 * length (fst s) + 4 < f)%nat -> parse_unary_expression f s = Some (e, s') -> sfx s s'.
Proof. intros L H. destruct (total f) as (_ & _ & _ & _ & T & _). destruct (T s L) as (r & X & Y). rewrite X in H. injection H as ->. exact Y. Qed.
Lemma use_loop x s e s' : (16 * length (fst s) + 1 < f)%nat -> postfix_loop f x s = Some (e, s') -> sfx s s'.
Proof. intros L H. destruct (total f) as (_ & _ & _ & T & _). destruct (T (x, s) L) as (r & X & Y). cbn [pfl] in X. rewrite X in H. injection H as ->. exact Y. Qed.
Lemma use_rhs x m s e s' : 1 <= m -> (16 * length (fst s) + 1 < f)%nat -> parse_RHS_of_binary_expression f x m s = Some (e, s') -> sfx s s'.
Proof. intros M L H. destruct (total f) as (_ & _ & _ & _ & _ & T & _). destruct (T (x, m, s) L) as (r & X & Y). cbn [rhs1] in X. rewrite Z.max_r in X by lia. rewrite X in H. injection H as ->. exact Y. Qed.
Lemma use_asg s e s' : (16 * length (fst s) + 5 < f)%nat -> parse_assignment_expression f s = Some (e, s') -> sfx s s'.
Proof. intros L H. destruct (total f) as (_ & _ & _ & _ & _ & _ & T & _). destruct (T s L) as (r & X & Y). rewrite X in H. injection H as ->. exact Y. Qed.
End Total.
Definition len (s : st) : nat := length (fst s).
Lemma len_sfx s r : sfx s r -> (len r <= len s)%nat.
Proof. apply sfx_len. Qed.
Lemma len_consume s k : is s k = true -> k <> TK_EOF -> (len (consume s) < len s)%nat.
Proof. apply is_len. Qed.
Lemma len_error s : len (error s) = len s.
Proof. reflexivity. Qed.
Lemma len_try s k : (len (snd (try_consume s k)) <= len s)%nat.
Proof. apply try_len. Qed.

Lemma loop_shrinks f x s e s' : (16 * len s + 1 < f)%nat -> postfix_loop f x s = Some (e, s') -> (e = x /\ s' = s) \/ (len s' < len s)%nat.
Proof.
  intros L H. destruct f as [|f]; [lia|]. cbn [postfix_loop] in H.
  assert (LP: forall y q, (len q < len s)%nat -> postfix_loop f y q = Some (e, s') -> (e = x /\ s' = s) \/ (len s' < len s)%nat).
  { intros y q Lq Hq. apply use_loop in Hq; [|unfold len in *; lia]. apply len_sfx in Hq. right; lia. }
  destruct (is s TK_L_SQUARE) eqn:K1.
  { apply len_consume in K1; [|discriminate]. destruct (parse_expression f (consume s)) as [[i s1]|] eqn:X; cbn [bind] in H; [|discriminate].
    apply use_exp in X; [|unfold len in *; lia]. apply len_sfx in X. destruct (is s1 TK_R_SQUARE) eqn:K2.
    - apply len_consume in K2; [|discriminate]. eapply LP; [|exact H]. lia.
    - destruct (skip f _ (error s1)) as [s2|] eqn:Y; cbn [bind] in H; [|discriminate]. apply sfx_skip, len_sfx in Y. rewrite len_error in Y.
      eapply LP; [|exact H]. pose proof (len_try s2 TK_R_SQUARE). lia. }
  destruct (is s TK_L_PAREN) eqn:K2.
  { apply len_consume in K2; [|discriminate]. destruct (is (consume s) TK_R_PAREN) eqn:K3.
    - apply len_consume in K3; [|discriminate]. eapply LP; [|exact H]. lia.
    - destruct (parse_initializer_list f (consume s)) as [[i s1]|] eqn:X; cbn [bind] in H; [|discriminate].
      apply use_list in X; [|unfold len in *; lia]. apply len_sfx in X. destruct (is s1 TK_R_PAREN) eqn:K4.
      + apply len_consume in K4; [|discriminate]. eapply LP; [|exact H]. lia.
      + destruct (skip f _ (error s1)) as [s2|] eqn:Y; cbn [bind] in H; [|discriminate]. apply sfx_skip, len_sfx in Y. rewrite len_error in Y.
        eapply LP; [|exact H]. pose proof (len_try s2 TK_R_PAREN). lia. }
  destruct (is s TK_PERIOD || is s TK_ARROW) eqn:K3.
  { assert (LC: (len (consume s) < len s)%nat) by (apply orb_true_iff in K3 as [K|K]; apply len_consume in K; try discriminate; auto).
    assert (LCC: (len (consume (consume s)) < len s)%nat) by (pose proof (len_sfx _ _ (sfx_consume (consume s))); lia).
    destruct (fst (consume s)) as [|[] ?]; eapply LP; try exact H; rewrite ?len_error; lia. }
  destruct (is s TK_PLUS_PLUS) eqn:K4; [apply len_consume in K4; [eapply LP; eauto|discriminate]|].
  destruct (is s TK_MINUS_MINUS) eqn:K5; [apply len_consume in K5; [eapply LP; eauto|discriminate]|].
  injection H as <- <-. left; auto.
Qed.
Lemma rhs_shrinks f x m s e s' : 1 <= m -> (16 * len s + 1 < f)%nat -> parse_RHS_of_binary_expression f x m s = Some (e, s') -> (e = x /\ s' = s) \/ (len s' < len s)%nat.
Proof.
  intros M L H. destruct f as [|f]; [lia|]. cbn [parse_RHS_of_binary_expression] in H. destruct (get_operator_precedence (cur (fst s)) >=? m) eqn:P; [|injection H as <- <-; left; auto].
  destruct (prec_known (cur (fst s)) ltac:(lia)) as (NE & _).
  assert (LC: (len (consume s) < len s)%nat). { apply (len_consume s (cur (fst s))); auto. unfold is. lia. }
  match type of H with bind ?t _ = _ => destruct t as [[mid s1]|] eqn:X; cbn [bind] in H; [|discriminate] end.
  assert (L1: (len s1 <= len (consume s))%nat).
  { destruct (negb (get_operator_precedence (cur (fst s)) =? PREC_CONDITIONAL)); [injection X as <- <-; lia|].
    destruct (parse_initializer f (consume s)) as [[i s2]|] eqn:Y; cbn [bind] in X; [|discriminate]. apply use_ini in Y; [|unfold len in *; lia]. apply len_sfx in Y. injection X as <- <-.
    destruct (is s2 TK_COLON); [pose proof (len_sfx _ _ (sfx_consume s2)); lia|rewrite len_error; lia]. }
  match type of H with bind ?t _ = _ => destruct t as [[r s2]|] eqn:X2; cbn [bind] in H; [|discriminate] end.
  assert (L2: (len s2 <= len s1)%nat).
  { destruct (is s1 TK_L_BRACE); [apply use_ini in X2|apply use_un in X2]; try (unfold len in *; lia); apply len_sfx in X2; lia. }
  match type of H with bind ?t _ = _ => destruct t as [[r2 s3]|] eqn:X3; cbn [bind] in H; [|discriminate] end.
  assert (L3: (len s3 <= len s2)%nat).
  { match type of X3 with (if ?b then _ else _) = _ => destruct b end; [|injection X3 as <- <-; lia]. apply use_rhs in X3; [apply len_sfx in X3; lia| |unfold len in *; lia].
    destruct (_ || _); lia. }
  right. destruct (negb _).
  - destruct (token_to_binary _); cbn [bind] in H; [|discriminate]. apply use_rhs in H; [apply len_sfx in H; lia|auto|unfold len in *; lia].
  - apply use_rhs in H; [apply len_sfx in H; lia|auto|unfold len in *; lia].
Qed.
Lemma un_shrinks f s e s' : (16 * len s + 4 < f)%nat -> parse_unary_expression f s = Some (e, s') -> (e = EBroken /\ len s' = len s) \/ (len s' < len s)%nat.
Proof.
  intros L H. destruct f as [|f]; [lia|]. cbn [parse_unary_expression] in H. destruct (is_unary (cur (fst s))) eqn:U.
  { right. destruct (unary_known _ U) as (NE & _). assert (LC: (len (consume s) < len s)%nat). { apply (len_consume s (cur (fst s))); auto. unfold is. lia. }
    destruct (token_to_unary _); cbn [bind] in H; [|discriminate]. destruct (parse_unary_expression f (consume s)) as [[e1 s1]|] eqn:X; cbn [bind] in H; [|discriminate]. injection H as <- <-.
    apply use_un in X; [|unfold len in *; lia]. apply len_sfx in X. lia. }
  destruct f as [|f]; [lia|]. cbn [parse_postfix_expression] in H. destruct (parse_primary_expression f s) as [[e1 s1]|] eqn:X; cbn [bind] in H; [|discriminate].
  assert (P1: (e1 = EBroken /\ len s1 = len s) \/ (len s1 < len s)%nat).
  { destruct f as [|f]; [lia|]. clear H. cbn [parse_primary_expression] in X.
    match type of X with match _ with [] => ?Y | _ => _ end = _ => assert (A: Y = Some (e1, s1) -> (e1 = EBroken /\ len s1 = len s) \/ (len s1 < len s)%nat) end.
    { clear X. intros X. repeat match type of X with (if is s ?k then Some (_, consume s) else _) = _ => destruct (is s k) eqn:K; [injection X as <- <-; right; apply len_consume in K; [lia|discriminate]|clear K] end.
      destruct (is s TK_L_PAREN) eqn:K; [|injection X as <- <-; left; auto]. apply len_consume in K; [|discriminate].
      destruct (parse_expression f (consume s)) as [[e2 s2]|] eqn:Y; cbn [bind] in X; [|discriminate]. apply use_exp in Y; [|unfold len in *; lia]. apply len_sfx in Y. right.
      destruct (is s2 TK_R_PAREN) eqn:K2; injection X as <- <-; rewrite ?len_error; [apply len_consume in K2; [lia|discriminate]|lia]. }
    destruct (fst s) as [|[] l] eqn:Es; auto; injection X as <- <-; right; unfold len, consume; cbn [fst]; rewrite Es; cbn [tl length]; lia. }
  destruct (loop_shrinks f e1 s1 e s') as [[-> ->]|Q]; [destruct P1 as [[_ P1]|P1]; lia|exact H| |destruct P1 as [[_ P1]|P1]; right; lia].
  exact P1.
Qed.
Lemma exp_shrinks f s e s' : (16 * len s + 6 < f)%nat -> parse_expression f s = Some (e, s') -> (e = EBroken /\ len s' = len s) \/ (len s' < len s)%nat.
Proof.
  intros L H. destruct f as [|f]; [lia|]. cbn [parse_expression] in H. destruct (parse_assignment_expression f s) as [[e1 s1]|] eqn:X; cbn [bind] in H; [|discriminate].
  assert (P1: (e1 = EBroken /\ len s1 = len s) \/ (len s1 < len s)%nat).
  { destruct f as [|f]; [lia|]. cbn [parse_assignment_expression] in X. destruct (parse_unary_expression f s) as [[e2 s2]|] eqn:Y; cbn [bind] in X; [|discriminate].
    apply un_shrinks in Y; [|lia]. apply rhs_shrinks in X; [|unfold PREC_ASSIGNMENT; lia|destruct Y as [[_ Y]|Y]; lia].
    destruct X as [[-> ->]|X]; [exact Y|right; destruct Y as [[_ Y]|Y]; lia]. }
  apply rhs_shrinks in H; [|unfold PREC_COMMA; lia|destruct P1 as [[_ P1]|P1]; lia].
  destruct H as [[-> ->]|H]; [exact P1|right; destruct P1 as [[_ P1]|P1]; lia].
Qed.

Section T.
Variables E D : Type.
Variables enter leave : E -> E.
Variable type_name : E -> Z -> bool.
Variable declaration : E -> st -> option (D * (st * E)).
Variables correct constant : E -> expr -> bool.
Hypothesis decl_forward : forall env s d s' env', declaration env s = Some (d, (s', env')) -> sfx s s'.
Hypothesis decl_total : forall env s, declares E type_name env (fst s) = true ->
  exists d s' env', declaration env s = Some (d, (s', env')) /\ (length (fst s') < length (fst s))%nat.
Hypothesis broken_seen : forall env, correct env EBroken = false.
Notation P := (ps E).
Notation pstmt := (parse_statement E D enter leave type_name declaration correct constant).
Notation read_e := (read_expression E correct).
Notation read_c := (read_constant E constant).
Notation pcond := (parse_condition E correct).
Notation isdecl := (is_declaration_specifier E type_name).
Notation pdecl := (parse_declaration E D declaration).
Notation adv_read' := (adv_read E D type_name declaration correct decl_forward).
Notation fineS := (fine_statement E D enter leave type_name declaration correct constant decl_forward).
Definition plen (p : P) : nat := len (p_s p).
Lemma plen_adv p q : adv E p q -> (plen q <= plen p)%nat.
Proof. intros [H _]. apply len_sfx. exact H. Qed.

(** ** Something is consumed *)
Definition blind (parse : P -> option (stmt D * P)) : Prop := forall p x l n y, p_s p = (x :: l, n) -> parse (with_s E p (y :: l, n)) = parse p.
Lemma strict_blind parse : fine E D parse -> blind parse -> forall p x q, toks E p <> [] -> parse p = Some (x, q) -> (plen q < plen p)%nat.
Proof.
  intros F B p x q N H. destruct (p_s p) as [[|t l] n] eqn:Ep; [unfold toks in N; rewrite Ep in N; elim N; reflexivity|].
  pose proof (B p t l n (TKey TK_EOF) Ep) as B1. pose proof (B p t l n (TInt 0) Ep) as B2. rewrite H in B1, B2.
  apply F in H as [A _]. apply F in B1 as [A1 _]. apply F in B2 as [A2 _]. pose proof (plen_adv _ _ A) as L.
  destruct A1 as [[[t1 A1] _] _]. destruct A2 as [[[t2 A2] _] _]. cbn [with_s p_s fst] in A1, A2. unfold plen, len in *. rewrite Ep in *. cbn [fst length] in *.
  destruct t1 as [|z1 t1]; [|apply (f_equal (@length tok)) in A1; cbn [length app] in A1; rewrite app_length in A1; lia].
  destruct t2 as [|z2 t2]; [|apply (f_equal (@length tok)) in A2; cbn [length app] in A2; rewrite app_length in A2; lia].
  cbn [app] in *. congruence.
Qed.
Lemma skip_shrinks p q : pskip E TK_SEMICOLON p = Some q -> cur (toks E p) <> TK_SEMICOLON -> cur (toks E p) <> TK_EOF -> (plen q < plen p)%nat.
Proof.
  intros H N1 N2. unfold pskip, recover in H. destruct (skip_until _ _ _) as [l|] eqn:X; cbn [bind] in H; [|discriminate]. injection H as <-. unfold plen, len. cbn [with_s p_s fst].
  change (fst (p_s p)) with (toks E p). pose proof (skip_suffix _ _ _ _ X) as [t Ht]. apply skip_stops in X as [X|[I X]].
  - rewrite Ht, app_length. destruct t; [cbn [app] in Ht; rewrite Ht in N2; congruence|cbn [length]; lia].
  - destruct t; [|rewrite Ht, app_length; cbn [length]; lia]. cbn [app] in Ht. rewrite Ht in N1. exfalso. apply X. cbn [In] in I.
    destruct I as [I|[I|[I|[I|[I|[]]]]]]; rewrite <- I; try reflexivity. congruence.
Qed.
Lemma blind_consume p x l n y : p_s p = (x :: l, n) -> pconsume E (with_s E p (y :: l, n)) = pconsume E p.
Proof. intros H. unfold pconsume, with_s, consume. cbn [p_s p_env p_loop p_switch p_return fst snd tl]. rewrite H. reflexivity. Qed.
Lemma strict_expression p x q : parse_expression_statement E D correct p = Some (x, q) -> cur (toks E p) <> TK_SEMICOLON -> cur (toks E p) <> TK_EOF -> (plen q < plen p)%nat.
Proof.
  intros H N1 N2. unfold parse_expression_statement in H. destruct (read_e p) as [[[e ok] p1]|] eqn:R; cbn [bind] in H; [|discriminate].
  pose proof (adv_read' _ _ _ _ R) as A. pose proof (plen_adv _ _ A) as LA. unfold read_expression in R.
  destruct (parse_expression (enough (toks E p)) (p_s p)) as [[e1 s1]|] eqn:X; cbn [bind] in R; [|discriminate]. injection R as <- <- <-.
  apply exp_shrinks in X; [|unfold enough, toks, len; lia].
  assert (P1: plen (with_s E p (built (correct (p_env p) e1) (p_s p) s1)) = len s1) by (unfold plen, built; cbn [with_s p_s]; destruct (correct _ _); reflexivity).
  destruct X as [[-> X]|X].
  - rewrite broken_seen in *. cbn [negb] in H. unfold broken_after in H. destruct (pskip E TK_SEMICOLON _) as [r|] eqn:Y; cbn [bind] in H; [|discriminate]. injection H as <- <-.
    assert (TE: fst s1 = toks E p). { destruct A as [[[t A] _] _]. cbn [with_s p_s built fst] in A. unfold len in X. destruct t; [exact (eq_sym A)|].
      apply (f_equal (@length tok)) in A. cbn [length app] in A. rewrite app_length in A. lia. }
    apply skip_shrinks in Y; [lia| |]; unfold toks; cbn [with_s p_s built fst]; rewrite TE; auto.
  - destruct (correct (p_env p) e1) eqn:C; cbn [negb] in H.
    + injection H as <- <-. eapply Nat.le_lt_trans; [apply plen_adv, adv_expect|]. first [exact X|rewrite P1; exact X].
    + unfold broken_after in H. destruct (pskip E TK_SEMICOLON _) as [r|] eqn:Y; cbn [bind] in H; [|discriminate]. injection H as <- <-.
      apply (adv_skip E type_name) in Y. apply plen_adv in Y. eapply Nat.le_lt_trans; [exact Y|]. first [exact X|rewrite P1; exact X].
Qed.
Lemma strict_statement f p x q : pstmt f p = Some (x, q) -> cur (toks E p) <> TK_EOF -> (plen q < plen p)%nat.
Proof.
  intros H NE. assert (NN: toks E p <> []) by (intros W; rewrite W in NE; apply NE; reflexivity).
  destruct f as [|f]; [discriminate|]. cbn [parse_statement] in H. pose proof (fineS f) as IH.
  destruct (pis E p TK_CASE). { refine (strict_blind _ _ _ _ _ _ NN H); [unshelve eapply fine_case; eassumption|]. intros p' y l n z Ep. unfold parse_case_statement. rewrite (blind_consume _ _ _ _ _ Ep). reflexivity. }
  destruct (pis E p TK_DEFAULT). { refine (strict_blind _ _ _ _ _ _ NN H); [unshelve eapply fine_default; eassumption|]. intros p' y l n z Ep. unfold parse_default_statement. rewrite (blind_consume _ _ _ _ _ Ep). reflexivity. }
  destruct (pis E p TK_L_BRACE). { refine (strict_blind _ _ _ _ _ _ NN H); [unshelve eapply fine_block; eassumption|]. intros p' y l n z Ep.
    unfold parse_compound_statement, parse_compound_statement_body. change (p_env (with_s E p' (z :: l, n))) with (p_env p').
    replace (pconsume E (with_env E (with_s E p' (z :: l, n)) (enter (p_env p')))) with (pconsume E (with_env E p' (enter (p_env p')))); [reflexivity|].
    unfold pconsume, with_env, with_s, consume. cbn [p_s p_env p_loop p_switch p_return fst snd tl]. rewrite Ep. reflexivity. }
  destruct (pis E p TK_SEMICOLON) eqn:KS.
  { injection H as <- <-. unfold plen. cbn [pconsume with_s p_s]. apply (len_consume _ TK_SEMICOLON); [exact KS|discriminate]. }
  destruct (pis E p TK_IF). { refine (strict_blind _ _ _ _ _ _ NN H); [unshelve eapply fine_if; eassumption|]. intros p' y l n z Ep. unfold parse_if_statement. rewrite (blind_consume _ _ _ _ _ Ep). reflexivity. }
  destruct (pis E p TK_SWITCH). { refine (strict_blind _ _ _ _ _ _ NN H); [unshelve eapply fine_switch; eassumption|]. intros p' y l n z Ep. unfold parse_switch_statement. rewrite (blind_consume _ _ _ _ _ Ep). reflexivity. }
  destruct (pis E p TK_WHILE). { refine (strict_blind _ _ _ _ _ _ NN H); [unshelve eapply fine_while; eassumption|]. intros p' y l n z Ep. unfold parse_while_statement. rewrite (blind_consume _ _ _ _ _ Ep). reflexivity. }
  destruct (pis E p TK_DO). { refine (strict_blind _ _ _ _ _ _ NN H); [unshelve eapply fine_do; eassumption|]. intros p' y l n z Ep. unfold parse_do_statement. rewrite (blind_consume _ _ _ _ _ Ep). reflexivity. }
  destruct (pis E p TK_FOR). { refine (strict_blind _ _ _ _ _ _ NN H); [unshelve eapply fine_for; eassumption|]. intros p' y l n z Ep. unfold parse_for_statement. rewrite (blind_consume _ _ _ _ _ Ep). reflexivity. }
  destruct (pis E p TK_CONTINUE). { refine (strict_blind _ _ _ _ _ _ NN H); [unshelve eapply fine_continue; eassumption|]. intros p' y l n z Ep. unfold parse_continue_statement. rewrite (blind_consume _ _ _ _ _ Ep). reflexivity. }
  destruct (pis E p TK_BREAK). { refine (strict_blind _ _ _ _ _ _ NN H); [unshelve eapply fine_break; eassumption|]. intros p' y l n z Ep. unfold parse_break_statement. rewrite (blind_consume _ _ _ _ _ Ep). reflexivity. }
  destruct (pis E p TK_RETURN). { refine (strict_blind _ _ _ _ _ _ NN H); [unshelve eapply fine_return; eassumption|]. intros p' y l n z Ep. unfold parse_return_statement. rewrite (blind_consume _ _ _ _ _ Ep). reflexivity. }
  apply (strict_expression p x q H); auto. unfold pis, is, toks in *. lia.
Qed.

(** ** It ends *)
Lemma skip_total T p : exists q, pskip E T p = Some q.
Proof. unfold pskip, recover. destruct (skip_ends (2 * length (toks E p) + 1) T (toks E p) ltac:(lia)) as (r & -> & _). cbn [bind]. eauto. Qed.
Lemma broken_total T p : exists x q, broken_after E D T p = Some (x, q).
Proof. unfold broken_after. destruct (skip_total T p) as [q ->]. cbn [bind]. eauto. Qed.
Lemma condition_total p : exists e q, pcond p = Some (e, q).
Proof.
  unfold parse_condition. destruct (negb (pis E p TK_L_PAREN)). { destruct (skip_total TK_SEMICOLON (perror E p)) as [q ->]. cbn [bind]. eauto. }
  destruct (read_total E D type_name declaration correct decl_forward (pconsume E p)) as (e & ok & q & -> & _). cbn [bind]. destruct (negb ok).
  - destruct (skip_total (Z.lor TK_R_PAREN TK_SEMICOLON) q) as [r ->]. cbn [bind]. eauto.
  - destruct (ptry E q TK_R_PAREN) as [[] r]; eauto. destruct (skip_total TK_SEMICOLON (perror E r)) as [r2 ->]. cbn [bind]. eauto.
Qed.
Definition ends_below (n : nat) (parse : P -> option (stmt D * P)) : Prop := forall p, (plen p < n)%nat -> exists x q, parse p = Some (x, q).
Lemma decl_ends p : isdecl p = true -> exists d q, pdecl p = Some (d, q) /\ (plen q < plen p)%nat.
Proof.
  intros H. unfold parse_declaration. destruct (decl_total (p_env p) (p_s p)) as (d & s' & e' & -> & L). { unfold is_declaration_specifier, toks in H. unfold declares. destruct (fst (p_s p)) as [|[] ?]; exact H. }
  cbn [bind]. do 2 eexists. split; [reflexivity|exact L].
Qed.
Section One.
Variable f : nat.
Hypothesis IH : ends_below f (pstmt f).
Lemma items_ends : forall g p, (plen p < f)%nat -> (plen p < g)%nat -> exists xs q, parse_items E D type_name declaration (pstmt f) g p = Some (xs, q).
Proof.
  induction g as [|g IHg]; intros p L G; [lia|]. cbn [parse_items]. destruct (pis E p TK_R_BRACE || pis E p TK_EOF) eqn:K; [eauto|]. destruct (isdecl p) eqn:DD.
  - destruct (decl_ends p DD) as (d & q & -> & Lq). cbn [bind]. destruct (IHg q ltac:(lia) ltac:(lia)) as (xs & r & ->). cbn [bind]. eauto.
  - destruct (IH p L) as (x & q & X). rewrite X. cbn [bind]. apply strict_statement in X; [|unfold pis, is, toks in *; lia].
    destruct (IHg q ltac:(lia) ltac:(lia)) as (xs & r & ->). cbn [bind]. eauto.
Qed.
Lemma next p q : adv E p q -> (plen p < f)%nat -> exists x r, pstmt f q = Some (x, r).
Proof. intros A L. apply plen_adv in A. apply IH. lia. Qed.
Lemma for_ends p : (plen p < S f)%nat -> pis E p TK_FOR = true -> exists x q, parse_for_statement E D enter leave type_name declaration correct (pstmt f) p = Some (x, q).
Proof.
  intros L K. unfold parse_for_statement. set (p0 := with_env E (pconsume E p) (enter (p_env (pconsume E p)))).
  assert (L0: (plen p0 < f)%nat) by (apply len_consume in K; [unfold plen in *; cbn [p0 with_env pconsume with_s p_s]; lia|discriminate]).
  destruct (negb (pis E p0 TK_L_PAREN)); [apply broken_total|]. pose proof (plen_adv _ _ (adv_consume E p0)) as LC.
  assert (ST: forall A q, exists v, @stop_for E D A q = Some v) by (intros A q; unfold stop_for; destruct (broken_total TK_SEMICOLON q) as (x & r & ->); cbn [bind]; eauto).
  assert (I: exists v, parse_for_init E D type_name declaration correct (pconsume E p0) = Some v).
  { unfold parse_for_init. destruct (ptry E (pconsume E p0) TK_SEMICOLON) as [[] q]; [eauto|]. destruct (isdecl q) eqn:DD.
    - destruct (decl_ends q DD) as (d & r & -> & _). cbn [bind]. eauto.
    - destruct (read_total E D type_name declaration correct decl_forward q) as (e & ok & r & -> & _). cbn [bind]. destruct (negb ok); [apply ST|]. destruct (ptry E r TK_SEMICOLON) as [[] r2]; [eauto|apply ST]. }
  pose proof (head_init E D type_name declaration correct decl_forward (pconsume E p0)) as HI. destruct I as [[[i p1]|[b p1]] EI]; rewrite EI in *; cbn [bind]; [|eauto].
  specialize (HI _ eq_refl). cbn in HI. apply plen_adv in HI.
  assert (I: exists v, parse_for_condition E D correct p1 = Some v).
  { unfold parse_for_condition. destruct (ptry E p1 TK_SEMICOLON) as [[] q]; [eauto|].
    destruct (read_total E D type_name declaration correct decl_forward q) as (e & ok & r & -> & _). cbn [bind]. destruct (negb ok); [apply ST|]. destruct (ptry E r TK_SEMICOLON) as [[] r2]; [eauto|apply ST]. }
  pose proof (head_condition E D type_name declaration correct decl_forward p1) as HC. destruct I as [[[c p2]|[b p2]] EC]; rewrite EC in *; cbn [bind]; [|eauto].
  specialize (HC _ eq_refl). cbn in HC. apply plen_adv in HC.
  assert (I: exists v, parse_for_increment E D correct p2 = Some v).
  { unfold parse_for_increment.
    match goal with |- exists v, bind ?a _ = _ => assert (I1: exists v, a = Some v) end.
    { destruct (negb (pis E p2 TK_R_PAREN)); [|eauto]. destruct (read_total E D type_name declaration correct decl_forward p2) as (e & ok & r & -> & _). cbn [bind]. destruct (negb ok); [apply ST|eauto]. }
    destruct I1 as [[[n p3]|[b p3]] ->]; cbn [bind]; [|eauto]. destruct (ptry E p3 TK_R_PAREN) as [[] r2]; [eauto|apply ST]. }
  pose proof (head_increment E D type_name declaration correct decl_forward p2) as HN. destruct I as [[[n p3]|[b p3]] EN]; rewrite EN in *; cbn [bind]; [|eauto].
  specialize (HN _ eq_refl). cbn in HN. apply plen_adv in HN.
  destruct (IH (with_loop E p3 true)) as (x & q & ->); [change (plen (with_loop E p3 true)) with (plen p3); lia|]. cbn [bind]. eauto.
Qed.
End One.
Notation adv_condition' := (adv_condition E D type_name declaration correct decl_forward).
Lemma statement_ends f : ends_below f (pstmt f).
Proof.
  induction f as [|f IH]; intros p L; [lia|]. cbn [parse_statement].
  assert (LC: forall k, k <> TK_EOF -> pis E p k = true -> (plen (pconsume E p) < f)%nat) by (intros k N K; apply len_consume in K; [unfold plen in *; cbn [pconsume with_s p_s]; lia|exact N]).
  destruct (pis E p TK_CASE) eqn:K1.
  { apply LC in K1; [|discriminate]. unfold parse_case_statement. destruct (negb _); [apply broken_total|].
    destruct (constant_total E D type_name declaration correct constant decl_forward (pconsume E p)) as (e & ok & q & -> & A). cbn [bind]. destruct (negb ok); [apply broken_total|].
    destruct (next f IH (pconsume E p) (pexpect E q TK_COLON)) as (x & r & ->); [eapply adv_trans; [exact A|apply adv_expect]|exact K1|]. cbn [bind]. eauto. }
  destruct (pis E p TK_DEFAULT) eqn:K2.
  { apply LC in K2; [|discriminate]. unfold parse_default_statement. destruct (negb _); [apply broken_total|].
    destruct (next f IH (pconsume E p) (pexpect E (pconsume E p) TK_COLON)) as (x & r & ->); [apply adv_expect|exact K2|]. cbn [bind]. eauto. }
  destruct (pis E p TK_L_BRACE) eqn:K3.
  { apply LC in K3; [|discriminate]. unfold parse_compound_statement, parse_compound_statement_body. set (p0 := pconsume E (with_env E p (enter (p_env p)))).
    destruct (items_ends f IH (S (length (toks E p0))) p0) as (xs & q & ->); [exact K3|unfold plen, len, toks; lia|]. cbn [bind].
    destruct (negb (pis E q TK_R_BRACE)); cbn [bind]; eauto. }
  destruct (pis E p TK_SEMICOLON); [eauto|].
  destruct (pis E p TK_IF) eqn:K4.
  { apply LC in K4; [|discriminate]. unfold parse_if_statement. destruct (condition_total (pconsume E p)) as (c & q & X). rewrite X. cbn [bind]. apply adv_condition' in X.
    destruct (next f IH _ _ X K4) as (a & r & Y). rewrite Y. cbn [bind]. apply fineS in Y as [Y _]. destruct (ptry E r TK_ELSE) as [[] r2] eqn:Z; [|eauto]. apply adv_try in Z.
    destruct (next f IH (pconsume E p) r2) as (b & r3 & ->); [eapply adv_trans; [exact X|]; eapply adv_trans; [exact Y|exact Z]|exact K4|]. cbn [bind]. eauto. }
  destruct (pis E p TK_SWITCH) eqn:K5.
  { apply LC in K5; [|discriminate]. unfold parse_switch_statement. destruct (condition_total (pconsume E p)) as (c & q & X). rewrite X. cbn [bind]. apply adv_condition', plen_adv in X.
    destruct (IH (with_switch E q true)) as (a & r & ->); [change (plen (with_switch E q true)) with (plen q); lia|]. cbn [bind]. eauto. }
  destruct (pis E p TK_WHILE) eqn:K6.
  { apply LC in K6; [|discriminate]. unfold parse_while_statement. destruct (condition_total (pconsume E p)) as (c & q & X). rewrite X. cbn [bind]. apply adv_condition', plen_adv in X.
    destruct (IH (with_loop E q true)) as (a & r & ->); [change (plen (with_loop E q true)) with (plen q); lia|]. cbn [bind]. eauto. }
  destruct (pis E p TK_DO) eqn:K7.
  { apply LC in K7; [|discriminate]. unfold parse_do_statement. destruct (IH (with_loop E (pconsume E p) true)) as (a & r & Y); [exact K7|]. rewrite Y. cbn [bind].
    destruct (ptry E _ TK_WHILE) as [[] r2]; cbn [negb]; [|apply broken_total]. destruct (condition_total r2) as (c & q & ->). cbn [bind]. eauto. }
  destruct (pis E p TK_FOR) eqn:K8; [apply (for_ends f IH p L K8)|].
  destruct (pis E p TK_CONTINUE). { unfold parse_continue_statement. destruct (negb _); [apply broken_total|eauto]. }
  destruct (pis E p TK_BREAK). { unfold parse_break_statement. destruct (negb _); [apply broken_total|eauto]. }
  destruct (pis E p TK_RETURN).
  { unfold parse_return_statement. destruct (ptry E _ TK_SEMICOLON) as [[] q]; [eauto|]. destruct (read_total E D type_name declaration correct decl_forward q) as (e & ok & r & -> & _). cbn [bind].
    destruct ok; [eauto|apply broken_total]. }
  unfold parse_expression_statement. destruct (read_total E D type_name declaration correct decl_forward p) as (e & ok & r & -> & _). cbn [bind]. destruct (negb ok); [apply broken_total|eauto].
Qed.
End T.

(** Texts of statements are parsed to their trees; parsing ends. *)
From Verif Require Import Prelude LexModel ParseModel ParseSpec ParseFuel ParseProofs ParseBack ParseSkip StmtModel StmtSpec StmtProofs.

Lemma const_gram e t rest n : gram 3 e t -> follow 3 rest -> parse_constant_expression (enough (t ++ rest)) (t ++ rest, n) = Some (e, (rest, n)).
Proof.
  intros G F. apply gram_agram in G. apply grammar in G as (_ & _ & _ & _ & _ & C & _).
  destruct (C ltac:(lia) rest n 3 (e, (rest, n))) as (e1 & s1 & [f U] & [g R]); [lia|auto|apply rhs_end; apply F; auto|].
  destruct (total (enough (t ++ rest))) as (_ & _ & _ & _ & Tu & Tr & _). destruct (Tu (t ++ rest, n)) as ([e2 s2] & X & Y); [unfold enough; cbn [fst]; lia|].
  unfold parse_constant_expression. rewrite X. cbn [bind snd] in *.
  apply (m_un f (Nat.max f (enough (t ++ rest)))) in U; [|lia]. pose proof X as X'. apply (m_un _ (Nat.max f (enough (t ++ rest)))) in X'; [|lia].
  rewrite U in X'. injection X' as -> ->.
  destruct (Tr (e2, PREC_CONDITIONAL, s2)) as ([e3 s3] & X2 & _). { cbn [snd]. apply sfx_len in Y. unfold enough in *. cbn [fst snd] in *. lia. }
  cbn [rhs1] in X2. change (Z.max 1 PREC_CONDITIONAL) with PREC_CONDITIONAL in X2. rewrite X2.
  apply (m_rhs g (Nat.max g (enough (t ++ rest)))) in R; [|lia]. apply (m_rhs _ (Nat.max g (enough (t ++ rest)))) in X2; [|lia]. rewrite <- X2. exact R.
Qed.

Section T.
Variables E D : Type.
Variables enter leave : E -> E.
Variable type_name : E -> Z -> bool.
Variable declaration : E -> st -> option (D * (st * E)).
Variables correct constant : E -> expr -> bool.
Hypothesis decl_forward : forall env s d s' env', declaration env s = Some (d, (s', env')) -> sfx s s'.
Notation P := (ps E).
Notation pstmt := (parse_statement E D enter leave type_name declaration correct constant).
Notation read_e := (read_expression E correct).
Notation read_c := (read_constant E constant).
Notation pcond := (parse_condition E correct).
Notation isdecl := (is_declaration_specifier E type_name).
Notation pdecl := (parse_declaration E D declaration).
Notation stext := (stext E D enter leave type_name declaration correct constant).
Notation sitems := (sitems E D enter leave type_name declaration correct constant).
Notation itext := (itext E D type_name declaration correct).
Notation opt_text := (opt_text E correct).
Definition mk (l : list tok) n env loop switch ret : P := mkPs (l, n) env loop switch ret.

Lemma read_gram e t rest n env lp sw rt : gram 1 e t -> correct env e = true -> ends_expression rest ->
  read_e (mk (t ++ rest) n env lp sw rt) = Some (e, true, mk rest n env lp sw rt).
Proof.
  intros G C R. pose proof (agram_parse e t rest n (proj1 gram_agram _ _ _ G) R) as H. unfold parse in H. unfold read_expression, mk, toks. cbn [p_s p_env fst].
  rewrite H. cbn [bind]. rewrite C. reflexivity.
Qed.
Lemma cond_gram e t rest n env lp sw rt : gram 1 e t -> correct env e = true ->
  pcond (mk (in_parens t ++ rest) n env lp sw rt) = Some (e, mk rest n env lp sw rt).
Proof.
  intros G C. unfold parse_condition, in_parens, mk, pis. cbn [app p_s]. rewrite is_key, Z.eqb_refl. cbn [negb]. unfold pconsume, consume, with_s. cbn [p_s fst snd tl p_env p_loop p_switch p_return].
  rewrite <- app_assoc. cbn [app]. pose proof (read_gram e t (TKey TK_R_PAREN :: rest) n env lp sw rt G C ltac:(right; left; reflexivity)) as H. unfold mk in H. rewrite H. cbn [bind negb].
  unfold ptry, pis. cbn [p_s]. rewrite is_key, Z.eqb_refl. reflexivity.
Qed.
Lemma const_read e t rest n env lp sw rt : gram 3 e t -> constant env e = true -> follow 3 rest ->
  read_c (mk (t ++ rest) n env lp sw rt) = Some (e, true, mk rest n env lp sw rt).
Proof.
  intros G C F. unfold read_constant, mk, toks. cbn [p_s p_env fst]. rewrite (const_gram _ _ _ _ G F). cbn [bind]. rewrite C. reflexivity.
Qed.

Definition stmt_key (k : Z) : bool :=
  existsb (Z.eqb k) [TK_CASE; TK_DEFAULT; TK_L_BRACE; TK_SEMICOLON; TK_IF; TK_SWITCH; TK_WHILE; TK_DO; TK_FOR; TK_CONTINUE; TK_BREAK; TK_RETURN].
Lemma expr_first e t p : gram p e t -> t <> [] /\ (forall rest, stmt_key (cur (t ++ rest)) = false)
  /\ forall rest, cur (t ++ rest) <> TK_ELSE /\ cur (t ++ rest) <> TK_R_BRACE /\ cur (t ++ rest) <> TK_EOF /\ cur (t ++ rest) <> TK_R_PAREN /\ cur (t ++ rest) <> TK_SEMICOLON.
Proof.
  intros G. apply gram_agram in G. apply grammar in G as (_ & S & _). destruct t as [|x t]; [destruct S|]. split; [discriminate|].
  assert (K: match x with TKey k => existsb (Z.eqb k) [TK_NULL; TK_TRUE; TK_FALSE; TK_L_PAREN; TK_PLUS_PLUS; TK_MINUS_MINUS; TK_AMP; TK_STAR; TK_MINUS; TK_TILDE; TK_EXCLAIM; TK_ABS; TK_UPB] = true | _ => True end).
  { destruct x; auto. cbn [starts] in S. destruct S as [->|[->|[->|[->|[[_ S]|(_ & S & _)]]]]]; try reflexivity; try discriminate.
    unfold is_unary in S. cbn [existsb]. rewrite !orb_true_iff in *. intuition auto 20. }
  cbn [app cur]. assert (X: stmt_key (kind x) = false /\ kind x <> TK_ELSE /\ kind x <> TK_R_BRACE /\ kind x <> TK_EOF /\ kind x <> TK_R_PAREN /\ kind x <> TK_SEMICOLON); [|destruct X; auto].
  destruct x; try (vm_compute; intuition discriminate). cbn [kind]. cbn [existsb] in K. rewrite !orb_true_iff in K.
  repeat match type of K with _ \/ _ => destruct K as [K|K] end; try (apply Z.eqb_eq in K; subst k; vm_compute; intuition discriminate). discriminate.
Qed.
Lemma default_statement f p : stmt_key (cur (toks E p)) = false -> pstmt (S f) p = parse_expression_statement E D correct p.
Proof.
  unfold stmt_key. cbn [existsb]. rewrite !orb_false_iff. intros (A1 & A2 & A3 & A4 & A5 & A6 & A7 & A8 & A9 & A10 & A11 & A12 & _).
  cbn [parse_statement]. unfold pis, is. unfold toks in *. rewrite A1, A2, A3, A4, A5, A6, A7, A8, A9, A10, A11, A12. reflexivity.
Qed.
Lemma stext_first :
  (forall env x t env', stext env x t env' -> forall rest, cur (t ++ rest) <> TK_ELSE /\ cur (t ++ rest) <> TK_R_BRACE /\ cur (t ++ rest) <> TK_EOF /\ t <> [])
  /\ (forall env xs t env', sitems env xs t env' -> forall rest, cur rest <> TK_ELSE -> cur (t ++ rest) <> TK_ELSE).
Proof.
  apply stext_mutual; intros; cbn [app cur kind]; try (repeat split; discriminate); auto.
  - destruct (expr_first _ _ _ H) as (N & _ & X). rewrite <- app_assoc. destruct (X ([TKey TK_SEMICOLON] ++ rest)) as (A & B & C & _). repeat split; auto. destruct t; [congruence|discriminate].
  - rewrite <- app_assoc. apply (H0 (u ++ rest)).
  - destruct H as [X _]. rewrite <- app_assoc. destruct t as [|y t]; [cbn in X; discriminate|]. destruct y; try discriminate. cbn [app cur kind]. intros ->. vm_compute in X. discriminate.
Qed.

Definition claim env (x : stmt D) t env' : Prop := forall rest n lp sw rt f, (length (t ++ rest) < f)%nat -> (dangling x = true -> cur rest <> TK_ELSE) ->
  (jumps_ok lp sw x = true -> pstmt f (mk (t ++ rest) n env lp sw rt) = Some (x, mk rest n env' lp sw (rt || has_return x)))
  /\ (jumps_ok lp sw x = false -> forall y q, pstmt f (mk (t ++ rest) n env lp sw rt) = Some (y, q) -> n < snd (p_s q)).
Definition claims env (xs : list (stmt D)) t env' : Prop := forall rest n lp sw rt f g, (length (t ++ rest) < f)%nat -> (length (t ++ rest) < g)%nat -> cur rest = TK_R_BRACE ->
  (jumps_ok lp sw (SBlock xs) = true -> parse_items E D type_name declaration (pstmt f) g (mk (t ++ rest) n env lp sw rt) = Some (xs, mk rest n env' lp sw (rt || has_return (SBlock xs))))
  /\ (jumps_ok lp sw (SBlock xs) = false -> forall y q, parse_items E D type_name declaration (pstmt f) g (mk (t ++ rest) n env lp sw rt) = Some (y, q) -> n < snd (p_s q)).

Notation fineS := (fine_statement E D enter leave type_name declaration correct constant decl_forward).
Ltac keys f Hf := destruct f as [|f]; [exfalso; cbn in Hf; lia|]; cbn [parse_statement]; unfold pis, mk; cbn [p_s app]; rewrite ?is_key; cbn [Z.eqb Pos.eqb TK_CASE TK_DEFAULT TK_L_BRACE TK_SEMICOLON TK_IF TK_SWITCH TK_WHILE TK_DO TK_FOR TK_CONTINUE TK_BREAK TK_RETURN].

Lemma expect_key k l n env lp sw rt : pexpect E (mk (TKey k :: l) n env lp sw rt) k = mk l n env lp sw rt.
Proof. unfold pexpect, mk, expect_and_consume. cbn [p_s]. rewrite is_key, Z.eqb_refl. reflexivity. Qed.
Lemma consume_key x l n env lp sw rt : pconsume E (mk (x :: l) n env lp sw rt) = mk l n env lp sw rt.
Proof. reflexivity. Qed.
Lemma try_key k l n env lp sw rt : ptry E (mk (TKey k :: l) n env lp sw rt) k = (true, mk l n env lp sw rt).
Proof. unfold ptry, pis, mk. cbn [p_s]. rewrite is_key, Z.eqb_refl. reflexivity. Qed.
Lemma try_no k l n env lp sw rt : cur l <> k -> ptry E (mk l n env lp sw rt) k = (false, mk l n env lp sw rt).
Proof. intros N. unfold ptry, pis, is, mk. cbn [p_s fst]. replace (cur l =? k) with false by lia. reflexivity. Qed.
Lemma try_adv_snd p k b q : ptry E p k = (b, q) -> snd (p_s q) = snd (p_s p).
Proof. unfold ptry. destruct (pis E p k); intros [= _ <-]; reflexivity. Qed.
Lemma adv_snd p q : adv E p q -> snd (p_s p) <= snd (p_s q).
Proof. intros [[_ H] _]. exact H. Qed.
Lemma broken_more T p n y q : broken_after E D T p = Some (y, q) -> n < snd (p_s p) -> n < snd (p_s q).
Proof. unfold broken_after. destruct (pskip E T p) as [r|] eqn:X; cbn [bind]; [|discriminate]. intros [= <- <-] L. apply (adv_skip E type_name) in X. apply adv_snd in X. lia. Qed.

Ltac dH H b p X := match type of H with bind ?t _ = _ => destruct t as [[b p]|] eqn:X; cbn [bind] in H; [|discriminate H] end.
Lemma texts : (forall env x t env', stext env x t env' -> claim env x t env') /\ (forall env xs t env', sitems env xs t env' -> claims env xs t env').
Proof.
  apply stext_mutual.
  - (* case *) intros env e t b u env' G C _ IH rest n lp sw rt f L Dg. destruct f as [|f]; [lia|]. cbn [app length] in *. rewrite <- app_assoc in *. cbn [app] in *.
    change (pstmt (S f) (mk (TKey TK_CASE :: t ++ TKey TK_COLON :: u ++ rest) n env lp sw rt)) with (parse_case_statement E D constant (pstmt f) (mk (TKey TK_CASE :: t ++ TKey TK_COLON :: u ++ rest) n env lp sw rt)).
    unfold parse_case_statement. rewrite consume_key. cbn [p_switch mk]. destruct sw; cbn [negb jumps_ok andb].
    + rewrite (const_read e t (TKey TK_COLON :: u ++ rest)); auto; [|apply follow_end; auto; lia]. cbn [bind negb]. rewrite expect_key.
      destruct (IH rest n lp true rt f) as (I1 & I2); [rewrite app_length in L; cbn [length] in L; lia|exact Dg|]. split.
      * intros J. rewrite (I1 J). reflexivity.
      * intros J y q H. dH H b' p X. injection H as <- <-. apply (I2 J _ _ eq_refl).
    + split; [discriminate|]. intros _ y q H. eapply broken_more; [exact H|]. cbn. lia.
  - (* default *) intros env b u env' _ IH rest n lp sw rt f L Dg. destruct f as [|f]; [lia|]. cbn [app length] in *.
    change (pstmt (S f) (mk (TKey TK_DEFAULT :: TKey TK_COLON :: u ++ rest) n env lp sw rt)) with (parse_default_statement E D (pstmt f) (mk (TKey TK_DEFAULT :: TKey TK_COLON :: u ++ rest) n env lp sw rt)).
    unfold parse_default_statement. rewrite consume_key. cbn [p_switch mk]. destruct sw; cbn [negb jumps_ok andb].
    + rewrite expect_key. destruct (IH rest n lp true rt f) as (I1 & I2); [lia|exact Dg|]. split.
      * intros J. rewrite (I1 J). reflexivity.
      * intros J y q H. dH H b' p X. injection H as <- <-. apply (I2 J _ _ eq_refl).
    + split; [discriminate|]. intros _ y q H. eapply broken_more; [exact H|]. cbn. lia.
  - (* block *) intros env xs t env' _ IH rest n lp sw rt f L Dg. destruct f as [|f]; [lia|]. cbn [app length] in *. rewrite <- app_assoc in *. cbn [app] in *.
    change (pstmt (S f) (mk (TKey TK_L_BRACE :: t ++ TKey TK_R_BRACE :: rest) n env lp sw rt)) with (parse_compound_statement E D enter leave type_name declaration (pstmt f) (mk (TKey TK_L_BRACE :: t ++ TKey TK_R_BRACE :: rest) n env lp sw rt)).
    unfold parse_compound_statement, parse_compound_statement_body.
    change (pconsume E (with_env E (mk (TKey TK_L_BRACE :: t ++ TKey TK_R_BRACE :: rest) n env lp sw rt) (enter (p_env (mk (TKey TK_L_BRACE :: t ++ TKey TK_R_BRACE :: rest) n env lp sw rt)))))
      with (mk (t ++ TKey TK_R_BRACE :: rest) n (enter env) lp sw rt).
    destruct (IH (TKey TK_R_BRACE :: rest) n lp sw rt f (S (length (toks E (mk (t ++ TKey TK_R_BRACE :: rest) n (enter env) lp sw rt))))) as (I1 & I2); [lia|unfold toks, mk; cbn [p_s fst]; lia|reflexivity|]. split.
    + intros J. rewrite (I1 J). cbn [bind]. unfold pis at 1. cbn [mk p_s]. rewrite is_key, Z.eqb_refl. reflexivity.
    + intros J y q H. dH H b' p X. injection H as <- <-. dH X ys p2 Y. pose proof (I2 J _ _ eq_refl) as I3.
      destruct (pis E p2 TK_R_BRACE); cbn [negb] in X; injection X as <- <-; cbn; lia.
  - (* null *) intros env rest n lp sw rt f L Dg. destruct f as [|f]; [lia|]. split; [|discriminate]. intros _. cbn [has_return]. rewrite orb_false_r. reflexivity.
  - (* if *) intros env c t a u env' G C _ IH rest n lp sw rt f L Dg. destruct f as [|f]; [lia|]. cbn [app length] in *. rewrite <- app_assoc in *.
    change (pstmt (S f) (mk (TKey TK_IF :: in_parens t ++ u ++ rest) n env lp sw rt)) with (parse_if_statement E D correct (pstmt f) (mk (TKey TK_IF :: in_parens t ++ u ++ rest) n env lp sw rt)).
    unfold parse_if_statement. rewrite consume_key, (cond_gram c) by auto. cbn [bind].
    destruct (IH rest n lp sw rt f) as (I1 & I2); [rewrite app_length in L; lia|intros _; apply Dg; reflexivity|]. cbn [jumps_ok has_return]. split.
    + intros J. rewrite (I1 J). cbn [bind]. rewrite try_no by (apply Dg; reflexivity). reflexivity.
    + intros J y q H. dH H b' p X. pose proof (I2 J _ _ eq_refl) as I3.
      destruct (ptry E p TK_ELSE) as [[] p1] eqn:Y; apply try_adv_snd in Y; [|injection H as <- <-; lia].
      destruct (pstmt f p1) as [[b2 p2]|] eqn:X2; cbn [bind] in H; [|discriminate]. injection H as <- <-. apply fineS in X2 as [X2 _]. apply adv_snd in X2. lia.
  - (* if else *) intros env c t a u env1 b v env' G C _ IHa Da Hb IHb rest n lp sw rt f L Dg. destruct f as [|f]; [lia|]. cbn [app length] in *. rewrite <- !app_assoc in *. cbn [app] in *.
    change (pstmt (S f) (mk (TKey TK_IF :: in_parens t ++ u ++ TKey TK_ELSE :: v ++ rest) n env lp sw rt)) with (parse_if_statement E D correct (pstmt f) (mk (TKey TK_IF :: in_parens t ++ u ++ TKey TK_ELSE :: v ++ rest) n env lp sw rt)).
    unfold parse_if_statement. rewrite consume_key, (cond_gram c) by auto. cbn [bind].
    destruct (IHa (TKey TK_ELSE :: v ++ rest) n lp sw rt f) as (I1 & I2); [rewrite app_length in L; lia|congruence|]. cbn [jumps_ok has_return].
    assert (LB: (length (v ++ rest) < f)%nat) by (rewrite !app_length in L; cbn [length] in L; rewrite app_length in *; lia).
    destruct (IHb rest n lp sw (rt || has_return a) f LB Dg) as (I3 & I4). split.
    + intros J. apply andb_true_iff in J as [Ja Jb]. rewrite (I1 Ja). cbn [bind]. rewrite try_key. rewrite (I3 Jb). cbn [bind]. rewrite orb_assoc. reflexivity.
    + intros J y q H. destruct (jumps_ok lp sw a) eqn:Ja.
      * rewrite (I1 eq_refl) in H. cbn [bind] in H. rewrite try_key in H. dH H b2 p2 X2. injection H as <- <-. apply (I4 J _ _ eq_refl).
      * dH H b' p X. pose proof (I2 eq_refl _ _ eq_refl) as I5.
        destruct (ptry E p TK_ELSE) as [[] p1] eqn:Y; apply try_adv_snd in Y; [|injection H as <- <-; lia].
        destruct (pstmt f p1) as [[b2 p2]|] eqn:X2; cbn [bind] in H; [|discriminate]. injection H as <- <-. apply fineS in X2 as [X2 _]. apply adv_snd in X2. lia.
  - (* switch *) intros env c t b u env' G C _ IH rest n lp sw rt f L Dg. destruct f as [|f]; [lia|]. cbn [app length] in *. rewrite <- app_assoc in *.
    change (pstmt (S f) (mk (TKey TK_SWITCH :: in_parens t ++ u ++ rest) n env lp sw rt)) with (parse_switch_statement E D correct (pstmt f) (mk (TKey TK_SWITCH :: in_parens t ++ u ++ rest) n env lp sw rt)).
    unfold parse_switch_statement. rewrite consume_key, (cond_gram c) by auto. cbn [bind]. change (with_switch E (mk (u ++ rest) n env lp sw rt) true) with (mk (u ++ rest) n env lp true rt).
    destruct (IH rest n lp true rt f) as (I1 & I2); [rewrite app_length in L; lia|exact Dg|]. cbn [jumps_ok has_return]. split.
    + intros J. rewrite (I1 J). reflexivity.
    + intros J y q H. dH H b' p X. injection H as <- <-. apply (I2 J _ _ eq_refl).
  - (* while *) intros env c t b u env' G C _ IH rest n lp sw rt f L Dg. destruct f as [|f]; [lia|]. cbn [app length] in *. rewrite <- app_assoc in *.
    change (pstmt (S f) (mk (TKey TK_WHILE :: in_parens t ++ u ++ rest) n env lp sw rt)) with (parse_while_statement E D correct (pstmt f) (mk (TKey TK_WHILE :: in_parens t ++ u ++ rest) n env lp sw rt)).
    unfold parse_while_statement. rewrite consume_key, (cond_gram c) by auto. cbn [bind]. change (with_loop E (mk (u ++ rest) n env lp sw rt) true) with (mk (u ++ rest) n env true sw rt).
    destruct (IH rest n true sw rt f) as (I1 & I2); [rewrite app_length in L; lia|exact Dg|]. cbn [jumps_ok has_return]. split.
    + intros J. rewrite (I1 J). reflexivity.
    + intros J y q H. dH H b' p X. injection H as <- <-. apply (I2 J _ _ eq_refl).
  - (* do *) intros env c t b u env' _ IH G C rest n lp sw rt f L Dg. destruct f as [|f]; [lia|]. cbn [app length] in *. rewrite <- !app_assoc in *. cbn [app] in *. rewrite <- app_assoc in *. cbn [app] in *.
    change (pstmt (S f) (mk (TKey TK_DO :: u ++ TKey TK_WHILE :: in_parens t ++ TKey TK_SEMICOLON :: rest) n env lp sw rt))
      with (parse_do_statement E D correct (pstmt f) (mk (TKey TK_DO :: u ++ TKey TK_WHILE :: in_parens t ++ TKey TK_SEMICOLON :: rest) n env lp sw rt)).
    unfold parse_do_statement. rewrite consume_key. change (with_loop E (mk (u ++ ?X) n env lp sw rt) true) with (mk (u ++ X) n env true sw rt).
    destruct (IH (TKey TK_WHILE :: in_parens t ++ TKey TK_SEMICOLON :: rest) n true sw rt f) as (I1 & I2); [lia|intros _; discriminate|]. cbn [jumps_ok has_return]. split.
    + intros J. rewrite (I1 J). cbn [bind].
      match goal with |- context [with_loop E (mk ?l n env' true sw ?r) ?b] => change (with_loop E (mk l n env' true sw r) b) with (mk l n env' lp sw r) end.
      rewrite try_key. cbn [negb]. rewrite (cond_gram c) by auto. cbn [bind]. rewrite expect_key. reflexivity.
    + intros J y q H. dH H b' p X. pose proof (I2 J _ _ eq_refl) as I3.
      destruct (ptry E _ TK_WHILE) as [[] p1] eqn:Y; apply try_adv_snd in Y; cbn [negb with_loop p_s] in *.
      * destruct (pcond p1) as [[c' p2]|] eqn:Z; cbn [bind] in H; [|discriminate]. injection H as <- <-. apply (adv_condition E D type_name declaration correct decl_forward) in Z. apply adv_snd in Z.
        pose proof (adv_snd _ _ (adv_expect E p2 TK_SEMICOLON)). lia.
      * eapply broken_more; [exact H|]. cbn. lia.
  - (* for *) intros env i t env1 c u k v b w env' HI HC HK _ IH rest n lp sw rt f L Dg. destruct f as [|f]; [lia|]. cbn [app length] in *.
    rewrite <- !app_assoc in *. cbn [app] in *. rewrite <- !app_assoc in *. cbn [app] in *.
    match goal with |- context [pstmt (S f) ?p] => change (pstmt (S f) p) with (parse_for_statement E D enter leave type_name declaration correct (pstmt f) p) end.
    unfold parse_for_statement.
    match goal with |- context [with_env E ?p ?e] => change (with_env E p e) with (mk (TKey TK_L_PAREN :: t ++ u ++ TKey TK_SEMICOLON :: v ++ TKey TK_R_PAREN :: w ++ rest) n (enter env) lp sw rt) end.
    replace (pis E (mk (TKey TK_L_PAREN :: t ++ u ++ TKey TK_SEMICOLON :: v ++ TKey TK_R_PAREN :: w ++ rest) n (enter env) lp sw rt) TK_L_PAREN) with true
      by (unfold pis; cbn [mk p_s]; rewrite is_key, Z.eqb_refl; reflexivity). cbn [negb].
    rewrite consume_key. set (r3 := v ++ TKey TK_R_PAREN :: w ++ rest) in *. set (r2 := u ++ TKey TK_SEMICOLON :: r3) in *.
    assert (EI: parse_for_init E D type_name declaration correct (mk (t ++ r2) n (enter env) lp sw rt) = Some (inl (i, mk r2 n env1 lp sw rt))).
    { unfold parse_for_init. inversion HI as [env0 X1 X2 X3 X4|env0 e0 t0 G C ND X1 X2 X3 X4|env0 d0 t0 env2 [DE DT] X1 X2 X3 X4]; subst.
      - cbn [app]. rewrite try_key. reflexivity.
      - destruct (expr_first _ _ _ G) as (N & _ & F). rewrite <- app_assoc. cbn [app]. rewrite try_no by apply F.
        assert (DD: isdecl (mk (t0 ++ TKey TK_SEMICOLON :: r2) n (enter env) lp sw rt) = false).
        { destruct t0 as [|y t0]; [congruence|]. destruct y; exact ND. }
        rewrite DD, (read_gram e0) by (auto; right; right; right; right; right; reflexivity). cbn [bind negb]. rewrite try_key. reflexivity.
      - assert (NS: cur (t ++ r2) <> TK_SEMICOLON) by (destruct t as [|y t]; [discriminate|destruct y; try discriminate; cbn; intros ->; discriminate]).
        rewrite try_no by auto. assert (DD: isdecl (mk (t ++ r2) n (enter env) lp sw rt) = true) by (destruct t as [|y t]; [discriminate|destruct y; exact DE]).
        rewrite DD. unfold parse_declaration. cbn [mk p_env p_s]. rewrite DT. reflexivity. }
    rewrite EI. cbn [bind].
    assert (EC: parse_for_condition E D correct (mk r2 n env1 lp sw rt) = Some (inl (c, mk r3 n env1 lp sw rt))).
    { unfold parse_for_condition, r2. destruct c as [c|]; cbn in HC.
      - destruct HC as [G C]. destruct (expr_first _ _ _ G) as (N & _ & F). rewrite try_no by apply F.
        rewrite (read_gram c) by (auto; right; right; right; right; right; reflexivity). cbn [bind negb]. rewrite try_key. reflexivity.
      - subst u. cbn [app]. rewrite try_key. reflexivity. }
    rewrite EC. cbn [bind].
    assert (EK: parse_for_increment E D correct (mk r3 n env1 lp sw rt) = Some (inl (k, mk (w ++ rest) n env1 lp sw rt))).
    { unfold parse_for_increment, r3. destruct k as [k|]; cbn in HK.
      - destruct HK as [G C]. destruct (expr_first _ _ _ G) as (N & _ & F). unfold pis. cbn [mk p_s]. unfold is. cbn [fst]. destruct (F (TKey TK_R_PAREN :: w ++ rest)) as (_ & _ & _ & F4 & _).
        replace (cur (v ++ TKey TK_R_PAREN :: w ++ rest) =? TK_R_PAREN) with false by lia. cbn [negb].
        pose proof (read_gram k v (TKey TK_R_PAREN :: w ++ rest) n env1 lp sw rt G C ltac:(right; left; reflexivity)) as R. rewrite R. cbn [bind negb]. rewrite try_key. reflexivity.
      - subst v. cbn [app]. unfold pis. cbn [mk p_s]. rewrite is_key, Z.eqb_refl. cbn [negb bind]. rewrite try_key. reflexivity. }
    rewrite EK. cbn [bind]. change (with_loop E (mk (w ++ rest) n env1 lp sw rt) true) with (mk (w ++ rest) n env1 true sw rt).
    assert (LW: (length (w ++ rest) < f)%nat) by (unfold r2, r3 in L; rewrite !app_length in L; cbn [length] in L; rewrite !app_length in L; cbn [length] in L; rewrite !app_length in *; lia).
    destruct (IH rest n true sw rt f LW Dg) as (I1 & I2). cbn [jumps_ok has_return]. split.
    + intros J. rewrite (I1 J). reflexivity.
    + intros J y q H. dH H b' p X. injection H as <- <-. apply (I2 J _ _ eq_refl).
  - (* continue *) intros env rest n lp sw rt f L Dg. destruct f as [|f]; [lia|]. cbn [app].
    change (pstmt (S f) (mk (TKey TK_CONTINUE :: TKey TK_SEMICOLON :: rest) n env lp sw rt)) with (parse_continue_statement E D (mk (TKey TK_CONTINUE :: TKey TK_SEMICOLON :: rest) n env lp sw rt)).
    unfold parse_continue_statement. rewrite consume_key. cbn [p_loop mk jumps_ok has_return]. split; intros ->; cbn [negb].
    + fold (mk (TKey TK_SEMICOLON :: rest) n env true sw rt). rewrite expect_key, orb_false_r. reflexivity.
    + intros y q H. eapply broken_more; [exact H|]. cbn. lia.
  - (* break *) intros env rest n lp sw rt f L Dg. destruct f as [|f]; [lia|]. cbn [app].
    change (pstmt (S f) (mk (TKey TK_BREAK :: TKey TK_SEMICOLON :: rest) n env lp sw rt)) with (parse_break_statement E D (mk (TKey TK_BREAK :: TKey TK_SEMICOLON :: rest) n env lp sw rt)).
    unfold parse_break_statement. rewrite consume_key. cbn [p_loop p_switch mk jumps_ok has_return]. split; intros ->; cbn [negb].
    + fold (mk (TKey TK_SEMICOLON :: rest) n env lp sw rt). rewrite expect_key, orb_false_r. reflexivity.
    + intros y q H. eapply broken_more; [exact H|]. cbn. lia.
  - (* return *) intros env e t HE rest n lp sw rt f L Dg. destruct f as [|f]; [lia|]. cbn [app length] in *. rewrite <- app_assoc in *. cbn [app] in *. split; [|discriminate]. intros _.
    change (pstmt (S f) (mk (TKey TK_RETURN :: t ++ TKey TK_SEMICOLON :: rest) n env lp sw rt)) with (parse_return_statement E D correct (mk (TKey TK_RETURN :: t ++ TKey TK_SEMICOLON :: rest) n env lp sw rt)).
    unfold parse_return_statement. rewrite consume_key. change (with_return E (mk (t ++ TKey TK_SEMICOLON :: rest) n env lp sw rt)) with (mk (t ++ TKey TK_SEMICOLON :: rest) n env lp sw true).
    cbn [has_return]. rewrite orb_true_r. destruct e as [e|]; cbn in HE.
    + destruct HE as [G C]. destruct (expr_first _ _ _ G) as (N & _ & F). rewrite try_no by apply F. rewrite (read_gram e) by (auto; right; right; right; right; right; reflexivity). cbn [bind]. rewrite expect_key. reflexivity.
    + subst t. cbn [app]. rewrite try_key. reflexivity.
  - (* expression *) intros env e t G C rest n lp sw rt f L Dg. destruct f as [|f]; [lia|]. rewrite <- app_assoc in *. cbn [app] in *. split; [|discriminate]. intros _.
    destruct (expr_first _ _ _ G) as (N & K & F). rewrite default_statement by (apply K). unfold parse_expression_statement.
    rewrite (read_gram e) by (auto; right; right; right; right; right; reflexivity). cbn [bind negb]. rewrite expect_key. cbn [has_return]. rewrite orb_false_r. reflexivity.
  - (* no items *) intros env rest n lp sw rt f g L G R. destruct g as [|g]; [lia|]. split; [|discriminate]. intros _. cbn [app parse_items]. unfold pis, is. cbn [mk p_s fst]. rewrite R, Z.eqb_refl.
    cbn [orb has_return]. rewrite orb_false_r. reflexivity.
  - (* statement item *) intros env x t env1 xs u env' HS IHs ND HI IHi rest n lp sw rt f g L G R. destruct g as [|g]; [lia|]. rewrite <- app_assoc in *. cbn [parse_items].
    destruct (proj1 stext_first _ _ _ _ HS (u ++ rest)) as (_ & NB & NE & NN).
    assert (B: pis E (mk (t ++ u ++ rest) n env lp sw rt) TK_R_BRACE || pis E (mk (t ++ u ++ rest) n env lp sw rt) TK_EOF = false) by (unfold pis, is; cbn [mk p_s fst]; lia).
    rewrite B. assert (DD: isdecl (mk (t ++ u ++ rest) n env lp sw rt) = false) by (destruct t as [|y t]; [congruence|destruct y; exact ND]). rewrite DD.
    destruct (IHs (u ++ rest) n lp sw rt f L) as (I1 & I2). { intros _. apply (proj2 stext_first _ _ _ _ HI). rewrite R. discriminate. }
    assert (L2: (length (u ++ rest) < f)%nat) by (rewrite app_length in L; lia). assert (G2: (length (u ++ rest) < g)%nat) by (rewrite app_length in G; destruct t; [congruence|]; cbn [length] in G; lia).
    destruct (IHi rest n lp sw (rt || has_return x) f g L2 G2 R) as (I3 & I4). cbn [jumps_ok has_return] in *. split.
    + intros J. apply andb_true_iff in J as [J1 J2]. rewrite (I1 J1). cbn [bind]. rewrite (I3 J2). cbn [bind]. rewrite orb_assoc. reflexivity.
    + intros J y q H. destruct (jumps_ok lp sw x) eqn:JX.
      * rewrite (I1 eq_refl) in H. cbn [bind] in H. dH H ys p Y. injection H as <- <-. apply (I4 J _ _ eq_refl).
      * dH H x' p X. pose proof (I2 eq_refl _ _ eq_refl).
        destruct (parse_items _ _ _ _ _ _ p) as [[ys p2]|] eqn:Y; cbn [bind] in H; [|discriminate]. injection H as <- <-.
        apply (fine_items E D type_name declaration decl_forward (pstmt f) (fineS f)) in Y as [Y _]. apply adv_snd in Y. lia.
  - (* declaration item *) intros env d t env1 xs u env' [DE DT] HI IHi rest n lp sw rt f g L G R. destruct g as [|g]; [lia|]. rewrite <- app_assoc in *. cbn [parse_items].
    assert (NN: t <> []) by (destruct t; [cbn in DE; discriminate|discriminate]).
    assert (NB: cur (t ++ u ++ rest) <> TK_R_BRACE /\ cur (t ++ u ++ rest) <> TK_EOF).
    { destruct t as [|y t]; [congruence|]. destruct y; cbn [app cur kind]; try (split; discriminate). split; intros ->; discriminate. }
    assert (B: pis E (mk (t ++ u ++ rest) n env lp sw rt) TK_R_BRACE || pis E (mk (t ++ u ++ rest) n env lp sw rt) TK_EOF = false) by (unfold pis, is; cbn [mk p_s fst]; lia).
    rewrite B. assert (DD: isdecl (mk (t ++ u ++ rest) n env lp sw rt) = true) by (destruct t as [|y t]; [congruence|destruct y; exact DE]). rewrite DD.
    unfold parse_declaration. cbn [mk p_env p_s]. rewrite DT. cbn [bind].
    match goal with |- context [with_env E ?p env1] => change (with_env E p env1) with (mk (u ++ rest) n env1 lp sw rt) end.
    assert (L2: (length (u ++ rest) < f)%nat) by (rewrite app_length in L; lia). assert (G2: (length (u ++ rest) < g)%nat) by (rewrite app_length in G; destruct t; [congruence|]; cbn [length] in G; lia).
    destruct (IHi rest n lp sw rt f g L2 G2 R) as (I3 & I4). cbn [jumps_ok has_return] in *. split.
    + intros J. rewrite (I3 J). reflexivity.
    + intros J y q H. dH H ys p Y. injection H as <- <-. apply (I4 J _ _ eq_refl).
Qed.
End T.

(** Scopes opened by a statement parsed without errors are closed. *)
From Verif Require Import Prelude LexModel ParseModel ParseSpec ParseFuel ParseProofs ParseBack ParseSkip StmtModel StmtSpec StmtProofs.

Section T.
Variables E D : Type.
Variables enter leave : E -> E.
Variable type_name : E -> Z -> bool.
Variable declaration : E -> st -> option (D * (st * E)).
Variables correct constant : E -> expr -> bool.
Hypothesis decl_forward : forall env s d s' env', declaration env s = Some (d, (s', env')) -> sfx s s'.
Variable depth : E -> Z.
Hypothesis enter_depth : forall env, depth (enter env) = depth env + 1.
Hypothesis leave_depth : forall env, depth (leave env) = depth env - 1.
Hypothesis decl_depth : forall env s d s' env', declaration env s = Some (d, (s', env')) -> depth env' = depth env.
Notation P := (ps E).
Notation pstmt := (parse_statement E D enter leave type_name declaration correct constant).
Notation read_e := (read_expression E correct).
Notation read_c := (read_constant E constant).
Notation pcond := (parse_condition E correct).
Notation isdecl := (is_declaration_specifier E type_name).
Notation pdecl := (parse_declaration E D declaration).
Definition er (p : P) : Z := snd (p_s p).
Definition dp (p : P) : Z := depth (p_env p).
(** Errors never go down; the environment is the same. *)
Definition same (p q : P) : Prop := er p <= er q /\ p_env q = p_env p.
Lemma same_dp p q : same p q -> er p <= er q /\ dp q = dp p.
Proof. intros [A B]. unfold dp. rewrite B. auto. Qed.
Lemma er_adv p q : adv E p q -> er p <= er q.
Proof. intros [[_ H] _]. exact H. Qed.
Ltac by_adv L := apply er_adv; unshelve eapply L; eassumption.
Lemma same_consume p : same p (pconsume E p).
Proof. split; [apply er_adv, adv_consume|reflexivity]. Qed.
Lemma same_try p k b q : ptry E p k = (b, q) -> same p q.
Proof. unfold ptry. destruct (pis E p k); intros [= _ <-]; [apply same_consume|split; [lia|reflexivity]]. Qed.
Lemma same_expect p k : same p (pexpect E p k).
Proof. split; [apply er_adv, adv_expect|reflexivity]. Qed.
Lemma same_skip T p q : pskip E T p = Some q -> same p q.
Proof. intros H. split; [by_adv adv_skip|]. unfold pskip in H. destruct (recover T (toks E p)); cbn [bind] in H; [|discriminate]. injection H as <-. reflexivity. Qed.
Lemma same_read p e ok q : read_e p = Some (e, ok, q) -> same p q /\ (ok = false -> er p < er q).
Proof.
  intros H. assert (A: er p <= er q) by (apply er_adv; exact (adv_read E D type_name declaration correct decl_forward p e ok q H)).
  unfold read_expression in H. destruct (parse_expression _ _) as [[e1 s1]|]; cbn [bind] in H; [|discriminate]. injection H as <- <- <-.
  split; [split; [exact A|reflexivity]|]. intros ->. unfold er. cbn [with_s p_s built snd]. lia.
Qed.
Lemma same_constant p e ok q : read_c p = Some (e, ok, q) -> same p q /\ (ok = false -> er p < er q).
Proof.
  intros H. assert (A: er p <= er q) by (apply er_adv; exact (adv_constant E D type_name declaration correct constant decl_forward p e ok q H)).
  unfold read_constant in H. destruct (parse_constant_expression _ _) as [[e1 s1]|]; cbn [bind] in H; [|discriminate]. injection H as <- <- <-.
  split; [split; [exact A|reflexivity]|]. intros ->. unfold er. cbn [with_s p_s built snd]. lia.
Qed.
Lemma same_condition p e q : pcond p = Some (e, q) -> same p q.
Proof.
  intros H. split; [apply er_adv; exact (adv_condition E D type_name declaration correct decl_forward p e q H)|]. unfold parse_condition in H. destruct (negb (pis E p TK_L_PAREN)).
  { destruct (pskip E _ _) as [r|] eqn:X; cbn [bind] in H; [|discriminate]. injection H as _ <-. apply same_skip in X as [_ X]. exact X. }
  destruct (read_e (pconsume E p)) as [[[x ok] p1]|] eqn:X; cbn [bind] in H; [|discriminate]. apply same_read in X as [[_ X] _]. change (p_env (pconsume E p)) with (p_env p) in X. destruct (negb ok).
  { destruct (pskip E _ _) as [r|] eqn:Y; cbn [bind] in H; [|discriminate]. injection H as _ <-. apply same_skip in Y as [_ Y].
    destruct (ptry E r TK_R_PAREN) as [b r2] eqn:Z. apply same_try in Z as [_ Z]. cbn [snd]. congruence. }
  destruct (ptry E p1 TK_R_PAREN) as [[] r] eqn:Y; apply same_try in Y as [_ Y]; [injection H as _ <-; congruence|].
  destruct (pskip E _ _) as [r2|] eqn:Z; cbn [bind] in H; [|discriminate]. injection H as _ <-. apply same_skip in Z as [_ Z]. change (p_env (perror E r)) with (p_env r) in Z. congruence.
Qed.
Lemma same_decl p d q : pdecl p = Some (d, q) -> er p <= er q /\ dp q = dp p.
Proof.
  intros H. split; [apply er_adv; exact (adv_decl E D declaration decl_forward p d q H)|]. unfold parse_declaration in H.
  destruct (declaration (p_env p) (p_s p)) as [[d1 [s e]]|] eqn:X; cbn [bind] in H; [|discriminate]. injection H as <- <-. apply decl_depth in X. exact X.
Qed.
Lemma same_broken T p x q : broken_after E D T p = Some (x, q) -> same p q.
Proof. unfold broken_after. destruct (pskip E T p) as [r|] eqn:X; cbn [bind]; [|discriminate]. intros [= <- <-]. eapply same_skip; eauto. Qed.

Definition bal (parse : P -> option (stmt D * P)) : Prop := forall p x q, parse p = Some (x, q) -> er p <= er q /\ (er q = er p -> dp q = dp p).
Lemma bal_of p q : er p <= er q /\ dp q = dp p -> er p <= er q /\ (er q = er p -> dp q = dp p).
Proof. tauto. Qed.
Ltac e H x p X := match type of H with bind ?t _ = _ => destruct t as [[x p]|] eqn:X; cbn [bind] in H; [|discriminate H] end.
Section One.
Variable parse : P -> option (stmt D * P).
Hypothesis IH : bal parse.
Lemma bal_items : forall g p xs q, parse_items E D type_name declaration parse g p = Some (xs, q) -> er p <= er q /\ (er q = er p -> dp q = dp p).
Proof.
  induction g as [|g IHg]; intros p xs q H; [discriminate|]. cbn [parse_items] in H. destruct (pis E p TK_R_BRACE || pis E p TK_EOF). { injection H as <- <-. split; [lia|auto]. }
  e H x p1 X. e H ys p2 Y. injection H as <- <-. apply IHg in Y.
  assert (X1: er p <= er p1 /\ (er p1 = er p -> dp p1 = dp p)). { destruct (isdecl p); [e X d p3 ZD; injection X as <- <-; apply bal_of; eapply same_decl; eauto|apply (IH _ _ _ X)]. }
  destruct X1 as [X1 X2], Y as [Y1 Y2]. split; [lia|]. intros Q. rewrite Y2 by lia. apply X2. lia.
Qed.
(** The heads of [for]. *)
Definition hd {A} (p : P) (r : option ((A * P) + (stmt D * P))) : Prop :=
  forall v, r = Some v -> match v with inl (_, q) => er p <= er q /\ dp q = dp p | inr (_, q) => er p < er q end.
Lemma hd_stop {A} p q : er p < er q -> hd p (@stop_for E D A q).
Proof. intros L v H. unfold stop_for in H. e H x r X. injection H as <-. apply same_broken in X as [X _]. lia. Qed.
Lemma hd_init p : hd p (parse_for_init E D type_name declaration correct p).
Proof.
  unfold parse_for_init. destruct (ptry E p TK_SEMICOLON) as [[] q] eqn:X; apply same_try, same_dp in X as [X1 X2]. { intros v [= <-]. auto. }
  destruct (isdecl q). { intros v H. e H d r Y. injection H as <-. apply same_decl in Y as [Y1 Y2]. lia. }
  destruct (read_e q) as [[[x ok] r]|] eqn:Y; cbn [bind]; [|intros v; discriminate]. apply same_read in Y as [Y Y3]. apply same_dp in Y as [Y1 Y2]. destruct ok; cbn [negb]; [|apply hd_stop; specialize (Y3 eq_refl); lia].
  destruct (ptry E r TK_SEMICOLON) as [[] r2] eqn:Z; apply same_try, same_dp in Z as [Z1 Z2]; [intros v [= <-]; lia|]. apply hd_stop. assert (er (perror E r2) = er r2 + 1) by reflexivity. lia.
Qed.
Lemma hd_condition p : hd p (parse_for_condition E D correct p).
Proof.
  unfold parse_for_condition. destruct (ptry E p TK_SEMICOLON) as [[] q] eqn:X; apply same_try, same_dp in X as [X1 X2]. { intros v [= <-]. auto. }
  destruct (read_e q) as [[[x ok] r]|] eqn:Y; cbn [bind]; [|intros v; discriminate]. apply same_read in Y as [Y Y3]. apply same_dp in Y as [Y1 Y2]. destruct ok; cbn [negb]; [|apply hd_stop; specialize (Y3 eq_refl); lia].
  destruct (ptry E r TK_SEMICOLON) as [[] r2] eqn:Z; apply same_try, same_dp in Z as [Z1 Z2]; [intros v [= <-]; lia|]. apply hd_stop. assert (er (perror E r2) = er r2 + 1) by reflexivity. lia.
Qed.
Lemma hd_increment p : hd p (parse_for_increment E D correct p).
Proof.
  unfold parse_for_increment. match goal with |- hd p (bind ?a _) => assert (Hd: hd p a) end.
  { destruct (negb (pis E p TK_R_PAREN)); [|intros v [= <-]; split; [lia|auto]].
    destruct (read_e p) as [[[x ok] r]|] eqn:Y; cbn [bind]; [|intros v; discriminate]. apply same_read in Y as [Y Y3]. apply same_dp in Y as [Y1 Y2]. destruct ok; cbn [negb]; [intros v [= <-]; lia|apply hd_stop; apply Y3; auto]. }
  match goal with |- hd p (bind ?a _) => destruct a as [[[n p1]|[b p1]]|] end; cbn [bind]; [| |intros v; discriminate].
  - destruct (Hd _ eq_refl) as [A1 A2]. destruct (ptry E p1 TK_R_PAREN) as [[] r2] eqn:Z; apply same_try, same_dp in Z as [Z1 Z2]; [intros v [= <-]; lia|]. apply hd_stop. assert (er (perror E r2) = er r2 + 1) by reflexivity. lia.
  - intros v [= <-]. apply (Hd _ eq_refl).
Qed.
Lemma bal_for : bal (parse_for_statement E D enter leave type_name declaration correct parse).
Proof.
  intros p x q H. unfold parse_for_statement in H. set (p0 := with_env E (pconsume E p) (enter (p_env (pconsume E p)))) in *.
  assert (A0: er p0 = er p /\ dp p0 = dp p + 1) by (split; [reflexivity|unfold dp; cbn; apply enter_depth]). destruct A0 as [A0 B0].
  destruct (pis E p0 TK_L_PAREN); cbn [negb] in H.
  2:{ apply same_broken in H as [H _]. assert (er (perror E p0) = er p0 + 1) by reflexivity. split; lia. }
  pose proof (hd_init (pconsume E p0)) as H1. change (er (pconsume E p0)) with (er p0) in H1. 
  destruct (same_dp _ _ (same_consume p0)) as [A1 B1].
  destruct (parse_for_init E D type_name declaration correct (pconsume E p0)) as [[[i p1]|[b p1]]|]; cbn [bind] in H; [| |discriminate].
  2:{ injection H as <- <-. specialize (H1 _ eq_refl). cbn beta iota in H1. split; lia. }
  destruct (H1 _ eq_refl) as [A2 B2]. pose proof (hd_condition p1) as H2. destruct (parse_for_condition E D correct p1) as [[[c p2]|[b p2]]|]; cbn [bind] in H; [| |discriminate].
  2:{ injection H as <- <-. specialize (H2 _ eq_refl). cbn beta iota in H2. split; lia. }
  destruct (H2 _ eq_refl) as [A3 B3]. pose proof (hd_increment p2) as H3. destruct (parse_for_increment E D correct p2) as [[[n p3]|[b p3]]|]; cbn [bind] in H; [| |discriminate].
  2:{ injection H as <- <-. specialize (H3 _ eq_refl). cbn beta iota in H3. split; lia. }
  destruct (H3 _ eq_refl) as [A4 B4]. e H body p4 Y. injection H as <- <-. apply IH in Y as [A5 B5].
  change (er (with_loop E p3 true)) with (er p3) in *. change (dp (with_loop E p3 true)) with (dp p3) in *.
  match goal with |- er p <= er ?q /\ _ => assert (Q1: er q = er p4) by reflexivity; assert (Q2: dp q = dp p4 - 1) by (unfold dp; cbn; apply leave_depth) end.
  rewrite Q1, Q2. split; [lia|]. intros Q. rewrite B5 by lia. lia.
Qed.
Lemma bal_block : bal (parse_compound_statement E D enter leave type_name declaration parse).
Proof.
  intros p x q H. unfold parse_compound_statement, parse_compound_statement_body in H. set (p0 := with_env E p (enter (p_env p))) in *.
  assert (B0: dp p0 = dp p + 1) by (unfold dp; cbn; apply enter_depth). e H y p1 X. injection H as <- <-. e X xs p2 Y. apply bal_items in Y as [Y1 Y2].
  change (er (pconsume E p0)) with (er p) in *. change (dp (pconsume E p0)) with (dp p0) in *.
  assert (Q: forall r, dp (with_env E r (leave (p_env r))) = dp r - 1) by (intros r; unfold dp; cbn; apply leave_depth). match goal with |- er p <= er ?q /\ _ => assert (Q1: er q = er p1) by reflexivity; assert (Q2: dp q = dp p1 - 1) by (unfold dp; cbn; apply leave_depth); rewrite Q1, Q2 end. clear Q Q1 Q2.
  destruct (pis E p2 TK_R_BRACE); cbn [negb] in X; injection X as <- <-.
  - change (er (pconsume E p2)) with (er p2). change (dp (pconsume E p2)) with (dp p2). split; [lia|]. intros Z. rewrite Y2 by lia. lia.
  - change (er (perror E p2)) with (er p2 + 1). split; lia.
Qed.
End One.
Lemma bal_statement f : bal (pstmt f).
Proof.
  induction f as [|f IH]; [intros p x q; discriminate|]. intros p x q H. cbn [parse_statement] in H.
  destruct (same_dp _ _ (same_consume p)) as [C1 C2].
  destruct (pis E p TK_CASE).
  { unfold parse_case_statement in H. destruct (negb _). { apply same_broken, same_dp in H as [H1 H2]. change (er (perror E (pconsume E p))) with (er (pconsume E p) + 1) in *. split; lia. }
    destruct (read_c (pconsume E p)) as [[[y ok] r]|] eqn:Y; cbn [bind] in H; [|discriminate]. apply same_constant in Y as [Y _]. apply same_dp in Y as [Y1 Y2].
    destruct (negb ok). { apply same_broken, same_dp in H as [H1 H2]. split; lia. }
    e H b r2 ZZ. injection H as <- <-. apply IH in ZZ as [Z1 Z2]. destruct (same_dp _ _ (same_expect r TK_COLON)) as [W1 W2]. split; [lia|]. intros Q. rewrite Z2 by lia. lia. }
  destruct (pis E p TK_DEFAULT).
  { unfold parse_default_statement in H. destruct (negb _). { apply same_broken, same_dp in H as [H1 H2]. change (er (perror E (pconsume E p))) with (er (pconsume E p) + 1) in *. split; lia. }
    e H b r2 ZZ. injection H as <- <-. apply IH in ZZ as [Z1 Z2]. destruct (same_dp _ _ (same_expect (pconsume E p) TK_COLON)) as [W1 W2]. split; [lia|]. intros Q. rewrite Z2 by lia. lia. }
  destruct (pis E p TK_L_BRACE); [eapply bal_block; eauto|].
  destruct (pis E p TK_SEMICOLON); [injection H as <- <-; auto|].
  destruct (pis E p TK_IF).
  { unfold parse_if_statement in H. e H c p1 X. apply same_condition, same_dp in X as [X1 X2]. e H a p2 Y. apply IH in Y as [Y1 Y2].
    destruct (ptry E p2 TK_ELSE) as [[] p3] eqn:Z; apply same_try, same_dp in Z as [Z1 Z2].
    - e H b p4 W. injection H as <- <-. apply IH in W as [W1 W2]. split; [lia|]. intros Q. rewrite W2 by lia. rewrite Z2, Y2 by lia. lia.
    - injection H as <- <-. split; [lia|]. intros Q. rewrite Z2, Y2 by lia. lia. }
  destruct (pis E p TK_SWITCH).
  { unfold parse_switch_statement in H. e H c p1 X. apply same_condition, same_dp in X as [X1 X2]. e H a p2 Y. apply IH in Y as [Y1 Y2]. injection H as <- <-.
    change (er (with_switch E p1 true)) with (er p1) in *. change (dp (with_switch E p1 true)) with (dp p1) in *. split; [exact (Z.le_trans _ _ _ C1 (Z.le_trans _ _ _ X1 Y1))|].
    intros Q. change (er p2 = er p) in Q. change (dp p2 = dp p). rewrite Y2 by lia. lia. }
  destruct (pis E p TK_WHILE).
  { unfold parse_while_statement in H. e H c p1 X. apply same_condition, same_dp in X as [X1 X2]. e H a p2 Y. apply IH in Y as [Y1 Y2]. injection H as <- <-.
    change (er (with_loop E p1 true)) with (er p1) in *. change (dp (with_loop E p1 true)) with (dp p1) in *. split; [exact (Z.le_trans _ _ _ C1 (Z.le_trans _ _ _ X1 Y1))|].
    intros Q. change (er p2 = er p) in Q. change (dp p2 = dp p). rewrite Y2 by lia. lia. }
  destruct (pis E p TK_DO).
  { unfold parse_do_statement in H. e H a p2 Y. apply IH in Y as [Y1 Y2]. change (er (with_loop E (pconsume E p) true)) with (er (pconsume E p)) in *. change (dp (with_loop E (pconsume E p) true)) with (dp (pconsume E p)) in *.
    set (p3 := with_loop E p2 (p_loop (pconsume E p))) in *. assert (E3: er p3 = er p2 /\ dp p3 = dp p2) by auto. destruct E3 as [E3 D3].
    destruct (ptry E p3 TK_WHILE) as [[] p4] eqn:Z; apply same_try, same_dp in Z as [Z1 Z2]; cbn [negb] in H.
    - e H c p5 W. injection H as <- <-. apply same_condition, same_dp in W as [W1 W2]. destruct (same_dp _ _ (same_expect p5 TK_SEMICOLON)) as [V1 V2]. split; [lia|]. intros Q. rewrite V2, W2, Z2, D3, Y2 by lia. lia.
    - apply same_broken in H as [H _]. change (er (perror E p4)) with (er p4 + 1) in H. split; lia. }
  destruct (pis E p TK_FOR); [eapply bal_for; eauto|].
  destruct (pis E p TK_CONTINUE).
  { unfold parse_continue_statement in H. destruct (negb _). { apply same_broken, same_dp in H as [H1 H2]. change (er (perror E (pconsume E p))) with (er (pconsume E p) + 1) in *. split; lia. }
    injection H as <- <-. destruct (same_dp _ _ (same_expect (pconsume E p) TK_SEMICOLON)) as [W1 W2]. split; lia. }
  destruct (pis E p TK_BREAK).
  { unfold parse_break_statement in H. destruct (negb _). { apply same_broken, same_dp in H as [H1 H2]. change (er (perror E (pconsume E p))) with (er (pconsume E p) + 1) in *. split; lia. }
    injection H as <- <-. destruct (same_dp _ _ (same_expect (pconsume E p) TK_SEMICOLON)) as [W1 W2]. split; lia. }
  destruct (pis E p TK_RETURN).
  { unfold parse_return_statement in H. assert (R: er (with_return E (pconsume E p)) = er p /\ dp (with_return E (pconsume E p)) = dp p) by auto. destruct R as [R1 R2].
    destruct (ptry E _ TK_SEMICOLON) as [[] p1] eqn:Z; apply same_try, same_dp in Z as [Z1 Z2]; [injection H as <- <-; split; lia|].
    destruct (read_e p1) as [[[y ok] r]|] eqn:Y; cbn [bind] in H; [|discriminate]. apply same_read in Y as [Y _]. apply same_dp in Y as [Y1 Y2]. destruct ok.
    - injection H as <- <-. destruct (same_dp _ _ (same_expect r TK_SEMICOLON)) as [W1 W2]. split; lia.
    - apply same_broken, same_dp in H as [H1 H2]. split; lia. }
  unfold parse_expression_statement in H. destruct (read_e p) as [[[y ok] r]|] eqn:Y; cbn [bind] in H; [|discriminate]. apply same_read in Y as [Y _]. apply same_dp in Y as [Y1 Y2]. destruct ok; cbn [negb] in H.
  - injection H as <- <-. destruct (same_dp _ _ (same_expect r TK_SEMICOLON)) as [W1 W2]. split; lia.
  - apply same_broken, same_dp in H as [H1 H2]. split; lia.
Qed.
End T.

(** Proofs about statements. *)
From Verif Require Import Prelude LexModel ParseModel ParseSpec ParseFuel ParseProofs ParseBack ParseSkip StmtModel StmtSpec.

Section P.
Variables E D : Type.
Variables enter leave : E -> E.
Variable type_name : E -> Z -> bool.
Variable declaration : E -> st -> option (D * (st * E)).
Variables correct constant : E -> expr -> bool.
Hypothesis decl_forward : forall env s d s' env', declaration env s = Some (d, (s', env')) -> sfx s s'.
Notation P := (ps E).
Notation S := (stmt D).

Notation pstmt := (parse_statement E D enter leave type_name declaration correct constant).
Notation read_e := (read_expression E correct).
Notation read_c := (read_constant E constant).
Notation pcond := (parse_condition E correct).
Notation isdecl := (is_declaration_specifier E type_name).
Notation pdecl := (parse_declaration E D declaration).

(** ** Moving forward *)
Definition adv (p q : P) : Prop := sfx (p_s p) (p_s q) /\ p_loop q = p_loop p /\ p_switch q = p_switch p.
Lemma adv_refl p : adv p p.
Proof. repeat split; auto using sfx_refl. apply sfx_refl. lia. Qed.
Lemma adv_trans a b c : adv a b -> adv b c -> adv a c.
Proof. intros (S1 & L1 & W1) (S2 & L2 & W2). split; [eapply sfx_trans; eauto|]. split; congruence. Qed.
Lemma adv_s p s : sfx (p_s p) s -> adv p (with_s E p s).
Proof. intros H. split; auto. Qed.
Lemma adv_consume p : adv p (pconsume E p).
Proof. apply adv_s, sfx_consume. Qed.
Lemma adv_error p : adv p (perror E p).
Proof. apply adv_s, sfx_error. Qed.
Lemma adv_try p k b q : ptry E p k = (b, q) -> adv p q.
Proof. unfold ptry. destruct (pis E p k); intros [= _ <-]; auto using adv_consume, adv_refl. Qed.
Lemma adv_try2 p k : adv p (snd (ptry E p k)).
Proof. unfold ptry. destruct (pis E p k); cbn [snd]; auto using adv_consume, adv_refl. Qed.
Lemma sfx_expect s k : sfx s (expect_and_consume s k).
Proof.
  unfold expect_and_consume. destruct (is s k); [apply sfx_consume|]. destruct (_ && _); [|apply sfx_error].
  eapply sfx_trans; [apply sfx_error|]. eapply sfx_trans; apply sfx_consume.
Qed.
Lemma adv_expect p k : adv p (pexpect E p k).
Proof. apply adv_s, sfx_expect. Qed.
Lemma adv_skip T p q : pskip E T p = Some q -> adv p q.
Proof.
  unfold pskip, recover. destruct (skip_until _ _ _) as [l|] eqn:X; cbn [bind]; [|discriminate]. intros [= <-]. apply adv_s. split; cbn [fst snd]; [|lia].
  apply skip_suffix in X. exact X.
Qed.
Lemma sfx_built ok a b : sfx a b -> sfx a (built ok a b).
Proof. intros [T L]. unfold built. destruct ok; split; cbn [fst snd]; auto; lia. Qed.
Lemma exp_sfx f s e s' : parse_expression f s = Some (e, s') -> (16 * length (fst s) + 6 < f)%nat -> sfx s s'.
Proof. intros H L. destruct (total f) as (_ & _ & _ & _ & _ & _ & _ & T & _). destruct (T s L) as ([e1 s1] & X & Y). rewrite X in H. injection H as -> ->. exact Y. Qed.
Lemma read_total p : exists e ok q, read_e p = Some (e, ok, q) /\ adv p q.
Proof.
  destruct (total (enough (toks E p))) as (_ & _ & _ & _ & _ & _ & _ & T & _). destruct (T (p_s p)) as ([e s] & X & Y); [unfold enough, toks; lia|].
  unfold read_expression. rewrite X. cbn [bind]. do 3 eexists. split; [reflexivity|]. apply adv_s, sfx_built. exact Y.
Qed.
Lemma adv_read p e ok q : read_e p = Some (e, ok, q) -> adv p q.
Proof. intros H. destruct (read_total p) as (e1 & ok1 & q1 & X & Y). congruence. Qed.
Lemma constant_total p : exists e ok q, read_c p = Some (e, ok, q) /\ adv p q.
Proof.
  destruct (total (enough (toks E p))) as (_ & _ & _ & _ & Tu & Tr & _). destruct (Tu (p_s p)) as ([e s] & X & Y); [unfold enough, toks; lia|]. cbn [snd] in Y.
  unfold read_constant, parse_constant_expression. rewrite X. cbn [bind].
  destruct (Tr (e, PREC_CONDITIONAL, s)) as ([e2 s2] & X2 & Y2). { cbn [snd]. apply sfx_len in Y. unfold enough, toks in *. cbn [snd] in *. lia. }
  cbn [rhs1] in X2. change (Z.max 1 PREC_CONDITIONAL) with PREC_CONDITIONAL in X2. rewrite X2. cbn [bind snd] in *. do 3 eexists. split; [reflexivity|].
  apply adv_s, sfx_built. eapply sfx_trans; eauto.
Qed.
Lemma adv_constant p e ok q : read_c p = Some (e, ok, q) -> adv p q.
Proof. intros H. destruct (constant_total p) as (e1 & ok1 & q1 & X & Y). congruence. Qed.
Lemma adv_decl p d q : pdecl p = Some (d, q) -> adv p q.
Proof.
  unfold parse_declaration. destruct (declaration (p_env p) (p_s p)) as [[d1 [s e]]|] eqn:X; cbn [bind]; [|discriminate]. intros [= <- <-]. split; auto.
  cbn. eapply decl_forward; eauto.
Qed.
Lemma adv_condition p e q : pcond p = Some (e, q) -> adv p q.
Proof.
  unfold parse_condition. destruct (negb (pis E p TK_L_PAREN)).
  { destruct (pskip E TK_SEMICOLON (perror E p)) as [r|] eqn:X; cbn [bind]; [|discriminate]. intros [= _ <-]. eapply adv_trans; [apply adv_error|eapply adv_skip; eauto]. }
  destruct (read_e (pconsume E p)) as [[[x ok] p1]|] eqn:X; cbn [bind]; [|discriminate]. apply adv_read in X.
  assert (A: adv p p1) by (eapply adv_trans; [apply adv_consume|exact X]). destruct (negb ok).
  { destruct (pskip E _ p1) as [r|] eqn:Y; cbn [bind]; [|discriminate]. intros [= _ <-]. eapply adv_trans; [exact A|]. eapply adv_trans; [eapply adv_skip; eauto|apply adv_try2]. }
  destruct (ptry E p1 TK_R_PAREN) as [[] p2] eqn:Y; apply adv_try in Y.
  - intros [= _ <-]. eapply adv_trans; eauto.
  - destruct (pskip E TK_SEMICOLON (perror E p2)) as [r|] eqn:Z; cbn [bind]; [|discriminate]. intros [= _ <-].
    eapply adv_trans; [exact A|]. eapply adv_trans; [exact Y|]. eapply adv_trans; [apply adv_error|eapply adv_skip; eauto].
Qed.

(** ** Jumps stand where they may *)
Definition fine (parse : P -> option (S * P)) : Prop :=
  forall p x q, parse p = Some (x, q) -> adv p q /\ jumps_ok (p_loop p) (p_switch p) x = true.
Lemma adv_env p q e : adv p q -> adv p (with_env E q e).
Proof. intros (A & B & C). split; auto. Qed.
Lemma fine_broken T p q : forall x r, broken_after E D T q = Some (x, r) -> adv p q -> adv p r /\ jumps_ok (p_loop p) (p_switch p) x = true.
Proof.
  intros x r H A. unfold broken_after in H. destruct (pskip E T q) as [r1|] eqn:X; cbn [bind] in H; [|discriminate]. injection H as <- <-.
  split; [eapply adv_trans; [exact A|eapply adv_skip; eauto]|reflexivity].
Qed.
Section One.
Variable parse : P -> option (S * P).
Hypothesis IH : fine parse.
Lemma fine_case : fine (parse_case_statement E D constant parse).
Proof.
  intros p x q H. unfold parse_case_statement in H. pose proof (adv_consume p) as A. destruct (p_switch (pconsume E p)) eqn:W; cbn [negb] in H.
  2:{ eapply fine_broken; eauto. eapply adv_trans; [exact A|apply adv_error]. }
  destruct (read_c (pconsume E p)) as [[[e ok] p1]|] eqn:X; cbn [bind] in H; [|discriminate]. apply adv_constant in X. pose proof (adv_trans _ _ _ A X) as A1.
  destruct ok; cbn [negb] in H; [|eapply fine_broken; eauto].
  destruct (parse (pexpect E p1 TK_COLON)) as [[b p2]|] eqn:Y; cbn [bind] in H; [|discriminate]. injection H as <- <-. apply IH in Y as (A2 & J).
  pose proof (adv_trans _ _ _ A1 (adv_expect p1 TK_COLON)) as A3. split; [eapply adv_trans; eauto|]. destruct A3 as (_ & L & W'). rewrite L, W' in J. cbn [jumps_ok].
  change (p_switch (pconsume E p)) with (p_switch p) in W. rewrite W in *. exact J.
Qed.
Lemma fine_default : fine (parse_default_statement E D parse).
Proof.
  intros p x q H. unfold parse_default_statement in H. pose proof (adv_consume p) as A. destruct (p_switch (pconsume E p)) eqn:W; cbn [negb] in H.
  2:{ eapply fine_broken; eauto. eapply adv_trans; [exact A|apply adv_error]. }
  destruct (parse (pexpect E (pconsume E p) TK_COLON)) as [[b p2]|] eqn:Y; cbn [bind] in H; [|discriminate]. injection H as <- <-. apply IH in Y as (A2 & J).
  pose proof (adv_trans _ _ _ A (adv_expect _ TK_COLON)) as A3. split; [eapply adv_trans; eauto|]. destruct A3 as (_ & L & W'). rewrite L, W' in J. cbn [jumps_ok].
  change (p_switch (pconsume E p)) with (p_switch p) in W. rewrite W in *. exact J.
Qed.
Lemma fine_items : forall f p xs q, parse_items E D type_name declaration parse f p = Some (xs, q) -> adv p q /\ jumps_ok (p_loop p) (p_switch p) (SBlock xs) = true.
Proof.
  induction f as [|f IHf]; intros p xs q H; [discriminate|]. cbn [parse_items] in H. destruct (pis E p TK_R_BRACE || pis E p TK_EOF).
  { injection H as <- <-. split; [apply adv_refl|reflexivity]. }
  match type of H with bind ?a _ = _ => destruct a as [[x p1]|] eqn:X; cbn [bind] in H; [|discriminate] end.
  destruct (parse_items E D type_name declaration parse f p1) as [[ys p2]|] eqn:Y; cbn [bind] in H; [|discriminate]. injection H as <- <-.
  assert (B: adv p p1 /\ jumps_ok (p_loop p) (p_switch p) x = true).
  { destruct (isdecl p); [|apply IH; exact X]. destruct (pdecl p) as [[d p3]|] eqn:Z; cbn [bind] in X; [|discriminate]. injection X as <- <-. split; [eapply adv_decl; eauto|reflexivity]. }
  destruct B as (A1 & J1). apply IHf in Y as (A2 & J2). split; [eapply adv_trans; eauto|]. cbn [jumps_ok] in *. rewrite J1. destruct A1 as (_ & L & W). rewrite L, W in J2. exact J2.
Qed.
Lemma fine_block : fine (parse_compound_statement E D enter leave type_name declaration parse).
Proof.
  intros p x q H. unfold parse_compound_statement, parse_compound_statement_body in H. set (p0 := with_env E p (enter (p_env p))) in *.
  assert (A0: adv p p0) by (apply adv_env, adv_refl). pose proof (adv_trans _ _ _ A0 (adv_consume p0)) as A1.
  destruct (parse_items _ _ _ _ _ _ _) as [[xs p1]|] eqn:X; cbn [bind] in H; [|discriminate]. apply fine_items in X as (A2 & J). pose proof (adv_trans _ _ _ A1 A2) as A3.
  destruct (pis E p1 TK_R_BRACE); cbn [negb bind] in H; injection H as <- <-; (split; [apply adv_env; eapply adv_trans; [exact A3|first [apply adv_consume|apply adv_error]]|]); [exact J|reflexivity].
Qed.
Lemma fine_if : fine (parse_if_statement E D correct parse).
Proof.
  intros p x q H. unfold parse_if_statement in H. destruct (pcond (pconsume E p)) as [[c p1]|] eqn:X; cbn [bind] in H; [|discriminate].
  apply adv_condition in X. pose proof (adv_trans _ _ _ (adv_consume p) X) as A1.
  destruct (parse p1) as [[a p2]|] eqn:Y; cbn [bind] in H; [|discriminate]. apply IH in Y as (A2 & J2). pose proof (adv_trans _ _ _ A1 A2) as A3.
  destruct (ptry E p2 TK_ELSE) as [[] p3] eqn:Z; apply adv_try in Z; pose proof (adv_trans _ _ _ A3 Z) as A4.
  - destruct (parse p3) as [[b p4]|] eqn:W; cbn [bind] in H; [|discriminate]. injection H as <- <-. apply IH in W as (A5 & J5). split; [eapply adv_trans; eauto|].
    cbn [jumps_ok]. destruct A1 as (_ & L & W). rewrite L, W in J2. rewrite J2. destruct A4 as (_ & L4 & W4). rewrite L4, W4 in J5. exact J5.
  - injection H as <- <-. split; auto. cbn [jumps_ok]. destruct A1 as (_ & L & W). rewrite L, W in J2. exact J2.
Qed.
Lemma fine_switch : fine (parse_switch_statement E D correct parse).
Proof.
  intros p x q H. unfold parse_switch_statement in H. destruct (pcond (pconsume E p)) as [[c p1]|] eqn:X; cbn [bind] in H; [|discriminate].
  apply adv_condition in X. pose proof (adv_trans _ _ _ (adv_consume p) X) as A1. destruct (parse (with_switch E p1 true)) as [[a p2]|] eqn:Y; cbn [bind] in H; [|discriminate].
  apply IH in Y as (A2 & J2). injection H as <- <-. cbn in J2. destruct A1 as (S1 & L1 & W1). destruct A2 as (S2 & L2 & W2). cbn in L2, W2, S2. split.
  - split; [eapply sfx_trans; eauto|]. cbn. split; congruence.
  - cbn [jumps_ok]. rewrite <- L1. exact J2.
Qed.
Lemma fine_while : fine (parse_while_statement E D correct parse).
Proof.
  intros p x q H. unfold parse_while_statement in H. destruct (pcond (pconsume E p)) as [[c p1]|] eqn:X; cbn [bind] in H; [|discriminate].
  apply adv_condition in X. pose proof (adv_trans _ _ _ (adv_consume p) X) as A1. destruct (parse (with_loop E p1 true)) as [[a p2]|] eqn:Y; cbn [bind] in H; [|discriminate].
  apply IH in Y as (A2 & J2). injection H as <- <-. cbn in J2. destruct A1 as (S1 & L1 & W1). destruct A2 as (S2 & L2 & W2). cbn in L2, W2, S2. split.
  - split; [eapply sfx_trans; eauto|]. cbn. split; congruence.
  - cbn [jumps_ok]. rewrite <- W1. exact J2.
Qed.
Lemma fine_do : fine (parse_do_statement E D correct parse).
Proof.
  intros p x q H. unfold parse_do_statement in H. set (p0 := pconsume E p) in *. pose proof (adv_consume p : adv p p0) as A0.
  destruct (parse (with_loop E p0 true)) as [[a p1]|] eqn:Y; cbn [bind] in H; [|discriminate]. apply IH in Y as (A2 & J2). cbn in J2.
  assert (A1: adv p (with_loop E p1 (p_loop p0))).
  { destruct A0 as (S0 & L0 & W0). destruct A2 as (S2 & L2 & W2). cbn in S2, L2, W2. split; [eapply sfx_trans; eauto|]. cbn. split; congruence. }
  destruct (ptry E (with_loop E p1 (p_loop p0)) TK_WHILE) as [[] p2] eqn:Z; apply adv_try in Z; pose proof (adv_trans _ _ _ A1 Z) as A3; cbn [negb] in H.
  - destruct (pcond p2) as [[c p3]|] eqn:X; cbn [bind] in H; [|discriminate]. apply adv_condition in X. injection H as <- <-. split; [|exact J2].
    eapply adv_trans; [exact A3|]. eapply adv_trans; [exact X|apply adv_expect].
  - eapply fine_broken; eauto. eapply adv_trans; [exact A3|apply adv_error].
Qed.
(** The three parts of a [for] head. *)
Definition head {A} (p : P) (r : option ((A * P) + (S * P))) : Prop :=
  forall v, r = Some v -> match v with inl (_, q) => adv p q | inr (x, q) => adv p q /\ x = SBroken end.
Lemma head_stop {A} p q : adv p q -> head p (@stop_for E D A q).
Proof.
  intros A1 v H. unfold stop_for, broken_after in H. destruct (pskip E TK_SEMICOLON q) as [r|] eqn:X; cbn [bind] in H; [|discriminate]. injection H as <-.
  split; auto. eapply adv_trans; [exact A1|eapply adv_skip; eauto].
Qed.
Lemma head_init p : head p (parse_for_init E D type_name declaration correct p).
Proof.
  unfold parse_for_init. destruct (ptry E p TK_SEMICOLON) as [[] p1] eqn:X; apply adv_try in X. { intros v [= <-]. exact X. }
  destruct (isdecl p1).
  { intros v H. destruct (pdecl p1) as [[d p2]|] eqn:Y; cbn [bind] in H; [|discriminate]. injection H as <-. eapply adv_trans; [exact X|eapply adv_decl; eauto]. }
  destruct (read_e p1) as [[[e ok] p2]|] eqn:Y; cbn [bind]; [|intros v; discriminate]. apply adv_read in Y. pose proof (adv_trans _ _ _ X Y) as A2.
  destruct ok; cbn [negb]; [|apply head_stop; auto]. destruct (ptry E p2 TK_SEMICOLON) as [[] p3] eqn:Z; apply adv_try in Z; pose proof (adv_trans _ _ _ A2 Z) as A3.
  - intros v [= <-]. exact A3.
  - apply head_stop. eapply adv_trans; [exact A3|apply adv_error].
Qed.
Lemma head_condition p : head p (parse_for_condition E D correct p).
Proof.
  unfold parse_for_condition. destruct (ptry E p TK_SEMICOLON) as [[] p1] eqn:X; apply adv_try in X. { intros v [= <-]. exact X. }
  destruct (read_e p1) as [[[e ok] p2]|] eqn:Y; cbn [bind]; [|intros v; discriminate]. apply adv_read in Y. pose proof (adv_trans _ _ _ X Y) as A2.
  destruct ok; cbn [negb]; [|apply head_stop; auto]. destruct (ptry E p2 TK_SEMICOLON) as [[] p3] eqn:Z; apply adv_try in Z; pose proof (adv_trans _ _ _ A2 Z) as A3.
  - intros v [= <-]. exact A3.
  - apply head_stop. eapply adv_trans; [exact A3|apply adv_error].
Qed.
Lemma head_increment p : head p (parse_for_increment E D correct p).
Proof.
  unfold parse_for_increment.
  match goal with |- head p (bind ?a _) => assert (Hd: head p a) end.
  { destruct (pis E p TK_R_PAREN); cbn [negb]; [intros v [= <-]; apply adv_refl|].
    destruct (read_e p) as [[[e ok] p2]|] eqn:Y; cbn [bind]; [|intros v; discriminate]. apply adv_read in Y.
    destruct ok; cbn [negb]; [intros v [= <-]; exact Y|apply head_stop; auto]. }
  match goal with |- head p (bind ?a _) => destruct a as [[[n p1]|[b p1]]|] end; cbn [bind]; [| |intros v; discriminate].
  - pose proof (Hd _ eq_refl) as A1. cbn in A1. destruct (ptry E p1 TK_R_PAREN) as [[] p3] eqn:Z; apply adv_try in Z; pose proof (adv_trans _ _ _ A1 Z) as A3.
    + intros v [= <-]. exact A3.
    + apply head_stop. eapply adv_trans; [exact A3|apply adv_error].
  - intros v [= <-]. apply (Hd _ eq_refl).
Qed.
Lemma fine_for : fine (parse_for_statement E D enter leave type_name declaration correct parse).
Proof.
  intros p x q H. unfold parse_for_statement in H. set (p0 := with_env E (pconsume E p) (enter (p_env (pconsume E p)))) in *.
  assert (A0: adv p p0) by (apply adv_env, adv_consume). destruct (pis E p0 TK_L_PAREN); cbn [negb] in H.
  2:{ eapply fine_broken; eauto. eapply adv_trans; [exact A0|apply adv_error]. }
  pose proof (head_init (pconsume E p0)) as H1. destruct (parse_for_init _ _ _ _ _ _) as [[[i p1]|[b p1]]|]; cbn [bind] in H; [| |discriminate].
  2:{ injection H as <- <-. destruct (H1 _ eq_refl) as (A1 & ->). split; auto. eapply adv_trans; [exact A0|]. eapply adv_trans; [apply adv_consume|exact A1]. }
  specialize (H1 _ eq_refl). cbn in H1. assert (A1: adv p p1) by (eapply adv_trans; [exact A0|]; eapply adv_trans; [apply adv_consume|exact H1]).
  pose proof (head_condition p1) as H2. destruct (parse_for_condition _ _ _ _) as [[[c p2]|[b p2]]|]; cbn [bind] in H; [| |discriminate].
  2:{ injection H as <- <-. destruct (H2 _ eq_refl) as (A2 & ->). split; auto. eapply adv_trans; eauto. }
  specialize (H2 _ eq_refl). cbn in H2. pose proof (adv_trans _ _ _ A1 H2) as A2.
  pose proof (head_increment p2) as H3. destruct (parse_for_increment _ _ _ _) as [[[n p3]|[b p3]]|]; cbn [bind] in H; [| |discriminate].
  2:{ injection H as <- <-. destruct (H3 _ eq_refl) as (A3 & ->). split; auto. eapply adv_trans; eauto. }
  specialize (H3 _ eq_refl). cbn in H3. pose proof (adv_trans _ _ _ A2 H3) as A3.
  destruct (parse (with_loop E p3 true)) as [[a p4]|] eqn:Y; cbn [bind] in H; [|discriminate]. apply IH in Y as (A4 & J). injection H as <- <-. cbn in J.
  destruct A3 as (S3 & L3 & W3). destruct A4 as (S4 & L4 & W4). cbn in S4, L4, W4. split.
  - split; [eapply sfx_trans; eauto|]. cbn. split; congruence.
  - cbn [jumps_ok]. rewrite <- W3. exact J.
Qed.
End One.
Lemma fine_expression : fine (parse_expression_statement E D correct).
Proof.
  intros p x q H. unfold parse_expression_statement in H. destruct (read_e p) as [[[e ok] p2]|] eqn:Y; cbn [bind] in H; [|discriminate]. apply adv_read in Y.
  destruct ok; cbn [negb] in H; [|eapply fine_broken; eauto]. injection H as <- <-. split; [|reflexivity]. eapply adv_trans; [exact Y|apply adv_expect].
Qed.
Lemma fine_continue : fine (parse_continue_statement E D).
Proof.
  intros p x q H. unfold parse_continue_statement in H. destruct (p_loop (pconsume E p)) eqn:L; cbn [negb] in H.
  - injection H as <- <-. split; [eapply adv_trans; [apply adv_consume|apply adv_expect]|]. exact L.
  - eapply fine_broken; eauto. eapply adv_trans; [apply adv_consume|apply adv_error].
Qed.
Lemma fine_break : fine (parse_break_statement E D).
Proof.
  intros p x q H. unfold parse_break_statement in H. destruct (p_loop (pconsume E p) || p_switch (pconsume E p)) eqn:L; cbn [negb] in H.
  - injection H as <- <-. split; [eapply adv_trans; [apply adv_consume|apply adv_expect]|]. exact L.
  - eapply fine_broken; eauto. eapply adv_trans; [apply adv_consume|apply adv_error].
Qed.
Lemma fine_return : fine (parse_return_statement E D correct).
Proof.
  intros p x q H. unfold parse_return_statement in H. assert (A0: adv p (with_return E (pconsume E p))) by (pose proof (adv_consume p) as (A & B & C); split; auto).
  destruct (ptry E (with_return E (pconsume E p)) TK_SEMICOLON) as [[] p1] eqn:X; apply adv_try in X; pose proof (adv_trans _ _ _ A0 X) as A1.
  { injection H as <- <-. split; [exact A1|reflexivity]. }
  destruct (read_e p1) as [[[e ok] p2]|] eqn:Y; cbn [bind] in H; [|discriminate]. apply adv_read in Y. pose proof (adv_trans _ _ _ A1 Y) as A2.
  destruct ok; [|eapply fine_broken; eauto]. injection H as <- <-. split; [|reflexivity]. eapply adv_trans; [exact A2|apply adv_expect].
Qed.
Lemma fine_statement f : fine (pstmt f).
Proof.
  induction f as [|f IH]; [intros p x q; discriminate|]. intros p x q H. cbn [parse_statement] in H.
  destruct (pis E p TK_CASE); [eapply fine_case; eauto|]. destruct (pis E p TK_DEFAULT); [eapply fine_default; eauto|].
  destruct (pis E p TK_L_BRACE); [eapply fine_block; eauto|]. destruct (pis E p TK_SEMICOLON). { injection H as <- <-. split; [apply adv_consume|reflexivity]. }
  destruct (pis E p TK_IF); [eapply fine_if; eauto|]. destruct (pis E p TK_SWITCH); [eapply fine_switch; eauto|].
  destruct (pis E p TK_WHILE); [eapply fine_while; eauto|]. destruct (pis E p TK_DO); [eapply fine_do; eauto|].
  destruct (pis E p TK_FOR); [eapply fine_for; eauto|]. destruct (pis E p TK_CONTINUE); [eapply fine_continue; eauto|].
  destruct (pis E p TK_BREAK); [eapply fine_break; eauto|]. destruct (pis E p TK_RETURN); [eapply fine_return; eauto|]. eapply fine_expression; eauto.
Qed.
End P.

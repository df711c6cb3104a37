(** How a statement changes the symbol table: only by entering and leaving
    scopes and by declarations, in any relation that these respect. *)
From Verif Require Import Prelude LexModel ParseModel ParseSpec ParseFuel ParseProofs ParseBack ParseSkip StmtModel StmtSpec StmtProofs.

Section T.
Variables E D : Type.
Variables enter leave : E -> E.
Variable type_name : E -> Z -> bool.
Variable declaration : E -> st -> option (D * (st * E)).
Variables correct constant : E -> expr -> bool.
Hypothesis decl_forward : forall env s d s' env', declaration env s = Some (d, (s', env')) -> sfx s s'.
Variable K : list tok -> Prop.
Hypothesis K_suffix : forall t l, K (t ++ l) -> K l.
Variable R : E -> E -> Prop.
Hypothesis R_refl : forall e, R e e.
Hypothesis R_trans : forall a b c, R a b -> R b c -> R a c.
Hypothesis R_enter : forall e, R e (enter e).
Hypothesis R_leave : forall e, R e (leave e).
Hypothesis R_decl : forall env s d s' env', K (fst s) -> declaration env s = Some (d, (s', env')) -> R env env'.
Notation P := (ps E).
Notation pstmt := (parse_statement E D enter leave type_name declaration correct constant).
Notation read_e := (read_expression E correct).
Notation read_c := (read_constant E constant).
Notation pcond := (parse_condition E correct).
Notation isdecl := (is_declaration_specifier E type_name).
Notation pdecl := (parse_declaration E D declaration).
Definition G (p q : P) : Prop := (exists t, toks E p = t ++ toks E q) /\ (K (toks E p) -> R (p_env p) (p_env q)).
Lemma G_refl p : G p p.
Proof. split; [exists []; reflexivity|auto]. Qed.
Lemma G_trans a b c : G a b -> G b c -> G a c.
Proof.
  intros [[t1 T1] R1] [[t2 T2] R2]. split; [exists (t1 ++ t2); rewrite T1, T2; apply app_assoc|]. intros H. eapply R_trans; [apply R1; exact H|]. apply R2. rewrite T1 in H. exact (K_suffix _ _ H).
Qed.
Lemma G_same p q : adv E p q -> p_env q = p_env p -> G p q.
Proof. intros [[T _] _] Q. split; [exact T|]. rewrite Q. auto. Qed.
Lemma G_consume p : G p (pconsume E p).
Proof. apply G_same; [apply adv_consume|reflexivity]. Qed.
Lemma G_error p : G p (perror E p).
Proof. apply G_same; [apply adv_error|reflexivity]. Qed.
Lemma G_try p k b q : ptry E p k = (b, q) -> G p q.
Proof. unfold ptry. destruct (pis E p k); intros [= _ <-]; [apply G_consume|apply G_refl]. Qed.
Lemma G_expect p k : G p (pexpect E p k).
Proof. apply G_same; [apply adv_expect|reflexivity]. Qed.
Lemma G_skip T p q : pskip E T p = Some q -> G p q.
Proof.
  intros H. apply G_same; [unshelve eapply adv_skip; eassumption|]. unfold pskip in H. destruct (recover T (toks E p)); cbn [bind] in H; [|discriminate]. injection H as <-. reflexivity.
Qed.
Lemma G_read p e ok q : read_e p = Some (e, ok, q) -> G p q.
Proof.
  intros H. apply G_same; [exact (adv_read E D type_name declaration correct decl_forward p e ok q H)|].
  unfold read_expression in H. destruct (parse_expression _ _) as [[e1 s1]|]; cbn [bind] in H; [|discriminate]. injection H as <- <- <-. reflexivity.
Qed.
Lemma G_constant p e ok q : read_c p = Some (e, ok, q) -> G p q.
Proof.
  intros H. apply G_same; [exact (adv_constant E D type_name declaration correct constant decl_forward p e ok q H)|].
  unfold read_constant in H. destruct (parse_constant_expression _ _) as [[e1 s1]|]; cbn [bind] in H; [|discriminate]. injection H as <- <- <-. reflexivity.
Qed.
Lemma G_decl p d q : pdecl p = Some (d, q) -> G p q.
Proof.
  intros H. pose proof (adv_decl E D declaration decl_forward p d q H) as [[T _] _]. split; [exact T|]. intros KK. unfold parse_declaration in H.
  destruct (declaration (p_env p) (p_s p)) as [[d1 [s e]]|] eqn:X; cbn [bind] in H; [|discriminate]. injection H as <- <-. exact (R_decl _ _ _ _ _ KK X).
Qed.
Lemma G_enter p : G p (with_env E p (enter (p_env p))).
Proof. split; [exists []; reflexivity|intros _; apply R_enter]. Qed.
Lemma G_leave p : G p (with_env E p (leave (p_env p))).
Proof. split; [exists []; reflexivity|intros _; apply R_leave]. Qed.

(** Search: facts [G a b] in the context, followed backwards. *)
Ltac back := first [assumption | apply G_refl
  | match goal with H : G ?c ?b |- G _ ?b' => apply (G_trans _ c b'); [clear H; back | exact H] end
  | match goal with |- G _ (with_env _ ?r (leave _)) => apply (G_trans _ r); [back|apply (G_leave r)] end
  | match goal with |- G _ (with_env _ ?r (enter _)) => apply (G_trans _ r); [back|apply (G_enter r)] end
  | match goal with |- G _ (pconsume _ ?r) => apply (G_trans _ r); [back|apply G_consume] end
  | match goal with |- G _ (perror _ ?r) => apply (G_trans _ r); [back|apply G_error] end
  | match goal with |- G _ (pexpect _ ?r ?k) => apply (G_trans _ r); [back|apply G_expect] end
  | match goal with |- G ?a (with_loop _ ?r _) => change (G a r); back | |- G ?a (with_switch _ ?r _) => change (G a r); back | |- G ?a (with_return _ ?r) => change (G a r); back end ].
Ltac facts := repeat match goal with
  | H : ptry _ _ _ = _ |- _ => apply G_try in H
  | H : pskip _ _ _ = Some _ |- _ => apply G_skip in H
  | H : read_e _ = Some _ |- _ => apply G_read in H
  | H : read_c _ = Some _ |- _ => apply G_constant in H
  | H : pdecl _ = Some _ |- _ => apply G_decl in H end.
Ltac opens H := repeat first
  [ match type of H with bind ?t _ = _ => let X := fresh "X" in destruct t as [|] eqn:X; cbn [bind] in H; [|discriminate H] end
  | match type of H with (let '(_, _) := ?t in _) = _ => tryif is_var t then destruct t as [? ?] else (let X := fresh "X" in destruct t as [? ?] eqn:X) end
  | match type of H with (if ?t then _ else _) = _ => let X := fresh "X" in destruct t eqn:X end
  | progress cbn [bind negb] in H ].
Lemma G_condition p e q : pcond p = Some (e, q) -> G p q.
Proof. intros H. unfold parse_condition in H. opens H; facts; injection H as <- <-; try back. all: match goal with |- G _ (snd (ptry E ?z TK_R_PAREN)) => let Y := fresh "Y" in destruct (ptry E z TK_R_PAREN) as [? ?] eqn:Y; facts; cbn [snd]; back end. Qed.
Lemma G_broken T p x q : broken_after E D T p = Some (x, q) -> G p q.
Proof. intros H. unfold broken_after in H. opens H. injection H as <- <-. facts. back. Qed.

Definition keeps (parse : P -> option (stmt D * P)) : Prop := forall p x q, parse p = Some (x, q) -> G p q.
Section One.
Variable parse : P -> option (stmt D * P).
Hypothesis IH : keeps parse.
Ltac facts1 := facts; repeat match goal with
  | H : pcond _ = Some _ |- _ => apply G_condition in H
  | H : broken_after _ _ _ _ = Some _ |- _ => apply G_broken in H
  | H : parse _ = Some _ |- _ => apply IH in H end.
Lemma G_items : forall g p xs q, parse_items E D type_name declaration parse g p = Some (xs, q) -> G p q.
Proof.
  induction g as [|g IHg]; intros p xs q H; [discriminate|]. cbn [parse_items] in H. opens H.
  - injection H as <- <-. apply G_refl.
  - injection H as <- <-. apply IHg in X1. opens X0; try (injection X0 as <- <-); facts1; back.
Qed.
Lemma G_body : keeps (parse_compound_statement_body E D type_name declaration parse).
Proof. intros p x q H. unfold parse_compound_statement_body in H. opens H; injection H as <- <-; apply G_items in X; back. Qed.
Lemma keeps_block : keeps (parse_compound_statement E D enter leave type_name declaration parse).
Proof. intros p x q H. unfold parse_compound_statement in H. opens H; injection H as <- <-; apply G_body in X; back. Qed.
(** The heads of [for]. *)
Definition hg {A} (p : P) (r : option ((A * P) + (stmt D * P))) : Prop :=
  forall v, r = Some v -> match v with inl (_, q) => G p q | inr (_, q) => G p q end.
Lemma hg_stop {A} p q : G p q -> hg p (@stop_for E D A q).
Proof. intros L v H. unfold stop_for in H. opens H. injection H as <-. facts1. destruct p0. facts1. back. Qed.
Lemma hg_init p : hg p (parse_for_init E D type_name declaration correct p).
Proof.
  intros v H. unfold parse_for_init in H. opens H; facts1.
  all: try (injection H as <-; back).
  all: refine (hg_stop p _ _ v H); back.
Qed.
Lemma hg_condition p : hg p (parse_for_condition E D correct p).
Proof.
  intros v H. unfold parse_for_condition in H. opens H; facts1.
  all: try (injection H as <-; back).
  all: refine (hg_stop p _ _ v H); back.
Qed.
Lemma hg_increment p : hg p (parse_for_increment E D correct p).
Proof.
  intros v H. unfold parse_for_increment in H.
  match type of H with bind ?a _ = _ => assert (Hd: hg p a) end.
  { intros w W. opens W; facts1. all: try (injection W as <-; back). refine (hg_stop p _ _ w W); back. }
  match type of H with bind ?a _ = _ => destruct a as [[[n p1]|[b p1]]|] end; cbn [bind] in H; [| |discriminate].
  - specialize (Hd _ eq_refl). cbn beta iota in Hd. opens H; facts1; [injection H as <-; back|]. refine (hg_stop p _ _ v H); back.
  - injection H as <-. exact (Hd _ eq_refl).
Qed.
Lemma keeps_for : keeps (parse_for_statement E D enter leave type_name declaration correct parse).
Proof.
  intros p x q H. unfold parse_for_statement in H. set (p0 := with_env E (pconsume E p) (enter (p_env (pconsume E p)))) in *.
  assert (G0: G p p0) by (unfold p0; back). destruct (negb (pis E p0 TK_L_PAREN)); [facts1; back|].
  pose proof (hg_init (pconsume E p0)) as H1. destruct (parse_for_init E D type_name declaration correct (pconsume E p0)) as [[[i p1]|[b p1]]|]; cbn [bind] in H; [| |discriminate].
  2:{ injection H as <- <-. specialize (H1 _ eq_refl). cbn beta iota in H1. back. }
  specialize (H1 _ eq_refl). cbn beta iota in H1. pose proof (hg_condition p1) as H2. destruct (parse_for_condition E D correct p1) as [[[c p2]|[b p2]]|]; cbn [bind] in H; [| |discriminate].
  2:{ injection H as <- <-. specialize (H2 _ eq_refl). cbn beta iota in H2. back. }
  specialize (H2 _ eq_refl). cbn beta iota in H2. pose proof (hg_increment p2) as H3. destruct (parse_for_increment E D correct p2) as [[[n p3]|[b p3]]|]; cbn [bind] in H; [| |discriminate].
  2:{ injection H as <- <-. specialize (H3 _ eq_refl). cbn beta iota in H3. back. }
  specialize (H3 _ eq_refl). cbn beta iota in H3. opens H. injection H as <- <-. facts1. change (G p3 p4) in X. apply (G_trans _ p4); [back|exact (G_leave p4)].
Qed.
Lemma keeps_others p x q :
  (parse_case_statement E D constant parse p = Some (x, q) -> G p q) /\ (parse_default_statement E D parse p = Some (x, q) -> G p q)
  /\ (parse_if_statement E D correct parse p = Some (x, q) -> G p q) /\ (parse_switch_statement E D correct parse p = Some (x, q) -> G p q)
  /\ (parse_while_statement E D correct parse p = Some (x, q) -> G p q) /\ (parse_do_statement E D correct parse p = Some (x, q) -> G p q)
  /\ (parse_continue_statement E D p = Some (x, q) -> G p q) /\ (parse_break_statement E D p = Some (x, q) -> G p q)
  /\ (parse_return_statement E D correct p = Some (x, q) -> G p q) /\ (parse_expression_statement E D correct p = Some (x, q) -> G p q).
Proof.
  unfold parse_case_statement, parse_default_statement, parse_if_statement, parse_switch_statement, parse_while_statement, parse_do_statement,
    parse_continue_statement, parse_break_statement, parse_return_statement, parse_expression_statement.
  repeat match goal with |- _ /\ _ => split end; intros H; opens H; facts1; try (injection H as <- <-); try back.
  all: repeat match goal with H : G (with_switch _ ?r _) ?s |- _ => change (G r s) in H | H : G (with_loop _ ?r _) ?s |- _ => change (G r s) in H | H : G (with_return _ ?r) ?s |- _ => change (G r s) in H end; try back.
Qed.
End One.
Lemma keeps_statement f : keeps (pstmt f).
Proof.
  induction f as [|f IH]; [intros p x q; discriminate|]. intros p x q H. cbn [parse_statement] in H.
  destruct (keeps_others (pstmt f) IH p x q) as (K1 & K2 & K3 & K4 & K5 & K6 & K7 & K8 & K9 & K10).
  destruct (pis E p TK_CASE); [auto|]. destruct (pis E p TK_DEFAULT); [auto|]. destruct (pis E p TK_L_BRACE); [eapply keeps_block; eauto|].
  destruct (pis E p TK_SEMICOLON); [injection H as <- <-; apply G_consume|]. destruct (pis E p TK_IF); [auto|]. destruct (pis E p TK_SWITCH); [auto|].
  destruct (pis E p TK_WHILE); [auto|]. destruct (pis E p TK_DO); [auto|]. destruct (pis E p TK_FOR); [eapply keeps_for; eauto|].
  destruct (pis E p TK_CONTINUE); [auto|]. destruct (pis E p TK_BREAK); [auto|]. destruct (pis E p TK_RETURN); auto.
Qed.
End T.

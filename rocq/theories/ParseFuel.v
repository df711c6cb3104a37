(** Fuel: the parser ends on every list of tokens. *)
From Verif Require Import Prelude LexModel ParseModel ParseSpec.

Lemma skip_mono f : forall f' T l r, (f <= f')%nat -> skip_until f T l = Some r -> skip_until f' T l = Some r.
Proof.
  induction f as [|f IH]; intros f' T l r L H; [discriminate|]. destruct f' as [|f']; [lia|]. cbn [skip_until] in *.
  assert (L': (f <= f')%nat) by lia.
  repeat match goal with |- context [if ?b then _ else _] => destruct b eqn:? end; auto; try (eapply IH; eauto; fail).
  all: destruct (skip_until f _ (tl l)) as [l'|] eqn:E; cbn [bind] in H; [|discriminate]; erewrite IH by eauto; cbn [bind]; eauto.
Qed.
Lemma skip_ends f : forall T l, (2 * length l < f)%nat -> exists r, skip_until f T l = Some r /\ (length r <= length l)%nat.
Proof.
  induction f as [|f IH]; intros T l L; [lia|]. cbn [skip_until].
  destruct l as [|t l]; [exists []; split; auto|]. cbn [cur tl length] in *.
  assert (D: forall X, exists r, (do l0 <- skip_until f X l; skip_until f T l0) = Some r /\ (length r <= S (length l))%nat).
  { intros X. destruct (IH X l ltac:(lia)) as (r & -> & Lr). cbn [bind]. destruct (IH T r ltac:(lia)) as (q & -> & Lq). exists q. split; auto. lia. }
  assert (D': exists r, skip_until f T l = Some r /\ (length r <= S (length l))%nat).
  { destruct (IH T l ltac:(lia)) as (r & -> & Lr). exists r. split; auto. }
  repeat match goal with |- context [if ?b then _ else _] => destruct b eqn:? end; auto; try apply D; try apply D'; eexists; (split; [reflexivity|cbn; lia]).
Qed.

Lemma consume_len (s : st) : (length (fst (consume s)) <= length (fst s))%nat.
Proof. destruct s as [[|t l] e]; cbn; lia. Qed.
Lemma is_len (s : st) k : is s k = true -> k <> TK_EOF -> (length (fst (consume s)) < length (fst s))%nat.
Proof. unfold is. destruct s as [[|t l] e]; cbn [fst cur consume tl length]; intros H N; [|lia]. exfalso. apply N. apply Z.eqb_eq in H. auto. Qed.
Lemma try_len (s : st) k : (length (fst (snd (try_consume s k))) <= length (fst s))%nat.
Proof. unfold try_consume. destruct (is s k); cbn [snd]; auto using consume_len. Qed.
Lemma skip_st_ends f T s : (2 * length (fst s) < f)%nat -> exists r, skip f T s = Some r /\ (length (fst r) <= length (fst s))%nat /\ snd r = snd s.
Proof. intros L. unfold skip. destruct (skip_ends f T (fst s) L) as (r & -> & Lr). cbn [bind]. exists (r, snd s). auto. Qed.
Lemma skip_st_mono f f' T s r : (f <= f')%nat -> skip f T s = Some r -> skip f' T s = Some r.
Proof. intros L. unfold skip. destruct (skip_until f T (fst s)) eqn:E; cbn [bind]; [|discriminate]. rewrite (skip_mono _ _ _ _ _ L E). auto. Qed.

(** More fuel does not change a result. *)
Definition grows {A R} (F : nat -> A -> option R) (f : nat) : Prop := forall f' a r, (f <= f')%nat -> F f a = Some r -> F f' a = Some r.
Definition rhs f (a : expr * Z * st) := let '(x, m, s) := a in parse_RHS_of_binary_expression f x m s.
Definition pfl f (a : expr * st) := let '(x, s) := a in postfix_loop f x s.
Ltac step IH H :=
  match type of H with
  | bind ?x _ = Some _ => let E := fresh "E" in destruct x eqn:E; cbn [bind] in H; [|discriminate]
  | (let '(_, _) := ?p in _) = Some _ => destruct p
  end.
Lemma mono f : grows parse_primary_expression f /\ grows parse_initializer_list f /\ grows parse_postfix_expression f /\ grows pfl f
  /\ grows parse_unary_expression f /\ grows rhs f /\ grows parse_assignment_expression f /\ grows parse_expression f /\ grows parse_initializer f.
Proof.
  induction f as [|f (Mprim & Mlist & Mpost & Mloop & Mun & Mrhs & Mas & Mex & Min)].
  { repeat split; intros f' a r L H; try discriminate; destruct a as [a ?]; try destruct a; discriminate. }
  assert (Mloop': forall f' x s r, (f <= f')%nat -> postfix_loop f x s = Some r -> postfix_loop f' x s = Some r) by (intros f' x s r L; exact (Mloop f' (x, s) r L)).
  assert (Mrhs': forall f' x m s r, (f <= f')%nat -> parse_RHS_of_binary_expression f x m s = Some r -> parse_RHS_of_binary_expression f' x m s = Some r) by (intros f' x m s r L; exact (Mrhs f' (x, m, s) r L)).
  unfold grows in *.
  repeat split; intros f' a r L; (destruct f' as [|f']; [lia|]); apply le_S_n in L; revert a r.
  - intros s r H. cbn [parse_primary_expression] in *. destruct (fst s) as [|[] ?]; auto;
      repeat match goal with |- context [if is s ?k then _ else _] => destruct (is s k) eqn:? end; auto;
      destruct (parse_expression f (consume s)) as [[e s1]|] eqn:E; cbn [bind] in H; try discriminate; rewrite (Mex _ _ _ L E); exact H.
  - intros s r H. cbn [parse_initializer_list] in *. destruct (parse_initializer f s) as [[e s1]|] eqn:E; cbn [bind] in H; [|discriminate].
    rewrite (Min _ _ _ L E). cbn [bind]. destruct (is s1 TK_COMMA); auto.
    destruct (parse_initializer_list f (consume s1)) as [[es s2]|] eqn:E2; cbn [bind] in H; [|discriminate]. rewrite (Mlist _ _ _ L E2). exact H.
  - intros s r H. cbn [parse_postfix_expression] in *. destruct (parse_primary_expression f s) as [[e s1]|] eqn:E; cbn [bind] in H; [|discriminate].
    rewrite (Mprim _ _ _ L E). cbn [bind]. auto.
  - intros [x s] r H. cbn [pfl postfix_loop] in *.
    destruct (is s TK_L_SQUARE).
    { destruct (parse_expression f (consume s)) as [[e s1]|] eqn:E; cbn [bind] in H; [|discriminate]. rewrite (Mex _ _ _ L E). cbn [bind].
      destruct (is s1 TK_R_SQUARE); auto.
      destruct (skip f _ (error s1)) as [s2|] eqn:E2; cbn [bind] in H; [|discriminate]. rewrite (skip_st_mono _ _ _ _ _ L E2). cbn [bind]. auto. }
    destruct (is s TK_L_PAREN).
    { destruct (is (consume s) TK_R_PAREN); auto.
      destruct (parse_initializer_list f (consume s)) as [[e s1]|] eqn:E; cbn [bind] in H; [|discriminate]. rewrite (Mlist _ _ _ L E). cbn [bind].
      destruct (is s1 TK_R_PAREN); auto.
      destruct (skip f _ (error s1)) as [s2|] eqn:E2; cbn [bind] in H; [|discriminate]. rewrite (skip_st_mono _ _ _ _ _ L E2). cbn [bind]. auto. }
    destruct (is s TK_PERIOD || is s TK_ARROW). { destruct (fst (consume s)) as [|[] ?]; auto. }
    destruct (is s TK_PLUS_PLUS); auto. destruct (is s TK_MINUS_MINUS); auto.
  - intros s r H. cbn [parse_unary_expression] in *. destruct (is_unary _); auto. destruct (token_to_unary _); cbn [bind] in *; [|discriminate].
    destruct (parse_unary_expression f (consume s)) as [[e s1]|] eqn:E; cbn [bind] in H; [|discriminate]. rewrite (Mun _ _ _ L E). exact H.
  - intros [[x m] s] r H. cbn [rhs parse_RHS_of_binary_expression] in *. destruct (_ >=? m); auto.
    set (mid := if negb (get_operator_precedence (cur (fst s)) =? PREC_CONDITIONAL) then Some (EBroken, consume s) else _) in H at 1.
    destruct mid as [[md s1]|] eqn:E; cbn [bind] in H; [|discriminate].
    match goal with |- bind ?a _ = _ => assert (E': a = Some (md, s1)) end.
    { destruct (negb _); auto. unfold mid in E. destruct (parse_initializer f (consume s)) as [[e s2]|] eqn:E2; cbn [bind] in E; [|discriminate]. rewrite (Min _ _ _ L E2). exact E. }
    rewrite E'. cbn [bind]. clear E' E mid.
    destruct (if is s1 TK_L_BRACE then parse_initializer f s1 else parse_unary_expression f s1) as [[y s2]|] eqn:E; cbn [bind] in H; [|discriminate].
    assert (E': (if is s1 TK_L_BRACE then parse_initializer f' s1 else parse_unary_expression f' s1) = Some (y, s2)) by (destruct (is s1 TK_L_BRACE); eauto).
    rewrite E'. cbn [bind]. clear E' E.
    match type of H with bind ?a _ = _ => destruct a as [[z s3]|] eqn:E; cbn [bind] in H; [|discriminate] end.
    match goal with |- bind ?a _ = _ => assert (E': a = Some (z, s3)) by (match goal with |- (if ?b then _ else _) = _ => destruct b end; eauto) end.
    rewrite E'. cbn [bind]. destruct (negb _); auto. destruct (token_to_binary _); cbn [bind] in *; auto; discriminate.
  - intros s r H. cbn [parse_assignment_expression] in *. destruct (parse_unary_expression f s) as [[e s1]|] eqn:E; cbn [bind] in H; [|discriminate].
    rewrite (Mun _ _ _ L E). cbn [bind]. auto.
  - intros s r H. cbn [parse_expression] in *. destruct (parse_assignment_expression f s) as [[e s1]|] eqn:E; cbn [bind] in H; [|discriminate].
    rewrite (Mas _ _ _ L E). cbn [bind]. auto.
  - intros s r H. cbn [parse_initializer] in *. destruct (is s TK_L_BRACE); auto. destruct (is (consume s) TK_R_BRACE); auto.
    destruct (parse_initializer_list f (consume s)) as [[e s1]|] eqn:E; cbn [bind] in H; [|discriminate]. rewrite (Mlist _ _ _ L E). cbn [bind].
    destruct (is s1 TK_R_BRACE); auto.
    destruct (skip f _ (error s1)) as [s2|] eqn:E2; cbn [bind] in H; [|discriminate]. rewrite (skip_st_mono _ _ _ _ _ L E2). exact H.
Qed.

(** The rest of the tokens is an end of the tokens, errors are only added. *)
Definition sfx (s r : st) : Prop := (exists t, fst s = t ++ fst r) /\ snd s <= snd r.
Lemma sfx_refl s : sfx s s.
Proof. split; [exists []; auto|lia]. Qed.
Lemma sfx_trans a b c : sfx a b -> sfx b c -> sfx a c.
Proof. intros [[t Ht] E] [[u Hu] E']. split; [exists (t ++ u); rewrite Ht, Hu, app_assoc; auto|lia]. Qed.
Lemma sfx_len s r : sfx s r -> (length (fst r) <= length (fst s))%nat.
Proof. intros [[t Ht] _]. rewrite Ht, app_length. lia. Qed.
Lemma sfx_consume s : sfx s (consume s).
Proof. destruct s as [[|t l] e]; split; cbn [fst snd consume tl]; try lia; [exists []|exists [t]]; auto. Qed.
Lemma sfx_error s : sfx s (error s).
Proof. destruct s as [l e]. split; cbn [fst snd error]; [exists []; auto|lia]. Qed.
Lemma sfx_try s k : sfx s (snd (try_consume s k)).
Proof. unfold try_consume. destruct (is s k); cbn [snd]; auto using sfx_consume, sfx_refl. Qed.
Lemma skip_suffix f : forall T l r, skip_until f T l = Some r -> exists t, l = t ++ r.
Proof.
  induction f as [|f IH]; intros T l r H; [discriminate|]. cbn [skip_until] in H.
  assert (N: forall r', skip_until f T (tl l) = Some r' -> exists t, l = t ++ r').
  { intros r' H'. apply IH in H' as [t Ht]. destruct l as [|x l]; cbn [tl] in Ht; [exists t; auto|exists (x :: t); cbn; congruence]. }
  assert (D: forall X, (do l0 <- skip_until f X (tl l); skip_until f T l0) = Some r -> exists t, l = t ++ r).
  { intros X H'. destruct (skip_until f X (tl l)) as [q|] eqn:E; cbn [bind] in H'; [|discriminate]. apply IH in H' as [u Hu]. apply IH in E as [t Ht].
    destruct l as [|x l]; cbn [tl] in Ht; [exists (t ++ u); rewrite <- app_assoc; congruence|exists (x :: t ++ u); cbn; rewrite <- app_assoc; congruence]. }
  repeat match type of H with (if ?b then _ else _) = _ => destruct b eqn:? end; eauto; try (injection H as <-; exists []; auto).
Qed.
Lemma sfx_skip f T s r : skip f T s = Some r -> sfx s r.
Proof.
  unfold skip. destruct (skip_until f T (fst s)) eqn:E; cbn [bind]; [|discriminate]. intros [= <-]. split; cbn [fst snd]; [|lia]. eapply skip_suffix; eauto.
Qed.

Lemma prec_known k : 1 <= get_operator_precedence k -> k <> TK_EOF /\ (get_operator_precedence k <> PREC_CONDITIONAL -> exists op, token_to_binary k = Some op).
Proof.
  unfold get_operator_precedence. intros H. destruct (table_find precedence_table k) as [p|] eqn:E; [|unfold PREC_UNKNOWN in H; lia]. clear H.
  unfold precedence_table in E. cbn [table_find] in E.
  repeat match type of E with (if k =? ?x then _ else _) = _ => destruct (Z.eqb_spec k x) as [->|_];
    [injection E as <-; split; [discriminate|]; intros N; try (exfalso; apply N; reflexivity); eexists; vm_compute; reflexivity|] end.
  discriminate.
Qed.
Lemma unary_known k : is_unary k = true -> k <> TK_EOF /\ exists op, token_to_unary k = Some op.
Proof.
  unfold is_unary. intros H. rewrite !orb_true_iff, !Z.eqb_eq in H.
  repeat match type of H with _ \/ _ => destruct H as [H|H] end; subst k; (split; [discriminate|eexists; vm_compute; reflexivity]).
Qed.

Definition ends {A R} (rank : nat) (F : nat -> A -> option R) (toks : A -> st) (left : R -> st) (f : nat) : Prop :=
  forall a, (16 * length (fst (toks a)) + rank < f)%nat -> exists r, F f a = Some r /\ sfx (toks a) (left r).
Definition rhs1 f (a : expr * Z * st) := let '(x, m, s) := a in parse_RHS_of_binary_expression f x (Z.max 1 m) s.

Ltac len := repeat match goal with H : sfx _ _ |- _ => apply sfx_len in H end; unfold error, consume in *; cbn [fst snd] in *; lia.
Lemma total f :
  ends 2 parse_primary_expression (fun s => s) snd f /\ ends 7 parse_initializer_list (fun s => s) snd f
  /\ ends 3 parse_postfix_expression (fun s => s) snd f /\ ends 1 pfl snd snd f /\ ends 4 parse_unary_expression (fun s => s) snd f
  /\ ends 1 rhs1 snd snd f /\ ends 5 parse_assignment_expression (fun s => s) snd f
  /\ ends 6 parse_expression (fun s => s) snd f /\ ends 6 parse_initializer (fun s => s) snd f.
Proof.
  induction f as [|f (Tprim & Tlist & Tpost & Tloop & Tun & Trhs & Tas & Tex & Tin)].
  { repeat split; intros a L; lia. }
  assert (Tloop': forall x s, (16 * length (fst s) + 1 < f)%nat -> exists r, postfix_loop f x s = Some r /\ sfx s (snd r)) by (intros x s; exact (Tloop (x, s))).
  assert (Trhs': forall x m s, 1 <= m -> (16 * length (fst s) + 1 < f)%nat -> exists r, parse_RHS_of_binary_expression f x m s = Some r /\ sfx s (snd r)).
  { intros x m s M. specialize (Trhs (x, m, s)). cbn [rhs1] in Trhs. rewrite Z.max_r in Trhs by lia. exact Trhs. }
  unfold ends in Tprim, Tlist, Tpost, Tun, Tas, Tex, Tin.
  repeat split.
  - intros s L. cbn beta in *. cbn [parse_primary_expression].
    match goal with |- exists r, match _ with [] => ?X | _ => _ end = _ /\ _ => assert (NL: exists r, X = Some r /\ sfx s (snd r)) end.
    { repeat match goal with |- context [if is s ?k then _ else _] => destruct (is s k) eqn:? end;
        try (eexists; split; [reflexivity|first [apply sfx_consume|apply sfx_error]]; fail).
      match goal with H : is s TK_L_PAREN = true |- _ => pose proof (is_len _ _ H ltac:(discriminate)) as Lc end.
      pose proof (sfx_consume s) as Sc. destruct (Tex (consume s) ltac:(lia)) as ([e s1] & -> & S1); cbn [bind snd] in *.
      destruct (is s1 TK_R_PAREN); eexists; (split; [reflexivity|]); cbn [snd];
      (eapply sfx_trans; [exact Sc|eapply sfx_trans; [exact S1|first [apply sfx_consume|apply sfx_error]]]). }
    destruct (fst s) as [|[] ?] eqn:Es; auto; (eexists; split; [reflexivity|apply sfx_consume]).
  - intros s L. cbn [parse_initializer_list]. destruct (Tin s ltac:(lia)) as ([e s1] & -> & S1). cbn [bind snd] in *.
    destruct (is s1 TK_COMMA) eqn:C; [|eexists; split; [reflexivity|exact S1]].
    pose proof (is_len _ _ C ltac:(discriminate)) as Lc. pose proof (sfx_len _ _ S1) as L1.
    destruct (Tlist (consume s1) ltac:(lia)) as ([es s2] & -> & S2). cbn [bind snd] in *. eexists. split; [reflexivity|]. cbn [snd].
    eapply sfx_trans; [exact S1|]. eapply sfx_trans; [apply sfx_consume|exact S2].
  - intros s L. cbn [parse_postfix_expression]. destruct (Tprim s ltac:(lia)) as ([e s1] & -> & S1). cbn [bind snd] in *.
    pose proof (sfx_len _ _ S1) as L1. destruct (Tloop' e s1 ltac:(lia)) as (r & -> & S2). eexists. split; [reflexivity|]. eapply sfx_trans; eauto.
  - intros [x s] L. cbn [pfl postfix_loop snd] in *.
    assert (LP: forall y q, sfx s q -> (length (fst q) < length (fst s))%nat -> exists r, postfix_loop f y q = Some r /\ sfx s (snd r)).
    { intros y q Sq Lq. destruct (Tloop' y q ltac:(lia)) as (r & -> & S'). eexists. split; [reflexivity|]. eapply sfx_trans; eauto. }
    assert (RC: forall s1 T k, sfx s s1 -> (length (fst s1) < length (fst s))%nat ->
      exists r, (do s0 <- skip f T (error s1); postfix_loop f EBroken (snd (try_consume s0 k))) = Some r /\ sfx s (snd r)).
    { intros s1 T k S1 L1. destruct (skip_st_ends f T (error s1)) as (s2 & E2 & L2 & _); [destruct s1; cbn [error fst] in *; lia|].
      pose proof (sfx_skip _ _ _ _ E2) as S2. rewrite E2. cbn [bind]. apply LP.
      - eapply sfx_trans; [exact S1|]. eapply sfx_trans; [apply sfx_error|]. eapply sfx_trans; [exact S2|apply sfx_try].
      - pose proof (try_len s2 k). destruct s1; cbn [error fst] in *; lia. }
    destruct (is s TK_L_SQUARE) eqn:Q1.
    { pose proof (is_len _ _ Q1 ltac:(discriminate)) as Lc. pose proof (sfx_consume s) as Sc.
      destruct (Tex (consume s) ltac:(lia)) as ([e s1] & -> & S1). cbn [bind snd] in *. pose proof (sfx_len _ _ S1) as L1. pose proof (sfx_trans _ _ _ Sc S1) as S1'.
      destruct (is s1 TK_R_SQUARE); [|apply RC; auto; lia]. apply LP; [eapply sfx_trans; [exact S1'|apply sfx_consume]|pose proof (consume_len s1); lia]. }
    destruct (is s TK_L_PAREN) eqn:Q2.
    { pose proof (is_len _ _ Q2 ltac:(discriminate)) as Lc. pose proof (sfx_consume s) as Sc.
      destruct (is (consume s) TK_R_PAREN). { apply LP; [eapply sfx_trans; [exact Sc|apply sfx_consume]|pose proof (consume_len (consume s)); lia]. }
      destruct (Tlist (consume s) ltac:(lia)) as ([e s1] & -> & S1). cbn [bind snd] in *. pose proof (sfx_len _ _ S1) as L1. pose proof (sfx_trans _ _ _ Sc S1) as S1'.
      destruct (is s1 TK_R_PAREN); [|apply RC; auto; lia]. apply LP; [eapply sfx_trans; [exact S1'|apply sfx_consume]|pose proof (consume_len s1); lia]. }
    destruct (is s TK_PERIOD || is s TK_ARROW) eqn:Q3.
    { assert (Lc: (length (fst (consume s)) < length (fst s))%nat) by (apply orb_true_iff in Q3 as [Q3|Q3]; eapply is_len; eauto; discriminate).
      pose proof (sfx_consume s) as Sc. pose proof (consume_len (consume s)) as Lcc.
      assert (EE: exists r, postfix_loop f EBroken (error (consume s)) = Some r /\ sfx s (snd r)).
      { apply LP; [eapply sfx_trans; [exact Sc|apply sfx_error]|exact Lc]. }
      destruct (fst (consume s)) as [|[] ?] eqn:Ec; auto. apply LP; [eapply sfx_trans; [exact Sc|apply sfx_consume]|rewrite <- Ec in *; lia]. }
    destruct (is s TK_PLUS_PLUS) eqn:Q4. { apply LP; [apply sfx_consume|apply (is_len _ _ Q4); discriminate]. }
    destruct (is s TK_MINUS_MINUS) eqn:Q5. { apply LP; [apply sfx_consume|apply (is_len _ _ Q5); discriminate]. }
    eexists. split; [reflexivity|apply sfx_refl].
  - intros s L. cbn [parse_unary_expression]. destruct (is_unary _) eqn:U.
    + apply unary_known in U as (N & op & ->). cbn [bind].
      assert (Lc: (length (fst (consume s)) < length (fst s))%nat) by (apply (is_len s (cur (fst s))); [unfold is; lia|auto]).
      destruct (Tun (consume s) ltac:(lia)) as ([e s1] & -> & S1). cbn [bind snd] in *. eexists. split; [reflexivity|]. eapply sfx_trans; [apply sfx_consume|exact S1].
    + destruct (Tpost s ltac:(lia)) as (r & -> & S1). eauto.
  - intros [[x m] s] L. cbn [rhs1 parse_RHS_of_binary_expression snd] in *. set (k := cur (fst s)). set (p := get_operator_precedence k).
    destruct (p >=? Z.max 1 m) eqn:G; [|eexists; split; [reflexivity|apply sfx_refl]].
    destruct (prec_known k) as (N & B); [unfold p in G; lia|].
    assert (Lc: (length (fst (consume s)) < length (fst s))%nat) by (apply (is_len s k); [unfold is, k; lia|auto]).
    pose proof (sfx_consume s) as Sc.
    assert (MID: exists md s1, (if negb (p =? PREC_CONDITIONAL) then Some (EBroken, consume s) else
        do ' (middle, s0) <- parse_initializer f (consume s); Some (middle, if is s0 TK_COLON then consume s0 else error s0)) = Some (md, s1) /\ sfx s s1 /\ (length (fst s1) < length (fst s))%nat).
    { destruct (negb _); [do 2 eexists; split; [reflexivity|auto]|]. destruct (Tin (consume s) ltac:(lia)) as ([e s1] & -> & S1). cbn [bind snd] in *.
      do 2 eexists. split; [reflexivity|]. pose proof (sfx_trans _ _ _ Sc S1) as S1'. pose proof (sfx_len _ _ S1).
      destruct (is s1 TK_COLON); (split; [eapply sfx_trans; [exact S1'|first [apply sfx_consume|apply sfx_error]]|]); [pose proof (consume_len s1); lia|]. destruct s1; cbn [error fst] in *; lia. }
    destruct MID as (md & s1 & -> & S1 & L1). cbn [bind].
    assert (RH: exists y s2, (if is s1 TK_L_BRACE then parse_initializer f s1 else parse_unary_expression f s1) = Some (y, s2) /\ sfx s1 s2).
    { destruct (is s1 TK_L_BRACE); [destruct (Tin s1 ltac:(lia)) as ([y s2] & -> & S2)|destruct (Tun s1 ltac:(lia)) as ([y s2] & -> & S2)]; do 2 eexists; (split; [reflexivity|exact S2]). }
    destruct RH as (y & s2 & -> & S2). cbn [bind]. pose proof (sfx_len _ _ S2) as L2.
    set (right := (p =? PREC_CONDITIONAL) || (p =? PREC_ASSIGNMENT)).
    assert (R3: exists z s3, (if (p <? get_operator_precedence (cur (fst s2))) || (p =? get_operator_precedence (cur (fst s2))) && right
        then parse_RHS_of_binary_expression f y (p + (if right then 0 else 1)) s2 else Some (y, s2)) = Some (z, s3) /\ sfx s2 s3).
    { match goal with |- context [if ?b then _ else Some (y, s2)] => destruct b end; [|do 2 eexists; split; [reflexivity|apply sfx_refl]].
      destruct (Trhs' y (p + (if right then 0 else 1)) s2) as ([z s3] & -> & S3); [destruct right; lia|lia|]. do 2 eexists. split; [reflexivity|exact S3]. }
    destruct R3 as (z & s3 & -> & S3). cbn [bind]. pose proof (sfx_len _ _ S3) as L3.
    assert (S03: sfx s s3) by (eapply sfx_trans; [exact S1|]; eapply sfx_trans; eauto).
    destruct (negb (p =? PREC_CONDITIONAL)) eqn:NB.
    + destruct (B ltac:(unfold p in NB; lia)) as (op & ->). cbn [bind]. destruct (Trhs' (EBinary op x z) (Z.max 1 m) s3) as (r & -> & S4); [lia|lia|].
      eexists. split; [reflexivity|]. eapply sfx_trans; eauto.
    + destruct (Trhs' (ETernary x md z) (Z.max 1 m) s3) as (r & -> & S4); [lia|lia|]. eexists. split; [reflexivity|]. eapply sfx_trans; eauto.
  - intros s L. cbn [parse_assignment_expression]. destruct (Tun s ltac:(lia)) as ([e s1] & -> & S1). cbn [bind snd] in *. pose proof (sfx_len _ _ S1).
    destruct (Trhs' e PREC_ASSIGNMENT s1) as (r & -> & S2); [discriminate|lia|]. eexists. split; [reflexivity|]. eapply sfx_trans; eauto.
  - intros s L. cbn [parse_expression]. destruct (Tas s ltac:(lia)) as ([e s1] & -> & S1). cbn [bind snd] in *. pose proof (sfx_len _ _ S1).
    destruct (Trhs' e PREC_COMMA s1) as (r & -> & S2); [discriminate|lia|]. eexists. split; [reflexivity|]. eapply sfx_trans; eauto.
  - intros s L. cbn [parse_initializer]. destruct (is s TK_L_BRACE) eqn:Q.
    + pose proof (is_len _ _ Q ltac:(discriminate)) as Lc. pose proof (sfx_consume s) as Sc.
      destruct (is (consume s) TK_R_BRACE). { eexists. split; [reflexivity|]. eapply sfx_trans; [exact Sc|]. eapply sfx_trans; [apply sfx_consume|apply sfx_error]. }
      destruct (Tlist (consume s) ltac:(lia)) as ([e s1] & -> & S1). cbn [bind snd] in *. pose proof (sfx_len _ _ S1) as L1.
      destruct (is s1 TK_R_BRACE). { eexists. split; [reflexivity|]. eapply sfx_trans; [exact Sc|]. eapply sfx_trans; [exact S1|apply sfx_consume]. }
      destruct (skip_st_ends f (Z.lor TK_R_BRACE TK_SEMICOLON) (error s1)) as (s2 & E2 & _ & _); [destruct s1; cbn [error fst] in *; lia|].
      rewrite E2. cbn [bind]. eexists. split; [reflexivity|]. cbn [snd]. eapply sfx_trans; [exact Sc|]. eapply sfx_trans; [exact S1|].
      eapply sfx_trans; [apply sfx_error|]. eapply sfx_trans; [eapply sfx_skip; exact E2|apply sfx_try].
    + destruct (Tas s ltac:(lia)) as (r & -> & S1). eauto.
Qed.

(** Texts of the grammar are parsed to their expressions. *)
From Verif Require Import Prelude LexModel ParseModel ParseSpec ParseFuel.
From Coq Require Import SpecFloat.

Definition prim s r := exists f, parse_primary_expression f s = Some r.
Definition lst s r := exists f, parse_initializer_list f s = Some r.
Definition post s r := exists f, parse_postfix_expression f s = Some r.
Definition ploop x s r := exists f, postfix_loop f x s = Some r.
Definition un s r := exists f, parse_unary_expression f s = Some r.
Definition rhsr x m s r := exists f, parse_RHS_of_binary_expression f x m s = Some r.
Definition asg s r := exists f, parse_assignment_expression f s = Some r.
Definition exp s r := exists f, parse_expression f s = Some r.
Definition ini s r := exists f, parse_initializer f s = Some r.
Definition opnd s r := if is s TK_L_BRACE then ini s r else un s r.

Lemma m_prim f f' s r : (f <= f')%nat -> parse_primary_expression f s = Some r -> parse_primary_expression f' s = Some r.
Proof. apply (proj1 (mono f)). Qed.
Lemma m_lst f f' s r : (f <= f')%nat -> parse_initializer_list f s = Some r -> parse_initializer_list f' s = Some r.
Proof. apply (proj1 (proj2 (mono f))). Qed.
Lemma m_post f f' s r : (f <= f')%nat -> parse_postfix_expression f s = Some r -> parse_postfix_expression f' s = Some r.
Proof. apply (proj1 (proj2 (proj2 (mono f)))). Qed.
Lemma m_ploop f f' x s r : (f <= f')%nat -> postfix_loop f x s = Some r -> postfix_loop f' x s = Some r.
Proof. intros L. apply (proj1 (proj2 (proj2 (proj2 (mono f)))) f' (x, s) r L). Qed.
Lemma m_un f f' s r : (f <= f')%nat -> parse_unary_expression f s = Some r -> parse_unary_expression f' s = Some r.
Proof. apply (proj1 (proj2 (proj2 (proj2 (proj2 (mono f)))))). Qed.
Lemma m_rhs f f' x m s r : (f <= f')%nat -> parse_RHS_of_binary_expression f x m s = Some r -> parse_RHS_of_binary_expression f' x m s = Some r.
Proof. intros L. apply (proj1 (proj2 (proj2 (proj2 (proj2 (proj2 (mono f)))))) f' (x, m, s) r L). Qed.
Lemma m_asg f f' s r : (f <= f')%nat -> parse_assignment_expression f s = Some r -> parse_assignment_expression f' s = Some r.
Proof. apply (proj1 (proj2 (proj2 (proj2 (proj2 (proj2 (proj2 (mono f)))))))). Qed.
Lemma m_exp f f' s r : (f <= f')%nat -> parse_expression f s = Some r -> parse_expression f' s = Some r.
Proof. apply (proj1 (proj2 (proj2 (proj2 (proj2 (proj2 (proj2 (proj2 (mono f))))))))). Qed.
Lemma m_ini f f' s r : (f <= f')%nat -> parse_initializer f s = Some r -> parse_initializer f' s = Some r.
Proof. apply (proj2 (proj2 (proj2 (proj2 (proj2 (proj2 (proj2 (proj2 (mono f))))))))). Qed.

(** One call of each function, without fuel. *)
Lemma asg_intro s e1 s1 r : un s (e1, s1) -> rhsr e1 2 s1 r -> asg s r.
Proof.
  intros [f H] [g G]. exists (S (f + g)). cbn [parse_assignment_expression]. rewrite (m_un f (f + g) _ _ ltac:(lia) H). cbn [bind].
  apply (m_rhs g); [lia|exact G].
Qed.
Lemma exp_intro s e1 s1 r : asg s (e1, s1) -> rhsr e1 1 s1 r -> exp s r.
Proof.
  intros [f H] [g G]. exists (S (f + g)). cbn [parse_expression]. rewrite (m_asg f (f + g) _ _ ltac:(lia) H). cbn [bind].
  apply (m_rhs g); [lia|exact G].
Qed.
Lemma post_intro s e1 s1 r : prim s (e1, s1) -> ploop e1 s1 r -> post s r.
Proof.
  intros [f H] [g G]. exists (S (f + g)). cbn [parse_postfix_expression]. rewrite (m_prim f (f + g) _ _ ltac:(lia) H). cbn [bind].
  apply (m_ploop g); [lia|exact G].
Qed.
Lemma un_post s r : is_unary (cur (fst s)) = false -> post s r -> un s r.
Proof. intros N [f H]. exists (S f). cbn [parse_unary_expression]. rewrite N. exact H. Qed.
Lemma un_prefix op k l n e s1 : prefix_operator op k -> un (l, n) (e, s1) -> un (TKey k :: l, n) (EUnary op e, s1).
Proof.
  intros P [f H]. exists (S f). cbn [parse_unary_expression fst cur kind]. assert (U: is_unary k = true /\ token_to_unary k = Some op) by (destruct P; split; reflexivity).
  destruct U as [-> ->]. cbn [bind]. unfold consume. cbn [fst snd tl]. rewrite H. reflexivity.
Qed.
Lemma ini_asg s r : is s TK_L_BRACE = false -> asg s r -> ini s r.
Proof. intros N [f H]. exists (S f). cbn [parse_initializer]. rewrite N. exact H. Qed.
Lemma ini_braces l n es l' : cur l <> TK_R_BRACE -> lst (l, n) (es, (TKey TK_R_BRACE :: l', n)) -> ini (TKey TK_L_BRACE :: l, n) (EInit es, (l', n)).
Proof.
  intros N [f H]. exists (S f). cbn [parse_initializer]. unfold is at 1. cbn [fst cur kind]. rewrite Z.eqb_refl.
  unfold consume. cbn [fst snd tl]. unfold is at 1. cbn [fst]. replace (cur l =? TK_R_BRACE) with false by lia. rewrite H. cbn [bind].
  unfold is at 1. cbn [fst cur kind]. rewrite Z.eqb_refl. reflexivity.
Qed.
Lemma lst_one s e s1 : ini s (e, s1) -> is s1 TK_COMMA = false -> lst s ([e], s1).
Proof. intros [f H] N. exists (S f). cbn [parse_initializer_list]. rewrite H. cbn [bind]. rewrite N. reflexivity. Qed.
Lemma lst_more s e l n es s1 : ini s (e, (TKey TK_COMMA :: l, n)) -> lst (l, n) (es, s1) -> lst s (e :: es, s1).
Proof.
  intros [f H] [g G]. exists (S (f + g)). cbn [parse_initializer_list]. rewrite (m_ini f (f + g) _ _ ltac:(lia) H). cbn [bind].
  unfold is. cbn [fst cur kind]. rewrite Z.eqb_refl. unfold consume. cbn [fst snd tl]. rewrite (m_lst g (f + g) _ _ ltac:(lia) G). reflexivity.
Qed.
Lemma prim_parens l n e l' : exp (l, n) (e, (TKey TK_R_PAREN :: l', n)) -> prim (TKey TK_L_PAREN :: l, n) (e, (l', n)).
Proof. intros [f H]. exists (S f). cbn -[parse_expression]. unfold consume. cbn [fst snd tl]. rewrite H. reflexivity. Qed.

(** The postfix operators. *)
Lemma ploop_subscript x l n i l' r : exp (l, n) (i, (TKey TK_R_SQUARE :: l', n)) -> ploop (ESubscript x i) (l', n) r -> ploop x (TKey TK_L_SQUARE :: l, n) r.
Proof.
  intros [f H] [g G]. exists (S (f + g)). cbn -[parse_expression postfix_loop Nat.add]. cbn [postfix_loop]. unfold is at 1. cbn [fst cur kind]. rewrite Z.eqb_refl.
  unfold consume at 1. cbn [fst snd tl]. rewrite (m_exp f (f + g) _ _ ltac:(lia) H). cbn [bind]. unfold is at 1. cbn [fst cur kind]. rewrite Z.eqb_refl.
  unfold consume. cbn [fst snd tl]. apply (m_ploop g); [lia|exact G].
Qed.
Lemma is_key k l n k' : is (TKey k :: l, n) k' = (k =? k').
Proof. reflexivity. Qed.
Lemma ploop_call0 x l n r : ploop (ECall x []) (l, n) r -> ploop x (TKey TK_L_PAREN :: TKey TK_R_PAREN :: l, n) r.
Proof.
  intros [g G]. exists (S g). cbn [postfix_loop]. rewrite !is_key. unfold consume. cbn [fst snd tl]. rewrite is_key. exact G.
Qed.
Lemma ploop_call x l n es l' r : cur l <> TK_R_PAREN -> lst (l, n) (es, (TKey TK_R_PAREN :: l', n)) -> ploop (ECall x es) (l', n) r -> ploop x (TKey TK_L_PAREN :: l, n) r.
Proof.
  intros N [f H] [g G]. exists (S (f + g)). cbn [postfix_loop]. rewrite !is_key. unfold consume. cbn [fst snd tl]. unfold is at 3. cbn [fst]. 
  change (TK_L_PAREN =? TK_L_SQUARE) with false. change (TK_L_PAREN =? TK_L_PAREN) with true. cbv iota.
  unfold is at 1. cbn [fst]. replace (cur l =? TK_R_PAREN) with false by lia.
  rewrite (m_lst f (f + g) _ _ ltac:(lia) H). cbn [bind fst cur kind snd tl]. rewrite Z.eqb_refl.
  apply (m_ploop g); [lia|exact G].
Qed.
Lemma ploop_member x l n m r : ploop (EMember x m false) (l, n) r -> ploop x (TKey TK_PERIOD :: TIdent m :: l, n) r.
Proof. intros [g G]. exists (S g). exact G. Qed.
Lemma ploop_arrow x l n m r : ploop (EMember x m true) (l, n) r -> ploop x (TKey TK_ARROW :: TIdent m :: l, n) r.
Proof. intros [g G]. exists (S g). exact G. Qed.
Lemma ploop_inc x l n r : ploop (EUnary UN_POSTINC x) (l, n) r -> ploop x (TKey TK_PLUS_PLUS :: l, n) r.
Proof. intros [g G]. exists (S g). exact G. Qed.
Lemma ploop_dec x l n r : ploop (EUnary UN_POSTDEC x) (l, n) r -> ploop x (TKey TK_MINUS_MINUS :: l, n) r.
Proof. intros [g G]. exists (S g). exact G. Qed.
Definition postfix_start (l : list tok) : bool :=
  let k := cur l in (k =? TK_L_SQUARE) || (k =? TK_L_PAREN) || (k =? TK_PERIOD) || (k =? TK_ARROW) || (k =? TK_PLUS_PLUS) || (k =? TK_MINUS_MINUS).
Lemma ploop_end x l n : postfix_start l = false -> ploop x (l, n) (x, (l, n)).
Proof.
  unfold postfix_start. intros H. rewrite !orb_false_iff in H. destruct H as (((((A & B) & C) & D) & E) & F). exists 1%nat. cbn [postfix_loop]. unfold is. cbn [fst].
  rewrite A, B, C, D, E, F. reflexivity.
Qed.

(** The rounds of the loop over binary operators. *)
Definition prec (l : list tok) : Z := get_operator_precedence (cur l).
Lemma rhs_end x m l n : prec l < m -> rhsr x m (l, n) (x, (l, n)).
Proof. intros H. exists 1%nat. cbn [parse_RHS_of_binary_expression fst]. unfold prec in H. replace (get_operator_precedence (cur l) >=? m) with false by lia. reflexivity. Qed.
Lemma rhs_end_inv x m s r : prec (fst s) < m -> rhsr x m s r -> r = (x, s).
Proof. intros H [[|f] G]; [discriminate|]. cbn [parse_RHS_of_binary_expression] in G. unfold prec in H. replace (get_operator_precedence (cur (fst s)) >=? m) with false in G by lia. cbv iota zeta in G. injection G as <-. reflexivity. Qed.
Lemma opnd_fuel s r : opnd s r -> exists f, forall f', (f <= f')%nat -> (if is s TK_L_BRACE then parse_initializer f' s else parse_unary_expression f' s) = Some r.
Proof. unfold opnd. destruct (is s TK_L_BRACE); intros [f H]; exists f; intros f' L; [apply (m_ini f); auto|apply (m_un f); auto]. Qed.
Lemma rhs_fuel x m s r : rhsr x m s r -> exists f, forall f', (f <= f')%nat -> parse_RHS_of_binary_expression f' x m s = Some r.
Proof. intros [f H]. exists f. intros f' L. apply (m_rhs f); auto. Qed.

Section Round.
Variables (x : expr) (m k p : Z) (l : list tok) (n : Z).
Hypothesis Pk : get_operator_precedence k = p.
Hypothesis M : 1 <= m <= p.
Let right := (p =? PREC_CONDITIONAL) || (p =? PREC_ASSIGNMENT).
Let q := p + (if right then 0 else 1).
Lemma maybe e1 s1 b s2 : rhsr e1 q s1 (b, s2) -> exists f, forall f', (f <= f')%nat ->
  (if (p <? get_operator_precedence (cur (fst s1))) || ((p =? get_operator_precedence (cur (fst s1))) && right)
   then parse_RHS_of_binary_expression f' e1 q s1 else Some (e1, s1)) = Some (b, s2).
Proof.
  intros H. destruct ((p <? get_operator_precedence (cur (fst s1))) || ((p =? get_operator_precedence (cur (fst s1))) && right)) eqn:E; [apply rhs_fuel; auto|].
  assert (L: prec (fst s1) < q) by (unfold q, prec; destruct right; lia). apply (rhs_end_inv _ _ _ _ L) in H. injection H as -> ->. exists O. auto.
Qed.
Lemma rhs_binary op e1 s1 b s2 r : p <> 3 -> token_to_binary k = Some op -> opnd (l, n) (e1, s1) -> rhsr e1 q s1 (b, s2) ->
  rhsr (EBinary op x b) m s2 r -> rhsr x m (TKey k :: l, n) r.
Proof.
  intros N3 B O R C. apply opnd_fuel in O as [f1 O]. apply maybe in R as [f2 R]. apply rhs_fuel in C as [f3 C].
  exists (S (f1 + f2 + f3)). cbn [parse_RHS_of_binary_expression fst cur kind]. rewrite Pk.
  replace (p >=? m) with true by lia. replace (p =? PREC_CONDITIONAL) with false by (unfold PREC_CONDITIONAL; lia). cbn [negb bind]. unfold consume. cbn [fst snd tl].
  rewrite O by lia. cbn [bind]. unfold q, right in R. replace (p =? PREC_CONDITIONAL) with false in R by (unfold PREC_CONDITIONAL; lia). rewrite R by lia. cbn [bind].
  rewrite B. cbn [bind]. apply C. lia.
Qed.
Lemma rhs_conditional a l1 n1 e1 s1 b s2 r : p = 3 -> ini (l, n) (a, (TKey TK_COLON :: l1, n1)) -> opnd (l1, n1) (e1, s1) -> rhsr e1 q s1 (b, s2) ->
  rhsr (ETernary x a b) m s2 r -> rhsr x m (TKey k :: l, n) r.
Proof.
  intros E3 [f0 I] O R C. apply opnd_fuel in O as [f1 O]. apply maybe in R as [f2 R]. apply rhs_fuel in C as [f3 C].
  exists (S (f0 + f1 + f2 + f3)). cbn [parse_RHS_of_binary_expression fst cur kind]. rewrite Pk.
  replace (p >=? m) with true by lia. replace (p =? PREC_CONDITIONAL) with true by (unfold PREC_CONDITIONAL; lia). cbn [negb]. unfold consume at 1. cbn [fst snd tl].
  rewrite (m_ini f0 (f0 + f1 + f2 + f3) _ _ ltac:(lia) I). cbn [bind]. rewrite is_key, Z.eqb_refl. unfold consume at 1. cbn [fst snd tl].
  rewrite O by lia. cbn [bind]. unfold q, right in R. replace (p =? PREC_CONDITIONAL) with true in R by (unfold PREC_CONDITIONAL; lia). rewrite R by lia. cbn [bind].
  apply C. lia.
Qed.
End Round.

(** ** The grammar *)
Definition starts (p : Z) (b : bool) (t : list tok) : Prop :=
  match t with
  | [] => False
  | TKey k :: _ => k = TK_NULL \/ k = TK_TRUE \/ k = TK_FALSE \/ k = TK_L_PAREN \/ (p <= 14 /\ is_unary k = true) \/ (p <= 14 /\ b = true /\ k = TK_L_BRACE)
  | _ => True
  end.
Definition follow (p : Z) (l : list tok) : Prop := postfix_start l = false /\ prec l <= p /\ (p = 2 \/ p = 3 -> prec l < p).
Definition operand1 (b : bool) s r := if b then opnd s r else un s r.
Definition run b m s r := exists e1 s1, operand1 b s (e1, s1) /\ rhsr e1 m s1 r.
Definition claim (p : Z) (b : bool) (e : expr) (t : list tok) : Prop :=
  1 <= p <= 16 /\ starts p b t
  /\ (p = 16 -> forall rest n, prim (t ++ rest, n) (e, (rest, n)))
  /\ (p = 15 -> forall rest n r, ploop e (rest, n) r -> post (t ++ rest, n) r)
  /\ (p = 14 -> forall rest n, postfix_start rest = false -> operand1 b (t ++ rest, n) (e, (rest, n)))
  /\ (2 <= p <= 13 -> forall rest n m r, 1 <= m <= p -> follow p rest -> rhsr e m (rest, n) r -> run b m (t ++ rest, n) r)
  /\ (p = 1 -> b = false -> forall rest n r, follow 1 rest -> rhsr e 1 (rest, n) r -> exp (t ++ rest, n) r).
Definition claim_init (e : expr) (t : list tok) : Prop :=
  (cur t <> TK_R_PAREN /\ cur t <> TK_R_BRACE /\ t <> [])
  /\ (forall rest n, follow 2 rest -> ini (t ++ rest, n) (e, (rest, n))).
Definition claim_list (es : list expr) (t : list tok) : Prop :=
  (cur t <> TK_R_PAREN /\ cur t <> TK_R_BRACE /\ t <> [])
  /\ forall rest n, follow 2 rest -> cur rest <> TK_COMMA -> lst (t ++ rest, n) (es, (rest, n)).

Lemma starts_app p b t u : starts p b t -> starts p b (t ++ u).
Proof. destruct t; [intros []|]; auto. Qed.
Lemma starts_le p q b t : p <= q -> starts q b t -> starts p b t.
Proof. destruct t as [|[] t]; auto. cbn. intuition lia. Qed.
Lemma not_unary p b t rest : 15 <= p -> starts p b t -> is_unary (cur (t ++ rest)) = false.
Proof.
  intros P S. destruct t as [|x t]; [destruct S|]. destruct x; try reflexivity. cbn [app cur kind]. cbn in S. destruct S as [->|[->|[->|[->|[[S _]|[S _]]]]]]; try reflexivity; lia.
Qed.
Lemma not_brace p t rest n : starts p false t -> is (t ++ rest, n) TK_L_BRACE = false.
Proof.
  intros S. destruct t as [|x t]; [destruct S|]. destruct x as [| | | | |k]; try reflexivity. cbn [app]. rewrite is_key. cbn in S.
  destruct S as [->|[->|[->|[->|[[_ S]|(_ & S & _)]]]]]; try reflexivity; try discriminate. destruct (Z.eqb_spec k TK_L_BRACE) as [->|]; [discriminate|reflexivity].
Qed.
Lemma not_brace15 p b t rest n : 15 <= p -> starts p b t -> is (t ++ rest, n) TK_L_BRACE = false.
Proof. intros P S. apply (not_brace p). destruct t as [|[] t]; auto. cbn in *. intuition lia. Qed.
Lemma starts_key p b t rest k : starts p b t -> k = TK_R_PAREN \/ k = TK_R_BRACE -> cur (t ++ rest) <> k.
Proof.
  intros S H. destruct t as [|x t]; [destruct S|]. destruct x as [| | | | |k']; try (destruct H as [->| ->]; discriminate). cbn [app cur kind].
  cbn in S. destruct S as [->|[->|[->|[->|[[_ S]|(_ & _ & ->)]]]]]; try (destruct H as [->| ->]; discriminate). intros E. subst k'. destruct H as [->| ->]; discriminate.
Qed.
Lemma op_facts op k p : operator op k p -> get_operator_precedence k = p /\ 4 <= p <= 13 /\ token_to_binary k = Some op /\ (forall l, postfix_start (TKey k :: l) = false).
Proof. destruct 1; repeat split; try reflexivity; lia. Qed.
Lemma as_facts op k : assignment_operator op k -> get_operator_precedence k = 2 /\ token_to_binary k = Some op /\ (forall l, postfix_start (TKey k :: l) = false).
Proof. destruct 1; repeat split; reflexivity. Qed.
Lemma follow_key k l p q : get_operator_precedence k = q -> postfix_start (TKey k :: l) = false -> q < p \/ (q <= p /\ p <> 2 /\ p <> 3) -> follow p (TKey k :: l).
Proof. intros H P L. unfold follow, prec. cbn [cur kind]. rewrite H. split; auto. lia. Qed.
Lemma follow_end k l p : k = TK_R_PAREN \/ k = TK_R_SQUARE \/ k = TK_R_BRACE \/ k = TK_COLON -> 1 <= p -> follow p (TKey k :: l).
Proof. intros H L. destruct H as [->|[->|[->| ->]]]; (apply (follow_key _ _ _ 0); [reflexivity|reflexivity|lia]). Qed.

(** The right operand of a binary operator, from its claim. *)
Lemma right_operand p y u rest n m : claim p true y u -> 2 <= p <= 14 -> 1 <= m <= p -> follow p rest -> prec rest < m ->
  exists e1 s1, opnd (u ++ rest, n) (e1, s1) /\ rhsr e1 m s1 (y, (rest, n)).
Proof.
  intros (_ & _ & _ & _ & C14 & C & _) P M F L. destruct (Z.eq_dec p 14) as [->|].
  - exists y, (rest, n). split; [apply (C14 eq_refl), F|apply rhs_end; lia].
  - apply (C ltac:(lia) rest n m); auto. apply rhs_end. lia.
Qed.

Lemma grammar : (forall p b e t, agram p b e t -> claim p b e t) /\ (forall e t, agram_init e t -> claim_init e t) /\ (forall es t, agram_list es t -> claim_list es t).
Proof.
  apply agram_mutual.
  - intros b n. repeat split; try lia. intros _ rest n0. exists 1%nat. reflexivity.
  - intros b c. repeat split; try lia. intros _ rest n0. exists 1%nat. reflexivity.
  - intros b c. repeat split; try lia. intros _ rest n0. exists 1%nat. reflexivity.
  - intros b c. repeat split; try lia. intros _ rest n0. exists 1%nat. reflexivity.
  - intros b c. repeat split; try lia. intros _ rest n0. exists 1%nat. reflexivity.
  - intros b. repeat split; try lia; [cbn; auto|]. intros _ rest n0. exists 1%nat. reflexivity.
  - intros b. repeat split; try lia; [cbn; auto|]. intros _ rest n0. exists 1%nat. reflexivity.
  - intros b. repeat split; try lia; [cbn; auto|]. intros _ rest n0. exists 1%nat. reflexivity.
  - intros b e t _ (_ & S & _ & _ & _ & _ & C). repeat split; try lia; [cbn; auto|]. intros _ rest n. cbn [app]. rewrite <- app_assoc. apply prim_parens. cbn [app].
    apply C; auto; [apply follow_end; auto; lia|]. apply rhs_end. reflexivity.
  - intros b e t i u _ (_ & S & _ & C & _) _ (_ & _ & _ & _ & _ & _ & D). repeat split; try lia; [apply starts_app; auto|]. intros _ rest n r H.
    rewrite <- app_assoc. cbn [app]. rewrite <- app_assoc. apply C; auto. apply (ploop_subscript _ _ _ i rest); auto. cbn [app].
    apply D; auto; [apply follow_end; auto; lia|]. apply rhs_end. reflexivity.
  - intros b e t _ (_ & S & _ & C & _). repeat split; try lia; [apply starts_app; auto|]. intros _ rest n r H.
    rewrite <- app_assoc. cbn [app]. apply C; auto. apply ploop_call0; auto.
  - intros b e t es u _ (_ & S & _ & C & _) _ ((N & _ & NE) & D). repeat split; try lia; [apply starts_app; auto|]. intros _ rest n r H.
    rewrite <- app_assoc. cbn [app]. rewrite <- app_assoc. apply C; auto. cbn [app]. apply (ploop_call _ _ _ es rest); auto.
    + destruct u; [congruence|exact N].
    + apply D; [apply follow_end; auto; lia|discriminate].
  - intros b e t m _ (_ & S & _ & C & _). repeat split; try lia; [apply starts_app; auto|]. intros _ rest n r H.
    rewrite <- app_assoc. cbn [app]. apply C; auto. apply ploop_member; auto.
  - intros b e t m _ (_ & S & _ & C & _). repeat split; try lia; [apply starts_app; auto|]. intros _ rest n r H.
    rewrite <- app_assoc. cbn [app]. apply C; auto. apply ploop_arrow; auto.
  - intros b e t _ (_ & S & _ & C & _). repeat split; try lia; [apply starts_app; auto|]. intros _ rest n r H.
    rewrite <- app_assoc. cbn [app]. apply C; auto. apply ploop_inc; auto.
  - intros b e t _ (_ & S & _ & C & _). repeat split; try lia; [apply starts_app; auto|]. intros _ rest n r H.
    rewrite <- app_assoc. cbn [app]. apply C; auto. apply ploop_dec; auto.
  - intros b op k e t P _ (_ & S & _ & _ & C & _). assert (U: is_unary k = true) by (destruct P; reflexivity). repeat split; try lia.
    + cbn. right. right. right. right. left. split; [lia|auto].
    + intros _ rest n H. cbn [app]. assert (X: un (TKey k :: t ++ rest, n) (EUnary op e, (rest, n))) by (apply (un_prefix op k); auto; apply (C eq_refl rest n H)).
      destruct b; [|exact X]. unfold operand1, opnd. rewrite is_key. destruct (Z.eqb_spec k TK_L_BRACE) as [->|]; [discriminate|exact X].
  - intros es t _ ((N1 & N2 & NE) & L). repeat split; try lia; [cbn; right; right; right; right; right; split; [lia|auto]|].
    intros _ rest n H. cbn [app]. rewrite <- app_assoc. unfold operand1, opnd. rewrite is_key, Z.eqb_refl. cbn [app].
    apply ini_braces; [destruct t; [congruence|exact N2]|]. apply L; [apply follow_end; auto; lia|discriminate].
  - intros b op k p x t y u O _ (_ & S & _ & _ & _ & C & _) _ D.
    destruct (op_facts _ _ _ O) as (Pk & Rp & TB & PS). repeat split; try lia; [apply starts_app; auto|].
    intros _ rest n m r M (F1 & F2 & F3) H. rewrite <- app_assoc. cbn [app]. apply (C ltac:(lia)); auto.
    + apply (follow_key _ _ _ p); auto. lia.
    + assert (Q: p + (if (p =? PREC_CONDITIONAL) || (p =? PREC_ASSIGNMENT) then 0 else 1) = p + 1) by (unfold PREC_CONDITIONAL, PREC_ASSIGNMENT; replace ((p =? 3) || (p =? 2)) with false by lia; lia).
      destruct (right_operand _ _ _ rest n (p + 1) D) as (e1 & s1 & U & R); [lia|lia|split; auto; lia|lia|].
      apply (rhs_binary x m k p (u ++ rest) n Pk ltac:(lia) op e1 s1 y (rest, n)); auto; [lia|rewrite Q; auto].
  - intros b c t x u y v _ (_ & S & _ & _ & _ & C & _) _ (_ & I) _ D.
    repeat split; try lia; [apply starts_app, (starts_le 3 4); auto; lia|]. intros _ rest n m r M F H.
    rewrite <- app_assoc. cbn [app]. rewrite <- app_assoc. cbn [app]. apply (C ltac:(lia)); [lia|apply (follow_key _ _ _ 3); auto; lia|].
    destruct (right_operand _ _ _ rest n 3 D) as (e1 & s1 & U & R); [lia|lia|auto|apply F; auto|].
    refine (rhs_conditional c m TK_QUESTION 3 _ n eq_refl ltac:(lia) x (v ++ rest) n e1 s1 y (rest, n) r eq_refl _ U R H).
    apply I. apply follow_end; auto; lia.
  - intros b op k x t y u O _ (_ & S & _ & _ & _ & C & _) _ D. destruct (as_facts _ _ O) as (Pk & TB & PS).
    repeat split; try lia; [apply starts_app, (starts_le 2 3); auto; lia|].
    intros _ rest n m r M F H. rewrite <- app_assoc. cbn [app]. apply (C ltac:(lia)); [lia|apply (follow_key _ _ _ 2); auto; lia|].
    destruct (right_operand _ _ _ rest n 2 D) as (e1 & s1 & U & R); [lia|lia|auto|apply F; auto|].
    apply (rhs_binary x m k 2 (u ++ rest) n Pk ltac:(lia) op e1 s1 y (rest, n)); auto. lia.
  - intros b x t y u _ (_ & S & _ & _ & _ & _ & C) _ D. repeat split; try lia; [apply starts_app; auto|].
    intros _ -> rest n r (F1 & F2 & F3) H. rewrite <- app_assoc. cbn [app]. apply C; auto; [apply (follow_key _ _ _ 1); auto; lia|].
    destruct (right_operand _ _ _ rest n 2 D) as (e1 & s1 & U & R); [lia|lia|split; auto; lia|lia|].
    refine (rhs_binary x 1 TK_COMMA 1 (u ++ rest) n eq_refl ltac:(lia) BIN_COMMA e1 s1 y (rest, n) r _ eq_refl U R H). lia.
  - intros b p e t P1 _ (R & S & C16 & C15 & C14 & C2 & _). split; [lia|]. split; [apply (starts_le p (p + 1)); auto; lia|].
    split; [intros; lia|]. split; [intros -> rest n r H|]. { eapply post_intro; [apply C16; lia|exact H]. }
    split; [intros -> rest n H|].
    { assert (X: un (t ++ rest, n) (e, (rest, n))).
      { apply un_post; [apply (not_unary 15 b); auto; lia|]. apply C15; [lia|]. apply ploop_end; auto. }
      destruct b; [|exact X]. unfold operand1, opnd. rewrite (not_brace15 15 true) by (auto; lia). exact X. }
    split; [intros R2 rest n m r M (F1 & F2 & F3) H|intros -> -> rest n r (F1 & F2 & F3) H].
    + destruct (Z.eq_dec p 13) as [->|N13]. { exists e, (rest, n). split; [apply C14; auto; lia|exact H]. }
      apply (C2 ltac:(lia)); [lia|split; auto; lia|exact H].
    + assert (B: run false 2 (t ++ rest, n) (e, (rest, n))) by (apply (C2 ltac:(lia)); [lia|split; auto; lia|apply rhs_end; lia]).
      destruct B as (e1 & s1 & U & R1). eapply exp_intro; [eapply asg_intro; eauto|exact H].
  - intros e t _ (_ & S & _ & _ & _ & C & _).
    split.
    + pose proof (starts_key _ _ _ [] TK_R_PAREN S ltac:(auto)) as A. pose proof (starts_key _ _ _ [] TK_R_BRACE S ltac:(auto)) as A'. rewrite app_nil_r in *. split; [auto|]. split; auto. intros ->. destruct S.
    + intros rest n F. apply ini_asg; [apply (not_brace 2); auto|].
      destruct (C ltac:(lia) rest n 2 (e, (rest, n))) as (e1 & s1 & U & R); [lia|auto|apply rhs_end; destruct F as (_ & _ & F); lia|]. eapply asg_intro; eauto.
  - intros es t _ ((N1 & N2 & NE) & L). split; [repeat split; discriminate|]. intros rest n F. cbn [app]. rewrite <- app_assoc. cbn [app].
    apply ini_braces; [destruct t; [congruence|exact N2]|]. apply L; [apply follow_end; auto; lia|discriminate].
  - intros e t _ (N & I). split; auto. intros rest n F C. apply lst_one; [apply I; auto|]. unfold is. cbn [fst]. lia.
  - intros e t es u _ ((N1 & N2 & NE) & I) _ (_ & L). split.
    + destruct t; [congruence|]. repeat split; auto; discriminate.
    + intros rest n F C. rewrite <- app_assoc. cbn [app]. eapply lst_more; [apply I|apply L; auto]. apply (follow_key _ _ _ 1); auto; lia.
Qed.

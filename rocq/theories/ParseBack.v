(** What is parsed without errors is a text of the grammar; writing and reading
    an expression. *)
From Verif Require Import Prelude LexModel ParseModel ParseSpec ParseFuel ParseProofs.
From Coq Require Import SpecFloat.

Lemma key_inv s k : is s k = true -> ~ In k [TK_EOF; TK_IDENTIFIER; TK_CHAR_LITERAL; TK_INT_LITERAL; TK_FLOAT_LITERAL; TK_STRING_LITERAL] ->
  exists l, fst s = TKey k :: l /\ consume s = (l, snd s).
Proof.
  unfold is, consume. destruct s as [[|t l] n]; cbn [fst snd cur tl]; intros H N; apply Z.eqb_eq in H.
  { exfalso. apply N. rewrite <- H. cbn. auto. }
  destruct t; cbn [kind] in H; try (exfalso; apply N; rewrite <- H; cbn; auto 10; fail). subst. eauto.
Qed.
Ltac nokey := cbn [In]; intros [|[|[|[|[|[|]]]]]]; auto; discriminate.

Definition good {R} (G : R -> list tok -> Prop) (s : st) (e : R) (s' : st) : Prop :=
  snd s <= snd s' /\ (snd s' = snd s -> exists t, fst s = t ++ fst s' /\ G e t).
Definition goods {A R} (F : nat -> A -> option (R * st)) (from : A -> st) (G : A -> R -> list tok -> Prop) (f : nat) : Prop :=
  forall a e s', F f a = Some (e, s') -> good (G a) (from a) e s'.
Lemma good_bad {R} (G : R -> list tok -> Prop) s e s' : snd s < snd s' -> good G s e s'.
Proof. intros L. split; lia. Qed.

Lemma a_lower p q b e t : agram q b e t -> 1 <= p <= q -> agram p b e t.
Proof.
  intros H [P L]. assert (X: forall n : nat, forall p, 1 <= p -> p + Z.of_nat n = q -> agram p b e t).
  { induction n as [|n IH]; intros p' P' E; [replace p' with q by lia; auto|]. apply a_up; [lia|]. apply IH; lia. }
  apply (X (Z.to_nat (q - p))); lia.
Qed.
Lemma op_inv k p : get_operator_precedence k = p -> 1 <= p ->
  (p = 3 /\ k = TK_QUESTION) \/ exists op, token_to_binary k = Some op /\ p <> 3 /\
    ((p = 1 /\ k = TK_COMMA /\ op = BIN_COMMA) \/ (p = 2 /\ assignment_operator op k) \/ (4 <= p <= 13 /\ operator op k p)).
Proof.
  unfold get_operator_precedence. intros H P. destruct (table_find precedence_table k) as [p'|] eqn:E; [|unfold PREC_UNKNOWN in H; lia]. subst p'. clear P.
  unfold precedence_table in E. cbn [table_find] in E.
  repeat match type of E with (if k =? ?x then _ else _) = _ => destruct (Z.eqb_spec k x) as [->|_];
    [injection E as <-; first [left; split; reflexivity; fail
      |right; eexists; split; [vm_compute; reflexivity|split; [discriminate|]]; first [left; repeat split; reflexivity|right; left; split; [reflexivity|constructor]|right; right; split; [split; discriminate|constructor]]]|] end.
  discriminate.
Qed.
Lemma prec_le k : get_operator_precedence k <= 13.
Proof.
  destruct (Z_lt_le_dec (get_operator_precedence k) 1) as [|H]; [lia|]. destruct (op_inv k _ eq_refl H) as [[-> _]|(op & _ & _ & [(-> & _)|[(-> & _)|(L & _)]])]; lia.
Qed.
Lemma prefix_inv k op : is_unary k = true -> token_to_unary k = Some op ->
  prefix_operator op k /\ ~ In k [TK_EOF; TK_IDENTIFIER; TK_CHAR_LITERAL; TK_INT_LITERAL; TK_FLOAT_LITERAL; TK_STRING_LITERAL].
Proof.
  unfold token_to_unary. intros _ H.
  repeat match type of H with (if k =? ?x then _ else _) = _ => destruct (Z.eqb_spec k x) as [->|_]; [injection H as <-; split; [constructor|nokey]|] end. discriminate.
Qed.
Lemma op_nokey k : 1 <= get_operator_precedence k -> ~ In k [TK_EOF; TK_IDENTIFIER; TK_CHAR_LITERAL; TK_INT_LITERAL; TK_FLOAT_LITERAL; TK_STRING_LITERAL].
Proof. intros H I. cbn [In] in I. destruct I as [<-|[<-|[<-|[<-|[<-|[<-|[]]]]]]]; vm_compute in H; congruence. Qed.

(** The loop over operators: [x] was read as [t0] at level [q]. *)
Definition grhs (x : expr) (m : Z) (s : st) (e : expr) (s' : st) : Prop :=
  snd s <= snd s' /\ (snd s' = snd s -> forall q b t0, agram q b x t0 -> m <= q <= 14 -> prec (fst s) <= q -> (q = 2 \/ q = 3 -> prec (fst s) < q) ->
    exists t, fst s = t ++ fst s' /\ agram m b e (t0 ++ t) /\ prec (fst s') < m).
Definition gloop (x : expr) (s : st) (e : expr) (s' : st) : Prop :=
  snd s <= snd s' /\ (snd s' = snd s -> forall b t0, agram 15 b x t0 -> exists t, fst s = t ++ fst s' /\ agram 15 b e (t0 ++ t)).

Lemma skip_errors f T s s' : skip f T s = Some s' -> snd s' = snd s.
Proof. unfold skip. destruct (skip_until f T (fst s)); cbn [bind]; [|discriminate]. intros [= <-]. reflexivity. Qed.
Lemma try_errors s k : snd (snd (try_consume s k)) = snd s.
Proof. unfold try_consume. destruct (is s k); reflexivity. Qed.

Lemma accepted f :
  (forall s e s', parse_primary_expression f s = Some (e, s') -> good (agram 16 false) s e s')
  /\ (forall s e s', parse_initializer_list f s = Some (e, s') -> good agram_list s e s')
  /\ (forall s e s', parse_postfix_expression f s = Some (e, s') -> good (agram 15 false) s e s')
  /\ (forall x s e s', postfix_loop f x s = Some (e, s') -> gloop x s e s')
  /\ (forall s e s', parse_unary_expression f s = Some (e, s') -> good (agram 14 false) s e s')
  /\ (forall x m s e s', 1 <= m -> parse_RHS_of_binary_expression f x m s = Some (e, s') -> grhs x m s e s')
  /\ (forall s e s', parse_assignment_expression f s = Some (e, s') -> good (fun e t => agram 2 false e t /\ prec (fst s') < 2) s e s')
  /\ (forall s e s', parse_expression f s = Some (e, s') -> good (fun e t => agram 1 false e t /\ prec (fst s') < 1) s e s')
  /\ (forall s e s', parse_initializer f s = Some (e, s') -> good agram_init s e s').
Proof.
  induction f as [|f (Hprim & Hlist & Hpost & Hloop & Hun & Hrhs & Has & Hex & Hin)].
  { repeat split; intros; discriminate. }
  split; [|split; [|split; [|split; [|split; [|split; [|split; [|split]]]]]]].
  - intros s e s' H. cbn [parse_primary_expression] in H.
    match type of H with match _ with [] => ?X | _ => _ end = _ => assert (K: X = Some (e, s') -> good (agram 16 false) s e s') end.
    { clear H. intros H.
      destruct (is s TK_NULL) eqn:Q1. { injection H as <- <-. destruct (key_inv _ _ Q1) as (l & E & ->); [nokey|]. split; [cbn; lia|]. intros _. exists [TKey TK_NULL]. split; [exact E|constructor]. }
      destruct (is s TK_TRUE) eqn:Q2. { injection H as <- <-. destruct (key_inv _ _ Q2) as (l & E & ->); [nokey|]. split; [cbn; lia|]. intros _. exists [TKey TK_TRUE]. split; [exact E|constructor]. }
      destruct (is s TK_FALSE) eqn:Q3. { injection H as <- <-. destruct (key_inv _ _ Q3) as (l & E & ->); [nokey|]. split; [cbn; lia|]. intros _. exists [TKey TK_FALSE]. split; [exact E|constructor]. }
      destruct (is s TK_L_PAREN) eqn:Q4; [|injection H as <- <-; apply good_bad; cbn; lia].
      destruct (key_inv _ _ Q4) as (l & E & E'); [nokey|]. rewrite E' in H.
      destruct (parse_expression f (l, snd s)) as [[x s1]|] eqn:P; cbn [bind] in H; [|discriminate]. apply Hex in P as [L1 P]. cbn [fst snd] in *.
      destruct (is s1 TK_R_PAREN) eqn:Q5; injection H as <- <-; [|apply good_bad; cbn; lia].
      destruct (key_inv _ _ Q5) as (l2 & E2 & ->); [nokey|]. split; [cbn; lia|]. cbn [fst snd]. intros L. destruct (P L) as (t & Et & G & _).
      exists (TKey TK_L_PAREN :: t ++ [TKey TK_R_PAREN]). split; [|constructor; exact G]. rewrite E, Et, E2. cbn [app]. rewrite <- app_assoc. reflexivity. }
    destruct s as [l n]. cbn [fst] in *. destruct l as [|x l]; [auto|]. destruct x; auto; injection H as <- <-; (split; [cbn; lia|]); intros _; (eexists [_]; split; [reflexivity|constructor]).
  - intros s e s' H. cbn [parse_initializer_list] in H. destruct (parse_initializer f s) as [[x s1]|] eqn:P; cbn [bind] in H; [|discriminate].
    apply Hin in P as [L1 P]. destruct (is s1 TK_COMMA) eqn:C.
    + destruct (key_inv _ _ C) as (l & E & E'); [nokey|]. rewrite E' in H. destruct (parse_initializer_list f (l, snd s1)) as [[xs s2]|] eqn:P2; cbn [bind] in H; [|discriminate].
      apply Hlist in P2 as [L2 P2]. cbn [fst snd] in *. injection H as <- <-. split; [lia|]. intros L. destruct (P ltac:(lia)) as (t & Et & G). destruct (P2 ltac:(lia)) as (u & Eu & G2).
      exists (t ++ TKey TK_COMMA :: u). split; [|constructor; auto]. rewrite Et, E, Eu, <- app_assoc. reflexivity.
    + injection H as <- <-. split; auto. intros L. destruct (P L) as (t & Et & G). exists t. split; auto. constructor. auto.
  - intros s e s' H. cbn [parse_postfix_expression] in H. destruct (parse_primary_expression f s) as [[x s1]|] eqn:P; cbn [bind] in H; [|discriminate].
    apply Hprim in P as [L1 P]. apply Hloop in H as [L2 H]. split; [lia|]. intros L. destruct (P ltac:(lia)) as (t & Et & G).
    destruct (H ltac:(lia) false t) as (u & Eu & G2); [apply a_up; [lia|exact G]|]. exists (t ++ u). split; auto. rewrite Et, Eu, app_assoc. reflexivity.
  - intros x s e s' H. cbn [postfix_loop] in H.
    assert (BAD: forall s1 T k, snd s <= snd s1 -> (do s0 <- skip f T (error s1); postfix_loop f EBroken (snd (try_consume s0 k))) = Some (e, s') -> gloop x s e s').
    { intros s1 T k L1 K. destruct (skip f T (error s1)) as [s2|] eqn:E; cbn [bind] in K; [|discriminate]. apply skip_errors in E. apply Hloop in K as [L2 _].
      rewrite try_errors in L2. cbn [error snd] in E. split; lia. }
    assert (NEXT: forall y s1, snd s <= snd s1 -> postfix_loop f y s1 = Some (e, s') -> (snd s1 = snd s -> exists t1, fst s = t1 ++ fst s1 /\ forall b t0, agram 15 b x t0 -> agram 15 b y (t0 ++ t1)) -> gloop x s e s').
    { intros y s1 L1 K D. apply Hloop in K as [L2 K]. split; [lia|]. intros L b t0 G. destruct (D ltac:(lia)) as (t1 & E1 & D1).
      destruct (K ltac:(lia) b (t0 ++ t1) (D1 _ _ G)) as (u & Eu & G2). exists (t1 ++ u). rewrite <- app_assoc in G2. split; auto. rewrite E1, Eu, app_assoc. reflexivity. }
    destruct (is s TK_L_SQUARE) eqn:Q1.
    { destruct (key_inv _ _ Q1) as (l & E & E'); [nokey|]. rewrite E' in H. destruct (parse_expression f (l, snd s)) as [[i s1]|] eqn:P; cbn [bind] in H; [|discriminate].
      apply Hex in P as [L1 P]. cbn [fst snd] in *. destruct (is s1 TK_R_SQUARE) eqn:Q2; [|eapply BAD; eauto].
      destruct (key_inv _ _ Q2) as (l2 & E2 & E2'); [nokey|]. rewrite E2' in H. eapply (NEXT _ _); [|exact H|]; cbn [fst snd]; [lia|]. intros L. destruct (P L) as (t & Et & G & _).
      exists (TKey TK_L_SQUARE :: t ++ [TKey TK_R_SQUARE]). split; [rewrite E, Et, E2; cbn [app]; rewrite <- app_assoc; reflexivity|]. intros b t0 G0. constructor; auto. }
    destruct (is s TK_L_PAREN) eqn:Q2.
    { destruct (key_inv _ _ Q2) as (l & E & E'); [nokey|]. rewrite E' in H. destruct (is (l, snd s) TK_R_PAREN) eqn:Q3.
      { destruct (key_inv _ _ Q3) as (l2 & E2 & E2'); [nokey|]. rewrite E2' in H. cbn [fst snd] in *. eapply (NEXT _ _); [|exact H|]; cbn [fst snd]; [lia|]. intros _.
        exists [TKey TK_L_PAREN; TKey TK_R_PAREN]. split; [rewrite E, E2; reflexivity|]. intros b t0 G0. constructor; auto. }
      destruct (parse_initializer_list f (l, snd s)) as [[i s1]|] eqn:P; cbn [bind] in H; [|discriminate].
      apply Hlist in P as [L1 P]. cbn [fst snd] in *. destruct (is s1 TK_R_PAREN) eqn:Q4; [|eapply BAD; eauto].
      destruct (key_inv _ _ Q4) as (l2 & E2 & E2'); [nokey|]. rewrite E2' in H. eapply (NEXT _ _); [|exact H|]; cbn [fst snd]; [lia|]. intros L. destruct (P L) as (t & Et & G).
      exists (TKey TK_L_PAREN :: t ++ [TKey TK_R_PAREN]). split; [rewrite E, Et, E2; cbn [app]; rewrite <- app_assoc; reflexivity|]. intros b t0 G0. constructor; auto. }
    destruct (is s TK_PERIOD || is s TK_ARROW) eqn:Q3.
    { assert (X: exists l, fst s = TKey (if is s TK_ARROW then TK_ARROW else TK_PERIOD) :: l /\ consume s = (l, snd s)).
      { destruct (is s TK_ARROW) eqn:Q; [apply key_inv; auto; nokey|]. rewrite orb_false_r in Q3. apply key_inv; auto; nokey. }
      destruct X as (l & E & E'). rewrite E' in H. cbn [fst] in H.
      assert (B: postfix_loop f EBroken (error (l, snd s)) = Some (e, s') -> gloop x s e s') by (intros K; apply Hloop in K as [L2 _]; cbn [error snd] in L2; split; lia).
      destruct l as [|[nm| | | | |] l]; auto. eapply (NEXT _ _); [|exact H|]; cbn [fst snd consume tl]; [lia|]. intros _. eexists [_; _]. split; [rewrite E; reflexivity|].
      intros b t0 G0. destruct (is s TK_ARROW); constructor; auto. }
    destruct (is s TK_PLUS_PLUS) eqn:Q4.
    { destruct (key_inv _ _ Q4) as (l & E & E'); [nokey|]. rewrite E' in H. eapply (NEXT _ _); [|exact H|]; cbn [fst snd]; [lia|]. intros _. eexists [_]. split; [rewrite E; reflexivity|]. intros b t0 G0. constructor; auto. }
    destruct (is s TK_MINUS_MINUS) eqn:Q5.
    { destruct (key_inv _ _ Q5) as (l & E & E'); [nokey|]. rewrite E' in H. eapply (NEXT _ _); [|exact H|]; cbn [fst snd]; [lia|]. intros _. eexists [_]. split; [rewrite E; reflexivity|]. intros b t0 G0. constructor; auto. }
    injection H as <- <-. split; [lia|]. intros _ b t0 G. exists []. rewrite app_nil_r. auto.
  - intros s e s' H. cbn [parse_unary_expression] in H. destruct (is_unary (cur (fst s))) eqn:U.
    + destruct (token_to_unary (cur (fst s))) as [op|] eqn:T; cbn [bind] in H; [|discriminate]. destruct (prefix_inv _ _ U T) as (PO & NK).
      destruct (key_inv s (cur (fst s)) (Z.eqb_refl _) NK) as (l & E & E'). rewrite E' in H.
      destruct (parse_unary_expression f (l, snd s)) as [[x s1]|] eqn:P; cbn [bind] in H; [|discriminate]. apply Hun in P as [L1 P]. cbn [fst snd] in *.
      injection H as <- <-. split; auto. intros L. destruct (P L) as (t & Et & G). exists (TKey (cur (fst s)) :: t). split; [rewrite E, Et at 1; reflexivity|]. constructor; auto.
    + apply Hpost in H as [L1 H]. split; auto. intros L. destruct (H L) as (t & Et & G). exists t. split; auto. apply a_up; [lia|exact G].
  - intros x m s e s' M H. cbn [parse_RHS_of_binary_expression] in H. set (k := cur (fst s)) in *. remember (get_operator_precedence k) as p eqn:Ep in *.
    destruct (p >=? m) eqn:C.
    2:{ injection H as <- <-. split; [lia|]. intros _ q b t0 G Q _ _. exists []. rewrite app_nil_r. split; auto. split; [apply (a_lower m q); auto; lia|]. unfold prec. fold k. lia. }
    destruct (key_inv s k (Z.eqb_refl _)) as (l & E & E'); [apply op_nokey; lia|]. rewrite E' in H. clear E'.
    set (right := (p =? PREC_CONDITIONAL) || (p =? PREC_ASSIGNMENT)) in *. set (p' := p + (if right then 0 else 1)) in *.
    assert (P': m <= p' /\ (p' = p \/ p' = p + 1)) by (unfold p'; destruct right; lia).
    (* the operand after the operator *)
    assert (OP: forall l1 n1 y s2 z s3, (if is (l1, n1) TK_L_BRACE then parse_initializer f (l1, n1) else parse_unary_expression f (l1, n1)) = Some (y, s2) ->
      (if (p <? get_operator_precedence (cur (fst s2))) || ((p =? get_operator_precedence (cur (fst s2))) && right)
         then parse_RHS_of_binary_expression f y p' s2 else Some (y, s2)) = Some (z, s3) ->
      n1 <= snd s3 /\ (snd s3 = n1 -> exists u, l1 = u ++ fst s3 /\ agram p' true z u /\ prec (fst s3) < p')).
    { intros l1 n1 y s2 z s3 A B.
      assert (A': n1 <= snd s2 /\ (snd s2 = n1 -> exists u, l1 = u ++ fst s2 /\ agram 14 true y u)).
      { destruct (is (l1, n1) TK_L_BRACE) eqn:Q.
        - pose proof A as A0. apply Hin in A as [L1 A]. cbn [fst snd] in *. split; auto. intros L. destruct (A L) as (u & Eu & G). exists u. split; auto.
          inversion G as [e0 t0 G0|es0 t0 G0]; subst; [|constructor; auto]. exfalso. destruct (proj1 grammar _ _ _ _ G0) as (_ & S & _). rewrite (not_brace _ _ _ _ S) in Q. discriminate.
        - apply Hun in A as [L1 A]. cbn [fst snd] in *. split; auto. intros L. destruct (A L) as (u & Eu & G). exists u. split; auto.
          assert (W: (forall p b e t, agram p b e t -> b = false -> agram p true e t) /\ (forall e t, agram_init e t -> True) /\ (forall e t, agram_list e t -> True)).
          { apply agram_mutual; intros; auto; try discriminate; try (subst; econstructor; eauto; fail). }
          apply (proj1 W _ _ _ _ G eq_refl). }
      destruct A' as [L1 A']. destruct ((p <? get_operator_precedence (cur (fst s2))) || ((p =? get_operator_precedence (cur (fst s2))) && right)) eqn:Q.
      - apply Hrhs in B as [L2 B]; [|lia]. split; [lia|]. intros L. destruct (A' ltac:(lia)) as (u & Eu & G).
        pose proof (prec_le (cur (fst s2))) as PL. pose proof (prec_le k) as PK.
        destruct (B ltac:(lia) 14 true u G) as (v & Ev & G2 & L3); [lia|unfold prec; lia|lia|]. exists (u ++ v). split; auto. rewrite Eu, Ev, app_assoc. reflexivity.
      - injection B as <- <-. split; auto. intros L. destruct (A' L) as (u & Eu & G). exists u. split; auto. pose proof (prec_le k) as PK.
        split; [apply (a_lower p' 14); auto; lia|]. unfold prec, p'. destruct right; lia. }
    destruct (op_inv k p (eq_sym Ep) ltac:(lia)) as [(E3 & K3)|(op & TB & N3 & KIND)].
    + assert (RT: right = true) by (unfold right; rewrite E3; reflexivity). assert (P3: p' = 3) by (unfold p'; rewrite RT; lia).
      replace (p =? PREC_CONDITIONAL) with true in H by (unfold PREC_CONDITIONAL; lia). cbn [negb] in H.
      destruct (parse_initializer f (l, snd s)) as [[md s1]|] eqn:PI; cbn [bind] in H; [|discriminate]. apply Hin in PI as [L1 PI]. cbn [fst snd] in *.
      destruct (is s1 TK_COLON) eqn:QC.
      * destruct (key_inv _ _ QC) as (l2 & E2 & E2'); [nokey|]. rewrite E2' in H.
        match type of H with bind ?a _ = _ => destruct a as [[y s2]|] eqn:A; cbn [bind] in H; [|discriminate] end.
        match type of H with bind ?a _ = _ => destruct a as [[z s3]|] eqn:B; cbn [bind] in H; [|discriminate] end.
        destruct (OP _ _ _ _ _ _ A B) as (L3 & G3). apply Hrhs in H as [L4 H]; [|lia]. split; [lia|]. intros L q b t0 G Q PQ PQ'.
        unfold prec in PQ, PQ'. fold k in PQ, PQ'. rewrite <- Ep in PQ, PQ'. destruct (PI ltac:(lia)) as (t & Et & GI). destruct (G3 ltac:(lia)) as (u & Eu & GU & LU). rewrite P3 in *.
        destruct (H ltac:(lia) 3 b (t0 ++ TKey TK_QUESTION :: t ++ TKey TK_COLON :: u)) as (v & Ev & GV & LV); [constructor; auto; apply (a_lower 4 q); auto; lia|lia|lia|lia|].
        exists (TKey TK_QUESTION :: t ++ TKey TK_COLON :: u ++ v). split; [rewrite E, K3, Et, E2, Eu, Ev; cbn [app]; rewrite <- !app_assoc; cbn [app]; rewrite <- !app_assoc; reflexivity|].
        split; auto. rewrite <- app_assoc in GV. cbn [app] in GV. rewrite <- app_assoc in GV. cbn [app] in GV. exact GV.
      * destruct s1 as [l2 n2]. unfold error in H. cbn [fst snd] in *.
        match type of H with bind ?a _ = _ => destruct a as [[y s2]|] eqn:A; cbn [bind] in H; [|discriminate] end.
        match type of H with bind ?a _ = _ => destruct a as [[z s3]|] eqn:B; cbn [bind] in H; [|discriminate] end.
        destruct (OP _ _ _ _ _ _ A B) as (L3 & G3). apply Hrhs in H as [L4 H]; [|lia]. split; [lia|]. lia.
    + replace (p =? PREC_CONDITIONAL) with false in H by (unfold PREC_CONDITIONAL; lia). cbn [negb bind] in H.
      match type of H with bind ?a _ = _ => destruct a as [[y s2]|] eqn:A; cbn [bind] in H; [|discriminate] end.
      assert (RT: right = (p =? 2)) by (unfold right, PREC_CONDITIONAL, PREC_ASSIGNMENT; replace (p =? 3) with false by lia; reflexivity).
      match type of H with bind ?a _ = _ => destruct a as [[z s3]|] eqn:B; cbn [bind] in H; [|discriminate] end.
      destruct (OP _ _ _ _ _ _ A B) as (L3 & G3). rewrite TB in H. cbn [bind] in H. apply Hrhs in H as [L4 H]; [|lia]. split; [lia|]. intros L q b t0 G Q PQ PQ'.
      unfold prec in PQ, PQ'. fold k in PQ, PQ'. rewrite <- Ep in PQ, PQ'. destruct (G3 ltac:(lia)) as (u & Eu & GU & LU).
      destruct (H ltac:(lia) p b (t0 ++ TKey k :: u)) as (v & Ev & GV & LV).
      * destruct KIND as [(-> & -> & ->)|[(-> & AO)|(R & O)]].
        -- apply a_comma; [apply (a_lower 1 q); auto; lia|exact GU].
        -- apply a_assignment; [auto|apply (a_lower 3 q); auto; lia|exact GU].
        -- apply a_binary; [auto|apply (a_lower p q); auto; lia|]. assert (Pp: p' = p + 1) by (unfold p'; rewrite RT; replace (p =? 2) with false by lia; lia). rewrite <- Pp. exact GU.
      * pose proof (prec_le k). lia.
      * lia.
      * intros [->|]; [|lia]. unfold p' in LU. rewrite RT in LU. change (2 =? 2) with true in LU. cbv iota in LU. lia.
      * exists (TKey k :: u ++ v). split; [rewrite E, Eu, Ev; cbn [app]; rewrite <- !app_assoc; reflexivity|]. split; auto. rewrite <- app_assoc in GV. exact GV.
  - intros s e s' H. cbn [parse_assignment_expression] in H. destruct (parse_unary_expression f s) as [[x s1]|] eqn:P; cbn [bind] in H; [|discriminate].
    apply Hun in P as [L1 P]. apply Hrhs in H as [L2 H]; [|discriminate]. split; [lia|]. intros L. destruct (P ltac:(lia)) as (t & Et & G).
    pose proof (prec_le (cur (fst s1))) as PL. unfold PREC_ASSIGNMENT in H. destruct (H ltac:(lia) 14 false t G) as (u & Eu & G2 & L3); [lia|unfold prec; lia|lia|].
    exists (t ++ u). split; auto. rewrite Et, Eu, app_assoc. reflexivity.
  - intros s e s' H. cbn [parse_expression] in H. destruct (parse_assignment_expression f s) as [[x s1]|] eqn:P; cbn [bind] in H; [|discriminate].
    apply Has in P as [L1 P]. apply Hrhs in H as [L2 H]; [|discriminate]. split; [lia|]. intros L. destruct (P ltac:(lia)) as (t & Et & G & LL).
    unfold PREC_COMMA in H. destruct (H ltac:(lia) 2 false t G) as (u & Eu & G2 & L3); [lia|lia|lia|].
    exists (t ++ u). split; auto. rewrite Et, Eu, app_assoc. reflexivity.
  - intros s e s' H. cbn [parse_initializer] in H. destruct (is s TK_L_BRACE) eqn:Q.
    + destruct (key_inv _ _ Q) as (l & E & E'); [nokey|]. rewrite E' in H. destruct (is (l, snd s) TK_R_BRACE).
      { injection H as <- <-. apply good_bad. cbn. lia. }
      destruct (parse_initializer_list f (l, snd s)) as [[i s1]|] eqn:P; cbn [bind] in H; [|discriminate]. apply Hlist in P as [L1 P]. cbn [fst snd] in *.
      destruct (is s1 TK_R_BRACE) eqn:Q2.
      * destruct (key_inv _ _ Q2) as (l2 & E2 & E2'); [nokey|]. injection H as <- <-. rewrite E2'. split; [cbn; lia|]. cbn [fst snd]. intros L. destruct (P L) as (t & Et & G).
        exists (TKey TK_L_BRACE :: t ++ [TKey TK_R_BRACE]). split; [rewrite E, Et, E2; cbn [app]; rewrite <- app_assoc; reflexivity|apply ai_braces; auto].
      * match type of H with bind ?a _ = _ => destruct a as [s2|] eqn:A; cbn [bind] in H; [|discriminate] end. injection H as <- <-. apply skip_errors in A. cbn [error snd] in A.
        apply good_bad. rewrite try_errors. lia.
    + apply Has in H as [L1 H]. split; auto. intros L. destruct (H L) as (t & Et & G & _). exists t. split; auto. constructor. auto.
Qed.

(** ** The results about whole texts *)
Lemma ends_follow l : ends_expression l -> follow 1 l /\ prec l < 1.
Proof.
  unfold ends_expression, follow, prec, postfix_start. cbv zeta. intros H.
  repeat match type of H with _ \/ _ => destruct H as [H|H] end; rewrite H; vm_compute; repeat split; auto; intros; discriminate.
Qed.
Lemma parse_total l n : exists e s, parse l n = Some (e, s) /\ sfx (l, n) s.
Proof.
  destruct (total (enough l)) as (_ & _ & _ & _ & _ & _ & _ & T & _). destruct (T (l, n)) as ([e s] & E & S); [unfold enough; cbn [fst]; lia|]. exists e, s. auto.
Qed.
Lemma parse_exp l n r : exp (l, n) r -> parse l n = Some r.
Proof.
  intros [f H]. destruct (parse_total l n) as (e & s & E & _). unfold parse in *.
  apply (m_exp f (Nat.max f (enough l))) in H; [|lia]. apply (m_exp _ (Nat.max f (enough l))) in E as E'; [|lia]. congruence.
Qed.
Lemma agram_parse e t rest n : agram 1 false e t -> ends_expression rest -> parse (t ++ rest) n = Some (e, (rest, n)).
Proof.
  intros G R. destruct (ends_follow _ R) as (F & L). apply parse_exp. destruct (proj1 grammar _ _ _ _ G) as (_ & _ & _ & _ & _ & _ & C). apply C; auto. apply rhs_end. lia.
Qed.
Lemma parse_agram l n e rest n' : parse l n = Some (e, (rest, n')) -> n' = n -> exists t, l = t ++ rest /\ agram 1 false e t.
Proof.
  intros H ->. destruct (accepted (enough l)) as (_ & _ & _ & _ & _ & _ & _ & A & _). apply A in H as [_ H]. destruct (H eq_refl) as (t & E & G & _). eauto.
Qed.

Lemma any b p : (forall e t, agram p false e t -> agram p b e t).
Proof.
  assert (W: (forall p b e t, agram p b e t -> b = false -> forall b', agram p b' e t) /\ (forall e t, agram_init e t -> True) /\ (forall e t, agram_list e t -> True)).
  { apply agram_mutual; intros; auto; try discriminate; try (subst; econstructor; eauto; fail). }
  intros e t H. apply (proj1 W _ _ _ _ H eq_refl).
Qed.
Lemma init_operand : forall e t, agram_init e t -> agram 2 true e t.
Proof. intros e t [e' t' G|es u G]; [apply any; auto|]. apply (a_lower 2 14); [constructor; auto|lia]. Qed.
Lemma gram_agram : (forall p e t, gram p e t -> agram p false e t) /\ (forall e t, gram_init e t -> agram_init e t) /\ (forall e t, gram_list e t -> agram_list e t).
Proof.
  apply gram_mutual; intros; try (econstructor; eauto using any; fail).
  apply a_assignment; auto using init_operand. apply (a_lower 3 14); [auto|lia].
Qed.

(** ** Writing *)
Section expr_ind2.
Variable P : expr -> Prop.
Hypothesis Hident : forall n, P (EIdent n).
Hypothesis Hchar : forall n, P (EChar n).
Hypothesis Hint : forall n, P (EInt n).
Hypothesis Hfloat : forall n, P (EFloat n).
Hypothesis Hstring : forall n, P (EString n).
Hypothesis Hnull : P ENull.
Hypothesis Hbool : forall b, P (EBool b).
Hypothesis Hsub : forall a i, P a -> P i -> P (ESubscript a i).
Hypothesis Hcall : forall a es, P a -> Forall P es -> P (ECall a es).
Hypothesis Hmember : forall a n b, P a -> P (EMember a n b).
Hypothesis Hunary : forall op a, P a -> P (EUnary op a).
Hypothesis Hbinary : forall op a b, P a -> P b -> P (EBinary op a b).
Hypothesis Hternary : forall c a b, P c -> P a -> P b -> P (ETernary c a b).
Hypothesis Hinit : forall es, Forall P es -> P (EInit es).
Hypothesis Hbroken : P EBroken.
Fixpoint expr_ind2 (e : expr) : P e :=
  let all := fix all l : Forall P l := match l with [] => Forall_nil _ | e :: l => Forall_cons _ (expr_ind2 e) (all l) end in
  match e with
  | EIdent n => Hident n | EChar n => Hchar n | EInt n => Hint n | EFloat n => Hfloat n | EString n => Hstring n | ENull => Hnull | EBool b => Hbool b
  | ESubscript a i => Hsub a i (expr_ind2 a) (expr_ind2 i)
  | ECall a es => Hcall a es (expr_ind2 a) (all es)
  | EMember a n b => Hmember a n b (expr_ind2 a)
  | EUnary op a => Hunary op a (expr_ind2 a)
  | EBinary op a b => Hbinary op a b (expr_ind2 a) (expr_ind2 b)
  | ETernary c a b => Hternary c a b (expr_ind2 c) (expr_ind2 a) (expr_ind2 b)
  | EInit es => Hinit es (all es)
  | EBroken => Hbroken
  end.
End expr_ind2.

Lemma g_lower p q e t : gram q e t -> 1 <= p <= q -> gram p e t.
Proof.
  intros H [P L]. assert (X: forall n : nat, forall p, 1 <= p -> p + Z.of_nat n = q -> gram p e t).
  { induction n as [|n IH]; intros p' P' E; [replace p' with q by lia; auto|]. apply g_up; [lia|]. apply IH; lia. }
  apply (X (Z.to_nat (q - p))); lia.
Qed.
Lemma level_range e : 1 <= level e <= 16.
Proof. destruct e; cbn; try lia; [destruct op; lia|destruct op; cbn; lia]. Qed.
Lemma gram_operand p e t : gram (level e) e t -> 1 <= p <= 16 -> gram p e (operand p e t).
Proof.
  intros G P. unfold operand. pose proof (level_range e). destruct (level e <? p) eqn:L.
  - apply (g_lower p 16); [|lia]. apply g_parens. apply (g_lower 1 (level e)); auto; lia.
  - apply (g_lower p (level e)); auto. lia.
Qed.
Definition shown (e : expr) : Prop := (writable false e -> gram (level e) e (show e)) /\ (writable true e -> gram_init e (initializer e (show e))).
Lemma write_list es : Forall shown es -> es <> [] -> (fix all l := match l with [] => True | e :: l => writable true e /\ all l end) es ->
  gram_list es (separate (map (fun e => initializer e (show e)) es)).
Proof.
  induction es as [|e es IH]; intros F N W; [congruence|]. apply Forall_cons_iff in F as [[_ F1] F2]. destruct W as [W1 W2].
  destruct es as [|e' es]; [constructor; auto|]. change (gram_list (e :: e' :: es) (initializer e (show e) ++ TKey TK_COMMA :: separate (map (fun e => initializer e (show e)) (e' :: es)))).
  apply gl_more; auto. apply IH; auto. discriminate.
Qed.
Lemma write e : shown e.
Proof.
  assert (NB: forall e, (forall es, e <> EInit es) -> (writable true e -> writable false e) -> (writable false e -> gram (level e) e (show e)) -> shown e).
  { intros x X Y Z0. split; auto. intros W. replace (initializer x (show x)) with (operand 2 x (show x)) by (destruct x; auto; congruence).
    constructor. apply gram_operand; auto; lia. }
  induction e using expr_ind2; try (apply NB; [discriminate|auto|]).
  - intros _. constructor.
  - intros _. constructor.
  - intros W. assert (W': - 2 ^ 63 <= n < 2 ^ 63) by exact W. pose proof (g_int n) as G. replace (s64 n) with n in G; [exact G|]. symmetry. apply s64_id. unfold is_int64, LLONG_MIN, LLONG_MAX, two63. change (2 ^ 63) with 9223372036854775808 in *. lia.
  - intros _. constructor.
  - intros _. constructor.
  - intros _. constructor.
  - intros _. destruct b; constructor.
  - intros [W1 W2]. destruct IHe1 as [I1 _]. destruct IHe2 as [I2 _]. cbn [level show]. apply g_subscript; [apply gram_operand; auto; lia|].
    pose proof (level_range e2). apply (g_lower 1 (level e2)); auto; lia.
  - intros [W1 W2]. destruct IHe as [I1 _]. cbn [level show]. destruct es as [|x es]; [apply g_call0; apply gram_operand; auto; lia|].
    apply g_call; [apply gram_operand; auto; lia|]. apply write_list; auto. discriminate.
  - intros W. destruct IHe as [I1 _]. cbn [level show]. destruct b; constructor; (apply gram_operand; [auto|lia]).
  - intros W. cbn in W. destruct IHe as [I1 _]. destruct op; cbn [level show prefix_token]; first [apply g_postinc|apply g_postdec|apply g_prefix; [constructor|]]; (apply gram_operand; [auto|lia]).
  - intros [W1 W2]. destruct IHe1 as [I1 _]. destruct IHe2 as [I2 J2]. cbn [level show].
    destruct op; cbn [op_level op_token] in *; cbn [Z.eqb Pos.eqb Z.add Pos.add Pos.succ] in *;
      first [apply g_assignment; [constructor|apply gram_operand; [auto|lia]|auto]
            |apply g_comma; [apply gram_operand; [auto|lia]|apply gram_operand; [auto|lia]]
            |apply g_binary; [constructor|apply gram_operand; [auto|lia]|apply gram_operand; [auto|lia]]].
  - intros (W1 & W2 & W3). destruct IHe1 as [I1 _]. destruct IHe2 as [_ I2]. destruct IHe3 as [I3 _]. cbn [level show].
    apply g_conditional; auto; (apply gram_operand; [auto|lia]).
  - split; [intros [W _]; discriminate|]. intros (_ & N & W). cbn [initializer show]. apply gi_braces. apply write_list; auto.
  - intros [].
Qed.
Lemma show_parses e rest n : writable false e -> ends_expression rest -> parse (show e ++ rest) n = Some (e, (rest, n)).
Proof.
  intros W R. apply agram_parse; auto. apply gram_agram. pose proof (level_range e). apply (g_lower 1 (level e)); [apply write; auto|lia].
Qed.

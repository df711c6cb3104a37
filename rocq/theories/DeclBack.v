(** A declaration parsed without a message is a text of the declaration. *)
From Verif Require Import Prelude LexModel ParseModel ParseSpec ParseFuel ParseProofs ParseBack ParseSkip StmtModel StmtSpec StmtProofs StmtAccept StmtBack DeclModel DeclSpec DeclAccept.

Section B.
Variable E : Type.
Variable note : E -> entry -> ctype * E * nat.
Variables type_of tag_of : E -> Z -> option ctype.
Variable correct : E -> expr -> bool.
Variable enum_value : E -> ctype -> expr -> option (Z * bool).
Notation V := (denv E).
Notation P := (ps V).
Notation says := (says E note).
Notation table := (table E).
Notation toks := (toks V).
Notation errs p := (snd (p_s p)).
Notation tdef p := (v_type_def (p_env p)).
Notation abtext := (abtext E correct).
Notation aetext := (aetext E note enum_value).
Notation aenumerator := (aenumerator E note enum_value).
Notation atspec := (atspec E note type_of tag_of correct enum_value).
Notation amtext := (amtext E note type_of tag_of correct enum_value).
Notation adtext := (adtext E note correct).
Notation adlist := (adlist E note correct).
Notation adectext := (adectext E note type_of tag_of correct enum_value).

(** ** Steps *)
Definition fine_env (p : P) : Prop := v_fault (p_env p) = None.
(** What every step keeps: a fault stays, errors are not taken back. *)
Definition way (p q : P) : Prop := (fine_env q -> fine_env p) /\ errs p <= errs q /\ p_loop q = p_loop p /\ p_switch q = p_switch p.
(** A step without a fault and without a message. *)
Definition clean (p q : P) : Prop := fine_env q /\ errs q = errs p.
Lemma way_refl p : way p p.
Proof. clear. repeat split; auto. lia. Qed.
Lemma way_trans a b c : way a b -> way b c -> way a c.
Proof. clear. intros (A1 & A2 & A3 & A4) (B1 & B2 & B3 & B4). repeat split; auto; try congruence. lia. Qed.
Lemma clean_split a b c : way a b -> way b c -> clean a c -> clean a b /\ clean b c.
Proof. clear. intros (A1 & A2 & _) (B1 & B2 & _) (C1 & C2). repeat split; auto; lia. Qed.
Lemma clean_error a b c : way a b -> way (perror V b) c -> clean a c -> False.
Proof. clear. intros (A1 & A2 & _) (B1 & B2 & _) (C1 & C2). cbn in B2. lia. Qed.
Lemma clean_stop a b f c : way a b -> way (stop E f b) c -> clean a c -> False.
Proof. clear. intros (A1 & A2 & _) (B1 & B2 & _) (C1 & C2). apply B1 in C1. unfold fine_env in C1. cbn in C1. destruct (v_fault (p_env b)); discriminate. Qed.
Lemma way_env p q : p_env q = p_env p -> errs p <= errs q -> p_loop q = p_loop p -> p_switch q = p_switch p -> way p q.
Proof. clear. intros A B C D. repeat split; auto. unfold fine_env. rewrite A. auto. Qed.
Lemma way_consume p : way p (pconsume V p).
Proof. clear. apply way_env; auto. cbn. lia. Qed.
Lemma way_error p : way p (perror V p).
Proof. clear. apply way_env; auto. cbn. lia. Qed.
Lemma way_expect p k : way p (pexpect V p k).
Proof. clear. apply way_env; auto. apply (adv_errs V _ _ (adv_expect V p k)). Qed.
Lemma way_try p k b q : ptry V p k = (b, q) -> way p q.
Proof. clear. unfold ptry. destruct (pis V p k); intros [= _ <-]; [apply way_consume|apply way_refl]. Qed.
Lemma way_skip T p q : pskip V T p = Some q -> way p q.
Proof. clear. unfold pskip. destruct (recover _ _); cbn [bind]; [|discriminate]. intros [= <-]. apply way_env; auto. cbn. lia. Qed.
Lemma way_skip_to T k p q : pskip_to E T k p = Some q -> way p q.
Proof.
  clear. unfold pskip_to. destruct (pskip V T p) as [r|] eqn:X; cbn [bind]; [|discriminate]. intros [= <-]. destruct (ptry V r k) as [b s] eqn:Y. eapply way_trans; [eapply way_skip; eauto|eapply way_try; eauto].
Qed.
Lemma way_type_defined p b : way p (type_defined E p b).
Proof. clear. repeat split; auto. cbn. lia. Qed.
Lemma way_enters x p t q : enters E note x p = (t, q) -> way p q /\ toks q = toks p /\ tdef q = tdef p /\ (clean p q -> says (table p) x t (table q)).
Proof.
  clear. unfold enters, DeclSpec.says. destruct (note (table p) x) as [[u e] n] eqn:X. intros [= <- <-]. repeat split; auto; cbn; try lia. intros [_ H]. cbn in H.
  replace n with 0%nat in * by lia. reflexivity.
Qed.
Lemma way_noted x p : way p (noted E note x p) /\ toks (noted E note x p) = toks p /\ tdef (noted E note x p) = tdef p /\ (clean p (noted E note x p) -> exists u, says (table p) x u (table (noted E note x p))).
Proof. clear. unfold noted. destruct (enters E note x p) as [t q] eqn:X. apply way_enters in X as (A & B & C & D). cbn [snd]. split; [exact A|]. split; [exact B|]. split; [exact C|]. intros K. exists t. exact (D K). Qed.
Lemma way_stop f p : way p (stop E f p).
Proof. clear. repeat split; auto; cbn; try lia. unfold fine_env. cbn. destruct (v_fault (p_env p)); [discriminate|auto]. Qed.
Ltac ways := first [assumption | apply way_refl
  | match goal with H : way ?c ?b |- way _ ?b => apply (way_trans _ c b); [clear H; ways | exact H] end
  | match goal with |- way _ (pconsume _ ?r) => apply (way_trans _ r); [ways|apply way_consume] end
  | match goal with |- way _ (perror _ ?r) => apply (way_trans _ r); [ways|apply way_error] end
  | match goal with |- way _ (noted _ _ ?x ?r) => apply (way_trans _ r); [ways|apply way_noted] end
  | match goal with |- way _ (type_defined _ ?r _) => apply (way_trans _ r); [ways|apply way_type_defined] end
  | match goal with |- way _ (stop _ _ ?r) => apply (way_trans _ r); [ways|apply way_stop] end
  | match goal with |- way _ (pexpect _ ?r _) => apply (way_trans _ r); [ways|apply way_expect] end
  | match goal with |- way _ (if ?c then _ else _) => destruct c; ways end ].
(** [H : clean a c] and a state [b] between. *)
Ltac cut H b C := match type of H with clean ?a ?c => let X := fresh in assert (X: clean a b /\ clean b c) by (apply clean_split; [ways|ways|exact H]); clear H; destruct X as (C & H) end.
Ltac nope H := exfalso; match type of H with clean ?a ?c => first
  [ match goal with |- _ => match c with context [perror V ?b] => refine (clean_error a b c _ _ H); ways end end ] end.

Lemma try_toks p k q : ptry V p k = (true, q) -> ~ literal k -> toks p = TKey k :: toks q /\ p_env q = p_env p.
Proof. clear. intros H N. apply try_back in H as (A & _ & _ & B & _); auto. Qed.
Lemma try_none p k q : ptry V p k = (false, q) -> q = p /\ pis V p k = false.
Proof. clear. unfold ptry. destruct (pis V p k) eqn:X; [discriminate|]. intros [= <-]. auto. Qed.
Lemma star_back p s c q : star_const E p = (s, c, q) -> way p q /\ p_env q = p_env p /\ toks p = stars s c ++ toks q /\ (c = true -> s = true) /\ errs q = errs p.
Proof.
  clear. unfold star_const, stars. destruct (ptry V p TK_STAR) as [[] p1] eqn:X.
  - pose proof (way_try _ _ _ _ X). pose proof (try_back _ _ _ _ _ X ltac:(nokey)) as (A1 & _ & L1 & T1 & _). destruct (ptry V p1 TK_CONST) as [b p2] eqn:Y. pose proof (way_try _ _ _ _ Y).
    pose proof (try_back _ _ _ _ _ Y ltac:(nokey)) as (A2 & _ & L2 & T2 & N2). intros [= <- <- <-]. split; [ways|]. split; [congruence|]. split; [|split; [auto|congruence]].
    rewrite T1 by auto. destruct b; cbn [app]; f_equal; [auto|destruct (N2 eq_refl) as (-> & _); reflexivity].
  - intros [= <- <- <-]. apply try_none in X as (-> & _). repeat split; auto; try apply way_refl.
Qed.
Notation read_e := (read_expression V (v_correct E correct)).
Lemma way_read p e b q : read_e p = Some (e, b, q) -> way p q.
Proof.
  clear. intros H. assert (p_loop q = p_loop p /\ p_switch q = p_switch p) as (L & S).
  { unfold read_expression in H. destruct (parse_expression _ _) as [[x s]|]; cbn [bind] in H; [|discriminate]. injection H as <- <- <-. auto. }
  apply read_back in H as (A & _ & M & _). apply way_env; auto.
Qed.
Lemma bounds_back empty T : forall f p bs q, parse_bounds E correct f empty T p = Some (bs, q) -> way p q /\ p_env q = p_env p /\ (clean p q -> exists l, toks p = l ++ toks q /\ abtext empty (table p) l bs).
Proof.
  clear. induction f as [|f IH]; intros p bs q H; [discriminate|]. cbn [parse_bounds] in H. destruct (ptry V p TK_L_SQUARE) as [[] p1] eqn:X; cbn [negb] in H.
  2:{ apply try_none in X as (-> & _). injection H as <- <-. split; [apply way_refl|]. split; auto. intros _. exists []. split; [reflexivity|constructor]. }
  pose proof (way_try _ _ _ _ X) as W1. apply try_toks in X as (T1 & A1); [|nokey]. destruct (ptry V p1 TK_R_SQUARE) as [[] p2] eqn:Y; pose proof (way_try _ _ _ _ Y) as W2.
  - apply try_toks in Y as (T2 & A2); [|nokey]. destruct (parse_bounds _ _ f empty T _) as [[bs1 p3]|] eqn:Z; cbn [bind] in H; [|discriminate]. injection H as <- <-. apply IH in Z as (W3 & A3 & Z).
    assert (W4: way p2 p3) by (apply (way_trans _ (if empty then p2 else perror V p2)); ways). split; [ways|]. split; [rewrite A3; destruct empty; cbn; congruence|]. intros C.
    destruct empty; [|exfalso; refine (clean_error p p2 p3 _ _ C); ways]. cut C p2 C1. destruct (Z C) as (l & U & G). exists (TKey TK_L_SQUARE :: TKey TK_R_SQUARE :: l).
    split; [rewrite T1, T2, U; reflexivity|]. constructor; auto. unfold DeclModel.table in *. rewrite A2, A1 in G. exact G.
  - apply try_none in Y as (-> & _). destruct (read_e p1) as [[[e b] p3]|] eqn:R; cbn [bind] in H; [|discriminate]. pose proof (way_read _ _ _ _ R) as W3.
    apply read_back in R as (A3 & _ & L3 & N3 & T3).
    match type of H with bind ?a _ = _ => destruct a as [p4|] eqn:Q; cbn [bind] in H; [|discriminate] end.
    destruct (parse_bounds _ _ f empty T p4) as [[bs1 p5]|] eqn:Z; cbn [bind] in H; [|discriminate]. injection H as <- <-. apply IH in Z as (W5 & A5 & Z).
    assert (W: way p3 p4 /\ p_env p4 = p_env p3 /\ (clean p p4 -> b = true /\ toks p3 = TKey TK_R_SQUARE :: toks p4)).
    { destruct b; cbn [negb] in Q.
      - destruct (ptry V p3 TK_R_SQUARE) as [[] p6] eqn:U.
        + injection Q as <-. pose proof (way_try _ _ _ _ U). apply try_toks in U as (U1 & U2); [|nokey]. repeat split; auto; apply H.
        + apply try_none in U as (-> & _). pose proof (way_skip_to _ _ _ _ Q) as W6. split; [apply (way_trans _ (perror V p3)); ways|]. split.
          * unfold pskip_to in Q. destruct (pskip V T (perror V p3)) as [r|] eqn:K; cbn [bind] in Q; [|discriminate]. injection Q as <-. apply skip_back in K as (K & _). cbn in K.
            destruct (ptry V r TK_R_SQUARE) as [b1 r1] eqn:J. apply try_back in J as (J & _); [|nokey]. cbn [snd]. congruence.
          * intros C. exfalso. refine (clean_error p p3 p4 _ W6 C). ways.
      - specialize (N3 eq_refl). pose proof (way_skip_to _ _ _ _ Q) as W6. split; [exact W6|]. split.
        + unfold pskip_to in Q. destruct (pskip V T p3) as [r|] eqn:K; cbn [bind] in Q; [|discriminate]. injection Q as <-. apply skip_back in K as (K & _).
          destruct (ptry V r TK_R_SQUARE) as [b1 r1] eqn:J. apply try_back in J as (J & _); [|nokey]. cbn [snd]. congruence.
        + intros (_ & C). destruct W1 as (_ & ? & _). destruct W6 as (_ & ? & _). lia. }
    destruct W as (W4 & A4 & Q'). split; [ways|]. split; [congruence|]. intros C. cut C p4 C1. destruct (Q' C1) as (-> & U). cut C1 p1 C0. cut C1 p3 C2.
    destruct (Z C) as (l & U5 & G). destruct T3 as (t & U3 & G3); [apply C2|]. exists (TKey TK_L_SQUARE :: t ++ TKey TK_R_SQUARE :: l). split; [rewrite T1, U3, U, U5; cbn [app]; rewrite <- app_assoc; reflexivity|].
    unfold DeclModel.table in *. rewrite A4, A3, A1 in G. rewrite A1 in G3. constructor; [exact G3|exact G].
Qed.
Lemma initializer_back p e b q : read_initializer E correct p = Some (e, b, q) -> way p q /\ p_env q = p_env p /\ (b = false -> errs p < errs q) /\
  (clean p q -> exists t, toks p = t ++ toks q /\ agram_init e t /\ correct (table p) e = true).
Proof.
  clear. unfold read_initializer. destruct (parse_initializer _ _) as [[e1 s]|] eqn:X; cbn [bind]; [|discriminate]. intros [= <- <- <-].
  destruct (accepted (enough (StmtModel.toks V p))) as (_ & _ & _ & _ & _ & _ & _ & _ & A). apply A in X as (L & X). unfold built, v_correct.
  destruct (correct (v_env (p_env p)) e1) eqn:C; (split; [apply way_env; auto; cbn; lia|]); split; auto; (split; [try discriminate; cbn; lia|]); intros (_ & Q); cbn in Q; [|lia].
  destruct (X Q) as (t & T & G). exists t. repeat split; auto.
Qed.
Lemma declarator_back type p d q : parse_init_declarator E note correct type p = Some (d, q) -> way p q /\ tdef q = tdef p /\
  (clean p q -> exists l dr, d = Some dr /\ toks p = l ++ toks q /\ adtext (table p) type l dr (table q)).
Proof.
  clear. unfold parse_init_declarator. destruct (star_const E p) as [[s c] p1] eqn:X. apply star_back in X as (W1 & A1 & T1 & SC & L1).
  assert (BAD: (do p2 <- pskip V (Z.lor TK_COMMA TK_SEMICOLON) (perror V p1); Some (None, p2)) = Some (d, q) -> way p q /\ tdef q = tdef p /\ (clean p q -> exists l dr, d = Some dr /\ toks p = l ++ toks q /\ adtext (table p) type l dr (table q))).
  { destruct (pskip V _ (perror V p1)) as [p2|] eqn:Y; cbn [bind]; [|discriminate]. intros [= <- <-]. pose proof (way_skip _ _ _ Y) as W2. assert (way p1 p2) by (apply (way_trans _ (perror V p1)); ways).
    apply skip_back in Y as (Y & _). cbn in Y. split; [ways|]. split; [congruence|]. intros C. exfalso. exact (clean_error _ _ _ W1 W2 C). }
  destruct (toks p1) as [|[name| | | | |] l] eqn:T0; try exact BAD. clear BAD. intros H.
  assert (T1': toks p1 = TIdent name :: toks (pconsume V p1)) by (unfold StmtModel.toks in *; cbn; rewrite T0; reflexivity).
  destruct (parse_bounds _ _ _ _ _ _) as [[bs p2]|] eqn:Y; cbn [bind] in H; [|discriminate]. apply bounds_back in Y as (W2 & A2 & Y).
  destruct (ptry V p2 TK_EQUAL) as [b p3] eqn:Z. pose proof (way_try _ _ _ _ Z) as W3. pose proof (try_back _ _ _ _ _ Z ltac:(nokey)) as (A3 & _ & L3 & T3 & N3).
  match type of H with bind ?a _ = _ => destruct a as [[init p4]|] eqn:Q; cbn [bind] in H; [|discriminate] end. injection H as <- <-.
  assert (W: way p3 p4 /\ p_env p4 = p_env p3 /\ (clean p3 p4 -> exists i, toks p2 = i ++ toks p4 /\ ainit_text E correct (table p3) i init)).
  { destruct b.
    - destruct (read_initializer E correct p3) as [[[e b] p5]|] eqn:R; cbn [bind] in Q; [|discriminate]. apply initializer_back in R as (W5 & A5 & N5 & R). destruct b.
      + injection Q as <- <-. split; auto. split; auto. intros C. destruct (R C) as (t & U & G & K). exists (TKey TK_EQUAL :: t). split; [rewrite T3, U by auto; reflexivity|constructor; auto].
      + specialize (N5 eq_refl). destruct (pskip V _ p5) as [p6|] eqn:K; cbn [bind] in Q; [|discriminate]. injection Q as <- <-. pose proof (way_skip _ _ _ K) as W6. apply skip_back in K as (K1 & _ & K2).
        split; [ways|]. split; [congruence|]. intros (_ & C). lia.
    - destruct (N3 eq_refl) as (-> & _). injection Q as <- <-. split; [ways|]. split; auto. intros _. exists []. split; [reflexivity|constructor]. }
  destruct W as (W4 & A4 & Q'). set (dr := mkDeclarator type name s c bs init). pose proof (way_noted (NVariable dr) p4) as (W5 & T5 & D5 & N5).
  split; [ways|]. split; [rewrite D5, A4, A3, A2; cbn; rewrite A1; reflexivity|]. intros C. cut C p4 C4. cut C4 p3 C3. cut C3 p2 C2. cut C2 (pconsume V p1) C1.
  destruct (N5 C) as (u & U). destruct (Q' C4) as (i & Ti & Gi). destruct (Y C2) as (l2 & U2 & G2). exists (stars s c ++ TIdent name :: l2 ++ i), dr. split; auto. split.
  - rewrite T1, <- T0, T1', U2, Ti, T5. rewrite <- !app_assoc. cbn [app]. rewrite <- app_assoc. reflexivity.
  - unfold DeclModel.table in *. change (p_env (pconsume V p1)) with (p_env p1) in *. rewrite A1 in G2. rewrite A3, A2, A1 in Gi. rewrite A4, A3, A2, A1 in U. econstructor; eauto.
Qed.

(** ** Enumerations *)
Lemma ident_back (p : P) name l : toks p = TIdent name :: l -> toks p = TIdent name :: toks (pconsume V p).
Proof. clear. unfold StmtModel.toks. cbn. intros ->. reflexivity. Qed.
Definition fields_back (md value : Z) (type : ctype) (p : P) (fs : option (list (Z * Z))) (q : P) : Prop :=
  exists l fs', fs = Some fs' /\ toks p = l ++ TKey TK_R_BRACE :: toks q /\ aetext type (table p) value l fs' (table q) /\ md + 2 * zlen fs' <= 100.
Lemma enumerators_back type : forall f md value p fs q, parse_enumerators E note enum_value f type md value p = Some (fs, q) -> way p q /\ (clean p q -> tdef q = tdef p /\ fields_back md value type p fs q).
Proof.
  clear. induction f as [|h IHh]; intros md value p fs q H; [discriminate|]. cbn [parse_enumerators] in H.
  assert (BAD: (do p1 <- pskip V (Z.lor TK_SEMICOLON TK_R_BRACE) (perror V p); Some (@None (list (Z * Z)), stop E Assertion p1)) = Some (fs, q) -> way p q /\ (clean p q -> tdef q = tdef p /\ fields_back md value type p fs q)).
  { destruct (pskip V _ _) as [p1|] eqn:X; cbn [bind]; [|discriminate]. intros [= <- <-]. pose proof (way_skip _ _ _ X) as W. assert (way p p1) by (apply (way_trans _ (perror V p)); ways).
    split; [ways|]. intros C. exfalso. refine (clean_stop p p1 _ _ _ (way_refl _) C). ways. }
  destruct (toks p) as [|[name| | | | |] l] eqn:TT; try exact (BAD H). clear BAD. apply ident_back in TT as TT'. clear l TT. set (p1 := pconsume V p) in *. assert (A: way p p1) by (unfold p1; ways).
  assert (TP: table p1 = table p /\ tdef p1 = tdef p) by auto. destruct TP as (TP & DP).
  set (again := fun md value (p0 : P) => let '(closed, p2) := ptry V p0 TK_R_BRACE in if closed then Some (Some [], p2) else parse_enumerators E note enum_value h type md value p2).
  assert (AG: forall md value p0 fs q, again md value p0 = Some (fs, q) -> way p0 q /\ (clean p0 q -> tdef q = tdef p0 /\
     ((fs = Some [] /\ toks p0 = TKey TK_R_BRACE :: toks q /\ table q = table p0) \/ fields_back md value type p0 fs q))).
  { clear H. intros md0 v0 p0 fs0 q0 H0. unfold again in H0. destruct (ptry V p0 TK_R_BRACE) as [[] p2] eqn:X; pose proof (way_try _ _ _ _ X) as W.
    - apply try_toks in X as (X1 & X2); [|nokey]. injection H0 as <- <-. split; [exact W|]. intros _. split; [congruence|]. left. repeat split; auto. unfold DeclModel.table. congruence.
    - apply try_none in X as (-> & _). apply IHh in H0 as (W0 & H0). split; [exact W0|]. intros C. destruct (H0 C). auto. }
  set (field := fun value0 (p0 : P) => let p2 := noted E note (NEnumerator name type value0) p0 in
     if value0 =? LLONG_MAX then Some (None, stop E Overflow p2) else if 100 <=? md + 1 then Some (None, stop E Overrun p2)
     else let p3 := if pis V p2 TK_R_BRACE then p2 else pexpect V p2 TK_COMMA in
          do ' (fs, p4) <- again (md + 2) (value0 + 1) p3; Some (match fs with Some fs0 => Some ((value0, name) :: fs0) | None => None end, p4)).
  assert (FI: forall v p0 fs q, field v p0 = Some (fs, q) -> way p0 q /\ (clean p0 q -> tdef q = tdef p0 /\ exists u env1, says (table p0) (NEnumerator name type v) u env1 /\
     forall env0 value0 l0, aenumerator env0 type value0 l0 name v env1 ->
       exists l fs', fs = Some fs' /\ l0 ++ toks p0 = l ++ TKey TK_R_BRACE :: toks q /\ aetext type env0 value0 l fs' (table q) /\ md + 2 * zlen fs' <= 100)).
  { clear H. intros v p0 fs0 q0 H0. unfold field in H0. cbn zeta in H0. pose proof (way_noted (NEnumerator name type v) p0) as (W2 & T2 & D2 & N2). set (p2 := noted E note (NEnumerator name type v) p0) in *.
    destruct (v =? LLONG_MAX) eqn:VM. { injection H0 as <- <-. split; [ways|]. intros C. exfalso. exact (clean_stop _ _ _ _ W2 (way_refl _) C). }
    destruct (100 <=? md + 1) eqn:MD. { injection H0 as <- <-. split; [ways|]. intros C. exfalso. exact (clean_stop _ _ _ _ W2 (way_refl _) C). }
    destruct (pis V p2 TK_R_BRACE) eqn:RB.
    - destruct (again (md + 2) (v + 1) p2) as [[fs1 p4]|] eqn:AX; cbn [bind] in H0; [|discriminate]. injection H0 as <- <-.
      assert (XX: fs1 = Some [] /\ p4 = pconsume V p2). { unfold again, ptry in AX. rewrite RB in AX. injection AX as <- <-. auto. } destruct XX as (-> & ->). apply consume_back in RB; [|nokey].
      assert (W4: way p2 (pconsume V p2)) by ways. split; [ways|]. intros C. cut C p2 C1. destruct (N2 C1) as (u & U). split; [exact D2|]. exists u, (table p2). split; [exact U|]. intros env0 value0 l0 G.
      exists l0, [(v, name)]. split; auto. split; [rewrite <- T2, RB; reflexivity|]. split; [apply ae_last; [exact G|lia]|]. rewrite zlen_cons, zlen_nil. lia.
    - set (p3 := pexpect V p2 TK_COMMA) in *. assert (W3: way p2 p3) by (unfold p3; ways). destruct (again (md + 2) (v + 1) p3) as [[fs1 p4]|] eqn:AX; cbn [bind] in H0; [|discriminate]. injection H0 as <- <-.
      apply AG in AX as (W4 & AX). split; [ways|]. intros C. cut C p3 C3. cut C3 p2 C2. destruct (N2 C2) as (u & U). destruct (AX C) as (D4 & CASE). split; [rewrite D4; exact D2|].
      pose proof (expect_back V p2 TK_COMMA (proj2 C3) ltac:(nokey)) as TC. fold p3 in TC. exists u, (table p2). split; [exact U|]. intros env0 value0 l0 G.
      destruct CASE as [(-> & T4 & E4)|(l & fs' & -> & T4 & G4 & M4)].
      + exists (l0 ++ [TKey TK_COMMA]), [(v, name)]. split; auto. split; [rewrite <- T2, TC, T4, <- app_assoc; reflexivity|]. split; [rewrite E4; apply ae_comma; [exact G|lia]|]. rewrite zlen_cons, zlen_nil. lia.
      + exists (l0 ++ TKey TK_COMMA :: l), ((v, name) :: fs'). split; auto. split; [rewrite <- T2, TC, T4, <- app_assoc; reflexivity|]. split; [eapply ae_more; [exact G|lia|exact G4]|]. rewrite zlen_cons. lia. }
  destruct (pis V p1 TK_EQUAL) eqn:EQ.
  2:{ destruct (FI value p1 _ _ H) as (W & F). split; [ways|]. intros C. cut C p1 C1. destruct (F C) as (D & u & env1 & U & F'). split; [congruence|]. rewrite TP in U.
      destruct (F' (table p) value [TIdent name]) as (l & fs' & -> & T & G & M); [econstructor; eauto|]. exists l, fs'. repeat split; auto. rewrite TT'. exact T. }
  apply consume_back in EQ; [|nokey]. set (p2 := pconsume V p1) in *. destruct (parse_constant_expression _ _) as [[e s]|] eqn:X; cbn [bind] in H; [|discriminate]. apply const_back in X as (LX & X).
  destruct (enum_value (table p2) type e) as [[v integer]|] eqn:VD.
  - set (p3 := with_s V p2 (built true (p_s p2) s)) in *. assert (W3: way p1 p3) by (apply way_env; auto; exact LX). destruct ((v =? INT_MAX) || negb integer) eqn:IM.
    { injection H as <- <-. split; [ways|]. intros C. exfalso. refine (clean_error p p3 _ _ (way_refl _) C). ways. }
    destruct (FI v p3 _ _ H) as (W & F). split; [ways|]. intros C. cut C p3 C3. cut C3 p1 C1. destruct (F C) as (D & u & env1 & U & F'). split; [exact D|]. change (table p3) with (table p) in U.
    destruct (X (proj2 C3)) as (t & T3 & G3). destruct (F' (table p) value (TIdent name :: TKey TK_EQUAL :: t)) as (l & fs' & -> & T & G & M).
    { econstructor; eauto; [change (table p2) with (table p) in VD; destruct integer; [exact VD|lia]|lia]. }
    exists l, fs'. repeat split; auto. rewrite TT', EQ. change (toks p2 = t ++ toks p3) in T3. rewrite T3. exact T.
  - set (p3 := with_s V p2 (built false (p_s p2) s)) in *. apply AG in H as (W & _). assert (W3: way p1 p3) by (apply way_env; auto; cbn; lia). split; [ways|]. intros (_ & C). exfalso.
    destruct W as (_ & W & _). cbn in W. assert (errs p2 = errs p) by reflexivity. lia.
Qed.
Lemma enum_list_back p t q : pis V p TK_L_BRACE = true -> parse_enum_declaration_list E note enum_value p = Some (t, q) -> way p q /\ (clean p q -> tdef q = tdef p /\
  exists l fs env0 env1 u, toks p = TKey TK_L_BRACE :: l ++ TKey TK_R_BRACE :: toks q /\ says (table p) NEnumType t env0 /\ aetext t env0 0 l fs env1 /\ (length fs <= 49)%nat /\ says env1 (NEnumFields t fs) u (table q)).
Proof.
  clear. intros K H. apply consume_back in K; [|nokey]. unfold parse_enum_declaration_list in H. set (p1 := pconsume V p) in *. assert (W1: way p p1) by (unfold p1; ways).
  destruct (ptry V p1 TK_R_BRACE) as [[] p2] eqn:X; pose proof (way_try _ _ _ _ X) as W2.
  { injection H as <- <-. split; [ways|]. intros C. exfalso. refine (clean_error p p2 _ _ (way_refl _) C). ways. }
  apply try_none in X as (-> & _). destruct (enters E note NEnumType p1) as [ty p3] eqn:Y. apply way_enters in Y as (W3 & T3 & D3 & N3).
  destruct (parse_enumerators _ _ _ _ _ _ _ _) as [[fs p4]|] eqn:Z; cbn [bind] in H; [|discriminate]. apply enumerators_back in Z as (W4 & Z).
  destruct fs as [fs|]; injection H as <- <-.
  - pose proof (way_noted (NEnumFields ty fs) p4) as (W5 & T5 & D5 & N5). split; [ways|]. intros C. cut C p4 C4. cut C4 p3 C3. cut C3 p1 C1. destruct (Z C4) as (D4 & l & fs' & [= <-] & T4 & G & M).
    destruct (N5 C) as (u & U). split; [rewrite D5, D4, D3; reflexivity|]. exists l, fs, (table p3), (table p4), u. split; [rewrite K, <- T3, T4, T5; reflexivity|]. split; [exact (N3 C3)|]. split; auto.
    split; [rewrite zlen_unf in M; lia|exact U].
  - split; [ways|]. intros C. cut C p3 C3. destruct (Z C) as (_ & l & fs' & X & _). discriminate.
Qed.

(** ** Types *)
Hypothesis type_known : forall env n t, type_of env n = Some t -> is_undefined t = false.
Hypothesis tag_known : forall env n t, tag_of env n = Some t -> is_undefined t = false.
Hypothesis note_known : forall env x t env', says env x t env' -> match x with NStruct _ _ | NEnumType | NEnumName _ _ => True | _ => False end -> is_undefined t = false.
Definition spec_back (p : P) (t : ctype) (made : bool) (q : P) : Prop := way p q /\ (clean p q -> is_undefined t = false /\
  exists l d td, toks p = l ++ toks q /\ atspec td (table p) l t made d (table q) /\ tdef q = tdef p || d /\ (td = true -> pis V q TK_SEMICOLON = true)).
Lemma no_semicolon p s c name l : toks p = stars s c ++ TIdent name :: l -> pis V p TK_SEMICOLON = true -> False.
Proof. clear. unfold pis, is. change (fst (p_s p)) with (toks p). intros ->. destruct s; discriminate. Qed.
Lemma spec_simple p t t' k : pis V p k = true -> ~ literal k -> In (k, t) basic -> t' = t -> is_undefined t = false -> spec_back p t' false (pconsume V p).
Proof.
  intros K N I -> U. apply consume_back in K; [|exact N]. split; [ways|]. intros _. split; [exact U|]. exists [TKey k], false, false. split; [exact K|]. split; [apply ats_basic; exact I|].
  split; [rewrite orb_false_r; reflexivity|discriminate].
Qed.
Lemma spec_bad p r t made : way p r -> spec_back p t made (perror V r).
Proof. intros W. split; [ways|]. intros C. exfalso. exact (clean_error _ _ _ W (way_refl _) C). Qed.
Section Spec.
Variable spec : P -> option (ctype * bool * P).
Hypothesis IH : forall p t made q, spec p = Some (t, made, q) -> spec_back p t made q.
Lemma member_back p m q : parse_member_declaration E note correct spec p = Some (m, q) -> way p q /\ (clean p q ->
  exists l d dr, m = Some dr /\ toks p = l ++ toks q /\ tdef q = tdef p || d /\ forall r ms env', amtext (table q) r ms env' -> amtext (table p) (l ++ r) (dr :: ms) env').
Proof.
  intros H. unfold parse_member_declaration in H. destruct (spec p) as [[[t made] p0]|] eqn:S0; cbn [bind] in H; [|discriminate]. apply IH in S0 as (W0 & S0).
  destruct (star_const E p0) as [[s c] p1] eqn:X. apply star_back in X as (W1 & A1 & T1 & SC & L1).
  assert (BAD: (do p2 <- pskip_to E (Z.lor TK_SEMICOLON TK_R_BRACE) TK_SEMICOLON (perror V p1); Some (None, p2)) = Some (m, q) -> way p q /\ (clean p q -> False)).
  { destruct (pskip_to E _ _ (perror V p1)) as [p2|] eqn:Y; cbn [bind]; [|discriminate]. intros [= <- <-]. pose proof (way_skip_to _ _ _ _ Y) as W2. assert (way p1 p2) by (apply (way_trans _ (perror V p1)); ways).
    split; [ways|]. intros C. refine (clean_error p p1 p2 _ W2 C). ways. }
  destruct (toks p1) as [|[name| | | | |] l] eqn:T0; try (destruct (BAD H) as (? & BAD2); split; [assumption|]; intros C; exfalso; exact (BAD2 C)). clear BAD.
  apply ident_back in T0 as T1'. destruct (parse_bounds _ _ _ _ _ _) as [[bs p2]|] eqn:Y; cbn [bind] in H; [|discriminate]. apply bounds_back in Y as (W2 & A2 & Y).
  set (p3 := pexpect V p2 TK_SEMICOLON) in *. assert (W3: way p2 p3) by (unfold p3; ways). set (dr := mkDeclarator t name s c bs None) in *. injection H as <- <-.
  pose proof (way_noted (NMember dr) p3) as (W5 & T5 & D5 & N5). split; [ways|]. intros C. cut C p3 C3. cut C3 p2 C2. cut C2 (pconsume V p1) C1. cut C1 p1 C11. cut C11 p0 C0.
  destruct (N5 C) as (u & U). destruct (Y C2) as (l2 & U2 & G2). pose proof (expect_back V p2 TK_SEMICOLON (proj2 C3) ltac:(nokey)) as TC. fold p3 in TC. destruct (S0 C0) as (_ & l0 & d & td & TS & GS & DS & SM).
  rewrite <- T0 in T1. destruct td. { exfalso. eapply no_semicolon; [|apply SM; reflexivity]. rewrite T1, T1'. reflexivity. }
  exists (l0 ++ stars s c ++ TIdent name :: l2 ++ [TKey TK_SEMICOLON]), d, dr. split; auto. split.
  { rewrite TS, T1, T1', U2, TC, T5. rewrite <- !app_assoc. cbn [app]. rewrite <- !app_assoc. reflexivity. }
  split; [rewrite D5; change (tdef p3) with (tdef p2); rewrite A2; change (tdef (pconsume V p1)) with (tdef p1); rewrite A1; exact DS|].
  intros r ms env' G. rewrite <- !app_assoc. cbn [app]. rewrite <- !app_assoc. cbn [app]. unfold DeclModel.table in *. change (p_env (pconsume V p1)) with (p_env p1) in *. change (p_env p3) with (p_env p2) in *.
  rewrite A1 in *. rewrite A2 in U. eapply am_member; eauto.
Qed.
Lemma members_back : forall f p ms q, parse_members E note correct spec f p = Some (ms, q) -> way p q /\ (clean p q ->
  exists l d ms', ms = map Some ms' /\ toks p = l ++ TKey TK_R_BRACE :: toks q /\ amtext (table p) l ms' (table q) /\ tdef q = tdef p || d).
Proof.
  induction f as [|f IHf]; intros p ms q H; [discriminate|]. cbn [parse_members] in H. destruct (pis V p TK_R_BRACE) eqn:K.
  { injection H as <- <-. apply consume_back in K; [|nokey]. split; [ways|]. intros _. exists [], false, []. split; [reflexivity|]. split; [exact K|]. split; [constructor|]. rewrite orb_false_r. reflexivity. }
  destruct (pis V p TK_EOF). { injection H as <- <-. split; [ways|]. intros C. exfalso. exact (clean_stop _ _ _ _ (way_refl _) (way_refl _) C). }
  destruct (parse_member_declaration _ _ _ _ p) as [[m p1]|] eqn:X; cbn [bind] in H; [|discriminate]. apply member_back in X as (W1 & X).
  destruct (parse_members _ _ _ _ f p1) as [[ms1 p2]|] eqn:Y; cbn [bind] in H; [|discriminate]. injection H as <- <-. apply IHf in Y as (W2 & Y). split; [ways|]. intros C. cut C p1 C1.
  destruct (X C1) as (l1 & d1 & dr & -> & T1 & D1 & G1). destruct (Y C) as (l2 & d2 & ms' & -> & T2 & G2 & D2). exists (l1 ++ l2), (d1 || d2), (dr :: ms').
  split; [reflexivity|]. split; [rewrite T1, T2, app_assoc; reflexivity|]. split; [apply G1; exact G2|]. rewrite D2, D1, orb_assoc. reflexivity.
Qed.
Lemma struct_decl_back name p t made q : pis V p TK_L_BRACE = true -> parse_struct_declaration E note correct spec name p = Some (t, made, q) -> way p q /\ (clean p q -> is_undefined t = false /\
  exists l env1 ms, toks p = TKey TK_L_BRACE :: l ++ TKey TK_R_BRACE :: toks q /\ amtext (table p) l ms env1 /\ says env1 (NStruct name (map Some ms)) t (table q) /\ made = true /\ tdef q = true).
Proof.
  intros K H. unfold parse_struct_declaration in H. apply consume_back in K; [|nokey]. set (p1 := pconsume V (type_defined E p true)) in *. assert (W1: way p p1) by (unfold p1; ways).
  destruct (parse_members _ _ _ _ _ p1) as [[ms p2]|] eqn:X; cbn [bind] in H; [|discriminate]. apply members_back in X as (W2 & X). destruct (enters E note (NStruct name ms) p2) as [t1 p3] eqn:Y.
  apply way_enters in Y as (W3 & T3 & D3 & N3). injection H as <- <- <-. split; [ways|]. intros C. cut C p2 C2. cut C2 p1 C1. destruct (X C2) as (l & d & ms' & -> & T2 & G2 & D2).
  specialize (N3 C). split; [eapply note_known; [exact N3|exact Logic.I]|]. exists l, (table p2), ms'. split; [rewrite K; change (toks (pconsume V p)) with (toks p1); rewrite T2, T3; reflexivity|].
  split; [exact G2|]. split; [exact N3|]. split; [reflexivity|]. rewrite D3, D2. reflexivity.
Qed.
Lemma struct_back p t made q : pis V p TK_STRUCT = true -> parse_struct_specifier E note tag_of correct spec p = Some (t, made, q) -> spec_back p t made q.
Proof.
  intros K H. unfold parse_struct_specifier in H. apply consume_back in K; [|nokey]. set (p1 := pconsume V p) in *. assert (W1: way p p1) by (unfold p1; ways).
  assert (NONE: (if pis V p1 TK_L_BRACE then parse_struct_declaration E note correct spec None p1 else Some (CUndefined, false, perror V p1)) = Some (t, made, q) -> spec_back p t made q).
  { clear H. intros H. destruct (pis V p1 TK_L_BRACE) eqn:B; [|injection H as <- <- <-; apply spec_bad; ways]. apply struct_decl_back in H as (W2 & H); [|exact B]. split; [ways|]. intros C. cut C p1 C1.
    destruct (H C) as (UD & l & env1 & ms & T & G & S & -> & D). split; [exact UD|]. exists (TKey TK_STRUCT :: tag None ++ TKey TK_L_BRACE :: l ++ [TKey TK_R_BRACE]), true, false.
    split; [rewrite K, T; cbn [tag app]; rewrite <- app_assoc; reflexivity|]. split; [eapply ats_struct; eauto|]. split; [rewrite D, orb_true_r; reflexivity|discriminate]. }
  destruct (toks p1) as [|[name| | | | |] l0] eqn:T0; try exact (NONE H). clear NONE. apply ident_back in T0 as T1. set (p2 := pconsume V p1) in *. assert (W2: way p1 p2) by (unfold p2; ways).
  destruct (pis V p2 TK_L_BRACE) eqn:B.
  - apply struct_decl_back in H as (W3 & H); [|exact B]. split; [ways|]. intros C. cut C p2 C1. destruct (H C) as (UD & l & env1 & ms & T & G & S & -> & D). split; [exact UD|].
    exists (TKey TK_STRUCT :: tag (Some name) ++ TKey TK_L_BRACE :: l ++ [TKey TK_R_BRACE]), true, false.
    split; [rewrite K, <- T0, T1, T; cbn [tag app]; rewrite <- app_assoc; reflexivity|]. split; [eapply ats_struct; eauto|]. split; [rewrite D, orb_true_r; reflexivity|discriminate].
  - destruct (tag_of (table p2) name) as [t1|] eqn:TG; injection H as <- <- <-; [|apply spec_bad; ways]. split; [ways|]. intros _. split; [eapply tag_known; eauto|].
    exists [TKey TK_STRUCT; TIdent name], false, false. split; [rewrite K, <- T0, T1; reflexivity|]. split; [apply ats_struct_tag; exact TG|]. split; [rewrite orb_false_r; reflexivity|discriminate].
Qed.
Lemma enum_back p t made q : pis V p TK_ENUM = true -> parse_enum_specifier E note tag_of enum_value (pconsume V p) = Some (t, made, q) -> spec_back p t made q.
Proof.
  clear IH. intros K H. unfold parse_enum_specifier in H. apply consume_back in K; [|nokey]. set (p1 := pconsume V p) in *. assert (W1: way p p1) by (unfold p1; ways).
  match type of H with match _ with [] => ?X | _ => _ end = _ => assert (NONE: X = Some (t, made, q) -> spec_back p t made q) end.
  { clear H. intros H. destruct (pis V p1 TK_L_BRACE) eqn:B; [|injection H as <- <- <-; apply spec_bad; ways]. destruct (parse_enum_declaration_list _ _ _ p1) as [[t1 p3]|] eqn:X; cbn [bind] in H; [|discriminate].
    injection H as <- <- <-. apply enum_list_back in X as (W3 & X); [|exact B]. split; [ways|]. intros C. cut C p1 C1. cut C p3 C3. destruct (X C3) as (D & l & fs & env0 & env1 & u & T & S1 & G & LE & S2).
    split; [eapply note_known; [exact S1|exact Logic.I]|]. exists (TKey TK_ENUM :: TKey TK_L_BRACE :: l ++ [TKey TK_R_BRACE]), true, false.
    split; [rewrite K, T; cbn [app]; rewrite <- app_assoc; reflexivity|]. split; [eapply ats_enum; eauto|]. split; [rewrite orb_true_r; reflexivity|discriminate]. }
  destruct (toks p1) as [|[name| | | | |] l0] eqn:T0; try exact (NONE H). clear NONE. apply ident_back in T0 as T1. set (p2 := pconsume V p1) in *. assert (W2: way p1 p2) by (unfold p2; ways).
  destruct (pis V p2 TK_L_BRACE) eqn:B.
  - destruct (parse_enum_declaration_list _ _ _ p2) as [[t1 p3]|] eqn:X; cbn [bind] in H; [|discriminate]. apply enum_list_back in X as (W3 & X); [|exact B].
    destruct (enters E note (NEnumName name t1) p3) as [t2 p4] eqn:Y. apply way_enters in Y as (W4 & T4 & D4 & N4). injection H as <- <- <-. split; [ways|]. intros C. cut C p4 C4. cut C4 p3 C3. cut C3 p2 C2.
    destruct (X C3) as (D & l & fs & env0 & env1 & u & T & S1 & G & LE & S2). specialize (N4 C4). split; [eapply note_known; [exact N4|exact Logic.I]|].
    exists (TKey TK_ENUM :: TIdent name :: TKey TK_L_BRACE :: l ++ [TKey TK_R_BRACE]), true, false.
    split; [rewrite K, <- T0, T1, T; cbn [app]; rewrite <- app_assoc; cbn [app]; rewrite <- T4; reflexivity|]. split; [eapply ats_enum_name; eauto|]. split; [rewrite orb_true_r; reflexivity|discriminate].
  - destruct (tag_of (table p2) name) as [t1|] eqn:TG; injection H as <- <- <-; [|apply spec_bad; ways]. split; [ways|]. intros _. split; [eapply tag_known; eauto|].
    exists [TKey TK_ENUM; TIdent name], false, false. split; [rewrite K, <- T0, T1; reflexivity|]. split; [apply ats_enum_tag; exact TG|]. split; [rewrite orb_false_r; reflexivity|discriminate].
Qed.
Lemma const_spec_back p t made q : pis V p TK_CONST = true -> parse_const E spec p = Some (t, made, q) -> spec_back p t made q.
Proof.
  intros K H. unfold parse_const in H. apply consume_back in K; [|nokey]. set (p1 := pconsume V p) in *. assert (W1: way p p1) by (unfold p1; ways).
  destruct (spec p1) as [[[t1 m1] p2]|] eqn:X; cbn [bind] in H; [|discriminate]. apply IH in X as (W2 & X). destruct (is_undefined t1) eqn:U.
  { injection H as <- <- <-. split; [ways|]. intros C. cut C p1 C1. destruct (X C) as (Y & _). congruence. }
  destruct (is_const t1) eqn:CC; injection H as <- <- <-; [apply spec_bad; ways|]. split; [ways|]. intros C. cut C p1 C1. destruct (X C) as (_ & l & d & td & T & G & D & SM). split; [reflexivity|].
  exists (TKey TK_CONST :: l), d, td. split; [rewrite K, T; reflexivity|]. split; [apply ats_const; auto|]. split; [exact D|exact SM].
Qed.
Lemma typedef_back p t made q : pis V p TK_TYPEDEF = true -> parse_typedef E note spec p = Some (t, made, q) -> spec_back p t made q.
Proof.
  intros K H. unfold parse_typedef in H. apply consume_back in K; [|nokey]. set (p1 := pconsume V p) in *. assert (W1: way p p1) by (unfold p1; ways).
  destruct (spec p1) as [[[t1 m1] p2]|] eqn:X; cbn [bind] in H; [|discriminate]. apply IH in X as (W2 & X). destruct (is_undefined t1) eqn:U.
  { destruct (pskip V TK_SEMICOLON p2) as [p3|] eqn:Y; cbn [bind] in H; [|discriminate]. apply way_skip in Y. injection H as <- <- <-. split; [ways|]. intros C. cut C p1 C1. cut C p2 C2. destruct (X C2) as (Z & _). congruence. }
  destruct (ptry V p2 TK_STAR) as [star p3] eqn:Y. pose proof (way_try _ _ _ _ Y) as W3. pose proof (try_back _ _ _ _ _ Y ltac:(nokey)) as (A3 & _ & _ & T3 & N3).
  assert (TS: toks p2 = stars star false ++ toks p3) by (destruct star; [apply T3; auto|destruct (N3 eq_refl) as (-> & _); reflexivity]).
  assert (BAD: (do p4 <- pskip V TK_SEMICOLON (perror V p3); Some (CUndefined, m1, p4)) = Some (t, made, q) -> spec_back p t made q).
  { destruct (pskip V TK_SEMICOLON _) as [p4|] eqn:Z; cbn [bind]; [|discriminate]. intros [= <- <- <-]. apply way_skip in Z. assert (way p3 p4) by (apply (way_trans _ (perror V p3)); ways). split; [ways|].
    intros C. exfalso. refine (clean_error p p3 p4 _ Z C). ways. }
  destruct (toks p3) as [|[name| | | | |] l0] eqn:T0; try exact (BAD H). clear BAD. apply ident_back in T0 as T4. set (p4 := pconsume V p3) in *. assert (W4: way p3 p4) by (unfold p4; ways).
  change (if star then CPointer t1 else t1) with (pointed star t1) in H. pose proof (way_noted (NTypedef name (pointed star t1)) p4) as (W5 & T5 & D5 & N5). set (p5 := noted E note _ p4) in *.
  set (p6 := type_defined E p5 true) in *. assert (W6: way p5 p6) by (unfold p6; ways). destruct (pis V p6 TK_SEMICOLON) eqn:SM; cbn [negb] in H; injection H as <- <- <-; [|apply spec_bad; ways].
  split; [ways|]. intros C. cut C p5 C5. cut C5 p4 C4. cut C4 p3 C3. cut C3 p2 C2. cut C2 p1 C1. split; [destruct star; [reflexivity|exact U]|]. destruct (X C2) as (_ & l & d & td & T & G & D & SM0).
  destruct td. { exfalso. eapply (no_semicolon p2 star false); [|apply SM0; reflexivity]. rewrite TS, <- T0, T4. reflexivity. }
  destruct (N5 C5) as (u & US). exists (TKey TK_TYPEDEF :: l ++ stars star false ++ [TIdent name]), true, true. split.
  { rewrite K, T, TS, <- T0, T4. change (toks p6) with (toks p5). rewrite T5. cbn [app]. rewrite <- !app_assoc. reflexivity. }
  split; [|split; [rewrite orb_true_r; reflexivity|auto]]. eapply ats_typedef; [exact G|]. change (table p4) with (table p3) in US. unfold DeclModel.table in *. rewrite A3 in US. exact US.
Qed.
End Spec.
Lemma specifier_back : forall f p t made q, parse_type_specifier E note type_of tag_of correct enum_value f p = Some (t, made, q) -> spec_back p t made q.
Proof.
  induction f as [|f IH]; intros p t made q H; [discriminate|]. cbn [parse_type_specifier] in H.
  match type of H with match _ with [] => ?X | _ => _ end = _ => assert (REST: X = Some (t, made, q) -> spec_back p t made q) end.
  { clear H. intros H.
    destruct (pis V p TK_VOID) eqn:K1; [injection H as <- <- <-; eapply spec_simple; eauto; [nokey|cbn; tauto]|].
    destruct (pis V p TK_BOOL) eqn:K2; [injection H as <- <- <-; eapply spec_simple; eauto; [nokey|cbn; tauto]|].
    destruct (pis V p TK_CHAR) eqn:K3; [injection H as <- <- <-; eapply spec_simple; eauto; [nokey|cbn; tauto]|].
    destruct (pis V p TK_INT) eqn:K4; [injection H as <- <- <-; eapply spec_simple; eauto; [nokey|cbn; tauto]|].
    destruct (pis V p TK_LONG) eqn:K5; [injection H as <- <- <-; eapply (spec_simple p CInteger _ TK_LONG); eauto; [nokey|cbn; tauto]|]. cbn [orb] in H.
    destruct (pis V p TK_FLOAT) eqn:K6; [injection H as <- <- <-; eapply (spec_simple p CFloating _ TK_FLOAT); eauto; [nokey|cbn; tauto]|].
    destruct (pis V p TK_DOUBLE) eqn:K7; [injection H as <- <- <-; eapply (spec_simple p CFloating _ TK_DOUBLE); eauto; [nokey|cbn; tauto]|]. cbn [orb] in H.
    destruct (pis V p TK_FILE) eqn:K8; [injection H as <- <- <-; eapply spec_simple; eauto; [nokey|cbn; tauto]|].
    destruct (pis V p TK_CONST) eqn:K9; [eapply const_spec_back; eauto|]. destruct (pis V p TK_STRUCT) eqn:K10; [eapply struct_back; eauto|].
    destruct (pis V p TK_ENUM) eqn:K11; [eapply enum_back; eauto|]. destruct (pis V p TK_TYPEDEF) eqn:K12; [eapply typedef_back; eauto|].
    injection H as <- <- <-. apply spec_bad. ways. }
  destruct (toks p) as [|[name| | | | |] l] eqn:T0; try exact (REST H). clear REST. apply ident_back in T0 as T1. destruct (type_of (table p) name) as [t1|] eqn:TY; injection H as <- <- <-; [|apply spec_bad; ways].
  split; [ways|]. intros _. split; [eapply type_known; eauto|]. exists [TIdent name], false, false. split; [rewrite T0 in *; exact T1|]. split; [apply ats_name; exact TY|]. split; [rewrite orb_false_r; reflexivity|discriminate].
Qed.

(** ** Declarations in blocks *)
Lemma declarators_back t : forall f p ds q, parse_declarators E note correct f t p = Some (ds, q) -> way p q /\ tdef q = tdef p /\ ds <> [] /\ (clean p q -> exists l ds', ds = map Some ds' /\ toks p = l ++ toks q /\ adlist t (table p) l ds' (table q)).
Proof.
  induction f as [|f IH]; intros p ds q H; [discriminate|]. cbn [parse_declarators] in H. destruct (parse_init_declarator _ _ _ t p) as [[d p1]|] eqn:X; cbn [bind] in H; [|discriminate].
  apply declarator_back in X as (W1 & D1 & X). destruct (ptry V p1 TK_COMMA) as [b p2] eqn:Y. pose proof (way_try _ _ _ _ Y) as W2. pose proof (try_back _ _ _ _ _ Y ltac:(nokey)) as (A2 & _ & _ & T2 & N2). destruct b.
  - destruct (parse_declarators _ _ _ f t p2) as [[ds1 p3]|] eqn:Z; cbn [bind] in H; [|discriminate]. injection H as <- <-. apply IH in Z as (W3 & D3 & _ & Z). split; [ways|]. split; [congruence|]. split; [discriminate|].
    intros C. cut C p2 C2. cut C2 p1 C1. destruct (X C1) as (l & dr & -> & T & G). destruct (Z C) as (r & ds' & -> & T' & G'). exists (l ++ TKey TK_COMMA :: r), (dr :: ds'). split; [reflexivity|].
    split; [rewrite T, T2, T' by auto; rewrite <- app_assoc; reflexivity|]. unfold DeclModel.table in *. rewrite A2 in G'. eapply adl_more; eauto.
  - injection H as <- <-. destruct (N2 eq_refl) as (-> & _). split; [ways|]. split; [congruence|]. split; [discriminate|]. intros C. destruct (X C) as (l & dr & -> & T & G). exists l, [dr]. split; [reflexivity|]. split; auto. constructor. exact G.
Qed.
Lemma decl_back p d q : parse_decl E note type_of tag_of correct enum_value p = Some (d, q) -> way p q /\ (clean p q -> exists l, toks p = l ++ toks q /\ adectext (table p) d l (table q)).
Proof.
  intros H. unfold parse_decl in H. destruct (specifier _ _ _ _ _ _ p) as [[[t made] p1]|] eqn:X; cbn [bind] in H; [|discriminate]. apply specifier_back in X as (W1 & X).
  match type of H with bind ?a _ = _ => destruct a as [[ds p2]|] eqn:Y; cbn [bind] in H; [|discriminate] end. injection H as <- <-. set (p3 := pexpect V p2 TK_SEMICOLON) in *. assert (W3: way p2 p3) by (unfold p3; ways).
  destruct (pis V p1 TK_SEMICOLON) eqn:SM; cbn [negb] in Y.
  - injection Y as <- <-. destruct made.
    + split; [ways|]. intros C. cut C p1 C1. destruct (X C1) as (_ & l & dd & td & T & G & _). pose proof (expect_back V p1 TK_SEMICOLON (proj2 C) ltac:(nokey)) as TC. fold p3 in TC.
      exists (l ++ [TKey TK_SEMICOLON]). split; [rewrite T, TC, <- app_assoc; reflexivity|]. eapply adt_struct. exact G.
    + pose proof (way_noted NNothing p3) as (W5 & T5 & _ & N5). split; [ways|]. intros C. cut C p3 C3. cut C3 p1 C1. destruct (X C1) as (_ & l & dd & td & T & G & _).
      pose proof (expect_back V p1 TK_SEMICOLON (proj2 C3) ltac:(nokey)) as TC. fold p3 in TC. destruct (N5 C) as (u & U).
      exists (l ++ [TKey TK_SEMICOLON]). split; [rewrite T, TC, T5, <- app_assoc; reflexivity|]. eapply adt_nothing; [exact G|exact U].
  - apply declarators_back in Y as (W2 & _ & NE & Y). assert (Q: match ds with [] => if made then p3 else noted E note NNothing p3 | _ :: _ => p3 end = p3) by (destruct ds; [congruence|reflexivity]). rewrite Q. split; [ways|]. intros C.
    cut C p2 C2. cut C2 p1 C1. destruct (X C1) as (_ & l & dd & td & T & G & _ & SM'). destruct td; [specialize (SM' eq_refl); congruence|]. destruct (Y C2) as (r & ds' & -> & T' & G').
    pose proof (expect_back V p2 TK_SEMICOLON (proj2 C) ltac:(nokey)) as TC. fold p3 in TC. exists (l ++ r ++ [TKey TK_SEMICOLON]). split; [rewrite T, T', TC, <- !app_assoc; reflexivity|]. eapply adt_vars; eauto.
Qed.
End B.

(** The parser of declarations and programs ends. *)
From Verif Require Import Prelude LexModel ParseModel ParseSpec ParseFuel ParseProofs ParseBack ParseSkip StmtModel StmtSpec StmtProofs StmtEnds StmtEnv DeclModel DeclSpec.

Section T.
Variable E : Type.
Variable note : E -> entry -> ctype * E * nat.
Variables type_of tag_of : E -> Z -> option ctype.
Variable correct : E -> expr -> bool.
Variable enum_value : E -> ctype -> expr -> option (Z * bool).
Notation V := (denv E).
Notation P := (ps V).
Variable L : list tok.
Definition RF (v w : V) : Prop := (forall f, v_fault w = Some f -> v_fault v = Some f \/ cause f L) /\ (forall f, v_fault v = Some f -> v_fault w = Some f).
Definition within (l : list tok) : Prop := exists t, L = t ++ l.
Definition St (p q : P) : Prop := sfx (p_s p) (p_s q) /\ RF (p_env p) (p_env q).
Notation lp p := (length (toks V p)).
Lemma sfx_keep ok a b : sfx a b -> sfx a (built ok a b).
Proof. intros [T1 L1]. unfold built. destruct ok; split; cbn [fst snd]; auto; lia. Qed.
Lemma RF_refl v : RF v v.
Proof. split; auto. Qed.
Lemma RF_trans a b c : RF a b -> RF b c -> RF a c.
Proof. intros [A A'] [B B']. split; [|auto]. intros f H. apply B in H as [H|H]; auto. Qed.
Lemma St_refl p : St p p.
Proof. split; [apply sfx_refl|apply RF_refl]. Qed.
Lemma St_trans a b c : St a b -> St b c -> St a c.
Proof. intros [A1 A2] [B1 B2]. split; [eapply sfx_trans; eauto|eapply RF_trans; eauto]. Qed.
Lemma St_len p q : St p q -> (lp q <= lp p)%nat.
Proof. intros [H _]. apply sfx_len in H. exact H. Qed.
Lemma St_within p q : St p q -> within (toks V p) -> within (toks V q).
Proof. intros [[[t H] _] _] [u U]. exists (u ++ t). unfold toks in *. rewrite U, H. apply app_assoc. Qed.
Lemma St_adv p q : adv V p q -> v_fault (p_env q) = v_fault (p_env p) -> St p q.
Proof. intros [A _] B. split; [exact A|]. split; intros f; rewrite B; auto. Qed.
Lemma St_consume p : St p (pconsume V p).
Proof. apply St_adv; [apply adv_consume|reflexivity]. Qed.
Lemma St_error p : St p (perror V p).
Proof. apply St_adv; [apply adv_error|reflexivity]. Qed.
Lemma St_expect p k : St p (pexpect V p k).
Proof. apply St_adv; [apply adv_expect|reflexivity]. Qed.
Lemma St_try p k b q : ptry V p k = (b, q) -> St p q.
Proof. unfold ptry. destruct (pis V p k); intros [= _ <-]; [apply St_consume|apply St_refl]. Qed.
Lemma try_strict p k q : k <> TK_EOF -> ptry V p k = (true, q) -> (lp q < lp p)%nat.
Proof.
  intros N. unfold ptry. destruct (pis V p k) eqn:X; [|discriminate]. intros [= <-]. unfold pis in X. apply is_len in X; [exact X|exact N].
Qed.
Lemma St_type_defined p b : St p (type_defined E p b).
Proof. apply St_adv; [split; [apply sfx_refl|auto]|reflexivity]. Qed.
Lemma St_enters x p t q : enters E note x p = (t, q) -> St p q.
Proof.
  unfold enters. destruct (note (table E p) x) as [[u e] n]. intros [= <- <-]. apply St_adv; [|reflexivity]. split; [|auto]. split; cbn [fst snd with_s with_table with_env p_s]; [exists []; reflexivity|lia].
Qed.
Lemma enters_len x p t q : enters E note x p = (t, q) -> toks V q = toks V p.
Proof. unfold enters. destruct (note (table E p) x) as [[u e] n]. intros [= <- <-]. reflexivity. Qed.
Lemma St_noted x p : St p (noted E note x p).
Proof. unfold noted. destruct (enters E note x p) as [t q] eqn:X. apply St_enters in X. exact X. Qed.
Lemma noted_toks x p : toks V (noted E note x p) = toks V p.
Proof. unfold noted. destruct (enters E note x p) as [t q] eqn:X. apply enters_len in X. exact X. Qed.
Lemma St_stop f p : cause f L -> St p (stop E f p).
Proof.
  intros C. split.
  - split; cbn [stop with_s with_env p_s fst snd]; [exists (fst (p_s p)); rewrite app_nil_r; reflexivity|lia].
  - split; [|intros g H; cbn [stop with_s with_env p_env v_fault]; rewrite H; reflexivity]. intros g H. cbn [stop with_s with_env p_env v_fault] in H. destruct (v_fault (p_env p)); [auto|]. injection H as <-. auto.
Qed.
Lemma skip_is T p : exists q, pskip V T p = Some q /\ St p q /\ (cur (toks V q) = TK_EOF \/ stopper T (cur (toks V q))).
Proof.
  unfold pskip, recover. destruct (skip_ends (2 * lp p + 1) T (toks V p) ltac:(lia)) as (r & X & _). rewrite X. cbn [bind]. eexists. split; [reflexivity|]. split.
  - apply St_adv; [|reflexivity]. split; [|auto]. split; cbn [with_s p_s fst snd]; [exact (skip_suffix _ _ _ _ X)|lia].
  - exact (skip_stops _ _ _ _ X).
Qed.
Lemma skip_to_is T k p : exists q, pskip_to E T k p = Some q /\ St p q.
Proof.
  unfold pskip_to. destruct (skip_is T p) as (q & -> & A & _). cbn [bind]. eexists. split; [reflexivity|]. destruct (ptry V q k) as [b r] eqn:X. apply St_try in X. eapply St_trans; eauto.
Qed.
Lemma same_toks p q : St p q -> lp q = lp p -> toks V q = toks V p.
Proof.
  intros [[[t H] _] _] Q. unfold toks in *. rewrite H in Q. rewrite app_length in Q. destruct t; [auto|cbn [length] in Q; lia].
Qed.
Notation read_e := (read_expression V (v_correct E correct)).
Lemma read_is p : exists e ok q, read_e p = Some (e, ok, q) /\ St p q.
Proof.
  destruct (total (enough (toks V p))) as (_ & _ & _ & _ & _ & _ & _ & T & _). destruct (T (p_s p)) as ([e s] & X & Y); [unfold enough, toks; lia|].
  unfold read_expression. rewrite X. cbn [bind]. do 3 eexists. split; [reflexivity|]. apply St_adv; [|reflexivity]. apply adv_s, sfx_keep. exact Y.
Qed.
Lemma initializer_is p : exists e ok q, read_initializer E correct p = Some (e, ok, q) /\ St p q.
Proof.
  destruct (total (enough (toks V p))) as (_ & _ & _ & _ & _ & _ & _ & _ & T). destruct (T (p_s p)) as ([e s] & X & Y); [unfold enough, toks; lia|].
  unfold read_initializer. rewrite X. cbn [bind]. do 3 eexists. split; [reflexivity|]. apply St_adv; [|reflexivity]. apply adv_s, sfx_keep. exact Y.
Qed.
Lemma constant_is (p : P) : exists e s, parse_constant_expression (enough (toks V p)) (p_s p) = Some (e, s) /\ sfx (p_s p) s.
Proof.
  destruct (total (enough (toks V p))) as (_ & _ & _ & _ & Tu & Tr & _). destruct (Tu (p_s p)) as ([e s] & X & Y); [unfold enough, toks; lia|]. cbn [snd] in Y.
  unfold parse_constant_expression. rewrite X. cbn [bind].
  destruct (Tr (e, PREC_CONDITIONAL, s)) as ([e2 s2] & X2 & Y2). { cbn [snd]. apply sfx_len in Y. unfold enough, toks in *. cbn [snd] in *. lia. }
  cbn [rhs1] in X2. change (Z.max 1 PREC_CONDITIONAL) with PREC_CONDITIONAL in X2. rewrite X2. cbn [snd] in *. do 2 eexists. split; [reflexivity|]. eapply sfx_trans; eauto.
Qed.
Lemma St_star p s c q : star_const E p = (s, c, q) -> St p q.
Proof.
  unfold star_const. destruct (ptry V p TK_STAR) as [[] p1] eqn:X; apply St_try in X.
  - destruct (ptry V p1 TK_CONST) as [b p2] eqn:Y. apply St_try in Y. intros [= <- <- <-]. eapply St_trans; eauto.
  - intros [= <- <- <-]. exact X.
Qed.
Lemma star_strict p c q : star_const E p = (true, c, q) -> (lp q < lp p)%nat.
Proof.
  unfold star_const. destruct (ptry V p TK_STAR) as [[] p1] eqn:X; [|discriminate]. apply try_strict in X; [|discriminate].
  destruct (ptry V p1 TK_CONST) as [b p2] eqn:Y. apply St_try, St_len in Y. intros [= <- <-]. lia.
Qed.

Ltac back := first [assumption | apply St_refl
  | match goal with H : St ?c ?b |- St _ ?b' => apply (St_trans _ c b'); [clear H; back | exact H] end
  | match goal with |- St _ (pconsume _ ?r) => apply (St_trans _ r); [back|apply St_consume] end
  | match goal with |- St _ (perror _ ?r) => apply (St_trans _ r); [back|apply St_error] end
  | match goal with |- St _ (noted _ _ _ ?r) => apply (St_trans _ r); [back|apply St_noted] end
  | match goal with |- St _ (type_defined _ ?r _) => apply (St_trans _ r); [back|apply St_type_defined] end
  | match goal with |- St _ (stop _ _ ?r) => apply (St_trans _ r); [back|apply St_stop; assumption] end
  | match goal with |- St _ (pexpect _ ?r _) => apply (St_trans _ r); [back|apply St_expect] end
  | match goal with |- St _ (if ?c then _ else _) => destruct c; back end ].
(** [T p F]: [F] returns and moves on. *)
Notation T p F := (exists a q, F = Some (a, q) /\ St p q).
Lemma consume_lt p t l : toks V p = t :: l -> (lp (pconsume V p) < lp p)%nat.
Proof. unfold toks, pconsume, consume, with_s. cbn [p_s fst]. intros ->. cbn [tl length]. lia. Qed.
Lemma bounds_are empty T1 : forall g p, (lp p < g)%nat -> T p (parse_bounds E correct g empty T1 p).
Proof.
  induction g as [|g IH]; intros p G; [lia|]. cbn [parse_bounds]. destruct (ptry V p TK_L_SQUARE) as [[] p1] eqn:X; cbn [negb].
  2:{ apply St_try in X. do 2 eexists. split; [reflexivity|exact X]. }
  pose proof (St_try _ _ _ _ X) as X'. apply try_strict in X; [|discriminate]. destruct (ptry V p1 TK_R_SQUARE) as [[] p2] eqn:Y; pose proof (St_try _ _ _ _ Y) as Y'.
  - apply St_len in Y'. destruct (IH (if empty then p2 else perror V p2)) as (bs & q & -> & A); [destruct empty; change (lp (perror V p2)) with (lp p2); lia|]. cbn [bind].
    apply St_try in Y. do 2 eexists. split; [reflexivity|]. apply (St_trans _ (if empty then p2 else perror V p2)); [back|exact A].
  - destruct (read_is p2) as (e & ok & p3 & -> & A). cbn [bind].
    match goal with |- context [bind (if negb ok then ?a else ?b) _] => assert (W: exists p4, (if negb ok then a else b) = Some p4 /\ St p3 p4) end.
    { destruct (negb ok); [apply skip_to_is|]. destruct (ptry V p3 TK_R_SQUARE) as [[] p4] eqn:Z; apply St_try in Z; [eauto|].
      destruct (skip_to_is T1 TK_R_SQUARE (perror V p4)) as (p5 & -> & B). eexists. split; [reflexivity|]. assert (St p3 (perror V p4)) by back. back. }
    destruct W as (p4 & -> & B). cbn [bind]. pose proof (St_len _ _ Y'). pose proof (St_len _ _ A). pose proof (St_len _ _ B).
    destruct (IH p4 ltac:(lia)) as (bs & q & -> & C). cbn [bind]. do 2 eexists. split; [reflexivity|]. back.
Qed.
Lemma init_declarator_is t p : T p (parse_init_declarator E note correct t p).
Proof.
  unfold parse_init_declarator. destruct (star_const E p) as [[s c] p1] eqn:X. apply St_star in X.
  assert (W: T p1 (do p2 <- pskip V (Z.lor TK_COMMA TK_SEMICOLON) (perror V p1); Some (@None declarator, p2))).
  { destruct (skip_is (Z.lor TK_COMMA TK_SEMICOLON) (perror V p1)) as (q & -> & A & _). cbn [bind]. do 2 eexists. split; [reflexivity|]. assert (St p1 (perror V p1)) by back. back. }
  assert (W': T p (do p2 <- pskip V (Z.lor TK_COMMA TK_SEMICOLON) (perror V p1); Some (@None declarator, p2))).
  { destruct W as (a & q & -> & A). do 2 eexists. split; [reflexivity|]. back. }
  destruct (toks V p1) as [|[name| | | | |] l] eqn:TT; try exact W'. clear W W'.
  destruct (bounds_are true (Z.lor TK_R_SQUARE (Z.lor TK_COMMA TK_SEMICOLON)) (S (lp (pconsume V p1))) (pconsume V p1) ltac:(lia)) as (bs & p2 & -> & A). cbn [bind].
  destruct (ptry V p2 TK_EQUAL) as [[] p3] eqn:Y; apply St_try in Y.
  - destruct (initializer_is p3) as (e & ok & p4 & -> & B). cbn [bind]. destruct ok; cbn [bind].
    + do 2 eexists. split; [reflexivity|]. assert (St p (pconsume V p1)) by back. back.
    + destruct (skip_is (Z.lor TK_COMMA TK_SEMICOLON) p4) as (p5 & -> & C & _). cbn [bind]. do 2 eexists. split; [reflexivity|]. assert (St p (pconsume V p1)) by back. back.
  - cbn [bind]. do 2 eexists. split; [reflexivity|]. assert (St p (pconsume V p1)) by back. back.
Qed.

Definition here (p : P) : Prop := within (toks V p).
Lemma cause_here k (p : P) : here p -> cur (toks V p) = k -> k <> TK_EOF -> (exists x, In x L /\ kind x = k).
Proof.
  intros [t H] C N. unfold toks in *. destruct (fst (p_s p)) as [|x l]; [elim N; symmetry; exact C|]. exists x. split; [|exact C]. rewrite H. apply in_or_app. right. left. reflexivity.
Qed.
Section Spec.
Variable g : nat.
Variable spec : P -> option (ctype * bool * P).
Hypothesis IH : forall p, here p -> (lp p < g)%nat -> T p (spec p).
Lemma member_is p : here p -> (lp p < g)%nat -> cur (toks V p) <> TK_EOF -> cur (toks V p) <> TK_R_BRACE -> exists a q, parse_member_declaration E note correct spec p = Some (a, q) /\ St p q /\ (lp q < lp p)%nat.
Proof.
  intros H G N1 N2. unfold parse_member_declaration. destruct (IH p H G) as ([t m] & p1 & -> & A). cbn [bind].
  destruct (star_const E p1) as [[s c] p2] eqn:X. pose proof (St_star _ _ _ _ X) as B. pose proof (St_len _ _ A) as LA. pose proof (St_len _ _ B) as LB.
  assert (W: exists a q, (do p3 <- pskip_to E (Z.lor TK_SEMICOLON TK_R_BRACE) TK_SEMICOLON (perror V p2); Some (@None declarator, p3)) = Some (a, q) /\ St p q /\ (lp q < lp p)%nat).
  { unfold pskip_to. destruct (skip_is (Z.lor TK_SEMICOLON TK_R_BRACE) (perror V p2)) as (q & -> & C & D). cbn [bind]. destruct (ptry V q TK_SEMICOLON) as [b r] eqn:Y. pose proof (St_try _ _ _ _ Y) as Y'.
    cbn [snd]. do 2 eexists. split; [reflexivity|]. split; [assert (St p (perror V p2)) by back; back|].
    pose proof (St_len _ _ C) as LC. change (lp (perror V p2)) with (lp p2) in LC. pose proof (St_len _ _ Y') as LY.
    destruct (Nat.eq_dec (lp q) (lp p)) as [Q|Q]; [|lia]. destruct b; [apply try_strict in Y; [lia|discriminate]|].
    exfalso. assert (EQ: toks V q = toks V p). { transitivity (toks V p2); [exact (same_toks _ _ C ltac:(change (lp (perror V p2)) with (lp p2); lia))|]. transitivity (toks V p1); [exact (same_toks _ _ B ltac:(lia))|exact (same_toks _ _ A ltac:(lia))]. }
    destruct D as [D|[I D]]; [rewrite EQ in D; auto|]. unfold ptry, pis, is in Y. change (fst (p_s q)) with (toks V q) in Y. destruct (cur (toks V q) =? TK_SEMICOLON) eqn:Z; [discriminate|].
    cbn [In] in I. destruct I as [I|[I|[I|[I|[I|[]]]]]]; rewrite <- I in D; try (apply D; reflexivity); [rewrite EQ in I; apply N2; auto|rewrite <- I in Z; discriminate]. }
  destruct (toks V p2) as [|[name| | | | |] l] eqn:TT; try exact W. clear W.
  destruct (bounds_are false (Z.lor TK_R_SQUARE TK_SEMICOLON) (S (lp (pconsume V p2))) (pconsume V p2) ltac:(lia)) as (bs & p3 & -> & C). cbn [bind].
  do 2 eexists. split; [reflexivity|]. split; [assert (St p (pconsume V p2)) by back; back|].
  rewrite noted_toks. pose proof (St_len _ _ (St_expect p3 TK_SEMICOLON)). pose proof (St_len _ _ C). pose proof (consume_lt _ _ _ TT). pose proof (St_len _ _ B). lia.
Qed.
Lemma members_are : (exists x, In x L /\ kind x = TK_STRUCT) -> forall h p, here p -> (lp p < g)%nat -> (lp p < h)%nat -> T p (parse_members E note correct spec h p).
Proof.
  intros C. induction h as [|h IHh]; intros p H G Hh; [lia|]. cbn [parse_members]. destruct (pis V p TK_R_BRACE) eqn:K1. { do 2 eexists. split; [reflexivity|apply St_consume]. }
  destruct (pis V p TK_EOF) eqn:K2. { do 2 eexists. split; [reflexivity|]. apply St_stop. exact C. }
  destruct (member_is p H G) as (m & q & -> & A & B); [unfold pis, is, toks in *; lia..|]. cbn [bind].
  destruct (IHh q) as (ms & r & -> & D); [exact (St_within _ _ A H)|lia|lia|]. cbn [bind]. do 2 eexists. split; [reflexivity|]. back.
Qed.
Lemma struct_is p : here p -> (lp p < S g)%nat -> cur (toks V p) = TK_STRUCT -> T (pconsume V p) (parse_struct_specifier E note tag_of correct spec p).
Proof.
  intros H G K. pose proof (cause_here TK_STRUCT p H K ltac:(discriminate)) as C.
  assert (D: forall name p1, here p1 -> (lp p1 < S g)%nat -> pis V p1 TK_L_BRACE = true -> T p1 (parse_struct_declaration E note correct spec name p1)).
  { intros name p1 H1 G1 K1. unfold parse_struct_declaration. set (p2 := pconsume V (type_defined E p1 true)). assert (A: St p1 p2) by (unfold p2; back).
    assert (L2: (lp p2 < lp p1)%nat) by (unfold pis in K1; apply is_len in K1; [exact K1|discriminate]).
    destruct (members_are C (S (lp p2)) p2 (St_within _ _ A H1) ltac:(lia) ltac:(lia)) as (ms & p3 & -> & B). cbn [bind].
    destruct (enters E note (NStruct name ms) p3) as [t p4] eqn:X. apply St_enters in X. do 2 eexists. split; [reflexivity|]. back. }
  unfold parse_struct_specifier. pose proof (St_consume p) as A. pose proof (St_len _ _ A) as LA.
  assert (F: T (pconsume V p) (if pis V (pconsume V p) TK_L_BRACE then parse_struct_declaration E note correct spec None (pconsume V p) else Some (CUndefined, false, perror V (pconsume V p)))).
  { destruct (pis V (pconsume V p) TK_L_BRACE) eqn:K1.
    - destruct (D None _ (St_within _ _ A H) ltac:(lia) K1) as (a & q & -> & B). do 2 eexists. split; [reflexivity|]. back.
    - do 2 eexists. split; [reflexivity|]. back. }
  destruct (toks V (pconsume V p)) as [|[name| | | | |] l] eqn:TT; try exact F. clear F.
  set (p1 := pconsume V (pconsume V p)). assert (A1: St p p1) by (unfold p1; back). assert (A2: St (pconsume V p) p1) by (unfold p1; back). clear A. destruct (pis V p1 TK_L_BRACE) eqn:K1.
  - destruct (D (Some name) p1 (St_within _ _ A1 H)) as (a & q & -> & B); [pose proof (St_len _ _ A1); lia|exact K1|]. do 2 eexists. split; [reflexivity|]. back.
  - destruct (tag_of (table E p1) name); do 2 eexists; (split; [reflexivity|]); back.
Qed.
End Spec.

Lemma enumerators_are t : (exists x, In x L /\ kind x = TK_ENUM) -> forall h md value p, (lp p < h)%nat -> T p (parse_enumerators E note enum_value h t md value p).
Proof.
  intros C. induction h as [|h IHh]; intros md value p Hh; [lia|]. cbn [parse_enumerators].
  assert (F: T p (do p1 <- pskip V (Z.lor TK_SEMICOLON TK_R_BRACE) (perror V p); Some (@None (list (Z * Z)), stop E Assertion p1))).
  { destruct (skip_is (Z.lor TK_SEMICOLON TK_R_BRACE) (perror V p)) as (q & -> & A & _). cbn [bind]. do 2 eexists. split; [reflexivity|].
    apply (St_trans _ q); [assert (St p (perror V p)) by back; back|]. apply St_stop. exact C. }
  destruct (toks V p) as [|[name| | | | |] l] eqn:TT; try exact F. clear F. rewrite <- TT in Hh. pose proof (consume_lt _ _ _ TT) as LC. set (p1 := pconsume V p) in *. assert (A: St p p1) by (unfold p1; back).
  set (again := fun md value (p0 : P) => let '(closed, p2) := ptry V p0 TK_R_BRACE in if closed then Some (Some [], p2) else parse_enumerators E note enum_value h t md value p2).
  assert (AG: forall md value p0, (lp p0 <= lp p1)%nat -> T p0 (again md value p0)).
  { intros md0 v0 p0 L0. unfold again. destruct (ptry V p0 TK_R_BRACE) as [[] p2] eqn:X; apply St_try in X. { do 2 eexists. split; [reflexivity|exact X]. }
    pose proof (St_len _ _ X). destruct (IHh md0 v0 p2 ltac:(lia)) as (a & q & -> & B). do 2 eexists. split; [reflexivity|]. back. }
  set (field := fun value0 (p0 : P) => let p2 := noted E note (NEnumerator name t value0) p0 in
     if value0 =? LLONG_MAX then Some (None, stop E Overflow p2) else if 100 <=? md + 1 then Some (None, stop E Overrun p2)
     else let p3 := if pis V p2 TK_R_BRACE then p2 else pexpect V p2 TK_COMMA in
          do ' (fs, p4) <- again (md + 2) (value0 + 1) p3; Some (match fs with Some fs0 => Some ((value0, name) :: fs0) | None => None end, p4)).
  assert (FI: forall value0 p0, (lp p0 <= lp p1)%nat -> T p0 (field value0 p0)).
  { intros v0 p0 L0. unfold field. cbn zeta. set (p2 := noted E note (NEnumerator name t v0) p0). assert (B: St p0 p2) by (unfold p2; back).
    destruct (v0 =? LLONG_MAX). { do 2 eexists. split; [reflexivity|]. apply (St_trans _ p2 _ B). apply St_stop. exact C. }
    destruct (100 <=? md + 1). { do 2 eexists. split; [reflexivity|]. apply (St_trans _ p2 _ B). apply St_stop. left. exact C. }
    set (p3 := if pis V p2 TK_R_BRACE then p2 else pexpect V p2 TK_COMMA). assert (B3: St p0 p3) by (unfold p3; destruct (pis V p2 TK_R_BRACE); back).
    pose proof (St_len _ _ B3). destruct (AG (md + 2) (v0 + 1) p3 ltac:(lia)) as (a & q & -> & D). cbn [bind]. do 2 eexists. split; [reflexivity|]. back. }
  destruct (pis V p1 TK_EQUAL).
  2:{ destruct (FI value p1 ltac:(lia)) as (a & q & X & B). exists a, q. split; [exact X|]. back. }
  set (p2 := pconsume V p1). destruct (constant_is p2) as (e & s & X & Y). rewrite X. cbn [bind]. set (verdict := enum_value (table E p2) t e).
  set (p3 := with_s V p2 (built (match verdict with Some _ => true | None => false end) (p_s p2) s)).
  assert (B: St p p3). { apply (St_trans _ p2); [unfold p2; back|]. apply St_adv; [|reflexivity]. apply adv_s, sfx_keep. exact Y. }
  assert (B2: St p1 p3). { apply (St_trans _ p2); [unfold p2; back|]. apply St_adv; [|reflexivity]. apply adv_s, sfx_keep. exact Y. } pose proof (St_len _ _ B2) as L3.
  fold verdict. destruct verdict as [[v integer]|].
  - destruct ((v =? INT_MAX) || negb integer). { do 2 eexists. split; [reflexivity|]. fold p3. back. }
    destruct (FI v p3 ltac:(lia)) as (a & q & Z & D). exists a, q. split; [exact Z|]. back.
  - destruct (AG md value p3 ltac:(lia)) as (a & q & Z & D). exists a, q. split; [exact Z|]. back.
Qed.
Lemma enum_is p : (exists x, In x L /\ kind x = TK_ENUM) -> T p (parse_enum_specifier E note tag_of enum_value p).
Proof.
  intros C.
  assert (D: forall p1, T p1 (parse_enum_declaration_list E note enum_value p1)).
  { intros p1. unfold parse_enum_declaration_list. destruct (ptry V (pconsume V p1) TK_R_BRACE) as [[] p2] eqn:X; apply St_try in X.
    { do 2 eexists. split; [reflexivity|]. assert (St p1 (pconsume V p1)) by back. back. }
    destruct (enters E note NEnumType p2) as [t p3] eqn:Y. apply St_enters in Y. destruct (enumerators_are t C (S (lp p3)) 2 0 p3 ltac:(lia)) as (fs & p4 & -> & B). cbn [bind].
    assert (St p1 p4) by (assert (St p1 (pconsume V p1)) by back; back). destruct fs; do 2 eexists; (split; [reflexivity|]); back. }
  unfold parse_enum_specifier.
  assert (F: T p (if pis V p TK_L_BRACE then (do '(t, p0) <- parse_enum_declaration_list E note enum_value p; Some (t, false, type_defined E p0 true)) else Some (CUndefined, false, perror V p))).
  { destruct (pis V p TK_L_BRACE); [|do 2 eexists; split; [reflexivity|]; back]. destruct (D p) as (t & q & -> & B). cbn [bind]. do 2 eexists. split; [reflexivity|]. back. }
  destruct (toks V p) as [|[name| | | | |] l] eqn:TT; try exact F. clear F. set (p1 := pconsume V p). assert (A: St p p1) by (unfold p1; back). destruct (pis V p1 TK_L_BRACE).
  - destruct (D p1) as (t & q & -> & B). cbn [bind]. destruct (enters E note (NEnumName name t) q) as [t2 r] eqn:Y. apply St_enters in Y. do 2 eexists. split; [reflexivity|]. back.
  - destruct (tag_of (table E p1) name); do 2 eexists; (split; [reflexivity|]); back.
Qed.
Definition no_ident (l : list tok) : Prop := match l with TIdent _ :: _ => False | _ => True end.
Notation isdecl := (is_declaration_specifier V (v_type_name E type_of)).
Lemma specifier_is' : forall g p, here p -> (lp p < g)%nat ->
  exists a q, parse_type_specifier E note type_of tag_of correct enum_value g p = Some (a, q) /\ (St (pconsume V p) q \/ (q = perror V p /\ isdecl p = false /\ no_ident (toks V p))).
Proof.
  induction g as [|g IH']; intros p H G; [lia|]. cbn [parse_type_specifier]. assert (IH: forall p, here p -> (lp p < g)%nat -> T p (parse_type_specifier E note type_of tag_of correct enum_value g p)).
  { intros p0 H0 G0. destruct (IH' p0 H0 G0) as (a & q & X & Y). exists a, q. split; [exact X|]. destruct Y as [Y|(-> & _)]; back. }
  match goal with |- context [match toks V p with [] => ?x | _ => _ end] => set (other := x) in * end.
  assert (F: match toks V p with TIdent _ :: _ => False | _ => True end -> exists a q, other = Some (a, q) /\ (St (pconsume V p) q \/ (q = perror V p /\ isdecl p = false /\ no_ident (toks V p)))).
  { intros NI. unfold other. clear other.
    pose proof (St_consume p) as A.
    repeat match goal with |- exists a q, (if ?c then Some (_, _, pconsume V p) else _) = _ /\ _ => destruct c eqn:?; [do 2 eexists; split; [reflexivity|]; left; apply St_refl|] end.
    assert (LC: forall k, k <> TK_EOF -> pis V p k = true -> (lp (pconsume V p) < g)%nat) by (intros k N K; unfold pis in K; apply is_len in K; [unfold toks, pconsume, with_s; cbn [p_s]; unfold toks in G; lia|exact N]).
    destruct (pis V p TK_CONST) eqn:K1.
    { unfold parse_const. destruct (IH _ (St_within _ _ A H) (LC TK_CONST ltac:(discriminate) K1)) as ([t m] & q1 & -> & B). cbn [bind]. destruct (is_undefined t); [|destruct (is_const t)]; do 2 eexists; (split; [reflexivity|]); left; back. }
    destruct (pis V p TK_STRUCT) eqn:K2. { destruct (struct_is g _ IH p H G) as (a & q & X & Y); [unfold pis, is, toks in *; lia|]. exists a, q. auto. }
    destruct (pis V p TK_ENUM) eqn:K3. { destruct (enum_is (pconsume V p)) as (a & r & -> & B); [apply (cause_here _ p H); [unfold pis, is, toks in *; lia|discriminate]|]. do 2 eexists. split; [reflexivity|]. left. back. }
    destruct (pis V p TK_TYPEDEF) eqn:K4.
    2:{ do 2 eexists; split; [reflexivity|]. right. split; [reflexivity|]. unfold is_declaration_specifier, pis, is in *. change (fst (p_s p)) with (toks V p) in *. destruct (toks V p) as [|[] l]; cbn [existsb cur kind] in *; try tauto; split; try reflexivity; try exact Logic.I; lia. }
    unfold parse_typedef. destruct (IH _ (St_within _ _ A H) (LC TK_TYPEDEF ltac:(discriminate) K4)) as ([t m] & q1 & -> & B). cbn [bind]. destruct (is_undefined t).
    { destruct (skip_is TK_SEMICOLON q1) as (r & -> & C & _). cbn [bind]. do 2 eexists. split; [reflexivity|]. left. back. }
    destruct (ptry V q1 TK_STAR) as [b q2] eqn:X. apply St_try in X. assert (S2: St (pconsume V p) q2) by back.
    assert (W: T (pconsume V p) (do p1 <- pskip V TK_SEMICOLON (perror V q2); Some (CUndefined, m, p1))).
    { destruct (skip_is TK_SEMICOLON (perror V q2)) as (r & -> & C & _). cbn [bind]. do 2 eexists. split; [reflexivity|]. assert (St (pconsume V p) (perror V q2)) by back. back. }
    assert (W' : exists a q, (do p1 <- pskip V TK_SEMICOLON (perror V q2); Some (CUndefined, m, p1)) = Some (a, q) /\ (St (pconsume V p) q \/ (q = perror V p /\ isdecl p = false /\ no_ident (toks V p)))) by (destruct W as (a & r & ? & ?); eauto).
    destruct (toks V q2) as [|[name| | | | |] l]; try exact W'. destruct (negb _); do 2 eexists; (split; [reflexivity|]); left; back. }
  destruct (toks V p) as [|[name| | | | |] l] eqn:TT; try exact (F Logic.I). destruct (type_of (table E p) name); do 2 eexists; (split; [reflexivity|]); left; back.
Qed.
Lemma St_or p q : St (pconsume V p) q \/ q = perror V p -> St p q.
Proof. intros [H| ->]; back. Qed.
Lemma specifier_is p : here p -> exists t m q, specifier E note type_of tag_of correct enum_value p = Some (t, m, q) /\ St p q /\ ((lp q < lp p)%nat \/ (q = perror V p /\ isdecl p = false /\ no_ident (toks V p)) \/ toks V p = []).
Proof.
  intros H. unfold specifier. destruct (specifier_is' (S (lp p)) p H ltac:(lia)) as ([t m] & q & X & Y). exists t, m, q. split; [exact X|]. split; [apply St_or; tauto|].
  destruct Y as [Y|Y]; [|auto]. destruct (toks V p) as [|x l] eqn:TT; [auto|]. left. apply St_len in Y. pose proof (consume_lt _ _ _ TT). rewrite <- TT. lia.
Qed.

(** ** Declarations *)
Lemma declarators_are t : forall h p, (lp p < h)%nat -> T p (parse_declarators E note correct h t p).
Proof.
  induction h as [|h IHh]; intros p Hh; [lia|]. cbn [parse_declarators]. destruct (init_declarator_is t p) as (d & q & -> & A). cbn [bind].
  destruct (ptry V q TK_COMMA) as [[] r] eqn:X; pose proof (St_try _ _ _ _ X) as X'; [|do 2 eexists; split; [reflexivity|]; back].
  apply try_strict in X; [|discriminate]. pose proof (St_len _ _ A). destruct (IHh r ltac:(lia)) as (ds & u & -> & B). cbn [bind]. do 2 eexists. split; [reflexivity|]. back.
Qed.
Lemma decl_is p : here p -> exists d q, parse_decl E note type_of tag_of correct enum_value p = Some (d, q) /\ St p q /\ (isdecl p = true -> (lp q < lp p)%nat).
Proof.
  intros H. unfold parse_decl. destruct (specifier_is p H) as (t & m & p1 & -> & A & B). cbn [bind].
  assert (W: exists ds p2, (if negb (pis V p1 TK_SEMICOLON) then parse_declarators E note correct (S (lp p1)) t p1 else Some ([], p1)) = Some (ds, p2) /\ St p1 p2).
  { destruct (negb _); [destruct (declarators_are t (S (lp p1)) p1 ltac:(lia)) as (ds & p2 & X & Y); eauto|]. do 2 eexists. split; [reflexivity|]. back. }
  destruct W as (ds & p2 & -> & C). cbn [bind]. do 2 eexists. split; [reflexivity|].
  match goal with |- St p ?q /\ _ => assert (D: St p1 q) end. { destruct ds; [destruct m|]; back. } split; [exact (St_trans _ _ _ A D)|].
  intros K. apply St_len in D. destruct B as [B|[(_ & B & _)|B]]; [lia|congruence|]. unfold is_declaration_specifier in K. rewrite B in K. discriminate.
Qed.

(** ** Parameters and functions *)
Lemma squares_are : forall h t p, (lp p < h)%nat -> T p (parse_squares E h t p).
Proof.
  induction h as [|h IHh]; intros t p Hh; [lia|]. cbn [parse_squares]. destruct (ptry V p TK_L_SQUARE) as [[] p1] eqn:X; cbn [negb]; pose proof (St_try _ _ _ _ X) as X'; [|do 2 eexists; split; [reflexivity|exact X']].
  apply try_strict in X; [|discriminate]. destruct (ptry V p1 TK_R_SQUARE) as [c p2] eqn:Y. apply St_try in Y.
  match goal with |- context [bind ?a _] => assert (W: exists p3, a = Some p3 /\ St p2 p3) end.
  { destruct c; [eexists; split; [reflexivity|]; back|]. match goal with |- context [pskip_to E ?a ?b ?c] => destruct (skip_to_is a b c) as (p3 & -> & B) end. eexists. split; [reflexivity|]. assert (St p2 (perror V p2)) by back. back. }
  destruct W as (p3 & -> & B). cbn [bind]. pose proof (St_len _ _ Y). pose proof (St_len _ _ B). destruct (IHh (CArray t) p3 ltac:(lia)) as (a & q & -> & C). do 2 eexists. split; [reflexivity|]. back.
Qed.
Section Decl.
Variable g : nat.
Variable inner : ctype -> P -> option (ctype * P).
Hypothesis IH : forall t p, here p -> (lp p < g)%nat -> T p (inner t p).
Lemma function_parameter_is level arg was t p : here p -> (lp p < S g)%nat -> T p (parse_function_parameter E note inner level arg was t p).
Proof.
  intros H G. unfold parse_function_parameter. destruct (ptry V p TK_L_PAREN) as [[] p1] eqn:X; cbn [negb]; pose proof (St_try _ _ _ _ X) as X'; [|do 2 eexists; split; [reflexivity|exact X']].
  apply try_strict in X; [|discriminate]. set (p2 := pexpect V p1 TK_STAR). assert (A: St p1 p2) by (unfold p2; back). pose proof (St_len _ _ A) as LA.
  assert (W: forall (was : bool) p3, St p2 p3 -> T p (let p0 := pexpect V (pexpect V p3 TK_R_PAREN) TK_L_PAREN in
      do p4 <- (if (arg =? 1) || (arg =? 2) then pskip V (Z.lor TK_COMMA (Z.lor TK_R_PAREN TK_SEMICOLON)) (perror V p0) else Some p0); do ' (t0, p5) <- inner t p4; Some (Some (t0, was), p5))).
  { intros w p3 B. cbn zeta. set (p4 := pexpect V (pexpect V p3 TK_R_PAREN) TK_L_PAREN). assert (C: St p2 p4) by (unfold p4; back).
    match goal with |- context [bind (if ?c then ?a else ?b) _] => assert (Q: exists p5, (if c then a else b) = Some p5 /\ St p4 p5) end.
    { destruct (_ || _); [|eexists; split; [reflexivity|]; back]. match goal with |- context [pskip V ?a ?b] => destruct (skip_is a b) as (p5 & -> & D & _) end. eexists. split; [reflexivity|]. assert (St p4 (perror V p4)) by back. back. }
    destruct Q as (p5 & -> & D). cbn [bind]. assert (F: St p1 p5) by (clear B; back). pose proof (St_len _ _ F).
    destruct (IH t p5) as (t1 & q & -> & Q); [exact (St_within _ _ F (St_within _ _ X' H))|lia|]. cbn [bind]. do 2 eexists. split; [reflexivity|]. clear A B C D. back. }
  pose proof (W was p2 (St_refl _)) as W0. destruct (toks V p2) as [|[name| | | | |] l] eqn:TT; try exact W0. destruct (level && negb was).
  - apply (W true). back.
  - do 2 eexists. split; [reflexivity|]. back.
Qed.
Lemma parameter_is level fd p : here p -> (lp p < S g)%nat -> T p (parse_parameter E note type_of tag_of correct enum_value inner level fd p).
Proof.
  intros H G. unfold parse_parameter. destruct (specifier_is p H) as (t & m & p1 & -> & A & _). cbn [bind]. destruct (star_const E p1) as [[s c] p2] eqn:X. apply St_star in X.
  set (t2 := if c then CConst _ else _). assert (S2: St p p2) by back. clear A X.
  set (after := fun (was_ident : bool) (p : P) =>
    let p := if is_void t2 && negb (pis V p TK_L_PAREN) then perror V p else p in
    let row := pis V p TK_L_SQUARE in
    let p := if row && is_pointer t2 && negb was_ident then perror V p else p in
    do ' (t, p) <- parse_squares E (S (length (toks V p))) t2 p;
    do ' (r, p) <- parse_function_parameter E note inner level (if row then 2 else if s then 1 else 0) was_ident t p;
    match r with
    | None => Some (None, p)
    | Some (t, was_ident) =>
        if fd =? 3 then Some (Some (t, if was_ident then 1 else 2), p)
        else if (fd =? 2) && was_ident then
          do p <- pskip V (Z.lor TK_R_PAREN TK_SEMICOLON) (perror V p);
          let '(body, p) := ptry V p TK_L_BRACE in
          do p <- (if body then pskip_to E TK_R_BRACE TK_R_BRACE p else Some p);
          Some (None, p)
        else if (fd =? 1) && negb was_ident then
          do p <- pskip V (Z.lor TK_R_PAREN TK_SEMICOLON) (perror V p); Some (None, p)
        else Some (Some (t, fd), p)
    end).
  assert (W: forall (was : bool) p3, St p2 p3 -> T p (after was p3)).
  { intros was p3 B. unfold after. clear after. set (p4 := if is_void t2 && negb (pis V p3 TK_L_PAREN) then perror V p3 else p3). assert (B4: St p p4) by (unfold p4; destruct (_ && _); back).
    set (p5 := if pis V p4 TK_L_SQUARE && is_pointer t2 && negb was then perror V p4 else p4). assert (B5: St p p5) by (unfold p5; destruct (_ && _); back).
    cbn zeta. destruct (squares_are (S (lp p5)) t2 p5 ltac:(lia)) as (t3 & p6 & -> & C). cbn [bind]. assert (B6: St p p6) by (clear B B4; back). pose proof (St_len _ _ B6).
    match goal with |- context [parse_function_parameter E note inner level ?a was t3 p6] => destruct (function_parameter_is level a was t3 p6) as (r & p7 & -> & D); [exact (St_within _ _ B6 H)|lia|] end.
    cbn [bind]. assert (B7: St p p7) by (clear - B6 D; back). clear B B4 B5 B6 C D S2. destruct r as [[t4 was4]|]; [|do 2 eexists; split; [reflexivity|exact B7]].
    assert (B8: St p (perror V p7)) by back.
    destruct (fd =? 3); [do 2 eexists; split; [reflexivity|exact B7]|]. destruct ((fd =? 2) && was4).
    { destruct (skip_is (Z.lor TK_R_PAREN TK_SEMICOLON) (perror V p7)) as (p8 & -> & D & _). cbn [bind]. destruct (ptry V p8 TK_L_BRACE) as [[] p9] eqn:Y; apply St_try in Y; cbn [bind].
      - destruct (skip_to_is TK_R_BRACE TK_R_BRACE p9) as (p10 & -> & F). cbn [bind]. do 2 eexists. split; [reflexivity|]. back.
      - do 2 eexists. split; [reflexivity|]. back. }
    destruct ((fd =? 1) && negb was4).
    { destruct (skip_is (Z.lor TK_R_PAREN TK_SEMICOLON) (perror V p7)) as (p8 & -> & D & _). cbn [bind]. do 2 eexists. split; [reflexivity|]. back. }
    do 2 eexists; split; [reflexivity|exact B7]. }
  pose proof (W false p2 (St_refl _)) as W0. destruct (toks V p2) as [|[name| | | | |] l] eqn:TT; try exact W0. destruct level.
  - apply (W true). back.
  - destruct (skip_to_is (Z.lor TK_R_PAREN TK_SEMICOLON) TK_R_PAREN (perror V p2)) as (p3 & -> & B). cbn [bind]. do 2 eexists. split; [reflexivity|]. assert (St p (perror V p2)) by back. back.
Qed.
Lemma commas_app a b : commas (a ++ b) = commas a + commas b.
Proof. unfold commas. rewrite filter_app, !zlen_unf, app_length. lia. Qed.
Lemma commas_pos a : 0 <= commas a.
Proof. unfold commas. rewrite zlen_unf. lia. Qed.
Lemma commas_St p q : St p q -> commas (toks V q) <= commas (toks V p).
Proof. intros [[[t H] _] _]. unfold toks. rewrite H, commas_app. pose proof (commas_pos t). lia. Qed.
Lemma commas_try p q : ptry V p TK_COMMA = (true, q) -> commas (toks V q) + 1 = commas (toks V p).
Proof.
  unfold ptry, pis, is. destruct (cur (fst (p_s p)) =? TK_COMMA) eqn:X; [|discriminate]. intros [= <-]. unfold toks, pconsume, consume, with_s. cbn [p_s fst].
  destruct (fst (p_s p)) as [|t l]; [discriminate|]. cbn [cur tl] in *. unfold commas. cbn [filter]. rewrite X, !zlen_unf. cbn [length]. lia.
Qed.
Lemma parameters_are level : forall h fd md p, here p -> (lp p < S g)%nat -> (lp p < h)%nat -> md - 3 + commas (toks V p) <= commas L -> T p (parse_parameters E note type_of tag_of correct enum_value inner h level fd md p).
Proof.
  induction h as [|h IHh]; intros fd md p H G Hh C; [lia|]. cbn [parse_parameters]. destruct (parameter_is level fd p H G) as (r & q & -> & A). cbn [bind].
  destruct r as [[t d]|]; [|do 2 eexists; split; [reflexivity|exact A]]. pose proof (commas_St _ _ A) as CA. pose proof (commas_pos (toks V q)).
  destruct (100 <=? md) eqn:M. { do 2 eexists. split; [reflexivity|]. apply (St_trans _ q _ A). apply St_stop. right. lia. }
  destruct (ptry V q TK_COMMA) as [[] q2] eqn:X; pose proof (St_try _ _ _ _ X) as X'; [|do 2 eexists; split; [reflexivity|]; back].
  pose proof (commas_try _ _ X) as CX. apply try_strict in X; [|discriminate]. assert (B: St p q2) by back. pose proof (St_len _ _ A).
  destruct (IHh d (md + 1) q2) as (r & u & -> & D); [exact (St_within _ _ B H)|lia|lia|lia|]. cbn [bind]. do 2 eexists. split; [reflexivity|]. clear A X'. back.
Qed.
Lemma commas_here p : here p -> commas (toks V p) <= commas L.
Proof. intros [t ->]. rewrite commas_app. pose proof (commas_pos t). lia. Qed.
Lemma declarator_is level fd t p : here p -> (lp p < S g)%nat -> T p (declarator_body E note type_of tag_of correct enum_value inner level fd t p).
Proof.
  intros H G. unfold declarator_body. destruct (ptry V p TK_R_PAREN) as [[] p1] eqn:X; apply St_try in X; [do 2 eexists; split; [reflexivity|exact X]|].
  pose proof (St_len _ _ X). pose proof (commas_here _ (St_within _ _ X H)). destruct (parameters_are level (S (lp p1)) fd 3 p1) as (r & q & -> & A); [exact (St_within _ _ X H)|lia|lia|lia|]. cbn [bind].
  destruct r as [[ts d]|]; do 2 eexists; (split; [reflexivity|]); back.
Qed.
End Decl.
Lemma inner_is : forall g t p, here p -> (lp p < g)%nat -> T p (inner_declarator E note type_of tag_of correct enum_value g t p).
Proof.
  induction g as [|g IH]; intros t p H G; [lia|]. cbn [inner_declarator]. destruct (declarator_is g _ IH false 2 t p H G) as ([t1 d] & q & -> & A). cbn [bind]. do 2 eexists. split; [reflexivity|exact A].
Qed.
Lemma function_declarator_is t p : here p -> T p (parse_function_declarator E note type_of tag_of correct enum_value t p).
Proof. intros H. apply (declarator_is (S (lp p)) _ (inner_is _)); [exact H|lia]. Qed.
End T.

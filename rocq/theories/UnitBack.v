(** Functions and programs parsed without a message are texts of what the parser
    gives. *)
From Verif Require Import Prelude LexModel ParseModel ParseSpec ParseFuel ParseProofs ParseBack ParseSkip StmtModel StmtSpec StmtProofs StmtAccept StmtBack DeclModel DeclSpec DeclProofs DeclEnds DeclAccept DeclBack AcceptBlocks.

Section B.
Variable E : Type.
Variable note : E -> entry -> ctype * E * nat.
Variables type_of tag_of : E -> Z -> option ctype.
Variable correct : E -> expr -> bool.
Variable enum_value : E -> ctype -> expr -> option (Z * bool).
Hypothesis type_known : forall env n t, type_of env n = Some t -> is_undefined t = false.
Hypothesis tag_known : forall env n t, tag_of env n = Some t -> is_undefined t = false.
Hypothesis note_known : forall env x t env', says E note env x t env' -> match x with NStruct _ _ | NEnumType | NEnumName _ _ => True | _ => False end -> is_undefined t = false.
Notation V := (denv E).
Notation P := (ps V).
Notation says := (says E note).
Notation table := (table E).
Notation toks := (toks V).
Notation errs p := (snd (p_s p)).
Notation tdef p := (v_type_def (p_env p)).
Notation way := (way E).
Notation clean := (clean E).
Notation adtext := (adtext E note correct).
Notation adectext := (adectext E note type_of tag_of correct enum_value).
Notation atspec := (atspec E note type_of tag_of correct enum_value).
Notation aparam := (aparam E note type_of tag_of correct enum_value).
Notation aplist := (aplist E note type_of tag_of correct enum_value).
Notation afdecl := (afdecl E note type_of tag_of correct enum_value).
Ltac ways := first [assumption | apply way_refl
  | match goal with H : way ?c ?b |- way _ ?b => apply (way_trans _ _ c b); [clear H; ways | exact H] end
  | match goal with |- way _ (pconsume _ ?r) => apply (way_trans _ _ r); [ways|apply way_consume] end
  | match goal with |- way _ (perror _ ?r) => apply (way_trans _ _ r); [ways|apply way_error] end
  | match goal with |- way _ (noted _ _ ?x ?r) => apply (way_trans _ _ r); [ways|apply way_noted] end
  | match goal with |- way _ (type_defined _ ?r _) => apply (way_trans _ _ r); [ways|apply way_type_defined] end
  | match goal with |- way _ (stop _ _ ?r) => apply (way_trans _ _ r); [ways|apply way_stop] end
  | match goal with |- way _ (pexpect _ ?r _) => apply (way_trans _ _ r); [ways|apply way_expect] end
  | match goal with |- way _ (if ?c then _ else _) => destruct c; ways end ].
Ltac cut H b C := match type of H with DeclBack.clean _ ?a ?c => let X := fresh in assert (X: clean a b /\ clean b c) by (apply clean_split; [ways|ways|exact H]); clear H; destruct X as (C & H) end.

Lemma arrays_in k t : arrays k (CArray t) = CArray (arrays k t).
Proof. clear. induction k as [|k IH]; [reflexivity|]. change (CArray (arrays k (CArray t)) = CArray (arrays (S k) t)). rewrite IH. reflexivity. Qed.
Lemma squares_back : forall f t p t' q, parse_squares E f t p = Some (t', q) -> way p q /\ p_env q = p_env p /\
  (clean p q -> exists k, toks p = squares k ++ toks q /\ t' = arrays k t /\ (pis V p TK_L_SQUARE = false -> k = 0%nat) /\ (pis V p TK_L_SQUARE = true -> k <> 0%nat)).
Proof.
  clear. induction f as [|f IH]; intros t p t' q H; [discriminate|]. cbn [parse_squares] in H. destruct (ptry V p TK_L_SQUARE) as [[] p1] eqn:X; cbn [negb] in H.
  2:{ apply try_none in X as (-> & N). injection H as <- <-. split; [ways|]. split; auto. intros _. exists 0%nat. repeat split; auto. congruence. }
  pose proof (way_try _ _ _ _ _ X) as W1. pose proof X as X'. apply try_toks in X as (T1 & A1); [|nokey]. assert (PS: pis V p TK_L_SQUARE = true) by (unfold ptry in X'; destruct (pis V p TK_L_SQUARE); [auto|discriminate]).
  destruct (ptry V p1 TK_R_SQUARE) as [b p2] eqn:Y. pose proof (way_try _ _ _ _ _ Y) as W2. pose proof (try_back _ _ _ _ _ Y ltac:(nokey)) as (A2 & _ & _ & T2 & N2). destruct b.
  - cbn [bind] in H. apply IH in H as (W3 & A3 & H). split; [ways|]. split; [congruence|]. intros C. cut C p2 C2. destruct (H C) as (k & T3 & -> & _). exists (S k).
    split; [rewrite T1, T2, T3 by auto; reflexivity|]. split; [apply arrays_in|]. split; [congruence|lia].
  - destruct (N2 eq_refl) as (-> & _). destruct (pskip_to E _ _ _) as [p3|] eqn:Z; cbn [bind] in H; [|discriminate]. pose proof (way_skip_to _ _ _ _ _ Z) as W3. apply IH in H as (W4 & A4 & _).
    assert (way p1 p3) by (apply (way_trans _ _ (perror V p1)); ways). split; [ways|]. split.
    + rewrite A4. unfold pskip_to in Z. destruct (pskip V _ (perror V p1)) as [r|] eqn:K; cbn [bind] in Z; [|discriminate]. injection Z as <-. apply skip_back in K as (K & _). cbn in K.
      destruct (ptry V r TK_R_SQUARE) as [b1 r1] eqn:J. apply try_back in J as (J & _); [|nokey]. cbn [snd]. congruence.
    + intros C. exfalso. refine (clean_error _ p p1 q W1 _ C). ways.
Qed.
Definition fd_of (named : bool) : Z := if named then 1 else 2.
Section Declarator.
Variable inner : ctype -> P -> option (ctype * P).
Hypothesis IH : forall t p t' q, inner t p = Some (t', q) -> way p q /\ (clean p q -> exists l, toks p = l ++ toks q /\ afdecl false (table p) t l t' (table q)).
Lemma function_parameter_back level arg was t p r q : parse_function_parameter E note inner level arg was t p = Some (r, q) -> way p q /\ (clean p q ->
  exists t' was', r = Some (t', was') /\ ((was' = was /\ t' = t /\ q = p /\ pis V p TK_L_PAREN = false) \/
    (arg <> 1 /\ arg <> 2 /\ exists n x env2 l, toks p = TKey TK_L_PAREN :: TKey TK_STAR :: x ++ TKey TK_R_PAREN :: TKey TK_L_PAREN :: l ++ toks q /\ pname E note (table p) true n x env2 /\
      afdecl false env2 t l t' (table q) /\ was' = was || n /\ (n = true -> was = false /\ level = true)))).
Proof.
  intros H. unfold parse_function_parameter in H. destruct (ptry V p TK_L_PAREN) as [[] p1] eqn:X; cbn [negb] in H.
  2:{ apply try_none in X as (-> & N). injection H as <- <-. split; [ways|]. intros _. exists t, was. split; auto. }
  pose proof (way_try _ _ _ _ _ X) as W1. apply try_toks in X as (T1 & A1); [|nokey]. set (p2 := pexpect V p1 TK_STAR) in *. assert (W2: way p1 p2) by (unfold p2; ways).
  set (go := fun was0 (p3 : P) => let p4 := pexpect V (pexpect V p3 TK_R_PAREN) TK_L_PAREN in
     do p5 <- (if (arg =? 1) || (arg =? 2) then pskip V (Z.lor TK_COMMA (Z.lor TK_R_PAREN TK_SEMICOLON)) (perror V p4) else Some p4); do ' (t0, p6) <- inner t p5; Some (Some (t0, was0 : bool), p6)).
  assert (GO: forall was0 p3 r q, go was0 p3 = Some (r, q) -> way p3 q /\ (clean p3 q -> exists t' l, r = Some (t', was0) /\ arg <> 1 /\ arg <> 2 /\ toks p3 = TKey TK_R_PAREN :: TKey TK_L_PAREN :: l ++ toks q /\ afdecl false (table p3) t l t' (table q))).
  { clear H. intros was0 p3 r0 q0 H. unfold go in H. cbn zeta in H. set (p31 := pexpect V p3 TK_R_PAREN) in *. set (p4 := pexpect V p31 TK_L_PAREN) in *. assert (W3: way p3 p31) by (unfold p31; ways). assert (W4: way p31 p4) by (unfold p4; ways).
    destruct ((arg =? 1) || (arg =? 2)) eqn:AR.
    - destruct (pskip V _ _) as [p5|] eqn:Y; cbn [bind] in H; [|discriminate]. pose proof (way_skip _ _ _ _ Y) as W5. destruct (inner t p5) as [[t0 p6]|] eqn:Z; cbn [bind] in H; [|discriminate]. injection H as <- <-.
      apply IH in Z as (W6 & _). assert (way p4 p5) by (apply (way_trans _ _ (perror V p4)); ways). split; [ways|]. intros C. exfalso. refine (clean_error _ p3 p4 p6 _ _ C); ways.
    - cbn [bind] in H. destruct (inner t p4) as [[t0 p6]|] eqn:Z; cbn [bind] in H; [|discriminate]. injection H as <- <-. apply IH in Z as (W6 & Z). split; [ways|]. intros C. cut C p4 C4. cut C4 p31 C3.
      destruct (Z C) as (l & T & G). exists t0, l. split; auto. split; [lia|]. split; [lia|]. pose proof (expect_back V p3 TK_R_PAREN (proj2 C3) ltac:(nokey)) as TA. pose proof (expect_back V p31 TK_L_PAREN (proj2 C4) ltac:(nokey)) as TB.
      fold p31 in TA. fold p4 in TB. split; [rewrite TA, TB, T; reflexivity|exact G]. }
  assert (NO: go was p2 = Some (r, q) -> way p q /\ (clean p q -> exists t' was', r = Some (t', was') /\ ((was' = was /\ t' = t /\ q = p /\ pis V p TK_L_PAREN = false) \/
    (arg <> 1 /\ arg <> 2 /\ exists n x env2 l, toks p = TKey TK_L_PAREN :: TKey TK_STAR :: x ++ TKey TK_R_PAREN :: TKey TK_L_PAREN :: l ++ toks q /\ pname E note (table p) true n x env2 /\
      afdecl false env2 t l t' (table q) /\ was' = was || n /\ (n = true -> was = false /\ level = true))))).
  { clear H. intros H. apply GO in H as (W3 & H). split; [ways|]. intros C. cut C p2 C2. cut C2 p1 C1. destruct (H C) as (t' & l & -> & N1 & N2 & T & G). exists t', was. split; auto. right. split; auto. split; auto.
    exists false, [], (table p), l. pose proof (expect_back V p1 TK_STAR (proj2 C2) ltac:(nokey)) as TA. fold p2 in TA. split; [rewrite T1, TA, T; reflexivity|]. split; [constructor|].
    split; [change (table p2) with (table p1) in G; unfold DeclModel.table in *; rewrite A1 in G; exact G|]. split; [rewrite orb_false_r; reflexivity|discriminate]. }
  destruct (toks p2) as [|[name| | | | |] l0] eqn:T0; try exact (NO H). clear NO. apply ident_back in T0 as T3.
  destruct (level && negb was) eqn:LV.
  2:{ injection H as <- <-. split; [ways|]. intros C. exfalso. refine (clean_error _ p p2 _ _ _ C); ways. }
  pose proof (way_noted E note (NParameter name true) p2) as (W3 & T5 & _ & N5). set (p3 := noted E note (NParameter name true) p2) in *. assert (W4: way p3 (pconsume V p3)) by ways.
  apply (GO true (pconsume V p3)) in H as (W5 & H). split; [ways|]. intros C. cut C (pconsume V p3) C4. cut C4 p3 C3. cut C3 p2 C2. cut C2 p1 C1. destruct (N5 C3) as (u & U). destruct (H C) as (t' & l & -> & N1 & N2 & T & G).
  exists t', true. split; auto. right. split; auto. split; auto. exists true, [TIdent name], (table p3), l. pose proof (expect_back V p1 TK_STAR (proj2 C2) ltac:(nokey)) as TA. fold p2 in TA.
  assert (T3': toks p3 = TIdent name :: toks (pconsume V p3)) by (eapply ident_back; rewrite T5, T0; reflexivity).
  split; [rewrite T1, TA, <- T5, T3', T; reflexivity|]. split; [apply (n_name E note _ _ name u); change (table p2) with (table p1) in U; unfold DeclModel.table in *; rewrite A1 in U; exact U|].
  split; [exact G|]. destruct was; cbn [negb] in LV; rewrite ?andb_false_r in LV; [discriminate|]. split; auto. intros _. destruct level; auto.
Qed.
Definition range (fd : Z) : Prop := fd = 1 \/ fd = 2 \/ fd = 3.
Definition fits (level : bool) (fd : Z) (named : bool) : Prop := (fd = 3 \/ fd = fd_of named) /\ (level = false -> named = false).
Lemma pis_toks (a b : P) k : toks a = toks b -> pis V a k = pis V b k.
Proof. clear. unfold pis, is. change (fst (p_s a)) with (toks a). change (fst (p_s b)) with (toks b). intros ->. reflexivity. Qed.
Lemma semicolon_not k (p : P) : pis V p TK_SEMICOLON = true -> k <> TK_SEMICOLON -> pis V p k = false.
Proof. clear. unfold pis, is. intros A B. lia. Qed.
Definition after_name (level : bool) (func_def : Z) (star : bool) (t : ctype) (was_ident : bool) (p : P) : option (parameter * P) :=
    let p := if is_void t && negb (pis V p TK_L_PAREN) then perror V p else p in
    let row := pis V p TK_L_SQUARE in
    let p := if row && is_pointer t && negb was_ident then perror V p else p in
    do ' (t, p) <- parse_squares E (S (length (toks p))) t p;
    do ' (r, p) <- parse_function_parameter E note inner level (if row then 2 else if star then 1 else 0) was_ident t p;
    match r with
    | None => Some (None, p)
    | Some (t, was_ident) =>
        if func_def =? 3 then Some (Some (t, if was_ident then 1 else 2), p)
        else if (func_def =? 2) && was_ident then
          do p <- pskip V (Z.lor TK_R_PAREN TK_SEMICOLON) (perror V p);
          let '(body, p) := ptry V p TK_L_BRACE in
          do p <- (if body then pskip_to E TK_R_BRACE TK_R_BRACE p else Some p);
          Some (None, p)
        else if (func_def =? 1) && negb was_ident then
          do p <- pskip V (Z.lor TK_R_PAREN TK_SEMICOLON) (perror V p); Some (None, p)
        else Some (Some (t, func_def), p)
    end.
Lemma parameter_unf level fd p : parse_parameter E note type_of tag_of correct enum_value inner level fd p =
  do ' (t, _, p) <- specifier E note type_of tag_of correct enum_value p;
  let '(star, const, p) := star_const E p in
  match toks p with
  | TIdent name :: _ =>
      if level then after_name level fd star (ptype star const t) true (pconsume V (noted E note (NParameter name false) p))
      else do p <- pskip_to E (Z.lor TK_R_PAREN TK_SEMICOLON) TK_R_PAREN (perror V p); Some (None, p)
  | _ => after_name level fd star (ptype star const t) false p
  end.
Proof. reflexivity. Qed.
Lemma parameter_back level fd p r q : range fd -> parse_parameter E note type_of tag_of correct enum_value inner level fd p = Some (r, q) -> way p q /\ (clean p q ->
  exists t named, r = Some (t, fd_of named) /\ fits level fd named /\ (pis V q TK_SEMICOLON = true \/ exists l, toks p = l ++ toks q /\ aparam named (table p) l t (table q))).
Proof.
  intros R H. rewrite parameter_unf in H. destruct (specifier _ _ _ _ _ _ p) as [[[t made] p1]|] eqn:X; cbn [bind] in H; [|discriminate].
  unfold specifier in X. apply (specifier_back E note type_of tag_of correct enum_value type_known tag_known note_known) in X. destruct X as (W1 & X). destruct (star_const E p1) as [[star const] p2] eqn:SC. apply star_back in SC as (W2 & A2 & T2 & CS & _).
  set (t1 := ptype star const t) in *. set (after := after_name level fd star t1) in *.
  assert (AF: forall was p3 r q, after was p3 = Some (r, q) -> way p3 q /\ (clean p3 q -> exists t' named, r = Some (t', fd_of named) /\ (fd = 3 \/ fd = fd_of named) /\
    ((named = was /\ is_void t1 = false /\ exists k, toks p3 = squares k ++ toks q /\ t' = arrays k t1 /\ (k <> 0%nat -> was = true \/ is_pointer t1 = false) /\ table q = table p3) \/
     (star = false /\ exists n x env2 l, toks p3 = TKey TK_L_PAREN :: TKey TK_STAR :: x ++ TKey TK_R_PAREN :: TKey TK_L_PAREN :: l ++ toks q /\ pname E note (table p3) true n x env2 /\
      afdecl false env2 t1 l t' (table q) /\ named = was || n /\ (n = true -> was = false /\ level = true))))).
  { clear H r q. intros was p3 r q H. unfold after, after_name in H. clear after. set (p4 := if is_void t1 && negb (pis V p3 TK_L_PAREN) then perror V p3 else p3) in *. assert (W4: way p3 p4) by (unfold p4; ways).
    set (p5 := if pis V p4 TK_L_SQUARE && is_pointer t1 && negb was then perror V p4 else p4) in *. assert (W5: way p4 p5) by (unfold p5; ways).
    destruct (parse_squares E _ t1 p5) as [[t2 p6]|] eqn:Q; cbn [bind] in H; [|discriminate]. apply squares_back in Q as (W6 & A6 & Q).
    set (arg := if pis V p4 TK_L_SQUARE then 2 else if star then 1 else 0) in *. destruct (parse_function_parameter E note inner level arg was t2 p6) as [[r1 p7]|] eqn:F; cbn [bind] in H; [|discriminate].
    apply function_parameter_back in F as (W7 & F).
    assert (ALL: clean p3 p7 -> exists t' named, r1 = Some (t', named) /\ 
    ((named = was /\ is_void t1 = false /\ exists k, toks p3 = squares k ++ toks p7 /\ t' = arrays k t1 /\ (k <> 0%nat -> was = true \/ is_pointer t1 = false) /\ table p7 = table p3) \/
     (star = false /\ exists n x env2 l, toks p3 = TKey TK_L_PAREN :: TKey TK_STAR :: x ++ TKey TK_R_PAREN :: TKey TK_L_PAREN :: l ++ toks p7 /\ pname E note (table p3) true n x env2 /\
      afdecl false env2 t1 l t' (table p7) /\ named = was || n /\ (n = true -> was = false /\ level = true)))).
    { intros C. cut C p6 C6. cut C6 p5 C5. cut C5 p4 C4. destruct (F C) as (t' & named & -> & F'). destruct (Q C6) as (k & T6 & -> & K0 & K1). exists t', named. split; auto.
      assert (E4: p4 = p3 /\ (is_void t1 = true -> pis V p3 TK_L_PAREN = true)).
      { unfold p4 in *. destruct (is_void t1 && negb (pis V p3 TK_L_PAREN)) eqn:B; [exfalso; exact (clean_error _ p3 p3 _ (way_refl _ _) (way_refl _ _) C4)|]. split; auto. intros B'. rewrite B' in B. destruct (pis V p3 TK_L_PAREN); auto. }
      assert (E5: p5 = p4 /\ (pis V p4 TK_L_SQUARE = true -> was = true \/ is_pointer t1 = false)).
      { unfold p5 in C5 |- *. destruct (pis V p4 TK_L_SQUARE && is_pointer t1 && negb was) eqn:B; [exfalso; exact (clean_error _ p4 p4 _ (way_refl _ _) (way_refl _ _) C5)|]. split; auto. intros B'. rewrite B' in B. destruct was; auto. destruct (is_pointer t1); auto. }
      destruct E4 as (E4 & VD). destruct E5 as (E5 & PT). assert (AG: arg = if pis V p4 TK_L_SQUARE then 2 else if star then 1 else 0) by reflexivity. clearbody arg p5. clearbody p4. subst p5 p4.
      assert (T36: table p6 = table p3) by (unfold DeclModel.table; rewrite A6; reflexivity).
      destruct F' as [(-> & -> & -> & NP)|(N1 & N2 & n & x & env2 & l & T7 & PN & G & NM & NW)].
      - left. split; auto. split.
        { destruct (is_void t1) eqn:VV; auto. specialize (VD eq_refl). assert (pis V p3 TK_L_SQUARE = false) by (unfold pis, is in VD |- *; apply Z.eqb_eq in VD; rewrite VD; reflexivity).
          rewrite (K0 H0) in T6. change (toks p3 = toks p6) in T6. rewrite (pis_toks _ _ _ T6) in VD. congruence. }
        exists k. split; [exact T6|]. split; [reflexivity|]. split; [|exact T36]. intros K. apply PT. destruct (pis V p3 TK_L_SQUARE); [reflexivity|]. exfalso. apply K. apply K0. reflexivity.
      - right. assert (SQ: pis V p3 TK_L_SQUARE = false /\ star = false) by (rewrite AG in N1, N2; destruct (pis V p3 TK_L_SQUARE), star; try (exfalso; lia); split; reflexivity). destruct SQ as (SQ & ST). split; [exact ST|].
        pose proof (K0 SQ) as KZ. clear K0 K1 Q F. subst k. change (arrays 0 t1) with t1 in G. change (toks p3 = toks p6) in T6. exists n, x, env2, l. rewrite T36 in PN. split; [rewrite T6; exact T7|]. split; [exact PN|]. split; [exact G|]. split; [exact NM|exact NW]. }
    destruct r1 as [[t3 named]|].
    2:{ injection H as <- <-. split; [ways|]. intros C. destruct (ALL C) as (t' & nm & Z & _). discriminate. }
    destruct (fd =? 3) eqn:F3.
    { injection H as <- <-. split; [ways|]. intros C. destruct (ALL C) as (t' & nm & [= -> ->] & Z). exists t', nm. split; [reflexivity|]. split; [left; lia|exact Z]. }
    destruct ((fd =? 2) && named) eqn:F2.
    { destruct (pskip V _ (perror V p7)) as [p8|] eqn:Y1; cbn [bind] in H; [|discriminate]. apply way_skip in Y1. destruct (ptry V p8 TK_L_BRACE) as [b p9] eqn:Y2. pose proof (way_try _ _ _ _ _ Y2) as W9.
      match type of H with bind ?a _ = _ => destruct a as [p10|] eqn:Y3; cbn [bind] in H; [|discriminate] end. injection H as <- <-.
      assert (W10: way p9 p10) by (destruct b; [apply way_skip_to in Y3; exact Y3|injection Y3 as <-; ways]). assert (way p7 p8) by (apply (way_trans _ _ (perror V p7)); ways). split; [ways|].
      intros C. exfalso. refine (clean_error _ p3 p7 p10 _ _ C); ways. }
    destruct ((fd =? 1) && negb named) eqn:F1.
    { destruct (pskip V _ (perror V p7)) as [p8|] eqn:Y1; cbn [bind] in H; [|discriminate]. apply way_skip in Y1. injection H as <- <-. assert (way p7 p8) by (apply (way_trans _ _ (perror V p7)); ways). split; [ways|].
      intros C. exfalso. refine (clean_error _ p3 p7 p8 _ _ C); ways. }
    injection H as <- <-. split; [ways|]. intros C. destruct (ALL C) as (t' & nm & [= -> ->] & Z). exists t', nm. assert (FD: fd = fd_of nm) by (unfold fd_of; destruct nm; cbn [negb] in *; destruct R as [-> | [-> | ->]]; try reflexivity; discriminate).
    split; [rewrite <- FD; reflexivity|]. split; [right; exact FD|exact Z]. }
  assert (NO: after false p2 = Some (r, q) -> way p q /\ (clean p q -> exists t named, r = Some (t, fd_of named) /\ fits level fd named /\ (pis V q TK_SEMICOLON = true \/ exists l, toks p = l ++ toks q /\ aparam named (table p) l t (table q)))).
  { clear H. intros H. apply AF in H as (W3 & H). split; [ways|]. intros C. cut C p2 C2. cut C2 p1 C1. destruct (X C1) as (_ & l & dd & td & T & G & _ & SM). destruct (H C) as (t' & named & -> & FD & Z).
    exists t', named. split; auto. assert (T12: table p2 = table p1) by (unfold DeclModel.table; rewrite A2; reflexivity).
    destruct Z as [(-> & NV & k & T3 & -> & KP & TB)|(-> & n & x & env2 & l1 & T3 & PN & G1 & -> & NW)].
    - split; [split; auto|]. destruct td.
      + left. specialize (SM eq_refl). assert (Q: toks p1 = toks q).
        { rewrite T2, T3. assert (star = false /\ const = false) as (-> & ->). { clear - SM T2 CS. destruct star; [exfalso|]. unfold pis, is in SM. change (fst (p_s p1)) with (toks p1) in SM. rewrite T2 in SM. discriminate. destruct const; auto. discriminate (CS eq_refl). }
          destruct k; [reflexivity|]. exfalso. unfold pis, is in SM. change (fst (p_s p1)) with (toks p1) in SM. rewrite T2, T3 in SM. discriminate. }
        unfold pis, is in *. change (fst (p_s p1)) with (toks p1) in SM. rewrite Q in SM. exact SM.
      + right. exists (l ++ stars star const ++ [] ++ squares k). split; [rewrite T, T2, T3, <- !app_assoc; reflexivity|]. eapply ap_plain; eauto. rewrite TB, T12. constructor.
    - split; [split; auto; cbn [orb]; intros ->; destruct n; auto; destruct (NW eq_refl); congruence|]. assert (const = false) as -> by (destruct const; auto; discriminate (CS eq_refl)). destruct td.
      { exfalso. specialize (SM eq_refl). unfold pis, is in SM. change (fst (p_s p1)) with (toks p1) in SM. rewrite T2, T3 in SM. discriminate. }
      right. eexists. split; [|eapply ap_function; [exact G|rewrite <- T12; exact PN|exact G1]]. rewrite T, T2, T3. change (stars false false) with (@nil tok). cbn [app]. rewrite <- ?app_assoc. cbn [app]. rewrite <- ?app_assoc. reflexivity. }
  destruct (toks p2) as [|[name| | | | |] l0] eqn:T0; try exact (NO H). clear NO. destruct level.
  2:{ destruct (pskip_to E _ _ (perror V p2)) as [p3|] eqn:Y; cbn [bind] in H; [|discriminate]. apply way_skip_to in Y. injection H as <- <-. assert (way p2 p3) by (apply (way_trans _ _ (perror V p2)); ways). split; [ways|].
      intros C. exfalso. refine (clean_error _ p p2 p3 _ _ C); ways. }
  pose proof (way_noted E note (NParameter name false) p2) as (W3 & T5 & _ & N5). set (p3 := noted E note (NParameter name false) p2) in *. assert (W4: way p3 (pconsume V p3)) by ways.
  assert (T3': toks p3 = TIdent name :: toks (pconsume V p3)) by (eapply ident_back; rewrite T5, T0; reflexivity).
  apply AF in H as (W5 & H). split; [ways|]. intros C. cut C (pconsume V p3) C4. cut C4 p3 C3. cut C3 p2 C2. cut C2 p1 C1. destruct (N5 C3) as (u & U). destruct (X C1) as (_ & l & dd & td & T & G & _ & SM). destruct (H C) as (t' & named & -> & FD & Z).
  assert (T12: table p2 = table p1) by (unfold DeclModel.table; rewrite A2; reflexivity). rewrite T12 in U.
  assert (TP: toks p = l ++ stars star const ++ TIdent name :: toks (pconsume V p3)) by (rewrite T, T2, <- T0, <- T5, T3'; reflexivity).
  assert (td = false) as -> by (destruct td; auto; exfalso; eapply (no_semicolon E p1 star const name); [rewrite T2, <- T0, <- T5; rewrite T3'; reflexivity|auto]).
  exists t', named. split; auto. destruct Z as [(-> & NV & k & T6 & -> & KP & TB)|(-> & n & x & env2 & l1 & T6 & PN & G1 & -> & NW)].
  - split; [split; auto; discriminate|]. right. exists (l ++ stars star const ++ [TIdent name] ++ squares k). split; [rewrite TP, T6, <- !app_assoc; reflexivity|]. eapply ap_plain; eauto. rewrite TB. eapply n_name. exact U.
  - split; [split; auto; discriminate|]. assert (const = false) as -> by (destruct const; auto; discriminate (CS eq_refl)). assert (n = false) as -> by (destruct n; auto; destruct NW; auto; discriminate). inversion PN; subst.
    right. eexists. split; [|eapply ap_before; [exact G|exact U|exact G1]]. rewrite TP, T6. change (stars false false) with (@nil tok). cbn [app]. rewrite <- ?app_assoc. reflexivity.
Qed.
Lemma fd_of_inj a b : fd_of a = fd_of b -> a = b.
Proof. clear. destruct a, b; cbn; congruence. Qed.
Lemma fd_of_range b : range (fd_of b).
Proof. clear. destruct b; unfold range; cbn; lia. Qed.
Lemma after_range level fd star t was p t' fd' q : range fd -> after_name level fd star t was p = Some (Some (t', fd'), q) -> range fd'.
Proof.
  clear. intros R H. unfold after_name in H. destruct (parse_squares E _ t _) as [[t2 p6]|]; cbn [bind] in H; [|discriminate]. destruct (parse_function_parameter E note inner level _ was t2 p6) as [[[[t3 nm]|] p7]|]; cbn [bind] in H; try discriminate.
  destruct (fd =? 3); [injection H as _ <- _; unfold range; destruct nm; lia|]. destruct ((fd =? 2) && nm).
  { destruct (pskip V _ _); cbn [bind] in H; [|discriminate]. destruct (ptry V _ _) as [b ?]. destruct b; [destruct (pskip_to E _ _ _); cbn [bind] in H|]; discriminate. }
  destruct ((fd =? 1) && negb nm); [destruct (pskip V _ _); cbn [bind] in H; discriminate|]. injection H as _ <- _. exact R.
Qed.
Lemma parameter_range level fd p t fd' q : range fd -> parse_parameter E note type_of tag_of correct enum_value inner level fd p = Some (Some (t, fd'), q) -> range fd'.
Proof.
  clear. intros R H. rewrite parameter_unf in H. destruct (specifier _ _ _ _ _ _ p) as [[[t1 made] p1]|]; cbn [bind] in H; [|discriminate]. destruct (star_const E p1) as [[star const] p2].
  destruct (toks p2) as [|[name| | | | |] l0]; try (eapply after_range; eassumption). destruct level; [eapply after_range; eassumption|]. destruct (pskip_to E _ _ _); cbn [bind] in H; discriminate.
Qed.
Lemma parameters_back level : forall f fd md p r q, range fd -> parse_parameters E note type_of tag_of correct enum_value inner f level fd md p = Some (r, q) -> way p q /\ (clean p q ->
  exists ts named, r = Some (ts, fd_of named) /\ fits level fd named /\ md + Z.of_nat (length ts) <= 100 /\ (pis V q TK_SEMICOLON = true \/ exists l, toks p = l ++ toks q /\ aplist named (table p) l ts (table q))).
Proof.
  induction f as [|f IHf]; intros fd md p r q R H; [discriminate|]. cbn [parse_parameters] in H. destruct (parse_parameter _ _ _ _ _ _ _ level fd p) as [[r1 p1]|] eqn:X; cbn [bind] in H; [|discriminate].
  assert (R1: forall t fd1, r1 = Some (t, fd1) -> range fd1) by (intros t fd1 ->; eapply parameter_range; eassumption).
  apply (parameter_back _ _ _ _ _ R) in X as (W1 & X). destruct r1 as [[t fd1]|].
  2:{ injection H as <- <-. split; [ways|]. intros C. destruct (X C) as (t & nm & Z & _). discriminate. }
  destruct (100 <=? md) eqn:MD.
  { injection H as <- <-. split; [ways|]. intros C. exfalso. refine (clean_stop _ p p1 _ _ _ _ C); ways. }
  destruct (ptry V p1 TK_COMMA) as [b p2] eqn:Y. pose proof (way_try _ _ _ _ _ Y) as W2. pose proof (try_back _ _ _ _ _ Y ltac:(nokey)) as (A2 & _ & _ & T2 & N2). destruct b.
  - destruct (parse_parameters _ _ _ _ _ _ _ f level fd1 (md + 1) p2) as [[r2 p3]|] eqn:Z; cbn [bind] in H; [|discriminate]. injection H as <- <-. apply IHf in Z as (W3 & Z); [|eapply R1; reflexivity].
    split; [ways|]. intros C. cut C p2 C2. cut C2 p1 C1. destruct (X C1) as (t' & nm & [= -> ->] & FT & G). destruct (Z C) as (ts & nm2 & -> & (F3 & LV) & MM & G2).
    assert (nm2 = nm) as -> by (destruct F3 as [F3|F3]; [destruct nm; discriminate F3|symmetry; apply fd_of_inj; exact F3]).
    exists (t' :: ts), nm. split; [reflexivity|]. split; [exact FT|]. split; [cbn [length]; lia|]. destruct G2 as [G2|(l2 & T3 & G2)]; [left; exact G2|right].
    destruct G as [G|(l & T & G)]. { exfalso. apply (semicolon_not TK_COMMA) in G; [|discriminate]. unfold ptry in Y. rewrite G in Y. discriminate. }
    exists (l ++ TKey TK_COMMA :: l2). split; [rewrite T, T2, T3 by reflexivity; rewrite <- app_assoc; reflexivity|]. eapply apl_more; [exact G|]. unfold DeclModel.table in *. rewrite A2 in G2. exact G2.
  - destruct (N2 eq_refl) as (-> & _). injection H as <- <-. split; [ways|]. intros C. destruct (X C) as (t' & nm & [= -> ->] & FT & G). exists [t'], nm. split; [reflexivity|]. split; [exact FT|]. split; [cbn [length]; lia|].
    destruct G as [G|(l & T & G)]; [left; exact G|right]. exists l. split; [exact T|]. apply apl_one. exact G.
Qed.
Lemma body_back level fd result p t d q : range fd -> declarator_body E note type_of tag_of correct enum_value inner level fd result p = Some (t, d, q) -> way p q /\ (clean p q ->
  (exists l, toks p = l ++ toks q /\ ((d = Some 0 /\ t = CFunction result [] /\ forall named, afdecl named (table p) result l t (table q)) \/
    exists named, d = Some (fd_of named) /\ fits level fd named /\ afdecl named (table p) result l t (table q)))).
Proof.
  intros R H. unfold declarator_body in H. destruct (ptry V p TK_R_PAREN) as [b p1] eqn:Y. pose proof (way_try _ _ _ _ _ Y) as W1. pose proof (try_back _ _ _ _ _ Y ltac:(nokey)) as (A1 & _ & _ & T1 & N1). destruct b.
  - injection H as <- <- <-. split; [ways|]. intros C. exists [TKey TK_R_PAREN]. split; [apply T1; reflexivity|]. left. split; [reflexivity|]. split; [reflexivity|]. intros named. unfold DeclModel.table. rewrite A1. constructor.
  - destruct (N1 eq_refl) as (-> & _). destruct (parse_parameters _ _ _ _ _ _ _ _ level fd 3 p) as [[r p2]|] eqn:Z; cbn [bind] in H; [|discriminate]. apply parameters_back in Z as (W2 & Z); [|exact R].
    destruct r as [[ts d1]|]; injection H as <- <- <-.
    2:{ split; [ways|]. intros C. destruct (Z C) as (ts & nm & X & _). discriminate. }
    assert (W3: way p2 (pexpect V p2 TK_R_PAREN)) by ways. split; [ways|]. intros C. cut C p2 C2. destruct (Z C2) as (ts' & nm & [= -> ->] & FT & MM & G). pose proof (expect_back V p2 TK_R_PAREN (proj2 C) ltac:(nokey)) as T3.
    destruct G as [G|(l & T & G)]. { exfalso. unfold pis, is in G. change (fst (p_s p2)) with (toks p2) in G. rewrite T3 in G. discriminate. }
    exists (l ++ [TKey TK_R_PAREN]). split; [rewrite T, T3, <- app_assoc; reflexivity|]. right. exists nm. split; [reflexivity|]. split; [exact FT|]. apply afd_some; [exact G|lia].
Qed.
End Declarator.
Lemma inner_back : forall f t p t' q, inner_declarator E note type_of tag_of correct enum_value f t p = Some (t', q) -> way p q /\ (clean p q -> exists l, toks p = l ++ toks q /\ afdecl false (table p) t l t' (table q)).
Proof.
  induction f as [|f IH]; intros t p t' q H; [discriminate|]. cbn [inner_declarator] in H. destruct (declarator_body _ _ _ _ _ _ _ false 2 t p) as [[[t1 d] p1]|] eqn:X; cbn [bind] in H; [|discriminate]. injection H as <- <-.
  apply (body_back _ IH) in X as (W & X); [|unfold range; lia]. split; [exact W|]. intros C. destruct (X C) as (l & T & [(_ & _ & G)|(nm & _ & (F & LV) & G)]); exists l; (split; [exact T|]); [apply G|].
  rewrite (LV eq_refl) in G. exact G.
Qed.
Lemma declarator_text t p t' d q : parse_function_declarator E note type_of tag_of correct enum_value t p = Some (t', d, q) -> way p q /\ (clean p q ->
  (exists l, toks p = l ++ toks q /\ ((d = Some 0 /\ t' = CFunction t [] /\ forall named, afdecl named (table p) t l t' (table q)) \/
    exists named, d = Some (fd_of named) /\ afdecl named (table p) t l t' (table q)))).
Proof.
  intros H. unfold parse_function_declarator in H. apply (body_back _ (inner_back _)) in H as (W & H); [|unfold range; lia]. split; [exact W|]. intros C. destruct (H C) as (l & T & G). exists l. split; [exact T|].
  destruct G as [G|(nm & D & _ & G)]; [left; exact G|right]. exists nm. split; [exact D|exact G].
Qed.

(** ** Functions *)
Variables enter leave : E -> E.
Variable constant : E -> expr -> bool.
Variable is_main : E -> Z -> bool.
Variable main_parameter : ctype -> bool.
Variable skipped : E -> Z -> ctype -> bool.
Hypothesis skipped_reported : forall env name t u env', says env (NFunction name t 1) u env' -> skipped env' name t = true -> snd (note env' (NBody name t)) <> 0%nat.
Notation asitems := (asitems E decl enter leave adectext correct constant).
Notation axtext := (axtext E note type_of tag_of correct enum_value enter leave constant is_main main_parameter skipped).
Notation axlist := (axlist E note type_of tag_of correct enum_value enter leave constant is_main main_parameter skipped).
Notation aextext := (aextext E note type_of tag_of correct enum_value enter leave constant is_main main_parameter skipped).
Notation aptext := (aptext E note type_of tag_of correct enum_value enter leave constant is_main main_parameter skipped).
Notation fdef := (parse_function_definition E note type_of tag_of correct enum_value enter leave constant skipped).
Notation fdecl := (parse_function_declaration E note type_of tag_of correct enum_value enter leave constant is_main main_parameter skipped).
Notation exts := (parse_externals E note type_of tag_of correct enum_value enter leave constant is_main main_parameter skipped).
Notation ext := (parse_external_definition E note type_of tag_of correct enum_value enter leave constant is_main main_parameter skipped).
Notation unit_ := (parse_translation_unit E note type_of tag_of correct enum_value enter leave constant is_main main_parameter skipped).

Lemma skip_body_back p x q : skip_body E p = Some (x, q) -> way p q.
Proof. clear. unfold skip_body. destruct (pskip_to E _ _ p) as [r|] eqn:X; cbn [bind]; [|discriminate]. intros [= <- <-]. eapply way_skip_to. exact X. Qed.
Lemma way_no_return p : way p (no_return E p).
Proof. clear. apply way_env; [reflexivity|cbn; lia|reflexivity|reflexivity]. Qed.
Lemma noted_return x p : p_return (noted E note x p) = p_return p.
Proof. clear. unfold noted, enters. destruct (note _ x) as [[? ?] ?]. reflexivity. Qed.
Lemma main_pos r t d : 0 <= main_errors main_parameter r t d.
Proof.
  clear. unfold main_errors. assert (0 <= match r with CInteger | CVoid => 0 | _ => 1 end) by (destruct r; lia). assert (0 <= (if d =? 1 then 0 else 1)) by (destruct (d =? 1); lia).
  assert (0 <= match t with CFunction _ [] => 0 | CFunction _ [x] => if main_parameter x then 0 else 1 | CFunction _ _ => 1 | _ => 0 end); [|lia].
  destruct t as [| | | | | | | | | |? [|? [|? ?]]|]; try lia. destruct (main_parameter _); lia.
Qed.
Definition says_body (env : E) (name : Z) (t result : ctype) (body : option (stmt decl)) (l : list tok) (env' : E) : Prop :=
  exists xs b u env4 env5 u', body = Some (SBlock xs) /\ l = TKey TK_L_BRACE :: b ++ [TKey TK_R_BRACE] /\ skipped env name t = false /\ says env (NBody name t) u env4 /\ asitems env4 xs b env5 /\
    jumps_ok false false (SBlock xs) = true /\ (is_void result = true \/ has_return (SBlock xs) = true) /\ says env5 NLeave u' env'.
Lemma definition_back name t result p body q : pis V p TK_L_BRACE = true -> p_loop p = false -> p_switch p = false -> (skipped (table p) name t = true -> snd (note (table p) (NBody name t)) <> 0%nat) ->
  fdef name t result p = Some (body, q) -> way p q /\ (clean p q -> exists l, toks p = l ++ toks q /\ says_body (table p) name t result body l (table q)).
Proof.
  intros K LP SW SK H. unfold parse_function_definition in H. destruct (skipped (table p) name t) eqn:SKP.
  { apply skip_body_back in H. pose proof (way_noted E note (NBody name t) p) as (W1 & _ & _ & N1). split; [ways|]. intros C. exfalso. cut C (noted E note (NBody name t) p) C1. destruct (N1 C1) as (u & U). apply SK; [reflexivity|].
    unfold DeclSpec.says in U. rewrite U. reflexivity. }
  pose proof (way_no_return p) as W1. pose proof (way_noted E note (NBody name t) (no_return E p)) as (W2 & T2 & _ & N2). set (p2 := noted E note (NBody name t) (no_return E p)) in *.
  assert (RT: p_return p2 = false) by (unfold p2; rewrite noted_return; reflexivity). assert (K2: pis V p2 TK_L_BRACE = true) by (rewrite (pis_toks _ _ TK_L_BRACE T2); exact K). assert (LP2: p_loop p2 = false) by (rewrite (proj1 (proj2 (proj2 W2))); exact LP). assert (SW2: p_switch p2 = false) by (rewrite (proj2 (proj2 (proj2 W2))); exact SW).
  change (toks (no_return E p)) with (toks p) in T2. change (table (no_return E p)) with (table p) in N2. clearbody p2.
  match type of H with bind ?a _ = _ => destruct a as [[x p3]|] eqn:X; cbn [bind] in H; [|discriminate] end. injection H as <- <-.
  apply (AcceptBlocks.body_text E note type_of tag_of correct enum_value enter leave constant type_known tag_known note_known _ _ _ _ K2) in X as (F3 & L3 & LP3 & SW3 & J3 & X).
  assert (W3: way p2 p3) by (split; [exact F3|]; split; [exact L3|]; split; [exact LP3|exact SW3]).
  set (p4 := if negb (is_void result) && negb (p_return p3) then perror V p3 else p3) in *. assert (W4: way p3 p4) by (unfold p4; ways). pose proof (way_noted E note NLeave p4) as (W5 & T5 & _ & N5).
  set (p5 := noted E note NLeave p4) in *. split; [ways|]. intros C. cut C p4 C4. cut C4 p3 C3. cut C3 p2 C2. cut C2 (no_return E p) C1. destruct (N2 C2) as (u & U). destruct (N5 C) as (u' & U'). destruct (X (proj1 C3) (proj2 C3)) as (xs & b & -> & T3 & G & R3).
  rewrite RT in R3. cbn [orb] in R3. rewrite LP2, SW2 in J3.
  assert (E4: p4 = p3 /\ (is_void result = true \/ has_return (SBlock xs) = true)).
  { unfold p4 in C4 |- *. rewrite <- R3. destruct (negb (is_void result) && negb (p_return p3)) eqn:B; [exfalso; exact (clean_error _ p3 p3 _ (way_refl _ _) (way_refl _ _) C4)|]. split; [reflexivity|]. destruct (is_void result); [left; reflexivity|right]. destruct (p_return p3); [reflexivity|discriminate]. }
  destruct E4 as (E4 & VR). clearbody p5. clearbody p4. subst p4. exists (TKey TK_L_BRACE :: b ++ [TKey TK_R_BRACE]). split; [rewrite <- T2, T3, T5; cbn [app]; rewrite <- app_assoc; reflexivity|].
  exists xs, b, u, (table p2), (table p3), u'. split; [reflexivity|]. split; [reflexivity|]. split; [exact SKP|]. split; [exact U|]. split; [exact G|]. split; [exact J3|]. split; [exact VR|exact U'].
Qed.
Lemma main_good r ts d : main_errors main_parameter r (CFunction r ts) d = 0 -> d = 1 /\ good_main main_parameter r (CFunction r ts).
Proof.
  clear. intros H. unfold main_errors in H. assert (A: (r = CInteger \/ r = CVoid) /\ 0 <= match r with CInteger | CVoid => 0 | _ => 1 end \/ match r with CInteger | CVoid => 0 | _ => 1 end = 1) by (destruct r; auto; left; split; auto; lia).
  destruct (d =? 1) eqn:D; destruct ts as [|x [|y ts]]; try destruct (main_parameter x) eqn:M; destruct A as [(A & B)|A]; try lia; (split; [lia|]); (split; [exact A|]); [left; reflexivity|right; exists x; auto].
Qed.
Lemma afdecl_function named env result l t env' : afdecl named env result l t env' -> exists ts, t = CFunction result ts.
Proof. clear. intros H. destruct H; eexists; reflexivity. Qed.
Definition is_function (x : external) (d : Z) : Prop := exists name t body, x = XFunction name t d body.
Lemma function_back fd group star p name l x fd' q : toks p = TIdent name :: l -> cur l = TK_L_PAREN -> p_loop p = false -> p_switch p = false -> fdecl fd (pointed star group) p = Some (x, fd', q) -> way p q /\ (clean p q ->
  exists m, toks p = m ++ toks q /\ axtext group (table p) (stars star false ++ m) x (table q) /\ is_function x fd').
Proof.
  intros T0 CU LP SW H. unfold parse_function_declaration in H. set (p1 := if is_const (pointed star group) then perror V p else p) in *. assert (W1: way p p1) by (unfold p1; ways).
  assert (T1: toks p1 = TIdent name :: l) by (unfold p1; destruct (is_const _); exact T0). assert (A1: p_env p1 = p_env p) by (unfold p1; destruct (is_const _); reflexivity). rewrite T1 in H.
  pose proof (ident_back _ _ _ _ T1) as T2. set (p2 := pconsume V p1) in *. assert (W2: way p1 p2) by (unfold p2; ways). assert (L2: toks p2 = l) by congruence.
  assert (K2: pis V p2 TK_L_PAREN = true) by (unfold pis, is; change (fst (p_s p2)) with (toks p2); rewrite L2, CU; reflexivity). apply consume_back in K2 as T3; [|nokey]. set (p3 := pconsume V p2) in *. assert (W3: way p2 p3) by (unfold p3; ways).
  assert (TB3: table p3 = table p) by (change (table p3) with (table p1); unfold DeclModel.table; rewrite A1; reflexivity).
  destruct (parse_function_declarator _ _ _ _ _ _ _ p3) as [[[t d] p4]|] eqn:X; cbn [bind] in H; [|discriminate]. apply declarator_text in X as (W4 & X). set (fd1 := match d with Some d => d | None => fd end) in *.
  set (fd2 := if fd1 =? 0 then if pis V p4 TK_L_BRACE then 1 else 2 else fd1) in *. set (p5 := if is_main (table p4) name then with_s V p4 (fst (p_s p4), errs p4 + main_errors main_parameter (pointed star group) t fd2) else p4) in *.
  assert (W5: way p4 p5). { unfold p5. destruct (is_main _ _); [|ways]. pose proof (main_pos (pointed star group) t fd2). apply way_env; [reflexivity|cbn; lia|reflexivity|reflexivity]. }
  pose proof (way_noted E note (NFunction name t fd2) p5) as (W6 & T6 & _ & N6). set (p6 := noted E note (NFunction name t fd2) p5) in *. assert (W06: way p p6) by ways.
  assert (T5: toks p5 = toks p4) by (unfold p5; destruct (is_main _ _); reflexivity). assert (TB5: table p5 = table p4) by (unfold p5; destruct (is_main _ _); reflexivity).
  match type of H with bind ?a _ = _ => destruct a as [[body p7]|] eqn:Y; cbn [bind] in H; [|discriminate] end. injection H as <- <- <-.
  assert (HEAD: clean p p6 -> is_const (pointed star group) = false /\ exists r u, l = TKey TK_L_PAREN :: r ++ toks p6 /\ afdecl (fd2 =? 1) (table p) (pointed star group) r t (table p4) /\ says (table p4) (NFunction name t fd2) u (table p6) /\
    (fd2 = 1 \/ fd2 = 2) /\ (is_main (table p4) name = true -> fd2 = 1 /\ good_main main_parameter (pointed star group) t)).
  { intros C. cut C p5 C5. cut C5 p4 C4. cut C4 p3 C3. cut C3 p2 C2. cut C2 p1 C1. split.
    { unfold p1 in C1. destruct (is_const _); [exfalso; exact (clean_error _ p p _ (way_refl _ _) (way_refl _ _) C1)|reflexivity]. }
    destruct (X C4) as (r & T4 & G). destruct (N6 C) as (u & U). exists r, u. split; [rewrite <- L2, T3, T4, T6, T5; reflexivity|]. rewrite TB3 in G. rewrite TB5 in U.
    assert (G': (fd2 = 1 \/ fd2 = 2) /\ afdecl (fd2 =? 1) (table p) (pointed star group) r t (table p4)).
    { unfold fd2, fd1. destruct G as [(-> & _ & G)|(nm & -> & G)].
      - change (0 =? 0) with true. cbn iota. destruct (pis V p4 TK_L_BRACE); split; auto; apply G.
      - destruct nm; split; auto; exact G. }
    destruct G' as (F2 & G'). split; [exact G'|]. split; [exact U|]. split; [exact F2|]. intros MN. destruct (afdecl_function _ _ _ _ _ _ G') as (ts & ->). apply main_good.
    unfold p5 in C5. rewrite MN in C5. destruct C5 as (_ & C5). cbn in C5. lia. }
  assert (LP6: p_loop p6 = false /\ p_switch p6 = false) by (destruct W06 as (_ & _ & A & B); rewrite A, B; split; assumption). destruct LP6 as (LP6 & SW6).
  destruct (pis V p6 TK_L_BRACE) eqn:K6.
  - destruct (fd2 =? 1) eqn:F2.
    2:{ apply skip_body_back in Y. assert (way p6 p7) by (apply (way_trans _ _ (perror V p6)); ways). split; [ways|]. intros C. exfalso. refine (clean_error _ p p6 p7 W06 Y C). }
    assert (FD: fd2 = 1) by lia.
    assert (SK: clean p p6 -> skipped (table p6) name t = true -> snd (note (table p6) (NBody name t)) <> 0%nat).
    { intros C. destruct (HEAD C) as (_ & r & u & _ & _ & U & _). rewrite FD in U. eapply skipped_reported. exact U. }
    assert (D: way p6 p7 /\ (clean p p6 -> clean p6 p7 -> exists l, toks p6 = l ++ toks p7 /\ says_body (table p6) name t (pointed star group) body l (table p7))).
    { destruct (skipped (table p6) name t) eqn:SKP.
      - assert (way p6 p7). { unfold parse_function_definition in Y. rewrite SKP in Y. apply skip_body_back in Y. pose proof (way_noted E note (NBody name t) p6) as (WN & _). ways. }
        split; [assumption|]. intros C C'. exact (proj2 (definition_back _ _ _ _ _ _ K6 LP6 SW6 ltac:(rewrite SKP; exact (SK C)) Y) C').
      - destruct (definition_back _ _ _ _ _ _ K6 LP6 SW6 ltac:(rewrite SKP; discriminate) Y) as (A & B). split; [exact A|]. intros _ C. exact (B C). }
    destruct D as (W7 & D). split; [ways|]. intros C. cut C p6 C6. destruct (HEAD C6) as (NC & r & u & L & G & U & _ & MN). destruct (D C6 C) as (m & T7 & xs & b & u1 & env4 & env5 & u2 & -> & -> & SKP & UB & GB & J & VR & UL).
    exists (TIdent name :: TKey TK_L_PAREN :: r ++ TKey TK_L_BRACE :: b ++ [TKey TK_R_BRACE]). split; [rewrite T0, L, T7; cbn [app]; rewrite <- !app_assoc; cbn [app]; rewrite <- !app_assoc; reflexivity|]. rewrite FD in U |- *. split; [|do 3 eexists; reflexivity].
    eapply ax_function; [exact NC|exact G|intros M; apply MN; exact M|exact U|exact SKP|exact UB|exact GB|exact J|exact VR|exact UL].
  - destruct (fd2 =? 1) eqn:F2.
    { injection Y as <- <-. destruct (ptry V (perror V p6) TK_SEMICOLON) as [b r] eqn:Z. apply way_try in Z. cbn [snd] in *. assert (way p6 r) by (apply (way_trans _ _ (perror V p6)); ways). split; [ways|]. intros C. exfalso. refine (clean_error _ p p6 r W06 Z C). }
    injection Y as <- <-. split; [exact W06|]. intros C. destruct (HEAD C) as (NC & r & u & L & G & U & FF & MN). assert (FD: fd2 = 2) by lia. exists (TIdent name :: TKey TK_L_PAREN :: r). split; [rewrite T0, L; reflexivity|]. rewrite FD in U |- *.
    split; [|do 3 eexists; reflexivity]. eapply ax_prototype; [exact NC|exact G| |exact U]. destruct (is_main (table p4) name); [|reflexivity]. destruct (MN eq_refl); lia.
Qed.

(** ** Programs *)
Lemma starless env t l d env' : adtext env t l d env' -> forall name rest r, l ++ r = TIdent name :: rest -> dr_star d = false.
Proof. clear. intros H name rest r L. destruct H as [star const nm b bs i init dr u env' SC B I -> U]. destruct star; [discriminate|reflexivity]. Qed.
Lemma is_function_last x d b xs : is_function x d -> body_last b (x :: xs) = body_last (d =? 1) xs.
Proof. clear. intros (name & t & body & ->). reflexivity. Qed.
Lemma externals_back group : forall f fd p xs fd' q, p_loop p = false -> p_switch p = false -> exts f fd group p = Some (xs, fd', q) -> way p q /\ (clean p q ->
  exists l, toks p = l ++ toks q /\ axlist group (table p) l xs (table q) /\ (fd' =? 1) = body_last (fd =? 1) xs).
Proof.
  induction f as [|f IH]; intros fd p xs fd' q LP SW H; [discriminate|]. cbn [parse_externals] in H. destruct (ptry V p TK_STAR) as [star p1] eqn:S0. pose proof (way_try _ _ _ _ _ S0) as W1. pose proof (try_back _ _ _ _ _ S0 ltac:(nokey)) as (A1 & _ & _ & T1 & N1).
  change (if star then CPointer group else group) with (pointed star group) in H.
  assert (TS: toks p = stars star false ++ toks p1) by (destruct star; [apply T1; reflexivity|destruct (N1 eq_refl) as (-> & _); reflexivity]). assert (TB1: table p1 = table p) by (unfold DeclModel.table; rewrite A1; reflexivity).
  assert (LP1: p_loop p1 = false) by (rewrite (proj1 (proj2 (proj2 W1))); exact LP). assert (SW1: p_switch p1 = false) by (rewrite (proj2 (proj2 (proj2 W1))); exact SW).
  match type of H with bind ?a _ = _ => destruct a as [[[x fd1] p2]|] eqn:X; cbn [bind] in H; [|discriminate] end.
  assert (ONE: way p p2 /\ (clean p p2 -> exists l, toks p = l ++ toks p2 /\ axtext group (table p) l x (table p2) /\ (forall r, body_last (fd =? 1) (x :: r) = body_last (fd1 =? 1) r))).
  { clear H IH. assert (NO: (do p0 <- pskip V (Z.lor TK_COMMA TK_SEMICOLON) (perror V p1); Some (XBroken, fd, p0)) = Some (x, fd1, p2) -> way p p2 /\ (clean p p2 -> exists l, toks p = l ++ toks p2 /\ axtext group (table p) l x (table p2) /\ (forall r, body_last (fd =? 1) (x :: r) = body_last (fd1 =? 1) r))).
    { destruct (pskip V _ (perror V p1)) as [p0|] eqn:Z; cbn [bind]; [|discriminate]. intros [= <- <- <-]. apply way_skip in Z. assert (way p1 p0) by (apply (way_trans _ _ (perror V p1)); ways). split; [ways|]. intros C. exfalso. exact (clean_error _ p p1 p0 W1 Z C). }
    destruct (toks p1) as [|[name| | | | |] l0] eqn:T0; try exact (NO X). clear NO. destruct (cur l0 =? TK_L_PAREN) eqn:CU.
    - apply (function_back _ _ _ _ _ _ _ _ _ T0) in X as (W2 & X); [|lia|assumption|assumption]. split; [ways|]. intros C. cut C p1 C1. destruct (X C) as (m & T & G & IF). exists (stars star false ++ m).
      split; [rewrite TS, <- T0, T, <- app_assoc; reflexivity|]. split; [rewrite <- TB1; exact G|]. intros r. apply is_function_last. exact IF.
    - destruct (is_void group) eqn:VD.
      { injection X as <- <- <-. split; [ways|]. intros C. exfalso. refine (clean_error _ p p1 _ W1 _ C). ways. }
      destruct (parse_init_declarator _ _ _ _ p1) as [[d p3]|] eqn:Z; cbn [bind] in X; [|discriminate]. injection X as <- <- <-. apply declarator_back in Z as (W2 & _ & Z). split; [ways|]. intros C. cut C p1 C1. destruct (Z C) as (l & dr & -> & T & G).
      exists (stars star false ++ l). split; [rewrite TS, <- T0, T, <- app_assoc; reflexivity|]. split; [|reflexivity]. rewrite <- TB1. apply ax_variable; [exact VD|exact G|]. eapply starless; [exact G|rewrite <- T; exact T0]. }
  destruct ONE as (W2 & ONE). clear X. assert (LP2: p_loop p2 = false) by (rewrite (proj1 (proj2 (proj2 W2))); exact LP). assert (SW2: p_switch p2 = false) by (rewrite (proj2 (proj2 (proj2 W2))); exact SW).
  clear S0 W1 A1 T1 N1 TS TB1 LP1 SW1. destruct (ptry V p2 TK_COMMA) as [b p3] eqn:Y. pose proof (way_try _ _ _ _ _ Y) as W3. pose proof (try_back _ _ _ _ _ Y ltac:(nokey)) as (A3 & _ & _ & T3 & N3).
  assert (LP3: p_loop p3 = false) by (rewrite (proj1 (proj2 (proj2 W3))); exact LP2). assert (SW3: p_switch p3 = false) by (rewrite (proj2 (proj2 (proj2 W3))); exact SW2). destruct b.
  - match type of H with bind ?a _ = _ => destruct a as [[[ys fd2] p4]|] eqn:Z; cbn [bind] in H; [|discriminate] end. injection H as <- <- <-. apply IH in Z as (W4 & Z); [|assumption|assumption]. split; [ways|]. intros C. cut C p3 C3. cut C3 p2 C2.
    destruct (ONE C2) as (l & T & G & BL). destruct (Z C) as (r & T4 & G4 & B4). exists (l ++ TKey TK_COMMA :: r). split; [rewrite T, T3, T4 by reflexivity; rewrite <- app_assoc; reflexivity|].
    split; [eapply axl_more; [exact G|]; unfold DeclModel.table in *; rewrite A3 in G4; exact G4|]. rewrite BL. exact B4.
  - destruct (N3 eq_refl) as (-> & _). injection H as <- <- <-. split; [exact W2|]. intros C. destruct (ONE C) as (l & T & G & BL). exists l. split; [exact T|]. split; [apply axl_one; exact G|]. rewrite BL. reflexivity.
Qed.
Lemma typedef_defines td env l t made d env' : atspec td env l t made d env' -> td = true -> d = true.
Proof. clear. induction 1; intros; auto; discriminate. Qed.
Lemma external_definition_back p xs q : p_loop p = false -> p_switch p = false -> ext p = Some (xs, q) -> way p q /\ (clean p q -> exists l, toks p = l ++ toks q /\ aextext (table p) l xs (table q)).
Proof.
  intros LP SW H. unfold parse_external_definition in H. set (p0 := type_defined E p false) in *. assert (W0: way p p0) by (unfold p0; ways). destruct (specifier _ _ _ _ _ _ p0) as [[[t made] p1]|] eqn:X; cbn [bind] in H; [|discriminate].
  unfold specifier in X. apply (specifier_back E note type_of tag_of correct enum_value type_known tag_known note_known) in X. destruct X as (W1 & X). assert (W01: way p p1) by ways.
  change (toks p0) with (toks p) in X. change (table p0) with (table p) in X. change (tdef p0) with false in X. assert (C0: clean p p1 -> clean p0 p1) by (intros (A & B); split; [exact A|exact B]).
  assert (LP1: p_loop p1 = false) by (rewrite (proj1 (proj2 (proj2 W01))); exact LP). assert (SW1: p_switch p1 = false) by (rewrite (proj2 (proj2 (proj2 W01))); exact SW).
  destruct (if tdef p1 then ptry V p1 TK_SEMICOLON else (false, p1)) as [b p2] eqn:Y. destruct b.
  - injection H as <- <-. destruct (tdef p1) eqn:TD; [|discriminate]. pose proof (way_try _ _ _ _ _ Y) as W2. apply try_toks in Y as (T2 & A2); [|nokey]. split; [ways|]. intros C. cut C p1 C1.
    destruct (X (C0 C1)) as (_ & l & d & td & T & G & D & _). cbn [orb] in D. subst d. exists (l ++ [TKey TK_SEMICOLON]). split; [rewrite T, T2, <- app_assoc; reflexivity|]. unfold DeclModel.table. rewrite A2. eapply aex_types. exact G.
  - match type of H with bind ?a _ = _ => destruct a as [[[ys fd] p3]|] eqn:Z; cbn [bind] in H; [|discriminate] end. injection H as <- <-. apply externals_back in Z as (W3 & Z); [|assumption|assumption].
    assert (TD: clean p p1 -> exists l d, toks p = l ++ toks p1 /\ atspec false (table p) l t made d (table p1)).
    { intros C. destruct (X (C0 C)) as (_ & l & d & td & T & G & D & SM). destruct td; [|exists l, d; split; [exact T|exact G]]. exfalso. apply typedef_defines in G as ->; [|reflexivity]. cbn [orb] in D. rewrite D in Y. unfold ptry in Y. rewrite (SM eq_refl) in Y. discriminate. }
    destruct (fd =? 1) eqn:FD.
    + split; [ways|]. intros C. cut C p1 C1. destruct (TD C1) as (l & d & T & G). destruct (Z C) as (r & T3 & G3 & B). exists (l ++ r ++ if body_last false ys then [] else [TKey TK_SEMICOLON]).
      split; [|eapply aex_list; [exact G|exact G3]]. change (3 =? 1) with false in B. rewrite <- B. rewrite T, T3, app_nil_r, app_assoc. reflexivity.
    + assert (W4: way p3 (pexpect V p3 TK_SEMICOLON)) by ways. split; [ways|]. intros C. cut C p3 C3. cut C3 p1 C1. destruct (TD C1) as (l & d & T & G). destruct (Z C3) as (r & T3 & G3 & B). pose proof (expect_back V p3 TK_SEMICOLON (proj2 C) ltac:(nokey)) as T4.
      exists (l ++ r ++ if body_last false ys then [] else [TKey TK_SEMICOLON]). split; [|eapply aex_list; [exact G|exact G3]]. change (3 =? 1) with false in B. rewrite <- B. rewrite T, T3, T4, <- !app_assoc. reflexivity.
Qed.
Lemma unit_back : forall f p xs q, p_loop p = false -> p_switch p = false -> unit_ f p = Some (xs, q) -> way p q /\ cur (toks q) = TK_EOF /\ (clean p q -> exists l, toks p = l ++ toks q /\ aptext (table p) l xs (table q)).
Proof.
  induction f as [|f IH]; intros p xs q LP SW H; [discriminate|]. cbn [parse_translation_unit] in H. destruct (ext p) as [[ys p1]|] eqn:X; cbn [bind] in H; [|discriminate]. apply external_definition_back in X as (W1 & X); [|assumption|assumption].
  destruct (pis V p1 TK_EOF) eqn:K.
  - injection H as <- <-. split; [exact W1|]. split; [unfold pis, is in K; change (fst (p_s p1)) with (toks p1) in K; lia|]. intros C. destruct (X C) as (l & T & G). exists l. split; [exact T|apply apt_one; exact G].
  - destruct (unit_ f p1) as [[zs p2]|] eqn:Z; cbn [bind] in H; [|discriminate]. injection H as <- <-. assert (LP1: p_loop p1 = false) by (rewrite (proj1 (proj2 (proj2 W1))); exact LP). assert (SW1: p_switch p1 = false) by (rewrite (proj2 (proj2 (proj2 W1))); exact SW).
    apply IH in Z as (W2 & EO & Z); [|assumption|assumption]. split; [ways|]. split; [exact EO|]. intros C. cut C p1 C1. destruct (X C1) as (l & T & G). destruct (Z C) as (r & T2 & G2). exists (l ++ r). split; [rewrite T, T2, app_assoc; reflexivity|].
    eapply apt_more; [exact G|exact G2].
Qed.
End B.

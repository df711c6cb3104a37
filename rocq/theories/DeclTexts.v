(** The texts of declarations are read as what they say. *)
From Verif Require Import Prelude LexModel ParseModel ParseSpec ParseFuel ParseProofs ParseBack ParseSkip StmtModel StmtSpec StmtProofs StmtTexts DeclModel DeclSpec.

Section T.
Variable E : Type.
Variable note : E -> entry -> ctype * E * nat.
Variables type_of tag_of : E -> Z -> option ctype.
Variable correct : E -> expr -> bool.
Variable enum_value : E -> ctype -> expr -> option (Z * bool).
Notation V := (denv E).
Notation P := (ps V).
Variable fl : option fault.
Variables lo sw re : bool.
Notation spec := (parse_type_specifier E note type_of tag_of correct enum_value).
Notation says := (says E note).
Notation btext := (btext E correct).
Notation etext := (etext E note enum_value).
Notation tspec := (tspec E note type_of tag_of correct enum_value).
Notation mtext := (mtext E note type_of tag_of correct enum_value).
Notation dtext := (dtext E note correct).
Notation dlist := (dlist E note correct).
Definition at_ (l : list tok) (n : Z) (env : E) (td : bool) : P := mkPs (l, n) (mkDenv env td fl) lo sw re.
Lemma toks_at l n e d : toks V (at_ l n e d) = l.
Proof. reflexivity. Qed.
Lemma pis_at l n e d k : pis V (at_ l n e d) k = (cur l =? k).
Proof. reflexivity. Qed.
Lemma consume_at x l n e d : pconsume V (at_ (x :: l) n e d) = at_ l n e d.
Proof. reflexivity. Qed.
Lemma try_yes k l n e d : ptry V (at_ (TKey k :: l) n e d) k = (true, at_ l n e d).
Proof. unfold ptry. rewrite pis_at. cbn [cur kind]. rewrite Z.eqb_refl. reflexivity. Qed.
Lemma try_no k l n e d : cur l <> k -> ptry V (at_ l n e d) k = (false, at_ l n e d).
Proof. intros H. unfold ptry. rewrite pis_at. destruct (Z.eqb_spec (cur l) k); [contradiction|reflexivity]. Qed.
Lemma expect_at k l n e d : pexpect V (at_ (TKey k :: l) n e d) k = at_ l n e d.
Proof. unfold pexpect, expect_and_consume, is. cbn [at_ p_s fst cur kind]. rewrite Z.eqb_refl. reflexivity. Qed.
Lemma enters_at env x t env' l n d : says env x t env' -> enters E note x (at_ l n env d) = (t, at_ l n env' d).
Proof. unfold DeclSpec.says, enters, table. cbn [at_ p_env v_env]. intros ->. unfold with_s, with_table, with_env, at_. cbn [p_s p_env v_env v_type_def v_fault p_loop p_switch p_return fst snd Z.of_nat]. rewrite Z.add_0_r. reflexivity. Qed.
Lemma noted_at env x t env' l n d : says env x t env' -> noted E note x (at_ l n env d) = at_ l n env' d.
Proof. intros H. unfold noted. rewrite (enters_at _ _ _ _ _ _ _ H). reflexivity. Qed.
Lemma defined_at l n e d b : type_defined E (at_ l n e d) b = at_ l n e b.
Proof. reflexivity. Qed.
Lemma star_at star const rest n e d : (const = true -> star = true) -> cur rest <> TK_STAR -> cur rest <> TK_CONST -> star_const E (at_ (stars star const ++ rest) n e d) = (star, const, at_ rest n e d).
Proof.
  intros H N1 N2. unfold star_const, stars. destruct star; cbn [app].
  - rewrite try_yes. destruct const; cbn [app]; [rewrite try_yes|rewrite try_no by exact N2]; reflexivity.
  - rewrite try_no by exact N1. destruct const; [discriminate (H eq_refl)|reflexivity].
Qed.
Lemma gram_starts e t : gram 1 e t -> cur t <> TK_R_SQUARE /\ t <> [].
Proof.
  intros G. apply gram_agram in G. apply grammar in G as (_ & S & _). destruct t as [|[] l]; [destruct S|..]; cbn [starts cur kind] in *; (split; [|discriminate]); try discriminate.
  intros ->. destruct S as [S|[S|[S|[S|[[_ S]|(_ & S & _)]]]]]; discriminate.
Qed.
Lemma read_at e t rest n env d : gram 1 e t -> correct env e = true -> ends_expression rest -> read_expression V (v_correct E correct) (at_ (t ++ rest) n env d) = Some (e, true, at_ rest n env d).
Proof. intros G C R. exact (read_gram V (v_correct E correct) e t rest n (mkDenv env d fl) lo sw re G C R). Qed.
Lemma bounds_at empty T1 env : forall b bs, btext empty env b bs -> forall rest n d f, (length (b ++ rest) < f)%nat -> cur rest <> TK_L_SQUARE ->
  parse_bounds E correct f empty T1 (at_ (b ++ rest) n env d) = Some (bs, at_ rest n env d).
Proof.
  induction 1 as [|l bs Q _ IH|e t l bs G C _ IH]; intros rest n d f L N; (destruct f as [|f]; [lia|]); cbn [parse_bounds app].
  - rewrite try_no by exact N. reflexivity.
  - rewrite try_yes. cbn [negb]. rewrite try_yes. subst empty. rewrite IH; [reflexivity|cbn [app length] in L; lia|exact N].
  - rewrite try_yes. cbn [negb]. destruct (gram_starts e t G) as [S NE]. rewrite <- app_assoc. cbn [app]. rewrite try_no by (destruct t; [contradiction|exact S]).
    rewrite (read_at e t (TKey TK_R_SQUARE :: l ++ rest)); [|exact G|exact C|right; right; left; reflexivity]. cbn [bind negb]. rewrite try_yes. cbn [bind].
    rewrite IH; [reflexivity| |exact N]. cbn [app length] in L. rewrite !app_length in L. cbn [length] in L. rewrite app_length. lia.
Qed.
Lemma btext_cur empty env b bs rest : btext empty env b bs -> cur (b ++ rest) = cur rest \/ cur (b ++ rest) = TK_L_SQUARE.
Proof. destruct 1; auto. Qed.

(** ** Enumerators *)
Lemma enum_end k l : k = TK_COMMA \/ k = TK_R_BRACE -> follow 3 (TKey k :: l).
Proof. intros [->| ->]; [apply (follow_key _ _ _ 1); [reflexivity|reflexivity|lia]|apply follow_end; [auto|lia]]. Qed.
Notation enumerators := (parse_enumerators E note enum_value).
Lemma enumerator_at env ty value l name v env' : enumerator E note enum_value env ty value l name v env' -> v <> LLONG_MAX -> forall k rest n d f md, k = TK_COMMA \/ k = TK_R_BRACE -> md + 1 < 100 ->
  enumerators (S f) ty md value (at_ (l ++ TKey k :: rest) n env d) =
    (do ' (fs, p) <- (let '(closed, p) := ptry V (if k =? TK_R_BRACE then at_ (TKey k :: rest) n env' d else at_ rest n env' d) TK_R_BRACE in if closed then Some (Some [], p) else enumerators f ty (md + 2) (v + 1) p);
     Some (match fs with Some fs => Some ((v, name) :: fs) | None => None end, p)).
Proof.
  intros H NV k rest n d f md K M. cbn [parse_enumerators]. rewrite toks_at. destruct H as [name u env' SY|name e t v u env' G EV NI SY]; cbn [app]; rewrite consume_at, pis_at.
  - replace (cur (TKey k :: rest) =? TK_EQUAL) with false by (destruct K as [->| ->]; reflexivity). rewrite (noted_at _ _ _ _ _ _ _ SY). replace (value =? LLONG_MAX) with false by lia. replace (100 <=? md + 1) with false by lia. rewrite pis_at. cbn [cur kind].
    destruct K as [->| ->]; [|reflexivity]. change (TK_COMMA =? TK_R_BRACE) with false. cbn iota. rewrite expect_at. reflexivity.
  - change (cur (TKey TK_EQUAL :: t ++ TKey k :: rest) =? TK_EQUAL) with true. cbn iota. rewrite consume_at. rewrite toks_at. cbn [at_ p_s]. rewrite (const_gram e t (TKey k :: rest) n G (enum_end k rest K)). cbn [bind].
    change (table E (at_ (t ++ TKey k :: rest) n env d)) with env. rewrite EV. replace (v =? INT_MAX) with false by lia. cbn [orb negb].
    change (with_s V _ (built true (t ++ TKey k :: rest, n) (TKey k :: rest, n))) with (at_ (TKey k :: rest) n env d).
    rewrite (noted_at _ _ _ _ _ _ _ SY). replace (v =? LLONG_MAX) with false by lia. replace (100 <=? md + 1) with false by lia. rewrite pis_at. cbn [cur kind].
    destruct K as [->| ->]; [|reflexivity]. change (TK_COMMA =? TK_R_BRACE) with false. cbn iota. rewrite expect_at. reflexivity.
Qed.
Lemma enumerator_cur env ty value l name v env' : enumerator E note enum_value env ty value l name v env' -> exists r, l = TIdent name :: r.
Proof. destruct 1; eauto. Qed.
Lemma etext_cur ty env value l fs env' : etext ty env value l fs env' -> exists a r, l = TIdent a :: r.
Proof. intros H. destruct H as [? ? ? ? ? ? H3|? ? ? ? ? ? H3|? ? ? ? ? ? ? ? ? H3]; destruct (enumerator_cur _ _ _ _ _ _ _ H3) as [lx ->]; cbn [app]; eauto. Qed.
Lemma etext_at ty : forall env value l fs env', etext ty env value l fs env' -> forall rest n d f md, (length (l ++ TKey TK_R_BRACE :: rest) <= f)%nat -> md + 2 * Z.of_nat (length fs) <= 100 ->
  enumerators f ty md value (at_ (l ++ TKey TK_R_BRACE :: rest) n env d) = Some (Some fs, at_ rest n env' d).
Proof.
  induction 1 as [env value l name v env' H NV|env value l name v env' H NV|env value l name v env1 r fs env' H NV H2 IH]; intros rest n d f md L M; destruct (enumerator_cur _ _ _ _ _ _ _ H) as [l0 EQ]; (destruct f as [|f]; [rewrite EQ in L; cbn [app length] in L; lia|]).
  - rewrite (enumerator_at _ _ _ _ _ _ _ H NV); [|auto|cbn [length] in M; lia]. change (TK_R_BRACE =? TK_R_BRACE) with true. cbn iota. rewrite try_yes. reflexivity.
  - rewrite <- app_assoc. cbn [app]. rewrite (enumerator_at _ _ _ _ _ _ _ H NV); [|auto|cbn [length] in M; lia]. change (TK_COMMA =? TK_R_BRACE) with false. cbn iota. rewrite try_yes. reflexivity.
  - rewrite <- app_assoc. cbn [app]. rewrite (enumerator_at _ _ _ _ _ _ _ H NV); [|auto|cbn [length] in M; lia]. change (TK_COMMA =? TK_R_BRACE) with false. cbn iota.
    assert (C: cur (r ++ TKey TK_R_BRACE :: rest) <> TK_R_BRACE). { pose proof (etext_cur _ _ _ _ _ _ H2) as R. destruct R as (a & r0 & ->). discriminate. }
    rewrite try_no by exact C. rewrite IH; [reflexivity| |cbn [length] in M; lia]. rewrite <- app_assoc in L. rewrite app_length in L. cbn [app length] in L. lia.
Qed.
Lemma enum_list_at env ty env0 l fs env1 u env' rest n d : says env NEnumType ty env0 -> etext ty env0 0 l fs env1 -> (length fs <= 49)%nat -> says env1 (NEnumFields ty fs) u env' ->
  parse_enum_declaration_list E note enum_value (at_ (TKey TK_L_BRACE :: l ++ TKey TK_R_BRACE :: rest) n env d) = Some (ty, at_ rest n env' d).
Proof.
  intros S1 H LF S2. unfold parse_enum_declaration_list. rewrite consume_at. destruct (etext_cur _ _ _ _ _ _ H) as (a & r & EQ). rewrite try_no by (rewrite EQ; discriminate).
  rewrite (enters_at _ _ _ _ _ _ _ S1). rewrite (etext_at _ _ _ _ _ _ H); [|rewrite toks_at; lia|lia]. cbn [bind]. rewrite (noted_at _ _ _ _ _ _ _ S2). reflexivity.
Qed.

(** ** Specifiers *)
Definition claim_spec env l t (made dd : bool) env' : Prop := (l <> [] /\ cur l <> TK_COMMA /\ cur l <> TK_R_BRACE /\ cur l <> TK_SEMICOLON /\ cur l <> TK_EOF /\ declares V (v_type_name E type_of) (mkDenv env false None) l = true) /\
  forall rest n d f, cur rest <> TK_L_BRACE -> (length (l ++ rest) < f)%nat -> spec f (at_ (l ++ rest) n env d) = Some (t, made, at_ rest n env' (d || dd)).
Definition claim_members env l ms env' : Prop := forall rest n f h, (length (l ++ TKey TK_R_BRACE :: rest) < f)%nat -> (length (l ++ TKey TK_R_BRACE :: rest) < h)%nat ->
  parse_members E note correct (spec f) h (at_ (l ++ TKey TK_R_BRACE :: rest) n env true) = Some (map Some ms, at_ rest n env' true).
Lemma specs : (forall env l t made dd env', tspec env l t made dd env' -> claim_spec env l t made dd env') /\ (forall env l ms env', mtext env l ms env' -> claim_members env l ms env').
Proof.
  apply tspec_mutual.
  - (* basic *) intros env k t I. split.
    { unfold basic in I. cbn [In] in I. repeat match goal with H : _ \/ _ |- _ => destruct H as [H|H] end; try contradiction; injection I as <- <-; (split; [discriminate|]); (split; [discriminate|]); (split; [discriminate|]); (split; [discriminate|]); (split; [discriminate|]); reflexivity. }
    intros rest n d f _ L. destruct f as [|f]; [cbn [app length] in L; lia|]. rewrite orb_false_r. unfold basic in I. cbn [In] in I.
    repeat match goal with H : _ \/ _ |- _ => destruct H as [H|H] end; try contradiction; injection I as <- <-; reflexivity.
  - (* name *) intros env x t TO. split; [repeat split; try discriminate; unfold declares, v_type_name; cbn [v_env]; rewrite TO; reflexivity|].
    intros rest n d f _ L. destruct f as [|f]; [cbn [app length] in L; lia|]. rewrite orb_false_r. cbn [parse_type_specifier app]. rewrite toks_at. unfold table. cbn [at_ p_env v_env]. rewrite TO. reflexivity.
  - (* const *) intros env l t made dd env' _ [_ IH] U C. split; [repeat split; try discriminate; reflexivity|]. intros rest n d f N L. destruct f as [|f]; [cbn [app length] in L; lia|].
    change (spec (S f) (at_ ((TKey TK_CONST :: l) ++ rest) n env d)) with (parse_const E (spec f) (at_ (TKey TK_CONST :: l ++ rest) n env d)). unfold parse_const. rewrite consume_at. rewrite IH; [|exact N|cbn [app length] in L; lia].
    cbn [bind]. rewrite U, C. reflexivity.
  - (* struct tag *) intros env x t TO. split; [repeat split; try discriminate; reflexivity|]. intros rest n d f N L. destruct f as [|f]; [cbn [app length] in L; lia|]. rewrite orb_false_r.
    change (spec (S f) (at_ ([TKey TK_STRUCT; TIdent x] ++ rest) n env d)) with (parse_struct_specifier E note tag_of correct (spec f) (at_ (TKey TK_STRUCT :: TIdent x :: rest) n env d)). unfold parse_struct_specifier. rewrite consume_at, toks_at, consume_at, pis_at.
    replace (cur rest =? TK_L_BRACE) with false by lia. unfold table. cbn [at_ p_env v_env]. rewrite TO. reflexivity.
  - (* enum tag *) intros env x t TO. split; [repeat split; try discriminate; reflexivity|]. intros rest n d f N L. destruct f as [|f]; [cbn [app length] in L; lia|]. rewrite orb_false_r.
    change (spec (S f) (at_ ([TKey TK_ENUM; TIdent x] ++ rest) n env d)) with (parse_enum_specifier E note tag_of enum_value (at_ (TIdent x :: rest) n env d)). unfold parse_enum_specifier. rewrite toks_at, consume_at, pis_at.
    replace (cur rest =? TK_L_BRACE) with false by lia. unfold table. cbn [at_ p_env v_env]. rewrite TO. reflexivity.
  - (* struct *) intros env name l ms env1 t env' _ IH SY. split; [repeat split; try discriminate; reflexivity|]. intros rest n d f N L. destruct f as [|f]; [cbn [app length] in L; lia|]. rewrite orb_true_r.
    assert (D: parse_struct_declaration E note correct (spec f) name (at_ (TKey TK_L_BRACE :: l ++ TKey TK_R_BRACE :: rest) n env d) = Some (t, true, at_ rest n env' true)).
    { unfold parse_struct_declaration. rewrite defined_at, consume_at, toks_at. rewrite IH; [| |lia].
      - cbn [bind]. rewrite (enters_at _ _ _ _ _ _ _ SY). reflexivity.
      - cbn [app length] in L. rewrite <- app_assoc in L. cbn [app] in L. rewrite <- app_assoc in L. cbn [app] in L. rewrite app_length in L. cbn [length] in L. lia. }
    cbn [app]. rewrite <- app_assoc. cbn [app]. rewrite <- app_assoc. cbn [app].
    transitivity (parse_struct_specifier E note tag_of correct (spec f) (at_ (TKey TK_STRUCT :: tag name ++ TKey TK_L_BRACE :: l ++ TKey TK_R_BRACE :: rest) n env d)); [reflexivity|]. unfold parse_struct_specifier. rewrite consume_at, toks_at.
    destruct name as [name|]; cbn [tag app]; [rewrite consume_at|]; rewrite pis_at; exact D.
  - (* enum *) intros env ty env0 l fs env1 u env' S1 H LF S2. split; [repeat split; try discriminate; reflexivity|]. intros rest n d f N L. destruct f as [|f]; [cbn [app length] in L; lia|]. rewrite orb_true_r.
    cbn [app]. rewrite <- app_assoc. cbn [app]. transitivity (parse_enum_specifier E note tag_of enum_value (at_ (TKey TK_L_BRACE :: l ++ TKey TK_R_BRACE :: rest) n env d)); [reflexivity|]. unfold parse_enum_specifier. rewrite toks_at, pis_at. cbn [cur kind]. change (TK_L_BRACE =? TK_L_BRACE) with true. cbn iota.
    rewrite (enum_list_at _ _ _ _ _ _ _ _ rest n d S1 H LF S2). reflexivity.
  - (* enum with a name *) intros env ty env0 l fs env1 u env2 name t env' S1 H LF S2 S3. split; [repeat split; try discriminate; reflexivity|]. intros rest n d f N L. destruct f as [|f]; [cbn [app length] in L; lia|]. rewrite orb_true_r.
    cbn [app]. rewrite <- app_assoc. cbn [app]. transitivity (parse_enum_specifier E note tag_of enum_value (at_ (TIdent name :: TKey TK_L_BRACE :: l ++ TKey TK_R_BRACE :: rest) n env d)); [reflexivity|]. unfold parse_enum_specifier. rewrite toks_at, consume_at, pis_at. cbn [cur kind]. change (TK_L_BRACE =? TK_L_BRACE) with true. cbn iota.
    rewrite (enum_list_at _ _ _ _ _ _ _ _ rest n d S1 H LF S2). cbn [bind]. rewrite (enters_at _ _ _ _ _ _ _ S3). reflexivity.
  - (* no members *) intros env rest n f h Lf Lh. destruct h as [|h]; [lia|]. reflexivity.
  - (* a member *) intros env l t made dd env1 star const name b bs dr u env2 r ms env' _ [(NE & C1 & C2 & C3 & C4 & _) IH1] SC B DR SY _ IH2 rest n f h Lf Lh. destruct h as [|h]; [lia|]. cbn [parse_members map].
    set (R := r ++ TKey TK_R_BRACE :: rest) in *.
    assert (EQ: (l ++ stars star const ++ TIdent name :: b ++ TKey TK_SEMICOLON :: r) ++ TKey TK_R_BRACE :: rest = l ++ stars star const ++ TIdent name :: b ++ TKey TK_SEMICOLON :: R).
    { unfold R. rewrite <- !app_assoc. cbn [app]. rewrite <- app_assoc. reflexivity. } rewrite EQ in *.
    assert (CR: cur (l ++ stars star const ++ TIdent name :: b ++ TKey TK_SEMICOLON :: R) = cur l) by (destruct l; [contradiction|reflexivity]). rewrite !pis_at, CR. replace (cur l =? TK_R_BRACE) with false by lia. replace (cur l =? TK_EOF) with false by lia.
    unfold parse_member_declaration. rewrite IH1; [|destruct star; discriminate|exact Lf]. cbn [bind orb]. rewrite star_at; [|exact SC|discriminate|discriminate]. rewrite toks_at, consume_at, toks_at.
    rewrite (bounds_at false _ _ _ _ B); [|lia|discriminate]. cbn [bind]. rewrite expect_at. subst dr. rewrite (noted_at _ _ _ _ _ _ _ SY). cbn [bind].
    pose proof (IH2 rest n f h) as I2. fold R in I2. rewrite I2; [reflexivity| |]; clear I2 IH2 IH1 EQ CR; rewrite !app_length in *; cbn [length] in *; rewrite !app_length in *; cbn [length] in *; lia.
Qed.

(** ** Declarators *)
Lemma init_gram e t rest n : gram_init e t -> follow 2 rest -> parse_initializer (enough (t ++ rest)) (t ++ rest, n) = Some (e, (rest, n)).
Proof.
  intros G F. apply gram_agram in G. apply grammar in G as (_ & C). destruct (C rest n F) as [f X].
  destruct (total (enough (t ++ rest))) as (_ & _ & _ & _ & _ & _ & _ & _ & T1). destruct (T1 (t ++ rest, n)) as ([e2 s2] & Y & _); [unfold enough; cbn [fst]; lia|].
  apply (m_ini f (Nat.max f (enough (t ++ rest)))) in X; [|lia]. pose proof Y as Y'. apply (m_ini _ (Nat.max f (enough (t ++ rest)))) in Y'; [|lia]. rewrite X in Y'. injection Y' as <- <-. exact Y.
Qed.
Lemma comma_end k l : k = TK_COMMA \/ k = TK_SEMICOLON -> follow 2 (TKey k :: l).
Proof. intros [->| ->]; [apply (follow_key _ _ _ 1); [reflexivity|reflexivity|lia]|apply (follow_key _ _ _ 0); [reflexivity|reflexivity|lia]]. Qed.
Lemma dtext_at env t l dr env' : dtext env t l dr env' -> forall k rest n d, k = TK_COMMA \/ k = TK_SEMICOLON ->
  parse_init_declarator E note correct t (at_ (l ++ TKey k :: rest) n env d) = Some (Some dr, at_ (TKey k :: rest) n env' d).
Proof.
  intros [star const name b bs i init dr0 u env1 SC B IN DR SY] k rest n d K. unfold parse_init_declarator. rewrite <- app_assoc. cbn [app]. rewrite <- app_assoc. rewrite star_at; [|exact SC|discriminate|discriminate]. rewrite toks_at, consume_at, toks_at.
  rewrite (bounds_at true _ _ _ _ B); [|lia|destruct IN; [destruct K as [->| ->]|]; discriminate]. cbn [bind].
  destruct IN as [|e ti G C]; cbn [app].
  - rewrite try_no by (destruct K as [->| ->]; discriminate). cbn [bind]. subst dr0. rewrite (noted_at _ _ _ _ _ _ _ SY). reflexivity.
  - rewrite try_yes. unfold read_initializer. rewrite toks_at. cbn [at_ p_s]. rewrite (init_gram e ti (TKey k :: rest) n G (comma_end k rest K)). cbn [bind]. change (v_correct E correct (p_env (at_ (ti ++ TKey k :: rest) n env d)) e) with (correct env e). rewrite C. cbn [bind].
    change (with_s V _ (built true (ti ++ TKey k :: rest, n) (TKey k :: rest, n))) with (at_ (TKey k :: rest) n env d). subst dr0. rewrite (noted_at _ _ _ _ _ _ _ SY). reflexivity.
Qed.
Lemma dlist_at t : forall env l ds env', dlist t env l ds env' -> forall rest n d f, (length (l ++ TKey TK_SEMICOLON :: rest) <= f)%nat ->
  parse_declarators E note correct f t (at_ (l ++ TKey TK_SEMICOLON :: rest) n env d) = Some (map Some ds, at_ (TKey TK_SEMICOLON :: rest) n env' d).
Proof.
  induction 1 as [env l dr env' H|env l dr env1 r ds env' H _ IH]; intros rest n d f L; (destruct f as [|f]; [rewrite !app_length in L; cbn [length] in L; lia|]); cbn [parse_declarators map].
  - rewrite (dtext_at _ _ _ _ _ H) by auto. cbn [bind]. rewrite try_no by discriminate. reflexivity.
  - rewrite <- app_assoc. cbn [app]. rewrite (dtext_at _ _ _ _ _ H) by auto. cbn [bind]. rewrite try_yes. rewrite IH; [reflexivity|]. rewrite <- app_assoc in L. rewrite app_length in L. cbn [app length] in L. lia.
Qed.
Lemma dlist_cur t env l ds env' rest : dlist t env l ds env' -> cur (l ++ rest) <> TK_SEMICOLON /\ cur (l ++ rest) <> TK_L_BRACE.
Proof.
  assert (D: forall env l d env' rest, dtext env t l d env' -> cur (l ++ rest) <> TK_SEMICOLON /\ cur (l ++ rest) <> TK_L_BRACE) by (intros ? ? ? ? ? []; destruct star; split; discriminate).
  destruct 1 as [? ? ? ? H|? ? ? ? ? ? ? H _]; [apply (D _ _ _ _ _ H)|]. rewrite <- app_assoc. apply (D _ _ _ _ _ H).
Qed.
Lemma dectext_at env l dc dd env' : dectext E note type_of tag_of correct enum_value env l dc dd env' -> forall rest n d,
  parse_decl E note type_of tag_of correct enum_value (at_ (l ++ rest) n env d) = Some (dc, at_ rest n env' (d || dd)).
Proof.
  intros [l1 t made dd1 env1 r ds env2 S DL|l1 t dd1 env2 S] rest n d; apply specs in S as [_ S]; unfold parse_decl, specifier.
  - rewrite <- app_assoc. rewrite <- app_assoc. cbn [app]. rewrite toks_at. rewrite S; [|apply (dlist_cur _ _ _ _ _ _ DL)|lia]. cbn [bind]. rewrite pis_at, toks_at.
    replace (cur (r ++ TKey TK_SEMICOLON :: rest) =? TK_SEMICOLON) with false by (destruct (dlist_cur _ _ _ _ _ (TKey TK_SEMICOLON :: rest) DL); lia). cbn [negb]. rewrite (dlist_at _ _ _ _ _ DL) by lia. cbn [bind]. rewrite expect_at.
    destruct DL; reflexivity.
  - rewrite <- app_assoc. cbn [app]. rewrite toks_at. rewrite S; [|discriminate|lia]. cbn [bind]. rewrite pis_at. cbn [cur kind]. change (TK_SEMICOLON =? TK_SEMICOLON) with true. cbn [negb bind]. rewrite expect_at. reflexivity.
Qed.
Lemma dectext_declares env l dc dd env' v : dectext E note type_of tag_of correct enum_value env l dc dd env' -> v_env v = env -> declares V (v_type_name E type_of) v l = true.
Proof.
  intros H Q. assert (W: exists l1 t made d1 env1 r, l = l1 ++ r /\ tspec env l1 t made d1 env1) by (destruct H; do 6 eexists; (split; [reflexivity|eauto])).
  destruct W as (l1 & t & made & d1 & env1 & r & -> & S). apply specs in S as [(NE & _ & _ & _ & _ & D) _]. unfold declares, v_type_name in *. cbn [v_env] in D. rewrite Q. destruct l1 as [|[] l1]; [contradiction|exact D..].
Qed.
End T.

(** The texts of functions and of programs are read as what they say. *)
From Verif Require Import Prelude LexModel ParseModel ParseSpec ParseFuel ParseProofs ParseBack ParseSkip StmtModel StmtSpec StmtProofs StmtTexts DeclModel DeclSpec DeclProofs DeclEnds DeclTexts.

Section U.
Variable E : Type.
Variable note : E -> entry -> ctype * E * nat.
Variables type_of tag_of : E -> Z -> option ctype.
Variable correct : E -> expr -> bool.
Variable enum_value : E -> ctype -> expr -> option (Z * bool).
Notation V := (denv E).
Notation P := (ps V).
Notation says := (says E note).
Notation tspec := (tspec E note type_of tag_of correct enum_value).
Notation param := (param E note type_of tag_of correct enum_value).
Notation plist := (plist E note type_of tag_of correct enum_value).
Notation fdecl := (fdecl E note type_of tag_of correct enum_value).
Notation inner := (inner_declarator E note type_of tag_of correct enum_value).
Notation parameter := (parse_parameter E note type_of tag_of correct enum_value).
Notation parameters := (parse_parameters E note type_of tag_of correct enum_value).
Notation body := (declarator_body E note type_of tag_of correct enum_value).

Section At.
Variables re : bool.
Notation at_ := (at_ E None false false re).

Lemma specifier_at env l t made dd env' : tspec env l t made dd env' -> forall rest n d, cur rest <> TK_L_BRACE ->
  specifier E note type_of tag_of correct enum_value (at_ (l ++ rest) n env d) = Some (t, made, at_ rest n env' (d || dd)).
Proof. intros S rest n d C. apply (specs E note type_of tag_of correct enum_value None false false re) in S as [_ S]. unfold specifier. apply S; [exact C|unfold toks; cbn; lia]. Qed.
Lemma tspec_cur env l t made dd env' : tspec env l t made dd env' -> forall rest, cur (l ++ rest) <> TK_COMMA /\ cur (l ++ rest) <> TK_R_PAREN /\ cur (l ++ rest) <> TK_EOF /\ l <> [].
Proof.
  intros S rest. apply (specs E note type_of tag_of correct enum_value None false false re) in S as [(NE & C1 & _ & _ & C2 & D) _]. destruct l as [|x l]; [contradiction|]. cbn [app]. change (cur (x :: l ++ rest)) with (cur (x :: l)). repeat split; auto; try discriminate.
  intros Q. unfold declares in D. destruct x; cbn [cur kind] in Q; subst; try discriminate D; discriminate Q.
Qed.
Lemma squares_at : forall k t rest n env d f, (length (squares k ++ rest) < f)%nat -> cur rest <> TK_L_SQUARE -> parse_squares E f t (at_ (squares k ++ rest) n env d) = Some (arrays k t, at_ rest n env d).
Proof.
  assert (AR: forall k t, arrays k (CArray t) = CArray (arrays k t)) by (induction k as [|k IH]; intros t; [reflexivity|]; change (CArray (arrays k (CArray t)) = CArray (arrays (S k) t)); rewrite IH; reflexivity).
  induction k as [|k IH]; intros t rest n env d f L C; (destruct f as [|f]; [lia|]); cbn [parse_squares].
  - change (squares 0 ++ rest) with rest. rewrite try_no by exact C. reflexivity.
  - change (squares (S k) ++ rest) with (TKey TK_L_SQUARE :: TKey TK_R_SQUARE :: squares k ++ rest) in *. rewrite try_yes. cbn [negb]. rewrite try_yes. cbn [bind]. rewrite IH; [|cbn [length] in L; lia|exact C]. rewrite AR. reflexivity.
Qed.
Definition fd_of (named : bool) : Z := if named then 1 else 2.
Definition closes (rest : list tok) : Prop := cur rest = TK_COMMA \/ cur rest = TK_R_PAREN.
Definition claim_param named env l t dd env' : Prop := (forall rest, cur (l ++ rest) <> TK_R_PAREN) /\ forall level rest n d f fd, (named = true -> level = true) -> closes rest -> fd = 3 \/ fd = fd_of named -> (length (l ++ rest) < f)%nat ->
  parameter (inner f) level fd (at_ (l ++ rest) n env d) = Some (Some (t, fd_of named), at_ rest n env' (d || dd)).
Definition claim_plist named env l ts dd env' : Prop := (forall rest, cur (l ++ rest) <> TK_R_PAREN) /\ forall level rest n d f g fd md, (named = true -> level = true) -> cur rest = TK_R_PAREN -> fd = 3 \/ fd = fd_of named -> (length (l ++ rest) < f)%nat -> (length (l ++ rest) < g)%nat -> md + Z.of_nat (length ts) <= 100 ->
  parameters (inner f) g level fd md (at_ (l ++ rest) n env d) = Some (Some (ts, fd_of named), at_ rest n env' (d || dd)).
Definition claim_fdecl named env result l t dd env' : Prop := forall level rest n d f fd, (named = true -> level = true) -> fd = 3 \/ fd = fd_of named -> (length (l ++ rest) < f)%nat ->
  exists ts, t = CFunction result ts /\ body (inner f) level fd result (at_ (l ++ rest) n env d) = Some (t, Some (match ts with [] => 0 | _ => fd_of named end), at_ rest n env' (d || dd)).
Ltac named_end := match goal with
  | Q : ?fd = 3 \/ ?fd = fd_of ?named |- _ => destruct Q as [->| ->]; try (is_var named; destruct named); reflexivity
  end.
Lemma arguments_read : (forall named env l t dd env', param named env l t dd env' -> claim_param named env l t dd env')
  /\ (forall named env l ts dd env', plist named env l ts dd env' -> claim_plist named env l ts dd env')
  /\ (forall named env result l t dd env', fdecl named env result l t dd env' -> claim_fdecl named env result l t dd env').
Proof.
  apply param_mutual.
  - (* plain *) intros named env l t made dd env1 star const x k env' S SC N NV NP. split; [intros rest; rewrite <- app_assoc; apply (tspec_cur _ _ _ _ _ _ S)|].
    intros level rest n d f fd LV C FD L. unfold parse_parameter. rewrite <- !app_assoc. assert (CS: cur (squares k ++ rest) = cur rest /\ k = 0%nat \/ cur (squares k ++ rest) = TK_L_SQUARE /\ k <> 0%nat) by (destruct k; [left|right]; split; auto).
    assert (CX: cur (x ++ squares k ++ rest) <> TK_STAR /\ cur (x ++ squares k ++ rest) <> TK_CONST /\ cur (x ++ squares k ++ rest) <> TK_L_BRACE).
    { destruct N; cbn [app]; [|repeat split; discriminate]. destruct C as [C|C], CS as [[CS _]|[CS _]]; rewrite CS, ?C; repeat split; discriminate. }
    rewrite (specifier_at _ _ _ _ _ _ S) by (destruct star; [discriminate|exact (proj2 (proj2 CX))]). cbn [bind]. rewrite star_at by tauto. fold (ptype star const t). set (T := ptype star const t) in *.
    assert (CL: cur (squares k ++ rest) <> TK_L_PAREN) by (destruct C as [C|C], CS as [[CS _]|[CS _]]; rewrite CS, ?C; discriminate).
    assert (NA: forall was, (k <> 0%nat -> was = true \/ is_pointer T = false) -> (was = true -> named = true) -> (named = true -> was = true) -> (let p := if is_void T && negb (pis V (at_ (squares k ++ rest) n env' (d || dd)) TK_L_PAREN) then perror V (at_ (squares k ++ rest) n env' (d || dd)) else at_ (squares k ++ rest) n env' (d || dd) in
      let row := pis V p TK_L_SQUARE in
      let p := if row && is_pointer T && negb was then perror V p else p in
      do ' (t, p) <- parse_squares E (Datatypes.S (length (toks V p))) T p;
      do ' (r, p) <- parse_function_parameter E note (inner f) level (if row then 2 else if star then 1 else 0) was t p;
      match r with
      | None => Some (None, p)
      | Some (t, was_ident) =>
        if fd =? 3 then Some (Some (t, if was_ident then 1 else 2), p)
        else if (fd =? 2) && was_ident then
          do p <- pskip V (Z.lor TK_R_PAREN TK_SEMICOLON) (perror V p);
          let '(body, p) := ptry V p TK_L_BRACE in
          do p <- (if body then pskip_to E TK_R_BRACE TK_R_BRACE p else Some p);
          Some (None, p)
        else if (fd =? 1) && negb was_ident then
          do p <- pskip V (Z.lor TK_R_PAREN TK_SEMICOLON) (perror V p); Some (None, p)
        else Some (Some (t, fd), p)
      end) = Some (Some (arrays k T, fd_of named), at_ rest n env' (d || dd))).
    { intros was W1 W2 W3. rewrite NV. cbn [andb]. cbv zeta. rewrite pis_at.
      replace ((cur (squares k ++ rest) =? TK_L_SQUARE) && is_pointer T && negb was) with false.
      2:{ destruct CS as [[CS K]|[CS K]]; rewrite CS; [destruct C as [C|C]; rewrite C; reflexivity|]. destruct (W1 K) as [->| ->]; cbn [negb]; rewrite ?andb_false_r; reflexivity. }
      rewrite toks_at. rewrite squares_at; [|lia|destruct C as [C|C]; rewrite C; discriminate]. cbn [bind]. unfold parse_function_parameter. rewrite try_no by (destruct C as [C|C]; rewrite C; discriminate). cbn [negb bind].
      replace was with named by (destruct was, named; auto; discriminate (W2 eq_refl) || discriminate (W3 eq_refl)). named_end. }
    rewrite toks_at. destruct N as [|name u env' SY]; cbn [app].
    + assert (H := NA false). cbv zeta in H. destruct (squares k ++ rest) as [|[] lq] eqn:EQ; try (apply H; auto; discriminate). exfalso. destruct C as [C|C], CS as [[CS _]|[CS _]]; rewrite ?C in CS; cbn in CS; discriminate CS.
    + rewrite (LV eq_refl). rewrite (noted_at E note None false false re _ _ _ _ _ _ _ SY), consume_at. rewrite (LV eq_refl) in NA. exact (NA true (fun _ => or_introl eq_refl) (fun _ => eq_refl) (fun _ => eq_refl)).
  - (* function *) intros named env l t made dd env1 x env2 r t' dd' env' S N _ IH. split; [intros rest; rewrite <- app_assoc; apply (tspec_cur _ _ _ _ _ _ S)|].
    intros level rest n d f fd LV C FD L. unfold parse_parameter. rewrite <- !app_assoc. cbn [app]. rewrite <- app_assoc. cbn [app]. rewrite (specifier_at _ _ _ _ _ _ S) by discriminate. cbn [bind].
    assert (L2: (length (r ++ rest) + 4 < f)%nat) by (rewrite <- app_assoc in L; cbn [app] in L; rewrite <- app_assoc in L; cbn [app] in L; rewrite !app_length in L; cbn [length] in L; rewrite !app_length in L; cbn [length] in L; rewrite app_length in *; lia).
    destruct f as [|f]; [lia|]. destruct (IH false rest n ((d || dd)) f 2) as (ts & TS & B); [discriminate|right; reflexivity|lia|].
    change (at_ (TKey TK_L_PAREN :: TKey TK_STAR :: x ++ TKey TK_R_PAREN :: TKey TK_L_PAREN :: r ++ rest) n env1 (d || dd)) with (at_ (stars false false ++ TKey TK_L_PAREN :: TKey TK_STAR :: x ++ TKey TK_R_PAREN :: TKey TK_L_PAREN :: r ++ rest) n env1 (d || dd)).
    rewrite star_at; [|discriminate|discriminate|discriminate]. rewrite toks_at. cbv zeta. rewrite !pis_at. cbn [cur kind]. change (TK_L_PAREN =? TK_L_PAREN) with true. change (TK_L_PAREN =? TK_L_SQUARE) with false. cbn [negb]. rewrite andb_false_r. cbn iota. rewrite ?pis_at. cbn [cur kind]. change (TK_L_PAREN =? TK_L_SQUARE) with false. cbn [andb]. cbn iota. rewrite ?toks_at.
    change (TKey TK_L_PAREN :: TKey TK_STAR :: x ++ TKey TK_R_PAREN :: TKey TK_L_PAREN :: r ++ rest) with (squares 0 ++ TKey TK_L_PAREN :: TKey TK_STAR :: x ++ TKey TK_R_PAREN :: TKey TK_L_PAREN :: r ++ rest).
    rewrite squares_at; [|lia|discriminate]. cbn [bind arrays Nat.iter]. unfold parse_function_parameter. rewrite try_yes. cbn [negb]. rewrite expect_at, toks_at.
    destruct N as [|name u env2 SY]; cbn [app].
    + rewrite !expect_at. cbn [Z.eqb orb bind]. change (arrays 0 t) with t. cbn [inner_declarator]. rewrite B. cbn [bind]. rewrite ?orb_assoc. named_end.
    + rewrite (LV eq_refl). cbn [andb negb]. rewrite (noted_at E note None false false re _ _ _ _ _ _ _ SY), consume_at, !expect_at. cbn [Z.eqb orb bind]. change (arrays 0 t) with t. cbn [inner_declarator]. rewrite B. cbn [bind]. rewrite ?orb_assoc. named_end.
  - (* one *) intros named env l t dd env' _ [C1 IH]. split; [exact C1|]. intros level rest n d f g fd md LV C FD L1 L2 M. destruct g as [|g]; [lia|]. cbn [parse_parameters]. rewrite IH; auto; [|right; exact C]. cbn [bind]. cbn [length] in M. replace (100 <=? md) with false by lia. rewrite try_no by (rewrite C; discriminate). reflexivity.
  - (* more *) intros named env l t dd env1 r ts dd' env' _ [C1 IH1] _ [C2 IH2]. split; [intros rest; rewrite <- app_assoc; apply C1|]. intros level rest n d f g fd md LV C FD L1 L2 M. destruct g as [|g]; [lia|]. cbn [parse_parameters]. rewrite <- app_assoc in *. cbn [app] in *.
    rewrite IH1; auto; [|left; reflexivity]. cbn [bind]. cbn [length] in M. replace (100 <=? md) with false by lia. rewrite try_yes. rewrite (IH2 level rest n (d || dd) f g (fd_of named) (md + 1) LV C (or_intror eq_refl)); [| | |lia].
    + cbn [bind]. rewrite orb_assoc. reflexivity.
    + rewrite app_length in L1. cbn [length] in L1. lia.
    + rewrite app_length in L2. cbn [length] in L2. lia.
  - (* none *) intros named env result level rest n d f fd LV FD L. exists []. split; [reflexivity|]. unfold declarator_body. cbn [app]. rewrite try_yes, orb_false_r. reflexivity.
  - (* some *) intros named env result l ts dd env' H [C1 IH] LT level rest n d f fd LV FD L. exists ts. split; [reflexivity|]. unfold declarator_body. rewrite <- app_assoc in *. cbn [app] in *. rewrite try_no by apply C1. rewrite toks_at. rewrite (IH level (TKey TK_R_PAREN :: rest) n d f _ fd 3 LV eq_refl FD); [|lia|lia|lia].
    cbn [bind]. rewrite expect_at. destruct H; reflexivity.
Qed.
Lemma fdecl_at named env result l t dd env' : fdecl named env result l t dd env' -> forall rest n d,
  exists ts, t = CFunction result ts /\ parse_function_declarator E note type_of tag_of correct enum_value result (at_ (l ++ rest) n env d)
    = Some (t, Some (match ts with [] => 0 | _ => fd_of named end), at_ rest n env' (d || dd)).
Proof. intros H rest n d. destruct (proj2 (proj2 arguments_read) _ _ _ _ _ _ _ H true rest n d (S (length (l ++ rest))) 3) as (ts & T & B); [auto|auto|lia|]. exists ts. split; [exact T|exact B]. Qed.
End At.

Variables enter leave : E -> E.
Variable constant : E -> expr -> bool.
Variable is_main : E -> Z -> bool.
Variable main_parameter : ctype -> bool.
Variable skipped : E -> Z -> ctype -> bool.
Notation fundecl := (parse_function_declaration E note type_of tag_of correct enum_value enter leave constant is_main main_parameter skipped).
Notation fundef := (parse_function_definition E note type_of tag_of correct enum_value enter leave constant skipped).
Notation externals := (parse_externals E note type_of tag_of correct enum_value enter leave constant is_main main_parameter skipped).
Notation definition := (parse_external_definition E note type_of tag_of correct enum_value enter leave constant is_main main_parameter skipped).
Notation unit_ := (parse_translation_unit E note type_of tag_of correct enum_value enter leave constant is_main main_parameter skipped).
Notation xtext := (xtext E note type_of tag_of correct enum_value is_main).
Notation xlist := (xlist E note type_of tag_of correct enum_value is_main).
Notation extext := (extext E note type_of tag_of correct enum_value enter leave constant is_main main_parameter skipped).
Notation ptext := (ptext E note type_of tag_of correct enum_value enter leave constant is_main main_parameter skipped).
Notation items := (sitems V decl (v_enter E enter) (v_leave E leave) (v_type_name E type_of)
  (block_declaration E note type_of tag_of correct enum_value) (v_correct E correct) (v_constant E constant)).
Notation at_ re := (at_ E None false false re).

Lemma star_only re star rest n env d : cur rest <> TK_STAR -> ptry V (at_ re (stars star false ++ rest) n env d) TK_STAR = (star, at_ re rest n env d).
Proof. intros C. destruct star; cbn [stars app]; [apply try_yes|apply try_no; exact C]. Qed.
(** One external of a list, then [,] or [;]. *)
Definition one_external (f : nat) fd group (p : P) : option (external * Z * P) :=
  let '(star, p) := ptry V p TK_STAR in
  match toks V p with
  | TIdent _ :: l =>
      if cur l =? TK_L_PAREN then fundecl fd (if star then CPointer group else group) p
      else if is_void group then Some (XBroken, fd, perror V p)
      else do ' (d, p) <- parse_init_declarator E note correct (if star then CPointer group else group) p; Some (XVariable d, fd, p)
  | _ => do p <- pskip V (Z.lor TK_COMMA TK_SEMICOLON) (perror V p); Some (XBroken, fd, p)
  end.
Lemma externals_unf f fd group p : externals (S f) fd group p =
  do ' (x, func_def, p) <- one_external f fd group p;
  let '(more, p) := ptry V p TK_COMMA in
  if more then do ' (xs, func_def, p) <- externals f func_def group p; Some (x :: xs, func_def, p)
  else Some ([x], func_def, p).
Proof. cbn [parse_externals]. unfold one_external. destruct (ptry V p TK_STAR). reflexivity. Qed.
Lemma xtext_at re group env l x dd env' : xtext group env l x dd env' -> forall k rest n d f fd, k = TK_COMMA \/ k = TK_SEMICOLON -> fd <> 1 ->
  exists fd', fd' <> 1 /\ one_external f fd group (at_ re (l ++ TKey k :: rest) n env d) = Some (x, fd', at_ re (TKey k :: rest) n env' (d || dd)).
Proof.
  intros [star l1 dr env1 NV D NS|star name l1 t dd1 env1 u env2 NC F NM SY] k rest n d f fd K FD; unfold one_external; rewrite <- app_assoc.
  - exists fd. split; [exact FD|]. pose proof (dtext_at E note type_of tag_of correct enum_value None false false re _ _ _ _ _ D k rest n d K) as H. rewrite orb_false_r.
    destruct D as [star2 const name b bs i init dr u env2 SC B IN DR SY]. rewrite DR in NS. cbn [dr_star] in NS. subst star2. change (stars false const) with (@nil tok) in *. cbn [app] in *. rewrite star_only by discriminate. rewrite toks_at.
    rewrite <- app_assoc in *. replace (cur (b ++ i ++ TKey k :: rest) =? TK_L_PAREN) with false.
    2:{ symmetry. apply Z.eqb_neq. destruct B; [|discriminate|discriminate]. destruct IN; [|discriminate]. destruct K as [->| ->]; discriminate. }
    rewrite NV. fold (pointed star group). rewrite H. reflexivity.
  - exists 2. split; [discriminate|]. cbn [app]. rewrite star_only by discriminate. rewrite toks_at. change (cur (TKey TK_L_PAREN :: l1 ++ TKey k :: rest) =? TK_L_PAREN) with true. cbn iota. fold (pointed star group). unfold parse_function_declaration. rewrite NC. cbv zeta. rewrite toks_at, !consume_at.
    destruct (fdecl_at re _ _ _ _ _ _ _ F (TKey k :: rest) n d) as (ts & T & B). rewrite B. cbn [bind]. cbv zeta. rewrite !pis_at. change (cur (TKey k :: rest)) with k. replace (k =? TK_L_BRACE) with false by (destruct K as [->| ->]; reflexivity).
    replace (if match ts with [] => 0 | _ :: _ => fd_of false end =? 0 then 2 else match ts with [] => 0 | _ :: _ => fd_of false end) with 2 by (destruct ts; reflexivity).
    change (table E (at_ re (TKey k :: rest) n env1 (d || dd1))) with env1. rewrite NM. rewrite (noted_at E note None false false re _ _ _ _ _ _ _ SY). rewrite pis_at. change (cur (TKey k :: rest)) with k. replace (k =? TK_L_BRACE) with false by (destruct K as [->| ->]; reflexivity). reflexivity.
Qed.
Lemma xlist_at re group : forall env l xs env', xlist group env l xs env' -> forall rest n d f fd, fd <> 1 -> (length (l ++ TKey TK_SEMICOLON :: rest) <= f)%nat ->
  exists fd' d', fd' <> 1 /\ externals f fd group (at_ re (l ++ TKey TK_SEMICOLON :: rest) n env d) = Some (xs, fd', at_ re (TKey TK_SEMICOLON :: rest) n env' d').
Proof.
  induction 1 as [env l x dd env' H|env l x dd env1 r xs env' H _ IH]; intros rest n d f fd FD L; (destruct f as [|f]; [rewrite !app_length in L; cbn [length] in L; lia|]); rewrite externals_unf.
  - destruct (xtext_at re _ _ _ _ _ _ H TK_SEMICOLON rest n d f fd (or_intror eq_refl) FD) as (fd' & FD' & ->). cbn [bind]. exists fd', (d || dd). split; [exact FD'|]. rewrite try_no by discriminate. reflexivity.
  - rewrite <- app_assoc in *. cbn [app] in *. destruct (xtext_at re _ _ _ _ _ _ H TK_COMMA (r ++ TKey TK_SEMICOLON :: rest) n d f fd (or_introl eq_refl) FD) as (fd' & FD' & ->). cbn [bind]. rewrite try_yes.
    destruct (IH rest n (d || dd) f fd' FD') as (fd2 & d2 & F2 & X); [rewrite app_length in L; cbn [length] in L; lia|]. rewrite X. exists fd2, d2. split; [exact F2|reflexivity].
Qed.
Lemma xlist_cur group env l xs env' rest : xlist group env l xs env' -> cur (l ++ rest) <> TK_SEMICOLON /\ cur (l ++ rest) <> TK_L_BRACE.
Proof.
  assert (D: forall env l x d env' rest, xtext group env l x d env' -> cur (l ++ rest) <> TK_SEMICOLON /\ cur (l ++ rest) <> TK_L_BRACE).
  { intros ? ? ? ? ? ? [star l1 dr env1 NV D NS|star]; (destruct star; [split; discriminate|]); cbn [stars app]; [|split; discriminate]. destruct D as [star2]. destruct star2; split; discriminate. }
  destruct 1 as [? ? ? ? ? H|? ? ? ? ? ? ? ? H _]; [apply (D _ _ _ _ _ _ H)|]. rewrite <- app_assoc. apply (D _ _ _ _ _ _ H).
Qed.
Lemma main_no result t fd : good_main main_parameter result t -> fd = 1 -> main_errors main_parameter result t fd = 0.
Proof. intros [R T] ->. unfold main_errors. destruct R as [->| ->], T as [->|(x & -> & M)]; rewrite ?M; reflexivity. Qed.
Lemma definition_at env l xs env' : extext env l xs env' -> forall re rest n d, cur rest <> TK_COMMA ->
  exists re' d', definition (at_ re (l ++ rest) n env d) = Some (xs, at_ re' rest n env' d').
Proof.
  intros H re rest n d C. unfold parse_external_definition. destruct H as [l t made env' S|l t made dd env1 star name u env' S U SY|l t made dd env1 r xs env' S X|l group made dd env1 star name r t dd' env2 u env3 u' env4 xs b td env5 u'' env' S NC F MN S1 SK S2 B J R S3].
  - exists re, true. change (type_defined E (at_ re ((l ++ [TKey TK_SEMICOLON]) ++ rest) n env d) false) with (at_ re ((l ++ [TKey TK_SEMICOLON]) ++ rest) n env false). rewrite <- app_assoc. cbn [app]. rewrite (specifier_at re _ _ _ _ _ _ S) by discriminate. cbn [bind orb]. cbn [DeclTexts.at_ p_env v_type_def]. fold (at_ re (TKey TK_SEMICOLON :: rest) n env' true). rewrite try_yes. reflexivity.
  - exists re, true. rewrite defined_at. unfold specifier. rewrite toks_at. cbn [app length]. rewrite <- !app_assoc. cbn [app].
    assert (Q: forall f, (length (l ++ stars star false ++ TIdent name :: TKey TK_SEMICOLON :: rest) < f)%nat -> parse_typedef E note (parse_type_specifier E note type_of tag_of correct enum_value f) (at_ re (TKey TK_TYPEDEF :: l ++ stars star false ++ TIdent name :: TKey TK_SEMICOLON :: rest) n env false)
      = Some (pointed star t, made, at_ re (TKey TK_SEMICOLON :: rest) n env' true)).
    { intros f L. unfold parse_typedef. rewrite consume_at. rewrite (proj2 (proj1 (specs E note type_of tag_of correct enum_value None false false re) _ _ _ _ _ _ S)); [|destruct star; discriminate|exact L]. cbn [bind]. rewrite U. rewrite star_only by discriminate. rewrite toks_at, consume_at. fold (pointed star t). rewrite (noted_at E note None false false re _ _ _ _ _ _ _ SY). rewrite defined_at, pis_at. reflexivity. }
    change (parse_type_specifier E note type_of tag_of correct enum_value (Datatypes.S ?f) (at_ re (TKey TK_TYPEDEF :: ?l) ?n ?env ?d)) with (parse_typedef E note (parse_type_specifier E note type_of tag_of correct enum_value f) (at_ re (TKey TK_TYPEDEF :: l) n env d)).
    rewrite Q by (cbn [length]; lia). cbn [bind]. change (v_type_def (p_env (at_ re (TKey TK_SEMICOLON :: rest) n env' true))) with true. cbn iota. rewrite try_yes. reflexivity.
  - rewrite defined_at, <- !app_assoc. cbn [app]. destruct (xlist_cur _ _ _ _ _ (TKey TK_SEMICOLON :: rest) X) as [C1 C2]. rewrite (specifier_at re _ _ _ _ _ _ S) by exact C2. cbn [bind].
    rewrite try_no by exact C1. destruct (xlist_at re _ _ _ _ _ X rest n (false || dd) (Datatypes.S (length (r ++ TKey TK_SEMICOLON :: rest))) 3) as (fd & d' & FD & Y); [discriminate|lia|].
    exists re, d'. replace (if v_type_def _ then _ else _) with (false, at_ re (r ++ TKey TK_SEMICOLON :: rest) n env1 (false || dd)) by (destruct (v_type_def _); reflexivity). rewrite toks_at, Y. cbn [bind]. replace (fd =? 1) with false by lia. rewrite expect_at. reflexivity.
  - exists (has_return (SBlock xs)), td. rewrite defined_at, <- !app_assoc. cbn [app]. rewrite <- app_assoc. cbn [app]. rewrite <- app_assoc. cbn [app]. rewrite (specifier_at re _ _ _ _ _ _ S) by (destruct star; discriminate). cbn [bind].
    set (L := stars star false ++ TIdent name :: TKey TK_L_PAREN :: r ++ TKey TK_L_BRACE :: b ++ TKey TK_R_BRACE :: rest) in *.
    rewrite try_no by (destruct star; discriminate). replace (if v_type_def _ then _ else _) with (false, at_ re L n env1 (false || dd)) by (destruct (v_type_def _); reflexivity). rewrite toks_at, externals_unf. unfold one_external. generalize (length L). intros fuel. unfold L. rewrite star_only by discriminate. rewrite toks_at.
    change (cur (TKey TK_L_PAREN :: r ++ TKey TK_L_BRACE :: b ++ TKey TK_R_BRACE :: rest) =? TK_L_PAREN) with true. cbn iota. fold (pointed star group). unfold parse_function_declaration. rewrite NC. cbv zeta. rewrite toks_at, !consume_at.
    destruct (fdecl_at re _ _ _ _ _ _ _ F (TKey TK_L_BRACE :: b ++ TKey TK_R_BRACE :: rest) n (false || dd)) as (ts & T & Y). rewrite Y. cbn [bind orb]. rewrite !pis_at. change (cur (TKey TK_L_BRACE :: b ++ TKey TK_R_BRACE :: rest) =? TK_L_BRACE) with true. cbn iota.
    replace (if match ts with [] => 0 | _ :: _ => fd_of true end =? 0 then 1 else match ts with [] => 0 | _ :: _ => fd_of true end) with 1 by (destruct ts; reflexivity).
    change (table E (at_ re (TKey TK_L_BRACE :: b ++ TKey TK_R_BRACE :: rest) n env2 (dd || dd'))) with env2.
    assert (M: (if is_main env2 name then with_s V (at_ re (TKey TK_L_BRACE :: b ++ TKey TK_R_BRACE :: rest) n env2 (dd || dd')) (fst (p_s (at_ re (TKey TK_L_BRACE :: b ++ TKey TK_R_BRACE :: rest) n env2 (dd || dd'))), snd (p_s (at_ re (TKey TK_L_BRACE :: b ++ TKey TK_R_BRACE :: rest) n env2 (dd || dd'))) + main_errors main_parameter (pointed star group) t 1) else at_ re (TKey TK_L_BRACE :: b ++ TKey TK_R_BRACE :: rest) n env2 (dd || dd')) = at_ re (TKey TK_L_BRACE :: b ++ TKey TK_R_BRACE :: rest) n env2 (dd || dd')).
    { destruct (is_main env2 name); [|reflexivity]. rewrite main_no; [|auto|reflexivity]. cbn [DeclTexts.at_ p_s fst snd]. rewrite Z.add_0_r. reflexivity. }
    rewrite M. rewrite (noted_at E note None false false re _ _ _ _ _ _ _ S1). rewrite pis_at. change (cur (TKey TK_L_BRACE :: b ++ TKey TK_R_BRACE :: rest) =? TK_L_BRACE) with true. cbn iota. change (1 =? 1) with true. cbn iota.
    assert (FB: fundef name t (pointed star group) (at_ re (TKey TK_L_BRACE :: b ++ TKey TK_R_BRACE :: rest) n env3 (dd || dd')) = Some (Some (SBlock xs), at_ (has_return (SBlock xs)) rest n env' td)).
    { unfold parse_function_definition. change (table E (at_ re (TKey TK_L_BRACE :: b ++ TKey TK_R_BRACE :: rest) n env3 (dd || dd'))) with env3. rewrite SK. change (no_return E (at_ re (TKey TK_L_BRACE :: b ++ TKey TK_R_BRACE :: rest) n env3 (dd || dd'))) with (at_ false (TKey TK_L_BRACE :: b ++ TKey TK_R_BRACE :: rest) n env3 (dd || dd')).
      cbv zeta. rewrite (noted_at E note None false false false _ _ _ _ _ _ _ S2). rewrite toks_at. unfold parse_compound_statement_body. rewrite consume_at, toks_at.
      pose proof (proj2 (texts V decl (v_enter E enter) (v_leave E leave) (v_type_name E type_of) (block_declaration E note type_of tag_of correct enum_value) (v_correct E correct) (v_constant E constant) (decl_forward E note type_of tag_of correct enum_value)) _ _ _ _ B (TKey TK_R_BRACE :: rest) n false false false
        (length (TKey TK_L_BRACE :: b ++ TKey TK_R_BRACE :: rest)) (Datatypes.S (length (b ++ TKey TK_R_BRACE :: rest)))) as I.
      destruct I as [I _]; [cbn [length]; lia|lia|reflexivity|]. unfold mk in I. unfold DeclTexts.at_ at 1. rewrite (I J). cbn [bind]. unfold pis. cbn [p_s]. change (is (TKey TK_R_BRACE :: rest, n) TK_R_BRACE) with true. cbn [negb bind orb].
      change (pconsume V _) with (at_ (has_return (SBlock xs)) rest n env5 td). cbn [DeclTexts.at_ p_return].
      replace (negb (is_void (pointed star group)) && negb (has_return (SBlock xs))) with false by (destruct R as [-> | ->]; rewrite ?andb_false_r; reflexivity).
      fold (at_ (has_return (SBlock xs)) rest n env5 td). rewrite (noted_at E note None false false _ _ _ _ _ _ _ _ S3). reflexivity. }
    rewrite FB. cbn [bind]. rewrite try_no by exact C. reflexivity.
Qed.
Lemma extext_cur env l xs env' rest : extext env l xs env' -> cur (l ++ rest) <> TK_COMMA /\ cur (l ++ rest) <> TK_EOF.
Proof.
  assert (D: forall env l t made d env' r rest, tspec env l t made d env' -> cur ((l ++ r) ++ rest) <> TK_COMMA /\ cur ((l ++ r) ++ rest) <> TK_EOF) by (intros ? ? ? ? ? ? r rest0 S; rewrite <- app_assoc; pose proof (tspec_cur false _ _ _ _ _ _ S (r ++ rest0)); tauto).
  destruct 1; try (eapply D; eassumption). split; discriminate.
Qed.
Lemma ptext_at : forall env l xs env', ptext env l xs env' -> forall re n d f, (length l < f)%nat -> exists re' d', unit_ f (at_ re l n env d) = Some (xs, at_ re' [] n env' d').
Proof.
  induction 1 as [env l xs env' H|env l xs env1 r ys env' H H2 IH]; intros re n d f L; (destruct f as [|f]; [lia|]); cbn [parse_translation_unit].
  - destruct (definition_at _ _ _ _ H re [] n d) as (re' & d' & X); [discriminate|]. rewrite app_nil_r in X. rewrite X. cbn [bind]. exists re', d'. reflexivity.
  - assert (CR: cur r <> TK_COMMA /\ cur r <> TK_EOF). { destruct H2 as [? ? ? ? H2|? ? ? ? ? ? ? H2 _]; [rewrite <- (app_nil_r l0)|]; eapply extext_cur; exact H2. }
    destruct (definition_at _ _ _ _ H re r n d) as (re' & d' & X); [tauto|]. rewrite X. cbn [bind]. rewrite pis_at. replace (cur r =? TK_EOF) with false by lia.
    destruct (extext_cur _ _ _ _ [] H) as [_ NE]. assert (l <> []) by (intros ->; apply NE; reflexivity).
    destruct (IH re' n d' f) as (re2 & d2 & Y); [destruct l; [contradiction|]; rewrite app_length in L; cbn [length] in L; lia|]. rewrite Y. exists re2, d2. reflexivity.
Qed.
End U.

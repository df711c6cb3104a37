(** Names of macros are replaced by their values. *)
From Verif Require Import Prelude MacroModel MacroSpec MacroSkip MacroProofs MacroNest.
Local Open Scope Z_scope.

Lemma read_arg_level a : forall d acc t rest, level d a = Some O -> is_comma t || is_close t = true -> is_nl t = false ->
  read_arg (a ++ t :: rest) d acc = Some (acc ++ a, t :: rest).
Proof.
  induction a as [|x a IH]; intros d acc t rest L T N; cbn [level] in L.
  - injection L as ->. cbn [app read_arg]. rewrite N, T, app_nil_r. reflexivity.
  - cbn [app read_arg]. destruct (is_nl x); [discriminate|].
    assert (E : (acc ++ [x]) ++ a = acc ++ x :: a) by (rewrite <- app_assoc; reflexivity).
    destruct (is_open x) eqn:O.
    + assert (C : is_comma x = false /\ is_close x = false) by (destruct x; try discriminate O; cbn in *; [split; reflexivity|lia]).
      destruct C as [C1 C2]. rewrite C1, C2. cbn [orb]. destruct d; rewrite (IH _ _ t rest L T N), E; reflexivity.
    + destruct (is_close x) eqn:C.
      * destruct d as [|d]; [discriminate|]. rewrite (IH _ _ t rest L T N), E. reflexivity.
      * destruct (is_comma x) eqn:M; cbn [andb orb] in *.
        -- destruct d as [|d]; [discriminate|]. cbn [Nat.eqb] in L. rewrite (IH _ _ t rest L T N), E. reflexivity.
        -- destruct d; rewrite (IH _ _ t rest L T N), E; reflexivity.
Qed.
Lemma observe_put args es v : length args = length es -> observe (combine args es) v = put_in args es v.
Proof.
  intros L. unfold observe, put_in. apply flat_map_ext. intros t.
  assert (X : forall i, nth_error (combine args es) i =
     match nth_error args i, nth_error es i with Some a, Some e => Some (a, e) | _, _ => None end).
  { clear v t. revert es L. induction args as [|a args IH]; intros es L i; destruct es as [|e es]; try discriminate; destruct i; try reflexivity.
    cbn. apply IH. cbn in L. lia. }
  assert (Y : forall i, nth_error args i = None <-> nth_error es i = None).
  { intros i. rewrite !nth_error_None. lia. }
  destruct t; try reflexivity; rewrite X; specialize (Y i).
  - destruct (nth_error args i) eqn:A, (nth_error es i) eqn:E; try (exfalso; destruct Y as [Y1 Y2]; (discriminate (Y1 eq_refl) || discriminate (Y2 eq_refl))).
    + erewrite nth_error_nth; [reflexivity|exact E].
    + rewrite nth_overflow; [reflexivity|]. apply nth_error_None. exact E.
  - destruct (nth_error args i) eqn:A, (nth_error es i) eqn:E; try (exfalso; destruct Y as [Y1 Y2]; (discriminate (Y1 eq_refl) || discriminate (Y2 eq_refl))); reflexivity.
  - destruct (nth_error args i) eqn:A, (nth_error es i) eqn:E; try (exfalso; destruct Y as [Y1 Y2]; (discriminate (Y1 eq_refl) || discriminate (Y2 eq_refl))).
    + erewrite nth_error_nth; [reflexivity|exact A].
    + rewrite nth_overflow; [reflexivity|]. apply nth_error_None. exact A.
Qed.

Lemma after_refl st : after st [] st.
Proof. unfold after. repeat split. destruct (p_out st); [rewrite app_nil_r|]; reflexivity. Qed.
Lemma after_trans a o b p c : after a o b -> after b p c -> after a (o ++ p) c.
Proof.
  unfold after. intros (A1 & A2 & A3 & A4 & A5 & A6 & A7 & A8) (B1 & B2 & B3 & B4 & B5 & B6 & B7 & B8).
  repeat (split; [congruence|]). rewrite B8, A8. destruct (p_out a); [rewrite app_assoc|]; reflexivity.
Qed.
Lemma after_print t st : after st [t] (print t st).
Proof. unfold after, print. destruct (p_out st) eqn:E; cbn; rewrite ?E; repeat split. Qed.

Section Oracles.
Variable files : Z -> option (list token).
Variable stuck : list token -> bool.
Variable calc : list token -> option Z.
Notation lvl := (lvl files stuck calc).
Variable macros : list (Z * (nat * list token)).

Definition goes (k : nat) (s : list token) (st : pst) (s' : list token) (st' : pst) : Prop :=
  forall n r, f_text (lvl n) s' st' = Ok r -> f_text (lvl (k + n)) s st = Ok r.
Lemma text_more n m s st r : f_text (lvl n) s st = Ok r -> (n <= m)%nat -> f_text (lvl m) s st = Ok r.
Proof. intros H L. eapply le_ok; [|exact H]. apply le_text. apply le_lvl. exact L. Qed.
Lemma args_more n m v s st r : f_args (lvl n) v s st = Ok r -> (n <= m)%nat -> f_args (lvl m) v s st = Ok r.
Proof. intros H L. eapply le_ok; [|exact H]. apply le_args. apply le_lvl. exact L. Qed.
Lemma preprocess_more n m t st r : preprocess (lvl n) t st = Ok r -> (n <= m)%nat -> preprocess (lvl m) t st = Ok r.
Proof.
  unfold preprocess. intros H L. destruct (f_block (lvl n) None t st) as [x|x|[[k s] st1]] eqn:E; try discriminate.
  rewrite (block_more files stuck calc n m _ _ _ _ E L). exact H.
Qed.

Definition replaced (d : Z) (l out : list token) : Prop :=
  forall st, p_macros st = macros -> p_call st = d ->
  exists st', after st out st' /\ exists k, forall tail, calm tail -> goes k (l ++ tail) st tail st'.
Lemma expands_head d l out : expands macros d l out -> match l with [] => True | t :: _ => is_nl t = false /\ is_hash t = false end.
Proof. intros H. destruct H; try exact Logic.I; split; try assumption; reflexivity. Qed.
(** A value alone. *)
Lemma value_alone d v o st : expands macros d v o -> replaced d v o -> p_macros st = macros -> p_call st = d ->
  exists st', after st o st' /\ exists n, preprocess (lvl n) v st = Ok st'.
Proof.
  intros X P M C. destruct v as [|t v].
  - inversion X; subst. exists st. split; [apply after_refl|]. exists 1%nat. reflexivity.
  - destruct (expands_head _ _ _ X) as [X1 X2]. destruct (P st M C) as (st' & A & k & G). exists st'. split; [exact A|].
    pose proof (G [] Logic.I 1%nat ([], st') eq_refl) as E. set (m := (k + 1)%nat) in E. rewrite app_nil_r in E. exists (S (S m)). unfold preprocess.
    change (f_block (lvl (S (S m))) None (t :: v) st) with (block_step files (lvl (S m)) None (t :: v) st).
    unfold block_step. assert (D : parse_directive (t :: v) = (Knon, t :: v)) by (destruct t; try discriminate X2; reflexivity).
    rewrite D. unfold line_step. rewrite D. rewrite (text_more m (S m) _ _ _ E) by lia. reflexivity.
Qed.
Lemma args_replaced d args es : Forall argument args -> args <> [] ->
  Forall2 (fun a e => expands macros d a e /\ replaced d a e) args es ->
  forall st vs, p_macros st = macros -> p_call st = d ->
  exists st', after st [] st' /\ exists n, forall l, f_args (lvl n) (Some vs) (listed args ++ TChar 41 :: l) st = Ok (Some (vs ++ combine args es), TChar 41 :: l, st').
Proof.
  intros A NE F. induction F as [|a e args es [X P] F IH]; [congruence|]. intros st vs M C. clear NE. inversion A as [|? ? A1 A2]; subst.
  assert (V : exists st1, after (set_out (Some []) st) e st1 /\ exists n, preprocess (lvl n) a (set_out (Some []) st) = Ok st1).
  { apply value_alone with (d := p_call st); try assumption; reflexivity. }
  destruct V as (st1 & V1 & n1 & V2).
  assert (PO : p_out st1 = Some e) by (destruct V1 as (_ & _ & _ & _ & _ & _ & _ & V1); exact V1).
  set (st2 := set_out (p_out st) st1).
  assert (T : after st [] st2).
  { destruct V1 as (B1 & B2 & B3 & B4 & B5 & B6 & B7 & B8). unfold after, st2. cbn in *. repeat (split; [assumption|]).
    destruct (p_out st); [rewrite app_nil_r|]; reflexivity. }
  assert (PV : forall n, (n1 <= n)%nat -> parse_values (lvl n) a st = Ok (e, st2)).
  { intros n L. unfold parse_values. rewrite (preprocess_more n1 n _ _ _ V2 L). cbn [rbind]. rewrite PO. reflexivity. }
  destruct args as [|b args].
  - inversion F; subst. exists st2. split; [exact T|]. exists (S n1). intros l. cbn [MacroModel.lvl f_args step listed combine].
    unfold args_step. rewrite (read_arg_level a O [] (TChar 41) l A1 eq_refl eq_refl). cbn [app]. cbv zeta.
    rewrite PV by lia. reflexivity.
  - destruct (IH A2 ltac:(discriminate) st2 (vs ++ [(a, e)])) as (st3 & T3 & n2 & E); [rewrite (proj1 T); exact M|destruct T as (_ & _ & T & _); rewrite T; reflexivity|].
    exists st3. split; [apply (after_trans _ [] _ [] _ T T3)|]. exists (S (Nat.max n1 n2)). intros l.
    change (listed (a :: b :: args)) with (a ++ TChar 44 :: listed (b :: args)). rewrite <- app_assoc. cbn [app].
    cbn [MacroModel.lvl f_args step]. unfold args_step. rewrite (read_arg_level a O [] (TChar 44) _ A1 eq_refl eq_refl). cbn [app]. cbv zeta.
    rewrite PV by lia. cbn [rbind is_close]. change (44 =? 41) with false. cbv iota.
    rewrite (args_more n2 (Nat.max n1 n2) _ _ _ _ (E l)) by lia. rewrite <- app_assoc. reflexivity.
Qed.
Lemma called st st1 o n : after (event_ (ECall n) (set_call (p_call st + 1) st)) o st1 ->
  after st o (event_ ERet (set_call (p_call st1 - 1) st1)).
Proof.
  intros (B1 & B2 & B3 & B4 & B5 & B6 & B7 & B8). unfold after. cbn in *. repeat split; try assumption. lia.
Qed.

Scheme expands_m := Minimality for expands Sort Prop
with expands_all_m := Minimality for expands_all Sort Prop.
Combined Scheme expands_mutual from expands_m, expands_all_m.

Lemma calm_line l tail : match l with t :: _ => is_open t = false /\ is_nl t = false | [] => True end -> calm tail -> calm (l ++ tail).
Proof. destruct l as [|t l]; [intros _ C; exact C|]. intros [H G] _. destruct t; try discriminate G; exact H. Qed.
(** The call of a macro. *)
Lemma name_call d n v o st : find_macro n (p_macros st) = Some (O, v) -> expands macros (d + 1) v o -> replaced (d + 1) v o ->
  p_macros st = macros -> p_call st = d ->
  exists st', after st o st' /\ exists k, forall m s, (k <= m)%nat -> calm s -> call (lvl m) n (O, v) s st = Ok (true, s, st').
Proof.
  intros F X P M C. set (st0 := event_ (ECall n) (set_call (p_call st + 1) st)).
  destruct (value_alone (d + 1) v o st0 X P) as (st1 & A & k & E); [exact M|cbn; lia|].
  exists (event_ ERet (set_call (p_call st1 - 1) st1)). split; [apply called with (n := n); exact A|].
  exists k. intros m s L S. unfold call, parse_replacement. fold st0. rewrite (preprocess_more k m _ _ _ E L). cbn [rbind].
  unfold calm in S. destruct (skip_lines s) as [|t s1]; [reflexivity|]. rewrite S. reflexivity.
Qed.
Lemma fun_call d n k v args es op o st : find_macro n (p_macros st) = Some (S k, v) -> is_open op = true ->
  length args = S k -> Forall argument args -> Forall2 (fun a e => expands macros (d + 1) a e /\ replaced (d + 1) a e) args es ->
  expands macros (d + 1) (put_in args es v) o -> replaced (d + 1) (put_in args es v) o ->
  p_macros st = macros -> p_call st = d ->
  exists st', after st o st' /\ exists j, forall m s, (j <= m)%nat ->
    call (lvl m) n (S k, v) (op :: listed args ++ TChar 41 :: s) st = Ok (true, s, st').
Proof.
  intros F OP L A F2 X P M C. set (st0 := event_ (ECall n) (set_call (p_call st + 1) st)).
  assert (NE : args <> []) by (intros ->; discriminate).
  destruct (args_replaced (d + 1) args es A NE F2 st0 []) as (st1 & T1 & n1 & E1); [exact M|cbn; lia|]. cbn [app] in E1.
  destruct (value_alone (d + 1) (put_in args es v) o st1 X P) as (st2 & T2 & n2 & E2).
  { rewrite (proj1 T1). exact M. }
  { destruct T1 as (_ & _ & T1 & _). rewrite T1. cbn. lia. }
  pose proof (after_trans _ _ _ _ _ T1 T2) as T. cbn [app] in T.
  exists (event_ ERet (set_call (p_call st2 - 1) st2)). split; [apply called with (n := n); exact T|].
  exists (Nat.max n1 n2). intros m s LM. unfold call, parse_replacement. fold st0.
  assert (SL : skip_lines (op :: listed args ++ TChar 41 :: s) = op :: listed args ++ TChar 41 :: s) by (destruct op; try discriminate OP; reflexivity).
  rewrite SL, OP. rewrite (args_more n1 m _ _ _ _ (E1 s)) by lia. cbn [rbind].
  assert (LE : length args = length es) by (clear -F2; induction F2; cbn; congruence).
  rewrite combine_length, <- LE, Nat.min_id, L, Nat.eqb_refl, observe_put by exact LE.
  rewrite (preprocess_more n2 m _ _ _ E2) by lia. reflexivity.
Qed.
Lemma expands_replaced :
  (forall d l out, expands macros d l out -> replaced d l out)
  /\ (forall d args es, expands_all macros d args es -> Forall2 (fun a e => expands macros d a e /\ replaced d a e) args es).
Proof.
  apply expands_mutual.
  - intros d st M C. exists st. split; [apply after_refl|]. exists O. intros tail _ n r H. exact H.
  - intros d t l out N H U _ IH st M C.
    destruct (IH (print t st)) as (st' & A & k & G); [unfold print; destruct (p_out st); exact M|unfold print; destruct (p_out st); exact C|].
    exists st'. split; [apply (after_trans _ [t] _ out _ (after_print t st) A)|]. exists (Datatypes.S k). intros tail S n r E.
    specialize (G tail S n r E). cbn [app plus MacroModel.lvl f_text step]. unfold text_step. rewrite N, H.
    destruct t; try exact G. unfold parse_identifier. rewrite M, (U n0 eq_refl). exact G.
  - intros d n v l o out F D NO X P Y IH st M C.
    destruct (name_call d n v o st) as (st1 & A1 & k & E); [rewrite M; exact F|exact X|exact P|exact M|exact C|].
    destruct (IH st1) as (st' & A2 & j & G); [rewrite (proj1 A1); exact M|destruct A1 as (_ & _ & A1 & _); rewrite A1; exact C|].
    exists st'. split; [apply (after_trans _ _ _ _ _ A1 A2)|]. exists (Datatypes.S (k + j)). intros tail S m r R.
    assert (CS : calm (l ++ tail)).
    { apply calm_line; [|exact S]. apply expands_head in Y. destruct l; [exact Logic.I|]. split; [exact NO|apply Y]. }
    specialize (G tail S m r R). cbn [app plus MacroModel.lvl f_text step]. unfold text_step, parse_identifier. cbn [is_nl]. rewrite M, F.
    destruct (p_call st >? MAX_CALL_DEPTH) eqn:Z; [unfold MAX_CALL_DEPTH in Z; lia|]. rewrite E by (assumption || lia). cbn [rbind].
    apply (text_more (j + m)); [exact G|lia].
  - intros d n k v args es op l o out F D OP L A _ F2 X P Y IH st M C.
    destruct (fun_call d n k v args es op o st) as (st1 & A1 & j1 & E); try assumption; [rewrite M; exact F|].
    destruct (IH st1) as (st' & A2 & j & G); [rewrite (proj1 A1); exact M|destruct A1 as (_ & _ & A1 & _); rewrite A1; exact C|].
    exists st'. split; [apply (after_trans _ _ _ _ _ A1 A2)|]. exists (Datatypes.S (j1 + j)). intros tail S m r R.
    specialize (G tail S m r R). cbn [app]. rewrite <- app_assoc. cbn [app plus MacroModel.lvl f_text step].
    unfold text_step, parse_identifier. cbn [is_nl]. rewrite M, F.
    destruct (p_call st >? MAX_CALL_DEPTH) eqn:Z; [unfold MAX_CALL_DEPTH in Z; lia|]. rewrite E by lia. cbn [rbind].
    apply (text_more (j + m)); [exact G|lia].
  - intros d. constructor.
  - intros d a e args es X P _ F. constructor; [split; assumption|exact F].
Qed.
(** A line. *)
Lemma line_replaced l out st : expands macros (p_call st) l out -> p_macros st = macros ->
  exists st', after st (out ++ [TNl]) st' /\ line_does files stuck calc l st st'.
Proof.
  intros X M. destruct (proj1 expands_replaced _ _ _ X st M eq_refl) as (st1 & A & k & G).
  exists (print TNl st1). split; [apply (after_trans _ _ _ _ _ A (after_print TNl st1))|].
  exists (k + 1)%nat. intros rest C. unfold line_step.
  assert (D : parse_directive (l ++ TNl :: rest) = (Knon, l ++ TNl :: rest)).
  { apply expands_head in X. destruct l as [|t l]; [reflexivity|]. destruct X as [_ X]. destruct t; try discriminate X; reflexivity. }
  rewrite D. apply (G (TNl :: rest)); [exact C|]. reflexivity.
Qed.
(** An expression. *)
Lemma expr_more n m v s st r : f_expr (lvl n) v s st = Ok r -> (n <= m)%nat -> f_expr (lvl m) v s st = Ok r.
Proof. intros H L. eapply le_ok; [|exact H]. apply le_expr. apply le_lvl. exact L. Qed.
Lemma aside st o st1 : after (set_out (Some []) st) o st1 -> after st [] (set_out (p_out st) st1) /\ p_out st1 = Some o.
Proof.
  intros (B1 & B2 & B3 & B4 & B5 & B6 & B7 & B8). cbn in *. split; [|exact B8]. unfold after. cbn. repeat (split; [assumption|]).
  destruct (p_out st); [rewrite app_nil_r|]; reflexivity.
Qed.
Lemma expr_replaced d e out : expands macros d e out -> forall st pushed, p_macros st = macros -> p_call st = d ->
  (forall u v, out = u ++ v -> stuck (pushed ++ u) = false) ->
  exists st', after st [] st' /\ exists k, forall tail, calm tail -> forall n r,
    f_expr (lvl n) (pushed ++ out) tail st' = Ok r -> f_expr (lvl (k + n)) pushed (e ++ tail) st = Ok r.
Proof.
  induction 1 as [d|d t l out N H U Y IH|d n v l o out F D NO X P Y IH|d n k v args es op l o out F D OP L A FA X P Y IH]; intros st pushed M C K.
  - exists st. split; [apply after_refl|]. exists O. intros tail _ n r E. rewrite app_nil_r in E. exact E.
  - destruct (IH st (pushed ++ [t]) M C) as (st' & A & k & G).
    { intros u v Q. rewrite <- app_assoc. apply (K (t :: u) v). cbn. rewrite Q. reflexivity. }
    exists st'. split; [exact A|]. exists (S k). intros tail CT n r E.
    specialize (G tail CT n r). rewrite <- app_assoc in G. specialize (G E).
    pose proof (K [t] out eq_refl) as KT.
    cbn [app plus MacroModel.lvl f_expr step]. unfold expr_step. rewrite N. cbv zeta.
    destruct t as [| | |n0| | | | | | | | | |]; try discriminate H; try (cbn [is_hash]; rewrite ?KT; exact G).
    rewrite M, (U n0 eq_refl), KT. exact G.
  - destruct (name_call d n v o (set_out (Some []) st)) as (st1 & A1 & k & E);
      [cbn; rewrite M; exact F|exact X|apply (proj1 expands_replaced); exact X|exact M|exact C|].
    set (st2 := set_out (p_out st) st1). destruct (aside _ _ _ A1) as [A2 PO].
    destruct (IH st2 (pushed ++ o)) as (st' & A3 & j & G);
      [unfold st2; destruct A2 as (A2 & _); rewrite A2; exact M|unfold st2; destruct A2 as (_ & _ & A2 & _); rewrite A2; exact C| |].
    { intros u w Q. rewrite <- app_assoc. apply (K (o ++ u) w). rewrite Q, app_assoc. reflexivity. }
    exists st'. split; [apply (after_trans _ [] _ [] _ A2 A3)|]. exists (S (k + j)). intros tail CT m r R.
    specialize (G tail CT m r). rewrite <- app_assoc in G. specialize (G R).
    assert (CS : calm (l ++ tail)).
    { apply calm_line; [|exact CT]. apply expands_head in Y. destruct l; [exact Logic.I|]. split; [exact NO|apply Y]. }
    cbn [app plus MacroModel.lvl f_expr step]. unfold expr_step. cbn [is_nl]. cbv zeta. rewrite M, F.
    destruct (p_call st >? MAX_CALL_DEPTH) eqn:Z; [unfold MAX_CALL_DEPTH in Z; lia|]. rewrite E by (assumption || lia). cbn [rbind].
    rewrite PO, (K o out eq_refl). apply (expr_more (j + m)); [exact G|lia].
  - assert (F2 : Forall2 (fun a e => expands macros (d + 1) a e /\ replaced (d + 1) a e) args es) by (apply (proj2 expands_replaced); exact FA).
    destruct (fun_call d n k v args es op o (set_out (Some []) st)) as (st1 & A1 & j1 & E); try assumption;
      [cbn; rewrite M; exact F|apply (proj1 expands_replaced); exact X|].
    set (st2 := set_out (p_out st) st1). destruct (aside _ _ _ A1) as [A2 PO].
    destruct (IH st2 (pushed ++ o)) as (st' & A3 & j & G);
      [unfold st2; destruct A2 as (A2 & _); rewrite A2; exact M|unfold st2; destruct A2 as (_ & _ & A2 & _); rewrite A2; exact C| |].
    { intros u w Q. rewrite <- app_assoc. apply (K (o ++ u) w). rewrite Q, app_assoc. reflexivity. }
    exists st'. split; [apply (after_trans _ [] _ [] _ A2 A3)|]. exists (S (j1 + j)). intros tail CT m r R.
    specialize (G tail CT m r). rewrite <- app_assoc in G. specialize (G R).
    cbn [app]. rewrite <- app_assoc. cbn [app plus MacroModel.lvl f_expr step]. unfold expr_step. cbn [is_nl]. cbv zeta. rewrite M, F.
    destruct (p_call st >? MAX_CALL_DEPTH) eqn:Z; [unfold MAX_CALL_DEPTH in Z; lia|]. rewrite E by lia. cbn [rbind].
    rewrite PO, (K o out eq_refl). apply (expr_more (j + m)); [exact G|lia].
Qed.
Lemma value_replaced e out v st : expands macros (p_call st) e out -> e <> [] -> p_macros st = macros ->
  (forall u w, out = u ++ w -> stuck u = false) -> calc out = Some v ->
  exists st', after st [] st' /\ value_is files stuck calc e st v st'.
Proof.
  intros X NE M K V. destruct (expr_replaced _ _ _ X st [] M eq_refl K) as (st' & A & k & G).
  exists st'. split; [exact A|]. exists (k + 1)%nat. intros rest C. unfold parse_expression.
  assert (AE : at_end (e ++ TNl :: rest) = false).
  { apply expands_head in X. destruct e as [|t e]; [congruence|]. apply X. }
  rewrite AE. apply (G (TNl :: rest)); [exact C|]. cbn [app MacroModel.lvl f_expr step]. unfold expr_step. cbn [is_nl]. rewrite V. reflexivity.
Qed.
End Oracles.

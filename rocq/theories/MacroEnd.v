(** Every run comes to an end: what is left of a text only gets shorter, calls
    and inclusions are bounded in depth and loops in rounds. *)
From Verif Require Import Prelude MacroModel MacroSpec MacroSkip MacroProofs MacroRun MacroInv.
Local Open Scope Z_scope.

(** ** What is left is shorter *)
Definition gives {A} (r : res A) (Q : A -> Prop) : Prop := match r with Ok a => Q a | _ => True end.
Lemma gives_bind {A B} (r : res A) (f : A -> res B) Q Q' :
  gives r Q -> (forall a, Q a -> gives (f a) Q') -> gives (rbind r f) Q'.
Proof. intros H G. destruct r; cbn in *; [exact Logic.I|exact Logic.I|apply G; exact H]. Qed.
Lemma gives_weak {A} (r : res A) (Q Q' : A -> Prop) : gives r Q -> (forall a, Q a -> Q' a) -> gives r Q'.
Proof. destruct r; cbn; auto. Qed.

Definition rest3 {A} (s : list token) (x : A * list token * pst) : Prop := (length (snd (fst x)) <= length s)%nat.
Definition rest2 (s : list token) (x : list token * pst) : Prop := (length (fst x) <= length s)%nat.
Definition found3 (s : list token) (x : option kw * list token * pst) : Prop :=
  (length (snd (fst x)) <= length s)%nat /\ (fst (fst x) <> None -> (length (snd (fst x)) < length s)%nat).
Definition less2 (s : list token) (x : list token * pst) : Prop :=
  (length (fst x) <= length s)%nat /\ (s <> [] -> (length (fst x) < length s)%nat).

Lemma skip_lines_le s : (length (skip_lines s) <= length s)%nat.
Proof. induction s as [|t s IH]; [cbn; lia|]. destruct t; cbn [skip_lines length]; lia. Qed.
Lemma read_arg_le s : forall d acc a s', read_arg s d acc = Some (a, s') -> (length s' <= length s)%nat.
Proof.
  induction s as [|t s IH]; intros d acc a s' H; cbn [read_arg] in H.
  - destruct d; [injection H as <- <-; lia|discriminate].
  - destruct (is_nl t); [apply IH in H; cbn; lia|]. destruct d.
    + destruct (is_comma t || is_close t); [injection H as <- <-; lia|apply IH in H; cbn; lia].
    + apply IH in H. cbn. lia.
Qed.
Lemma read_params_le s : forall acc, (length (snd (read_params s acc)) <= length s)%nat.
Proof.
  assert (X : forall n s acc, (length s <= n)%nat -> (length (snd (read_params s acc)) <= length s)%nat).
  { clear s. induction n as [|n IH]; intros s acc L; (destruct s as [|t s]; [cbn; lia|]); cbn [length] in L; [lia|].
    cbn [read_params]. destruct (is_close t); [cbn; lia|]. destruct t; try (cbn; lia).
    destruct (index_of n0 acc); [cbn; lia|]. destruct s as [|t2 s]; [cbn; lia|].
    destruct (is_comma t2); [specialize (IH s (acc ++ [n0])); cbn in *; lia|].
    destruct (is_close t2 || is_nl t2); [specialize (IH (t2 :: s) (acc ++ [n0])); cbn [length] in *; lia|cbn; lia]. }
  intros acc. apply (X (length s)). lia.
Qed.
Lemma parse_args_le s : (length (snd (parse_args s)) <= length s)%nat.
Proof. destruct s as [|t s]; [cbn; lia|]. destruct t; try (cbn; lia). cbn [parse_args]. pose proof (read_params_le s []). cbn. lia. Qed.

Lemma skip_silent_short b s st : gives (skip_silent b s st) (found3 s).
Proof.
  unfold skip_silent. destruct (skip_block (skip_fuel s) [] b s (set_out None st)) as [[[k s'] st']|] eqn:E; cbn; [|exact Logic.I].
  apply (proj1 (skip_short _)) in E. exact E.
Qed.
Lemma skip_rest_short n : forall k s st, gives (skip_rest n k s st) (rest3 s).
Proof.
  induction n as [|n IH]; intros k s st; cbn [skip_rest].
  - destruct k as [k|]; [destruct k|]; cbn; try exact Logic.I; unfold rest3; cbn; lia.
  - assert (G : forall k0, gives (run ' (k, s, st) <- skip_silent k0 (skip_dir s) st; skip_rest n k s st) (rest3 s)).
    { intros k0. eapply gives_bind; [apply skip_silent_short|]. intros [[k1 s1] st1] [H _]. cbn in H.
      eapply gives_weak; [apply IH|]. unfold rest3. intros x X. pose proof (skip_dir_le s). lia. }
    destruct k as [k|]; [destruct k|]; try apply G; cbn; unfold rest3; cbn; lia.
Qed.

Section Oracles.
Variable files : Z -> option (list token).
Variable stuck : list token -> bool.
Variable calc : list token -> option Z.
Notation step := (step files stuck calc).
Notation lvl := (lvl files stuck calc).

Record short (R : fns) : Prop := mkShort {
  h_block b s st : gives (f_block R b s st) (found3 s);
  h_text s st : gives (f_text R s st) (less2 s);
  h_args v s st : gives (f_args R v s st) (rest3 s);
  h_expr p s st : gives (f_expr R p s st) (rest3 s);
  h_elif s st : gives (f_elif R s st) (rest3 s);
  h_while b s w i st : gives (f_while R b s w i st) (fun x => (length (fst x) <= Nat.max (length b) (length s))%nat) }.

Section Step.
Variable R : fns.
Hypothesis H : short R.
Set Default Proof Using "All".

Lemma args_short v s st : gives (args_step R v s st) (rest3 s).
Proof.
  unfold args_step. destruct (read_arg s 0 []) as [[arg s1]|] eqn:E; [|exact Logic.I]. apply read_arg_le in E.
  apply gives_bind with (Q := fun _ => True).
  - match goal with |- gives ?r _ => destruct r; exact Logic.I end.
  - intros [vals st1] _. destruct s1 as [|t s2]; [cbn; unfold rest3; cbn; lia|].
    destruct (is_close t); [cbn; unfold rest3; cbn in *; lia|]. eapply gives_weak; [apply (h_args _ H)|].
    unfold rest3. cbn in *. lia.
Qed.
Lemma replacement_short m s st : gives (parse_replacement R m s st) (rest3 s).
Proof.
  unfold parse_replacement. destruct m as [e v]. pose proof (skip_lines_le s) as L. destruct e.
  - apply gives_bind with (Q := fun _ => True); [destruct (preprocess R v st); exact Logic.I|]. intros st1 _. cbn. unfold rest3. cbn.
    destruct (skip_lines s) as [|t s1]; [lia|]. destruct (is_open t); [|lia]. pose proof (skip_lines_le s1) as L1.
    destruct (skip_lines s1) as [|t2 s2]; [lia|]. destruct (is_close t2); cbn in *; lia.
  - destruct (skip_lines s) as [|t s1]; [cbn; unfold rest3; cbn; lia|]. destruct (is_open t); [|cbn; unfold rest3; cbn; lia].
    eapply gives_bind; [apply (h_args _ H)|]. intros [[vals s2] st1] X. unfold rest3 in X. cbn in X, L.
    assert (Y : (length (match s2 with _ :: s3 => s3 | [] => [] end) <= length s)%nat) by (destruct s2; cbn in *; lia).
    destruct vals as [vs|]; [|exact Y]. destruct (length vs =? S e)%nat; [|exact Y].
    apply gives_bind with (Q := fun _ => True); [destruct (preprocess R (observe vs v) st1); exact Logic.I|]. intros st2 _. exact Y.
Qed.
Lemma call_short n m s st : gives (call R n m s st) (rest3 s).
Proof.
  unfold call. eapply gives_bind; [apply replacement_short|]. intros [[ok s1] st1] X. exact X.
Qed.
Lemma identifier_short n s st : gives (parse_identifier R n s st) (rest2 s).
Proof.
  unfold parse_identifier. destruct (find_macro n (p_macros st)); [|cbn; unfold rest2; cbn; lia].
  destruct (p_call st >? MAX_CALL_DEPTH); [cbn; unfold rest2; cbn; lia|].
  eapply gives_bind; [apply call_short|]. intros [[ok s1] st1] X. exact X.
Qed.
Lemma text_short s st : gives (text_step R s st) (less2 s).
Proof.
  unfold text_step. destruct s as [|t s]; [cbn; split; cbn; [lia|congruence]|].
  destruct (is_nl t); [cbn; split; cbn; [lia|intros _; lia]|].
  assert (G : forall s1 st1, (length s1 <= length s)%nat -> gives (f_text R s1 st1) (less2 (t :: s))).
  { intros s1 st1 L. eapply gives_weak; [apply (h_text _ H)|]. intros x [X _]. split; [cbn; lia|intros _; cbn; lia]. }
  destruct t; try (apply G; lia). eapply gives_bind; [apply identifier_short|]. intros [s1 st1] X. apply G. exact X.
Qed.
Lemma expr_short p s st : gives (expr_step stuck calc R p s st) (rest3 s).
Proof.
  unfold expr_step. destruct s as [|t s]; [destruct (calc p); cbn; unfold rest3; cbn; lia|].
  destruct (is_nl t); [destruct (calc p); cbn; unfold rest3; cbn; lia|].
  assert (P : forall s1 l st1, (length s1 <= length s)%nat ->
    gives (if stuck (p ++ l) then Ok (0, line_end s1, error_ false EXPRESSION st1) else f_expr R (p ++ l) s1 st1) (rest3 (t :: s))).
  { intros s1 l st1 L. destruct (stuck (p ++ l)); [cbn; unfold rest3; cbn; pose proof (line_end_le s1); lia|].
    eapply gives_weak; [apply (h_expr _ H)|]. unfold rest3. cbn. lia. }
  assert (V : forall st1, gives (Ok (0, line_end (t :: s), st1)) (rest3 (t :: s))).
  { intros st1. unfold gives, rest3. cbn [fst snd]. apply line_end_le. }
  destruct t; cbn [is_hash]; try (apply P; lia); try apply V.
  - destruct k; try apply V. eapply gives_weak; [apply (h_expr _ H)|]. unfold rest3. cbn. lia.
  - destruct (find_macro n (p_macros st)); [|apply P; lia]. destruct (p_call st >? MAX_CALL_DEPTH); [apply V|].
    eapply gives_bind; [apply call_short|]. intros [[ok s1] st1] X. unfold rest3 in X. cbn in X. destruct ok; [apply P; exact X|].
    cbn. unfold rest3. cbn. pose proof (line_end_le s1). lia.
Qed.
Lemma expression_short s st : gives (parse_expression R s st) (rest3 s).
Proof. unfold parse_expression. destruct (at_end s); [cbn; unfold rest3; cbn; lia|apply (h_expr _ H)]. Qed.
Lemma block_short s s0 b st : (length s <= length s0)%nat -> gives (f_block R b s st) (rest3 s0).
Proof. intros L. eapply gives_weak; [apply (h_block _ H)|]. intros x [X _]. unfold rest3. lia. Qed.
Lemma skip_dir_less s (s0 : list token) : (length s <= length s0)%nat -> (length (skip_dir s) <= length s0)%nat.
Proof. pose proof (skip_dir_le s). lia. Qed.
Lemma elif_short s st : gives (elif_step R s st) (rest3 s).
Proof.
  unfold elif_step. eapply gives_bind; [apply expression_short|]. intros [[v s1] st1] X. unfold rest3 in X. cbn in X.
  destruct (negb (v =? 0)).
  - eapply gives_bind; [apply block_short with (s0 := s); apply skip_dir_less; exact X|]. intros [[k s2] st2] Y. unfold rest3 in Y. cbn in Y.
    eapply gives_weak; [apply skip_rest_short|]. unfold rest3. lia.
  - eapply gives_bind; [apply skip_silent_short|]. intros [[k s2] st2] [Y _]. cbn in Y. pose proof (skip_dir_le s1) as L.
    assert (O : gives (Ok (k, s2, st2)) (rest3 s)) by (cbn; unfold rest3; cbn; lia).
    destruct k as [k|]; [destruct k|]; try exact O.
    + eapply gives_weak; [apply (h_elif _ H)|]. unfold rest3. lia.
    + apply block_short. apply skip_dir_less. lia.
Qed.
Lemma if_short s st : gives (parse_if R s st) (rest2 s).
Proof.
  unfold parse_if. eapply gives_bind; [apply (h_elif _ H)|]. intros [[k s1] st1] X. unfold rest3 in X. cbn in X.
  cbn. unfold rest2. cbn. apply skip_dir_less. exact X.
Qed.
Lemma ifdef_short k s st : gives (parse_ifdef_ifndef R k s st) (rest2 s).
Proof.
  unfold parse_ifdef_ifndef. apply gives_bind with (Q := rest3 s).
  - assert (E : gives (Ok (Some k, s, error_ false DIRECTIVE_NAME st)) (rest3 s)) by (cbn; unfold rest3; cbn; lia).
    destruct s as [|t s]; [exact E|]. destruct t; try exact E. clear E.
    assert (L : (length (skip_dir s) <= length (TName n :: s))%nat) by (apply skip_dir_less; cbn; lia).
    match goal with |- gives (if ?c then _ else _) _ => destruct c end; [apply block_short; exact L|].
    eapply gives_bind; [apply skip_silent_short|]. intros [[k2 s2] st2] [Y _]. cbn in Y.
    assert (O : gives (Ok (k2, s2, st2)) (rest3 (TName n :: s))) by (cbn; unfold rest3; cbn [fst snd]; lia).
    destruct k2 as [k2|]; [destruct k2|]; try exact O.
    + eapply gives_weak; [apply (h_elif _ H)|]. unfold rest3. intros x Z. lia.
    + apply block_short. apply skip_dir_less. lia.
  - intros [[k2 s2] st2] X. unfold rest3 in X. cbn in X. eapply gives_bind; [apply skip_rest_short|].
    intros [[k3 s3] st3] Y. unfold rest3 in Y. cbn in Y |- *. unfold rest2. cbn. apply skip_dir_less. lia.
Qed.
Lemma while_step_short b s w i st : gives (while_step R b s w i st) (fun x => (length (fst x) <= Nat.max (length b) (length s))%nat).
Proof.
  unfold while_step. eapply gives_bind; [apply block_short with (s0 := s); apply skip_dir_le|]. intros [[k e] st1] X. unfold rest3 in X. cbn in X.
  pose proof (skip_dir_le e) as L.
  destruct k as [k|]; [destruct k|]; try (cbn; lia).
  destruct (i + 1 >? MAX_ITERATION); [cbn; lia|]. destruct (p_err st1); [cbn; lia|].
  eapply gives_bind; [apply expression_short|]. intros [[v s2] st2] Y. unfold rest3 in Y. cbn in Y.
  destruct (v =? 0); [cbn; lia|]. eapply gives_weak; [apply (h_while _ H)|]. cbn. intros x. lia.
Qed.
Lemma while_short s st : gives (parse_while R s st) (rest2 s).
Proof.
  unfold parse_while. eapply gives_bind; [apply expression_short|]. intros [[v s1] st1] X. unfold rest3 in X. cbn in X.
  pose proof (skip_dir_le s1) as L. destruct (v =? 0).
  - eapply gives_bind; [apply skip_silent_short|]. intros [[k s2] st2] [Y _]. cbn in Y |- *. unfold rest2. cbn. apply skip_dir_less. lia.
  - eapply gives_weak; [apply (h_while _ H)|]. unfold rest2. intros x Y. lia.
Qed.
Lemma include_short s st : gives (parse_include files R s st) (rest2 s).
Proof.
  unfold parse_include. assert (L : (length (skip_dir s) <= length s)%nat) by apply skip_dir_le.
  destruct (p_incl st >=? MAX_INCLUDE_DEPTH); [exact L|].
  destruct s as [|t s]; [exact L|]. destruct t; try exact L.
  assert (L2 : (length (skip_dir s) <= length (TFile f :: s))%nat) by (apply skip_dir_less; cbn; lia).
  destruct (files f) as [text|]; [|exact L2]. destruct (existsb (Z.eqb f) (p_seen st)); [exact L2|].
  apply gives_bind with (Q := fun _ => True); [match goal with |- gives ?r _ => destruct r; exact Logic.I end|]. intros st1 _. exact L2.
Qed.
Lemma content_short ps s acc st : gives (parse_content R ps s acc st) (rest3 s).
Proof.
  assert (X : forall n s acc st, (length s <= n)%nat -> gives (parse_content R ps s acc st) (rest3 s)).
  { clear s acc st. induction n as [|n IH]; intros s acc st L; (destruct s as [|t s]; [cbn; unfold rest3; cbn; lia|]); cbn [length] in L; [lia|].
    cbn [parse_content]. destruct (is_nl t); [cbn; unfold rest3; cbn; lia|].
    assert (N : forall s1 acc1, (length s1 <= length s)%nat -> gives (parse_content R ps s1 acc1 st) (rest3 (t :: s))).
    { intros s1 acc1 Y. eapply gives_weak; [apply IH; lia|]. unfold rest3. cbn. lia. }
    assert (O : forall v s1 st1, (length s1 <= length s)%nat -> gives (Ok (v, s1, st1)) (@rest3 (option (list token)) (t :: s))).
    { intros v s1 st1 Y. cbn. unfold rest3. cbn. lia. }
    destruct t; cbn [is_hash]; try (apply N; lia); try (apply O; lia).
    - destruct k; try (apply O; lia). eapply gives_bind; [apply expression_short|]. intros [[v s1] st1] Y. unfold rest3 in Y. cbn in Y. apply O. exact Y.
    - destruct s as [|t s]; [apply O; cbn; lia|]. destruct t; try (apply O; cbn; lia).
      destruct (index_of n0 ps); [apply N; cbn; lia|apply O; cbn; lia].
    - destruct s as [|t s]; [apply O; cbn; lia|]. destruct t; try (apply O; cbn; lia).
      destruct (index_of n0 ps); [apply N; cbn; lia|apply O; cbn; lia]. }
  apply (X (length s)). lia.
Qed.
Lemma define_short s st : gives (parse_define R s st) (rest2 s).
Proof.
  unfold parse_define. assert (L : (length (skip_dir s) <= length s)%nat) by apply skip_dir_le.
  destruct s as [|t s]; [exact L|]. destruct t; try exact L. cbv zeta.
  pose proof (parse_args_le s) as A. destruct (parse_args s) as [params s2]. cbn in A.
  assert (G : forall s3 st1, (length s3 <= length s)%nat -> gives (Ok (skip_dir s3, st1)) (rest2 (TName n :: s))).
  { intros s3 st1 X. unfold gives, rest2. cbn [fst]. apply skip_dir_less. cbn. lia. }
  destruct params as [ps|]; [|apply G; lia].
  match goal with |- gives (match s2 with [] => ?d | _ => _ end) _ => assert (D : gives d (rest2 (TName n :: s))) end.
  { eapply gives_bind; [apply content_short|]. intros [[v s3] st3] X. unfold rest3 in X. cbn in X. apply G. lia. }
  destruct s2 as [|t s2]; [exact D|]. destruct t; try exact D. apply G. cbn in A. lia.
Qed.
Lemma undef_short s st : rest2 s (parse_undef s st).
Proof.
  unfold parse_undef. pose proof (skip_dir_le s) as L. destruct s as [|t s]; [exact L|]. destruct t; try exact L.
Qed.
Lemma macro_short s st : gives (parse_macro s st) (rest2 s).
Proof.
  unfold parse_macro.
  set (h := match s with TName n :: s1 => _ | _ => (None, None, s, error_ false DIRECTIVE_NAME st) end).
  assert (L : (length (snd (fst h)) <= length s)%nat); [|destruct h as [[[name params] s1] st1]].
  { subst h. destruct s as [|t s]; [cbn; lia|]. destruct t; try (cbn; lia). pose proof (parse_args_le s) as A. destruct (parse_args s). cbn in *. lia. }
  cbn in L. match goal with |- context [skip_block ?n ?a ?b ?c ?d] => destruct (skip_block n a b c d) as [[[k s2] st2]|] eqn:E end; [|exact Logic.I].
  apply (proj1 (skip_short _)) in E as [E _]. cbn. unfold rest2. cbn. apply skip_dir_less. pose proof (skip_dir_le s1). lia.
Qed.
Lemma eval_short s st : gives (parse_eval R s st) (rest2 s).
Proof.
  unfold parse_eval. eapply gives_bind; [apply expression_short|]. intros [[v s1] st1] X. unfold rest3 in X. cbn in X |- *.
  unfold rest2. cbn. apply skip_dir_less. exact X.
Qed.
Lemma rest_less r t s : gives r (rest2 s) -> gives r (less2 (t :: s)).
Proof. intros X. eapply gives_weak; [exact X|]. intros x Y. unfold rest2 in Y. split; [cbn; lia|intros _; cbn; lia]. Qed.
Lemma line_short s st : gives (line_step files R s st) (less2 s).
Proof.
  unfold line_step. destruct s as [|t s]; [apply (h_text _ H)|].
  destruct t; cbn [parse_directive]; try apply (h_text _ H).
  - destruct k; try apply (h_text _ H); apply rest_less.
    + apply include_short.
    + unfold gives, rest2. apply skip_dir_le.
    + apply define_short.
    + apply define_short.
    + cbn [gives]. apply undef_short.
    + apply eval_short.
  - apply rest_less. eapply gives_weak; [apply (h_text _ H)|]. intros x [X _]. exact X.
Qed.
Lemma block_step_short b s st : gives (block_step files R b s st) (found3 s).
Proof.
  unfold block_step. destruct s as [|t s]; [cbn; split; cbn; [lia|congruence]|].
  assert (Go : forall r, gives r (less2 (t :: s)) -> gives (run ' (s, st) <- r; f_block R b s st) (found3 (t :: s))).
  { intros r X. eapply gives_bind; [exact X|]. intros [s1 st1] [_ Y]. cbn [fst] in Y. specialize (Y ltac:(discriminate)).
    eapply gives_weak; [apply (h_block _ H)|]. intros x [U V]. split; [lia|intros W; lia]. }
  destruct t; cbn [parse_directive]; try (apply Go; apply line_short).
  assert (NX : gives (if parse_next b k then Ok (Some k, s, st)
     else run ' (s, st) <- Ok (skip_dir s, error_ false (next_error b k) st); f_block R b s st) (found3 (TKw k :: s))).
  { destruct (parse_next b k); [cbn; split; cbn; [lia|intros _; lia]|]. apply Go. apply rest_less. unfold gives, rest2. apply skip_dir_le. }
  destruct k; try exact NX; apply Go; try apply line_short; apply rest_less;
    [apply macro_short|apply ifdef_short|apply ifdef_short|apply if_short|apply while_short].
Qed.
Lemma short_step : short (step R).
Proof.
  constructor; cbn [f_block f_text f_args f_expr f_elif f_while MacroModel.step]; intros;
    [apply block_step_short|apply text_short|apply args_short|apply expr_short|apply elif_short|apply while_step_short].
Qed.
End Step.
Unset Default Proof Using.
Lemma short_lvl n : short (lvl n).
Proof. induction n as [|n IH]; [constructor; intros; exact Logic.I|apply short_step; exact IH]. Qed.
End Oracles.

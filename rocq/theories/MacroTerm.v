(** Every run comes to an end or to the place where the code goes round. *)
From Verif Require Import Prelude MacroModel MacroSpec MacroSkip MacroProofs MacroRun MacroInv MacroEnd.
Local Open Scope Z_scope.

Definition settles {A} (f : nat -> res A) : Prop :=
  exists n r, (forall m, (n <= m)%nat -> f m = r) /\ match r with Out _ => False | _ => True end.
Lemma settles_ok {A} (a : A) : settles (fun _ => Ok a).
Proof. exists O, (Ok a). split; [reflexivity|exact Logic.I]. Qed.
Lemma settles_hang {A} st : settles (fun _ => @Hang A st).
Proof. exists O, (Hang st). split; [reflexivity|exact Logic.I]. Qed.
Lemma settles_bind {A B} (f : nat -> res A) (g : nat -> A -> res B) :
  settles f -> (forall a, (exists n, f n = Ok a) -> settles (fun m => g m a)) -> settles (fun m => rbind (f m) (g m)).
Proof.
  intros (n & r & E & S) G. destruct r as [st|st|a]; [contradiction| |].
  - exists n, (Hang st). split; [|exact Logic.I]. intros m L. rewrite E by exact L. reflexivity.
  - destruct (G a) as (n2 & r2 & E2 & S2); [exists n; apply E; lia|].
    exists (Nat.max n n2), r2. split; [|exact S2]. intros m L. rewrite E by lia. cbn. apply E2. lia.
Qed.
Lemma settles_shift {A} (f : nat -> res A) : settles (fun m => f (S m)) -> settles f.
Proof.
  intros (n & r & E & S). exists (Datatypes.S n), r. split; [|exact S]. intros m L. destruct m as [|m]; [lia|]. apply E. lia.
Qed.
Lemma settles_eq {A} (f g : nat -> res A) : (forall n, f n = g n) -> settles f -> settles g.
Proof. intros H (n & r & E & S). exists n, r. split; [|exact S]. intros m L. rewrite <- H. apply E. exact L. Qed.
Lemma settles_const {A} (r : res A) : match r with Out _ => False | _ => True end -> settles (fun _ => r).
Proof. intros S. exists O, r. split; [reflexivity|exact S]. Qed.

Lemma skip_silent_settles b s st : settles (fun _ => skip_silent b s st).
Proof.
  apply settles_const. unfold skip_silent. pose proof (skip_block_ends [] b s (set_out None st)) as E.
  destruct (skip_block (skip_fuel s) [] b s (set_out None st)) as [[[k s1] st1]|]; [exact Logic.I|congruence].
Qed.
Lemma skip_rest_settles n : forall k s st, (length s < n)%nat -> settles (fun _ => skip_rest n k s st).
Proof.
  induction n as [|n IH]; intros k s st L; [lia|]. cbn [skip_rest].
  assert (G : forall k0, settles (fun _ => run ' (k, s, st) <- skip_silent k0 (skip_dir s) st; skip_rest n k s st)).
  { intros k0. apply settles_bind with (f := fun _ => _); [apply skip_silent_settles|]. intros [[k1 s1] st1] [_ X].
    pose proof (skip_silent_short k0 (skip_dir s) st) as Y. rewrite X in Y. destruct Y as [Y1 Y2]. cbn in Y1, Y2.
    pose proof (skip_dir_le s) as Z. destruct k1 as [k1|].
    - apply IH. specialize (Y2 ltac:(discriminate)). lia.
    - apply settles_eq with (f := fun _ => Ok (None, s1, st1)); [intros _; destruct n; reflexivity|]. apply settles_ok. }
  destruct k as [k|]; [destruct k|]; try apply G; apply settles_ok.
Qed.

Section Oracles.
Variable files : Z -> option (list token).
Variable stuck : list token -> bool.
Variable calc : list token -> option Z.
Notation step := (step files stuck calc).
Notation lvl := (lvl files stuck calc).

(** How many calls and inclusions are left. *)
Definition left_ (st : pst) : nat := (Z.to_nat (257 - p_call st) + Z.to_nat (32 - p_incl st))%nat.
Definition like (a b : pst) : Prop := p_call a = p_call b /\ p_incl a = p_incl b.
Lemma like_left a b : like a b -> left_ a = left_ b.
Proof. unfold left_. intros [-> ->]. reflexivity. Qed.
Lemma like_sane a b : like a b -> sane b -> sane a.
Proof. unfold sane. intros [-> ->]. tauto. Qed.
Lemma run_like {A} st (g : A -> pst) (r : res A) a : run_ok st g r -> r = Ok a -> like (g a) st.
Proof. intros H ->. cbn in H. destruct H as [u E]. split; [apply (e_call _ _ _ E)|apply (e_incl _ _ _ E)]. Qed.
Lemma like_trans a b c : like a b -> like b c -> like a c.
Proof. unfold like. intros [-> ->] [-> ->]. tauto. Qed.
Lemma like_core a b : core a = core b -> like a b.
Proof. unfold core, like. intros H. injection H as H1 H2 H3 H4 H5 H6 H7. tauto. Qed.
Lemma like_error m e st : like (error_ m e st) st.
Proof. unfold error_. destruct (p_quiet st && p_err st); split; reflexivity. Qed.
Lemma like_print t st : like (print t st) st.
Proof. apply like_core, core_print. Qed.
Lemma like_refl st : like st st. Proof. split; reflexivity. Qed.

(** The state asked for: with [D] calls and inclusions left. *)
Definition at_ (D : nat) (st : pst) : Prop := sane st /\ (left_ st <= D)%nat.
Lemma at_like D a b : like a b -> at_ D b -> at_ D a.
Proof. intros L [S H]. split; [apply like_sane with (b := b); assumption|rewrite (like_left _ _ L); exact H]. Qed.
Lemma at_error D m e st : at_ D st -> at_ D (error_ m e st).
Proof. apply at_like, like_error. Qed.
Lemma at_sane D st : at_ D st -> sane st. Proof. intros [H _]. exact H. Qed.

Definition texts_settle (D : nat) : Prop :=
  forall text st, at_ D st -> settles (fun n => preprocess (lvl n) text st).

(** ** Arguments, calls, lines of text and expressions *)
Section Depth.
Variable D : nat.
Lemma args_settle (T : texts_settle D) : forall s v st, at_ D st -> settles (fun n => f_args (lvl n) v s st).
Proof.
  assert (X : forall k s v st, (length s < k)%nat -> at_ D st -> settles (fun n => f_args (lvl n) v s st)).
  { induction k as [|k IH]; intros s v st L A; [lia|]. apply settles_shift. cbn [MacroModel.lvl f_args MacroModel.step].
    unfold args_step. destruct (read_arg s 0 []) as [[arg s1]|] eqn:E; [|apply settles_hang]. apply read_arg_le in E.
    set (b := match s1, arg with [], _ :: _ => true | _, _ => false end).
    set (st1 := if b then error_ false ARGS_UNTERMINATED st else st).
    assert (A1 : at_ D st1) by (subst st1; destruct b; [apply at_error|]; exact A).
    apply settles_bind.
    - destruct (if b then None else v); [|apply settles_ok]. apply settles_bind; [|intros [e st2] _; apply settles_ok].
      unfold parse_values. apply settles_bind; [apply T; exact A1|]. intros st2 _. apply settles_ok.
    - intros [vals st2] [n R]. assert (A2 : at_ D st2).
      { assert (G : run_ok st1 snd2 (match (if b then None else v) with None => Ok (None, st1)
           | Some vs => run ' (e, st) <- parse_values (lvl n) arg st1; Ok (Some (vs ++ [(arg, e)]), st) end)).
        { destruct (if b then None else v); [|apply ext_refl; apply (at_sane _ _ A1)].
          apply run_bind with (g := snd2); [apply (at_sane _ _ A1)|apply (values_ok files stuck calc); [apply good_lvl|apply (at_sane _ _ A1)]|].
          intros [e st3] S3. cbn. apply ext_refl. exact S3. }
        apply run_like with (a := (vals, st2)) in G; [|exact R]. apply at_like with (b := st1); assumption. }
      destruct s1 as [|t s2]; [apply settles_ok|]. destruct (is_close t); [apply settles_ok|].
      apply IH; [cbn in E; lia|exact A2]. }
  intros s v st. apply (X (S (length s))). lia.
Qed.
Lemma replacement_settles (T : texts_settle D) m s st : at_ D st -> settles (fun n => parse_replacement (lvl n) m s st).
Proof.
  intros A. unfold parse_replacement. destruct m as [e v]. destruct e.
  - apply settles_bind; [apply T; exact A|]. intros st1 _. apply settles_ok.
  - destruct (skip_lines s) as [|t s1]; [apply settles_ok|]. destruct (is_open t); [|apply settles_ok].
    apply settles_bind; [apply args_settle; [exact T|exact A]|]. intros [[vals s2] st1] [n R].
    assert (A1 : at_ D st1).
    { pose proof (g_args _ (good_lvl files stuck calc n) (Some []) s1 st (at_sane _ _ A)) as G.
      apply run_like with (a := (vals, s2, st1)) in G; [|exact R]. apply at_like with (b := st); assumption. }
    destruct vals as [vs|]; [|apply settles_ok]. destruct (length vs =? S e)%nat; [|apply settles_ok].
    apply settles_bind; [apply T; exact A1|]. intros st2 _. apply settles_ok.
Qed.
End Depth.

Section Depth2.
Variable D : nat.
Hypothesis T : forall D', (D' < D)%nat -> texts_settle D'.
Lemma call_settles n m s st : at_ D st -> p_call st <= 256 -> settles (fun k => call (lvl k) n m s st).
Proof.
  intros [S L] C. unfold call. apply settles_bind; [|intros [[ok s1] st1] _; apply settles_ok].
  assert (X : (left_ (event_ (ECall n) (set_call (p_call st + 1) st)) < D)%nat).
  { unfold left_ in *. cbn [event_ set_call p_call p_incl]. lia. }
  apply replacement_settles with (D := left_ (event_ (ECall n) (set_call (p_call st + 1) st))); [apply T; exact X|].
  destruct S as [S1 S2]. split; [split; cbn; lia|]. lia.
Qed.
Lemma call_like k n m s st a : sane st -> p_call st <= 256 -> call (lvl k) n m s st = Ok a -> like (snd3 a) st.
Proof. intros S C. apply run_like. apply (call_ok files stuck calc); [apply good_lvl|exact S|exact C]. Qed.
Lemma identifier_settles n s st : at_ D st -> settles (fun k => parse_identifier (lvl k) n s st).
Proof.
  intros A. unfold parse_identifier. destruct (find_macro n (p_macros st)); [|apply settles_ok].
  destruct (p_call st >? MAX_CALL_DEPTH) eqn:C; [apply settles_ok|]. unfold MAX_CALL_DEPTH in C.
  apply settles_bind; [apply call_settles; [exact A|lia]|]. intros [[ok s1] st1] _. apply settles_ok.
Qed.
Lemma text_settles : forall s st, at_ D st -> settles (fun k => f_text (lvl k) s st).
Proof.
  assert (X : forall k s st, (length s < k)%nat -> at_ D st -> settles (fun n => f_text (lvl n) s st)).
  { induction k as [|k IH]; intros s st L A; [lia|]. apply settles_shift. cbn [MacroModel.lvl f_text MacroModel.step].
    unfold text_step. destruct s as [|t s]; [apply settles_ok|]. cbn in L. destruct (is_nl t); [apply settles_ok|].
    assert (N : settles (fun n => f_text (lvl n) s (print t (if is_hash t then error_ false HASH_STRAY st else st)))).
    { apply IH; [lia|]. apply at_like with (b := if is_hash t then error_ false HASH_STRAY st else st); [apply like_print|].
      destruct (is_hash t); [apply at_error|]; exact A. }
    destruct t; try exact N.
    apply settles_bind; [apply identifier_settles; exact A|]. intros [s1 st1] [m R]. apply IH.
    - pose proof (identifier_short files stuck calc _ (short_lvl files stuck calc m) n s st) as Y. rewrite R in Y. unfold gives, rest2 in Y. cbn in Y. lia.
    - pose proof (identifier_ok files stuck calc (lvl m) (good_lvl files stuck calc m) n s st (at_sane _ _ A)) as G.
      apply run_like with (a := (s1, st1)) in G; [|exact R]. apply at_like with (b := st); assumption. }
  intros s st. apply (X (S (length s))). lia.
Qed.
Lemma expr_settles : forall s p st, at_ D st -> settles (fun k => f_expr (lvl k) p s st).
Proof.
  assert (X : forall k s p st, (length s < k)%nat -> at_ D st -> settles (fun n => f_expr (lvl n) p s st)).
  { induction k as [|k IH]; intros s p st L A; [lia|]. apply settles_shift. cbn [MacroModel.lvl f_expr MacroModel.step].
    unfold expr_step. destruct s as [|t s]; [destruct (calc p); apply settles_ok|]. cbn in L.
    destruct (is_nl t); [destruct (calc p); apply settles_ok|].
    assert (P : forall s1 l st1, (length s1 <= length s)%nat -> at_ D st1 ->
      settles (fun n => if stuck (p ++ l) then Ok (0, line_end s1, error_ false EXPRESSION st1) else f_expr (lvl n) (p ++ l) s1 st1)).
    { intros s1 l st1 L1 A1. destruct (stuck (p ++ l)); [apply settles_ok|apply IH; [lia|exact A1]]. }
    destruct t; cbn [is_hash]; try (apply P; [lia|exact A]); try apply settles_ok.
    - destruct k0; try apply settles_ok. apply IH; [lia|exact A].
    - destruct (find_macro n (p_macros st)); [|apply P; [lia|exact A]].
      destruct (p_call st >? MAX_CALL_DEPTH) eqn:C; [apply settles_ok|]. unfold MAX_CALL_DEPTH in C.
      apply settles_bind; [apply call_settles; [exact A|cbn; lia]|]. intros [[ok s1] st1] [m R].
      pose proof (call_short files stuck calc _ (short_lvl files stuck calc m) n p0 s (set_out (Some []) st)) as Y. rewrite R in Y. unfold gives, rest3 in Y. cbn in Y.
      apply call_like in R; [|apply (at_sane _ _ A)|cbn; lia]. destruct ok; [|apply settles_ok]. apply P; [exact Y|].
      apply at_like with (b := st); [|exact A]. exact R. }
  intros s p st. apply (X (S (length s))). lia.
Qed.
Lemma expression_settles s st : at_ D st -> settles (fun k => parse_expression (lvl k) s st).
Proof. intros A. unfold parse_expression. destruct (at_end s); [apply settles_ok|apply expr_settles; exact A]. Qed.
Lemma expression_after n s st v s1 st1 : at_ D st -> parse_expression (lvl n) s st = Ok (v, s1, st1) ->
  at_ D st1 /\ (length s1 <= length s)%nat.
Proof.
  intros A R. split.
  - pose proof (expression_ok files stuck calc (lvl n) (good_lvl files stuck calc n) s st (at_sane _ _ A)) as G.
    apply run_like with (a := (v, s1, st1)) in G; [|exact R]. apply at_like with (b := st); assumption.
  - pose proof (expression_short files stuck calc _ (short_lvl files stuck calc n) s st) as Y. rewrite R in Y. exact Y.
Qed.
Lemma include_settles s st : at_ D st -> settles (fun k => parse_include files (lvl k) s st).
Proof.
  intros [S L]. unfold parse_include. destruct (p_incl st >=? MAX_INCLUDE_DEPTH) eqn:C; [apply settles_ok|]. unfold MAX_INCLUDE_DEPTH in C.
  destruct s as [|t s]; [apply settles_ok|]. destruct t; try apply settles_ok.
  destruct (files f) as [text|]; [|apply settles_ok]. destruct (existsb (Z.eqb f) (p_seen st)); [apply settles_ok|].
  set (st0 := event_ (EOpen f) (set_incl (p_incl st + 1) (set_seen (f :: p_seen st) st))).
  apply settles_bind; [|intros st1 _; apply settles_ok].
  assert (X : (left_ st0 < D)%nat) by (unfold left_, st0 in *; cbn [event_ set_incl set_seen p_call p_incl]; lia).
  apply (T _ X). destruct S as [S1 S2]. split; [split; cbn; lia|lia].
Qed.
Lemma content_settles ps s : forall acc st, at_ D st -> settles (fun k => parse_content (lvl k) ps s acc st).
Proof.
  assert (X : forall n s acc st, (length s <= n)%nat -> at_ D st -> settles (fun k => parse_content (lvl k) ps s acc st)).
  { clear s. induction n as [|n IH]; intros s acc st L A; (destruct s as [|t s]; [apply settles_ok|]); cbn [length] in L; [lia|].
    cbn [parse_content]. destruct (is_nl t); [apply settles_ok|].
    destruct t; cbn [is_hash]; try (apply IH; [lia|exact A]); try apply settles_ok.
    - destruct k; try apply settles_ok. apply settles_bind; [apply expression_settles; exact A|]. intros [[v s1] st1] _. apply settles_ok.
    - destruct s as [|t s]; [apply settles_ok|]. destruct t; try apply settles_ok.
      destruct (index_of n0 ps); [apply IH; [cbn in L; lia|exact A]|apply settles_ok].
    - destruct s as [|t s]; [apply settles_ok|]. destruct t; try apply settles_ok.
      destruct (index_of n0 ps); [apply IH; [cbn in L; lia|exact A]|apply settles_ok]. }
  intros acc st. apply (X (length s)). lia.
Qed.
Lemma define_settles s st : at_ D st -> settles (fun k => parse_define (lvl k) s st).
Proof.
  intros A. unfold parse_define. destruct s as [|t s]; [apply settles_ok|]. destruct t; try apply settles_ok. cbv zeta.
  set (st1 := match find_macro n (p_macros st) with Some _ => st | None => _ end).
  assert (A1 : at_ D st1) by (subst st1; destruct (find_macro n (p_macros st)); exact A). clearbody st1.
  destruct (parse_args s) as [params s2]. destruct params as [ps|]; [|apply settles_ok].
  match goal with |- settles (fun k => match s2 with [] => @?d k | _ => _ end) => assert (G : settles d) end.
  { apply settles_bind; [apply content_settles; exact A1|]. intros [[v s3] st3] _. apply settles_ok. }
  destruct s2 as [|t s2]; [exact G|]. destruct t; try exact G. apply settles_ok.
Qed.
Lemma macro_settles s st : settles (fun _ => parse_macro s st).
Proof.
  apply settles_const. unfold parse_macro.
  set (h := match s with TName n :: s1 => _ | _ => (None, None, s, error_ false DIRECTIVE_NAME st) end).
  destruct h as [[[name params] s1] st1].
  match goal with |- context [skip_block (skip_fuel ?c) ?a ?b ?c ?d] =>
    pose proof (skip_block_ends a b c d) as E; destruct (skip_block (skip_fuel c) a b c d) as [[[k s2] st2]|] end; [exact Logic.I|congruence].
Qed.
Lemma line_settles s st : at_ D st -> settles (fun k => line_step files (lvl k) s st).
Proof.
  intros A. unfold line_step. destruct s as [|t s]; [apply text_settles; exact A|].
  destruct t; cbn [parse_directive]; try (apply text_settles; exact A).
  - destruct k; try (apply text_settles; exact A); try apply settles_ok.
    + apply include_settles. exact A.
    + apply define_settles. exact A.
    + apply define_settles. exact A.
    + unfold parse_eval. apply settles_bind; [apply expression_settles; exact A|]. intros [[v s1] st1] _. apply settles_ok.
  - apply text_settles. apply at_like with (b := error_ false DIRECTIVE_INVALID st); [apply like_print|apply at_error; exact A].
Qed.

(** ** Blocks *)
Definition blocks_settle (L : nat) : Prop :=
  forall b s st, (length s <= L)%nat -> at_ D st -> settles (fun n => f_block (lvl n) b s st).
Lemma block_after n b s st k s1 st1 : at_ D st -> f_block (lvl n) b s st = Ok (k, s1, st1) ->
  at_ D st1 /\ (length s1 <= length s)%nat.
Proof.
  intros A R. split.
  - pose proof (g_block _ (good_lvl files stuck calc n) b s st (at_sane _ _ A)) as G.
    apply run_like with (a := (k, s1, st1)) in G; [|exact R]. apply at_like with (b := st); assumption.
  - pose proof (h_block _ (short_lvl files stuck calc n) b s st) as Y. rewrite R in Y. destruct Y as [Y _]. exact Y.
Qed.
Lemma silent_after b s st k s1 st1 : at_ D st -> skip_silent b s st = Ok (k, s1, st1) ->
  at_ D st1 /\ (length s1 <= length s)%nat /\ (k <> None -> (length s1 < length s)%nat).
Proof.
  intros A R. split.
  - pose proof (skip_silent_ok b s st (at_sane _ _ A)) as G.
    apply run_like with (a := (k, s1, st1)) in G; [|exact R]. apply at_like with (b := st); assumption.
  - pose proof (skip_silent_short b s st) as Y. rewrite R in Y. exact Y.
Qed.
Lemma elif_settles L (B : blocks_settle L) : forall s st, (length s <= L)%nat -> at_ D st -> settles (fun n => f_elif (lvl n) s st).
Proof.
  assert (X : forall k s st, (length s < k)%nat -> (length s <= L)%nat -> at_ D st -> settles (fun n => f_elif (lvl n) s st)).
  { induction k as [|k IH]; intros s st K SL A; [lia|]. apply settles_shift. cbn [MacroModel.lvl f_elif MacroModel.step].
    unfold elif_step. apply settles_bind; [apply expression_settles; exact A|]. intros [[v s1] st1] [n R].
    apply expression_after in R as [A1 L1]; [|exact A]. pose proof (skip_dir_le s1) as L2.
    destruct (negb (v =? 0)).
    - apply settles_bind; [apply B; [lia|exact A1]|]. intros [[k2 s2] st2] _. apply skip_rest_settles. lia.
    - apply settles_bind with (f := fun _ => _); [apply skip_silent_settles|]. intros [[k2 s2] st2] [_ Q].
      apply silent_after in Q as (A2 & L3 & L4); [|exact A1].
      destruct k2 as [k2|]; [destruct k2|]; try apply settles_ok.
      + apply IH; [specialize (L4 ltac:(discriminate)); lia|lia|exact A2].
      + apply B; [|exact A2]. pose proof (skip_dir_le s2). lia. }
  intros s st. apply (X (S (length s))). lia.
Qed.
Lemma ifdef_settles L (B : blocks_settle L) k s st : (length s <= L)%nat -> at_ D st -> settles (fun n => parse_ifdef_ifndef (lvl n) k s st).
Proof.
  intros SL A. unfold parse_ifdef_ifndef. apply settles_bind.
  - destruct s as [|t s]; [apply settles_ok|]. destruct t; try apply settles_ok. cbn in SL. cbv zeta.
    pose proof (skip_dir_le s) as L1.
    match goal with |- settles (fun n => if ?c then _ else _) => destruct c end; [apply B; [lia|exact A]|].
    apply settles_bind with (f := fun _ => _); [apply skip_silent_settles|]. intros [[k2 s2] st2] [_ Q].
    apply silent_after in Q as (A2 & L3 & L4); [|exact A].
    destruct k2 as [k2|]; [destruct k2|]; try apply settles_ok.
    + apply elif_settles with (L := L); [exact B|lia|exact A2].
    + apply B; [|exact A2]. pose proof (skip_dir_le s2). lia.
  - intros [[k2 s2] st2] _. apply settles_bind with (f := fun _ => _); [apply skip_rest_settles; lia|].
    intros [[k3 s3] st3] _. apply settles_ok.
Qed.
Lemma while_settles L (B : blocks_settle L) b (LB : (length b <= L)%nat) w : forall k s i st,
  32768 - i <= Z.of_nat k -> (length s <= L)%nat -> at_ D st -> settles (fun n => f_while (lvl n) b s w i st).
Proof.
  induction k as [|k IH]; intros s i st K SL A; apply settles_shift; cbn [MacroModel.lvl f_while MacroModel.step]; unfold while_step;
    (apply settles_bind; [apply B; [pose proof (skip_dir_le s); lia|exact A]|]); intros [[k2 e] st1] [n R];
    (apply block_after in R as [A1 _]; [|exact A]); (destruct k2 as [k2|]; [destruct k2|]; try apply settles_ok);
    (destruct (i + 1 >? MAX_ITERATION) eqn:M; [apply settles_ok|]); unfold MAX_ITERATION in M; [lia|].
  destruct (p_err st1); [apply settles_ok|].
  apply settles_bind; [apply expression_settles; exact A1|]. intros [[v s2] st2] [m R].
  apply expression_after in R as [A2 L2]; [|exact A1]. destruct (v =? 0); [apply settles_ok|]. apply IH; [lia|lia|exact A2].
Qed.
Lemma go_settles L b r : blocks_settle L -> settles r ->
  (forall n s1 st1, r n = Ok (s1, st1) -> (length s1 <= L)%nat /\ at_ D st1) ->
  settles (fun n => run ' (s, st) <- r n; f_block (lvl n) b s st).
Proof.
  intros B S H. apply settles_bind; [exact S|]. intros [s1 st1] [n R]. destruct (H n s1 st1 R) as [L1 A1]. apply B; assumption.
Qed.
Lemma blocks_step L : blocks_settle L -> blocks_settle (S L).
Proof.
  intros B b s st SL A. apply settles_shift. cbn [MacroModel.lvl f_block MacroModel.step]. unfold block_step.
  destruct s as [|t s]; [apply settles_ok|]. cbn [length] in SL.
  assert (Li : settles (fun n => run ' (s, st) <- line_step files (lvl n) (t :: s) st; f_block (lvl n) b s st)).
  { apply go_settles with (L := L); [exact B|apply line_settles; exact A|]. intros n s1 st1 R. split.
    - pose proof (line_short files stuck calc _ (short_lvl files stuck calc n) (t :: s) st) as Y. rewrite R in Y. destruct Y as [_ Y].
      specialize (Y ltac:(discriminate)). cbn in Y. lia.
    - pose proof (line_ok files stuck calc (lvl n) (good_lvl files stuck calc n) (t :: s) st (at_sane _ _ A)) as G.
      apply run_like with (a := (s1, st1)) in G; [|exact R]. apply at_like with (b := st); assumption. }
  destruct t; cbn [parse_directive]; try exact Li.
  assert (Go : forall r, settles r -> (forall n, gives (r n) (rest2 s)) -> (forall n, run_ok st snd2 (r n)) ->
     settles (fun n => run ' (s, st) <- r n; f_block (lvl n) b s st)).
  { intros r S Q G. apply go_settles with (L := L); [exact B|exact S|]. intros n s1 st1 R. split.
    - specialize (Q n). rewrite R in Q. unfold gives, rest2 in Q. cbn in Q. lia.
    - apply at_like with (b := st); [|exact A]. apply (run_like st snd2 (r n) (s1, st1)); [apply G|exact R]. }
  assert (NX : settles (fun n => if parse_next b k then Ok (Some k, s, st)
     else run ' (s, st) <- Ok (skip_dir s, error_ false (next_error b k) st); f_block (lvl n) b s st)).
  { destruct (parse_next b k); [apply settles_ok|]. apply Go with (r := fun _ => Ok _); [apply settles_ok| |]; intros _.
    - unfold gives, rest2. apply skip_dir_le.
    - cbn. apply ext_error. apply (at_sane _ _ A). }
  destruct k; try exact NX; try exact Li.
  - apply Go with (r := fun _ => _); [apply macro_settles| |]; intros n; [apply (macro_short files stuck calc (lvl O) (short_lvl files stuck calc O))|apply (macro_ok files stuck calc (lvl O) (good_lvl files stuck calc O)); apply (at_sane _ _ A)].
  - apply Go; [|intros n; apply (ifdef_short files stuck calc), short_lvl|intros n; apply (ifdef_ok files stuck calc); [apply good_lvl|apply (at_sane _ _ A)]].
    apply ifdef_settles with (L := L); [exact B|lia|exact A].
  - apply Go; [|intros n; apply (ifdef_short files stuck calc), short_lvl|intros n; apply (ifdef_ok files stuck calc); [apply good_lvl|apply (at_sane _ _ A)]].
    apply ifdef_settles with (L := L); [exact B|lia|exact A].
  - apply Go; [|intros n; apply (if_short files stuck calc), short_lvl|intros n; apply (if_ok files stuck calc); [apply good_lvl|apply (at_sane _ _ A)]].
    unfold parse_if. apply settles_bind; [apply elif_settles with (L := L); [exact B|lia|exact A]|]. intros [[k s1] st1] _. apply settles_ok.
  - apply Go; [|intros n; apply (while_short files stuck calc), short_lvl|intros n; apply (while_ok_ext files stuck calc); [apply good_lvl|apply (at_sane _ _ A)]].
    unfold parse_while. apply settles_bind; [apply expression_settles; exact A|]. intros [[v s1] st1] [n R].
    apply expression_after in R as [A1 L1]; [|exact A]. destruct (v =? 0).
    + apply settles_bind with (f := fun _ => _); [apply skip_silent_settles|]. intros [[k s2] st2] _. apply settles_ok.
    + apply while_settles with (L := L) (k := Z.to_nat 32768); [exact B|lia|lia|lia|exact A1].
Qed.
Lemma blocks_all L : blocks_settle L.
Proof.
  induction L as [|L IH]; [|apply blocks_step; exact IH]. intros b s st SL A. destruct s as [|t s]; [|cbn in SL; lia].
  apply settles_shift. cbn. apply settles_ok.
Qed.
Lemma texts_step : texts_settle D.
Proof.
  intros text st A. unfold preprocess. apply settles_bind; [apply (blocks_all (length text)); [lia|exact A]|].
  intros [[k s] st1] _. apply settles_ok.
Qed.
End Depth2.
Lemma texts_all D : texts_settle D.
Proof.
  assert (X : forall n D, (D < n)%nat -> texts_settle D).
  { induction n as [|n IH]; intros d L; [lia|]. apply texts_step. intros D' L'. apply IH. lia. }
  apply (X (S D)). lia.
Qed.
Lemma preprocess_settles text st : sane st -> settles (fun n => preprocess (lvl n) text st).
Proof. intros S. apply (texts_all (left_ st)). split; [exact S|lia]. Qed.
Lemma preprocess_after n text st st1 : sane st -> preprocess (lvl n) text st = Ok st1 -> ext st st1 /\ sane st1.
Proof.
  intros S R. pose proof (preprocess_ok files stuck calc (lvl n) (good_lvl files stuck calc n) text st S) as G.
  rewrite R in G. cbn in G. split; [exact G|apply ext_sane with (st := st); assumption].
Qed.
Lemma sources_settle l : forall ret st, sane st -> settles (fun n => sources files stuck calc n l ret st).
Proof.
  induction l as [|f l IH]; intros ret st S; cbn [sources]; [apply settles_ok|].
  destruct (ret && p_quiet st); [apply settles_ok|]. destruct (files f) as [text|]; [|apply IH; exact S].
  apply settles_bind; [apply preprocess_settles; exact S|]. intros st1 [n R]. apply IH. apply preprocess_after in R as [_ R]; [exact R|exact S].
Qed.
End Oracles.

(** Where the code goes round without reading, an error has been marked. *)
From Verif Require Import Prelude MacroModel MacroSpec MacroSkip MacroProofs MacroRun.
Local Open Scope Z_scope.

Definition hung {A} (r : res A) : Prop := match r with Hang st => p_err st = true | _ => True end.
Lemma hung_bind {A B} (r : res A) (f : A -> res B) : hung r -> (forall a, hung (f a)) -> hung (rbind r f).
Proof. intros H G. destruct r; cbn in *; [exact Logic.I|exact H|apply G]. Qed.
Lemma hung_ok {A} (a : A) : hung (Ok a). Proof. exact Logic.I. Qed.
Lemma hung_silent b s st : hung (skip_silent b s st).
Proof. unfold skip_silent. destruct (skip_block _ _ _ _ _) as [[[k s1] st1]|]; exact Logic.I. Qed.
Lemma hung_rest n : forall k s st, hung (skip_rest n k s st).
Proof.
  induction n as [|n IH]; intros k s st; cbn [skip_rest].
  - destruct k as [k|]; [destruct k|]; exact Logic.I.
  - assert (G : forall k0, hung (run ' (k, s, st) <- skip_silent k0 (skip_dir s) st; skip_rest n k s st)).
    { intros k0. apply hung_bind; [apply hung_silent|]. intros [[k1 s1] st1]. apply IH. }
    destruct k as [k|]; [destruct k|]; try apply G; exact Logic.I.
Qed.

Section Oracles.
Variable files : Z -> option (list token).
Variable stuck : list token -> bool.
Variable calc : list token -> option Z.
Notation step := (step files stuck calc).
Notation lvl := (lvl files stuck calc).
Record hungs (R : fns) : Prop := mkHung {
  n_block b s st : hung (f_block R b s st);
  n_text s st : hung (f_text R s st);
  n_args v s st : hung (f_args R v s st);
  n_expr p s st : hung (f_expr R p s st);
  n_elif s st : hung (f_elif R s st);
  n_while b s w i st : hung (f_while R b s w i st) }.
Section Step.
Variable R : fns.
Hypothesis H : hungs R.
Ltac go :=
  repeat first
    [ apply hung_ok | apply (n_block _ H) | apply (n_text _ H) | apply (n_args _ H) | apply (n_expr _ H) | apply (n_elif _ H)
    | apply (n_while _ H) | apply hung_silent | apply hung_rest
    | progress cbv zeta
    | match goal with
      | |- hung (rbind _ _) => apply hung_bind
      | |- forall x, _ => intro
      | |- hung (let '(_, _) := ?p in _) => destruct p
      | |- hung (match ?x with _ => _ end) => destruct x
      end ].
Lemma hung_preprocess t st : hung (preprocess R t st).
Proof. unfold preprocess. go. Qed.
Lemma hung_args v s st : hung (args_step R v s st).
Proof.
  unfold args_step, parse_values. destruct (read_arg s 0 []) as [[arg s1]|]; [|cbn; apply error_sets].
  apply hung_bind; [|intros [vals st1]; go].
  match goal with |- hung (match ?x with _ => _ end) => destruct x end; [|go].
  apply hung_bind; [|go]. apply hung_bind; [apply hung_preprocess|go].
Qed.
Lemma hung_call n m s st : hung (call R n m s st).
Proof.
  unfold call. apply hung_bind; [|go]. unfold parse_replacement. destruct m as [e v]. destruct e.
  - apply hung_bind; [apply hung_preprocess|go].
  - destruct (skip_lines s); [go|]. destruct (is_open t); [|go]. apply hung_bind; [go|]. intros [[vals s2] st2].
    destruct vals; [|go]. destruct (length l0 =? S e)%nat; [|go]. apply hung_bind; [apply hung_preprocess|go].
Qed.
Lemma hung_text s st : hung (text_step R s st).
Proof.
  unfold text_step. destruct s as [|t s]; [go|]. destruct (is_nl t); [go|]. destruct t; try solve [go].
  apply hung_bind; [|go]. unfold parse_identifier. destruct (find_macro n (p_macros st)); [|go].
  destruct (p_call st >? MAX_CALL_DEPTH); [go|]. apply hung_bind; [apply hung_call|go].
Qed.
Lemma hung_expr p s st : hung (expr_step stuck calc R p s st).
Proof.
  unfold expr_step. destruct s as [|t s]; [go|]. destruct (is_nl t); [go|]. destruct t; try solve [go].
  destruct (find_macro n (p_macros st)); [|go]. destruct (p_call st >? MAX_CALL_DEPTH); [go|]. apply hung_bind; [apply hung_call|go].
Qed.
Lemma hung_expression s st : hung (parse_expression R s st).
Proof. unfold parse_expression. go. Qed.
Lemma hung_content ps s : forall acc st, hung (parse_content R ps s acc st).
Proof.
  assert (X : forall n s acc st, (length s <= n)%nat -> hung (parse_content R ps s acc st)).
  { clear s. induction n as [|n IH]; intros s acc st L; (destruct s as [|t s]; [go|]); cbn [length] in L; [lia|].
    cbn [parse_content]. destruct (is_nl t); [go|].
    destruct t; cbn [is_hash]; try (apply IH; lia); try solve [go].
    - destruct k; try solve [go]. apply hung_bind; [apply hung_expression|go].
    - destruct s as [|t s]; [go|]. destruct t; try solve [go]. destruct (index_of n0 ps); [apply IH; cbn in L; lia|go].
    - destruct s as [|t s]; [go|]. destruct t; try solve [go]. destruct (index_of n0 ps); [apply IH; cbn in L; lia|go]. }
  intros acc st. apply (X (length s)). lia.
Qed.
Lemma hung_line s st : hung (line_step files R s st).
Proof.
  unfold line_step. destruct (parse_directive s) as [kd s1]. destruct kd as [k| |]; [|go|go]. destruct k; try solve [go].
  - unfold parse_include. destruct (p_incl st >=? MAX_INCLUDE_DEPTH); [go|]. destruct s1 as [|t s1]; [go|]. destruct t; try solve [go].
    destruct (files f); [|go]. destruct (existsb (Z.eqb f) (p_seen st)); [go|]. apply hung_bind; [apply hung_preprocess|go].
  - unfold parse_define. destruct s1 as [|t s1]; [go|]. destruct t; try solve [go]. cbv zeta. destruct (parse_args s1) as [ps s2].
    destruct ps as [ps|]; [|go].
    destruct s2 as [|t s2]; [|destruct t]; try solve [go]; (apply hung_bind; [apply hung_content|go]).
  - unfold parse_define. destruct s1 as [|t s1]; [go|]. destruct t; try solve [go]. cbv zeta. destruct (parse_args s1) as [ps s2].
    destruct ps as [ps|]; [|go].
    destruct s2 as [|t s2]; [|destruct t]; try solve [go]; (apply hung_bind; [apply hung_content|go]).
  - unfold parse_eval. apply hung_bind; [apply hung_expression|go].
Qed.
Lemma hung_macro s st : hung (parse_macro s st).
Proof.
  unfold parse_macro. destruct (match s with TName n :: s1 => _ | _ => (None, None, s, error_ false DIRECTIVE_NAME st) end) as [[[a b] c] d].
  cbv zeta. match goal with |- hung (match ?x with _ => _ end) => destruct x as [[[k s2] st2]|] end; exact Logic.I.
Qed.
Lemma hung_block b s st : hung (block_step files R b s st).
Proof.
  unfold block_step. destruct s as [|t s]; [go|]. destruct (parse_directive (t :: s)) as [kd s1]. destruct kd as [k| |];
    try (apply hung_bind; [apply hung_line|go]).
  destruct k; try (apply hung_bind; [apply hung_line|go]); try solve [go].
  - apply hung_bind; [apply hung_macro|go].
  - apply hung_bind; [unfold parse_ifdef_ifndef; go|go].
  - apply hung_bind; [unfold parse_ifdef_ifndef; go|go].
  - apply hung_bind; [unfold parse_if; go|go].
  - apply hung_bind; [|go]. unfold parse_while. apply hung_bind; [apply hung_expression|go].
Qed.
Lemma hung_elif s st : hung (elif_step R s st).
Proof. unfold elif_step. apply hung_bind; [apply hung_expression|go]. Qed.
Lemma hung_while b s w i st : hung (while_step R b s w i st).
Proof.
  unfold while_step. apply hung_bind; [go|]. intros [[k e] st1]. destruct k as [k|]; [destruct k|]; try solve [go].
  cbv zeta. destruct (i + 1 >? MAX_ITERATION); [go|]. destruct (p_err st1); [go|]. apply hung_bind; [apply hung_expression|go].
Qed.
Lemma hungs_step : hungs (step R).
Proof.
  constructor; cbn [f_block f_text f_args f_expr f_elif f_while MacroModel.step]; intros;
    [apply hung_block|apply hung_text|apply hung_args|apply hung_expr|apply hung_elif|apply hung_while].
Qed.
End Step.
Lemma hungs_lvl n : hungs (lvl n).
Proof. induction n as [|n IH]; [constructor; intros; exact Logic.I|apply hungs_step; exact IH]. Qed.
Lemma hung_sources n l : forall ret st, hung (sources files stuck calc n l ret st).
Proof.
  induction l as [|f l IH]; intros ret st; cbn [sources]; [exact Logic.I|]. destruct (ret && p_quiet st); [exact Logic.I|].
  destruct (files f); [|apply IH].
  apply hung_bind; [apply hung_preprocess, hungs_lvl|]. intros st1. apply IH.
Qed.
End Oracles.

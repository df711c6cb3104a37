(** The recursion of the preprocessor: more steps change nothing; branches and
    loops of well-nested texts. *)
From Verif Require Import Prelude MacroModel MacroSpec MacroSkip.
Local Open Scope Z_scope.

(** ** More steps change nothing *)
Definition le_res {A} (a b : res A) : Prop := match a with Out _ => True | _ => a = b end.
Lemma le_refl {A} (a : res A) : le_res a a.
Proof. destruct a; [exact Logic.I|reflexivity|reflexivity]. Qed.
Lemma le_bind {A B} (a a' : res A) (f f' : A -> res B) :
  le_res a a' -> (forall x, le_res (f x) (f' x)) -> le_res (rbind a f) (rbind a' f').
Proof.
  intros H G. destruct a as [st|st|x]; cbn in *; [exact Logic.I|subst a'; reflexivity|subst a'; apply G].
Qed.
Lemma le_ok {A} (a b : res A) x : le_res a b -> a = Ok x -> b = Ok x.
Proof. intros H ->. cbn in H. congruence. Qed.

Section Oracles.
Variable files : Z -> option (list token).
Variable stuck : list token -> bool.
Variable calc : list token -> option Z.
Notation step := (step files stuck calc).
Notation lvl := (lvl files stuck calc).

Record le_fns (R R' : fns) : Prop := mkLe {
  le_block b s st : le_res (f_block R b s st) (f_block R' b s st);
  le_text s st : le_res (f_text R s st) (f_text R' s st);
  le_args v s st : le_res (f_args R v s st) (f_args R' v s st);
  le_expr p s st : le_res (f_expr R p s st) (f_expr R' p s st);
  le_elif s st : le_res (f_elif R s st) (f_elif R' s st);
  le_while b s w i st : le_res (f_while R b s w i st) (f_while R' b s w i st) }.

Section Mono.
Variables R R' : fns.
Hypothesis H : le_fns R R'.
Ltac base := first [apply le_refl | apply (le_block _ _ H) | apply (le_text _ _ H) | apply (le_args _ _ H)
  | apply (le_expr _ _ H) | apply (le_elif _ _ H) | apply (le_while _ _ H)].
Ltac go := repeat (first [base
  | match goal with
    | |- le_res (rbind _ _) (rbind _ _) => apply le_bind
    | |- forall x : _ * _, _ => intros [? ?]
    | |- forall _, _ => intro
    | |- le_res (let '(_, _) := ?x in _) _ => destruct x
    | |- le_res (match ?x with _ => _ end) _ => destruct x
    end]).
Lemma le_preprocess t st : le_res (preprocess R t st) (preprocess R' t st).
Proof. unfold preprocess. go. Qed.
Lemma le_values a st : le_res (parse_values R a st) (parse_values R' a st).
Proof. unfold parse_values. apply le_bind; [apply le_preprocess|]. intros; apply le_refl. Qed.
Lemma le_args_step v s st : le_res (args_step R v s st) (args_step R' v s st).
Proof.
  unfold args_step. destruct (read_arg s 0 []) as [[arg s1]|]; [|apply le_refl]. apply le_bind.
  - destruct (if match s1, arg with [], _ :: _ => true | _, _ => false end then None else v); [|apply le_refl].
    apply le_bind; [apply le_values|]. intros [? ?]; apply le_refl.
  - intros [vals st']. go.
Qed.
Lemma le_replacement m s st : le_res (parse_replacement R m s st) (parse_replacement R' m s st).
Proof.
  unfold parse_replacement. destruct m as [e v]. destruct e.
  - apply le_bind; [apply le_preprocess|intros; apply le_refl].
  - destruct (skip_lines s) as [|t s1]; [apply le_refl|]. destruct (is_open t); [|apply le_refl].
    apply le_bind; [base|]. intros [[vals s2] st']. destruct vals as [vs|]; [|apply le_refl].
    destruct (length vs =? S e)%nat; [|apply le_refl].
    apply le_bind; [apply le_preprocess|intros; apply le_refl].
Qed.
Lemma le_call n m s st : le_res (call R n m s st) (call R' n m s st).
Proof. unfold call. apply le_bind; [apply le_replacement|]. intros [[? ?] ?]. apply le_refl. Qed.
Lemma le_identifier n s st : le_res (parse_identifier R n s st) (parse_identifier R' n s st).
Proof.
  unfold parse_identifier. destruct (find_macro n (p_macros st)); [|apply le_refl].
  destruct (p_call st >? MAX_CALL_DEPTH); [apply le_refl|]. apply le_bind; [apply le_call|]. intros [[? ?] ?]. apply le_refl.
Qed.
Lemma le_text_step s st : le_res (text_step R s st) (text_step R' s st).
Proof.
  unfold text_step. destruct s as [|t s]; [apply le_refl|]. destruct (is_nl t); [apply le_refl|].
  destruct t; try base. apply le_bind; [apply le_identifier|]. intros [? ?]. base.
Qed.
Lemma le_expr_step p s st : le_res (expr_step stuck calc R p s st) (expr_step stuck calc R' p s st).
Proof.
  unfold expr_step. destruct s as [|t s]; [apply le_refl|]. destruct (is_nl t); [apply le_refl|].
  destruct t; try (match goal with |- context [is_hash ?t] => destruct (is_hash t) end; go; fail).
  destruct (find_macro n (p_macros st)); [|go].
  destruct (p_call st >? MAX_CALL_DEPTH); [apply le_refl|].
  apply le_bind; [apply le_call|]. intros [[ok s1] st']. destruct ok; [|apply le_refl]. go.
Qed.
Lemma le_expression s st : le_res (parse_expression R s st) (parse_expression R' s st).
Proof. unfold parse_expression. go. Qed.
Lemma le_elif_step s st : le_res (elif_step R s st) (elif_step R' s st).
Proof.
  unfold elif_step. apply le_bind; [apply le_expression|]. intros [[v s1] st1]. destruct (negb (v =? 0)).
  - apply le_bind; [base|]. intros [[k s2] st2]. apply le_refl.
  - apply le_bind; [apply le_refl|]. intros [[k s2] st2]. go.
Qed.
Lemma le_if s st : le_res (parse_if R s st) (parse_if R' s st).
Proof. unfold parse_if. apply le_bind; [base|]. intros [[? ?] ?]. apply le_refl. Qed.
Lemma le_ifdef k s st : le_res (parse_ifdef_ifndef R k s st) (parse_ifdef_ifndef R' k s st).
Proof.
  unfold parse_ifdef_ifndef. apply le_bind.
  - destruct s as [|t s]; [apply le_refl|]. destruct t; try apply le_refl.
    match goal with |- le_res (if ?c then _ else _) _ => destruct c end; [base|].
    apply le_bind; [apply le_refl|]. intros [[k2 s2] st2]. go.
  - intros [[k2 s2] st2]. apply le_refl.
Qed.
Lemma le_while_step b s w i st : le_res (while_step R b s w i st) (while_step R' b s w i st).
Proof.
  unfold while_step. apply le_bind; [base|]. intros [[k e] st1]. destruct k as [k|]; [|apply le_refl].
  destruct k; try apply le_refl. cbv zeta. destruct (i + 1 >? MAX_ITERATION); [apply le_refl|].
  destruct (p_err st1); [apply le_refl|]. apply le_bind; [apply le_expression|]. intros [[v s2] st2].
  destruct (v =? 0); [apply le_refl|base].
Qed.
Lemma le_pwhile s st : le_res (parse_while R s st) (parse_while R' s st).
Proof.
  unfold parse_while. apply le_bind; [apply le_expression|]. intros [[v s1] st1]. destruct (v =? 0); [apply le_refl|base].
Qed.
Lemma le_include s st : le_res (parse_include files R s st) (parse_include files R' s st).
Proof.
  unfold parse_include. destruct (p_incl st >=? MAX_INCLUDE_DEPTH); [apply le_refl|]. destruct s as [|t s]; [apply le_refl|].
  destruct t; try apply le_refl. destruct (files f); [|apply le_refl]. destruct (existsb (Z.eqb f) (p_seen st)); [apply le_refl|].
  apply le_bind; [apply le_preprocess|intros; apply le_refl].
Qed.
Lemma le_content ps s : forall acc st, le_res (parse_content R ps s acc st) (parse_content R' ps s acc st).
Proof.
  assert (X : forall n s acc st, (length s <= n)%nat -> le_res (parse_content R ps s acc st) (parse_content R' ps s acc st)).
  { clear s. induction n as [|n IH]; intros s acc st L; (destruct s as [|t s]; [apply le_refl|]); cbn [length] in L; [lia|].
    cbn [parse_content]. destruct (is_nl t); [apply le_refl|].
    destruct t; try (match goal with |- context [is_hash ?t] => cbn [is_hash] end; apply IH; lia).
    - destruct k; cbn [is_hash]; try apply le_refl. apply le_bind; [apply le_expression|]. intros [[? ?] ?]. apply le_refl.
    - apply le_refl.
    - apply IH; lia.
    - destruct s as [|t s]; [apply le_refl|]. destruct t; try apply le_refl. destruct (index_of n0 ps); [|apply le_refl].
      apply IH. cbn in L. lia.
    - destruct s as [|t s]; [apply le_refl|]. destruct t; try apply le_refl. destruct (index_of n0 ps); [|apply le_refl].
      apply IH. cbn in L. lia. }
  intros acc st. apply (X (length s)). lia.
Qed.
Lemma le_define s st : le_res (parse_define R s st) (parse_define R' s st).
Proof.
  unfold parse_define. destruct s as [|t s]; [apply le_refl|]. destruct t; try apply le_refl.
  destruct (parse_args s) as [params s2]. destruct params as [ps|]; [|apply le_refl].
  destruct s2 as [|t s2].
  - apply le_bind; [apply le_content|]. intros [[? ?] ?]. apply le_refl.
  - destruct t; try apply le_refl; (apply le_bind; [apply le_content|]; intros [[? ?] ?]; apply le_refl).
Qed.
Lemma le_eval s st : le_res (parse_eval R s st) (parse_eval R' s st).
Proof. unfold parse_eval. apply le_bind; [apply le_expression|]. intros [[? ?] ?]. apply le_refl. Qed.
Lemma le_line_step s st : le_res (line_step files R s st) (line_step files R' s st).
Proof.
  unfold line_step. destruct (parse_directive s) as [kd s1]. destruct kd as [k| |]; try base.
  destruct k; try base; [apply le_include|apply le_define|apply le_define|apply le_eval].
Qed.
Lemma le_block_step b s st : le_res (block_step files R b s st) (block_step files R' b s st).
Proof.
  assert (G : forall r r', le_res r r' -> le_res (rbind r (fun '(s, st) => f_block R b s st)) (rbind r' (fun '(s, st) => f_block R' b s st))).
  { intros r r' L. apply le_bind; [exact L|]. intros [? ?]. base. }
  unfold block_step. destruct s as [|t s]; [apply le_refl|]. destruct (parse_directive (t :: s)) as [kd s1].
  destruct kd as [k| |]; try (apply G; apply le_line_step).
  destruct k; try (apply G; apply le_line_step); try (apply G; apply le_refl);
    try (destruct (parse_next b _); [apply le_refl|apply G; apply le_refl]);
    apply G; [apply le_ifdef|apply le_ifdef|apply le_if|apply le_pwhile].
Qed.
Lemma le_step : le_fns (step R) (step R').
Proof.
  constructor; cbn [f_block f_text f_args f_expr f_elif f_while MacroModel.step]; intros;
    [apply le_block_step|apply le_text_step|apply le_args_step|apply le_expr_step|apply le_elif_step|apply le_while_step].
Qed.
End Mono.
Lemma le_fns_refl R : le_fns R R.
Proof. constructor; intros; apply le_refl. Qed.
Lemma le_lvl n m : (n <= m)%nat -> le_fns (lvl n) (lvl m).
Proof.
  revert m. induction n as [|n IH]; intros m L.
  - constructor; intros; exact Logic.I.
  - destruct m as [|m]; [lia|]. cbn [MacroModel.lvl]. apply le_step. apply IH. lia.
Qed.
End Oracles.

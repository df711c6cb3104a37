(** C82: where break and continue lead in the code of the MIPS generator. *)
From Verif Require Import Prelude LabelModel LabelSpec LabelProofs LabelProps FlowSpec FlowProofs.

(** A while: its body is written with some labels [b] for break and [k] for
    continue.  After [b] nothing of the loop is left; after [k] comes the condition
    (with a jump out to [b]), the body and the way back to [k]. *)
Theorem C82_while : forall f c body n cn brk cont code n' cn',
  emit_stmt f (SWhile c body) n cn brk cont = (code, n', cn') ->
  exists b k condition body_code n1 n2 cn2,
    emit_expr c (n + 1) = (condition, n1) /\
    emit_stmt f body n1 cn b k = (body_code, n2, cn2) /\
    after b code = Some [] /\
    after k code = Some (condition ++ [Jump b] ++ body_code ++ [Jump k; Decl b]).
Proof.
  intros f c body n cn brk cont code n' cn' E. cbn [emit_stmt] in E. cbv zeta in E.
  destruct (emit_expr c (n + 1)) as [cc n1] eqn:E0. destruct (emit_stmt f body n1 cn _ _) as [[cb n2] cn2] eqn:E1.
  exists (L_END, n), (L_BEGIN_CYCLE, n), cc, cb, n1, n2, cn2. pose proof (proj1 (expr_once _ _ 0 _ _ E0)).
  code3 E. split; [reflexivity|]. split; [exact E1|]. split.
  - cbn [app]. rewrite after_other by discriminate. rewrite after_app by (apply (expr_not _ _ _ _ _ _ E0); lia).
    rewrite after_jump, after_app by (apply (stmt_not _ _ _ _ _ _ _ _ _ _ _ E1); [discriminate | lia]).
    rewrite after_jump. apply after_here.
  - apply after_here.
Qed.
Print Assumptions C82_while.

(** A do: after [k] comes the condition with the jump back to the body, after [b]
    nothing of the loop. *)
Theorem C82_do : forall f c body n cn brk cont code n' cn',
  emit_stmt f (SDo body c) n cn brk cont = (code, n', cn') ->
  exists b k start condition body_code n1 cn1 n2,
    emit_stmt f body (n + 1) cn b k = (body_code, n1, cn1) /\
    emit_expr c n1 = (condition, n2) /\
    after b code = Some [] /\
    after k code = Some (condition ++ [Jump start; Decl b]) /\
    after start code = Some (body_code ++ [Decl k] ++ condition ++ [Jump start; Decl b]).
Proof.
  intros f c body n cn brk cont code n' cn' E. cbn [emit_stmt] in E. cbv zeta in E.
  destruct (emit_stmt f body (n + 1) cn _ _) as [[cb n1] cn1] eqn:E1. destruct (emit_expr c n1) as [cc n2] eqn:E0.
  exists (L_END, n), (L_NEXT, n), (L_BEGIN_CYCLE, n), cc, cb, n1, cn1, n2.
  pose proof (proj1 (proj1 (stmt_once f) _ _ _ _ _ _ _ _ E1)).
  code3 E. split; [exact E1|]. split; [exact E0|]. split; [|split].
  - cbn [app]. rewrite after_other by discriminate.
    rewrite after_app by (apply (stmt_not _ _ _ _ _ _ _ _ _ _ _ E1); [discriminate | lia]).
    rewrite after_other by discriminate. rewrite after_app by (apply (expr_not _ _ _ _ _ _ E0); lia).
    rewrite after_jump. apply after_here.
  - cbn [app]. rewrite after_other by discriminate.
    rewrite after_app by (apply (stmt_not _ _ _ _ _ _ _ _ _ _ _ E1); [discriminate | lia]). apply after_here.
  - apply after_here.
Qed.
Print Assumptions C82_do.

(** A for: after [b] nothing of the loop; the end of the body goes on with the step
    and then with the condition.  But continue goes on with the condition at once. *)
Theorem C82_for_partial : forall f init c body step n cn brk cont code n' cn',
  emit_stmt f (SFor init c body step) n cn brk cont = (code, n', cn') ->
  exists b k init_code condition body_code step_code m cn0 n1 n2 cn2 n3,
    emit_stmt f init n cn brk cont = (init_code, m, cn0) /\
    emit_expr c (m + 1) = (condition, n1) /\
    emit_stmt f body n1 cn0 b k = (body_code, n2, cn2) /\
    emit_expr step n2 = (step_code, n3) /\
    after b code = Some [] /\
    after k code = Some (condition ++ [Jump b] ++ body_code ++ step_code ++ [Jump k; Decl b]).
Proof.
  intros f init c body step n cn brk cont code n' cn' E. cbn [emit_stmt] in E.
  destruct (emit_stmt f init n cn brk cont) as [[ci m] cn0] eqn:Ei. destruct (emit_expr c (m + 1)) as [cc n1] eqn:E0.
  destruct (emit_stmt f body n1 cn0 _ _) as [[cb n2] cn2] eqn:E1. destruct (emit_expr step n2) as [cs n3] eqn:E2.
  exists (L_END, m), (L_BEGIN_CYCLE, m), ci, cc, cb, cs, m, cn0, n1, n2, cn2, n3.
  pose proof (proj1 (expr_once _ _ 0 _ _ E0)). pose proof (proj1 (proj1 (stmt_once f) _ _ _ _ _ _ _ _ E1)).
  code3 E. split; [reflexivity|]. split; [exact E0|]. split; [exact E1|]. split; [exact E2|]. split.
  - rewrite after_app by (apply (stmt_not_above _ _ _ _ _ _ _ _ _ _ Ei); discriminate).
    cbn [app]. rewrite after_other by discriminate. rewrite after_app by (apply (expr_not _ _ _ _ _ _ E0); lia).
    rewrite after_jump, after_app by (apply (stmt_not _ _ _ _ _ _ _ _ _ _ _ E1); [discriminate | lia]).
    rewrite after_app by (apply (expr_not _ _ _ _ _ _ E2); lia). rewrite after_jump. apply after_here.
  - rewrite after_app by (apply (stmt_not_above _ _ _ _ _ _ _ _ _ _ Ei); discriminate). apply after_here.
Qed.
Print Assumptions C82_for_partial.

(** A switch: after [b] nothing of it is left; continue is that of the loop around it. *)
Theorem C82_switch : forall f c body n cn brk cont code n' cn',
  emit_stmt f (SSwitch c body) n cn brk cont = (code, n', cn') ->
  exists b sections_code n1 cn1 n2 cn2,
    emit_sections f body n1 cn1 cn b cont = (sections_code, n2, cn2) /\
    after b code = Some [].
Proof.
  intros f c body n cn brk cont code n' cn' E. cbn [emit_stmt] in E. cbv zeta in E.
  destruct (emit_expr c (n + 1)) as [cc m] eqn:E0. destruct (emit_jumps body m cn (-1)) as [[[cj n1] cn1] d] eqn:Ej.
  destruct (emit_sections f body n1 cn1 cn _ _) as [[cb n2] cn2] eqn:E1.
  exists (L_END, n), cb, n1, cn1, n2, cn2. code3 E. split; [exact E1|].
  pose proof (proj1 (expr_once _ _ 0 _ _ E0)).
  apply jumps_once in Ej as (Lj & Mj & Hj & _).
  apply (proj2 (stmt_once f)) in E1 as (_ & _ & H1); [|lia].
  rewrite after_app by (apply (expr_not _ _ _ _ _ _ E0); lia).
  rewrite after_app by (intros I; apply cnt_In in I; specialize (Hj L_END n); unfold ranged, L_END in *; lia).
  cbn [app]. rewrite after_jump.
  rewrite after_app by (intros I; apply cnt_In in I; specialize (H1 L_END n); unfold ranged, L_END in *; lia).
  apply after_here.
Qed.
Print Assumptions C82_switch.

(** What comes after a label in a piece of a program without double labels is what
    comes after it in the program. *)
Theorem C82_the_program_goes_on_there : forall pre code post l rest,
  NoDup (declared (pre ++ code ++ post)) ->
  after l code = Some rest ->
  after l (pre ++ code ++ post) = Some (rest ++ post).
Proof.
  intros pre code post l rest ND A. apply after_some in A as [I A].
  rewrite after_app; [apply A|]. intros J. rewrite !declared_app in ND.
  apply in_split in J as (u & v & Q). rewrite Q, <- app_assoc in ND. cbn [app] in ND.
  apply NoDup_remove_2 in ND. apply ND. rewrite !in_app_iff. tauto.
Qed.
Print Assumptions C82_the_program_goes_on_there.

(** That continue in a for performs the step is false of the program: here the
    lines after the label of continue do not begin with the step. *)
Theorem C82_continue_performs_the_step_refuted :
  ~ (forall f init c body step n cn brk cont code n' cn',
      emit_stmt f (SFor init c body step) n cn brk cont = (code, n', cn') ->
      forall b k m cn0 n1 body_code n2 cn2 step_code n3 i cc,
      emit_stmt f init n cn brk cont = (i, m, cn0) -> emit_expr c (m + 1) = (cc, n1) ->
      emit_stmt f body n1 cn0 b k = (body_code, n2, cn2) -> emit_expr step n2 = (step_code, n3) ->
      In k (targets body_code) -> k <> b -> In k (declared code) ->
      exists rest, after k code = Some (step_code ++ rest)).
Proof.
  intros H.
  specialize (H 20 (SExpr EPlain) EPlain SContinue (ECompare false EPlain EPlain) 1 1 (0, 0) (0, 0) _ _ _ eq_refl
    (L_END, 1) (L_BEGIN_CYCLE, 1) 1 1 2 _ _ _ _ _ _ _ eq_refl eq_refl eq_refl eq_refl).
  destruct H as [rest H].
  - left. reflexivity.
  - discriminate.
  - vm_compute. tauto.
  - vm_compute in H. discriminate H.
Qed.
Print Assumptions C82_continue_performs_the_step_refuted.

Example C82_break_in_a_program :
  after (L_END, 2) (fst (fst (emit_functions [(20, SWhile EPlain (SSwitch EPlain (Section_ Case SBreak NoSection)))] 1 1 (0, 0) (0, 0))))
  = Some [Jump (L_BEGIN_CYCLE, 1); Decl (L_END, 1); Decl (L_FUNCEND, 20)].
Proof. reflexivity. Qed.

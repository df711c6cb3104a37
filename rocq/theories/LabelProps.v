(** C81: the labels in the code of the MIPS generator. *)
From Verif Require Import Prelude LabelModel LabelSpec LabelProofs LabelCase.

(** Functions with different numbers never get one label twice: whatever the
    statements are and however they are nested. *)
Theorem C81_labels_are_declared_once : forall fs n cn brk cont code n' cn',
  NoDup (map fst fs) ->
  emit_functions fs n cn brk cont = (code, n', cn') ->
  NoDup (declared code).
Proof.
  intros fs n cn brk cont code n' cn' ND E. apply cnt_NoDup. intros k m.
  exact (proj2 (proj1 (proj2 (proj2 (functions_once _ _ _ _ _ _ _ _ E ND)) k m))).
Qed.
Print Assumptions C81_labels_are_declared_once.

(** With break and continue only where they may stand, every jump has its label in
    the code. *)
Theorem C81_jumps_have_their_labels : forall fs n cn brk cont code n' cn' l,
  Forall (fun f => legal false false (snd f) = true) fs ->
  emit_functions fs n cn brk cont = (code, n', cn') ->
  In l (targets code) -> In l (declared code).
Proof. intros fs n cn brk cont code n' cn' l F E. exact (functions_leads _ _ _ _ _ _ _ _ E F l). Qed.
Print Assumptions C81_jumps_have_their_labels.

(** No jump of a function leaves it: its label is in the code of the same function. *)
Theorem C81_jumps_stay_in_the_function : forall f s n cn brk cont code n' cn' l,
  legal false false s = true ->
  emit_function f s n cn brk cont = (code, n', cn') ->
  In l (targets code) -> In l (declared code).
Proof.
  intros f s n cn brk cont code n' cn' l L E.
  apply (functions_leads [(f, s)] n cn brk cont code n' cn').
  - cbn [emit_functions]. rewrite E, app_nil_r. reflexivity.
  - constructor; [exact L | constructor].
Qed.
Print Assumptions C81_jumps_stay_in_the_function.

(** A jump in one function and a label in another are never the same. *)
Theorem C81_functions_do_not_share_labels : forall f g s t n cn brk cont code n1 cn1 code' n2 cn2 l,
  f <> g -> legal false false s = true -> legal false false t = true ->
  emit_function f s n cn brk cont = (code, n1, cn1) ->
  emit_function g t n1 cn1 brk cont = (code', n2, cn2) ->
  (In l (targets code) -> ~ In l (declared code')) /\ (In l (targets code') -> ~ In l (declared code)).
Proof.
  intros f g s t n cn brk cont code n1 cn1 code' n2 cn2 l N Ls Lt E E'.
  assert (ND : NoDup (declared (code ++ code'))).
  { apply (C81_labels_are_declared_once [(f, s); (g, t)] n cn brk cont _ n2 cn2).
    - cbn [map fst]. constructor; [cbn [In]; intros [X|[]]; congruence|]. constructor; [cbn [In]; tauto | constructor].
    - cbn [emit_functions]. rewrite E, E', app_nil_r. reflexivity. }
  rewrite declared_app in ND.
  assert (D : forall x, In x (declared code) -> In x (declared code') -> False).
  { intros x I J. apply in_split in I as (u & v & Q). rewrite Q in ND. rewrite <- app_assoc in ND. cbn [app] in ND.
    apply NoDup_remove_2 in ND. apply ND. rewrite !in_app_iff. tauto. }
  split; intros I J.
  - exact (D l (C81_jumps_stay_in_the_function _ _ _ _ _ _ _ _ _ _ Ls E I) J).
  - exact (D l J (C81_jumps_stay_in_the_function _ _ _ _ _ _ _ _ _ _ Lt E' I)).
Qed.
Print Assumptions C81_functions_do_not_share_labels.

(** No case of a switch and no default is left without a jump to it. *)
Theorem C81_every_case_is_jumped_to : forall f s n cn brk cont code n' cn' m,
  one_default s = true -> 0 <= cn ->
  emit_function f s n cn brk cont = (code, n', cn') ->
  In (L_CASE, m) (declared code) -> In (L_CASE, m) (targets code).
Proof.
  intros f s n cn brk cont code n' cn' m O P E I. unfold emit_function in E.
  destruct (emit_stmt f s n cn brk cont) as [[c n1] cn1] eqn:E1.
  apply (proj1 (stmt_reached f)) in E1; [|exact O|exact P]. specialize (E1 m). code3 E.
  rewrite declared_app, declared_decl, declared_nil, in_app_iff in I. rewrite targets_app, in_app_iff. cbn [In] in I.
  destruct I as [I|[I|[]]]; [|destruct (case_neq L_FUNCEND f m ltac:(discriminate) I)].
  destruct (E1 I) as [X|X]; [left; exact X | lia].
Qed.
Print Assumptions C81_every_case_is_jumped_to.

(** A switch in a loop in a switch, with comparisons; and the code of a small one. *)
Definition sample : mstmt :=
  SSeq (SSwitch (ECompare true EPlain EPlain)
          (Section_ Case (SWhile (ELogical EPlain (ECompare false EPlain EPlain))
                            (SSwitch EPlain (Section_ Default SContinue (Section_ Case SBreak NoSection))))
          (Section_ Default (SDo (SIfElse EPlain SBreak SContinue) (ETernary EPlain EPlain EPlain))
          (Section_ Plain SBreak NoSection))))
       (SReturn EPlain).
Example C81_sample_is_legal : legal false false sample = true.
Proof. reflexivity. Qed.
Example C81_sample_has_one_default : one_default sample = true.
Proof. reflexivity. Qed.
Example C81_sample_code :
  emit_functions [(20, SWhile EPlain (SSwitch EPlain (Section_ Case SContinue NoSection)))] 1 1 (0, 0) (0, 0)
  = ([Decl (L_BEGIN_CYCLE, 1); Jump (L_END, 1); Jump (L_ELSE, 3); Decl (L_ELSE, 3); Jump (L_CASE, 1);
      Jump (L_END, 2); Decl (L_CASE, 1); Jump (L_BEGIN_CYCLE, 1); Decl (L_END, 2);
      Jump (L_BEGIN_CYCLE, 1); Decl (L_END, 1); Decl (L_FUNCEND, 20)], 4, 2).
Proof. reflexivity. Qed.
Example C81_sample_twice : exists code n cn,
  emit_functions [(20, sample); (24, sample)] 1 1 (0, 0) (0, 0) = (code, n, cn) /\
  length (declared code) = 42%nat /\ length (targets code) = 44%nat.
Proof. do 3 eexists. split; [vm_compute; reflexivity|]. vm_compute. split; reflexivity. Qed.

(** Where the jumps of loops and switches lead. *)
From Verif Require Import Prelude LabelModel LabelSpec LabelProofs FlowSpec.

Lemma after_here l c : after l (Decl l :: c) = Some c.
Proof. cbn [after]. rewrite !Z.eqb_refl. reflexivity. Qed.
Lemma after_jump l l' c : after l (Jump l' :: c) = after l c.
Proof. reflexivity. Qed.
Lemma after_other l l' c : l' <> l -> after l (Decl l' :: c) = after l c.
Proof.
  intros N. cbn [after]. destruct ((fst l' =? fst l) && (snd l' =? snd l)) eqn:E; [|reflexivity].
  exfalso. apply N. destruct l, l'. cbn [fst snd] in E. f_equal; lia.
Qed.
Lemma after_app l a b : ~ In l (declared a) -> after l (a ++ b) = after l b.
Proof.
  induction a as [|[l'|l'] a IH]; intros N; [reflexivity| |].
  - rewrite declared_decl in N. cbn [In] in N. cbn [app]. rewrite after_other by tauto. apply IH. tauto.
  - cbn [app]. rewrite after_jump. apply IH. exact N.
Qed.
Lemma after_some l c r : after l c = Some r -> In l (declared c) /\ forall post, after l (c ++ post) = Some (r ++ post).
Proof.
  induction c as [|[l'|l'] c IH]; intros E; [discriminate| |].
  - cbn [after] in E. cbn [app after]. rewrite declared_decl. destruct ((fst l' =? fst l) && (snd l' =? snd l)) eqn:Q.
    + assert (c = r) as -> by congruence. split; [|reflexivity]. left. destruct l, l'. cbn [fst snd] in Q. f_equal; lia.
    + apply IH in E as [I A]. split; [right; exact I | exact A].
  - cbn [app]. exact (IH E).
Qed.

Lemma expr_not e n c n' k m : emit_expr e n = (c, n') -> m < n -> ~ In (k, m) (declared c).
Proof.
  intros E L I. apply cnt_In in I. apply (expr_once e n 0) in E as [_ H]. specialize (H k m). unfold ranged in H. lia.
Qed.
Lemma stmt_not f s n cn brk cont c n' cn' k m : emit_stmt f s n cn brk cont = (c, n', cn') -> k <> 8 -> m < n ->
  ~ In (k, m) (declared c).
Proof.
  intros E K L I. apply cnt_In in I. apply (proj1 (stmt_once f)) in E as (_ & _ & H). specialize (H k m). unfold ranged in H. lia.
Qed.
Lemma stmt_not_above f s n cn brk cont c n' cn' k : emit_stmt f s n cn brk cont = (c, n', cn') -> k <> 8 ->
  ~ In (k, n') (declared c).
Proof.
  intros E K I. apply cnt_In in I. apply (proj1 (stmt_once f)) in E as (_ & _ & H). specialize (H k n'). unfold ranged in H. lia.
Qed.

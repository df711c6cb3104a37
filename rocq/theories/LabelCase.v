(** Every case of a switch is jumped to. *)
From Verif Require Import Prelude LabelModel LabelSpec LabelProofs.

Lemma expr_no_case e n c n' m : emit_expr e n = (c, n') -> ~ In (L_CASE, m) (declared c).
Proof.
  intros E I. apply cnt_In in I. apply (expr_once e n 0) in E as [L H]. specialize (H L_CASE m).
  unfold ranged, L_CASE in *. lia.
Qed.

Lemma defaults_nonneg b : 0 <= defaults b.
Proof. induction b as [|[] s b IH]; cbn [defaults]; lia. Qed.

Lemma jumps_reach b : forall n cn d c n' cn' d', emit_jumps b n cn d = (c, n', cn', d') -> defaults b <= 1 ->
  (defaults b = 0 -> d' = d) /\
  (forall m, cn <= m < cn + marks b -> In (L_CASE, m) (targets c) \/ defaults b = 1 /\ d' = m).
Proof.
  induction b as [|[] s b IH]; intros n cn d c n' cn' d' E D; cbn [emit_jumps marks defaults] in *; pose proof (defaults_nonneg) as DN.
  - split; [congruence | intros; lia].
  - destruct (emit_jumps b (n + 1) (cn + 1) d) as [[[c1 n1] cn1] d1] eqn:E1.
    apply IH in E1 as [A B]; [|exact D]. assert (d' = d1) as -> by congruence.
    apply (f_equal (fun x => fst (fst (fst x)))) in E. cbn [fst] in E. subst c. split; [exact A|].
    intros m R. cbn [app]. rewrite targets_jump, targets_decl, targets_jump. cbn [In].
    destruct (Z.eq_dec m cn) as [->|N]; [left; tauto|]. destruct (B m ltac:(lia)) as [X|X]; [left; tauto | right; exact X].
  - specialize (DN b). apply IH in E as [A B]; [|lia]. split; [lia|]. intros m R.
    destruct (Z.eq_dec m cn) as [->|N]; [right; split; [lia|]; apply A; lia|].
    destruct (B m ltac:(lia)) as [X|[X _]]; [left; exact X | lia].
  - apply IH in E as [A B]; [|exact D]. split; [exact A | exact B].
Qed.

Lemma case_neq (k x m : Z) : k <> 8 -> (k, x) = (L_CASE, m) -> False.
Proof. intros N X. apply N. exact (f_equal fst X). Qed.

Definition reached (c : list line) (lo hi : Z) : Prop :=
  forall m, In (L_CASE, m) (declared c) -> In (L_CASE, m) (targets c) \/ lo <= m < hi.

Lemma expr_reached e n c n' : emit_expr e n = (c, n') -> reached c 0 0.
Proof. intros E m I. destruct (expr_no_case _ _ _ _ m E I). Qed.

Ltac reach m :=
  intros m; cbn [app];
  repeat first [rewrite targets_app | rewrite declared_app | rewrite targets_jump | rewrite targets_decl
    | rewrite declared_jump | rewrite declared_decl | rewrite targets_nil | rewrite declared_nil];
  repeat first [rewrite in_app_iff | progress (cbn [In])];
  repeat match goal with
  | |- context [(?k, ?x) = (L_CASE, m)] =>
      let P := fresh in assert (P : (k, x) = (L_CASE, m) -> False) by (apply case_neq; discriminate);
      revert P; generalize ((k, x) = (L_CASE, m)); intros ? P
  end;
  repeat match goal with H : reached _ _ _ |- _ => specialize (H m) end;
  assert (~ 0 <= m < 0) by lia; tauto.

Lemma stmt_reached f :
  (forall s n cn brk cont c n' cn', emit_stmt f s n cn brk cont = (c, n', cn') -> one_default s = true -> 0 <= cn ->
     reached c 0 0) /\
  (forall bd n cn cur brk cont c n' cn', emit_sections f bd n cn cur brk cont = (c, n', cn') ->
     one_default_each bd = true -> 0 <= cn -> reached c cur (cur + marks bd)).
Proof.
  pose proof (fun s n cn brk cont c n' cn' E => proj1 (proj2 (proj1 (stmt_once f) s n cn brk cont c n' cn' E))) as MONO.
  apply mstmt_sections_ind.
  - intros e n cn brk cont c n' cn' E L P. cbn [emit_stmt] in E. destruct (emit_expr e n) as [c1 n1] eqn:E1.
    apply expr_reached in E1. code3 E. exact E1.
  - intros a IHa s IHb n cn brk cont c n' cn' E L P. cbn [emit_stmt one_default] in E, L. apply andb_true_iff in L as [La Lb].
    destruct (emit_stmt f a n cn brk cont) as [[ca n1] cn1] eqn:E1. destruct (emit_stmt f s n1 cn1 brk cont) as [[cb n2] cn2] eqn:E2.
    pose proof (MONO _ _ _ _ _ _ _ _ E1). apply IHa in E1; [|exact La|exact P]. apply IHb in E2; [|exact Lb|lia]. code3 E. reach m.
  - intros e a IHa n cn brk cont c n' cn' E L P. cbn [emit_stmt one_default] in E, L. destruct (emit_expr e n) as [c0 m] eqn:E0.
    destruct (emit_stmt f a (m + 1) cn brk cont) as [[ca n1] cn1] eqn:E1.
    apply expr_reached in E0. apply IHa in E1; [|exact L|exact P]. code3 E. reach q.
  - intros e a IHa s IHb n cn brk cont c n' cn' E L P. cbn [emit_stmt one_default] in E, L. apply andb_true_iff in L as [La Lb].
    destruct (emit_expr e n) as [c0 m] eqn:E0.
    destruct (emit_stmt f a (m + 1) cn brk cont) as [[ca n1] cn1] eqn:E1.
    destruct (emit_stmt f s n1 cn1 brk cont) as [[cb n2] cn2] eqn:E2.
    pose proof (MONO _ _ _ _ _ _ _ _ E1). apply expr_reached in E0. apply IHa in E1; [|exact La|exact P]. apply IHb in E2; [|exact Lb|lia]. code3 E. reach q.
  - intros e a IHa n cn brk cont c n' cn' E L P. cbn [emit_stmt one_default] in E, L. cbv zeta in E.
    destruct (emit_expr e (n + 1)) as [c0 m] eqn:E0. destruct (emit_stmt f a m cn _ _) as [[ca n1] cn1] eqn:E1.
    apply expr_reached in E0. apply IHa in E1; [|exact L|exact P]. code3 E. reach q.
  - intros a IHa e n cn brk cont c n' cn' E L P. cbn [emit_stmt one_default] in E, L. cbv zeta in E.
    destruct (emit_stmt f a (n + 1) cn _ _) as [[ca n1] cn1] eqn:E1. destruct (emit_expr e n1) as [c0 m] eqn:E0.
    apply expr_reached in E0. apply IHa in E1; [|exact L|exact P]. code3 E. reach q.
  - intros i IHi e a IHa st n cn brk cont c n' cn' E L P. cbn [emit_stmt one_default] in E, L. apply andb_true_iff in L as [Li La].
    destruct (emit_stmt f i n cn brk cont) as [[ci n0] cn0] eqn:Ei. destruct (emit_expr e (n0 + 1)) as [c0 m] eqn:E0.
    destruct (emit_stmt f a m cn0 _ _) as [[ca n1] cn1] eqn:E1. destruct (emit_expr st n1) as [cs n2] eqn:E2.
    pose proof (MONO _ _ _ _ _ _ _ _ Ei).
    apply IHi in Ei; [|exact Li|exact P]. apply expr_reached in E0. apply IHa in E1; [|exact La|lia].
    apply expr_reached in E2. code3 E. reach q.
  - intros e bd IHb n cn brk cont c n' cn' E L P. cbn [emit_stmt one_default] in E, L. cbv zeta in E.
    apply andb_true_iff in L as [L1 L]. apply Z.leb_le in L1.
    destruct (emit_expr e (n + 1)) as [c0 m] eqn:E0. destruct (emit_jumps bd m cn (-1)) as [[[cj n1] cn1] d] eqn:Ej.
    destruct (emit_sections f bd n1 cn1 cn _ _) as [[cb n2] cn2] eqn:E1.
    pose proof (jumps_reach _ _ _ _ _ _ _ _ Ej L1) as [JA JB]. apply jumps_once in Ej as (_ & CN & NJ & D). pose proof (marks_nonneg bd).
    assert (NC : forall q, ~ In (L_CASE, q) (declared cj)).
    { intros q I. apply cnt_In in I. specialize (NJ L_CASE q). unfold ranged, L_CASE in *. lia. }
    apply expr_reached in E0. apply IHb in E1; [|exact L|lia]. code3 E.
    assert (K : forall q, cn <= q < cn + marks bd -> In (L_CASE, q) (targets cj) \/
      (if negb (d =? -1) then (L_CASE, d) else (L_END, n)) = (L_CASE, q)).
    { intros q R. destruct (JB q R) as [X|[_ X]]; [left; exact X|]. right. subst d.
      replace (q =? -1) with false by lia. reflexivity. }
    intros q. specialize (K q). specialize (NC q). specialize (E0 q). specialize (E1 q).
    assert (NE : (L_END, n) = (L_CASE, q) -> False) by (apply case_neq; discriminate).
    cbn [app]. rewrite !targets_app, !declared_app. cbn [app].
    rewrite targets_jump, declared_jump, targets_app, declared_app, targets_decl, declared_decl, targets_nil, declared_nil.
    repeat first [rewrite in_app_iff | progress (cbn [In])].
    assert (~ 0 <= q < 0) by lia. tauto.
  - intros n cn brk cont c n' cn' E L P. cbn [emit_stmt] in E. code3 E. intros q [].
  - intros n cn brk cont c n' cn' E L P. cbn [emit_stmt] in E. code3 E. intros q [].
  - intros e n cn brk cont c n' cn' E L P. cbn [emit_stmt] in E. destruct (emit_expr e n) as [c1 n1] eqn:E1.
    apply expr_reached in E1. code3 E. reach q.
  - intros n cn cur brk cont c n' cn' E L P. cbn [emit_sections] in E. code3 E. intros q [].
  - intros mk s IHs bd IHb n cn cur brk cont c n' cn' E L P. cbn [emit_sections one_default_each] in E, L.
    apply andb_true_iff in L as [La Lb].
    destruct (emit_stmt f s n cn brk cont) as [[cs n1] cn1] eqn:E1. pose proof (MONO _ _ _ _ _ _ _ _ E1).
    apply IHs in E1; [|exact La|exact P]. pose proof (marks_nonneg bd).
    destruct mk; destruct (emit_sections f bd n1 cn1 _ brk cont) as [[cr n2] cn2] eqn:E2;
      (apply IHb in E2; [|exact Lb|lia]); code3 E; cbn [marks]; intros q; specialize (E1 q); specialize (E2 q); cbn [app];
      rewrite ?targets_decl, ?declared_decl, !targets_app, !declared_app; cbn [In]; rewrite !in_app_iff.
    + intros [X|[X|X]].
      * right. apply (f_equal snd) in X. cbn [snd] in X. lia.
      * destruct (E1 X) as [Y|Y]; [tauto | lia].
      * destruct (E2 X) as [Y|Y]; [tauto | right; lia].
    + intros [X|[X|X]].
      * right. apply (f_equal snd) in X. cbn [snd] in X. lia.
      * destruct (E1 X) as [Y|Y]; [tauto | lia].
      * destruct (E2 X) as [Y|Y]; [tauto | right; lia].
    + intros [X|X].
      * destruct (E1 X) as [Y|Y]; [tauto | lia].
      * destruct (E2 X) as [Y|Y]; [tauto | right; lia].
Qed.

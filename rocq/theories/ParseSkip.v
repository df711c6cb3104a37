(** Error recovery. *)
From Verif Require Import Prelude LexModel ParseModel ParseSpec ParseFuel.

Lemma stop_cases T k : ((k =? TK_R_PAREN) || (k =? TK_R_SQUARE) || (k =? TK_R_BRACE) || (k =? TK_COLON) || (k =? TK_SEMICOLON)) && has_token_set T k = true <-> stopper T k.
Proof.
  unfold stopper, has_token_set. rewrite andb_true_iff, !orb_true_iff, !Z.eqb_eq, negb_true_iff, Z.eqb_neq. cbn [In].
  split; intros [A B]; (split; [|exact B]); intuition auto.
Qed.
Lemma skip_stops f : forall T l r, skip_until f T l = Some r -> cur r = TK_EOF \/ stopper T (cur r).
Proof.
  induction f as [|f IH]; intros T l r H; [discriminate|]. cbn [skip_until] in H.
  assert (D: forall X, (do l0 <- skip_until f X (tl l); skip_until f T l0) = Some r -> cur r = TK_EOF \/ stopper T (cur r)).
  { intros X H'. destruct (skip_until f X (tl l)) as [q|] eqn:E; cbn [bind] in H'; [|discriminate]. eauto. }
  destruct (cur l =? TK_EOF) eqn:E0. { injection H as <-. left. lia. }
  destruct (cur l =? TK_L_PAREN); eauto. destruct (cur l =? TK_L_SQUARE); eauto. destruct (cur l =? TK_L_BRACE); eauto. destruct (cur l =? TK_QUESTION); eauto.
  match type of H with (if ?b then _ else _) = _ => destruct b eqn:Q end; eauto. injection H as <-. right. apply stop_cases. exact Q.
Qed.

Definition skips T l r := exists f, skip_until f T l = Some r.
Lemma recover_skips T l r : skips T l r -> recover T l = Some r.
Proof.
  intros [f H]. unfold recover. destruct (skip_ends (2 * length l + 1) T l ltac:(lia)) as (r' & E & _). rewrite E.
  apply (skip_mono f (Nat.max f (2 * length l + 1))) in H; [|lia]. apply (skip_mono _ (Nat.max f (2 * length l + 1))) in E; [|lia]. congruence.
Qed.
Lemma skips_here T l : cur l = TK_EOF \/ stopper T (cur l) -> skips T l l.
Proof.
  intros H. exists 1%nat. cbn [skip_until]. destruct H as [H|H]; [rewrite H; reflexivity|].
  pose proof (proj2 (stop_cases _ _) H) as Q. destruct H as [[H|[H|[H|[H|[H|[]]]]]] _]; rewrite <- H in *; cbn [Z.eqb] in *; rewrite Q; reflexivity.
Qed.
Lemma skips_group T k c l l1 r : pair k c -> skips c l l1 -> skips T l1 r -> skips T (TKey k :: l) r.
Proof.
  intros P [f F] [g G]. exists (S (f + g)). apply (skip_mono f (f + g)) in F; [|lia]. apply (skip_mono g (f + g)) in G; [|lia].
  destruct P; cbn [skip_until cur kind tl]; cbn [Z.eqb Pos.eqb TK_EOF TK_L_PAREN TK_L_SQUARE TK_L_BRACE TK_QUESTION]; rewrite F; exact G.
Qed.
Lemma not_opener k : ~ bracket k -> k <> TK_L_PAREN /\ k <> TK_L_SQUARE /\ k <> TK_L_BRACE /\ k <> TK_QUESTION.
Proof. intros N. repeat split; intros ->; apply N; eexists; left; constructor. Qed.
Lemma skips_next T x l r : kind x <> TK_EOF -> (kind x <> TK_L_PAREN /\ kind x <> TK_L_SQUARE /\ kind x <> TK_L_BRACE /\ kind x <> TK_QUESTION) -> ~ stopper T (kind x) ->
  skips T l r -> skips T (x :: l) r.
Proof.
  intros E (A & B & C & D) N [f F]. exists (S f). cbn [skip_until cur tl].
  replace (kind x =? TK_EOF) with false by lia. replace (kind x =? TK_L_PAREN) with false by lia. replace (kind x =? TK_L_SQUARE) with false by lia.
  replace (kind x =? TK_L_BRACE) with false by lia. replace (kind x =? TK_QUESTION) with false by lia.
  match goal with |- (if ?b then _ else _) = _ => destruct b eqn:Q end; [exfalso; apply N, stop_cases, Q|exact F].
Qed.
Lemma closer_stops k c : pair k c -> stopper c c /\ c <> TK_EOF /\ (c <> TK_L_PAREN /\ c <> TK_L_SQUARE /\ c <> TK_L_BRACE /\ c <> TK_QUESTION).
Proof. destruct 1; (split; [split; [cbn; auto 10|vm_compute; discriminate]|]); repeat split; discriminate. Qed.
Lemma flat_skips T t : flat T t -> forall rest, cur rest = TK_EOF \/ stopper T (cur rest) -> skips T (t ++ rest) rest.
Proof.
  induction 1 as [T|T x t E B N _ IH|T k c u t P N _ IHu _ IHt]; intros rest R.
  - apply skips_here. auto.
  - cbn [app]. apply skips_next; auto using not_opener.
  - cbn [app]. rewrite <- app_assoc. cbn [app]. destruct (closer_stops _ _ P) as (S & E & O). eapply skips_group; [exact P|apply IHu; right; exact S|].
    apply skips_next; auto.
Qed.

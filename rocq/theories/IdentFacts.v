(** The properties, from the invariant. *)
From Verif Require Import Prelude VectorSpec LVec TypesModel IdentModel IdentSpec IdentRun IdentTable IdentProofs IdentSteps IdentHistory.

Section K.
Variable K : Z -> Z.

Lemma reached ops p w : story K start ops p -> run (initial K) ops = Some w -> exists es, inv K p w es.
Proof. intros S R. destruct (story_run K ops _ _ _ _ (inv_start K) S) as (w' & es & R' & I). rewrite R in R'. injection R' as <-. eauto. Qed.
Lemma story_app p a b q : story K p (a ++ b) q <-> exists m, story K p a m /\ story K m b q.
Proof.
  split.
  - revert p. induction a as [|o a IH]; intros p H; [exists p; split; auto; constructor|].
    inversion H as [|? ? ? ? L A H' E1]; subst. destruct (IH _ H') as (m & H1 & H2). exists m. split; auto. econstructor; eauto.
  - intros (m & H1 & H2). induction H1; auto. econstructor; eauto.
Qed.
Lemma run_app w a b : run w (a ++ b) = (do w1 <- run w a; run w1 b).
Proof. revert w. induction a as [|o a IH]; intros w; cbn [app run]; auto. destruct (exec w o) as [[r w1]|]; cbn [bind]; auto. Qed.

(** A balanced part changes only the innermost scope. *)
Lemma balanced_frames body : balanced body -> forall p q f fs, p_frames p = f :: fs -> story K p body q -> exists f', p_frames q = f' :: fs.
Proof.
  induction 1 as [|t x d b B IH|b c B1 IH1 B2 IH2|b c B1 IH1 B2 IH2]; intros p q f fs F H.
  - inversion H; subst. eauto.
  - inversion H as [|? ? ? ? L A H' E1]; subst. refine (IH _ _ _ fs _ H'). cbn [after]. rewrite F. reflexivity.
  - inversion H as [|? ? ? ? L A H' E1]; subst. apply story_app in H' as (m & H1 & H2).
    destruct (IH1 (after K p EnterBlock) m (mkFrame [] []) (f :: fs) ltac:(cbn; rewrite F; reflexivity) H1) as (f1 & F1).
    inversion H2 as [|? ? ? ? L2 A2 H3 E2]; subst. refine (IH2 _ _ f fs _ H3). cbn. rewrite F1. reflexivity.
  - inversion H as [|? ? ? ? L A H' E1]; subst. apply story_app in H' as (m & H1 & H2).
    destruct (IH1 (after K p EnterFunction) m (mkFrame [] []) (f :: fs) ltac:(cbn; rewrite F; reflexivity) H1) as (f1 & F1).
    inversion H2 as [|? ? ? ? L2 A2 H3 E2]; subst. refine (IH2 _ _ f fs _ H3). cbn. rewrite F1. reflexivity.
Qed.

Definition scope_ops (a b : op) : Prop := (a = EnterBlock /\ b = LeaveBlock) \/ (a = EnterFunction /\ b = LeaveFunction).
Lemma scope_frames a b body p q : scope_ops a b -> balanced body -> p_frames p <> [] -> story K p (a :: body ++ [b]) q -> p_frames q = p_frames p.
Proof.
  intros SO B N H. inversion H as [|? ? ? ? L A H' E1]; subst. apply story_app in H' as (m & H1 & H2).
  inversion H2 as [|? ? ? ? L2 A2 H3 E2]; subst. inversion H3; subst.
  assert (F: p_frames (after K p a) = mkFrame [] [] :: p_frames p) by (destruct SO as [[-> _]|[-> _]]; reflexivity).
  destruct (balanced_frames _ B _ _ _ _ F H1) as (f' & F').
  destruct SO as [[_ ->]|[_ ->]]; cbn; rewrite F'; reflexivity.
Qed.

Lemma scopes_restore ops p w a b body q : story K start ops p -> run (initial K) ops = Some w -> scope_ops a b -> balanced body ->
  story K p (a :: body ++ [b]) q -> exists w', run w (a :: body ++ [b]) = Some w'
    /\ (forall x, repr_get_reference (w_sx w') x = repr_get_reference (w_sx w) x)
    /\ id_displ (w_sx w') = id_displ (w_sx w) /\ id_lg (w_sx w') = id_lg (w_sx w).
Proof.
  intros S R SO B H. destruct (reached _ _ _ S R) as (es & I).
  destruct (story_run K _ _ _ _ _ I H) as (w' & es' & R' & I'). exists w'. split; auto.
  assert (N: p_frames p <> []) by (destruct (frames_ex K p w es I) as (f & fs & ->); discriminate).
  pose proof (scope_frames _ _ _ _ _ SO B N H) as F. split.
  - intros x. unfold repr_get_reference. rewrite (i_refs _ _ _ _ I'), (i_refs _ _ _ _ I), F. reflexivity.
  - pose proof (levels_frames _ _ _ _ _ _ _ _ _ (i_levels _ _ _ _ I)) as (_ & _ & A1 & A2).
    pose proof (levels_frames _ _ _ _ _ _ _ _ _ (i_levels _ _ _ _ I')) as (_ & _ & B1 & B2). rewrite F in *.
    assert (LC: (length (p_frames p) = 1)%nat \/ (2 <= length (p_frames p))%nat) by (destruct (p_frames p) as [|? [|? ?]]; [congruence|left; reflexivity|right; cbn; lia]).
    destruct LC as [LC|LC].
    + destruct (A1 LC) as (_ & -> & ->). destruct (B1 LC) as (_ & -> & ->). auto.
    + destruct (A2 LC) as (-> & ->). destruct (B2 LC) as (-> & ->). auto.
Qed.

(** The verdict on a declaration. *)
Definition verdict_value (p : program) (v : verdict) : Z :=
  match v with Accepted => new_id p | Repeated => SIZE_MAX - 1 | SecondMain => SIZE_MAX end.
Lemma declared_verdict ops p w t x d : story K start ops p -> run (initial K) ops = Some w -> legal K p (Declare t x d) ->
  exists w', exec w (Declare t x d) = Some (verdict_value p (judge K p x d), w').
Proof.
  intros S R L. destruct (reached _ _ _ S R) as (es & I). destruct (frames_ex K p w es I) as (f & fs & F).
  destruct (judge K p x d) eqn:J; cbn [verdict_value exec].
  - rewrite (declare_accepted K p w es f fs I F t x d L J). cbn [bind]. rewrite (new_id_is K p w es I). eauto.
  - destruct L as (X & KX & LD & B & MP & SAME).
    assert (P: forall kind ty fd, kind <> 1 -> (fd = 1 -> is_function d = true \/ 2 <= depth p) ->
      ident_add t (w_sx w) x kind ty fd = Some (SIZE_MAX - 1, begun (w_sx w) es x (set_ref (id_refs (w_sx w)) x (idx (zlen es))) (id_main (w_sx w)))).
    { intros kind ty fd K1 FD. apply (prelude_repeated K p w es f fs I F t x kind ty fd d X B K1 J FD). }
    assert (G: depth p = 1 \/ 2 <= depth p).
    { unfold depth. rewrite F, zlen_cons. pose proof (zlen_nonneg fs). lia. }
    destruct d as [ty|ty|ty|how ty|how ty v|n ty|n ty]; cbn [declare]; unfold enum_constant_add.
    + rewrite P by (auto; lia). cbn [bind]. eauto.
    + destruct LD as (D & _). rewrite P by (auto; try lia; right; lia). cbn [bind]. eauto.
    + unfold legal_decl, only_parameters in LD. rewrite F in LD. destruct fs as [|g [|? ?]]; try contradiction.
      rewrite P; [cbn [bind]; eauto|lia|]. intros _. right. unfold depth. rewrite F, !zlen_cons. change (zlen (@nil frame)) with 0. lia.
    + rewrite P; [cbn [bind]; eauto|lia|]. intros E. destruct G as [G|G]; auto. cbn in LD. specialize (LD G). lia.
    + rewrite P; [cbn [bind]; eauto|lia|]. intros E. destruct G as [G|G]; auto. destruct LD as (LD & _). specialize (LD G). lia.
    + destruct LD as (D & N & _). rewrite P; [cbn [bind]; eauto|lia|]. intros _. left. reflexivity.
    + destruct LD as (D & N & _). rewrite P; [cbn [bind]; eauto|lia|]. lia.
  - destruct L as (X & KX & LD & B & MP & SAME).
    assert (P: forall kind ty fd, 
      ident_add t (w_sx w) x kind ty fd = Some (SIZE_MAX, begun (w_sx w) es x (id_refs (w_sx w)) (id_main (w_sx w)))).
    { intros kind ty fd. apply (prelude_second K p w es f fs I F t x kind ty fd d B J). }
    destruct d; cbn [declare]; unfold enum_constant_add; rewrite P; cbn [bind]; eauto.
Qed.

Lemma names_innermost ops p w x : story K start ops p -> run (initial K) ops = Some w ->
  repr_get_reference (w_sx w) x = match lookup (p_frames p) x with Some (i, _) => i | None => K x end.
Proof. intros S R. destruct (reached _ _ _ S R) as (es & I). apply (i_refs _ _ _ _ I). Qed.

(** Memory. *)
Lemma dsp_get p w es id a : inv K p w es -> dsp es id a -> ident_get_displ (w_sx w) id = a.
Proof. intros I (k & e & -> & H & _ & <-). apply (get_displ _ _ (i_cells _ _ _ _ I) (i_bound _ _ _ _ I) _ _ H). Qed.

Lemma placed_apart (at_ : slot -> option Z) (P : slot -> Z -> Prop) b l : nonneg l -> placed P b l ->
  (forall v a c, P v a -> at_ v = Some c -> c = a) -> ForallOrdPairs (apart at_) l /\ Forall (within at_ b (b + total l)) l.
Proof.
  intros N H E. induction l as [|v l IH]; [split; constructor|]. inversion N as [|? ? N1 N2]; subst. destruct H as [H1 H2].
  destruct (IH N2 H2) as [A W]. pose proof (total_nonneg _ N2) as T. cbn [total fold_right]. fold (total l). split.
  - constructor; auto. eapply Forall_impl; [|exact W]. intros u Wu a c Ha Hc. apply (E _ _ _ H1) in Ha. specialize (Wu _ Hc). right. lia.
  - constructor.
    + intros a Ha. apply (E _ _ _ H1) in Ha. lia.
    + eapply Forall_impl; [|exact W]. intros u Wu a Ha. specialize (Wu _ Ha). lia.
Qed.
Lemma memory ops p w : story K start ops p -> run (initial K) ops = Some w ->
  let displ := ident_get_displ (w_sx w) in
  ForallOrdPairs (apart (cell displ)) (locals p) /\ ForallOrdPairs (apart (global_cell displ)) (globals p)
  /\ (2 <= depth p -> Forall (within (cell displ) 3 (id_max_displ (w_sx w))) (p_ever p))
  /\ (2 <= depth p -> Forall (within (cell displ) 3 (id_max_displ (w_sx w))) (locals p))
  /\ Forall (within (global_cell displ) 3 (id_max_displg (w_sx w))) (globals p).
Proof.
  intros S R displ. destruct (reached _ _ _ S R) as (es & I).
  assert (NL: nonneg (locals p)).
  { pose proof (i_pos _ _ _ _ I) as P. unfold locals, nonneg. apply Forall_flat_map. rewrite Forall_forall in P |- *. intros f Hf. apply P.
    clear - Hf. induction (p_frames p) as [|g l IH]; [destruct Hf|]. destruct l; [destruct Hf|]. destruct Hf as [<-|Hf]; [left; auto|right; auto]. }
  assert (NG: nonneg (globals p)).
  { pose proof (i_pos _ _ _ _ I) as P. unfold globals. destruct (frames_ex K p w es I) as (f & fs & F). rewrite F in *.
    rewrite Forall_forall in P. apply P. clear. revert f. induction fs as [|h fs IH]; intros f; [left; auto|]. right. exact (IH h). }
  destruct (placed_apart (cell displ) _ _ _ NL (i_local _ _ _ _ I)) as [A W].
  { intros v a c H E. unfold cell in E. destruct v; cbn in H; [injection E as <-|injection E as <-|discriminate].
    - apply (dsp_get _ _ _ _ _ I H).
    - unfold displ. rewrite (dsp_get _ _ _ _ _ I H). lia. }
  destruct (placed_apart (global_cell displ) _ _ _ NG (i_global _ _ _ _ I)) as [A' W'].
  { intros v a c H E. unfold global_cell in E. destruct v; cbn in H; [injection E as <-|discriminate|discriminate].
    unfold displ. rewrite (dsp_get _ _ _ _ _ I H). lia. }
  assert (D2: 2 <= depth p -> (2 <= length (p_frames p))%nat) by (unfold depth; rewrite zlen_unf; lia).
  split; auto. split; auto. split; [|split].
  - intros D. destruct (i_ever _ _ _ _ I (D2 D)) as (E1 & _). eapply Forall_impl; [|exact E1].
    intros v H a E. destruct v; cbn in H, E; [destruct H as (c & H & L)|destruct H as (c & H & L)|discriminate].
    + injection E as <-. unfold displ. rewrite (dsp_get _ _ _ _ _ I H). exact L.
    + injection E as <-. unfold displ. rewrite (dsp_get _ _ _ _ _ I H). cbn [slot_size]. lia.
  - intros D. destruct (i_ever _ _ _ _ I (D2 D)) as (_ & E2 & _).
    destruct (levels_frames _ _ _ _ _ _ _ _ _ (i_levels _ _ _ _ I)) as (_ & _ & _ & LL). destruct (LL (D2 D)) as [_ Dd].
    eapply Forall_impl; [|exact W]. intros v H a E. specialize (H a E). change (live (p_frames p)) with (locals p) in Dd. lia.
  - rewrite (i_maxg _ _ _ _ I). exact W'.
Qed.
Lemma function_memory ops p w q w' r : story K start ops p -> run (initial K) ops = Some w -> legal K p LeaveFunction ->
  q = after K p LeaveFunction -> exec w LeaveFunction = Some (r, w') ->
  Forall (within (cell (ident_get_displ (w_sx w'))) 3 r) (p_ever p).
Proof.
  intros S R L -> E. destruct (reached _ _ _ S R) as (es & I).
  destruct (inv_leave_function K p w es I L) as (w1 & E1 & I1). rewrite E in E1. injection E1 as -> <-.
  assert (D2: 2 <= depth p) by (cbn in L; lia).
  destruct (memory _ _ _ S R) as (_ & _ & M & _). specialize (M D2).
  assert (Q: forall id, ident_get_displ (w_sx w') id = ident_get_displ (w_sx w) id).
  { intros id. unfold ident_get_displ, ident_get. rewrite (i_cells _ _ _ _ I1), (i_cells _ _ _ _ I). reflexivity. }
  eapply Forall_impl; [|exact M]. intros v H a Ha. apply H. destruct v; cbn in *; rewrite ?Q in Ha; auto.
Qed.

(** Which identifiers are taken for type names. *)
Lemma not_types ops p w : story K start ops p -> run (initial K) ops = Some w ->
  (forall id n, In (Var id n) (globals p) -> ident_is_type_specifier (w_sx w) id = false)
  /\ (2 <= depth p -> id_max_displ (w_sx w) < 1000 -> forall id n, In (Var id n) (p_ever p) -> 0 <= n -> ident_is_type_specifier (w_sx w) id = false)
  /\ (2 <= depth p -> forall id, In (Fun id) (p_ever p) -> ident_is_type_specifier (w_sx w) id = false).
Proof.
  intros S R. destruct (memory _ _ _ S R) as (_ & _ & E & _ & G). unfold ident_is_type_specifier. split; [|split].
  - intros id n H. rewrite Forall_forall in G. specialize (G _ H _ eq_refl). lia.
  - intros D M id n H N. specialize (E D). rewrite Forall_forall in E. specialize (E _ H _ eq_refl). cbn [slot_size] in E. lia.
  - intros D id H. specialize (E D). rewrite Forall_forall in E. specialize (E _ H _ eq_refl). lia.
Qed.

(** What is recorded. *)
Lemma Forall2_back {A B} (R : A -> B -> Prop) l l' : Forall2 R l l' -> forall k m, znth l' k = Some m -> exists e, znth l k = Some e /\ R e m.
Proof.
  induction 1 as [|a n l l' H HF IH]; intros k e Hk; pose proof (znth_Some_lt _ _ _ Hk) as L.
  - change (zlen (@nil B)) with 0 in L. lia.
  - destruct (Z.eq_dec k 0) as [->|NZ].
    + rewrite znth_cons_0 in Hk. rewrite znth_cons_0. injection Hk as <-. eauto.
    + rewrite znth_cons_pos in Hk by lia. rewrite znth_cons_pos by lia. auto.
Qed.
Lemma recorded ops p w k m : story K start ops p -> run (initial K) ops = Some w -> znth (p_notes p) k = Some m ->
  let id := 2 + 4 * k in let s := w_sx w in
  Z.abs (ident_get_repr s id) = n_name m /\ (ident_get_repr s id < 0 <-> is_prototype (n_decl m) = true)
  /\ ident_get_type s id = d_type (n_decl m) /\ (forall v, d_value (n_decl m) = Some v -> ident_get_displ s id = v).
Proof.
  intros S R H id s. destruct (reached _ _ _ S R) as (es & I).
  destruct (Forall2_back _ _ _ (i_notes _ _ _ _ I) _ _ H) as (e & He & A & B & C & D). fold (idx k) in id.
  unfold id, s. rewrite (get_repr _ _ (i_cells _ _ _ _ I) (i_bound _ _ _ _ I) _ _ He).
  rewrite (get_type _ _ (i_cells _ _ _ _ I) (i_bound _ _ _ _ I) _ _ He), (get_displ _ _ (i_cells _ _ _ _ I) (i_bound _ _ _ _ I) _ _ He).
  split; [destruct (is_prototype _); lia|]. split; [destruct (is_prototype _); lia|]. split; auto.
  intros v Hv. rewrite Hv in D. auto.
Qed.
Lemma final_check ops p w : story K start ops p -> run (initial K) ops = Some w ->
  (tables_are_correct (w_sx w) = true <-> p_main p <> None /\ forall x i b, 0 < x -> assoc (f_names (last (p_frames p) (mkFrame [] []))) x = Some (i, b) -> b = false).
Proof.
  intros S R. destruct (reached _ _ _ S R) as (es & I). unfold tables_are_correct. rewrite andb_true_iff, forallb_forall.
  pose proof (i_main _ _ _ _ I) as M. pose proof (i_predef0 _ _ _ _ I) as P0. pose proof (i_predef _ _ _ _ I) as P.
  unfold outer in P. split; intros [A B]; split.
  - destruct (p_main p); [discriminate|]. rewrite M in A. discriminate.
  - intros x i b X H. destruct b; auto. assert (In x (id_predef (w_sx w))) as J by (apply P; eauto). apply B in J. lia.
  - destruct (p_main p); [|congruence]. lia.
  - intros x H. specialize (P0 x H). destruct (Z.eq_dec x 0); [lia|]. exfalso. apply P in H; [|lia]. destruct H as [i H]. specialize (B x i true ltac:(lia) H). discriminate.
Qed.
End K.

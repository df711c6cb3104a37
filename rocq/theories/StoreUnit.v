(** Proofs for C31: functions and programs. *)
From Verif Require Import Prelude LVec TypesModel TypesSpec LexModel ParseModel InstrModel BuildModel CodeModel StoreSpec CodeExpr StoreProofs StoreStmt.

Section Code.
Variable c : ctx.
Notation size := (cells_of c).

Lemma size_add e v : mem_size (mem_add e v) = mem_size e + 1.
Proof. unfold mem_size. cbn [mem_add set_mem e_mem]. apply zlen_lv_add. Qed.
Lemma ready_grows' L P N D e e' : ready P N e -> grows L D e e' -> ready P N e'.
Proof. intros (A & B & H) [G1 G2 G3 G4 G5 G6 G7 G8]. unfold ready. rewrite G5, G6. split; [exact A|]. split; [exact B|]. lia. Qed.
Lemma functions_add_same e id a : let e' := functions_add c e id a in
  e_displ e' = e_displ e /\ e_max_local e' = e_max_local e /\ e_max_global e' = e_max_global e /\ e_params e' = e_params e
  /\ e_displs e' = lv_set (e_displs e) id (zlen (e_funcs e)) /\ mem_size e' = mem_size e.
Proof.
  unfold functions_add, patched. cbv zeta. destruct (_ <? 0); [|cbn; auto 10]. destruct (patch_chain _ _ _ _ _) eqn:E; cbn; auto 10.
  unfold mem_size. cbn. rewrite (chain_len _ _ _ _ _ _ E). auto 10.
Qed.

Lemma params_laid L U N params all : (forall id, In id U -> (~ In id L \/ In id all) /\ 0 <= id < N) ->
  forall e scope, ready all N e -> incl (scope ++ params) U -> NoDup (scope ++ params) -> laid c e scope ->
  let e' := fold_left (fun e p => snd (displacements_add c e p)) params e in
  grows [] params e e' /\ laid c e' (scope ++ params) /\ ready all N e' /\ mem_size e' = mem_size e.
Proof.
  intros HU. induction params as [|p params IH]; intros e scope R IU ND Q; cbn [fold_left]; cbv zeta.
  - rewrite app_nil_r. split; [apply grows_keeps, keeps_refl|]. auto.
  - assert (NP : ~ In p scope). { intros H. apply (NoDup_apart _ _ _ ND H). left. reflexivity. }
    destruct (add_step c L all N U HU e p scope R) as [G1 Q1]; [apply IU, in_or_app; right; left; reflexivity|exact NP|intros x Hx; apply IU, in_or_app; auto|exact Q|].
    assert (R1 : ready all N (snd (displacements_add c e p))). { eapply (ready_grows' [] all N [p]); [exact R|exact G1]. }
    replace (scope ++ p :: params) with ((scope ++ [p]) ++ params) in * by (rewrite <- app_assoc; reflexivity).
    destruct (IH _ _ R1 IU ND Q1) as (G2 & Q2 & R2 & M2). split; [|split; [exact Q2|split; [exact R2|]]].
    + eapply grows_trans; [eapply grows_incl; [exact G1|]|eapply grows_incl; [exact G2|]]; intros x Hx; [destruct Hx as [->|[]]; left; reflexivity|right; exact Hx].
    + rewrite M2. unfold displacements_add. destruct (e_params e); reflexivity.
Qed.

Lemma function_step id params body e :
  let U := params ++ declared body in
  let e' := emit_function_definition c id params body e in
  NoDup U -> (forall x, In x U -> (~ In x (stmt_calls body) \/ In x params) /\ 0 <= x < zlen (e_displs e)) ->
  e_max_global e' = e_max_global e /\ e_params e' = None /\ zlen (e_displs e') = zlen (e_displs e)
  /\ (forall x, ~ In x (id :: U) -> ~ In x (stmt_calls body) -> displacements_get e' x = displacements_get e x)
  /\ exists frame, mem_get e' (mem_size e + 1) = frame /\ Forall (packed (first_cell e') size 3 frame) (points params body).
Proof.
  intros U e' ND HU. destruct (functions_add_same e id (mem_size e)) as (A1 & A2 & A3 & A4 & A5 & A6).
  unfold e', emit_function_definition. cbv zeta.
  set (e1 := functions_add c e id (mem_size e)) in *. set (e2 := set_frame (set_params e1 (Some params)) DISPL_START DISPL_START (e_max_global e1)).
  set (N := zlen (e_displs e)) in *.
  assert (R2 : ready params N e2). { split; [reflexivity|]. split; [cbn; rewrite A5, zlen_lv_set; reflexivity|]. cbn. unfold DISPL_START. lia. }
  destruct (params_laid (stmt_calls body) U N params params HU e2 [] R2) as (G3 & Q3 & R3 & M3).
  { intros x Hx. apply in_or_app. auto. } { exact (NoDup_left _ _ ND). } { constructor. }
  cbn [app] in Q3. set (e3 := fold_left _ params e2) in *.
  set (e4 := mem_add e3 IC_FUNC_BEG). set (e5 := mem_reserve (mem_reserve e4)).
  assert (K5 : keeps (stmt_calls body) e3 e5) by (unfold e5, e4; kp; apply keeps_refl).
  assert (R5 : ready params N e5). { eapply (ready_grows' (stmt_calls body) params N []); [exact R3|apply grows_keeps, K5]. }
  assert (Q5 : laid c e5 params). { eapply (laid_keeps c (stmt_calls body) params N U HU); [exact R3|intros x Hx; apply in_or_app; auto|exact K5|exact Q3]. }
  destruct (statement_claim c (stmt_calls body) params N U HU body e5 params R5 (incl_refl _) (incl_refl _) ND Q5) as (G6 & Q6 & F6). cbv zeta in *.
  set (e6 := emit_statement c body e5) in *. set (e7 := mem_add e6 IC_RETURN_VOID).
  assert (M5 : mem_size e5 = mem_size e + 3).
  { unfold e5, e4, mem_reserve. rewrite !size_add, M3. change (mem_size e2) with (mem_size e1). lia. }
  pose proof (gr_mem _ _ _ _ G6) as M6.
  assert (M4 : mem_size e4 = mem_size e + 1). { unfold e4. rewrite size_add, M3. change (mem_size e2) with (mem_size e1). lia. }
  split; [|split; [reflexivity|split; [|split]]].
  - change (e_max_global e6 = e_max_global e). rewrite (gr_global _ _ _ _ G6), (k_global _ _ _ K5), (gr_global _ _ _ _ G3). exact A3.
  - change (zlen (e_displs e6) = N). rewrite (gr_len _ _ _ _ G6), (k_len _ _ _ K5), (gr_len _ _ _ _ G3). change (e_displs e2) with (e_displs e1). rewrite A5, zlen_lv_set. reflexivity.
  - intros x H1 H2. change (displacements_get e6 x = displacements_get e x).
    assert (NP : ~ In x params). { intros H. apply H1. right. apply in_or_app. auto. }
    rewrite (gr_at _ _ _ _ G6), (k_at _ _ _ K5), (gr_at _ _ _ _ G3); auto.
    + unfold displacements_get. cbn. rewrite A5. apply lv_get_set_other. intros ->. apply H1. left. reflexivity.
    + intros H. apply H1. right. apply in_or_app. auto.
  - exists (e_max_local e6). split.
    + assert (Mr : mem_size (mem_reserve e4) = mem_size e + 2) by (unfold mem_reserve; rewrite size_add; lia).
      rewrite Mr, M4. unfold mem_get. cbn [set_params mem_set set_mem e_mem]. unfold lv_get, lv_set. pose proof (zlen_nonneg (e_mem e)) as Z0. change (zlen (e_mem e)) with (mem_size e) in Z0.
      assert (Ml : zlen (e_mem e7) = mem_size e6 + 1) by apply size_add. rewrite znth_zupd_other by lia. rewrite znth_zupd_same by lia. reflexivity.
    + exact F6.
Qed.


(** ** Global storage *)
Definition placed (N : Z) (e : enc) (gs : list Z) : Prop :=
  e_params e = None /\ zlen (e_displs e) = N /\ 3 <= e_max_global e
  /\ packed (first_cell e) size 3 (e_max_global e) gs /\ Forall (fun id => displacements_get e id < 0) gs.

Lemma placed_keeps L N e e' gs : placed N e gs -> keeps L e e' -> (forall x, In x gs -> ~ In x L) -> placed N e' gs.
Proof.
  intros (A & B & C & D & F) [K1 K2 K3 K4 K5 K6 K7] H. unfold placed. rewrite K3, K4, K5. split; [exact A|]. split; [exact B|]. split; [exact C|].
  assert (E : forall x, In x gs -> displacements_get e' x = displacements_get e x) by (intros x Hx; apply K7; auto). split.
  - eapply packed_ext; [|exact D]. intros x Hx. unfold first_cell. rewrite E by exact Hx. reflexivity.
  - apply Forall_forall. intros x Hx. rewrite E by exact Hx. rewrite Forall_forall in F. auto.
Qed.
Lemma placed_top N d e gs : placed N e gs -> NoDup (gs ++ top_names d) -> (forall x, In x (top_names d) -> 0 <= x < N) ->
  (forall x, In x (gs ++ globals d) -> ~ In x (top_calls d)) ->
  (match d with TopFunc _ params body => forall x, In x (params ++ declared body) -> ~ In x (stmt_calls body) \/ In x params | _ => True end) ->
  placed N (emit_top c d e) (gs ++ globals d).
Proof.
  intros P ND R NC HF. destruct d as [[id bs init|t ms]|id params body]; cbn [top_names globals names flat_map app emit_top top_calls] in *.
  - destruct (variable_steps c _ id bs init e (incl_refl _)) as (e1 & K1 & K2). set (L := decl_calls (DVar id bs init)) in *.
    pose proof (placed_keeps L N e e1 gs P K1 (fun x Hx => NC x (in_or_app _ _ _ (or_introl Hx)))) as P1. destruct P1 as (A & B & C & D & F).
    change (emit_declaration c (DVar id bs init) e) with (emit_variable_declaration c id bs init e).
    eapply placed_keeps; [|exact K2|exact NC]. unfold displacements_add. rewrite A. cbn [snd].
    assert (NI : ~ In id gs). { intros H. apply (NoDup_apart _ _ _ ND H). left. reflexivity. }
    pose proof (size_nonneg (c_type c id)) as Sz. specialize (R id (or_introl eq_refl)). cbv zeta.
    set (e2 := set_displs _ _). assert (At : displacements_get e2 id = - e_max_global e1) by (unfold e2, displacements_get; cbn; apply lv_get_set_same; lia).
    assert (Old : forall x, In x gs -> displacements_get e2 x = displacements_get e1 x). { intros x Hx. unfold e2, displacements_get. cbn. apply lv_get_set_other. congruence. }
    split; [exact A|]. split; [cbn; rewrite zlen_lv_set; exact B|]. split; [cbn; lia|]. split.
    + change (e_max_global e2) with (e_max_global e1 + size_of (c_type c id)). assert (Fc : first_cell e2 id = e_max_global e1) by (unfold first_cell; rewrite At; lia).
      eapply packed_snoc with (hi := e_max_global e1); try (rewrite Fc; unfold cells_of; lia); [|lia]. eapply packed_ext; [|exact D].
      intros x Hx. unfold first_cell. rewrite Old by exact Hx. reflexivity.
    + apply Forall_app. split; [|constructor; [rewrite At; lia|constructor]]. apply Forall_forall. intros x Hx. rewrite Old by exact Hx. rewrite Forall_forall in F. auto.
  - rewrite app_nil_r. eapply placed_keeps; [exact P|apply (keeps_smember c (flat_map member_calls ms)); [apply incl_refl|apply keeps_refl]|].
    intros x Hx. apply NC. rewrite app_nil_r. exact Hx.
  - rewrite app_nil_r in *. destruct P as (A & B & C & D & F).
    destruct (function_step id params body e) as (G1 & G2 & G3 & G4 & _).
    + apply NoDup_right in ND. inversion ND; assumption.
    + intros x Hx. split; [apply HF, Hx|]. rewrite B. apply R. right. exact Hx.
    + set (e' := emit_function_definition c id params body e) in *.
      assert (E : forall x, In x gs -> displacements_get e' x = displacements_get e x).
      { intros x Hx. apply G4; [exact (NoDup_apart _ _ _ ND Hx)|apply NC, Hx]. }
      split; [exact G2|]. split; [congruence|]. split; [lia|]. rewrite G1. split.
      * eapply packed_ext; [|exact D]. intros x Hx. unfold first_cell. rewrite E by exact Hx. reflexivity.
      * apply Forall_forall. intros x Hx. rewrite E by exact Hx. rewrite Forall_forall in F. auto.
Qed.
Lemma placed_unit N ds : forall e gs, placed N e gs -> NoDup (gs ++ flat_map top_names ds) -> (forall x, In x (flat_map top_names ds) -> 0 <= x < N) ->
  (forall x, In x (gs ++ flat_map globals ds) -> ~ In x (flat_map top_calls ds)) ->
  (forall id params body, In (TopFunc id params body) ds -> forall x, In x (params ++ declared body) -> ~ In x (stmt_calls body) \/ In x params) ->
  placed N (fold_left (fun e d => emit_top c d e) ds e) (gs ++ flat_map globals ds).
Proof.
  induction ds as [|d ds IH]; intros e gs P ND R NC HF; cbn [fold_left flat_map] in *; [rewrite app_nil_r; exact P|]. rewrite app_assoc.
  assert (GN : incl (globals d) (top_names d)) by (destruct d as [[]|]; cbn; intros x Hx; try exact Hx; destruct Hx).
  assert (P1 : placed N (emit_top c d e) (gs ++ globals d)).
  { apply placed_top; auto.
    - rewrite app_assoc in ND. exact (NoDup_left _ _ ND).
    - intros x Hx. apply R, in_or_app. auto.
    - intros x Hx H. apply (NC x); [rewrite app_assoc; apply in_or_app; auto|apply in_or_app; auto].
    - destruct d; [exact Logic.I|]. intros x Hx. apply (HF id params body (or_introl eq_refl) x Hx). }
  apply IH; auto.
  - apply (NoDup_sub _ (gs ++ top_names d)); [| |rewrite <- app_assoc; exact ND].
    + rewrite app_assoc in ND. apply NoDup_left in ND. assert (G2 : NoDup (globals d)) by (destruct d as [[]|]; cbn; repeat constructor; auto).
      clear -ND GN G2. induction gs as [|y gs IH]; cbn in *; [exact G2|]. inversion ND as [|? ? A B]; subst. constructor; [|auto]. rewrite in_app_iff in *. intros [H|H]; apply A; [auto|]. right. apply GN, H.
    + intros x Hx. rewrite in_app_iff in *. destruct Hx as [Hx|Hx]; [auto|]. right. apply GN, Hx.
  - intros x Hx. apply R, in_or_app. auto.
  - intros x Hx H. apply (NC x); [rewrite app_assoc; exact Hx|apply in_or_app; auto].
  - intros id params body Hx. apply (HF id params body). right. exact Hx.
Qed.
End Code.

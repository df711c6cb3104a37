(** Proofs for C31: declarations, statements and functions. *)
From Verif Require Import Prelude LVec TypesModel TypesSpec LexModel ParseModel InstrModel BuildModel CodeModel StoreSpec CodeExpr StoreProofs.

(** ** Packed lists *)
Lemma packed_ext f g size lo hi l : (forall x, In x l -> g x = f x) -> packed f size lo hi l -> packed g size lo hi l.
Proof.
  intros H P. revert H. induction P as [|x l A B D P IH]; intros H; constructor.
  - rewrite H by (left; reflexivity). exact A.
  - rewrite H by (left; reflexivity). exact B.
  - apply Forall_forall. intros y Hy. rewrite Forall_forall in D. specialize (D y Hy). unfold apart in *. rewrite (H x), (H y) by (try (left; reflexivity); right; exact Hy). exact D.
  - apply IH. intros y Hy. apply H. right. exact Hy.
Qed.
Lemma packed_more f size lo hi hi' l : hi <= hi' -> packed f size lo hi l -> packed f size lo hi' l.
Proof. intros H. induction 1; constructor; auto. lia. Qed.
Lemma packed_inside f size lo hi l x : packed f size lo hi l -> In x l -> lo <= f x /\ f x + size x <= hi.
Proof. induction 1; intros []; subst; auto. Qed.
Lemma packed_snoc f size lo hi hi' l x : packed f size lo hi l -> hi <= hi' -> lo <= f x -> hi <= f x -> f x + size x <= hi' -> packed f size lo hi' (l ++ [x]).
Proof.
  intros P H1 H2 H3 H4. induction P as [|y l A B D P IH]; cbn.
  - repeat constructor; auto.
  - constructor; [exact A|lia| |exact IH]. apply Forall_app. split; [exact D|]. constructor; [|constructor]. left. lia.
Qed.

Lemma NoDup_left {A} (l l' : list A) : NoDup (l ++ l') -> NoDup l.
Proof. induction l as [|x l IH]; cbn; [constructor|]. intros H. inversion H as [|? ? N H']; subst. constructor; [|auto]. intros I. apply N, in_or_app. auto. Qed.
Lemma NoDup_apart {A} (l l' : list A) x : NoDup (l ++ l') -> In x l -> ~ In x l'.
Proof.
  induction l as [|y l IH]; cbn; [contradiction|]. intros H. inversion H as [|? ? N H']; subst. intros [->|I]; [|auto]. intros J. apply N, in_or_app. auto.
Qed.

Lemma NoDup_right {A} (l l' : list A) : NoDup (l ++ l') -> NoDup l'.
Proof. induction l as [|x l IH]; cbn; [auto|]. intros H. inversion H; auto. Qed.
Lemma NoDup_sub {A} (l k m : list A) : NoDup l -> incl l k -> NoDup (k ++ m) -> NoDup (l ++ m).
Proof.
  intros N I H. induction l as [|x l IH]; cbn; [exact (NoDup_right _ _ H)|]. inversion N as [|? ? NX NL]; subst.
  constructor; [|apply IH; [exact NL|intros y Hy; apply I; right; exact Hy]]. rewrite in_app_iff. intros [J|J]; [exact (NX J)|].
  exact (NoDup_apart _ _ _ H (I x (or_introl eq_refl)) J).
Qed.

Section Code.
Variable c : ctx.
Notation size := (cells_of c).

(** ** Declarations *)
Lemma keeps_bounds L e0 t : forall bs dims empty e, incl (flat_map (opt calls) bs) L -> keeps L e0 e -> keeps L e0 (snd (emit_bounds c t bs dims empty e)).
Proof.
  revert t. fix F 1. intros t bs dims empty e I K.
  assert (H : forall u, (forall bs dims empty e, incl (flat_map (opt calls) bs) L -> keeps L e0 e -> keeps L e0 (snd (emit_bounds c u bs dims empty e))) ->
    keeps L e0 (snd (match bs with
      | Some b :: bounds => emit_bounds c u bounds (dims + 1) empty (emit_expression c b e)
      | None :: bounds => emit_bounds c u bounds (dims + 1) true (if is_array u then add_error e else e)
      | [] => emit_bounds c u [] (dims + 1) empty e
      end))).
  { intros u Hu. destruct bs as [|[b|] bs]; cbn [flat_map opt] in I.
    - apply Hu; assumption.
    - apply Hu; [intros x Hx; apply I, in_or_app; auto|]. apply keeps_expression; [|exact K]. intros x Hx. apply I, in_or_app. auto.
    - apply Hu; [exact I|]. destruct (is_array u); kp. }
  destruct t as [| |t|t| | |]; try exact K; [apply H, F|]. destruct t as [| |t| | | |]; try exact K. apply H, F.
Qed.

Lemma variable_steps L id bs init e : incl (decl_calls (DVar id bs init)) L ->
  exists e1, keeps L e e1 /\ keeps L (snd (displacements_add c e1 id)) (emit_variable_declaration c id bs init e).
Proof.
  intros I. cbn [decl_calls] in I.
  assert (Ib : incl (flat_map (opt calls) bs) L) by (intros x Hx; apply I, in_or_app; auto).
  assert (Ii : forall i, init = Some i -> incl (calls i) L) by (intros i -> x Hx; apply I, in_or_app; right; exact Hx).
  unfold emit_variable_declaration. destruct (is_array (c_type c id)).
  - unfold emit_array_declaration. pose proof (keeps_bounds L e (c_type c id) bs 0 false e Ib (keeps_refl _ _)) as K.
    destruct (emit_bounds c (c_type c id) bs 0 false e) as [[[t dims] empty] e1]. cbn [snd] in K. exists e1. split; [exact K|].
    destruct (displacements_add c e1 id) as [d e2] eqn:E. cbn [snd]. cbv zeta.
    destruct init as [i|]; [|kp; apply keeps_refl]. apply keeps_words. assert (W : forall w e, keeps L e2 e -> keeps L e2 (emit_expression c i (fold_left mem_add w e))).
    { intros w e3 K3. apply keeps_expression; [auto|]. kp. }
    destruct (only_strings i); [apply keeps_set|]; apply W; kp; apply keeps_refl.
  - exists e. split; [apply keeps_refl|]. destruct (displacements_add c e id) as [d e2]. cbn [snd]. cbv zeta.
    set (e3 := if usable _ then _ else _). assert (K3 : keeps L e2 e3) by (unfold e3; destruct (usable _); kp; apply keeps_refl).
    destruct init as [i|]; [|exact K3]. assert (K4 : keeps L e2 (emit_expression c i e3)) by (apply keeps_expression; auto).
    destruct (is_structure _); kp.
Qed.
Lemma keeps_smember L e0 m : forall displ e, incl (member_calls m) L -> keeps L e0 e -> keeps L e0 (snd (emit_smember c m displ e)).
Proof.
  induction m as [t bs|t ms IH] using smember_ind'; intros displ e I K; cbn [member_calls] in I.
  - cbn. unfold emit_member_declaration. destruct (is_array t); [|exact K]. apply keeps_words. apply keeps_fold; [|exact K]. intros e1 x Hx K1. apply keeps_expression; [|exact K1].
    intros y Hy. apply I, in_flat_map. eauto.
  - cbn [emit_smember snd]. destruct (existsb _ _); [|exact K]. cbv zeta. apply keeps_set, keeps_add.
    assert (G : forall l p, incl l ms -> keeps L e0 (snd p) -> keeps L e0 (snd (fold_left (fun p m => emit_smember c m (fst p) (snd p)) l p))).
    { induction l as [|m l IHl]; intros p Il Kp; cbn; [exact Kp|]. apply IHl; [intros x Hx; apply Il; right; exact Hx|].
      rewrite Forall_forall in IH. apply IH; [apply Il; left; reflexivity| |exact Kp]. intros y Hy. apply I, in_flat_map. exists m. split; [apply Il; left; reflexivity|exact Hy]. }
    apply G; [apply incl_refl|]. cbn [snd]. kp.
Qed.

(** ** Statements *)
Record grows (L D : list Z) (e e' : enc) : Prop := {
  gr_displ : e_displ e <= e_displ e';
  gr_local : e_max_local e <= e_max_local e';
  gr_fit : e_displ e <= e_max_local e -> e_displ e' <= e_max_local e';
  gr_global : e_max_global e' = e_max_global e;
  gr_params : e_params e' = e_params e;
  gr_len : zlen (e_displs e') = zlen (e_displs e);
  gr_mem : mem_size e <= mem_size e';
  gr_at : forall id, ~ In id D -> ~ In id L \/ In id (dflt (e_params e) []) -> displacements_get e' id = displacements_get e id
}.
Lemma grows_keeps L D e e' : keeps L e e' -> grows L D e e'.
Proof. intros [A1 A2 A3 A4 A5 A6 A7]. constructor; auto; try lia. Qed.
Lemma grows_trans L D a b d : grows L D a b -> grows L D b d -> grows L D a d.
Proof.
  intros [A1 A2 A3 A4 A5 A6 A7 A8] [B1 B2 B3 B4 B5 B6 B7 B8]. constructor; try congruence; try lia. intros id H1 H2. rewrite B8, A8; auto. rewrite A5. exact H2.
Qed.
Lemma grows_incl L D D' a b : grows L D a b -> incl D D' -> grows L D' a b.
Proof. intros [A1 A2 A3 A4 A5 A6 A7 A8] I. constructor; auto. Qed.

Variables (L P : list Z) (N : Z) (U : list Z).
Hypothesis HU : forall id, In id U -> (~ In id L \/ In id P) /\ 0 <= id < N.

Definition ready (e : enc) : Prop := e_params e = Some P /\ zlen (e_displs e) = N /\ 3 <= e_displ e <= e_max_local e.
Lemma ready_grows D e e' : ready e -> grows L D e e' -> ready e'.
Proof. intros (A & B & H) [G1 G2 G3 G4 G5 G6 G7 G8]. unfold ready. rewrite G5, G6. split; [exact A|]. split; [exact B|]. lia. Qed.

(** A state where [scope] is laid out, and what a statement does to it. *)
Definition laid (e : enc) (scope : list Z) : Prop := packed (first_cell e) size 3 (e_displ e) scope.
Lemma laid_keeps e e' scope : ready e -> incl scope U -> keeps L e e' -> laid e scope -> laid e' scope.
Proof.
  intros (A & B & H) I [K1 K2 K3 K4 K5 K6 K7] Q. unfold laid in *. rewrite K1. eapply packed_ext; [|exact Q]. intros x Hx. unfold first_cell. rewrite K7; [reflexivity|].
  rewrite A. apply HU, I, Hx.
Qed.
Lemma first_grows D e e' x : ready e -> In x U -> grows L D e e' -> ~ In x D -> first_cell e' x = first_cell e x.
Proof. intros (A & B & H) I G ND. unfold first_cell. rewrite (gr_at _ _ _ _ G); [reflexivity|exact ND|]. rewrite A. apply HU, I. Qed.

Lemma add_step e id scope : ready e -> In id U -> ~ In id scope -> incl scope U -> laid e scope ->
  let e' := snd (displacements_add c e id) in grows [] [id] e e' /\ laid e' (scope ++ [id]).
Proof.
  intros (A & B & H) I NI IU Q. unfold displacements_add. rewrite A. cbn zeta. cbn [snd].
  pose proof (size_nonneg (c_type c id)) as Sz. destruct (HU id I) as [_ R].
  set (res := if is_function (c_type c id) then _ else _). assert (Ab : Z.abs res = e_displ e) by (unfold res; destruct (is_function _); lia).
  split.
  - constructor; cbn; try reflexivity; try lia; [apply zlen_lv_set|]. intros j Hj _. unfold displacements_get. cbn. apply lv_get_set_other. intros ->. apply Hj. left. reflexivity.
  - unfold laid. cbn [e_displ set_displs set_frame]. assert (F : first_cell (set_displs (set_frame e (e_displ e + size_of (c_type c id)) (Z.max (e_displ e + size_of (c_type c id)) (e_max_local e)) (e_max_global e)) (lv_set (e_displs e) id res)) id = e_displ e).
    { unfold first_cell, displacements_get. cbn. rewrite lv_get_set_same by lia. exact Ab. }
    eapply packed_snoc with (hi := e_displ e); try (rewrite F; unfold cells_of; lia); [|lia].
    eapply packed_ext; [|exact Q]. intros x Hx. unfold first_cell, displacements_get. cbn. rewrite lv_get_set_other by congruence. reflexivity.
Qed.

Lemma names_cons d ds : names (d :: ds) = names [d] ++ names ds.
Proof. unfold names. cbn. rewrite app_nil_r. reflexivity. Qed.
Lemma decl_step d e scope : ready e -> incl (decl_calls d) L -> incl (scope ++ names [d]) U -> NoDup (scope ++ names [d]) -> laid e scope ->
  let e' := emit_declaration c d e in grows L (names [d]) e e' /\ laid e' (scope ++ names [d]).
Proof.
  intros Rd I IU ND Q. destruct d as [id bs init|t ms]; cbn [emit_declaration names flat_map app] in *.
  - destruct (variable_steps L id bs init e I) as (e1 & K1 & K2).
    assert (IS : incl scope U) by (intros x Hx; apply IU, in_or_app; auto). assert (Iid : In id U) by (apply IU, in_or_app; right; left; reflexivity).
    pose proof (laid_keeps e e1 scope Rd IS K1 Q) as Q1. pose proof (ready_grows [id] e e1 Rd (grows_keeps _ _ _ _ K1)) as R1.
    destruct (add_step e1 id scope R1 Iid) as [G2 Q2]; [|exact IS|exact Q1|].
    { intros H. apply (NoDup_apart scope [id] id ND H). left. reflexivity. }
    assert (G2' : grows L [id] e1 (snd (displacements_add c e1 id))) by (destruct G2; constructor; auto).
    pose proof (ready_grows [id] _ _ R1 G2') as R2. cbv zeta. split.
    + eapply grows_trans; [apply grows_keeps, K1|]. eapply grows_trans; [exact G2'|]. apply grows_keeps, K2.
    + eapply laid_keeps; [exact R2|exact IU|exact K2|exact Q2].
  - assert (K : keeps L e (emit_struct c t ms e)) by (apply keeps_smember; [exact I|apply keeps_refl]). rewrite app_nil_r in *. split; [apply grows_keeps, K|].
    eapply laid_keeps; eauto.
Qed.
Lemma decls_step ds : forall e scope, ready e -> incl (flat_map decl_calls ds) L -> incl (scope ++ names ds) U -> NoDup (scope ++ names ds) -> laid e scope ->
  let e' := fold_left (fun e d => emit_declaration c d e) ds e in grows L (names ds) e e' /\ laid e' (scope ++ names ds).
Proof.
  induction ds as [|d ds IH]; intros e scope Rd I IU ND Q.
  - cbn. rewrite app_nil_r. split; [apply grows_keeps, keeps_refl|exact Q].
  - cbn [fold_left]. rewrite names_cons in *. rewrite app_assoc in IU, ND. cbn [flat_map] in I.
    destruct (decl_step d e scope Rd) as [G1 Q1]; [intros x Hx; apply I, in_or_app; auto|intros x Hx; apply IU, in_or_app; auto|exact (NoDup_left _ _ ND)|exact Q|].
    pose proof (ready_grows _ _ _ Rd G1) as R1.
    destruct (IH (emit_declaration c d e) (scope ++ names [d]) R1) as [G2 Q2]; [intros x Hx; apply I, in_or_app; auto|exact IU|exact ND|exact Q1|].
    cbv zeta. split.
    + eapply grows_trans; [eapply grows_incl; [exact G1|]|eapply grows_incl; [exact G2|]]; intros x Hx; apply in_or_app; auto.
    + rewrite app_assoc. exact Q2.
Qed.

(** The claim for a statement. *)
Definition fits (e : enc) (p : list Z) : Prop := packed (first_cell e) size 3 (e_max_local e) p.
Definition claim (s : stmt) : Prop := forall e scope, ready e -> incl (stmt_calls s) L -> incl (scope ++ declared s) U -> NoDup (scope ++ declared s) -> laid e scope ->
  let e' := emit_statement c s e in
  grows L (declared s) e e' /\ laid e' (after scope s) /\ Forall (fits e') (points scope s).

Lemma laid_fits e scope : ready e -> laid e scope -> fits e scope.
Proof. intros (_ & _ & H) Q. eapply packed_more; [|exact Q]. lia. Qed.
Lemma laid_grows D e e' scope : ready e -> incl scope U -> grows L D e e' -> (forall x, In x scope -> ~ In x D) -> laid e scope -> laid e' scope.
Proof.
  intros R I G ND Q. eapply packed_more; [apply (gr_displ _ _ _ _ G)|]. eapply packed_ext; [|exact Q]. intros x Hx. eapply first_grows; eauto.
Qed.
Lemma fits_grows D e e' p : ready e -> incl p U -> grows L D e e' -> (forall x, In x p -> ~ In x D) -> fits e p -> fits e' p.
Proof.
  intros R I G ND Q. eapply packed_more; [apply (gr_local _ _ _ _ G)|]. eapply packed_ext; [|exact Q]. intros x Hx. eapply first_grows; eauto.
Qed.
Lemma after_incl s : forall scope, incl (after scope s) (scope ++ declared s) /\ incl scope (after scope s).
Proof.
  induction s using stmt_ind'; intros scope; cbn [after declared]; try (split; [intros y Hy; apply in_or_app; auto|apply incl_refl]).
  - split; [apply incl_refl|]. intros y Hy. apply in_or_app. auto.
  - apply IHs.
  - apply IHs.
Qed.
Lemma after_nodup s scope m : NoDup ((scope ++ declared s) ++ m) -> NoDup (after scope s ++ m).
Proof.
  intros H. apply (NoDup_sub _ (scope ++ declared s)); [|apply after_incl|exact H].
  apply NoDup_left in H. revert scope H. induction s using stmt_ind'; intros scope N1; cbn [after declared] in *; try exact (NoDup_left _ _ N1); auto.
Qed.
Definition block := fix block (scope : list Z) (ss : list stmt) : list (list Z) :=
    match ss with [] => [] | s :: ss => points scope s ++ block (after scope s) ss end.
Lemma points_block scope ss : points scope (SCompound ss) = scope :: block scope ss.
Proof. reflexivity. Qed.
Lemma points_incl s : forall scope p, In p (points scope s) -> incl p (scope ++ declared s).
Proof.
  induction s using stmt_ind'; intros scope p Hp; destruct Hp as [<-|Hp]; try (intros y Hy; apply in_or_app; auto; fail); cbn [declared] in *.
  - destruct Hp as [<-|[]]. apply incl_refl.
  - apply IHs, Hp.
  - apply IHs, Hp.
  - fold block in Hp. assert (G : forall l scope p, incl l ss -> In p (block scope l) -> incl p (scope ++ flat_map declared l)).
    { clear scope p Hp. induction l as [|s l IHl]; intros scope p Il Hp; [destruct Hp|]. cbn [block] in Hp. cbn [flat_map]. apply in_app_or in Hp. destruct Hp as [Hp|Hp].
      - rewrite Forall_forall in H. specialize (H s (Il s (or_introl eq_refl)) scope p Hp). intros y Hy. specialize (H y Hy). rewrite !in_app_iff in *. tauto.
      - specialize (IHl _ _ ltac:(intros y Hy; apply Il; right; exact Hy) Hp). intros y Hy. specialize (IHl y Hy). rewrite !in_app_iff in *. destruct IHl as [I|I]; [|tauto].
        apply (proj1 (after_incl s scope)) in I. rewrite in_app_iff in I. tauto. }
    apply (G ss scope p); [apply incl_refl|exact Hp].
  - cbn in Hp. apply in_app_or in Hp. destruct Hp as [Hp|Hp].
    + intros y Hy. apply IHs in Hp. specialize (Hp y Hy). rewrite !in_app_iff in *. tauto.
    + destruct o as [s'|]; [|destruct Hp]. cbn [opt] in *. intros y Hy. apply (H s' eq_refl) in Hp. specialize (Hp y Hy). rewrite !in_app_iff in *. tauto.
  - apply IHs, Hp.
  - apply IHs, Hp.
  - apply IHs, Hp.
  - cbn in Hp. apply in_app_or in Hp. destruct Hp as [Hp|Hp].
    + destruct i as [s'|]; [|destruct Hp]. cbn [opt] in *. intros y Hy. apply (H s' eq_refl) in Hp. specialize (Hp y Hy). rewrite !in_app_iff in *. tauto.
    + intros y Hy. apply IHs in Hp. specialize (Hp y Hy). rewrite !in_app_iff in *. destruct Hp as [Hp|Hp]; [|tauto].
      destruct i as [s'|]; [|tauto]. apply (proj1 (after_incl s' scope)) in Hp. rewrite in_app_iff in Hp. cbn [opt]. tauto.
Qed.

Lemma frame_keeps e e' s scope : ready e -> keeps L e e' -> incl (scope ++ declared s) U -> laid e scope -> declared s = [] -> after scope s = scope ->
  points scope s = [scope] -> grows L (declared s) e e' /\ laid e' (after scope s) /\ Forall (fits e') (points scope s).
Proof.
  intros R K IU Q D A Pt. rewrite D, A, Pt in *. rewrite app_nil_r in IU. pose proof (laid_keeps _ _ _ R IU K Q) as Q'.
  split; [apply grows_keeps, K|]. split; [exact Q'|]. repeat constructor. apply laid_fits; [|exact Q']. eapply (ready_grows []); [exact R|apply grows_keeps, K].
Qed.

(** A substatement in the middle of code which keeps the layout. *)
Lemma sub_step s e e1 scope : claim s -> ready e -> keeps L e e1 -> incl (stmt_calls s) L -> incl (scope ++ declared s) U -> NoDup (scope ++ declared s) -> laid e scope ->
  let e2 := emit_statement c s e1 in
  grows L (declared s) e e2 /\ laid e2 (after scope s) /\ Forall (fits e2) (points scope s) /\ ready e2.
Proof.
  intros C R K I IU ND Q. assert (IS : incl scope U) by (intros x Hx; apply IU, in_or_app; auto).
  pose proof (ready_grows (declared s) _ _ R (grows_keeps _ _ _ _ K)) as R1.
  destruct (C e1 scope R1 I IU ND (laid_keeps _ _ _ R IS K Q)) as (G & Q2 & F). cbv zeta.
  assert (G' : grows L (declared s) e (emit_statement c s e1)) by (eapply grows_trans; [apply grows_keeps, K|exact G]).
  split; [exact G'|]. split; [exact Q2|]. split; [exact F|]. eapply ready_grows; [exact R|exact G'].
Qed.
Lemma fits_keeps e e' s scope : ready e -> keeps L e e' -> incl (scope ++ declared s) U -> Forall (fits e) (points scope s) -> Forall (fits e') (points scope s).
Proof.
  intros R K IU F. apply Forall_forall. intros p Hp. rewrite Forall_forall in F. eapply (fits_grows []); [exact R| |apply grows_keeps, K|intros x Hx []|apply F, Hp].
  intros x Hx. apply IU. apply (points_incl s scope p Hp x Hx).
Qed.
Lemma grows_shrink D e e' d : grows L D e e' -> e_displ e <= d <= e_displ e' -> ready e -> grows L D e (set_displ e' d).
Proof. intros [A1 A2 A3 A4 A5 A6 A7 A8] H (_ & _ & R). constructor; cbn; auto; lia. Qed.
Lemma scope_stays s scope D e e' : ready e -> incl (scope ++ declared s) U -> NoDup (scope ++ declared s) -> incl D (declared s) -> grows L D e e' -> laid e scope ->
  packed (first_cell e') size 3 (e_displ e) scope.
Proof.
  intros R IU ND ID G Q. eapply packed_ext; [|exact Q]. intros x Hx. eapply first_grows; [exact R|apply IU, in_or_app; auto|exact G|]. intros H. exact (NoDup_apart _ _ _ ND Hx (ID _ H)).
Qed.

Lemma block_step ss : Forall claim ss -> forall e scope, ready e -> incl (flat_map stmt_calls ss) L -> incl (scope ++ flat_map declared ss) U ->
  NoDup (scope ++ flat_map declared ss) -> laid e scope ->
  let e' := fold_left (fun e s => emit_statement c s e) ss e in
  grows L (flat_map declared ss) e e' /\ Forall (fits e') (block scope ss) /\ ready e'.
Proof.
  induction 1 as [|s ss C Cs IH]; intros e scope R I IU ND Q.
  - cbn. split; [apply grows_keeps, keeps_refl|]. split; [constructor|exact R].
  - cbn [fold_left flat_map block] in *. destruct (C e scope R) as (G1 & Q1 & F1); [intros x Hx; apply I, in_or_app; auto|intros x Hx; apply IU; rewrite !in_app_iff in *; tauto| |exact Q|].
    { rewrite app_assoc in ND. exact (NoDup_left _ _ ND). }
    pose proof (ready_grows _ _ _ R G1) as R1. set (e1 := emit_statement c s e) in *.
    destruct (after_incl s scope) as [A1 A2].
    assert (ND2 : NoDup (after scope s ++ flat_map declared ss)).
    { rewrite app_assoc in ND. apply after_nodup, ND. }
    destruct (IH e1 (after scope s) R1) as (G2 & F2 & R2); [intros x Hx; apply I, in_or_app; auto| |exact ND2|exact Q1|].
    { intros x Hx. apply IU. rewrite !in_app_iff in *. destruct Hx as [Hx|Hx]; [|tauto]. apply A1 in Hx. rewrite in_app_iff in Hx. tauto. }
    set (e2 := fold_left _ ss e1) in *. cbv zeta. split; [|split; [|exact R2]].
    + eapply grows_trans; [eapply grows_incl; [exact G1|]|eapply grows_incl; [exact G2|]]; intros x Hx; apply in_or_app; auto.
    + apply Forall_app. split; [|exact F2]. apply Forall_forall. intros p Hp. rewrite Forall_forall in F1.
      eapply fits_grows; [exact R1| |exact G2| |apply F1, Hp].
      * intros x Hx. apply IU. apply (points_incl s scope p Hp) in Hx. rewrite !in_app_iff in *. tauto.
      * intros x Hx. apply (points_incl s scope p Hp) in Hx. rewrite app_assoc in ND. exact (NoDup_apart _ _ _ ND Hx).
Qed.

Lemma keeps_break e0 e : keeps L e0 e -> keeps L e0 (addr_end_break e).
Proof. intros K. unfold addr_end_break. kp. Qed.
Lemma keeps_end_cond e0 e : keeps L e0 e -> keeps L e0 (addr_end_condition e).
Proof. intros K. unfold addr_end_condition. kp. Qed.
Lemma keeps_begin_cond e0 e a : keeps L e0 e -> keeps L e0 (addr_begin_condition e a).
Proof. intros K. unfold addr_begin_condition. kp. Qed.
Ltac kq := repeat first [match goal with |- keeps _ ?a ?a => apply keeps_refl end | assumption
    | match goal with |- keeps _ _ (addr_end_break _) => apply keeps_break | |- keeps _ _ (addr_end_condition _) => apply keeps_end_cond | |- keeps _ _ (addr_begin_condition _ _) => apply keeps_begin_cond
                    | |- keeps _ _ (mem_add _ _) => apply keeps_add | |- keeps _ _ (mem_reserve _) => apply keeps_reserve | |- keeps _ _ (mem_set _ _ _) => apply keeps_set | |- keeps _ _ (set_jumps _ _ _ _) => apply keeps_jumps end
                        | match goal with |- keeps _ _ (emit_expression _ _ _) => apply keeps_expression; [assumption|] | |- keeps _ _ (emit_void_expression _ _ _) => apply keeps_void_expression; [assumption|] end ].

(** A statement with one substatement between code which keeps the layout; the
    variables of the substatement are not visible behind it. *)
Lemma around s e e1 e3 scope d : claim s -> ready e -> keeps L e e1 -> incl (stmt_calls s) L -> incl (scope ++ declared s) U -> NoDup (scope ++ declared s) -> laid e scope ->
  keeps L (emit_statement c s e1) e3 -> e_displ e <= d <= e_displ e3 ->
  grows L (declared s) e (set_displ e3 d) /\ laid (set_displ e3 d) scope /\ Forall (fits (set_displ e3 d)) (scope :: points scope s).
Proof.
  intros C R K I IU ND Q K2 Hd. destruct (sub_step s e e1 scope C R K I IU ND Q) as (G & Q2 & F & R2). set (e2 := emit_statement c s e1) in *.
  assert (G3 : grows L (declared s) e e3) by (eapply grows_trans; [exact G|apply grows_keeps, K2]).
  assert (G4 : grows L (declared s) e (set_displ e3 d)) by (apply grows_shrink; auto).
  assert (Q4 : laid (set_displ e3 d) scope).
  { eapply packed_more; [|apply (scope_stays s scope (declared s) e (set_displ e3 d) R IU ND (incl_refl _) G4 Q)]. cbn. lia. }
  split; [exact G4|]. split; [exact Q4|]. constructor; [apply laid_fits; [eapply ready_grows; [exact R|exact G4]|exact Q4]|].
  pose proof (fits_keeps e2 e3 s scope R2 K2 IU F) as F3. eapply Forall_impl; [|exact F3]. intros p Hp. exact Hp.
Qed.
Lemma set_displ_same e : set_displ e (e_displ e) = e.
Proof. destruct e; reflexivity. Qed.
Lemma around' s e e1 e3 scope : claim s -> ready e -> keeps L e e1 -> incl (stmt_calls s) L -> incl (scope ++ declared s) U -> NoDup (scope ++ declared s) -> laid e scope ->
  keeps L (emit_statement c s e1) e3 ->
  grows L (declared s) e e3 /\ laid e3 scope /\ Forall (fits e3) (scope :: points scope s).
Proof.
  intros C R K I IU ND Q K2. destruct (sub_step s e e1 scope C R K I IU ND Q) as (G & _). pose proof (gr_displ _ _ _ _ G) as H1. pose proof (k_displ _ _ _ K2) as H2.
  pose proof (around s e e1 e3 scope (e_displ e3) C R K I IU ND Q K2 ltac:(lia)) as H. rewrite set_displ_same in H. exact H.
Qed.

Lemma statement_claim s : claim s.
Proof.
  induction s as [ds|x s IHs|s IHs|ss IHss|x| |x s o IHs IHo|x s IHs|x s IHs|s x IHs|i x n b IHi IHb| | |x] using stmt_ind'; intros e scope R I IU ND Q; cbv zeta.
  - cbn [stmt_calls declared after points emit_statement] in *. destruct (decls_step ds e scope R I IU ND Q) as [G Q1]. cbv zeta in *. set (e' := fold_left _ ds e) in *.
    pose proof (ready_grows _ _ _ R G) as R1. split; [exact G|]. split; [exact Q1|]. constructor; [|constructor; [apply laid_fits; assumption|constructor]].
    eapply fits_grows; [exact R|intros y Hy; apply IU, in_or_app; auto|exact G| |apply laid_fits; assumption]. intros y Hy. exact (NoDup_apart _ _ _ ND Hy).
  - cbn [stmt_calls declared after emit_statement] in *. cbv zeta. set (e1 := set_case _ _).
    assert (Ix : incl (calls x) L) by (intros y Hy; apply I, in_or_app; auto).
    assert (K : keeps L e e1) by (unfold e1, set_case, patch_case; destruct (_ =? 0); kq).
    destruct (sub_step s e e1 scope IHs R K ltac:(intros y Hy; apply I, in_or_app; auto) IU ND Q) as (G & Q2 & F & R2).
    split; [exact G|]. split; [exact Q2|]. cbn [points]. constructor; [|exact F]. eapply fits_grows; [exact R|intros y Hy; apply IU, in_or_app; auto|exact G| |apply laid_fits; assumption].
    intros y Hy. exact (NoDup_apart _ _ _ ND Hy).
  - cbn [stmt_calls declared after emit_statement] in *. cbv zeta. set (e1 := set_case _ _).
    assert (K : keeps L e e1) by (unfold e1, set_case, patch_case; destruct (_ =? 0); kq).
    destruct (sub_step s e e1 scope IHs R K I IU ND Q) as (G & Q2 & F & R2).
    split; [exact G|]. split; [exact Q2|]. cbn [points]. constructor; [|exact F]. eapply fits_grows; [exact R|intros y Hy; apply IU, in_or_app; auto|exact G| |apply laid_fits; assumption].
    intros y Hy. exact (NoDup_apart _ _ _ ND Hy).
  - cbn [stmt_calls declared after emit_statement] in *. rewrite points_block.
    destruct (block_step ss IHss e scope R I IU ND Q) as (G & F & R1). set (e1 := fold_left _ ss e) in *. cbv zeta in *.
    assert (G1 : grows L (flat_map declared ss) e (set_displ e1 (e_displ e))) by (apply grows_shrink; [exact G|pose proof (gr_displ _ _ _ _ G); lia|exact R]).
    assert (Q1 : laid (set_displ e1 (e_displ e)) scope) by (apply (scope_stays (SCompound ss) scope _ e _ R IU ND (incl_refl _) G1 Q)).
    split; [exact G1|]. split; [exact Q1|]. constructor; [apply laid_fits; [eapply ready_grows; [exact R|exact G1]|exact Q1]|]. eapply Forall_impl; [|exact F]. intros p Hp. exact Hp.
  - cbn [stmt_calls] in I. apply frame_keeps; auto. cbn [emit_statement]. kq.
  - apply frame_keeps; auto. cbn [emit_statement]. kq.
  - cbn [stmt_calls] in I. assert (Ix : incl (calls x) L) by (intros y Hy; apply I, in_or_app; auto).
    cbn [emit_statement after]. cbv zeta. set (e1 := mem_add (emit_expression c x e) IC_BE0). assert (K1 : keeps L e (mem_reserve e1)) by (unfold e1; kq).
    destruct o as [s'|]; cbn [opt declared stmt_calls] in *.
    + assert (Is : incl (stmt_calls s) L) by (intros y Hy; apply I; rewrite !in_app_iff; tauto).
      assert (Is' : incl (stmt_calls s') L) by (intros y Hy; apply I; rewrite !in_app_iff; tauto).
      assert (IU1 : incl (scope ++ declared s) U) by (intros y Hy; apply IU; rewrite !in_app_iff in *; tauto).
      assert (IU2 : incl (scope ++ declared s') U) by (intros y Hy; apply IU; rewrite !in_app_iff in *; tauto).
      assert (ND1 : NoDup (scope ++ declared s)) by (rewrite app_assoc in ND; exact (NoDup_left _ _ ND)).
      assert (ND2 : NoDup (scope ++ declared s')).
      { clear -ND. induction scope as [|y l IH]; cbn in *; [exact (NoDup_right _ _ ND)|]. inversion ND as [|? ? A B]; subst. constructor; [|auto]. rewrite !in_app_iff in *. tauto. }
      destruct (around' s e _ (emit_statement c s (mem_reserve e1)) scope IHs R K1 Is IU1 ND1 Q (keeps_refl _ _)) as (G1 & Q1 & F1).
      set (e2 := emit_statement c s (mem_reserve e1)) in *. pose proof (ready_grows _ _ _ R G1) as R2.
      set (e3 := mem_add (mem_set e2 _ _) IC_B). assert (K3 : keeps L e2 (mem_reserve e3)) by (unfold e3; kq).
      destruct (around' s' e2 _ (mem_set (emit_statement c s' (mem_reserve e3)) (mem_size e3) (mem_size (emit_statement c s' (mem_reserve e3)))) scope (IHo s' eq_refl) R2 K3 Is' IU2 ND2 Q1 ltac:(kq)) as (G2 & Q2 & F2).
      set (e4 := mem_set _ _ _) in *. split.
      * eapply grows_trans; [eapply grows_incl; [exact G1|]|eapply grows_incl; [exact G2|]]; intros y Hy; apply in_or_app; auto.
      * split; [exact Q2|]. cbn [points opt]. inversion F2 as [|? ? F3 F4]; subst. constructor; [exact F3|]. apply Forall_app. split; [|exact F4].
        inversion F1 as [|? ? F5 F6]; subst. apply Forall_forall. intros p Hp. rewrite Forall_forall in F6. eapply fits_grows; [exact R2| |exact G2| |apply F6, Hp].
        -- intros y Hy. apply IU1. apply (points_incl s scope p Hp y Hy).
        -- intros y Hy. apply (points_incl s scope p Hp) in Hy. rewrite app_assoc in ND. exact (NoDup_apart _ _ _ ND Hy).
    + rewrite app_nil_r in *. cbn [points opt]. rewrite app_nil_r.
      apply (around' s e (mem_reserve e1)); auto; [intros y Hy; apply I, in_or_app; auto|kq].
  - cbn [stmt_calls declared] in *. assert (Ix : incl (calls x) L) by (intros y Hy; apply I, in_or_app; auto). cbn [emit_statement after points]. cbv zeta.
    set (e1 := emit_expression c x _). assert (K1 : keeps L e e1) by (unfold e1, set_case, set_break; kq).
    apply (around' s e e1); auto; [intros y Hy; apply I, in_or_app; auto|]. unfold set_break, set_case. apply keeps_jumps, keeps_jumps, keeps_break. destruct (0 <? _); kq.
  - cbn [stmt_calls declared] in *. assert (Ix : incl (calls x) L) by (intros y Hy; apply I, in_or_app; auto). cbn [emit_statement after points]. cbv zeta.
    match goal with |- context [emit_statement c s ?q] => set (e1 := q) end. assert (K1 : keeps L e e1) by (unfold e1, set_cond, set_break; kq).
    apply (around' s e e1); auto; [intros y Hy; apply I, in_or_app; auto|]. unfold set_break, set_cond. kq.
  - cbn [stmt_calls declared] in *. assert (Ix : incl (calls x) L) by (intros y Hy; apply I, in_or_app; auto). cbn [emit_statement after points]. cbv zeta.
    match goal with |- context [emit_statement c s ?q] => set (e1 := q) end. assert (K1 : keeps L e e1) by (unfold e1, set_cond, set_break; kq).
    apply (around' s e e1); auto; [intros y Hy; apply I, in_or_app; auto|]. unfold set_break, set_cond. kq.
  - cbn [stmt_calls declared] in *.
    assert (Ix : forall x', x = Some x' -> incl (calls x') L) by (intros x' -> y Hy; apply I; rewrite !in_app_iff; cbn [opt]; tauto).
    assert (In' : forall x', n = Some x' -> incl (calls x') L) by (intros x' -> y Hy; apply I; rewrite !in_app_iff; cbn [opt]; tauto).
    assert (Ib : incl (stmt_calls b) L) by (intros y Hy; apply I; rewrite !in_app_iff; tauto).
    cbn [emit_statement after points]. cbv zeta.
    set (e0 := match i with Some s => emit_statement c s e | None => e end). set (sc := match i with Some s => after scope s | None => scope end).
    assert (Init : grows L (opt declared i) e e0 /\ laid e0 sc /\ Forall (fits e0) (opt (points scope) i)).
    { unfold e0, sc. destruct i as [s|]; cbn [opt].
      - apply (IHi s eq_refl); [exact R|intros y Hy; apply I, in_or_app; auto|intros y Hy; apply IU; cbn [opt]; rewrite !in_app_iff in *; tauto| |exact Q].
        cbn [opt] in ND. rewrite app_assoc in ND. exact (NoDup_left _ _ ND).
      - split; [apply grows_keeps, keeps_refl|]. split; [exact Q|constructor]. }
    destruct Init as (G0 & Q0 & F0). pose proof (ready_grows _ _ _ R G0) as R0.
    assert (Sc1 : incl sc (scope ++ opt declared i)) by (unfold sc; destruct i as [s|]; [apply after_incl|intros y Hy; apply in_or_app; auto]).
    assert (IUb : incl (sc ++ declared b) U).
    { intros y Hy. apply IU. rewrite !in_app_iff in *. destruct Hy as [Hy|Hy]; [|tauto]. apply Sc1 in Hy. rewrite in_app_iff in Hy. tauto. }
    assert (NDb : NoDup (sc ++ declared b)).
    { rewrite app_assoc in ND. unfold sc in *. destruct i as [s|]; cbn [opt] in *; [|rewrite app_nil_r in ND; exact ND].
      apply after_nodup, ND. }
    match goal with |- context [emit_statement c b ?q] => set (e1 := q) end.
    assert (K1 : keeps L e0 e1). { unfold e1, set_cond, set_break. destruct x as [x'|]; [|kq]. specialize (Ix x' eq_refl). kq. }
    match goal with |- context [set_displ ?q _] => set (e3 := q) end.
    assert (K3 : keeps L (emit_statement c b e1) e3). { unfold e3, set_cond, set_break. destruct n as [x'|]; [specialize (In' x' eq_refl)|]; kq. }
    destruct (around' b e0 e1 e3 sc IHb R0 K1 Ib IUb NDb Q0 K3) as (G2 & Q2 & F2).
    assert (G3 : grows L (opt declared i ++ declared b) e e3).
    { eapply grows_trans; [eapply grows_incl; [exact G0|]|eapply grows_incl; [exact G2|]]; intros y Hy; apply in_or_app; auto. }
    assert (G4 : grows L (opt declared i ++ declared b) e (set_displ e3 (e_displ e))) by (apply grows_shrink; [exact G3|pose proof (gr_displ _ _ _ _ G3); lia|exact R]).
    assert (Q4 : laid (set_displ e3 (e_displ e)) scope) by (apply (scope_stays (SFor i x n b) scope _ e _ R IU ND (incl_refl _) G4 Q)).
    split; [exact G4|]. split; [exact Q4|]. constructor; [apply laid_fits; [eapply ready_grows; [exact R|exact G4]|exact Q4]|].
    assert (FF : Forall (fits e3) (opt (points scope) i ++ points sc b)).
    { apply Forall_app. split; [|inversion F2; assumption]. apply Forall_forall. intros p Hp. rewrite Forall_forall in F0.
      assert (PI : incl p (scope ++ opt declared i)) by (destruct i as [s|]; [apply points_incl; exact Hp|destruct Hp]).
      eapply fits_grows; [exact R0| |exact G2| |apply F0, Hp].
      - intros y Hy. apply IU. apply PI in Hy. rewrite !in_app_iff in *. tauto.
      - intros y Hy. apply PI in Hy. rewrite app_assoc in ND. exact (NoDup_apart _ _ _ ND Hy). }
    eapply Forall_impl; [|exact FF]. intros p Hp. exact Hp.
  - apply frame_keeps; auto. cbn [emit_statement]. unfold set_cond. kq.
  - apply frame_keeps; auto. cbn [emit_statement]. unfold set_break. kq.
  - cbn [stmt_calls] in I. apply frame_keeps; auto. cbn [emit_statement]. destruct x as [x|]; cbn [opt] in I; kq.
Qed.

End Code.

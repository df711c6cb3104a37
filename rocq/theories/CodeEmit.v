(** Proofs: the generator emits the code of CodeStmt.v for a statement. *)
From Verif Require Import Prelude LVec TypesModel TypesSpec LexModel ParseModel InstrModel BuildModel BuildFold CodeModel VmSpec CodeSpec CodeExpr CodeStmt.

Section Tokens.
Variable disp : Z -> Z.
Notation comp := (comp disp).

Definition tok_decl (d : decl) (b : Z) : list tok :=
  match d with
  | DVar id _ (Some x) => map W (comp x Value b ++ [IC_ASSIGN_V; disp id])
  | _ => []
  end.

(** One after another. *)
Definition tok_all {A} (f : A -> Z -> list tok) : list A -> Z -> list tok :=
  fix go (l : list A) (b : Z) : list tok :=
    match l with [] => [] | s :: l => let k := f s b in k ++ go l (b + zlen k) end.

(** The statements of a switch body; [lead_end] is the address of the next
    label, or of the end. *)
Definition lead_end (f : stmt -> Z -> list tok) : list stmt -> Z -> Z :=
  fix go (ss : list stmt) (b : Z) : Z :=
    match ss with
    | [] => b
    | SCase _ _ :: _ | SDefault _ :: _ => b
    | s :: ss => go ss (b + zlen (f s b))
    end.
Definition tok_body (f : stmt -> Z -> list tok) : list stmt -> Z -> list tok :=
  fix go (ss : list stmt) (b : Z) : list tok :=
    match ss with
    | [] => []
    | SCase x s :: ss =>
        let kx := comp x Value (b + 1) in
        let ks := f s (b + 1 + zlen kx + 3) in
        let b' := b + 1 + zlen kx + 3 + zlen ks in
        map W ([IC_DUPLICATE] ++ kx ++ [IC_EQ; IC_BE0; lead_end f ss b']) ++ ks ++ go ss b'
    | SDefault s :: ss => let ks := f s b in ks ++ go ss (b + zlen ks)
    | s :: ss => let ks := f s b in ks ++ go ss (b + zlen ks)
    end.

Fixpoint toks (s : stmt) (b : Z) {struct s} : list tok :=
  match s with
  | SDecl ds => tok_all tok_decl ds b
  | SCase _ _ | SDefault _ | SNull => []
  | SCompound ss => tok_all (fun s b => toks s b) ss b
  | SExpr x => map W (comp x Void b)
  | SIf x s other =>
      let kx := comp x Value b in
      let b1 := b + zlen kx + 2 in
      let ks := toks s b1 in
      match other with
      | None => map W (kx ++ [IC_BE0; b1 + zlen ks]) ++ ks
      | Some s' =>
          let b2 := b1 + zlen ks + 2 in
          let ko := toks s' b2 in
          map W (kx ++ [IC_BE0; b2]) ++ ks ++ map W [IC_B; b2 + zlen ko] ++ ko
      end
  | SSwitch x (SCompound ss) =>
      let kx := comp x Value b in
      let T := tok_body (fun s b => toks s b) ss (b + zlen kx) in
      (* breaks stay inside, continues go on to the loop outside *)
      map W kx ++ setB (b + zlen kx + zlen T) T
  | SSwitch _ _ => []
  | SWhile x body =>
      let kx := comp x Value b in
      let kb := toks body (b + zlen kx + 2) in
      let T := map W (kx ++ [IC_BE0]) ++ [HB] ++ kb ++ map W [IC_B; b] in
      map W (fill (b + zlen T) b T)
  | SDo body x =>
      let kb := toks body b in
      let kx := comp x Value (b + zlen kb) in
      let T := kb ++ map W (kx ++ [IC_BNE0; b]) in
      map W (fill (b + zlen T) (b + zlen kb) T)
  | SFor init x next body =>
      let ki := match init with Some s => toks s b | None => [] end in
      let b1 := b + zlen ki in
      let kx := match x with Some x => map W (comp x Value b1 ++ [IC_BE0]) ++ [HB] | None => [] end in
      let kb := toks body (b1 + zlen kx) in
      let b3 := b1 + zlen kx + zlen kb in
      let kn := match next with Some y => comp y Void b3 | None => [] end in
      let T := kx ++ kb ++ map W (kn ++ [IC_B; b1]) in
      ki ++ map W (fill (b1 + zlen T) b3 T)
  | SContinue => [W IC_B; HC]
  | SBreak => [W IC_B; HB]
  | SReturn None => [W IC_RETURN_VOID]
  | SReturn (Some x) => map W (comp x Value b ++ [IC_RETURN_VAL; size_of (type_of x)])
  end.
End Tokens.

(** ** The order of declarations *)
Fixpoint size (s : stmt) : nat :=
  match s with
  | SCase _ s | SDefault s | SSwitch _ s | SWhile _ s | SDo s _ => S (size s)
  | SCompound ss => S (list_sum (map size ss))
  | SIf _ s other => S (size s + match other with Some s' => size s' | None => 0 end)
  | SFor init _ _ body => S (match init with Some s => size s | None => 0 end + size body)
  | _ => 1
  end%nat.
Lemma size_in s ss : In s ss -> (size s <= list_sum (map size ss))%nat.
Proof. induction ss as [|t ss IH]; [intros []|]. unfold list_sum in *. intros [->|H]; cbn [map fold_right]; [lia|]. specialize (IH H). lia. Qed.

Lemma fresh_notin id seen : fresh id seen = true -> ~ In id seen.
Proof.
  unfold fresh. intros H I. apply negb_true_iff in H. rewrite <- not_true_iff_false in H. apply H.
  apply existsb_exists. exists id. split; auto. apply Z.eqb_refl.
Qed.

(** The identifiers met before stay met; what is declared is new and met. *)
Definition ordered (ids seen seen' : list Z) : Prop :=
  (forall id, In id seen -> In id seen') /\ (forall id, In id ids -> ~ In id seen /\ In id seen').
Lemma ordered_trans i1 i2 s0 s1 s2 : ordered i1 s0 s1 -> ordered i2 s1 s2 -> ordered (i1 ++ i2) s0 s2.
Proof.
  intros [A B] [A' B']. split; [auto|]. intros id I. apply in_app_or in I. destruct I as [I|I].
  - destruct (B id I). auto.
  - destruct (B' id I). auto.
Qed.
Lemma ordered_meet l ids seen seen' : ordered ids (meet l seen) seen' -> ordered ids seen seen'.
Proof.
  unfold meet. intros [A B]. split.
  - intros id I. apply A, in_or_app. auto.
  - intros id I. destruct (B id I) as [N M]. split; auto. intros X. apply N, in_or_app. auto.
Qed.
Lemma ordered_none seen : ordered [] seen seen.
Proof. split; auto. intros id []. Qed.
Lemma ordered_uses l seen : ordered [] seen (meet l seen).
Proof. split; [intros; apply in_or_app; auto|intros id []]. Qed.
Lemma in_order_ordered {A} (f : list Z -> A -> option (list Z)) (ids : A -> list Z) l :
  (forall x, In x l -> forall seen seen', f seen x = Some seen' -> ordered (ids x) seen seen') ->
  forall seen seen', in_order f seen l = Some seen' -> ordered (flat_map ids l) seen seen'.
Proof.
  induction l as [|x l IH]; intros H seen seen' Q; cbn in Q |- *.
  - injection Q as <-. apply ordered_none.
  - destruct (f seen x) as [s1|] eqn:F; [|discriminate Q]. cbn [bind] in Q. eapply ordered_trans.
    + eapply H; [left; reflexivity|eassumption].
    + apply IH; [|exact Q]. intros y I. apply H. right. exact I.
Qed.
Lemma order_ordered : forall n s, (size s < n)%nat -> forall seen seen', order seen s = Some seen' -> ordered (declares s) seen seen'.
Proof.
  induction n as [|n IH]; intros s L; [lia|]. destruct s; cbn [order declares]; intros seen seen' Q.
  - eapply (in_order_ordered _ decl_ids); [|exact Q]. clear. intros d _ seen seen' Q. destruct d; cbn in Q |- *.
    + destruct (fresh id seen) eqn:F; [|discriminate Q]. injection Q as <-. apply fresh_notin in F. split.
      * intros i I. apply in_or_app. right. right. exact I.
      * intros i [<-|[]]. split; auto. apply in_or_app. right. left. reflexivity.
    + injection Q as <-. apply ordered_none.
  - cbn in L. eapply ordered_meet, IH; [|exact Q]. lia.
  - cbn in L. eapply IH; [|exact Q]. lia.
  - eapply (in_order_ordered _ declares); [|exact Q]. intros s I. apply IH. apply size_in in I. cbn in L. lia.
  - injection Q as <-. apply ordered_uses.
  - injection Q as <-. apply ordered_none.
  - cbn in L. destruct (order (meet (uses c) seen) s) as [s1|] eqn:E; [|discriminate Q]. cbn [bind] in Q.
    eapply ordered_meet, ordered_trans; [eapply IH; [|exact E]; lia|]. destruct other as [s'|].
    + eapply IH; [|exact Q]. lia.
    + injection Q as <-. apply ordered_none.
  - cbn in L. eapply ordered_meet, IH; [|exact Q]. lia.
  - cbn in L. eapply ordered_meet, IH; [|exact Q]. lia.
  - cbn in L. destruct (order seen s) as [s1|] eqn:E; [|discriminate Q]. cbn [bind] in Q. injection Q as <-.
    rewrite <- (app_nil_r (declares s)). eapply ordered_trans; [eapply IH; [|exact E]; lia|]. apply ordered_uses.
  - cbn in L. destruct (match init with Some s => order seen s | None => Some seen end) as [s1|] eqn:E; [|discriminate Q]. cbn [bind] in Q.
    destruct (order (meet (opt_uses c) s1) s) as [s2|] eqn:E2; [|discriminate Q]. cbn [bind] in Q. injection Q as <-.
    eapply ordered_trans.
    + destruct init as [s0|]; [eapply IH; [|exact E]; lia|]. injection E as <-. apply ordered_none.
    + rewrite <- (app_nil_r (declares s)). eapply ordered_trans; [eapply ordered_meet, IH; [|exact E2]; lia|]. apply ordered_uses.
  - injection Q as <-. apply ordered_none.
  - injection Q as <-. apply ordered_none.
  - injection Q as <-. apply ordered_uses.
Qed.

(** ** What emitting a statement changes *)
Definition grows (e : enc) (T : list tok) (ids : list Z) (e' : enc) : Prop :=
  e_mem e' = e_mem e ++ raw T (mem_size e) (e_break e) (e_cond e)
  /\ e_break e' = headB T (mem_size e) (e_break e)
  /\ e_cond e' = headC T (mem_size e) (e_cond e)
  /\ e_case e' = e_case e /\ e_procs e' = e_procs e /\ e_hung e' = e_hung e /\ zlen (e_displs e') = zlen (e_displs e)
  /\ (forall id, ~ In id ids -> displacements_get e' id = displacements_get e id).

Lemma grows_size e T ids e' : grows e T ids e' -> mem_size e' = mem_size e + zlen T.
Proof. intros (M & _). unfold mem_size at 1. rewrite M, zlen_app, zlen_raw. reflexivity. Qed.
Lemma grows_refl e : grows e [] [] e.
Proof. unfold grows. cbn. rewrite app_nil_r. auto 10. Qed.
Lemma grows_trans e T i e1 U j e2 : grows e T i e1 -> grows e1 U j e2 -> grows e (T ++ U) (i ++ j) e2.
Proof.
  intros G H. pose proof (grows_size _ _ _ _ G) as L. destruct G as (M & B & K & A & P & G & D & F). destruct H as (M' & B' & K' & A' & P' & G' & D' & F').
  unfold grows. rewrite M', B', K', A', P', G', D', L, M, B, K, raw_app, headB_app, headC_app, <- app_assoc.
  repeat split; auto. intros id N. rewrite F', F; auto; intros X; apply N, in_or_app; auto.
Qed.
Lemma grows_words e k e' : e' = set_mem e (e_mem e ++ k) -> grows e (map W k) [] e'.
Proof. intros ->. unfold grows. rewrite raw_W, headB_W, headC_W. cbn. auto 10. Qed.
Lemma grows_ids e T i j e' : grows e T i e' -> (forall x, In x i -> In x j) -> grows e T j e'.
Proof. unfold grows. intros (M & B & K & A & P & G & D & F) H. repeat split; auto. Qed.

(** Only structures have initialisation procedures. *)
Definition tidy_procs (e : enc) : Prop := forall p, In p (e_procs e) -> is_structure (fst p) = true.
Lemma tidy_proc e t : tidy_procs e -> is_structure t = false -> usable (proc_get e t) = false.
Proof.
  unfold tidy_procs, proc_get. intros T S. induction (e_procs e) as [|[u a] l IH]; [reflexivity|]. cbn [proc_find].
  destruct (ty_eqb u t) eqn:E.
  - apply ty_eqb_eq in E. subst. specialize (T (t, a) (or_introl eq_refl)). cbn in T. congruence.
  - apply IH. intros p I. apply T. right. exact I.
Qed.

Section Emit.
Variable c : ctx.
Variable disp : Z -> Z.
Notation tk := (toks disp).
Notation comp := (comp disp).
Notation supported := (supported c disp).
Notation supported_stmt := (supported_stmt c disp).

Lemma emit_at n how e : supported n how = true -> (forall id, In id (uses n) -> displacements_get e id = disp id) ->
  snd (emit c n how e) = set_mem e (e_mem e ++ comp n how (mem_size e)).
Proof. intros S U. apply (emits_all c disp n how e S U). Qed.

(** The displacements are those of the final table. *)
Definition settled (e : enc) (ids : list Z) : Prop := forall id, In id ids -> displacements_get e id = disp id.
Definition in_table (e : enc) (ids : list Z) : Prop := forall id, In id ids -> 0 <= id < zlen (e_displs e).

Lemma keep_settled n how e ids : supported n how = true -> settled (snd (emit c n how e)) ids -> settled e ids.
Proof.
  intros S H id I. rewrite <- (H id I). destruct (kept_expression c disp n how e S) as [-> _]. reflexivity.
Qed.

Lemma grows_expression n how e : supported n how = true -> settled e (uses n) ->
  grows e (map W (comp n how (mem_size e))) [] (snd (emit c n how e)).
Proof. intros S U. apply grows_words, emit_at; assumption. Qed.

Definition emits_stmt (s : stmt) : Prop := forall e seen seen',
  supported_stmt s = true -> order seen s = Some seen' -> in_table e (declares s) -> 0 < mem_size e -> tidy_procs e ->
  settled (emit_statement c s e) seen' -> grows e (tk s (mem_size e)) (declares s) (emit_statement c s e).

(** A settled table was settled before for all that was met before. *)
Lemma settled_before e T ids e' seen seen' : grows e T ids e' -> ordered ids seen seen' -> settled e' seen' -> settled e seen.
Proof.
  intros (_ & _ & _ & _ & _ & _ & _ & F) [A B] H id I. rewrite <- (H id (A id I)). symmetry. apply F. intros X. apply (B id X). exact I.
Qed.
Lemma in_table_after e T ids e' l : grows e T ids e' -> in_table e l -> in_table e' l.
Proof. intros (_ & _ & _ & _ & _ & _ & D & _) H id I. rewrite D. auto. Qed.
Lemma tidy_after e T ids e' : grows e T ids e' -> tidy_procs e -> tidy_procs e'.
Proof. intros (_ & _ & _ & _ & P & _). unfold tidy_procs. rewrite P. auto. Qed.
Lemma pos_after e T ids e' : grows e T ids e' -> 0 < mem_size e -> 0 < mem_size e'.
Proof. intros G. rewrite (grows_size _ _ _ _ G). pose proof (zlen_nonneg T). lia. Qed.

Lemma in_table_app e a b : in_table e (a ++ b) -> in_table e a /\ in_table e b.
Proof. intros H. split; intros id I; apply H, in_or_app; auto. Qed.

(** ** Declarations *)
Lemma lv_get_set d id v : 0 <= id < zlen d -> lv_get (lv_set d id v) id = v.
Proof. intros. apply lv_get_set_same. assumption. Qed.

Lemma add_displ e id : 0 <= id < zlen (e_displs e) -> let (displ, e1) := displacements_add c e id in
  displacements_get e1 id = displ /\ grows e [] [id] e1.
Proof.
  intros I. unfold displacements_add. destruct (e_params e); (split; [apply lv_get_set; exact I|]); unfold grows; cbn; rewrite app_nil_r;
  repeat split; auto; try apply zlen_lv_set; intros id' N; unfold displacements_get; cbn; apply lv_get_set_other; intros ->; apply N; left; reflexivity.
Qed.

Lemma emits_decl d e seen seen' : supported_decl c disp d = true -> order_decl seen d = Some seen' ->
  in_table e (decl_ids d) -> tidy_procs e -> settled (emit_declaration c d e) seen' ->
  grows e (tok_decl disp d (mem_size e)) (decl_ids d) (emit_declaration c d e).
Proof.
  destruct d as [id bounds init|t ms]; cbn [supported_decl order_decl decl_ids emit_declaration tok_decl].
  - intros S O I P H. apply andb_prop in S. destruct S as [S Si]. apply andb_prop in S. destruct S as [S A]. apply negb_true_iff in A.
    destruct (fresh id seen) eqn:F; [|discriminate O]. injection O as <-.
    assert (Iid : 0 <= id < zlen (e_displs e)) by (apply I; left; reflexivity).
    unfold emit_variable_declaration in *. rewrite A in *. pose proof (add_displ e id Iid) as D. destruct (displacements_add c e id) as [displ e1].
    destruct D as [D G]. cbv zeta in *. unfold one_word in S. apply andb_prop in S. destruct S as [S1 S2]. apply negb_true_iff in S1, S2.
    assert (S1' : is_structure (unqualified (c_type c id)) = false) by (unfold is_structure in *; rewrite strip_unqualified; exact S1).
    assert (S2' : is_floating (unqualified (c_type c id)) = false) by (unfold is_floating in *; rewrite strip_unqualified; exact S2).
    rewrite (tidy_proc e1 _ (tidy_after _ _ _ _ G P) S1') in *. destruct init as [x|]; [|exact G].
    rewrite S1', S2' in *. unfold computed in Si. apply andb_prop in Si. destruct Si as [Sx _].
    assert (H1 : settled e1 (meet (uses x) (id :: seen))).
    { apply (keep_settled x Value e1); [exact Sx|]. intros i Hi. rewrite <- (H i Hi). reflexivity. }
    unfold emit_expression in *. replace displ with (disp id).
    2: { rewrite <- D. symmetry. apply H1. apply in_or_app. right. left. reflexivity. }
    pose proof (grows_size _ _ _ _ G) as L. replace (zlen (@nil tok)) with 0 in L by (rewrite zlen_unf; reflexivity). rewrite Z.add_0_r in L.
    rewrite emit_at; [|exact Sx|intros i Hi; apply H1, in_or_app; auto].
    change [id] with ([id] ++ []). change (map W (comp x Value (mem_size e) ++ [IC_ASSIGN_V; disp id])) with ([] ++ map W (comp x Value (mem_size e) ++ [IC_ASSIGN_V; disp id])).
    eapply grows_trans; [exact G|]. apply grows_words. enc. rewrite L, <- !app_assoc. reflexivity.
  - intros S O I P H. unfold emit_struct. cbn [emit_smember snd]. apply negb_true_iff in S. rewrite S. apply grows_refl.
Qed.

(** ** What is kept in any case *)
Definition stable (e : enc) (ids : list Z) (e' : enc) : Prop :=
  e_procs e' = e_procs e /\ zlen (e_displs e') = zlen (e_displs e) /\ mem_size e <= mem_size e'
  /\ (forall id, ~ In id ids -> displacements_get e' id = displacements_get e id).
Lemma stable_refl e : stable e [] e.
Proof. unfold stable. auto using Z.le_refl. Qed.
Lemma stable_trans e i e1 j e2 : stable e i e1 -> stable e1 j e2 -> stable e (i ++ j) e2.
Proof.
  intros (P & D & L & F) (P' & D' & L' & F'). unfold stable. rewrite P', D', P, D. repeat split; auto; [lia|].
  intros id N. rewrite F', F; auto; intros X; apply N, in_or_app; auto.
Qed.
Lemma stable_kept e e' : kept e e' -> stable e [] e'.
Proof. intros [-> L]. unfold stable. cbn. auto. Qed.
Lemma stable_then e i e1 e2 : stable e i e1 -> stable e1 [] e2 -> stable e i e2.
Proof. intros A B. rewrite <- (app_nil_r i). eapply stable_trans; eassumption. Qed.
Lemma stable_expression n how e : supported n how = true -> stable e [] (snd (emit c n how e)).
Proof. intros. apply stable_kept, (kept_expression c disp). assumption. Qed.
Lemma stable_add e v : stable e [] (mem_add e v).
Proof. apply stable_kept, kept_add, kept_refl. Qed.
Lemma stable_set e i v : stable e [] (mem_set e i v).
Proof. apply stable_kept, kept_set, kept_refl. Qed.
Lemma stable_jumps e a b d : stable e [] (set_jumps e a b d).
Proof. unfold stable, mem_size. cbn. auto using Z.le_refl. Qed.
Lemma stable_displ e d : stable e [] (set_displ e d).
Proof. unfold stable, mem_size. cbn. auto using Z.le_refl. Qed.
Lemma patch_length fuel : forall m a stop v m', patch_chain fuel m a stop v = Some m' -> zlen m' = zlen m.
Proof.
  induction fuel as [|fuel IH]; intros m a stop v m'; cbn; destruct (a =? stop); try discriminate.
  - intros [= <-]. reflexivity.
  - intros [= <-]. reflexivity.
  - intros H. apply IH in H. rewrite H. apply zlen_lv_set.
Qed.
Lemma stable_patched e a stop v : stable e [] (patched e a stop v).
Proof.
  unfold patched. destruct (patch_chain _ _ _ _ _) as [m|] eqn:P; unfold stable, mem_size; cbn.
  - apply patch_length in P. rewrite P. auto using Z.le_refl.
  - auto using Z.le_refl.
Qed.
Lemma stable_decl d e : supported_decl c disp d = true -> in_table e (decl_ids d) -> stable e (decl_ids d) (emit_declaration c d e).
Proof.
  destruct d as [id bounds init|t ms]; cbn [supported_decl decl_ids emit_declaration].
  - intros S I. ands. match goal with H : negb (is_array _) = true |- _ => apply negb_true_iff in H; rename H into A end.
    unfold emit_variable_declaration. rewrite A. pose proof (add_displ e id (I id (or_introl eq_refl))) as D.
    destruct (displacements_add c e id) as [displ e1]. destruct D as [_ G]. cbv zeta.
    assert (G1 : stable e [id] e1).
    { pose proof (grows_size _ _ _ _ G) as L. destruct G as (_ & _ & _ & _ & P & _ & D & F). pose proof (zlen_nonneg (@nil tok)).
      unfold stable. repeat split; auto. lia. }
    eapply stable_then; [exact G1|]. apply stable_kept.
    assert (K : forall e', kept e1 e' -> kept e1 (match init with
      | None => e'
      | Some i => if is_structure (unqualified (c_type c id)) then mem_add (mem_add (mem_add (emit_expression c i e') IC_COPY0ST_ASSIGN) displ) (size_of (unqualified (c_type c id)))
                  else mem_add (mem_add (emit_expression c i e') (if is_floating (unqualified (c_type c id)) then IC_ASSIGN_R_V else IC_ASSIGN_V)) displ end)).
    { intros e' K. destruct init as [x|]; [|exact K]. unfold computed in *. ands. unfold emit_expression.
      destruct (is_structure _); repeat apply kept_add; (eapply kept_trans; [exact K|apply (kept_expression c disp); assumption]). }
    apply K. destruct (usable _); repeat apply kept_add; apply kept_refl.
  - intros S I. unfold emit_struct. cbn [emit_smember snd]. apply negb_true_iff in S. rewrite S. apply stable_refl.
Qed.
Lemma in_table_stable e ids e' l : stable e ids e' -> in_table e l -> in_table e' l.
Proof. intros (_ & D & _) H id I. rewrite D. auto. Qed.
Lemma stable_all {A} (f : A -> enc -> enc) (ids : A -> list Z) l :
  (forall x, In x l -> forall e, in_table e (ids x) -> stable e (ids x) (f x e)) ->
  forall e, in_table e (flat_map ids l) -> stable e (flat_map ids l) (fold_left (fun e x => f x e) l e).
Proof.
  induction l as [|x l IH]; intros H e I; cbn [flat_map fold_left] in *; [apply stable_refl|].
  apply in_table_app in I. destruct I as [I1 I2]. assert (S1 := H x (or_introl eq_refl) e I1).
  eapply stable_trans; [exact S1|]. apply IH; [intros y Y; apply H; right; exact Y|]. eapply in_table_stable; eassumption.
Qed.

(** A statement of a switch body. *)
Definition supported_labelled (s : stmt) : bool :=
  match s with SCase x s => is_constant x && supported_stmt s | SDefault s => supported_stmt s | s => supported_stmt s end.
Lemma constant_supported x : is_constant x = true -> supported x Value = true.
Proof. destruct x; try discriminate. cbn. auto. Qed.

Ltac stab := repeat (first
  [ apply stable_refl
  | match goal with
    | |- stable ?e _ (mem_add ?x _) => eapply stable_then; [|apply stable_add]
    | |- stable ?e _ (mem_reserve ?x) => eapply stable_then; [|apply stable_add]
    | |- stable ?e _ (mem_set ?x _ _) => eapply stable_then; [|apply stable_set]
    | |- stable ?e _ (set_case ?x _) => eapply stable_then; [|apply stable_jumps]
    | |- stable ?e _ (set_cond ?x _) => eapply stable_then; [|apply stable_jumps]
    | |- stable ?e _ (set_break ?x _) => eapply stable_then; [|apply stable_jumps]
    | |- stable ?e _ (set_jumps ?x _ _ _) => eapply stable_then; [|apply stable_jumps]
    | |- stable ?e _ (set_displ ?x _) => eapply stable_then; [|apply stable_displ]
    | |- stable ?e _ (patched ?x _ _ _) => eapply stable_then; [|apply stable_patched]
    | |- stable ?e _ (snd (emit c ?n ?how ?x)) => eapply stable_then; [|apply stable_expression; assumption]
    end ]).

Lemma stable_stmt : forall n s, (size s < n)%nat -> supported_labelled s = true -> forall e, in_table e (declares s) ->
  stable e (declares s) (emit_statement c s e).
Proof.
  induction n as [|n IH]; intros s L S e I; [lia|].
  assert (Q : forall s, (size s < n)%nat -> supported_stmt s = true -> forall e, in_table e (declares s) -> stable e (declares s) (emit_statement c s e)).
  { intros s' L' S'. apply IH; [exact L'|]. destruct s'; try exact S'; discriminate S'. }
  destruct s; cbn [supported_labelled CodeSpec.supported_stmt declares emit_statement size] in *; cbv zeta.
  - apply (stable_all (fun d e => emit_declaration c d e)); [|exact I]. intros d Id e0. apply stable_decl.
    rewrite forallb_forall in S. auto.
  - ands. unfold patch_case. eapply (stable_trans _ [] _ (declares s)); [|apply Q; [lia|assumption|]].
    + unfold emit_expression. match goal with H : is_constant _ = true |- _ => apply constant_supported in H end. stab. destruct (e_case e =? 0); stab.
    + unfold emit_expression. match goal with H : is_constant _ = true |- _ => apply constant_supported in H end.
      eapply in_table_stable; [|exact I]. stab. destruct (e_case e =? 0); stab.
  - eapply (stable_trans _ [] _ (declares s)); [|apply Q; [lia|assumption|]]; [|eapply in_table_stable; [|exact I]];
    unfold patch_case; stab; destruct (e_case e =? 0); stab.
  - eapply stable_then; [|apply stable_displ]. apply (stable_all (fun s e => emit_statement c s e)); [|exact I]. intros s Is e0. apply Q.
    + apply size_in in Is. lia.
    + rewrite forallb_forall in S. auto.
  - unfold emit_void_expression. stab.
  - stab.
  - ands. apply in_table_app in I. destruct I as [I1 I2]. unfold emit_expression.
    assert (A : stable e (declares s) (emit_statement c s (mem_reserve (mem_add (snd (emit c c0 Value e)) IC_BE0)))).
    { eapply (stable_trans _ [] _ (declares s)); [|apply Q; [lia|assumption|]]; [|eapply in_table_stable; [|exact I1]]; stab. }
    destruct other as [s'|].
    + stab. eapply stable_trans; [|apply Q; [lia|assumption|]]; [stab; exact A|]. eapply in_table_stable; [|exact I2]. stab. exact A.
    + rewrite app_nil_r. stab. exact A.
  - destruct s; try discriminate S. ands. unfold emit_expression, addr_end_break. cbn [emit_statement declares] in *. cbv zeta.
    assert (A : stable e (flat_map declares ss) (set_displ (fold_left (fun e s => emit_statement c s e) ss (snd (emit c c0 Value (set_case (set_break e 0) 0))))
      (e_displ (snd (emit c c0 Value (set_case (set_break e 0) 0)))))).
    { assert (T : supported c0 Value = true) by (unfold computed in *; ands; assumption).
      eapply stable_then; [|apply stable_displ]. eapply (stable_trans _ [] _ (flat_map declares ss)); [|apply (stable_all (fun s e => emit_statement c s e))].
      - stab.
      - intros s Is e0. apply IH.
        + apply size_in in Is. cbn [size] in L. lia.
        + match goal with H : forallb _ ss = true |- _ => rewrite forallb_forall in H; exact (H s Is) end.
      - eapply in_table_stable; [|exact I]. stab. }
    stab. destruct (0 <? _); stab; exact A.
  - ands. unfold emit_expression, addr_end_break, addr_begin_condition. stab.
    eapply (stable_trans _ [] _ (declares s)); [|apply Q; [lia|assumption|]]; [|eapply in_table_stable; [|exact I]]; stab.
  - ands. unfold emit_expression, addr_end_break, addr_end_condition. stab.
    eapply (stable_trans _ [] _ (declares s)); [|apply Q; [lia|assumption|]]; [|eapply in_table_stable; [|exact I]]; stab.
  - ands. apply in_table_app in I. destruct I as [I1 I2]. unfold emit_expression, emit_void_expression, addr_end_break, addr_end_condition.
    assert (A : stable e (match init with Some s => declares s | None => [] end) (match init with Some s => emit_statement c s e | None => e end)).
    { destruct init as [s0|]; [apply Q; [lia|assumption|exact I1]|apply stable_refl]. }
    set (e1 := match init with Some s => emit_statement c s e | None => e end) in *.
    assert (I2' : in_table e1 (declares s)) by (eapply in_table_stable; eassumption). clearbody e1.
    assert (B : stable e1 [] match c0 with
           | Some x => mem_add (set_break (mem_add (snd (emit c x Value (set_break (set_cond e1 0) 0))) IC_BE0)
                          (mem_size (mem_add (snd (emit c x Value (set_break (set_cond e1 0) 0))) IC_BE0))) 0
           | None => set_break (set_cond e1 0) 0 end).
    { destruct c0; stab. }
    match type of B with stable _ _ ?x => set (e2 := x) in * end. clearbody e2.
    stab. eapply stable_trans; [exact A|].
    assert (X : stable e1 (declares s) (emit_statement c s e2)).
    { eapply (stable_trans _ [] _ (declares s)); [exact B|apply Q; [lia|assumption|eapply in_table_stable; eassumption]]. }
    destruct next; stab; exact X.
  - stab.
  - stab.
  - destruct e0; [|stab]. unfold emit_expression, computed in *. ands. stab.
Qed.

(** ** Filling in jumps *)
Lemma headC_setC v T p hc : headC (setC v T) p hc = hc.
Proof. revert p hc. induction T as [|[]]; intros; cbn; auto. Qed.
Lemma headB_setB v T p hb : headB (setB v T) p hb = hb.
Proof. revert p hb. induction T as [|[]]; intros; cbn; auto. Qed.
Lemma raw_setB v T p hb hb' hc : raw (setB v T) p hb hc = raw (setB v T) p hb' hc.
Proof. revert p hb hb' hc. induction T as [|[]]; intros; cbn; f_equal; auto. Qed.
Lemma filled B K T : setB B (setC K T) = map W (fill B K T).
Proof. unfold setB, setC, fill. rewrite !map_map. apply map_ext. intros []; reflexivity. Qed.

Lemma grows_set e T z z' U ids e' : grows e (T ++ [W z] ++ U) ids e' ->
  grows e (T ++ [W z'] ++ U) ids (mem_set e' (mem_size e + zlen T) z').
Proof.
  intros (M & B & K & A & P & G & D & F). unfold grows. cbn [e_mem mem_set set_mem e_break e_cond e_case e_procs e_hung e_displs].
  rewrite B, K, M. repeat split; auto.
  - rewrite !raw_app. cbn [raw app]. rewrite app_assoc. rewrite lv_set_mid.
    + rewrite <- app_assoc. reflexivity.
    + rewrite zlen_app, zlen_raw. reflexivity.
  - rewrite !headB_app. reflexivity.
  - rewrite !headC_app. reflexivity.
Qed.

Lemma grows_begin_condition e w T ids e' : grows e (map W w ++ T) ids e' -> e_cond e = mem_size e -> w <> [] ->
  grows e (setC (mem_size e) (map W w ++ T)) ids (addr_begin_condition e' (mem_size e)).
Proof.
  intros (M & B & K & A & P & G & D & F) C N. unfold addr_begin_condition.
  assert (X : patched e' (e_cond e') (mem_size e) (mem_size e) = set_mem e' (e_mem e ++ raw (setC (mem_size e) (map W w ++ T)) (mem_size e) (e_break e) (e_cond e))).
  { rewrite K, headC_app, headC_W, zlen_map, C. unfold mem_size in *. replace (zlen (e_mem e) + zlen w) with (zlen (e_mem e ++ w)) by (rewrite zlen_app; lia).
    rewrite patched_C with (r := []) (hb := e_break e).
    - f_equal. rewrite setC_app, setC_W, raw_app, raw_W, headB_W, headC_W, zlen_map, app_nil_r, <- app_assoc. rewrite zlen_app. reflexivity.
    - rewrite M, raw_app, raw_W, headB_W, headC_W, zlen_map, app_nil_r, <- app_assoc, zlen_app, C. reflexivity.
    - rewrite zlen_app. destruct w; [congruence|]. rewrite zlen_cons. pose proof (zlen_nonneg w). lia. }
  cbv zeta. rewrite X. unfold grows. cbn. repeat split; auto.
  - rewrite B, !setC_app, !headB_app, !headB_setC, !zlen_setC. reflexivity.
  - rewrite headC_setC. auto.
Qed.
Lemma grows_end_condition e T ids e' : grows e T ids e' -> e_cond e = 0 -> 0 < mem_size e ->
  grows e (setC (mem_size e') T) ids (addr_end_condition e').
Proof.
  intros Q C N. pose proof (grows_size _ _ _ _ Q) as L. destruct Q as (M & B & K & A & P & G & D & F). unfold addr_end_condition.
  rewrite K, C. change (mem_size e) with (zlen (e_mem e)) in *. rewrite patched_C with (r := []) (hb := e_break e).
  - unfold grows. cbn. rewrite app_nil_r. repeat split; auto.
    + rewrite C. reflexivity.
    + rewrite B, headB_setC. reflexivity.
    + rewrite headC_setC. auto.
  - rewrite app_nil_r, M, C. reflexivity.
  - exact N.
Qed.
Lemma grows_end_break e T ids e' : grows e T ids e' -> e_break e = 0 -> 0 < mem_size e ->
  grows e (setB (mem_size e') T) ids (addr_end_break e').
Proof.
  intros Q C N. pose proof (grows_size _ _ _ _ Q) as L. destruct Q as (M & B & K & A & P & G & D & F). unfold addr_end_break.
  rewrite B, C. change (mem_size e) with (zlen (e_mem e)) in *. rewrite patched_B with (r := []) (hc := e_cond e).
  - unfold grows. cbn. rewrite app_nil_r. repeat split; auto.
    + rewrite C. reflexivity.
    + rewrite headB_setB. auto.
    + rewrite K, headC_setB. reflexivity.
  - rewrite app_nil_r, M, C. reflexivity.
  - exact N.
Qed.
Lemma grows_close e x y k ids e' : grows (set_break (set_cond e x) y) (map W k) ids e' ->
  grows e (map W k) ids (set_cond (set_break e' (e_break e)) (e_cond e)).
Proof.
  intros (M & B & K & A & P & G & D & F). unfold grows in *. rewrite raw_W, headB_W, headC_W in *. unfold displacements_get in *. cbn in *. auto 10.
Qed.
Lemma grows_frame e T ids e' d : grows e T ids e' -> grows e T ids (set_displ e' d).
Proof. unfold grows, displacements_get. cbn. auto. Qed.

(** ** Sequences *)
Lemma settled_stable e ids e' seen seen' : stable e ids e' -> ordered ids seen seen' -> settled e' seen' -> settled e seen.
Proof.
  intros (_ & _ & _ & F) [A B] H id I. rewrite <- (H id (A id I)). symmetry. apply F. intros X. apply (B id X). exact I.
Qed.
Lemma tidy_stable e ids e' : stable e ids e' -> tidy_procs e -> tidy_procs e'.
Proof. intros (P & _). unfold tidy_procs. rewrite P. auto. Qed.
Lemma pos_stable e ids e' : stable e ids e' -> 0 < mem_size e -> 0 < mem_size e'.
Proof. intros (_ & _ & L & _). lia. Qed.

Lemma emits_seq {A} (f : A -> enc -> enc) (t : A -> Z -> list tok) (ids : A -> list Z) (ord : list Z -> A -> option (list Z)) l :
  (forall x, In x l -> forall e, in_table e (ids x) -> stable e (ids x) (f x e)) ->
  (forall x, In x l -> forall seen seen', ord seen x = Some seen' -> ordered (ids x) seen seen') ->
  (forall x, In x l -> forall e seen seen', ord seen x = Some seen' -> in_table e (ids x) -> 0 < mem_size e -> tidy_procs e ->
     settled (f x e) seen' -> grows e (t x (mem_size e)) (ids x) (f x e)) ->
  forall e seen seen', in_order ord seen l = Some seen' -> in_table e (flat_map ids l) -> 0 < mem_size e -> tidy_procs e ->
  settled (fold_left (fun e x => f x e) l e) seen' ->
  grows e (tok_all t l (mem_size e)) (flat_map ids l) (fold_left (fun e x => f x e) l e).
Proof.
  induction l as [|x l IH]; intros Hs Ho Hg e seen seen' O I N P H; cbn [flat_map fold_left] in *; [apply grows_refl|].
  cbn in O. destruct (ord seen x) as [s1|] eqn:Ex; [|discriminate O]. cbn [bind] in O.
  apply in_table_app in I. destruct I as [I1 I2]. assert (S1 := Hs x (or_introl eq_refl) e I1).
  assert (I3 : in_table (f x e) (flat_map ids l)) by (eapply in_table_stable; eassumption).
  assert (S2 := stable_all f ids l (fun y Y => Hs y (or_intror Y)) (f x e) I3).
  assert (O2 : ordered (flat_map ids l) s1 seen') by (apply (in_order_ordered ord ids); auto; intros; eapply Ho; [right|]; eassumption).
  assert (H1 : settled (f x e) s1) by (eapply settled_stable; eassumption).
  assert (G1 := Hg x (or_introl eq_refl) e seen s1 Ex I1 N P H1).
  cbn [tok_all]. eapply grows_trans; [exact G1|]. rewrite <- (grows_size _ _ _ _ G1).
  eapply IH; eauto using tidy_stable, pos_stable; intros; [eapply Hs|eapply Ho|eapply Hg]; eauto; right; assumption.
Qed.

Lemma order_decl_ordered d seen seen' : order_decl seen d = Some seen' -> ordered (decl_ids d) seen seen'.
Proof.
  intros Q. assert (O : order seen (SDecl [d]) = Some seen') by (cbn; rewrite Q; reflexivity).
  apply (order_ordered 2 (SDecl [d])) in O; [|cbn; lia]. cbn in O. rewrite app_nil_r in O. exact O.
Qed.
Lemma emits_decls ds : emits_stmt (SDecl ds).
Proof.
  intros e seen seen' S O I N P H. cbn [CodeSpec.supported_stmt order declares emit_statement toks] in *.
  rewrite forallb_forall in S.
  apply (emits_seq (fun d e => emit_declaration c d e) (tok_decl disp) decl_ids order_decl) with (seen := seen) (seen' := seen'); auto.
  - intros d Id e0. apply stable_decl. auto.
  - intros d _ s s' Q. apply order_decl_ordered, Q.
  - intros d Id e0 s s' O' I' N' P' H'. eapply emits_decl; eauto.
Qed.

(** ** The body of a switch *)
Definition finish (e : enc) : enc := if 0 <? e_case e then mem_set e (e_case e) (mem_size e) else e.
Definition opened (e : enc) (v : Z) : enc := set_case (if 0 <? e_case e then mem_set e (e_case e) v else e) 0.

Definition inner (s : stmt) : stmt := match s with SCase _ s => s | SDefault s => s | s => s end.
Lemma supported_inner s : supported_labelled s = true -> supported_stmt (inner s) = true.
Proof. destruct s; try exact (fun H => H). cbn. intros H. ands. assumption. Qed.
Lemma lv_set_app1 a b i v : 0 <= i < zlen a -> lv_set (a ++ b) i v = lv_set a i v ++ b.
Proof.
  intros H. assert (X : exists l x r, a = l ++ x :: r /\ i = zlen l).
  { rewrite zlen_unf in H. destruct (nth_error a (Z.to_nat i)) as [x|] eqn:E.
    - apply nth_error_split in E. destruct E as (l & r & -> & L). exists l, x, r. split; auto. rewrite zlen_unf, L. lia.
    - apply nth_error_None in E. lia. }
  destruct X as (l & x & r & -> & ->). rewrite <- app_assoc. cbn [app]. rewrite !lv_set_mid by reflexivity. rewrite <- app_assoc. reflexivity.
Qed.

Lemma grows_opened e T ids e' v : grows e T ids e' -> 0 <= e_case e < mem_size e -> grows (opened e v) T ids (opened e' v).
Proof.
  intros (M & B & K & A & P & G & D & F) L. unfold opened. rewrite A.
  destruct (0 <? e_case e); unfold grows, displacements_get, mem_size in *; cbn; rewrite ?M, ?zlen_lv_set; repeat split; auto.
  rewrite lv_set_app1 by lia. reflexivity.
Qed.

Lemma grows_case e T ids e' v : grows e T ids e' -> grows (set_case e v) T ids (set_case e' v).
Proof. unfold grows, displacements_get. cbn. intuition. Qed.

Lemma emits_body : forall ss, (forall s, In s ss -> supported_labelled s = true /\ emits_stmt (inner s)) ->
  forall e seen seen', in_order (fun seen s => order seen s) seen ss = Some seen' -> in_table e (flat_map declares ss) -> 0 < mem_size e ->
  tidy_procs e -> 0 <= e_case e < mem_size e -> settled (fold_left (fun e s => emit_statement c s e) ss e) seen' ->
  grows (opened e (lead_end tk ss (mem_size e))) (tok_body disp tk ss (mem_size e)) (flat_map declares ss)
        (set_case (finish (fold_left (fun e s => emit_statement c s e) ss e)) 0).
Proof.
  induction ss as [|s ss IH]; intros Hs e seen seen' O I N P A H; cbn [flat_map fold_left] in *.
  - cbn [lead_end tok_body]. apply grows_refl.
  - cbn in O. destruct (order seen s) as [s1|] eqn:Es; [|discriminate O]. cbn [bind] in O.
    apply in_table_app in I. destruct I as [I1 I2]. destruct (Hs s (or_introl eq_refl)) as [Sl Q].
    assert (S1 := stable_stmt _ s (Nat.lt_succ_diag_r _) Sl e I1).
    assert (I3 : in_table (emit_statement c s e) (flat_map declares ss)) by (eapply in_table_stable; eassumption).
    assert (S2 := stable_all (fun s e => emit_statement c s e) declares ss
      (fun y Y => stable_stmt _ y (Nat.lt_succ_diag_r _) (proj1 (Hs y (or_intror Y)))) (emit_statement c s e) I3).
    assert (O2 : ordered (flat_map declares ss) s1 seen').
    { apply (in_order_ordered (fun seen s => order seen s) declares); auto. intros y Y q q'. apply (order_ordered _ _ (Nat.lt_succ_diag_r _)). }
    assert (H1 : settled (emit_statement c s e) s1) by (eapply settled_stable; eassumption).
    specialize (IH (fun y Y => Hs y (or_intror Y)) (emit_statement c s e) s1 seen' O I3 (pos_stable _ _ _ S1 N) (tidy_stable _ _ _ S1 P)).
    assert (plain : inner s = s -> lead_end tk (s :: ss) (mem_size e) = lead_end tk ss (mem_size e + zlen (tk s (mem_size e))) ->
      tok_body disp tk (s :: ss) (mem_size e) = tk s (mem_size e) ++ tok_body disp tk ss (mem_size e + zlen (tk s (mem_size e))) ->
      grows (opened e (lead_end tk (s :: ss) (mem_size e))) (tok_body disp tk (s :: ss) (mem_size e)) (declares s ++ flat_map declares ss)
        (set_case (finish (fold_left (fun e s => emit_statement c s e) ss (emit_statement c s e))) 0)).
    { intros E1 E2 E3. rewrite E2, E3. pose proof (supported_inner s Sl) as Si. rewrite E1 in Q, Si.
      assert (G := Q e seen s1 Si Es I1 N P H1). pose proof (grows_size _ _ _ _ G) as L. rewrite <- L.
      eapply grows_trans; [apply grows_opened; eassumption|]. 
      apply IH; [|exact H]. destruct G as (_ & _ & _ & -> & _). pose proof (zlen_nonneg (tk s (mem_size e))). lia. }
    destruct s; try (apply plain; reflexivity); clear plain.
    + cbn [supported_labelled inner] in *. ands. rename s into body, e0 into k.
      match goal with H : is_constant _ = true |- _ => rename H into Ck; pose proof (constant_supported _ Ck) as Sk end.
      set (b := mem_size e) in *.
      assert (Pc : set_case (patch_case e) 0 = opened e b).
      { unfold patch_case, opened, b. destruct (e_case e =? 0) eqn:Ea; destruct (0 <? e_case e) eqn:Eb; try reflexivity; lia. }
      assert (Lp : mem_size (patch_case e) = b).
      { unfold patch_case, mem_size, b. destruct (e_case e =? 0); cbn; rewrite ?zlen_lv_set; reflexivity. }
      cbn [emit_statement] in *. cbv zeta in *. unfold emit_expression in *.
      remember (mem_add (mem_add (snd (emit c k Value (mem_add (patch_case e) IC_DUPLICATE))) IC_EQ) IC_BE0) as e1 eqn:Ee1.
      set (w := [IC_DUPLICATE] ++ comp k Value (b + 1) ++ [IC_EQ; IC_BE0]).
      assert (E1 : e1 = set_mem (patch_case e) (e_mem (patch_case e) ++ w)).
      { rewrite Ee1, emit_at; [|exact Sk|destruct k; try discriminate Ck; intros id []]. rewrite (add_unf (patch_case e)). enc.
        unfold w. rewrite <- Lp. unfold mem_size. rewrite zlen_app, <- !app_assoc. reflexivity. }
      assert (L1 : mem_size e1 = b + zlen w).
      { rewrite E1. unfold mem_size in *. cbn. rewrite zlen_app. lia. }
      assert (G1 : grows (opened e b) (map W (w ++ [0])) [] (set_case (mem_reserve e1) 0)).
      { rewrite <- Pc. apply grows_words. rewrite E1, app_assoc. reflexivity. }
      set (e2 := set_case (mem_reserve e1) (mem_size e1)) in *.
      assert (S0 : stable e [] e2).
      { unfold e2. apply (stable_then _ _ (mem_reserve e1)); [|apply stable_jumps]. apply (stable_then _ _ e1); [|apply stable_add].
        rewrite Ee1. stab. unfold patch_case. destruct (e_case e =? 0); stab. }
      assert (Si : supported_stmt body = true) by assumption. cbn [order] in Es. cbn [declares] in *.
      assert (G2 := Q e2 _ _ Si Es (in_table_stable _ _ _ _ S0 I1) (pos_stable _ _ _ S0 N) (tidy_stable _ _ _ S0 P) H1).
      assert (L2 : mem_size e2 = b + zlen w + 1) by (rewrite <- L1; change (zlen (e_mem e1 ++ [0]) = zlen (e_mem e1) + 1); rewrite zlen_app, zlen_cons, znil; lia).
      pose proof (grows_size _ _ _ _ G2) as L3. rewrite L2 in L3.
      set (e3 := emit_statement c body e2) in *. set (ks := tk body (b + zlen w + 1)) in *. rewrite L2 in G2.
      assert (A3 : e_case e3 = b + zlen w) by (destruct G2 as (_ & _ & _ & -> & _); exact L1).
      pose proof (zlen_nonneg w). pose proof (zlen_nonneg ks).
      assert (G3 := IH ltac:(lia) H). fold ks in L3.
      eapply (grows_case _ _ _ _ 0) in G2. change (set_case e2 0) with (set_case (mem_reserve e1) 0) in G2.
      pose proof (grows_trans _ _ _ _ _ _ _ G1 G2) as G4. rewrite map_app, <- app_assoc in G4.
      apply (grows_set _ _ _ (lead_end tk ss (mem_size e3))) in G4.
      assert (Lo : mem_size (opened e b) = b) by (rewrite <- Pc; exact Lp).
      rewrite Lo, zlen_map in G4. cbn [app] in G4.
      replace (mem_set (set_case e3 0) (b + zlen w) (lead_end tk ss (mem_size e3))) with (opened e3 (lead_end tk ss (mem_size e3))) in G4.
      2: { unfold opened. rewrite A3. replace (0 <? b + zlen w) with true by lia. reflexivity. }
      pose proof (grows_trans _ _ _ _ _ _ _ G4 G3) as G5. cbn [lead_end]. 
      match goal with G : grows _ ?T _ _ |- grows _ ?U _ _ => replace U with T; [exact G|] end.
      cbn [tok_body]. cbv zeta.
      replace (b + 1 + zlen (comp k Value (b + 1)) + 3) with (b + zlen w + 1) by (unfold w; rewrite !zlen_app, !zlen_cons, znil; lia).
      fold ks. rewrite <- L3. unfold w. rewrite !map_app, <- !app_assoc. reflexivity.
    + cbn [supported_labelled inner emit_statement order declares] in *. rename s into body. set (b := mem_size e) in *.
      assert (Pc : set_case (patch_case e) 0 = opened e b).
      { unfold patch_case, opened, b. destruct (e_case e =? 0) eqn:Ea; destruct (0 <? e_case e) eqn:Eb; try reflexivity; lia. }
      assert (Lp : mem_size (opened e b) = b).
      { unfold opened, mem_size, b. destruct (0 <? e_case e); cbn; rewrite ?zlen_lv_set; reflexivity. }
      rewrite Pc in *.
      assert (S0 : stable e [] (opened e b)) by (unfold opened; stab; destruct (0 <? e_case e); stab).
      assert (G2 := Q _ _ _ Sl Es (in_table_stable _ _ _ _ S0 I1) (pos_stable _ _ _ S0 N) (tidy_stable _ _ _ S0 P) H1).
      pose proof (grows_size _ _ _ _ G2) as L3. rewrite Lp in *. set (ks := tk body b) in *. set (e3 := emit_statement c body (opened e b)) in *.
      assert (A3 : e_case e3 = 0) by (destruct G2 as (_ & _ & _ & -> & _); reflexivity).
      pose proof (zlen_nonneg ks). assert (G3 := IH ltac:(lia) H).
      replace (opened e3 (lead_end tk ss (mem_size e3))) with (set_case e3 0) in G3 by (unfold opened; rewrite A3; reflexivity).
      eapply (grows_case _ _ _ _ 0) in G2. change (set_case (opened e b) 0) with (opened e b) in G2.
      pose proof (grows_trans _ _ _ _ _ _ _ G2 G3) as G5. cbn [lead_end tok_body]. cbv zeta. fold ks. rewrite <- L3. exact G5.
Qed.

(** ** Every statement *)
Lemma settled_uses e l seen : settled e (meet l seen) -> settled e l.
Proof. intros H id I. apply H, in_or_app. auto. Qed.
Lemma settled_same e e' l : e_displs e' = e_displs e -> settled e' l -> settled e l.
Proof. intros E H id I. rewrite <- (H id I). unfold displacements_get. rewrite E. reflexivity. Qed.
Lemma same_size e e' : e_mem e' = e_mem e -> mem_size e' = mem_size e.
Proof. unfold mem_size. congruence. Qed.
Lemma grows_add e T ids e' v : grows e T ids e' -> grows e (T ++ map W [v]) ids (mem_add e' v).
Proof. intros G. rewrite <- (app_nil_r ids). eapply grows_trans; [exact G|]. apply grows_words. reflexivity. Qed.
Lemma grows_value n how e0 T ids e : supported n how = true -> settled e (uses n) -> grows e0 T ids e ->
  grows e0 (T ++ map W (comp n how (mem_size e0 + zlen T))) ids (snd (emit c n how e)).
Proof.
  intros S U G. rewrite <- (grows_size _ _ _ _ G), <- (app_nil_r ids). eapply grows_trans; [exact G|]. apply grows_expression; assumption.
Qed.
Lemma settled_later e ids e' seen seen' : stable e ids e' -> ordered ids seen seen' -> settled e' seen' -> settled e seen.
Proof. apply settled_stable. Qed.

Lemma stable_ok s : supported_stmt s = true -> forall e, in_table e (declares s) -> stable e (declares s) (emit_statement c s e).
Proof.
  intros S. apply (stable_stmt _ s (Nat.lt_succ_diag_r _)). destruct s; try exact S; discriminate S.
Qed.
Lemma order_ok s seen seen' : order seen s = Some seen' -> ordered (declares s) seen seen'.
Proof. apply (order_ordered _ _ (Nat.lt_succ_diag_r _)). Qed.

Lemma emits_if x s other : emits_stmt s -> (forall s', other = Some s' -> emits_stmt s') -> emits_stmt (SIf x s other).
Proof.
  intros Q1 Q2 e seen seen' S O I N P H. cbn [CodeSpec.supported_stmt order declares emit_statement size toks] in *. cbv zeta in *.
  ands. destruct (order (meet (uses x) seen) s) as [s1|] eqn:O1; [|discriminate O]. cbn [bind] in O. apply in_table_app in I. destruct I as [I1 I2].
  unfold emit_expression in *. set (kx := comp x Value (mem_size e)) in *.
  assert (Sx : stable e [] (mem_reserve (mem_add (snd (emit c x Value e)) IC_BE0))) by stab.
  set (e1 := mem_reserve (mem_add (snd (emit c x Value e)) IC_BE0)) in *.
  assert (Ss : stable e1 (declares s) (emit_statement c s e1)) by (apply stable_ok; [assumption|eapply in_table_stable; eassumption]).
  set (e2 := emit_statement c s e1) in *.
  set (a1 := mem_size (mem_add (snd (emit c x Value e)) IC_BE0)) in *.
  assert (T1 : settled e2 s1).
  { destruct other as [s'|].
    - eapply settled_stable with (ids := declares s'); [|apply order_ok; exact O|exact H]. stab.
      eapply (stable_trans _ [] _ (declares s')); [|apply stable_ok; [assumption|]]; [stab|]. eapply in_table_stable; [|exact I2].
      eapply stable_trans; [exact Sx|]. stab. exact Ss.
    - injection O as <-. intros id Id. rewrite <- (H id Id). reflexivity. }
  assert (T0 : settled e (uses x)).
  { eapply settled_uses. eapply (settled_stable e (declares s)); [eapply (stable_trans _ []); [exact Sx|exact Ss]|eapply order_ok; exact O1|exact T1]. }
  assert (G1 : grows e (map W kx ++ map W [IC_BE0] ++ map W [0]) [] e1).
  { rewrite app_assoc. unfold e1. apply grows_add, grows_add, grows_expression; assumption. }
  assert (G2 : grows e1 (tk s (mem_size e1)) (declares s) e2).
  { eapply Q1; eauto using pos_stable, tidy_stable, in_table_stable. }
  assert (Z1 : a1 = mem_size e + zlen (map W kx ++ map W [IC_BE0])).
  { eapply grows_size with (ids := []). apply grows_add, grows_expression; assumption. }
  assert (L1 : mem_size e1 = mem_size e + zlen kx + 2).
  { rewrite (grows_size _ _ _ _ G1), !zlen_app, !zlen_map, !zlen_cons, znil. lia. }
  pose proof (grows_size _ _ _ _ G2) as L2. rewrite L1 in *. set (ks := tk s (mem_size e + zlen kx + 2)) in *.
  pose proof (grows_trans _ _ _ _ _ _ _ G1 G2) as G3. rewrite (app_assoc (map W kx)), <- app_assoc in G3. cbn [map] in G3. cbn [map] in Z1.
  destruct other as [s'|].
  - apply (grows_set _ _ _ (mem_size e2 + 2)) in G3. cbn [app] in G3. rewrite <- Z1 in G3.
    assert (G4 := grows_add _ _ _ _ 0 (grows_add _ _ _ _ IC_B G3)).
    set (e3 := mem_add (mem_set e2 a1 (mem_size e2 + 2)) IC_B) in *.
    change (mem_add e3 0) with (mem_reserve e3) in G4. set (e4 := mem_reserve e3) in *.
    assert (S4 : stable e (declares s) e4).
    { unfold e4, e3. stab. eapply (stable_trans _ []); [exact Sx|exact Ss]. }
    assert (S5 : stable e4 (declares s') (emit_statement c s' e4)) by (apply stable_ok; [assumption|eapply in_table_stable; eassumption]).
    assert (G5 : grows e4 (tk s' (mem_size e4)) (declares s') (emit_statement c s' e4)).
    { eapply (Q2 s' eq_refl); eauto using pos_stable, tidy_stable, in_table_stable. }
    assert (L4 : mem_size e4 = mem_size e + zlen kx + 2 + zlen ks + 2).
    { unfold e4, e3, mem_size. cbn [mem_reserve mem_add set_mem e_mem mem_set]. unfold lv_add. rewrite !zlen_app, zlen_lv_set, !zlen_cons, znil. unfold mem_size in L2. rewrite L2. lia. }
    pose proof (grows_size _ _ _ _ G5) as L5. rewrite L4 in *.
    pose proof (grows_trans _ _ _ _ _ _ _ G4 G5) as G6. rewrite <- !app_assoc in G6. cbn [map] in G6.
    set (ko := tk s' (mem_size e + zlen kx + 2 + zlen ks + 2)) in *. set (e5 := emit_statement c s' e4) in *.
    match type of G6 with grows _ ?T _ _ => replace T with ((map W (kx ++ [IC_BE0; mem_size e2 + 2]) ++ ks ++ [W IC_B]) ++ [W 0] ++ ko) in G6 by (rewrite map_app, <- !app_assoc; reflexivity) end.
    apply (grows_set _ _ _ (mem_size e5)) in G6.
    match type of G6 with context [mem_set e5 ?a _] => replace a with (mem_size e3) in G6 end.
    2: { unfold e3, mem_size. cbn [mem_add set_mem e_mem mem_set]. unfold lv_add. unfold mem_size in L2. rewrite map_app, !zlen_app, zlen_lv_set, !zlen_map, !zlen_cons, !znil, L2. rewrite (zlen_unf (@nil tok)). cbn. lia. }
    match goal with |- grows _ ?U _ _ => match type of G6 with grows _ ?T _ _ => replace U with T; [exact G6|] end end.
    rewrite L5, L2. cbn [map]. rewrite <- !app_assoc. reflexivity.
  - apply (grows_set _ _ _ (mem_size e2)) in G3. rewrite <- Z1 in G3. rewrite app_nil_r. rewrite L2 in G3 at 1.
    rewrite map_app. cbn [map]. rewrite <- !app_assoc in *. exact G3.
Qed.

Lemma settled_prior e e' l : stable e [] e' -> settled e' l -> settled e l.
Proof. intros S H. eapply settled_stable; [exact S|apply ordered_none|exact H]. Qed.

Lemma grows_hole e : e_break e = 0 -> grows e [HB] [] (mem_add (set_break e (mem_size e)) 0).
Proof. intros B. unfold grows, displacements_get. cbn. rewrite B. auto 10. Qed.

Lemma emits_while x s : emits_stmt s -> emits_stmt (SWhile x s).
Proof.
  intros Q1 e seen seen' S O I N P H. cbn [CodeSpec.supported_stmt order declares emit_statement size toks] in *. cbv zeta in *. ands.
  unfold emit_expression in *. set (b := mem_size e) in *. set (kx := comp x Value b) in *.
  set (ea := set_break (set_cond e b) 0).
  set (e1 := mem_add (snd (emit c x Value (set_cond e b))) IC_BE0) in *.
  set (e2 := mem_add (set_break e1 (mem_size e1)) 0) in *. set (e3 := emit_statement c s e2) in *.
  assert (S2 : stable e [] e2) by (unfold e2, e1; stab).
  assert (S3 : stable e2 (declares s) e3) by (apply stable_ok; [assumption|eapply in_table_stable; eassumption]).
  assert (T3 : settled e3 seen').
  { eapply settled_prior; [|exact H]. unfold addr_end_break, addr_begin_condition. stab. }
  assert (T0 : settled e (uses x)).
  { eapply settled_uses. eapply (settled_stable e (declares s)); [eapply (stable_trans _ []); [exact S2|exact S3]|eapply order_ok; exact O|exact T3]. }
  assert (G1 : grows ea (map W (kx ++ [IC_BE0]) ++ [HB]) [] e2).
  { change (@nil Z) with (@nil Z ++ []). eapply grows_trans with (e1 := set_break e1 0).
    - rewrite map_app. change (set_break e1 0) with (mem_add (set_break (snd (emit c x Value (set_cond e b))) 0) IC_BE0). apply grows_add.
      apply grows_words. rewrite emit_at; [reflexivity|assumption|exact T0].
    - unfold e2. change (mem_add (set_break e1 (mem_size e1)) 0) with (mem_add (set_break (set_break e1 0) (mem_size (set_break e1 0))) 0).
      apply grows_hole. reflexivity. }
  pose proof (grows_size _ _ _ _ G1) as L2.
  assert (L2' : mem_size e2 = b + zlen kx + 2).
  { rewrite L2, zlen_app, zlen_map, zlen_app, !zlen_cons, znil, (zlen_unf (@nil tok)). change (mem_size ea) with b. cbn. lia. }
  assert (G2 : grows e2 (tk s (mem_size e2)) (declares s) e3).
  { eapply Q1; eauto using pos_stable, tidy_stable, in_table_stable. }
  rewrite L2' in G2. set (kb := tk s (b + zlen kx + 2)) in *.
  pose proof (grows_trans _ _ _ _ _ _ _ G1 G2) as G3. rewrite <- app_assoc in G3.
  apply grows_begin_condition in G3; [|reflexivity|destruct kx; discriminate].
  change (mem_size ea) with b in G3. cbn [app] in G3.
  set (T := map W (kx ++ [IC_BE0]) ++ [HB] ++ kb ++ map W [IC_B; b]).
  assert (G4 : grows ea (setC b T) (declares s) (mem_add (mem_add (addr_begin_condition e3 b) IC_B) b)).
  { replace (setC b T) with ((setC b (map W (kx ++ [IC_BE0]) ++ HB :: kb) ++ map W [IC_B]) ++ map W [b]).
    - apply grows_add, grows_add. exact G3.
    - unfold T. rewrite !setC_app. cbn [app]. change (HB :: kb) with ([HB] ++ kb). rewrite setC_app, <- !app_assoc. reflexivity. }
  pose proof (grows_size _ _ _ _ G4) as L4. rewrite zlen_setC in L4. change (mem_size ea) with b in L4.
  apply grows_end_break in G4; [|reflexivity|exact N]. rewrite L4, filled in G4.
  exact (grows_close e _ _ _ _ _ G4).
Qed.

Lemma emits_do s x : emits_stmt s -> emits_stmt (SDo s x).
Proof.
  intros Q1 e seen seen' S O I N P H. cbn [CodeSpec.supported_stmt order declares emit_statement size toks] in *. cbv zeta in *. ands.
  destruct (order seen s) as [s1|] eqn:O1; [|discriminate O]. cbn [bind] in O. injection O as <-.
  unfold emit_expression in *. set (b := mem_size e) in *.
  set (ea := set_break (set_cond e 0) 0) in *. set (e1 := emit_statement c s ea) in *.
  assert (S1 : stable e [] ea) by (unfold ea; stab).
  assert (S2 : stable ea (declares s) e1) by (apply stable_ok; [assumption|eapply in_table_stable; eassumption]).
  set (e2 := addr_end_condition e1) in *.
  assert (T2 : settled e2 (meet (uses x) s1)).
  { eapply settled_prior; [|exact H]. unfold addr_end_break. stab. }
  assert (T1 : settled e1 s1).
  { eapply (settled_stable _ []); [|apply ordered_uses|exact T2]. unfold e2, addr_end_condition. stab. }
  assert (G1 : grows ea (tk s b) (declares s) e1).
  { eapply (Q1 ea); eauto using pos_stable, tidy_stable, in_table_stable. }
  pose proof (grows_size _ _ _ _ G1) as L1. change (mem_size ea) with b in L1.
  apply grows_end_condition in G1; [|reflexivity|exact N]. rewrite L1 in G1. fold e2 in G1. set (kb := tk s b) in *.
  assert (G2 : grows ea (((setC (b + zlen kb) kb ++ map W (comp x Value (b + zlen kb))) ++ map W [IC_BNE0]) ++ map W [b]) (declares s)
                (mem_add (mem_add (snd (emit c x Value e2)) IC_BNE0) b)).
  { apply grows_add, grows_add. pose proof (grows_value x Value _ _ _ _ ltac:(assumption) (settled_uses _ _ _ T2) G1) as G.
    rewrite zlen_setC in G. exact G. }
  set (kx := comp x Value (b + zlen kb)) in *. set (T := kb ++ map W (kx ++ [IC_BNE0; b])).
  replace (((setC (b + zlen kb) kb ++ map W kx) ++ map W [IC_BNE0]) ++ map W [b]) with (setC (b + zlen kb) T) in G2
    by (unfold T; rewrite setC_app, setC_W, map_app, <- !app_assoc; reflexivity).
  pose proof (grows_size _ _ _ _ G2) as L2. rewrite zlen_setC in L2. change (mem_size ea) with b in L2.
  apply grows_end_break in G2; [|reflexivity|exact N]. rewrite L2, filled in G2.
  exact (grows_close e _ _ _ _ _ G2).
Qed.

Lemma emits_for init x next s : (forall s', init = Some s' -> emits_stmt s') -> emits_stmt s -> emits_stmt (SFor init x next s).
Proof.
  intros Q0 Q1 e seen seen' S O I N P H. cbn [CodeSpec.supported_stmt order declares emit_statement size toks] in *. cbv zeta in *. ands.
  apply in_table_app in I. destruct I as [I0 I1].
  destruct (match init with Some s' => order seen s' | None => Some seen end) as [s0|] eqn:O0; [|discriminate O]. cbn [bind] in O.
  destruct (order (meet (opt_uses x) s0) s) as [s1|] eqn:O1; [|discriminate O]. cbn [bind] in O. injection O as <-.
  unfold emit_expression, emit_void_expression in *. set (b := mem_size e) in *.
  set (ids0 := match init with Some s' => declares s' | None => [] end) in *.
  set (ki := match init with Some s' => tk s' b | None => [] end) in *.
  set (e0 := match init with Some s' => emit_statement c s' e | None => e end) in *.
  assert (S0 : stable e ids0 e0).
  { unfold ids0, e0. destruct init; [apply stable_ok; assumption|apply stable_refl]. }
  set (ea := set_break (set_cond e0 0) 0) in *.
  set (e1 := match x with
       | Some x => mem_add (set_break (mem_add (snd (emit c x Value ea)) IC_BE0) (mem_size (mem_add (snd (emit c x Value ea)) IC_BE0))) 0
       | None => ea end) in *.
  assert (Sa : stable e0 [] ea) by (unfold ea; stab).
  assert (S1 : stable ea [] e1) by (unfold e1; destruct x; stab).
  assert (I1' : in_table e1 (declares s)) by exact (in_table_stable _ _ _ _ S1 (in_table_stable _ _ _ _ Sa (in_table_stable _ _ _ _ S0 I1))).
  assert (S2 : stable e1 (declares s) (emit_statement c s e1)) by (apply stable_ok; assumption).
  set (e2 := emit_statement c s e1) in *. set (e3 := addr_end_condition e2) in *.
  assert (S3 : stable e2 [] e3) by (unfold e3, addr_end_condition; stab).
  assert (T3 : settled e3 (meet (opt_uses next) s1)).
  { eapply settled_prior; [|exact H]. unfold addr_end_break. destruct next; stab. }
  assert (T2 : settled e2 s1) by (eapply (settled_stable _ []); [exact S3|apply ordered_uses|exact T3]).
  assert (T1 : settled ea (meet (opt_uses x) s0)).
  { eapply (settled_stable _ (declares s)); [|apply order_ok; exact O1|exact T2]. eapply (stable_trans _ []); eassumption. }
  assert (T0 : settled e0 s0) by (eapply (settled_stable _ []); [exact Sa|apply ordered_uses|exact T1]).
  assert (G0 : grows e ki ids0 e0).
  { unfold ki, ids0, e0 in *. destruct init as [s'|]; [eapply Q0; eauto|apply grows_refl]. }
  pose proof (grows_size _ _ _ _ G0) as L0. fold b in L0. change (mem_size e0) with (mem_size ea) in L0. set (b1 := mem_size ea) in *. rewrite <- L0.
  assert (Nb : 0 < b1) by (unfold b1; eauto using pos_stable).
  set (kx := match x with Some x => map W (comp x Value b1 ++ [IC_BE0]) ++ [HB] | None => [] end) in *.
  assert (G1 : grows ea kx [] e1).
  { unfold kx, e1. destruct x as [x|]; [|apply grows_refl]. change (@nil Z) with (@nil Z ++ []). eapply grows_trans.
    - rewrite map_app. apply grows_add, grows_expression; [assumption|eapply settled_uses; exact T1].
    - apply grows_hole. rewrite emit_at; [reflexivity|assumption|exact (settled_uses _ _ _ T1)]. }
  pose proof (grows_size _ _ _ _ G1) as L1. fold b1 in L1.
  assert (G2 : grows e1 (tk s (mem_size e1)) (declares s) e2).
  { eapply (Q1 e1); eauto using pos_stable, tidy_stable. }
  rewrite L1 in G2. set (kb := tk s (b1 + zlen kx)) in *.
  pose proof (grows_trans _ _ _ _ _ _ _ G1 G2) as G3. cbn [app] in G3.
  pose proof (grows_size _ _ _ _ G3) as L3. fold b1 in L3. rewrite zlen_app, Z.add_assoc in L3.
  apply grows_end_condition in G3; [|reflexivity|exact Nb]. fold e3 in G3. rewrite L3 in G3.
  set (b3 := b1 + zlen kx + zlen kb) in *.
  set (kn := match next with Some y => comp y Void b3 | None => [] end) in *.
  set (e4 := match next with Some y => snd (emit c y Void e3) | None => e3 end) in *.
  assert (G4 : grows ea (setC b3 (kx ++ kb) ++ map W kn) (declares s) e4).
  { unfold e4, kn. destruct next as [y|]; [|rewrite app_nil_r; exact G3].
    pose proof (grows_value y Void _ _ _ _ ltac:(assumption) (settled_uses _ _ _ T3) G3) as G. rewrite zlen_setC, zlen_app in G. fold b1 in G.
    rewrite Z.add_assoc in G. exact G. }
  set (T := kx ++ kb ++ map W (kn ++ [IC_B; b1])) in *.
  assert (G5 : grows ea (setC b3 T) (declares s) (mem_add (mem_add e4 IC_B) b1)).
  { replace (setC b3 T) with (((setC b3 (kx ++ kb) ++ map W kn) ++ map W [IC_B]) ++ map W [b1]).
    - apply grows_add, grows_add. exact G4.
    - unfold T. rewrite !setC_app, setC_W, map_app, <- !app_assoc. reflexivity. }
  pose proof (grows_size _ _ _ _ G5) as L5. rewrite zlen_setC in L5. fold b1 in L5.
  apply grows_end_break in G5; [|reflexivity|exact Nb]. rewrite L5, filled in G5. apply grows_close in G5.
  apply grows_frame. eapply grows_trans; [exact G0|exact G5].
Qed.

Lemma emits_switch x ss : (forall s, In s ss -> supported_labelled s = true -> emits_stmt (inner s)) -> emits_stmt (SSwitch x (SCompound ss)).
Proof.
  intros Q e seen seen' S O I N P H. cbn [CodeSpec.supported_stmt order declares emit_statement size toks] in *. cbv zeta in *. ands.
  unfold computed in *. ands. match goal with H : forallb _ ss = true |- _ => rewrite forallb_forall in H; rename H into Hs end.
  assert (Hl : forall s, In s ss -> supported_labelled s = true) by exact Hs. clear Hs.
  unfold emit_expression in *. set (b := mem_size e) in *. set (kx := comp x Value b) in *.
  set (ea := set_case (set_break e 0) 0) in *. set (e1 := snd (emit c x Value ea)) in *.
  set (e2 := fold_left (fun e s => emit_statement c s e) ss e1) in *.
  assert (S1 : stable e [] e1) by (unfold e1, ea; stab).
  assert (I1 : in_table e1 (flat_map declares ss)) by (eapply in_table_stable; eassumption).
  assert (S2 : stable e1 (flat_map declares ss) e2).
  { apply (stable_all (fun s e => emit_statement c s e)); [|exact I1]. intros s Is. apply (stable_stmt _ s (Nat.lt_succ_diag_r _)). auto. }
  assert (T2 : settled e2 seen').
  { eapply settled_prior; [|exact H]. unfold addr_end_break. stab. destruct (0 <? _); stab. }
  assert (Oo : ordered (flat_map declares ss) (meet (uses x) seen) seen').
  { apply (in_order_ordered (fun seen s => order seen s) declares); auto. intros s _ q q'. apply order_ok. }
  assert (T1 : settled ea (meet (uses x) seen)).
  { eapply (settled_stable _ (flat_map declares ss)); [|exact Oo|exact T2]. eapply (stable_trans _ []); [|exact S2]. unfold e1. stab. }
  assert (G1 : grows ea (map W kx) [] e1) by (apply grows_expression; [assumption|eapply settled_uses; exact T1]).
  pose proof (grows_size _ _ _ _ G1) as L1. rewrite zlen_map in L1. change (mem_size ea) with b in L1.
  assert (A1 : e_case e1 = 0) by (destruct G1 as (_ & _ & _ & -> & _); reflexivity).
  pose proof (pos_stable _ _ _ S1 N) as N1.
  assert (G2 := emits_body ss (fun s Is => conj (Hl s Is) (Q s Is (Hl s Is))) e1 _ _ O I1 N1 (tidy_stable _ _ _ S1 P) ltac:(lia) T2).
  fold e2 in G2. rewrite L1 in G2. set (T := tok_body disp tk ss (b + zlen kx)) in *.
  replace (opened e1 (lead_end tk ss (b + zlen kx))) with (set_case e1 0) in G2 by (unfold opened; rewrite A1; reflexivity).
  apply (grows_case _ _ _ _ 0) in G1. change (set_case ea 0) with ea in G1.
  match goal with |- grows _ _ _ (set_break (set_case (addr_end_break ?z) _) _) => set (e3 := z) end.
  assert (E3 : e3 = set_displ (finish e2) (e_displ e1)).
  { unfold e3, finish. change (e_case (set_displ e2 (e_displ e1))) with (e_case e2). destruct (0 <? e_case e2); reflexivity. }
  assert (G3 : grows (set_case e1 0) T (flat_map declares ss) (set_case e3 0)).
  { rewrite E3. change (set_case (set_displ (finish e2) (e_displ e1)) 0) with (set_displ (set_case (finish e2) 0) (e_displ e1)). apply grows_frame, G2. }
  pose proof (grows_size _ _ _ _ G3) as L3. change (mem_size (set_case e1 0)) with (mem_size e1) in L3. rewrite L1 in L3.
  assert (B1 : e_break (set_case e1 0) = 0) by (destruct G1 as (_ & -> & _); rewrite headB_W; reflexivity).
  apply grows_end_break in G3; [|exact B1|exact N1]. rewrite L3 in G3.
  pose proof (grows_trans _ _ _ _ _ _ _ G1 G3) as G4. cbn [app] in G4.
  destruct G4 as (M & B & K & A & P4 & G & D & F).
  assert (X : addr_end_break (set_case e3 0) = set_case (addr_end_break e3) 0).
  { unfold addr_end_break, patched, mem_size. cbn. destruct (patch_chain _ _ _ _ _); reflexivity. }
  rewrite X in M, B, K, A, P4, G, D, F. clear X H G3. set (e4 := addr_end_break e3) in *. clearbody e4.
  unfold grows, displacements_get in *. change (mem_size ea) with b in *.
  cbn [e_mem e_break e_cond e_case e_procs e_hung e_displs set_case set_break set_jumps ea] in *.
  rewrite M, K. repeat split; auto.
  - rewrite !raw_app. rewrite !headB_W, !headC_W, !raw_W.
    f_equal. f_equal. apply raw_setB.
  - rewrite headB_app, headB_W, headB_setB. reflexivity.
Qed.

Theorem emits_every : forall n s, (size s < n)%nat -> emits_stmt s.
Proof.
  induction n as [|n IH]; intros s L; [lia|].
  destruct s; cbn [size] in L.
  - apply emits_decls.
  - intros ? ? ? S. discriminate S.
  - intros ? ? ? S. discriminate S.
  - intros e seen seen' S O I N P H. cbn [CodeSpec.supported_stmt order declares emit_statement toks] in *. cbv zeta in *. rewrite forallb_forall in S.
    apply grows_frame. apply (emits_seq (fun s e => emit_statement c s e) tk declares order) with (seen := seen) (seen' := seen'); auto.
    + intros s Is. apply stable_ok. auto.
    + intros s _. apply order_ok.
    + intros s Is e0 q q' O' I' N' P' H'. eapply (IH s); eauto. apply size_in in Is. lia.
  - rename e into x0. intros e seen seen' S O I N P H. cbn [CodeSpec.supported_stmt order declares emit_statement toks] in *. injection O as <-.
    apply grows_expression; [exact S|]. eapply settled_uses, keep_settled; eassumption.
  - intros e seen seen' S O I N P H. apply grows_refl.
  - apply emits_if; [apply IH; lia|]. intros s' ->. apply IH. lia.
  - destruct s; try (intros ? ? ? S; discriminate S). apply emits_switch. intros s Is _. apply IH. apply size_in in Is. cbn [size] in L.
    assert (size (inner s) <= size s)%nat by (destruct s; cbn; lia). lia.
  - apply emits_while, IH. lia.
  - apply emits_do, IH. lia.
  - apply emits_for; [|apply IH; lia]. intros s' ->. apply IH. lia.
  - intros e seen seen' S O I N P H. unfold grows, mem_size, displacements_get. cbn. unfold lv_add. rewrite <- app_assoc. cbn.
    repeat split; auto. unfold mem_size. cbn [e_mem mem_add set_mem]. unfold lv_add. rewrite !zlen_app, !zlen_cons, !znil. lia.
  - intros e seen seen' S O I N P H. unfold grows, mem_size, displacements_get. cbn. unfold lv_add. rewrite <- app_assoc. cbn.
    repeat split; auto. unfold mem_size. cbn [e_mem mem_add set_mem]. unfold lv_add. rewrite !zlen_app, !zlen_cons, !znil. lia.
  - rename e into e0. intros e seen seen' S O I N P H. cbn [CodeSpec.supported_stmt order declares emit_statement toks opt_uses] in *. injection O as <-. destruct e0 as [x|].
    + unfold computed in S. ands. unfold emit_expression. rewrite map_app. change (map W [IC_RETURN_VAL; size_of (type_of x)]) with (map W [IC_RETURN_VAL] ++ map W [size_of (type_of x)]).
      rewrite app_assoc. apply grows_add, grows_add, grows_expression; [assumption|]. eapply settled_uses, keep_settled; [eassumption|].
      eapply settled_prior; [|exact H]. unfold emit_expression. stab.
    + apply (grows_words _ [IC_RETURN_VOID]). reflexivity.
Qed.
End Emit.

(** Proofs: from the encoder to the machine. *)
From Verif Require Import Prelude LVec TypesModel TypesSpec LexModel ParseModel InstrModel BuildModel BuildFold CodeModel VmSpec CodeSpec CodeExpr CodeRun CodeStmt CodeEmit CodeSim.

(** ** No jump leaves the statement *)
Definition plainB (T : list tok) : Prop := forall t, In t T -> t <> HB.
Definition plainC (T : list tok) : Prop := forall t, In t T -> t <> HC.
Lemma plainB_app T U : plainB T -> plainB U -> plainB (T ++ U).
Proof. intros A B t I. apply in_app_or in I. destruct I; auto. Qed.
Lemma plainC_app T U : plainC T -> plainC U -> plainC (T ++ U).
Proof. intros A B t I. apply in_app_or in I. destruct I; auto. Qed.
Lemma plainB_W l : plainB (map W l).
Proof. intros t I. apply in_map_iff in I. destruct I as (x & <- & _). discriminate. Qed.
Lemma plainC_W l : plainC (map W l).
Proof. intros t I. apply in_map_iff in I. destruct I as (x & <- & _). discriminate. Qed.
Lemma plainB_setB v T : plainB (setB v T).
Proof. intros t I. apply in_map_iff in I. destruct I as ([] & <- & _); discriminate. Qed.
Lemma plainC_setB v T : plainC T -> plainC (setB v T).
Proof. intros P t I. apply in_map_iff in I. destruct I as ([] & <- & I); try discriminate. exfalso. exact (P _ I eq_refl). Qed.
Lemma plain_raw T : plainB T -> plainC T -> forall p hb hc B K, raw T p hb hc = fill B K T.
Proof.
  induction T as [|t T IH]; intros PB PC p hb hc B K; [reflexivity|].
  assert (I : forall p hb hc, raw T p hb hc = fill B K T).
  { intros. apply IH; intros u U; [apply PB|apply PC]; right; exact U. }
  destruct t; cbn; [f_equal; apply I|exfalso; exact (PB HB (or_introl eq_refl) eq_refl)|exfalso; exact (PC HC (or_introl eq_refl) eq_refl)].
Qed.
Lemma plain_all {A} (f : A -> Z -> list tok) (P : list tok -> Prop) l :
  P [] -> (forall T U, P T -> P U -> P (T ++ U)) -> (forall x, In x l -> forall b, P (f x b)) -> forall b, P (tok_all f l b).
Proof.
  intros P0 PA. induction l as [|x l IH]; intros H b; cbn [tok_all]; [exact P0|]. apply PA; [apply H; left; reflexivity|]. apply IH. intros y Y. apply H. right. exact Y.
Qed.
Lemma plain_body disp (f : stmt -> Z -> list tok) (P : list tok -> Prop) ss :
  P [] -> (forall T U, P T -> P U -> P (T ++ U)) -> (forall l, P (map W l)) -> (forall s, In s ss -> forall b, P (f (inner s) b)) -> forall b, P (tok_body disp f ss b).
Proof.
  intros P0 PA PW. induction ss as [|x l IH]; intros H b; [exact P0|].
  assert (T : forall b, P (tok_body disp f l b)) by (intros; apply IH; intros y Y; apply H; right; exact Y).
  pose proof (H x (or_introl eq_refl)) as Hx. destruct x; cbn [tok_body inner] in *; cbv zeta; auto.
Qed.

Section Plain.
Variable c : ctx.
Variable disp : Z -> Z.
Lemma plain_decl d b : plainB (tok_decl disp d b) /\ plainC (tok_decl disp d b).
Proof.
  assert (E : exists l, tok_decl disp d b = map W l) by (destruct d as [? ? [x|]|]; [eexists; reflexivity|exists []; reflexivity|exists []; reflexivity]).
  destruct E as [l ->]. split; [apply plainB_W|apply plainC_W].
Qed.

Lemma jumps_inner brk cont s : jumps_ok brk cont (inner s) = jumps_ok brk cont s.
Proof. destruct s; reflexivity. Qed.

Lemma plain_B : forall n s, (size s < n)%nat -> forall cont b, jumps_ok false cont s = true -> plainB (toks disp s b).
Proof.
  induction n as [|n IH]; intros s L cont b J; [lia|]. destruct s; cbn [jumps_ok toks size] in *; cbv zeta; try (apply plainB_W); try (apply (plainB_W [])).
  - apply (plain_all _ plainB); [apply (plainB_W [])|apply plainB_app|]. intros d _ b'. apply plain_decl.
  - rewrite forallb_forall in J. apply (plain_all _ plainB); [apply (plainB_W [])|apply plainB_app|]. intros s Is b'. eapply IH; [|exact (J s Is)]. apply size_in in Is. lia.
  - apply andb_prop in J. destruct J as [J1 J2]. destruct other as [s'|].
    + apply plainB_app; [apply plainB_W|]. apply plainB_app; [eapply IH; [lia|exact J1]|]. apply (plainB_app (map W _)); [apply plainB_W|]. eapply IH; [lia|exact J2].
    + apply plainB_app; [apply plainB_W|]. eapply IH; [lia|exact J1].
  - destruct s; try (apply (plainB_W [])). apply plainB_app; [apply plainB_W|apply plainB_setB].
  - apply andb_prop in J. destruct J as [J1 J2]. apply plainB_app; [|apply plainB_W]. destruct init; [eapply IH; [lia|exact J1]|apply (plainB_W [])].
  - intros t [<-|[<-|[]]]; discriminate.
  - discriminate J.
  - destruct e; [apply plainB_W|]. apply (plainB_W [IC_RETURN_VOID]).
Qed.
Lemma plain_C : forall n s, (size s < n)%nat -> forall brk b, jumps_ok brk false s = true -> plainC (toks disp s b).
Proof.
  induction n as [|n IH]; intros s L brk b J; [lia|]. destruct s; cbn [jumps_ok toks size] in *; cbv zeta; try (apply plainC_W); try (apply (plainC_W [])).
  - apply (plain_all _ plainC); [apply (plainC_W [])|apply plainC_app|]. intros d _ b'. apply plain_decl.
  - rewrite forallb_forall in J. apply (plain_all _ plainC); [apply (plainC_W [])|apply plainC_app|]. intros s Is b'. eapply IH; [|exact (J s Is)]. apply size_in in Is. lia.
  - apply andb_prop in J. destruct J as [J1 J2]. destruct other as [s'|].
    + apply plainC_app; [apply plainC_W|]. apply plainC_app; [eapply IH; [lia|exact J1]|]. apply (plainC_app (map W _)); [apply plainC_W|]. eapply IH; [lia|exact J2].
    + apply plainC_app; [apply plainC_W|]. eapply IH; [lia|exact J1].
  - destruct s; try (apply (plainC_W [])). apply plainC_app; [apply plainC_W|apply plainC_setB]. cbn [jumps_ok] in J. rewrite forallb_forall in J. cbn [size] in L.
    apply (plain_body _ _ plainC); [apply (plainC_W [])|apply plainC_app|apply plainC_W|]. intros s Is b'.
    apply (IH (inner s)) with (brk := true); [apply size_in in Is; assert (size (inner s) <= size s)%nat by (destruct s; cbn; lia); lia|].
    rewrite jumps_inner. exact (J s Is).
  - apply andb_prop in J. destruct J as [J1 J2]. apply plainC_app; [|apply plainC_W]. destruct init; [eapply IH; [lia|exact J1]|apply (plainC_W [])].
  - discriminate J.
  - intros t [<-|[<-|[]]]; discriminate.
  - destruct e; [apply plainC_W|]. apply (plainC_W [IC_RETURN_VOID]).
Qed.
End Plain.

(** ** Expressions *)
Lemma expression_runs c e n rest w lay st m v m' (disp := displacements_get e) (e' := emit_expression c n e) :
  supported c disp n Value = true -> value_of w (fun id => address_of lay (disp id)) n m = Some (v, m') ->
  exists v', runs w lay (e_mem e' ++ rest) (mkVm (mem_size e) st m) (mkVm (mem_size e') (v' :: st) m')
             /\ (v' = 0 <-> v = 0) /\ (exact_value n = true -> v' = v).
Proof.
  intros S V. assert (E : e' = set_mem e (e_mem e ++ comp disp n Value (mem_size e))) by (apply (emits_all c disp n Value e S); reflexivity).
  destruct (good_all w lay (e_mem e' ++ rest) c disp n Value m v m' (mem_size e) st S) as (v' & R & L); [|exact V|].
  - exists (e_mem e), rest. rewrite E. cbn. rewrite <- app_assoc. auto.
  - exists v'. split; [|exact (conj (proj1 L) (proj1 (proj2 L)))]. replace (mem_size e') with (mem_size e + zlen (comp disp n Value (mem_size e))); [exact R|].
    rewrite E. unfold mem_size. cbn. rewrite zlen_app. reflexivity.
Qed.
Lemma void_runs c e n rest w lay st m v m' (disp := displacements_get e) (e' := emit_void_expression c n e) :
  supported c disp n Void = true -> value_of w (fun id => address_of lay (disp id)) n m = Some (v, m') ->
  runs w lay (e_mem e' ++ rest) (mkVm (mem_size e) st m) (mkVm (mem_size e') st m').
Proof.
  intros S V. assert (E : e' = set_mem e (e_mem e ++ comp disp n Void (mem_size e))) by (apply (emits_all c disp n Void e S); reflexivity).
  assert (R := good_all w lay (e_mem e' ++ rest) c disp n Void m v m' (mem_size e) st S).
  replace (mem_size e') with (mem_size e + zlen (comp disp n Void (mem_size e))); [apply R; [|exact V]|].
  - exists (e_mem e), rest. rewrite E. cbn. rewrite <- app_assoc. auto.
  - rewrite E. unfold mem_size. cbn. rewrite zlen_app. reflexivity.
Qed.

(** ** Statements *)
Lemma jumps_stay w at_ :
  (forall s m o m', exec w at_ s m o m' -> forall brk cont, jumps_ok brk cont s = true -> (o = OBreak -> brk = true) /\ (o = OContinue -> cont = true))
  /\ (forall ss m o m', exec_all w at_ ss m o m' -> forall brk cont, forallb (jumps_ok brk cont) ss = true -> (o = OBreak -> brk = true) /\ (o = OContinue -> cont = true))
  /\ (forall ds m m', exec_decls w at_ ds m m' -> True)
  /\ (forall x next s m o m', exec_for w at_ x next s m o m' -> forall brk cont, jumps_ok true true s = true -> (o = OBreak -> brk = true) /\ (o = OContinue -> cont = true)).
Proof.
  assert (sel : forall p l ss r, from_first p ss = Some r -> forallb l ss = true -> forallb (A := stmt) l r = true).
  { intros p l. induction ss as [|s ss IH]; intros r; cbn; [discriminate|]. destruct (p s); [intros [= <-] H; exact H|]. intros E H. apply andb_prop in H. destruct H. auto. }
  apply (exec_together w at_ (fun s m o m' => forall brk cont, jumps_ok brk cont s = true -> (o = OBreak -> brk = true) /\ (o = OContinue -> cont = true))
    (fun ss m o m' => forall brk cont, forallb (jumps_ok brk cont) ss = true -> (o = OBreak -> brk = true) /\ (o = OContinue -> cont = true))
    (fun ds m m' => True) (fun x next s m o m' => forall brk cont, jumps_ok true true s = true -> (o = OBreak -> brk = true) /\ (o = OContinue -> cont = true)));
    cbn [jumps_ok forallb]; intros; auto; try (split; congruence);
    repeat match goal with H : _ && _ = true |- _ => apply andb_prop in H; destruct H end; auto.
  - assert (Q : (o = OBreak -> true = true) /\ (o = OContinue -> cont = true)).
    { apply H1. unfold select. destruct (from_first (has_case v) ss) as [r|] eqn:E; [eapply sel; eassumption|].
      destruct (from_first has_default ss) as [r|] eqn:E2; [eapply sel; eassumption|reflexivity]. }
    destruct Q as [_ Q]. destruct o; split; try congruence; auto.
  - destruct o; try discriminate; split; congruence.
  - destruct o; try discriminate; split; congruence.
  - destruct o; try discriminate; split; congruence.
Qed.

Lemma code_of_raw e e' T ids rest C : grows e T ids e' -> C = e_mem e' ++ rest -> plainB T -> plainC T -> forall B K, code_at C (mem_size e) (fill B K T).
Proof.
  intros (M & _) -> PB PC B K. exists (e_mem e), rest. rewrite M, (plain_raw T PB PC _ _ _ B K), <- app_assoc. auto.
Qed.

Lemma statement_runs_at c e s seen seen' C w lay st m o m' (e' := emit_statement c s e) (disp := displacements_get e') :
  supported_stmt c disp s = true -> jumps_ok false false s = true -> order seen s = Some seen' ->
  (forall id, In id (declares s) -> 0 <= id < zlen (e_displs e)) -> 0 < mem_size e -> tidy_procs e ->
  (forall T, e_mem e' = e_mem e ++ T -> code_at C (mem_size e) T) ->
  exec w (fun id => address_of lay (disp id)) s m o m' ->
  reaches w lay C (no_switch s) (mem_size e') o st (mkVm (mem_size e) st m) m'.
Proof.
  intros S J O I N P HC X.
  assert (G : grows e (toks disp s (mem_size e)) (declares s) e').
  { apply (emits_every c disp _ s (Nat.lt_succ_diag_r _)) with (seen := seen) (seen' := seen'); auto. intros id _. reflexivity. }
  assert (A : code_at C (mem_size e) (fill 0 0 (toks disp s (mem_size e)))).
  { apply HC. rewrite (proj1 G). f_equal. apply plain_raw; [eapply (plain_B disp _ s (Nat.lt_succ_diag_r _))|eapply (plain_C disp _ s (Nat.lt_succ_diag_r _))]; exact J. }
  destruct (unlabelled c disp s 0 S) as (_ & _ & U).
  pose proof (proj1 (simulated w lay C c disp) s m o m' X (mem_size e) 0 0 st) as L. rewrite U in L. specialize (L S A).
  rewrite <- (grows_size _ _ _ _ G) in L. destruct (proj1 (jumps_stay _ _) s m o m' X false false J) as [NB NC].
  destruct L as (j & Jq & L). exists j. split; [exact Jq|]. destruct o as [| | |[v|]]; try exact L.
  - specialize (NB eq_refl). discriminate NB.
  - specialize (NC eq_refl). discriminate NC.
  - destruct L as (p & n & k & A' & R). exists p. split; [exact (at_head _ _ _ _ A')|exact R].
  - destruct L as (p & k & A' & R). exists p. split; [exact (at_head _ _ _ _ A')|exact R].
Qed.
Lemma statement_runs c e s seen seen' rest w lay st m o m' (e' := emit_statement c s e) (disp := displacements_get e') :
  supported_stmt c disp s = true -> jumps_ok false false s = true -> order seen s = Some seen' ->
  (forall id, In id (declares s) -> 0 <= id < zlen (e_displs e)) -> 0 < mem_size e -> tidy_procs e ->
  exec w (fun id => address_of lay (disp id)) s m o m' ->
  reaches w lay (e_mem e' ++ rest) (no_switch s) (mem_size e') o st (mkVm (mem_size e) st m) m'.
Proof.
  intros S J O I N P X. eapply statement_runs_at; eauto. intros T E. exists (e_mem e), rest. unfold e'. rewrite E, <- app_assoc. auto.
Qed.

(** ** Functions *)
Lemma patch_chain_size fuel : forall m addr stop v m', patch_chain fuel m addr stop v = Some m' -> zlen m' = zlen m.
Proof.
  induction fuel as [|n IH]; intros m a s v m'; cbn; destruct (a =? s); intros H; [congruence|discriminate|congruence|].
  rewrite (IH _ _ _ _ _ H), zlen_lv_set. reflexivity.
Qed.
Lemma functions_add_frame c e id a : let e' := functions_add c e id a in
  zlen (e_mem e') = zlen (e_mem e) /\ e_procs e' = e_procs e /\ zlen (e_displs e') = zlen (e_displs e).
Proof.
  cbv zeta. unfold functions_add, patched. set (e1 := set_displs _ _).
  assert (zlen (e_mem e1) = zlen (e_mem e) /\ e_procs e1 = e_procs e /\ zlen (e_displs e1) = zlen (e_displs e)) as H.
  { subst e1. cbn. rewrite zlen_lv_set. auto. }
  clearbody e1. destruct (_ <? 0); [|exact H]. destruct (patch_chain _ _ _ _ _) eqn:P; [|exact H]. apply patch_chain_size in P. cbn. rewrite P. exact H.
Qed.
Lemma params_frame c params : forall e, let e' := fold_left (fun e p => snd (displacements_add c e p)) params e in
  e_mem e' = e_mem e /\ e_procs e' = e_procs e /\ zlen (e_displs e') = zlen (e_displs e).
Proof.
  induction params as [|p l IH]; intros e; cbn [fold_left]; [auto|]. cbv zeta in *. destruct (IH (snd (displacements_add c e p))) as (A & B & D).
  rewrite A, B, D. unfold displacements_add. destruct (e_params e); cbn; rewrite zlen_lv_set; auto.
Qed.

Definition header (c : ctx) (id : Z) (params : list Z) (e : enc) : enc :=
  let e := functions_add c e id (mem_size e) in
  let e := set_frame (set_params e (Some params)) DISPL_START DISPL_START (e_max_global e) in
  let e := fold_left (fun e p => snd (displacements_add c e p)) params e in
  mem_reserve (mem_reserve (mem_add e IC_FUNC_BEG)).
Lemma header_frame c id params e (e1 := header c id params e) :
  (exists m, zlen m = mem_size e /\ e_mem e1 = m ++ [IC_FUNC_BEG; 0; 0]) /\ e_procs e1 = e_procs e /\ zlen (e_displs e1) = zlen (e_displs e).
Proof.
  unfold e1, header. cbv zeta. set (e2 := functions_add _ _ _ _). destruct (functions_add_frame c e id (mem_size e)) as (A & B & D). fold e2 in A, B, D.
  set (e3 := set_frame _ _ _ _). destruct (params_frame c params e3) as (A' & B' & D'). set (e4 := fold_left _ _ e3) in *. clearbody e4.
  cbn. unfold lv_add. rewrite A', B', D'. subst e3. cbn. split; [exists (e_mem e2); split; [exact A|rewrite <- !app_assoc; reflexivity]|auto].
Qed.

Lemma mem_size_add e v : mem_size (mem_add e v) = mem_size e + 1.
Proof. unfold mem_size. cbn. apply zlen_lv_add. Qed.
Lemma function_shape c id params body e (e1 := header c id params e) (e2 := mem_add (emit_statement c body e1) IC_RETURN_VOID) :
  emit_function_definition c id params body e
  = set_params (mem_set (mem_set e2 (mem_size e1 - 2) (e_max_local e2)) (mem_size e1 - 1) (mem_size e2)) None.
Proof.
  subst e1 e2. unfold emit_function_definition, header. cbv zeta. set (e3 := fold_left _ params _). clearbody e3.
  set (e2 := mem_add (emit_statement _ _ _) _). clearbody e2. unfold mem_reserve. rewrite !mem_size_add.
  replace (mem_size e3 + 1 + 1 + 1 - 2) with (mem_size e3 + 1) by lia. replace (mem_size e3 + 1 + 1 + 1 - 1) with (mem_size e3 + 1 + 1) by lia.
  do 2 f_equal. unfold mem_size. cbn. rewrite zlen_lv_set. reflexivity.
Qed.
Lemma app_snoc {A} (l : list A) x r : l ++ x :: r = (l ++ [x]) ++ r.
Proof. rewrite <- app_assoc. reflexivity. Qed.
Lemma lv_set_at pre x y post i : i = zlen pre -> lv_set (pre ++ x :: post) i y = pre ++ y :: post.
Proof. intros ->. unfold lv_set. rewrite zupd_app2 by lia. rewrite Z.sub_diag. reflexivity. Qed.

Lemma function_runs c id params body e seen seen' rest w lay st m o m'
  (e' := emit_function_definition c id params body e) (disp := displacements_get e') :
  supported_stmt c disp body = true -> jumps_ok false false body = true -> order seen body = Some seen' ->
  (forall i, In i (declares body) -> 0 <= i < zlen (e_displs e)) -> tidy_procs e ->
  (znth (e_mem e') (mem_size e) = Some IC_FUNC_BEG /\ znth (e_mem e') (mem_size e + 1) = Some (e_max_local e')
   /\ znth (e_mem e') (mem_size e + 2) = Some (mem_size e') /\ znth (e_mem e') (mem_size e' - 1) = Some IC_RETURN_VOID)
  /\ (exec w (fun id => address_of lay (disp id)) body m o m' ->
      reaches w lay (e_mem e' ++ rest) (no_switch body) (mem_size e' - 1) o st (mkVm (mem_size e + 3) st m) m').
Proof.
  intros S J O I P. destruct (header_frame c id params e) as ((pre & Lp & M) & Pr & Ds).
  assert (FS := function_shape c id params body e). cbv zeta in FS. fold e' in FS.
  set (e1 := header c id params e) in *. set (e2 := emit_statement c body e1) in *.
  assert (N1 : mem_size e1 = mem_size e + 3) by (unfold mem_size at 1; rewrite M, zlen_app, Lp, !zlen_cons, zlen_nil; lia).
  pose proof (zlen_nonneg (e_mem e)) as Nz. change (zlen (e_mem e)) with (mem_size e) in Nz.
  assert (D' : forall i, displacements_get e2 i = disp i) by (unfold disp; rewrite FS; reflexivity).
  assert (ED : displacements_get e2 = disp) by (unfold disp; rewrite FS; reflexivity).
  assert (G : grows e1 (toks disp body (mem_size e1)) (declares body) e2).
  { apply (emits_every c disp _ body (Nat.lt_succ_diag_r _)) with (seen := seen) (seen' := seen'); auto.
    - intros i Ii. rewrite Ds. auto.
    - lia.
    - unfold tidy_procs. rewrite Pr. exact P.
    - intros i _. apply D'. }
  destruct G as (Mem & _). set (T := raw _ _ _ _) in *.
  assert (L2 : mem_size e2 = mem_size e + 3 + zlen T) by (unfold mem_size at 1; rewrite Mem, zlen_app; change (zlen (e_mem e1)) with (mem_size e1); lia).
  assert (L' : mem_size e' = mem_size e2 + 1) by (rewrite FS; unfold mem_size; cbn; rewrite !zlen_lv_set, zlen_lv_add; reflexivity).
  assert (X : e_max_local e' = e_max_local e2) by (rewrite FS; reflexivity).
  assert (F : e_mem e' = (pre ++ [IC_FUNC_BEG; e_max_local e'; mem_size e']) ++ T ++ [IC_RETURN_VOID]).
  { rewrite X, L', FS. cbn. unfold lv_add. fold (mem_size e1). rewrite Mem, M, <- !app_assoc. cbn [app].
    rewrite (app_snoc pre IC_FUNC_BEG), lv_set_at by (rewrite zlen_app, Lp, N1, !zlen_cons, zlen_nil; lia). cbn [e_max_local mem_add set_mem].
    rewrite <- app_assoc. cbn [app]. replace (pre ++ IC_FUNC_BEG :: e_max_local e2 :: 0 :: T ++ [IC_RETURN_VOID]) with ((pre ++ [IC_FUNC_BEG; e_max_local e2]) ++ 0 :: T ++ [IC_RETURN_VOID]) by (rewrite <- app_assoc; reflexivity).
    rewrite lv_set_at by (rewrite zlen_app, Lp, N1, !zlen_cons, zlen_nil; lia). rewrite <- app_assoc. cbn [app]. rewrite mem_size_add. reflexivity. }
  split.
  - assert (A : code_at (e_mem e') (mem_size e) (IC_FUNC_BEG :: e_max_local e' :: mem_size e' :: T ++ [IC_RETURN_VOID])).
    { exists pre, []. rewrite F, app_nil_r, <- !app_assoc. auto. }
    split; [exact (at_head _ _ _ _ A)|]. apply at_tail in A. split; [exact (at_head _ _ _ _ A)|]. apply at_tail in A.
    replace (mem_size e + 1 + 1) with (mem_size e + 2) in A by lia. split; [exact (at_head _ _ _ _ A)|]. apply at_tail, at_app in A. destruct A as [_ A].
    replace (mem_size e' - 1) with (mem_size e + 2 + 1 + zlen T) by lia. exact (at_head _ _ _ _ A).
  - intros Ex. rewrite <- N1. replace (mem_size e' - 1) with (mem_size e2) by lia. eapply statement_runs_at; fold e2; rewrite ?ED; eauto.
    + intros i Ii. rewrite Ds. auto.
    + lia.
    + unfold tidy_procs. rewrite Pr. exact P.
    + intros U EU. rewrite Mem in EU. apply app_inv_head in EU. subst U. exists (pre ++ [IC_FUNC_BEG; e_max_local e'; mem_size e']), ([IC_RETURN_VOID] ++ rest).
      rewrite F, <- !app_assoc. split; [reflexivity|]. rewrite zlen_app, Lp, N1, !zlen_cons, zlen_nil. lia.
Qed.

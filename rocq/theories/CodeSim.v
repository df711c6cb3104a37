(** Proofs: the machine which runs the code of a statement does what the
    statement does. *)
From Verif Require Import Prelude LVec TypesModel TypesSpec LexModel ParseModel InstrModel BuildModel BuildFold CodeModel VmSpec CodeSpec CodeExpr CodeRun CodeStmt CodeEmit.

Scheme exec_mut := Minimality for exec Sort Prop
  with exec_all_mut := Minimality for exec_all Sort Prop
  with exec_decls_mut := Minimality for exec_decls Sort Prop
  with exec_for_mut := Minimality for exec_for Sort Prop.
Combined Scheme exec_together from exec_mut, exec_all_mut, exec_decls_mut, exec_for_mut.

Lemma fill_setB B K v T : fill B K (setB v T) = fill v K T.
Proof. unfold fill, setB. rewrite map_map. apply map_ext. intros []; reflexivity. Qed.

Section Sim.
Variable w : Z -> Z.
Variable lay : layout.
Variable C : list Z.
Variable c : ctx.
Variable disp : Z -> Z.
Notation at_ := (fun id => address_of lay (disp id)).
Notation comp := (comp disp).
Notation tk := (toks disp).
Notation runs := (runs w lay C).
Notation code_at := (code_at C).
Notation supported := (supported c disp).
Notation supported_stmt := (supported_stmt c disp).
Notation supported_labelled := (supported_labelled c disp).
Notation value_of := (value_of w at_).
Notation exec := (exec w at_).
Notation exec_all := (exec_all w at_).

(** Where the machine is afterwards: [e] after the statement, [B] and [K] are
    the targets of break and continue. *)
Definition lands (B K e : Z) (quiet : bool) (o : outcome) (st : list Z) (s : vm) (m : cells) : Prop :=
  exists j, (quiet = true -> j = []) /\
  match o with
  | ONext => runs s (mkVm e (j ++ st) m)
  | OBreak => runs s (mkVm B (j ++ st) m)
  | OContinue => runs s (mkVm K (j ++ st) m)
  | OReturn None => exists p k, code_at p (IC_RETURN_VOID :: k) /\ runs s (mkVm p (j ++ st) m)
  | OReturn (Some v) => exists p n k, code_at p (IC_RETURN_VAL :: n :: k) /\ runs s (mkVm p (v :: j ++ st) m)
  end.

Lemma lands_after B K e q o j st s s' m : runs s s' -> (q = true -> j = []) -> lands B K e q o (j ++ st) s' m -> lands B K e q o st s m.
Proof.
  intros R J (i & I & H). exists (i ++ j). split; [intros Q; rewrite (I Q), (J Q); reflexivity|].
  destruct o as [| | |[v|]]; rewrite <- ?app_assoc; try (eapply runs_trans; eassumption).
  - destruct H as (p & n & k & A & H). exists p, n, k. split; [exact A|]. eapply runs_trans; eassumption.
  - destruct H as (p & k & A & H). exists p, k. split; [exact A|]. eapply runs_trans; eassumption.
Qed.
Lemma lands_before B K e q o st s s' m : runs s s' -> lands B K e q o st s' m -> lands B K e q o st s m.
Proof. intros R H. eapply (lands_after _ _ _ _ _ []); [exact R|reflexivity|exact H]. Qed.
Lemma lands_weaken B K e q q' o st s m : (q' = true -> q = true) -> lands B K e q o st s m -> lands B K e q' o st s m.
Proof. intros I (j & J & H). exists j. split; auto. Qed.
Lemma lands_next B K e q st s m : runs s (mkVm e st m) -> lands B K e q ONext st s m.
Proof. intros R. exists []. auto. Qed.

(** ** Expressions in statements *)
Lemma value_at x b m v m' st : supported x Value = true -> code_at b (comp x Value b) -> value_of x m = Some (v, m') ->
  exists v', runs (mkVm b st m) (mkVm (b + zlen (comp x Value b)) (v' :: st) m') /\ like x v v'.
Proof. intros S A V. exact (good_all w lay C c disp x Value m v m' b st S A V). Qed.
Lemma effect_at x b m v m' st : supported x Void = true -> code_at b (comp x Void b) -> value_of x m = Some (v, m') ->
  runs (mkVm b st m) (mkVm (b + zlen (comp x Void b)) st m').
Proof. intros S A V. exact (good_all w lay C c disp x Void m v m' b st S A V). Qed.

(** The value is tested. *)
Lemma test_at x b m v m' st a k : supported x Value = true -> code_at b (comp x Value b ++ IC_BE0 :: a :: k) -> value_of x m = Some (v, m') ->
  runs (mkVm b st m) (mkVm (if v =? 0 then a else b + zlen (comp x Value b) + 2) st m').
Proof.
  intros S A V. apply at_app in A. destruct A as [A1 A2]. destruct (value_at x b m v m' st S A1 V) as (v' & R & (Lz & _)).
  eapply runs_trans; [exact R|]. apply runs_one. rewrite (go_be0 w lay C _ _ _ _ _ _ A2).
  destruct (v =? 0) eqn:E; destruct (v' =? 0) eqn:E'; try reflexivity; lia.
Qed.
Lemma again_at x b m v m' st a k : supported x Value = true -> code_at b (comp x Value b ++ IC_BNE0 :: a :: k) -> value_of x m = Some (v, m') ->
  runs (mkVm b st m) (mkVm (if v =? 0 then b + zlen (comp x Value b) + 2 else a) st m').
Proof.
  intros S A V. apply at_app in A. destruct A as [A1 A2]. destruct (value_at x b m v m' st S A1 V) as (v' & R & (Lz & _)).
  eapply runs_trans; [exact R|]. apply runs_one. rewrite (go_bne0 w lay C _ _ _ _ _ _ A2).
  destruct (v =? 0) eqn:E; destruct (v' =? 0) eqn:E'; try reflexivity; lia.
Qed.

(** ** Finding the label *)
Lemma unlabelled s v : supported_stmt s = true -> has_case v s = false /\ has_default s = false /\ inner s = s.
Proof. destruct s; try discriminate; intros _; auto. Qed.

Lemma no_labels ss v : (forall s, In s ss -> supported_labelled s = true) -> existsb is_label ss = false ->
  from_first (has_case v) ss = None /\ from_first has_default ss = None /\ forall q, tidy q ss = true.
Proof.
  induction ss as [|s ss IH]; intros H N; [auto|]. cbn [existsb] in N. apply orb_false_elim in N. destruct N as [N1 N2].
  destruct (IH (fun x X => H x (or_intror X)) N2) as (A & B & T). destruct s; cbn [from_first has_case has_default tidy]; try discriminate N1; auto.
Qed.

Definition entered (B K : Z) (fin : Z) (r : list stmt) (b : Z) : Prop :=
  match r with
  | [] => b = fin
  | s :: r => code_at b (fill B K (tk (inner s) b)) /\ code_at (b + zlen (tk (inner s) b)) (fill B K (tok_body disp tk r (b + zlen (tk (inner s) b))))
              /\ fin = b + zlen (tk (inner s) b) + zlen (tok_body disp tk r (b + zlen (tk (inner s) b))) /\ tidy (is_jump (inner s)) r = true
              /\ (forall x, In x (s :: r) -> supported_labelled x = true)
  end.

Lemma search B K v : forall ss closed b st m, (forall s, In s ss -> supported_labelled s = true) -> tidy closed ss = true ->
  code_at b (fill B K (tok_body disp tk ss b)) ->
  exists b', runs (mkVm (lead_end tk ss b) (v :: st) m) (mkVm b' (v :: st) m) /\ entered B K (b + zlen (tok_body disp tk ss b)) (select v ss) b'.
Proof.
  induction ss as [|s ss IH]; intros closed b st m Hs T A.
  - exists b. split; [constructor|]. cbn. rewrite zlen_unf. cbn. lia.
  - assert (Hs' : forall x, In x ss -> supported_labelled x = true) by (intros x X; apply Hs; right; exact X).
    pose proof (Hs s (or_introl eq_refl)) as S0.
    assert (plain : is_label s = false -> exists b', runs (mkVm (lead_end tk (s :: ss) b) (v :: st) m) (mkVm b' (v :: st) m) /\ entered B K (b + zlen (tok_body disp tk (s :: ss) b)) (select v (s :: ss)) b').
    { intros N. assert (U : supported_stmt s = true) by (destruct s; try discriminate N; exact S0). destruct (unlabelled s v U) as (U1 & U2 & _).
      assert (E1 : tok_body disp tk (s :: ss) b = tk s b ++ tok_body disp tk ss (b + zlen (tk s b))) by (destruct s; try discriminate N; reflexivity).
      assert (E2 : lead_end tk (s :: ss) b = lead_end tk ss (b + zlen (tk s b))) by (destruct s; try discriminate N; reflexivity).
      assert (E3 : tidy (is_jump s) ss = true) by (destruct s; try discriminate N; exact T).
      assert (E4 : select v (s :: ss) = select v ss) by (unfold select; cbn [from_first]; rewrite U1, U2; reflexivity).
      rewrite E1, E2, E4 in *. rewrite fill_app in A. apply at_app in A. destruct A as [_ A]. rewrite zlen_fill in A.
      rewrite zlen_app, Z.add_assoc. eapply IH; eassumption. }
    destruct s; try (apply plain; reflexivity); clear plain.
    + cbn [CodeEmit.supported_labelled] in S0. apply andb_prop in S0. destruct S0 as [Ck Sb]. rename e into x, s into body.
      destruct (unlabelled body v Sb) as (U1 & U2 & U3).
      cbn [tidy] in T. apply andb_prop in T. destruct T as [_ T].
      cbn [tok_body lead_end] in A |- *. cbv zeta in A |- *. set (kx := comp x Value (b + 1)) in *.
      replace (b + 1 + zlen kx + 3) with (b + zlen kx + 4) in * by lia. set (b1 := b + zlen kx + 4) in *.
      set (ks := tk body b1) in *. rewrite !fill_app, fill_W in A. set (l := lead_end tk ss (b1 + zlen ks)) in *.
      apply at_app in A. destruct A as [A1 A]. apply at_app in A. destruct A as [A2 A3]. rewrite zlen_fill in A3.
      assert (L1 : b + zlen ([IC_DUPLICATE] ++ kx ++ [IC_EQ; IC_BE0; l]) = b1) by (rewrite !zlen_app, !zlen_cons, znil; unfold b1; lia).
      rewrite L1 in A2, A3. destruct x as [| t lit | | | | | | | | | |]; try discriminate Ck. cbn [is_constant] in Ck. destruct (lit_value t lit) as [a|] eqn:El; [|discriminate Ck].
      assert (R : runs (mkVm b (v :: st) m) (mkVm (if v =? a then b1 else l) (v :: st) m)).
      { cbn [app] in A1. eapply runs_trans; [apply runs_one, (go_duplicate w lay C _ _ _ _ _ A1)|]. apply at_tail in A1. apply at_app in A1. destruct A1 as [A1 A4].
        destruct (value_at (NLit t lit) (b + 1) m a m (v :: v :: st)) as (a' & R & (_ & Le & _)); [cbn; rewrite El; reflexivity|exact A1|cbn; rewrite El; reflexivity|].
        rewrite (Le eq_refl) in R. eapply runs_trans; [exact R|]. fold kx.
        eapply runs_trans; [apply runs_one, (go_op w lay C _ BIN_EQ v a (if v =? a then 1 else 0) _ _ _ eq_refl A4); reflexivity|].
        apply at_tail in A4. apply runs_one. rewrite (go_be0 w lay C _ _ _ _ _ _ A4). unfold b1. destruct (v =? a); [|reflexivity]. change (1 =? 0) with false. cbv iota. do 2 f_equal. lia. }
      rewrite !zlen_app, zlen_map, Z.add_assoc, L1.
      unfold select. cbn [from_first has_case has_default]. rewrite El, U1, U2, orb_false_r, (Z.eqb_sym a v).
      destruct (v =? a).
      * exists b1. split; [exact R|]. cbn [entered inner]. fold ks. repeat split; auto; try lia.
      * destruct (IH _ (b1 + zlen ks) st m Hs' T A3) as (b' & R' & E). exists b'. split; [eapply runs_trans; [exact R|exact R']|].
        rewrite Z.add_assoc. exact E.
    + cbn [CodeEmit.supported_labelled] in S0. rename s into body. destruct (unlabelled body v S0) as (U1 & U2 & U3).
      cbn [tidy] in T. apply andb_prop in T. destruct T as [_ T]. apply negb_true_iff in T. destruct (no_labels ss v Hs' T) as (N1 & N2 & N3).
      cbn [tok_body lead_end] in A |- *. cbv zeta in A |- *. rewrite fill_app in A. apply at_app in A. destruct A as [A1 A2]. rewrite zlen_fill in A2.
      exists b. split; [constructor|]. unfold select. cbn [from_first has_case has_default]. rewrite U1, N1. cbn [entered inner].
      rewrite zlen_app, Z.add_assoc. repeat split; auto.
Qed.

(** ** Statements *)
Definition sim (s : stmt) (m : cells) (o : outcome) (m' : cells) : Prop := forall b B K st,
  supported_stmt (inner s) = true -> code_at b (fill B K (tk (inner s) b)) ->
  lands B K (b + zlen (tk (inner s) b)) (no_switch s) o st (mkVm b st m) m'.
Definition sim_all (ss : list stmt) (m : cells) (o : outcome) (m' : cells) : Prop :=
  (forall b B K st, forallb supported_stmt ss = true -> code_at b (fill B K (tok_all tk ss b)) ->
     lands B K (b + zlen (tok_all tk ss b)) (forallb no_switch ss) o st (mkVm b st m) m')
  /\ (forall b B K fin st, entered B K fin ss b -> lands B K fin false o st (mkVm b st m) m').
Definition sim_decls (ds : list decl) (m m' : cells) : Prop := forall b st,
  forallb (supported_decl c disp) ds = true -> code_at b (fill 0 0 (tok_all (tok_decl disp) ds b)) ->
  runs (mkVm b st m) (mkVm (b + zlen (tok_all (tok_decl disp) ds b)) st m').
Definition for_code (x next : option node) (s : stmt) (b : Z) : list tok :=
  let kx := match x with Some x => map W (comp x Value b ++ [IC_BE0]) ++ [HB] | None => [] end in
  let kb := tk s (b + zlen kx) in
  let kn := match next with Some y => comp y Void (b + zlen kx + zlen kb) | None => [] end in
  kx ++ kb ++ map W (kn ++ [IC_B; b]).
Definition for_next (x : option node) (s : stmt) (b : Z) : Z :=
  let kx := match x with Some x => map W (comp x Value b ++ [IC_BE0]) ++ [HB] | None => [] end in
  b + zlen kx + zlen (tk s (b + zlen kx)).
Definition sim_for (x next : option node) (s : stmt) (m : cells) (o : outcome) (m' : cells) : Prop := forall b B K st,
  (match x with Some x => supported x Value | None => true end) = true ->
  (match next with Some x => supported x Void | None => true end) = true -> supported_stmt s = true ->
  code_at b (fill (b + zlen (for_code x next s b)) (for_next x s b) (for_code x next s b)) ->
  lands B K (b + zlen (for_code x next s b)) (no_switch s) o st (mkVm b st m) m'.

Lemma jump_never_next s m m' : is_jump s = true -> exec s m ONext m' -> False.
Proof. destruct s; try discriminate; intros _ H; inversion H. Qed.
Lemma quiet_inner s : no_switch (inner s) = no_switch s.
Proof. destruct s; reflexivity. Qed.
Lemma tok_nil : zlen (@nil tok) = 0.
Proof. rewrite zlen_unf. reflexivity. Qed.
Lemma fill_any B K B' K' ds b : fill B K (tok_all (tok_decl disp) ds b) = fill B' K' (tok_all (tok_decl disp) ds b).
Proof.
  revert b. induction ds as [|d ds IH]; intros b; [reflexivity|]. cbn [tok_all]. cbv zeta. rewrite !fill_app. f_equal; [|apply IH].
  destruct d as [? ? [x|]|]; cbn [tok_decl]; rewrite ?fill_W; reflexivity.
Qed.

(** The parts of the code of a loop. *)
Lemma while_shape x s b B K (kx := comp x Value b) (kb := tk s (b + zlen kx + 2)) (fin := b + zlen kx + 2 + zlen kb + 2) :
  code_at b (fill B K (tk (SWhile x s) b)) ->
  code_at b (kx ++ [IC_BE0; fin]) /\ code_at (b + zlen kx + 2) (fill fin b kb) /\ code_at (b + zlen kx + 2 + zlen kb) [IC_B; b]
  /\ b + zlen (tk (SWhile x s) b) = fin.
Proof.
  intros A. cbn [toks] in A |- *. cbv zeta in A |- *. fold kx in A |- *. fold kb in A |- *. rewrite fill_W, zlen_map, zlen_fill in *.
  assert (L : b + zlen (map W (kx ++ [IC_BE0]) ++ [HB] ++ kb ++ map W [IC_B; b]) = fin).
  { rewrite !zlen_app, !zlen_map, !zlen_app, !zlen_cons, znil, tok_nil. unfold fin. lia. }
  rewrite L in *. rewrite !fill_app, !fill_W in A. cbn [fill map] in A.
  replace ((kx ++ [IC_BE0]) ++ [fin] ++ fill fin b kb ++ [IC_B; b]) with ((kx ++ [IC_BE0; fin]) ++ fill fin b kb ++ [IC_B; b]) in A by (rewrite <- !app_assoc; reflexivity).
  apply at_app in A. destruct A as [A1 A]. apply at_app in A. destruct A as [A2 A3].
  replace (b + zlen (kx ++ [IC_BE0; fin])) with (b + zlen kx + 2) in * by (rewrite zlen_app, !zlen_cons, znil; lia). rewrite zlen_fill in A3. auto.
Qed.
Lemma do_shape x s b B K (kb := tk s b) (kx := comp x Value (b + zlen kb)) (fin := b + zlen kb + zlen kx + 2) :
  code_at b (fill B K (tk (SDo s x) b)) ->
  code_at b (fill fin (b + zlen kb) kb) /\ code_at (b + zlen kb) (kx ++ [IC_BNE0; b]) /\ b + zlen (tk (SDo s x) b) = fin.
Proof.
  intros A. cbn [toks] in A |- *. cbv zeta in A |- *. fold kb in A |- *. fold kx in A |- *. rewrite fill_W, zlen_map, zlen_fill in *.
  assert (L : b + zlen (kb ++ map W (kx ++ [IC_BNE0; b])) = fin).
  { rewrite !zlen_app, !zlen_map, !zlen_app, !zlen_cons, znil. unfold fin. lia. }
  rewrite L in *. rewrite !fill_app, !fill_W in A. apply at_app in A. rewrite zlen_fill in A. tauto.
Qed.

Lemma for_shape x next s b (fin := b + zlen (for_code x next s b)) (nx := for_next x s b) :
  code_at b (fill fin nx (for_code x next s b)) ->
  exists b1, match x with Some x => code_at b (comp x Value b ++ [IC_BE0; fin]) /\ b1 = b + zlen (comp x Value b) + 2 | None => b1 = b end
    /\ code_at b1 (fill fin nx (tk s b1)) /\ nx = b1 + zlen (tk s b1)
    /\ code_at nx (match next with Some y => comp y Void nx | None => [] end ++ [IC_B; b]).
Proof.
  intros A. unfold for_code in A. cbv zeta in A. fold fin in A.
  destruct x as [x|].
  - assert (L : b + zlen (map W (comp x Value b ++ [IC_BE0]) ++ [HB]) = b + zlen (comp x Value b) + 2).
    { rewrite !zlen_app, !zlen_map, !zlen_app, !zlen_cons, znil, tok_nil. lia. }
    unfold nx, for_next in *. cbv zeta in *. rewrite L in *. set (b1 := b + zlen (comp x Value b) + 2) in *. exists b1.
    rewrite !fill_app, !fill_W in A. cbn [fill map] in A.
    match type of A with code_at _ ?T => match T with (?u ++ ?f) ++ ?r => replace T with ((comp x Value b ++ [IC_BE0; fin]) ++ r) in A by (rewrite <- !app_assoc; reflexivity) end end.
    apply at_app in A. destruct A as [A1 A]. apply at_app in A. destruct A as [A2 A3].
    replace (b + zlen (comp x Value b ++ [IC_BE0; fin])) with b1 in * by (rewrite zlen_app, !zlen_cons, znil; unfold b1; lia). rewrite zlen_fill in A3. auto.
  - unfold nx, for_next in *. cbv zeta in *. rewrite tok_nil, Z.add_0_r in *. exists b. cbn [app] in A. rewrite !fill_app, !fill_W in A.
    apply at_app in A. rewrite zlen_fill in A. destruct A. auto.
Qed.

(** A loop whose body stays goes back. *)
Lemma body_stays B K e q o st s m : stays o = true -> e = K \/ (exists k, code_at e (IC_B :: K :: k)) -> lands B K e q o st s m ->
  exists j, (q = true -> j = []) /\ runs s (mkVm K (j ++ st) m).
Proof.
  intros S H (j & J & R). exists j. split; [exact J|]. destruct o; try discriminate S; [|exact R].
  destruct H as [<-|(k & H)]; [exact R|]. eapply runs_trans; [exact R|]. apply runs_one, (go_b w lay C _ _ _ _ _ H).
Qed.
Lemma body_leaves B K e B' K' q o st s m : stays o = false -> lands B K e q o st s m ->
  lands B' K' B q (match o with OBreak => ONext | _ => o end) st s m.
Proof. intros S (j & J & R). exists j. split; [exact J|]. destruct o; try discriminate S; exact R. Qed.

Lemma simulated :
  (forall s m o m', exec s m o m' -> sim s m o m')
  /\ (forall ss m o m', exec_all ss m o m' -> sim_all ss m o m')
  /\ (forall ds m m', exec_decls w at_ ds m m' -> sim_decls ds m m')
  /\ (forall x next s m o m', exec_for w at_ x next s m o m' -> sim_for x next s m o m').
Proof.
  apply exec_together.
  - (* declarations *) intros ds m m' _ IH b B K st S A. cbn [inner toks CodeSpec.supported_stmt] in *. apply lands_next. apply IH; [exact S|]. rewrite (fill_any _ _ B K). exact A.
  - (* case *) intros x s m o m' _ IH b B K st S A. cbn [inner] in *. destruct (unlabelled s 0 S) as (_ & _ & U). unfold sim in IH. rewrite U in IH. apply IH; assumption.
  - (* default *) intros s m o m' _ IH b B K st S A. cbn [inner] in *. destruct (unlabelled s 0 S) as (_ & _ & U). unfold sim in IH. rewrite U in IH. apply IH; assumption.
  - (* compound *) intros ss m o m' _ [IH _] b B K st S A. cbn [inner toks CodeSpec.supported_stmt no_switch] in *. apply IH; assumption.
  - (* expression *) intros x m v m' V b B K st S A. cbn [inner toks CodeSpec.supported_stmt] in *. rewrite fill_W, zlen_map in *. apply lands_next. eapply effect_at; eassumption.
  - (* null *) intros m b B K st S A. cbn [inner toks]. rewrite tok_nil, Z.add_0_r. apply lands_next. constructor.
  - (* then *) intros x s other m v m1 o m' V Nz _ IH b B K st S A. cbn [inner toks CodeSpec.supported_stmt no_switch] in *. cbv zeta in *.
    apply andb_prop in S. destruct S as [S S2]. apply andb_prop in S. destruct S as [Sx Ss]. destruct (unlabelled s 0 Ss) as (_ & _ & U). unfold sim in IH. rewrite U in IH.
    set (kx := comp x Value b) in *. set (b1 := b + zlen kx + 2) in *. set (ks := tk s b1) in *.
    destruct other as [s'|].
    + set (b2 := b1 + zlen ks + 2) in *. set (ko := tk s' b2) in *. rewrite fill_app, fill_W in A. rewrite zlen_app, zlen_map.
      assert (L1 : b + zlen (kx ++ [IC_BE0; b2]) = b1) by (unfold b1; rewrite zlen_app, !zlen_cons, znil; lia).
      pose proof (at_app _ _ _ _ A) as [A1 A2]. rewrite L1, fill_app, fill_app, fill_W in A2. apply at_app in A2. destruct A2 as [A2 A3]. rewrite zlen_fill in A3.
      pose proof (test_at x b m v m1 st b2 [] Sx A1 V) as R. fold kx b1 in R. replace (v =? 0) with false in R by lia.
      eapply lands_before; [exact R|]. specialize (IH b1 B K st Ss A2). fold ks in IH.
      apply (lands_weaken _ _ _ _ (no_switch s && no_switch s')) in IH; [|intros X; apply andb_prop in X; tauto].
      destruct IH as (j & J & H). exists j. split; [exact J|]. destruct o as [| | |[r|]]; auto.
      eapply runs_trans; [exact H|]. rewrite !zlen_app, zlen_map, !zlen_cons, znil. apply at_app in A3. destruct A3 as [A3 _].
      eapply runs_at; [apply runs_one, (go_b w lay C _ _ _ _ _ A3)|]. unfold b2. fold b1. rewrite zlen_app, !zlen_cons, znil in L1. lia.
    + rewrite fill_app, fill_W in A. rewrite zlen_app, zlen_map.
      assert (L1 : b + zlen (kx ++ [IC_BE0; b1 + zlen ks]) = b1) by (unfold b1; rewrite zlen_app, !zlen_cons, znil; lia).
      pose proof (at_app _ _ _ _ A) as [A1 A2]. rewrite L1 in A2.
      pose proof (test_at x b m v m1 st _ [] Sx A1 V) as R. fold kx b1 in R. replace (v =? 0) with false in R by lia.
      eapply lands_before; [exact R|]. specialize (IH b1 B K st Ss A2). fold ks in IH. rewrite Z.add_assoc, L1, andb_true_r. exact IH.
  - (* else *) intros x s s' m m1 o m' V _ IH b B K st S A. cbn [inner toks CodeSpec.supported_stmt no_switch] in *. cbv zeta in *.
    apply andb_prop in S. destruct S as [S S2]. apply andb_prop in S. destruct S as [Sx Ss]. destruct (unlabelled s' 0 S2) as (_ & _ & U). unfold sim in IH. rewrite U in IH.
    set (kx := comp x Value b) in *. set (b1 := b + zlen kx + 2) in *. set (ks := tk s b1) in *.
    set (b2 := b1 + zlen ks + 2) in *. set (ko := tk s' b2) in *. rewrite fill_app, fill_W in A. rewrite zlen_app, zlen_map.
    assert (L1 : b + zlen (kx ++ [IC_BE0; b2]) = b1) by (unfold b1; rewrite zlen_app, !zlen_cons, znil; lia).
    pose proof (at_app _ _ _ _ A) as [A1 A2]. rewrite L1, fill_app, fill_app, fill_W in A2. apply at_app in A2. destruct A2 as [A2 A3]. rewrite zlen_fill in A3.
    apply at_app in A3. destruct A3 as [_ A3]. rewrite !zlen_cons, znil in A3. replace (b1 + zlen ks + (1 + (1 + 0))) with b2 in A3 by (unfold b2; lia).
    pose proof (test_at x b m 0 m1 st b2 [] Sx A1 V) as R. cbn [Z.eqb] in R.
    eapply lands_before; [exact R|]. specialize (IH b2 B K st S2 A3). fold ko in IH.
    apply (lands_weaken _ _ _ _ (no_switch s && no_switch s')) in IH; [|intros X; apply andb_prop in X; tauto].
    replace (b + (zlen (kx ++ [IC_BE0; b2]) + zlen (ks ++ map W [IC_B; b2 + zlen ko] ++ ko))) with (b2 + zlen ko); [exact IH|].
    rewrite !zlen_app, zlen_map, !zlen_cons, znil. unfold b2, b1. lia.
  - (* skipped *) intros x s m m1 V b B K st S A. cbn [inner toks CodeSpec.supported_stmt no_switch] in *. cbv zeta in *.
    apply andb_prop in S. destruct S as [S _]. apply andb_prop in S. destruct S as [Sx Ss].
    set (kx := comp x Value b) in *. set (b1 := b + zlen kx + 2) in *. set (ks := tk s b1) in *. rewrite fill_app, fill_W in A. apply at_app in A. destruct A as [A _].
    apply lands_next. eapply runs_at; [apply (test_at x b m 0 m1 st _ [] Sx A V)|]. cbn [Z.eqb]. rewrite map_app, !zlen_app, !zlen_map, !zlen_cons, znil. unfold b1. lia.
  - (* switch *) intros x ss m v m1 o m' V _ [_ IH] b B K st S A. cbn [inner toks CodeSpec.supported_stmt no_switch] in *. cbv zeta in *.
    apply andb_prop in S. destruct S as [S Hs]. apply andb_prop in S. destruct S as [Sx T]. apply andb_prop in Sx. destruct Sx as [Sx Ex].
    rewrite forallb_forall in Hs. assert (Hl : forall s, In s ss -> supported_labelled s = true) by exact Hs. clear Hs.
    apply andb_prop in T. destruct T as [T0 T].
    set (kx := comp x Value b) in *. set (b1 := b + zlen kx) in *. set (Tb := tok_body disp tk ss b1) in *.
    rewrite fill_app, fill_W, fill_setB in A. apply at_app in A. destruct A as [A1 A2]. fold b1 in A2.
    destruct (value_at x b m v m1 st Sx A1 V) as (v' & R & (_ & Le & _)). rewrite (Le Ex) in R. fold kx b1 in R.
    destruct (search (b1 + zlen Tb) K v ss true b1 st m1 Hl T A2) as (b' & R' & En).
    assert (Lb : lead_end tk ss b1 = b1) by (destruct ss as [|[]]; try discriminate T0; reflexivity).
    rewrite Lb in R'. specialize (IH b' _ K _ (v :: st) En). fold Tb in IH.
    rewrite zlen_app, zlen_map, zlen_setB, Z.add_assoc. fold b1.
    assert (IH' : lands B K (b1 + zlen Tb) false (match o with OBreak => ONext | _ => o end) (v :: st) (mkVm b' (v :: st) m1) m').
    { destruct IH as (j & J & H). exists j. split; [exact J|]. destruct o; exact H. }
    change (v :: st) with ([v] ++ st) in IH'. eapply lands_after in IH'; [exact IH'| |discriminate].
    eapply runs_trans; [exact R|exact R'].
  - (* while, end *) intros x s m m1 V b B K st S A. cbn [inner] in *. destruct (while_shape _ _ _ _ _ A) as (A1 & A2 & A3 & ->).
    cbn [CodeSpec.supported_stmt] in S. apply andb_prop in S. destruct S as [Sx Ss]. apply lands_next. apply (test_at x b m 0 m1 st _ [] Sx A1 V).
  - (* while, again *) intros x s m v m1 o m2 o' m' V Nz _ IH St _ IH2 b B K st S A. cbn [inner] in *. destruct (while_shape _ _ _ _ _ A) as (A1 & A2 & A3 & L).
    assert (S' := S). cbn [CodeSpec.supported_stmt no_switch] in S'. apply andb_prop in S'. destruct S' as [Sx Ss].
    destruct (unlabelled s 0 Ss) as (_ & _ & U). unfold sim in IH. rewrite U in IH.
    pose proof (test_at x b m v m1 st _ [] Sx A1 V) as R. replace (v =? 0) with false in R by lia.
    specialize (IH _ _ _ st Ss A2). eapply body_stays in IH; [|exact St|right; eauto]. destruct IH as (j & J & R2).
    eapply lands_after; [eapply runs_trans; [exact R|exact R2]|exact J|]. apply IH2; assumption.
  - (* while, leave *) intros x s m v m1 o m' V Nz _ IH St b B K st S A. cbn [inner] in *. destruct (while_shape _ _ _ _ _ A) as (A1 & A2 & A3 & L).
    assert (S' := S). cbn [CodeSpec.supported_stmt no_switch] in S'. apply andb_prop in S'. destruct S' as [Sx Ss].
    destruct (unlabelled s 0 Ss) as (_ & _ & U). unfold sim in IH. rewrite U in IH.
    pose proof (test_at x b m v m1 st _ [] Sx A1 V) as R. replace (v =? 0) with false in R by lia. rewrite L.
    eapply lands_before; [exact R|]. eapply body_leaves; [exact St|]. exact (IH _ _ _ st Ss A2).
  - (* do, end *) intros x s m o m1 m' _ IH St V b B K st S A. cbn [inner] in *. destruct (do_shape _ _ _ _ _ A) as (A1 & A2 & L).
    assert (S' := S). cbn [CodeSpec.supported_stmt no_switch] in S'. apply andb_prop in S'. destruct S' as [Ss Sx].
    destruct (unlabelled s 0 Ss) as (_ & _ & U). unfold sim in IH. rewrite U in IH. rewrite L.
    specialize (IH _ _ _ st Ss A1). eapply body_stays in IH; [|exact St|left; reflexivity]. destruct IH as (j & J & R2).
    eapply lands_after; [exact R2|exact J|]. apply lands_next. apply (again_at x _ m1 0 m' _ b [] Sx A2 V).
  - (* do, again *) intros x s m o m1 v m2 o' m' _ IH St V Nz _ IH2 b B K st S A. cbn [inner] in *. destruct (do_shape _ _ _ _ _ A) as (A1 & A2 & L).
    assert (S' := S). cbn [CodeSpec.supported_stmt no_switch] in S'. apply andb_prop in S'. destruct S' as [Ss Sx].
    destruct (unlabelled s 0 Ss) as (_ & _ & U). unfold sim in IH. rewrite U in IH.
    specialize (IH _ _ _ st Ss A1). eapply body_stays in IH; [|exact St|left; reflexivity]. destruct IH as (j & J & R2).
    eapply lands_after; [exact R2|exact J|]. pose proof (again_at x _ m1 v m2 (j ++ st) b [] Sx A2 V) as R. replace (v =? 0) with false in R by lia.
    eapply lands_before; [exact R|]. apply IH2; assumption.
  - (* do, leave *) intros x s m o m' _ IH St b B K st S A. cbn [inner] in *. destruct (do_shape _ _ _ _ _ A) as (A1 & A2 & L).
    assert (S' := S). cbn [CodeSpec.supported_stmt no_switch] in S'. apply andb_prop in S'. destruct S' as [Ss Sx].
    destruct (unlabelled s 0 Ss) as (_ & _ & U). unfold sim in IH. rewrite U in IH. rewrite L.
    eapply body_leaves; [exact St|]. exact (IH _ _ _ st Ss A1).
  - (* for *) intros x next s m o m' _ IH b B K st S A. cbn [inner CodeSpec.supported_stmt no_switch] in *.
    apply andb_prop in S. destruct S as [S Ss]. apply andb_prop in S. destruct S as [S Sn]. apply andb_prop in S. destruct S as [_ Sx].
    change (tk (SFor None x next s) b) with (map W (fill (b + zlen (@nil tok) + zlen (for_code x next s (b + zlen (@nil tok)))) (for_next x s (b + zlen (@nil tok))) (for_code x next s (b + zlen (@nil tok))))) in *.
    rewrite tok_nil, Z.add_0_r in *. rewrite fill_W in A. rewrite zlen_map, zlen_fill. apply IH; assumption.
  - (* for with initialisation *) intros s0 x next s m m1 o m' _ IH0 _ IH b B K st S A. cbn [inner CodeSpec.supported_stmt no_switch] in *.
    apply andb_prop in S. destruct S as [S Ss]. apply andb_prop in S. destruct S as [S Sn]. apply andb_prop in S. destruct S as [S0 Sx].
    set (b1 := b + zlen (tk s0 b)).
    change (tk (SFor (Some s0) x next s) b) with (tk s0 b ++ map W (fill (b1 + zlen (for_code x next s b1)) (for_next x s b1) (for_code x next s b1))) in *.
    rewrite fill_app, fill_W in A. apply at_app in A. destruct A as [A1 A2]. rewrite zlen_fill in A2. fold b1 in A2. rewrite zlen_app, zlen_map, zlen_fill, Z.add_assoc. fold b1.
    destruct (unlabelled s0 0 S0) as (_ & _ & U). unfold sim in IH0. rewrite U in IH0.
    destruct (IH0 b B K st S0 A1) as (j & J & R). apply (lands_after _ _ _ _ _ j _ _ _ _ R); [intros Q; apply andb_prop in Q; tauto|].
    eapply lands_weaken; [|apply IH; assumption]. intros Q. apply andb_prop in Q. tauto.
  - (* continue *) intros m b B K st _ A. exists []. split; auto. cbn [inner toks fill map] in *. apply runs_one, (go_b w lay C _ _ _ _ _ A).
  - (* break *) intros m b B K st _ A. exists []. split; auto. cbn [inner toks fill map] in *. apply runs_one, (go_b w lay C _ _ _ _ _ A).
  - (* return *) intros m b B K st _ A. exists []. split; auto. exists b, []. split; [exact A|constructor].
  - (* return value *) intros x m v m' V b B K st S A. cbn [inner toks CodeSpec.supported_stmt] in *. rewrite fill_W in A. apply at_app in A. destruct A as [A1 A2].
    apply andb_prop in S. destruct S as [Sx Ex]. destruct (value_at x b m v m' st Sx A1 V) as (v' & R & (_ & Le & _)). rewrite (Le Ex) in R.
    exists []. split; auto. eexists _, _, _. split; [exact A2|exact R].
  - (* no statement *) intros m. split.
    + intros b B K st _ _. cbn [tok_all]. rewrite tok_nil, Z.add_0_r. apply lands_next. constructor.
    + intros b B K fin st ->. apply lands_next. constructor.
  - (* sequence *) intros s ss m m1 o m' X IH _ [IH1 IH2]. split.
    + intros b B K st S A. cbn [forallb tok_all] in *. cbv zeta in *. apply andb_prop in S. destruct S as [Ss Sr].
      rewrite fill_app in A. apply at_app in A. destruct A as [A1 A2]. rewrite zlen_fill in A2. rewrite zlen_app, Z.add_assoc.
      destruct (unlabelled s 0 Ss) as (_ & _ & U). unfold sim in IH. rewrite U in IH.
      destruct (IH b B K st Ss A1) as (j & J & R). apply (lands_after _ _ _ _ _ j _ _ _ _ R); [intros Q; apply andb_prop in Q; tauto|].
      eapply lands_weaken; [|apply IH1; assumption]. intros Q. apply andb_prop in Q. tauto.
    + intros b B K fin st (A1 & A2 & -> & T & Hl). pose proof (supported_inner _ _ _ (Hl s (or_introl eq_refl))) as Ss.
      destruct (IH b B K st Ss A1) as (j & _ & R). apply (lands_after _ _ _ _ _ j _ _ _ _ R); [discriminate|].
      apply IH2. destruct ss as [|s2 ss]; [cbn [tok_body entered]; rewrite tok_nil; lia|].
      assert (Nl : is_label s2 = false).
      { destruct (is_label s2) eqn:E; [|reflexivity]. exfalso. eapply (jump_never_next (inner s)).
        - destruct s2; try discriminate E; cbn [tidy] in T; apply andb_prop in T; tauto.
        - destruct s; try exact X; inversion X; subst; assumption. }
      assert (Ub : inner s2 = s2) by (destruct s2; try discriminate Nl; reflexivity).
      assert (Eb : forall q, tok_body disp tk (s2 :: ss) q = tk s2 q ++ tok_body disp tk ss (q + zlen (tk s2 q))) by (intros q; destruct s2; try discriminate Nl; reflexivity).
      rewrite Eb in *. rewrite fill_app in A2. apply at_app in A2. destruct A2 as [A2 A3]. rewrite zlen_fill in A3. cbn [entered]. rewrite Ub, zlen_app.
      repeat split; auto; try lia.
      * destruct s2; try discriminate Nl; exact T.
      * intros y Y. apply Hl. right. exact Y.
  - (* sequence, jump *) intros s ss m o m' X IH No. split.
    + intros b B K st S A. cbn [forallb tok_all] in *. cbv zeta in *. apply andb_prop in S. destruct S as [Ss Sr].
      rewrite fill_app in A. apply at_app in A. destruct A as [A1 A2].
      destruct (unlabelled s 0 Ss) as (_ & _ & U). unfold sim in IH. rewrite U in IH.
      destruct (IH b B K st Ss A1) as (j & J & R). exists j. split; [intros Q; apply andb_prop in Q; tauto|]. destruct o; try exact R. congruence.
    + intros b B K fin st (A1 & A2 & -> & T & Hl). pose proof (supported_inner _ _ _ (Hl s (or_introl eq_refl))) as Ss.
      destruct (IH b B K st Ss A1) as (j & _ & R). exists j. split; [discriminate|]. destruct o; try exact R. congruence.
  - (* no declaration *) intros m b st _ _. cbn [tok_all]. rewrite tok_nil, Z.add_0_r. constructor.
  - (* structure *) intros t ms ds m m' _ IH b st S A. cbn [tok_all tok_decl forallb app] in *. cbv zeta in *. cbn [app] in *. rewrite tok_nil, Z.add_0_r in *.
    apply andb_prop in S. destruct S as [_ S]. apply IH; assumption.
  - (* variable *) intros id bounds ds m m' _ IH b st S A. cbn [tok_all tok_decl forallb app] in *. cbv zeta in *. cbn [app] in *. rewrite tok_nil, Z.add_0_r in *.
    apply andb_prop in S. destruct S as [_ S]. apply IH; assumption.
  - (* initialised variable *) intros id bounds x ds m v m1 m' V _ IH b st S A. cbn [tok_all tok_decl forallb supported_decl] in *. cbv zeta in *.
    apply andb_prop in S. destruct S as [S Sr]. apply andb_prop in S. destruct S as [_ S]. apply andb_prop in S. destruct S as [Sx Ex].
    rewrite fill_app, fill_W in A. apply at_app in A. destruct A as [A1 A2]. rewrite zlen_app, Z.add_assoc, zlen_map in *.
    pose proof (at_app _ _ _ _ A1) as [A3 A4].
    destruct (value_at x b m v m1 st Sx A3 V) as (v' & R & (_ & Le & _)). rewrite (Le Ex) in R.
    eapply runs_trans; [exact R|]. eapply runs_trans; [|apply IH; [exact Sr|exact A2]].
    eapply runs_at; [apply runs_one, (go_set_word w lay C _ IC_ASSIGN_V BIN_ASSIGN false (disp id) v v _ _ _ ltac:(repeat split; reflexivity) A4); reflexivity|].
    rewrite zlen_app, !zlen_cons, znil. lia.
  - (* for, end *) intros x next s m m1 V b B K st Sx Sn Ss A. destruct (for_shape _ _ _ _ A) as (b1 & (A1 & E1) & A2 & E2 & A3).
    apply lands_next. apply (test_at x b m 0 m1 st _ [] Sx A1 V).
  - (* for, again *) intros x next s m m1 o m2 m3 o' m' V _ IH St V2 _ IH2 b B K st Sx Sn Ss A. destruct (for_shape _ _ _ _ A) as (b1 & H1 & A2 & E2 & A3).
    destruct (unlabelled s 0 Ss) as (_ & _ & U). unfold sim in IH. rewrite U in IH.
    assert (R : runs (mkVm b st m) (mkVm b1 st m1)).
    { destruct x as [x|].
      - destruct H1 as [A1 ->]. destruct V as (v & V & Nz). pose proof (test_at x b m v m1 st _ [] Sx A1 V) as R. replace (v =? 0) with false in R by lia. exact R.
      - subst. constructor. }
    specialize (IH _ _ _ st Ss A2). eapply body_stays in IH; [|exact St|left; symmetry; exact E2]. destruct IH as (j & J & R2).
    eapply lands_after; [eapply runs_trans; [exact R|exact R2]|exact J|].
    assert (R3 : runs (mkVm (for_next x s b) (j ++ st) m2) (mkVm b (j ++ st) m3)).
    { apply at_app in A3. destruct A3 as [A3 A4]. destruct next as [y|].
      - destruct V2 as (v & V2). eapply runs_trans; [apply (effect_at y _ m2 v m3 _ Sn A3 V2)|]. apply runs_one, (go_b w lay C _ _ _ _ _ A4).
      - subst. rewrite znil, Z.add_0_r in A4. apply runs_one, (go_b w lay C _ _ _ _ _ A4). }
    eapply lands_before; [exact R3|]. apply IH2; assumption.
  - (* for, leave *) intros x next s m m1 o m' V _ IH St b B K st Sx Sn Ss A. destruct (for_shape _ _ _ _ A) as (b1 & H1 & A2 & E2 & A3).
    destruct (unlabelled s 0 Ss) as (_ & _ & U). unfold sim in IH. rewrite U in IH.
    assert (R : runs (mkVm b st m) (mkVm b1 st m1)).
    { destruct x as [x|].
      - destruct H1 as [A1 ->]. destruct V as (v & V & Nz). pose proof (test_at x b m v m1 st _ [] Sx A1 V) as R. replace (v =? 0) with false in R by lia. exact R.
      - subst. constructor. }
    eapply lands_before; [exact R|]. eapply body_leaves; [exact St|]. exact (IH _ _ _ st Ss A2).
Qed.
End Sim.

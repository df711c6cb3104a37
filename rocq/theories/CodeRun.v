(** Proofs: what the machine does with the code of an expression. *)
From Verif Require Import Prelude LVec TypesModel TypesSpec LexModel ParseModel InstrModel BuildModel BuildFold CodeModel VmSpec CodeSpec CodeExpr.

(** The code [k] stands at the address [b]. *)
Definition code_at (C : list Z) (b : Z) (k : list Z) : Prop := exists p q, C = p ++ k ++ q /\ zlen p = b.

Lemma at_app C b k r : code_at C b (k ++ r) -> code_at C b k /\ code_at C (b + zlen k) r.
Proof.
  intros (p & q & E & L). split.
  - exists p, (r ++ q). rewrite E, <- app_assoc. auto.
  - exists (p ++ k), q. rewrite E, zlen_app, <- !app_assoc. split; [reflexivity|lia].
Qed.
Lemma at_head C b x r : code_at C b (x :: r) -> znth C b = Some x.
Proof. intros (p & q & E & L). rewrite E. cbn [app]. rewrite znth_app2 by lia. rewrite L, Z.sub_diag. reflexivity. Qed.
Lemma at_tail C b x r : code_at C b (x :: r) -> code_at C (b + 1) r.
Proof. intros H. change (x :: r) with ([x] ++ r) in H. apply at_app in H. destruct H as [_ H]. rewrite zlen_cons, znil in H. exact H. Qed.
Lemma at_second C b x y r : code_at C b (x :: y :: r) -> znth C (b + 1) = Some y.
Proof. intros H. apply at_tail in H. exact (at_head _ _ _ _ H). Qed.
Lemma at_self C : code_at C 0 C.
Proof. exists [], []. rewrite app_nil_r, znil. auto. Qed.

Lemma look_op op : is_plain_operator op || is_logical op = true ->
  look fixed_codes (binary_to_instruction op) = None /\ look op_codes (binary_to_instruction op) = Some op.
Proof. destruct op; try discriminate; intros _; split; reflexivity. Qed.
Lemma look_op1 op : match op with UN_MINUS | UN_NOT | UN_LOGNOT | UN_ABS => true | _ => false end = true ->
  look fixed_codes (unary_to_instruction op) = None /\ look op_codes (unary_to_instruction op) = None
  /\ look op1_codes (unary_to_instruction op) = Some op.
Proof. destruct op; try discriminate; intros _; repeat split; reflexivity. Qed.

(** The instruction of an assignment or a step. *)
Definition sets (i : Z) (op : binary) (v : variant) (keep : bool) : Prop :=
  look fixed_codes i = None /\ look op_codes i = None /\ look op1_codes i = None /\ look set_codes i = Some (op, v, keep).
Definition steps (i : Z) (op : unary) (v : variant) (keep : bool) : Prop :=
  look fixed_codes i = None /\ look op_codes i = None /\ look op1_codes i = None /\ look set_codes i = None
  /\ look step_codes i = Some (op, v, keep).
Lemma sets_word op : is_assignment op = true -> sets (binary_to_instruction op) op VWord true.
Proof. destruct op; try discriminate; intros _; repeat split; reflexivity. Qed.
Lemma sets_stack op : is_assignment op = true -> sets (instruction_to_address_ver (binary_to_instruction op)) op VStack true.
Proof. destruct op; try discriminate; intros _; repeat split; reflexivity. Qed.
Lemma sets_word_void op : is_droppable op = true -> sets (instruction_to_void_ver (binary_to_instruction op)) op VWord false.
Proof. destruct op; try discriminate; intros _; repeat split; reflexivity. Qed.
Lemma sets_stack_void op : is_assignment op = true ->
  sets (instruction_to_void_ver (instruction_to_address_ver (binary_to_instruction op))) op VStack false.
Proof. destruct op; try discriminate; intros _; repeat split; reflexivity. Qed.
Lemma steps_word op : is_step op = true -> steps (unary_to_instruction op) op VWord true.
Proof. destruct op; try discriminate; intros _; repeat split; reflexivity. Qed.
Lemma steps_stack op : is_step op = true -> steps (instruction_to_address_ver (unary_to_instruction op)) op VStack true.
Proof. destruct op; try discriminate; intros _; repeat split; reflexivity. Qed.
Lemma steps_word_void op : is_step op = true -> steps (instruction_to_void_ver (unary_to_instruction op)) op VWord false.
Proof. destruct op; try discriminate; intros _; repeat split; reflexivity. Qed.
Lemma steps_stack_void op : is_step op = true ->
  steps (instruction_to_void_ver (instruction_to_address_ver (unary_to_instruction op))) op VStack false.
Proof. destruct op; try discriminate; intros _; repeat split; reflexivity. Qed.

Section Run.
Variable w : Z -> Z.
Variable lay : layout.
Variable C : list Z.
Notation step := (step w lay C).
Notation runs := (runs w lay C).

Lemma runs_trans a b d : runs a b -> runs b d -> runs a d.
Proof. induction 1; auto. intros. econstructor; eauto. Qed.
Lemma runs_one a b : step a = Some b -> runs a b.
Proof. intros. econstructor; [eassumption|constructor]. Qed.
Lemma runs_at s p p' st m : runs s (mkVm p st m) -> p = p' -> runs s (mkVm p' st m).
Proof. intros H <-. exact H. Qed.

Ltac go H := unfold step, VmSpec.step; cbn [pc stack data]; rewrite H; cbn [bind].
Lemma go_li p x st m k : code_at C p (IC_LI :: x :: k) -> step (mkVm p st m) = Some (mkVm (p + 2) (x :: st) m).
Proof. intros H. go (at_head _ _ _ _ H). rewrite (at_second _ _ _ _ _ H). reflexivity. Qed.
Lemma go_load p x st m k : code_at C p (IC_LOAD :: x :: k) -> step (mkVm p st m) = Some (mkVm (p + 2) (m (address_of lay x) :: st) m).
Proof. intros H. go (at_head _ _ _ _ H). rewrite (at_second _ _ _ _ _ H). reflexivity. Qed.
Lemma go_la p x st m k : code_at C p (IC_LA :: x :: k) -> step (mkVm p st m) = Some (mkVm (p + 2) (address_of lay x :: st) m).
Proof. intros H. go (at_head _ _ _ _ H). rewrite (at_second _ _ _ _ _ H). reflexivity. Qed.
Lemma go_lat p a st m k : code_at C p (IC_LAT :: k) -> step (mkVm p (a :: st) m) = Some (mkVm (p + 1) (m a :: st) m).
Proof. intros H. go (at_head _ _ _ _ H). reflexivity. Qed.
Lemma go_slice p n i a st m k : code_at C p (IC_SLICE :: n :: k) -> (0 <=? i) && (i <? m (a - 1)) = true ->
  step (mkVm p (i :: a :: st) m) = Some (mkVm (p + 2) (a + i * n :: st) m).
Proof.
  intros H G. go (at_head _ _ _ _ H). rewrite (at_second _ _ _ _ _ H).
  change (look fixed_codes IC_SLICE) with (Some FSlice). cbn [bind]. rewrite G. reflexivity.
Qed.
Lemma go_select p n a st m k : code_at C p (IC_SELECT :: n :: k) -> step (mkVm p (a :: st) m) = Some (mkVm (p + 2) (a + n :: st) m).
Proof. intros H. go (at_head _ _ _ _ H). rewrite (at_second _ _ _ _ _ H). reflexivity. Qed.
Lemma go_b p a st m k : code_at C p (IC_B :: a :: k) -> step (mkVm p st m) = Some (mkVm a st m).
Proof. intros H. go (at_head _ _ _ _ H). rewrite (at_second _ _ _ _ _ H). reflexivity. Qed.
Lemma go_be0 p a v st m k : code_at C p (IC_BE0 :: a :: k) -> step (mkVm p (v :: st) m) = Some (mkVm (if v =? 0 then a else p + 2) st m).
Proof. intros H. go (at_head _ _ _ _ H). rewrite (at_second _ _ _ _ _ H). reflexivity. Qed.
Lemma go_bne0 p a v st m k : code_at C p (IC_BNE0 :: a :: k) -> step (mkVm p (v :: st) m) = Some (mkVm (if v =? 0 then p + 2 else a) st m).
Proof. intros H. go (at_head _ _ _ _ H). rewrite (at_second _ _ _ _ _ H). reflexivity. Qed.
Lemma go_duplicate p v st m k : code_at C p (IC_DUPLICATE :: k) -> step (mkVm p (v :: st) m) = Some (mkVm (p + 1) (v :: v :: st) m).
Proof. intros H. go (at_head _ _ _ _ H). reflexivity. Qed.
Lemma go_op p op a b r st m k : is_plain_operator op || is_logical op = true -> code_at C p (binary_to_instruction op :: k) ->
  operate w op a b = Some r -> step (mkVm p (b :: a :: st) m) = Some (mkVm (p + 1) (r :: st) m).
Proof. intros O H R. go (at_head _ _ _ _ H). destruct (look_op op O) as [-> ->]. rewrite R. reflexivity. Qed.
Lemma go_op1 p op a r st m k : match op with UN_MINUS | UN_NOT | UN_LOGNOT | UN_ABS => true | _ => false end = true ->
  code_at C p (unary_to_instruction op :: k) ->
  operate1 w op a = Some r -> step (mkVm p (a :: st) m) = Some (mkVm (p + 1) (r :: st) m).
Proof. intros O H R. go (at_head _ _ _ _ H). destruct (look_op1 op O) as (-> & -> & ->). rewrite R. reflexivity. Qed.
Lemma go_set_word p i op keep d v r st m k : sets i op VWord keep -> code_at C p (i :: d :: k) ->
  assigned w op (m (address_of lay d)) v = Some r ->
  step (mkVm p (v :: st) m) = Some (mkVm (p + 2) (if keep then r :: st else st) (store m (address_of lay d) r)).
Proof.
  intros (A & B & D & E) H R. go (at_head _ _ _ _ H). rewrite (at_second _ _ _ _ _ H), A, B, D, E. cbn [bind]. rewrite R. reflexivity.
Qed.
Lemma go_set_stack p i op keep a v r st m k : sets i op VStack keep -> code_at C p (i :: k) ->
  assigned w op (m a) v = Some r ->
  step (mkVm p (v :: a :: st) m) = Some (mkVm (p + 1) (if keep then r :: st else st) (store m a r)).
Proof. intros (A & B & D & E) H R. go (at_head _ _ _ _ H). rewrite A, B, D, E, R. reflexivity. Qed.
Lemma go_step_word p i op keep d v r st m k : steps i op VWord keep -> code_at C p (i :: d :: k) ->
  stepped w op (m (address_of lay d)) = Some (v, r) ->
  step (mkVm p st m) = Some (mkVm (p + 2) (if keep then r :: st else st) (store m (address_of lay d) v)).
Proof.
  intros (A & B & D & E & F) H R. go (at_head _ _ _ _ H). rewrite (at_second _ _ _ _ _ H), A, B, D, E, F. cbn [bind]. rewrite R. reflexivity.
Qed.
Lemma go_step_stack p i op keep a v r st m k : steps i op VStack keep -> code_at C p (i :: k) ->
  stepped w op (m a) = Some (v, r) ->
  step (mkVm p (a :: st) m) = Some (mkVm (p + 1) (if keep then r :: st else st) (store m a v)).
Proof. intros (A & B & D & E & F) H R. go (at_head _ _ _ _ H). rewrite A, B, D, E, F, R. reflexivity. Qed.

(** ** Expressions *)
Variable c : ctx.
Variable disp : Z -> Z.
Notation at_ := (fun id => address_of lay (disp id)).
Notation comp := (comp disp).
Notation displ_of := (displ_of disp).
Notation eval := (eval w at_).
Notation supported := (supported c disp).

(** The word [v'] the machine computes for the value [v] of an expression. *)
Definition like (n : node) (v v' : Z) : Prop :=
  (v' = 0 <-> v = 0) /\ (exact_value n = true -> v' = v) /\ (zero_one n = true -> v' = v /\ (v = 0 \/ v = 1)).

Definition good (n : node) : Prop := forall how m v m' b st,
  supported n how = true -> code_at C b (comp n how b) ->
  eval n (match how with Place => true | _ => false end) m = Some (v, m') ->
  match how with
  | Value => exists v', runs (mkVm b st m) (mkVm (b + zlen (comp n how b)) (v' :: st) m') /\ like n v v'
  | Place =>
      if direct n then m' = m /\ v = address_of lay (displ_of n)
      else runs (mkVm b st m) (mkVm (b + zlen (comp n how b)) ((if loads n then m' v else v) :: st) m')
  | Void => runs (mkVm b st m) (mkVm (b + zlen (comp n how b)) st m')
  end.

Lemma like_same n v : (zero_one n = true -> v = 0 \/ v = 1) -> like n v v.
Proof. intros H. repeat split; auto. Qed.
Lemma like_other n v : zero_one n = false -> like n v v.
Proof. intros H. apply like_same. rewrite H. discriminate. Qed.

Lemma member_address d o : 0 <= o -> address_of lay (if 0 <? d then d + o else d - o) = address_of lay d + o.
Proof. intros. unfold address_of. destruct (0 <? d) eqn:D; [replace (0 <? d + o) with true by lia|replace (0 <? d - o) with false by lia]; lia. Qed.

Lemma eval_place_value n m : is_lvalue n = true ->
  eval n false m = if one_word (type_of n) then do ' (a, m) <- eval n true m; Some (m a, m) else None.
Proof. destruct n; cbn [is_lvalue]; try discriminate; intros L; cbn [CodeSpec.eval is_lvalue type_of]; rewrite ?L; reflexivity. Qed.
Lemma place_lvalue n : supported n Place = true -> is_lvalue n = true.
Proof.
  destruct n; cbn [CodeSpec.supported is_lvalue]; try discriminate; auto.
  - intros S. apply andb_prop in S. apply S.
  - destruct op; try discriminate. intros S. apply andb_prop in S. destruct S as [S _]. apply andb_prop in S. apply S.
Qed.
Lemma lvalue_not_zero_one n : is_lvalue n = true -> supported n Place = true -> zero_one n = false.
Proof. destruct n; cbn; try discriminate; auto. destruct op; try discriminate; auto. Qed.

Ltac ands := repeat match goal with H : _ && _ = true |- _ => apply andb_prop in H; destruct H end.
Ltac opts := repeat match goal with
  | H : bind ?o _ = Some _ |- _ => let Q := fresh "Q" in destruct o eqn:Q; cbn [bind] in H; [|discriminate H]
  | H : (let (_, _) := ?p in _) = Some _ |- _ => is_var p; destruct p
  | H : Some _ = Some _ |- _ => injection H; clear H; intros; subst
  end.

(** From places to values and effects. *)
Lemma good_lvalue n : is_lvalue n = true ->
  (forall m v m' b st, supported n Place = true -> code_at C b (comp n Place b) -> eval n true m = Some (v, m') ->
    if direct n then m' = m /\ v = address_of lay (displ_of n)
    else runs (mkVm b st m) (mkVm (b + zlen (comp n Place b)) ((if loads n then m' v else v) :: st) m')) -> good n.
Proof.
  intros L P how m v m' b st S K V. destruct how.
  - rewrite supported_value_lvalue in S by exact L. ands. rewrite eval_place_value in V by exact L.
    match goal with H : one_word _ = true |- _ => rewrite H in V end. opts.
    rewrite comp_value_lvalue in K |- * by exact L.
    match goal with H : supported n Place = true |- _ => rename H into SP end.
    exists (m' z). split; [|apply like_other, lvalue_not_zero_one; assumption].
    specialize (fun st b K => P m z m' b st SP K Q). destruct (direct n) eqn:D.
    + destruct (P [] 0) as [-> ->]; [rewrite direct_comp by exact D; exists [], C; auto|].
      rewrite !zlen_cons, znil. eapply runs_at; [eapply runs_one, go_load; exact K|lia].
    + apply at_app in K. destruct K as [K1 K2]. eapply runs_trans; [exact (P st b K1)|].
      rewrite zlen_app. destruct (loads n).
      * rewrite znil. replace (b + (zlen (comp n Place b) + 0)) with (b + zlen (comp n Place b)) by lia. constructor.
      * rewrite zlen_cons, znil. eapply runs_at; [eapply runs_one, go_lat; exact K2|lia].
  - exact (P m v m' b st S K V).
  - rewrite supported_void_lvalue in S by exact L. ands. rewrite eval_place_value in V by exact L.
    match goal with H : one_word _ = true |- _ => rewrite H in V end. opts.
    rewrite comp_void_lvalue in K |- * by exact L.
    match goal with H : supported n Place = true |- _ => rename H into SP end.
    specialize (P m z m' b st SP K Q). match goal with H : direct n = true |- _ => rewrite H in P; rewrite (direct_comp disp n b H) end.
    destruct P as [-> _]. rewrite znil, Z.add_0_r. constructor.
Qed.

(** For other expressions: the value, and the effect from the same parts. *)
Lemma good_value n : is_lvalue n = false -> (supported n Place = true -> False) ->
  (forall m v m' b st, supported n Value = true -> code_at C b (comp n Value b) -> eval n false m = Some (v, m') ->
    exists v', runs (mkVm b st m) (mkVm (b + zlen (comp n Value b)) (v' :: st) m') /\ like n v v') ->
  (forall m v m' b st, supported n Void = true -> code_at C b (comp n Void b) -> eval n false m = Some (v, m') ->
    runs (mkVm b st m) (mkVm (b + zlen (comp n Void b)) st m')) -> good n.
Proof.
  intros L P V E how m v m' b st S K Q. destruct how; [eapply V; eassumption|destruct (P S)|eapply E; eassumption].
Qed.

(** Run a part of the code. *)
Ltac cut K := apply at_app in K; let A := fresh "K" in destruct K as [A K].
Ltac len := rewrite ?zlen_app, ?zlen_cons, ?znil.

Lemma place_of_good n m v m' b st : good n -> supported n Place = true -> direct n || negb (loads n) = true ->
  code_at C b (comp n Place b) -> eval n true m = Some (v, m') ->
  if direct n then m' = m /\ v = address_of lay (displ_of n)
  else runs (mkVm b st m) (mkVm (b + zlen (comp n Place b)) (v :: st) m').
Proof.
  intros G S D K V. generalize (G Place m v m' b st S K V). destruct (direct n) eqn:E; auto. cbn [orb] in D.
  apply negb_true_iff in D. rewrite D. auto.
Qed.
Lemma value_exact n m v m' b st : good n -> supported n Value = true -> exact_value n = true ->
  code_at C b (comp n Value b) -> eval n false m = Some (v, m') ->
  runs (mkVm b st m) (mkVm (b + zlen (comp n Value b)) (v :: st) m').
Proof. intros G S X K V. destruct (G Value m v m' b st S K V) as (v' & R & _ & E & _). rewrite (E X) in R. exact R. Qed.

Ltac exact_part n := match goal with K : code_at C ?b (comp n Value ?b), Q : eval n false ?m = Some (?v, ?m') |- runs (mkVm ?b ?st ?m) _ =>
  eapply runs_trans; [refine (value_exact n m v m' b st _ _ _ K Q); assumption|] end.
Ltac do_step l K := eapply runs_trans; [eapply runs_one; eapply l; exact K|].
Ltac done := eapply runs_at; [apply runs_here|len; lia].
Ltac next K := apply at_tail in K; try (match type of K with code_at C (?x + 1 + 1) _ => replace (x + 1 + 1) with (x + 2) in K by lia end).
Lemma good_place n : (forall x, In x (match n with NSubscript _ a b => [a; b] | NMember _ _ _ _ a | NUnary _ _ _ a => [a] | _ => [] end) -> good x) ->
  forall m v m' b st, supported n Place = true -> code_at C b (comp n Place b) -> eval n true m = Some (v, m') ->
    if direct n then m' = m /\ v = address_of lay (displ_of n)
    else runs (mkVm b st m) (mkVm (b + zlen (comp n Place b)) ((if loads n then m' v else v) :: st) m').
Proof.
  intros I m v m' b st S K V. destruct n; cbn [CodeSpec.supported] in S; try discriminate S.
  - cbn in V. injection V as <- <-. cbn. auto.
  - (* subscript *)
    ands. cbn [CodeExpr.comp] in K |- *. cbv zeta in K |- *. cbn [CodeSpec.eval] in V. opts.
    destruct ((0 <=? z0) && (z0 <? c1 (z - 1))) eqn:G; [|discriminate V]. opts.
    cut K. cut K. cbn [app] in *. assert (I1 := I n1 (or_introl eq_refl)). assert (I2 := I n2 (or_intror (or_introl eq_refl))).
    cbn [direct]. exact_part n1. exact_part n2.
    eapply runs_trans; [eapply runs_one, go_slice; [exact K|exact G]|].
    next K. next K. unfold lat in *. destruct (loads (NSubscript t n1 n2)); [do_step go_lat K|]; done.
  - (* member *)
    ands. assert (I1 := I n (or_introl eq_refl)). cbn [CodeExpr.comp] in K |- *. cbn [CodeSpec.eval] in V. destruct arrow; ands.
    + opts. cut K. cbn [direct app] in *. exact_part n. do_step go_select K. next K. next K.
      unfold lat in *. destruct (loads (NMember t true index true n)); [do_step go_lat K|]; done.
    + opts. pose proof (offset_nonneg (members (type_of n)) (Z.to_nat index)) as O. cbn [direct CodeSpec.displ_of].
      match goal with H : supported n Place = true, H' : direct n || negb (loads n) = true |- _ => pose proof (fun K => place_of_good n m z m' b st I1 H H' K Q) as P end.
      destruct (direct n) eqn:D.
      * destruct P as [-> ->]; [rewrite direct_comp by exact D; exact K|]. split; [reflexivity|]. symmetry. apply member_address. exact O.
      * cut K. cbn [app] in *. eapply runs_trans; [exact (P K0)|]. do_step go_select K. next K. next K.
        unfold lat in *. destruct (loads (NMember t true index false n)); [do_step go_lat K|]; done.
  - (* indirection *)
    destruct op; try discriminate S. ands. assert (I1 := I n (or_introl eq_refl)). cbn [CodeExpr.comp] in K |- *. cbn [CodeSpec.eval] in V.
    cbn [direct]. replace (loads (NUnary t true UN_INDIRECTION n)) with false by reflexivity.
    match goal with H : supported n Place = true |- _ => rename H into SP end.
    rewrite (eval_place_value n m (place_lvalue n SP)) in V.
    destruct (one_word (type_of n)); [|discriminate V]. opts.
    assert (P := fun K => I1 Place m z m' b st SP K Q). cbn iota in P.
    destruct (direct n) eqn:D.
    + destruct P as [-> ->]; [rewrite direct_comp by exact D; exists (firstn (Z.to_nat b) C), (skipn (Z.to_nat b) C)|].
      { destruct K as (p & q & E & L). pose proof (zlen_nonneg p). split; [symmetry; apply firstn_skipn|].
        rewrite zlen_unf in *. rewrite firstn_length, E, app_length. lia. }
      do_step go_load K. done.
    + match goal with H : _ || _ = true |- _ => cbn in H; rewrite H in P end. eapply runs_trans; [exact (P K)|]. constructor.
Qed.

Lemma truth_01 x : truth x = 0 \/ truth x = 1.
Proof. destruct x; auto. Qed.
Lemma lit_zero_one t l v : lit_value t l = Some v -> zero_one (NLit t l) = true -> v = 0 \/ v = 1.
Proof.
  unfold lit_value. destruct l; try discriminate. destruct (unqualified t); try discriminate.
  destruct (_ =? _); [|discriminate]. intros [= <-] _. apply truth_01.
Qed.
Lemma operate_zero_one op a b v : operate w op a b = Some v ->
  match op with BIN_LT | BIN_GT | BIN_LE | BIN_GE | BIN_EQ | BIN_NE => true | _ => false end = true -> v = 0 \/ v = 1.
Proof. destruct op; try discriminate; cbn; intros [= <-] _; apply truth_01. Qed.

Lemma good_unary t lv op x : good x -> good (NUnary t lv op x).
Proof.
  intros G. destruct lv.
  - apply good_lvalue; [reflexivity|]. apply good_place. intros y [<-|[]]. exact G.
  - apply good_value; [reflexivity|destruct op; discriminate| |]; intros m v m' b st S K V.
    + cbn [CodeSpec.supported is_lvalue] in S. cbn [CodeExpr.comp is_lvalue] in K |- *. cbn [CodeSpec.eval is_lvalue] in V.
      destruct (is_step op) eqn:P.
      * ands. replace (match op with UN_ADDRESS => eval x true m | _ => do ' (a, m) <- eval x true m; do ' (v, r) <- stepped w op (m a); Some (r, store m a v) end)
          with (do ' (a, m) <- eval x true m; do ' (v, r) <- stepped w op (m a); Some (r, store m a v)) in V by (destruct op; try discriminate P; reflexivity).
        opts. cut K. exists v. split; [|apply like_other; destruct op; try discriminate P; reflexivity].
        match goal with H : supported x Place = true, H' : direct x || negb (loads x) = true |- _ => pose proof (place_of_good x m z c0 b st G H H' K0 Q) as R end.
        unfold step_code in *. destruct (direct x) eqn:D.
        -- destruct R as [-> ->]. rewrite direct_comp in K |- * by exact D. rewrite znil, Z.add_0_r in K. cbn [app].
           eapply runs_at; [eapply runs_one, (go_step_word _ _ _ true); [apply steps_word, P|exact K|eassumption]|len; lia].
        -- eapply runs_trans; [exact R|].
           eapply runs_at; [eapply runs_one, (go_step_stack _ _ _ true); [apply steps_stack, P|exact K|eassumption]|len; lia].
      * destruct op; try discriminate S; try discriminate P; ands; cbn [is_step] in V; opts; cut K.
        -- (* address *)
           exists v. split; [|apply like_other; reflexivity].
           match goal with H : supported x Place = true, H' : direct x || negb (loads x) = true |- _ => pose proof (place_of_good x m v m' b st G H H' K0 V) as R end.
           destruct (direct x) eqn:D.
           ++ destruct R as [-> ->]. rewrite direct_comp in K |- * by exact D. rewrite znil, Z.add_0_r in K. cbn [app].
              do_step go_la K. done.
           ++ eapply runs_trans; [exact R|]. done.
        -- exists v. split; [|apply like_other; reflexivity]. exact_part x. eapply runs_trans; [eapply runs_one, (go_op1 _ UN_MINUS); [reflexivity|exact K|eassumption]|]. done.
        -- exists v. split; [|apply like_other; reflexivity]. exact_part x. eapply runs_trans; [eapply runs_one, (go_op1 _ UN_NOT); [reflexivity|exact K|eassumption]|]. done.
        -- exists v. destruct (G Value m z m' b st S K0 Q) as (z' & R & Z0 & _ & _). cbn in Q0. injection Q0 as <-. split.
           ++ eapply runs_trans; [exact R|]. eapply runs_trans; [eapply runs_one, (go_op1 _ UN_LOGNOT _ (truth (z =? 0))); [reflexivity|exact K|]|].
              { cbn. replace (z' =? 0) with (z =? 0) by lia. reflexivity. }
              done.
           ++ apply like_same. intros _. apply truth_01.
        -- exists v. split; [|apply like_other; reflexivity]. exact_part x. eapply runs_trans; [eapply runs_one, (go_op1 _ UN_ABS); [reflexivity|exact K|eassumption]|]. done.
    + cbn [CodeSpec.supported is_lvalue] in S. apply andb_prop in S. destruct S as [S S']. apply andb_prop in S'. destruct S' as [P D0].
      rewrite P in S. ands. cbn [CodeExpr.comp is_lvalue] in K |- *. cbn [CodeSpec.eval is_lvalue] in V. rewrite P in V.
      replace (match op with UN_ADDRESS => eval x true m | _ => do ' (a, m) <- eval x true m; do ' (v, r) <- stepped w op (m a); Some (r, store m a v) end)
        with (do ' (a, m) <- eval x true m; do ' (v, r) <- stepped w op (m a); Some (r, store m a v)) in V by (destruct op; try discriminate P; reflexivity).
      opts. cut K.
      match goal with H : supported x Place = true, H' : direct x || negb (loads x) = true |- _ => pose proof (place_of_good x m z c0 b st G H H' K0 Q) as R end.
      unfold step_code in *. destruct (direct x) eqn:D; cbn [drop] in *.
      * destruct R as [-> ->]. rewrite direct_comp in K |- * by exact D. rewrite znil, Z.add_0_r in K. cbn [app].
        eapply runs_at; [eapply runs_one, (go_step_word _ _ _ false); [apply steps_word_void, P|exact K|eassumption]|len; lia].
      * eapply runs_trans; [exact R|].
        eapply runs_at; [eapply runs_one, (go_step_stack _ _ _ false); [apply steps_stack_void, P|exact K|eassumption]|len; lia].
Qed.

Lemma good_plain t op l r : is_plain_operator op = true -> good l -> good r -> good (NBinary t op l r).
Proof.
  intros P Gl Gr. apply good_value; [reflexivity|discriminate| |]; intros m v m' b st S K V.
  - assert (S' : is_plain_operator op && negb (is_floating (type_of l)) && supported l Value && supported r Value
      && exact_value l && exact_value r = true) by (destruct op; try discriminate P; exact S).
    assert (K' : code_at C b (comp l Value b ++ comp r Value (b + zlen (comp l Value b)) ++ [binary_to_instruction op]))
      by (destruct op; try discriminate P; exact K).
    assert (V' : (do ' (a, m) <- eval l false m; do ' (b, m) <- eval r false m; do v <- operate w op a b; Some (v, m)) = Some (v, m'))
      by (destruct op; try discriminate P; exact V).
    clear S K V. ands. opts. exists v. split.
    + replace (comp (NBinary t op l r) Value b) with (comp l Value b ++ comp r Value (b + zlen (comp l Value b)) ++ [binary_to_instruction op])
        by (destruct op; try discriminate P; reflexivity).
      rename K' into K. cut K. cut K. exact_part l. exact_part r.
      eapply runs_trans; [eapply runs_one, go_op; [rewrite P; reflexivity|exact K|eassumption]|]. done.
    + apply like_same. intros Z1. eapply operate_zero_one; [eassumption|]. destruct op; try discriminate P; try discriminate Z1; reflexivity.
  - exfalso. destruct op; try discriminate P; cbn [CodeSpec.supported is_lvalue] in S; apply andb_prop in S; destruct S as [_ S]; discriminate S.
Qed.

Lemma good_comma t l r : good l -> good r -> good (NBinary t BIN_COMMA l r).
Proof.
  intros Gl Gr. apply good_value; [reflexivity|discriminate| |]; intros m v m' b st S K V;
    cbn [CodeSpec.supported is_lvalue] in S; cbn [CodeExpr.comp is_lvalue] in K |- *; cbv zeta in K |- *; cbn [CodeSpec.eval is_lvalue] in V;
    ands; opts; cut K.
  - match goal with H : supported l Void = true |- _ => pose proof (Gl Void m z c0 b st H K0 Q) as R end.
    match goal with H : supported r Value = true |- _ => destruct (Gr Value c0 v m' _ st H K V) as (v' & R' & L) end.
    exists v'. split; [|exact L]. eapply runs_trans; [exact R|]. eapply runs_at; [exact R'|len; lia].
  - match goal with H : supported l Void = true |- _ => pose proof (Gl Void m z c0 b st H K0 Q) as R end.
    match goal with H : supported r Void = true |- _ => pose proof (Gr Void c0 v m' _ st H K V) as R' end.
    eapply runs_trans; [exact R|]. eapply runs_at; [exact R'|len; lia].
Qed.

Lemma good_and t l r : good l -> good r -> good (NBinary t BIN_LOG_AND l r).
Proof.
  intros Gl Gr. apply good_value; [reflexivity|discriminate| |]; intros m v m' b st S K V;
    cbn [CodeSpec.supported is_lvalue] in S; [|apply andb_prop in S; destruct S as [_ S]; discriminate S].
  cbn [CodeExpr.comp is_lvalue] in K |- *; cbv zeta in K |- *; cbn [CodeSpec.eval is_lvalue] in V. ands. opts.
  cut K. cbn [app] in K. match goal with H : supported l Value = true |- _ => destruct (Gl Value m z c0 b st H K0 Q) as (a & R & Za & _ & _) end.
  assert (T : forall x, operate w BIN_LOG_AND a x = Some (truth (negb (z =? 0) && negb (x =? 0)))) by (intros; cbn; replace (a =? 0) with (z =? 0) by lia; reflexivity).
  destruct (z =? 0) eqn:E; opts.
  - exists 0. split; [|apply like_same; auto]. replace a with 0 in * by lia. eapply runs_trans; [exact R|]. do_step go_duplicate K. next K. do_step go_be0 K.
    cbn [Z.eqb]. done.
  - rename z0 into y, Q0 into Qr.
    exists (truth (negb (y =? 0))). split; [|apply like_same; intros; apply truth_01].
    eapply runs_trans; [exact R|]. do_step go_duplicate K. next K. do_step go_be0 K. next K. next K.
    replace (a =? 0) with false by lia. replace (b + zlen (comp l Value b) + 1 + 2) with (b + zlen (comp l Value b) + 3) by lia.
    replace (b + zlen (comp l Value b) + 2 + 1) with (b + zlen (comp l Value b) + 3) in K by lia.
    cut K. match goal with H : supported r Value = true, K' : code_at C _ (comp r Value _) |- _ => destruct (Gr Value c0 y m' _ (a :: st) H K' Qr) as (y' & R' & Zy & _ & _) end.
    eapply runs_trans; [exact R'|]. eapply runs_trans; [eapply runs_one, (go_op _ BIN_LOG_AND); [reflexivity|exact K|apply T]|].
    cbn [negb andb]. replace (y' =? 0) with (y =? 0) by lia. done.
Qed.
Lemma good_or t l r : good l -> good r -> good (NBinary t BIN_LOG_OR l r).
Proof.
  intros Gl Gr. apply good_value; [reflexivity|discriminate| |]; intros m v m' b st S K V;
    cbn [CodeSpec.supported is_lvalue] in S; [|apply andb_prop in S; destruct S as [_ S]; discriminate S].
  cbn [CodeExpr.comp is_lvalue] in K |- *; cbv zeta in K |- *; cbn [CodeSpec.eval is_lvalue] in V. ands. opts.
  cut K. cbn [app] in K. match goal with H : supported l Value = true |- _ => destruct (Gl Value m z c0 b st H K0 Q) as (a & R & Za & _ & Zo) end.
  assert (T : forall x, operate w BIN_LOG_OR a x = Some (truth (negb (z =? 0) || negb (x =? 0)))) by (intros; cbn; replace (a =? 0) with (z =? 0) by lia; reflexivity).
  destruct (z =? 0) eqn:E; opts.
  - rename z0 into y, Q0 into Qr.
    exists (truth (negb (y =? 0))). split; [|apply like_same; intros; apply truth_01].
    eapply runs_trans; [exact R|]. do_step go_duplicate K. next K. do_step go_bne0 K. next K. next K.
    replace (a =? 0) with true by lia. replace (b + zlen (comp l Value b) + 1 + 2) with (b + zlen (comp l Value b) + 3) by lia.
    replace (b + zlen (comp l Value b) + 2 + 1) with (b + zlen (comp l Value b) + 3) in K by lia.
    cut K. match goal with H : supported r Value = true, K' : code_at C _ (comp r Value _) |- _ => destruct (Gr Value c0 y m' _ (a :: st) H K' Qr) as (y' & R' & Zy & _ & _) end.
    eapply runs_trans; [exact R'|]. eapply runs_trans; [eapply runs_one, (go_op _ BIN_LOG_OR); [reflexivity|exact K|apply T]|].
    cbn [negb orb]. replace (y' =? 0) with (y =? 0) by lia. done.
  - exists a. split.
    + eapply runs_trans; [exact R|]. do_step go_duplicate K. next K. do_step go_bne0 K.
      replace (a =? 0) with false by lia. done.
    + unfold like. cbn [exact_value zero_one]. split; [lia|]. split; [intros X|intros X; split; [|auto]]; destruct (Zo X) as [-> [X'|X']]; lia.
Qed.

Lemma good_ternary t x l r : good x -> good l -> good r -> good (NTernary t x l r).
Proof.
  intros Gx Gl Gr. apply good_value; [reflexivity|discriminate| |]; intros m v m' b st S K V;
    cbn [CodeSpec.supported is_lvalue] in S; [|apply andb_prop in S; destruct S as [_ S]; discriminate S].
  cbn [CodeExpr.comp is_lvalue] in K |- *; cbv zeta in K |- *; cbn [CodeSpec.eval is_lvalue] in V. ands. opts.
  cut K. cbn [app] in K. match goal with H : supported x Value = true |- _ => destruct (Gx Value m z c0 b st H K0 Q) as (a & R & Za & _ & _) end.
  set (kx := comp x Value b) in *. set (kl := comp l Value (b + zlen kx + 2)) in *. set (kr := comp r Value (b + zlen kx + 2 + zlen kl + 2)) in *.
  assert (J := K). next K. next K. cut K. cbn [app] in K. assert (J' := K). next K. next K.
  destruct (z =? 0) eqn:E.
  - match goal with H : supported r Value = true |- _ => destruct (Gr Value c0 v m' _ st H K V) as (v' & R' & L0 & L1 & L2) end.
    exists v'. split.
    + eapply runs_trans; [exact R|]. do_step go_be0 J. replace (a =? 0) with true by lia. eapply runs_at; [exact R'|]. fold kr. len. lia.
    + unfold like. cbn [exact_value zero_one]. split; [exact L0|]. split; intros X; apply andb_prop in X; destruct X; auto.
  - match goal with H : supported l Value = true |- _ => destruct (Gl Value c0 v m' _ st H K1 V) as (v' & R' & L0 & L1 & L2) end.
    exists v'. split.
    + eapply runs_trans; [exact R|]. do_step go_be0 J. replace (a =? 0) with false by lia. eapply runs_trans; [exact R'|]. fold kl.
      do_step go_b J'. done.
    + unfold like. cbn [exact_value zero_one]. split; [exact L0|]. split; intros X; apply andb_prop in X; destruct X; auto.
Qed.

Lemma good_assign t op l r : good l -> good r -> good (NAssign t op l r).
Proof.
  intros Gl Gr. apply good_value; [reflexivity|discriminate| |]; intros m v m' b st S K V;
    cbn [CodeSpec.supported is_lvalue] in S; cbn [CodeExpr.comp is_lvalue] in K |- *; cbv zeta in K |- *; cbn [CodeSpec.eval is_lvalue] in V.
  - ands. opts. cut K. cut K.
    match goal with H : supported l Place = true, H' : direct l || negb (loads l) = true |- _ => pose proof (place_of_good l m z c0 b st Gl H H' K0 Q) as R end.
    exists v. split; [|apply like_other; reflexivity].
    unfold set_code in *. destruct (direct l) eqn:D.
    + destruct R as [-> ->]. rewrite direct_comp in * by exact D. rewrite znil, Z.add_0_r in *. cbn [app].
      exact_part r.
      eapply runs_at; [eapply runs_one, (go_set_word _ _ _ true); [apply (sets_word op); assumption|exact K|eassumption]|len; lia].
    + eapply runs_trans; [exact R|]. exact_part r.
      eapply runs_at; [eapply runs_one, (go_set_stack _ _ _ true); [apply (sets_stack op); assumption|exact K|eassumption]|len; lia].
  - apply andb_prop in S. destruct S as [S DR]. ands. opts. cut K. cut K.
    match goal with H : supported l Place = true, H' : direct l || negb (loads l) = true |- _ => pose proof (place_of_good l m z c0 b st Gl H H' K0 Q) as R end.
    unfold set_code, droppable in *. destruct (direct l) eqn:D; cbn [drop] in *.
    + apply andb_prop in DR. destruct DR as [_ DR].
      destruct R as [-> ->]. rewrite direct_comp in * by exact D. rewrite znil, Z.add_0_r in *. cbn [app].
      exact_part r.
      eapply runs_at; [eapply runs_one, (go_set_word _ _ _ false); [apply (sets_word_void op); assumption|exact K|eassumption]|len; lia].
    + eapply runs_trans; [exact R|]. exact_part r.
      eapply runs_at; [eapply runs_one, (go_set_stack _ _ _ false); [apply (sets_stack_void op); assumption|exact K|eassumption]|len; lia].
Qed.

Lemma good_nothing n : is_lvalue n = false -> (forall how, supported n how = false) -> good n.
Proof. intros L S how m v m' b st H. rewrite S in H. discriminate H. Qed.

Theorem good_all : forall n, good n.
Proof.
  induction n.
  - apply good_lvalue; [reflexivity|]. apply good_place. intros x [].
  - apply good_value; [reflexivity|discriminate| |intros m v m' b st S; cbn in S; rewrite andb_false_r in S; discriminate S]. intros m v m' b st S K V.
    cbn [CodeSpec.supported is_lvalue CodeExpr.comp CodeSpec.eval] in *. opts. exists v. split.
    + do_step go_li K. done.
    + apply like_same. apply lit_zero_one. exact Q.
  - apply good_lvalue; [reflexivity|]. apply good_place. intros x [<-|[<-|[]]]; assumption.
  - apply good_nothing; [reflexivity|]. intros []; reflexivity.
  - destruct lvalue.
    + apply good_lvalue; [reflexivity|]. apply good_place. intros x [<-|[]]; assumption.
    + apply good_nothing; [reflexivity|]. intros []; reflexivity.
  - apply good_nothing; [reflexivity|]. intros []; reflexivity.
  - apply good_unary. exact IHn.
  - destruct op; try (apply good_plain; [reflexivity|assumption..]);
      [apply good_and|apply good_or|..]; try assumption; try (apply good_nothing; [reflexivity|]; intros []; reflexivity).
    apply good_comma; assumption.
  - apply good_ternary; assumption.
  - apply good_assign; assumption.
  - apply good_nothing; [reflexivity|]. intros []; reflexivity.
  - apply good_nothing; [reflexivity|]. intros []; reflexivity.
Qed.
End Run.

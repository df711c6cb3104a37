(** Proofs for C79 and C80. *)
From Verif Require Import Prelude CodeModel MipsModel MipsSpec.

(** ** Temporary registers *)

(** The histories of taking, freeing and locking: the table, and which registers
    are held.  A general register is only taken while one of $t0-$t7 is free. *)
Inductive uses : list bool -> (Z -> Prop) -> Prop :=
| u_start : uses no_registers (fun _ => False)
| u_take t H r t' : uses t H -> (exists q, temporary q /\ ~ H q) -> get_register t = Some (r, t') -> uses t' (fun x => x = r \/ H x)
| u_take_float t H r t' : uses t H -> get_float_register t = Some (r, t') -> uses t' (fun x => x = r \/ H x)
| u_free t H r : uses t H -> uses (free_register t r) (fun x => H x /\ x <> r)
| u_lock t H r : uses t H -> uses (lock_register t r) (fun x => x = r \/ H x).

Definition tracked (r i : Z) : Prop := (8 <= r <= 15 /\ i = r - 8) \/ (24 <= r <= 25 /\ i = r - 16) \/ (40 <= r <= 51 /\ i = r - 30).
Lemma tracked_inj r r' i : tracked r i -> tracked r' i -> r = r'.
Proof. unfold tracked. lia. Qed.
Lemma tracked_fun r i i' : tracked r i -> tracked r i' -> i = i'.
Proof. unfold tracked. lia. Qed.
Lemma tracked_dec r : (exists i, tracked r i) \/ (forall i, ~ tracked r i).
Proof.
  unfold tracked. destruct (Z_le_dec 8 r), (Z_le_dec r 15); try (left; exists (r - 8); lia);
  destruct (Z_le_dec 24 r), (Z_le_dec r 25); try (left; exists (r - 16); lia);
  destruct (Z_le_dec 40 r), (Z_le_dec r 51); try (left; exists (r - 30); lia); right; intros i; lia.
Qed.
Lemma tracked_range r i : tracked r i -> 0 <= i < 22.
Proof. unfold tracked. lia. Qed.

Definition table_of (t : list bool) (H : Z -> Prop) : Prop :=
  zlen t = 22 /\ forall r i, tracked r i -> exists b, znth t i = Some b /\ (b = true <-> H r).

Lemma set_tracked b t r i : tracked r i -> set_register b t r = zupd t i b.
Proof.
  unfold tracked, set_register, R_T0, R_T7, R_T8, R_T9, R_FT0, R_FT11, TEMP_REG_AMOUNT. intros [(A & ->)|[(A & ->)|(A & ->)]].
  - replace ((8 <=? r) && (r <=? 15)) with true by lia. reflexivity.
  - replace ((8 <=? r) && (r <=? 15)) with false by lia. replace ((24 <=? r) && (r <=? 25)) with true by lia. f_equal. lia.
  - replace ((8 <=? r) && (r <=? 15)) with false by lia. replace ((24 <=? r) && (r <=? 25)) with false by lia.
    replace ((40 <=? r) && (r <=? 51)) with true by lia. f_equal. lia.
Qed.
Lemma set_other b t r : (forall i, ~ tracked r i) -> set_register b t r = t.
Proof.
  unfold tracked, set_register, R_T0, R_T7, R_T8, R_T9, R_FT0, R_FT11, TEMP_REG_AMOUNT. intros N.
  replace ((8 <=? r) && (r <=? 15)) with false by (specialize (N (r - 8)); lia).
  replace ((24 <=? r) && (r <=? 25)) with false by (specialize (N (r - 16)); lia).
  replace ((40 <=? r) && (r <=? 51)) with false by (specialize (N (r - 30)); lia). reflexivity.
Qed.
Lemma table_upd t H r i b H' : table_of t H -> tracked r i -> (forall x, x <> r -> (H' x <-> H x)) -> (b = true <-> H' r) -> table_of (zupd t i b) H'.
Proof.
  intros (L & T) R O B. split; [rewrite zlen_zupd; exact L|]. intros x j X. destruct (Z.eq_dec x r) as [->|N].
  - rewrite (tracked_fun r j i X R). exists b. rewrite znth_zupd_same by (rewrite L; apply (tracked_range r); exact R). auto.
  - rewrite znth_zupd_other by (intros ->; apply N; apply (tracked_inj x r j); assumption). destruct (T x j X) as (c & E & C). exists c. split; [exact E|].
    rewrite C. symmetry. apply O. exact N.
Qed.
Lemma table_set t H r b H' : table_of t H -> (forall x, x <> r -> (H' x <-> H x)) -> (b = true <-> H' r) -> table_of (set_register b t r) H'.
Proof.
  intros T O B. destruct (tracked_dec r) as [(i & R)|N].
  - rewrite (set_tracked b t r i R). apply (table_upd t H r i b H'); assumption.
  - rewrite set_other by exact N. destruct T as (L & T). split; [exact L|]. intros x j X. destruct (T x j X) as (c & E & C). exists c. split; [exact E|].
    rewrite C. symmetry. apply O. intros ->. apply (N j X).
Qed.

Lemma find_ok t s : 0 < s -> forall M fuel i, (M < fuel)%nat -> 0 <= i -> i + s * Z.of_nat M <= zlen t ->
  exists m, 0 <= m <= Z.of_nat M /\ find_free fuel t i s (i + s * Z.of_nat M) = Some (i + s * m) /\
    (forall j, 0 <= j < m -> znth t (i + s * j) = Some true) /\ (m < Z.of_nat M -> znth t (i + s * m) = Some false).
Proof.
  intros S. induction M as [|M IH]; intros fuel i F I L; (destruct fuel as [|fuel]; [lia|]); cbn [find_free].
  - exists 0. change (Z.of_nat 0) with 0. rewrite Z.mul_0_r, Z.add_0_r, Z.ltb_irrefl. repeat split; try lia; intros; lia.
  - replace (i <? _) with true by nia. destruct (znth_ex t i) as (b & E); [nia|]. rewrite E. cbn [bind]. destruct b.
    + destruct (IH fuel (i + s)) as (m & R & Q & A & B); [lia|lia|nia|]. exists (m + 1).
      replace (i + s * Z.of_nat (Datatypes.S M)) with (i + s + s * Z.of_nat M) by nia. rewrite Q. repeat split; try lia; [f_equal; lia| |].
      * intros j J. destruct (Z.eq_dec j 0) as [->|N]; [rewrite Z.mul_0_r, Z.add_0_r; exact E|].
        replace (i + s * j) with (i + s + s * (j - 1)) by lia. apply A. lia.
      * intros H. replace (i + s * (m + 1)) with (i + s + s * m) by lia. apply B. lia.
    + exists 0. rewrite Z.mul_0_r, Z.add_0_r. repeat split; try lia. auto.
Qed.

(** What [get_register] gives on a table. *)
Lemma get_ok t H : table_of t H -> (exists q, temporary q /\ ~ H q) ->
  exists r, get_register t = Some (r, zupd t (r - 8) true) /\ temporary r /\ ~ H r /\ forall x, temporary x -> x < r -> H x.
Proof.
  intros (L & T) (q & Q & NQ). unfold get_register. destruct (find_ok t 1 ltac:(lia) 10 23 0) as (m & R & E & A & B); [lia|lia|lia|].
  change (0 + 1 * Z.of_nat 10) with TEMP_REG_AMOUNT in E. change (Z.of_nat 10) with 10 in *. rewrite E. cbn [bind]. unfold temporary in *.
  assert (M : m <= q - 8).
  { destruct (Z_le_dec m (q - 8)); [assumption|]. exfalso. destruct (T q (q - 8)) as (b & Eb & Hb); [left; lia|].
    specialize (A (q - 8) ltac:(lia)). replace (0 + 1 * (q - 8)) with (q - 8) in A by lia. rewrite A in Eb. inversion Eb; subst. tauto. }
  exists (m + 8). unfold TEMP_REG_AMOUNT, R_T0. replace (0 + 1 * m) with m in * by lia. replace (m =? 10) with false by lia. replace (m + 8 - 8) with m by lia.
  split; [reflexivity|]. split; [lia|]. split.
  - intros HM. destruct (T (m + 8) m) as (b & Eb & Hb); [left; lia|]. rewrite B in Eb by lia. inversion Eb; subst. apply Hb in HM. discriminate.
  - intros x X1 X2. destruct (T x (x - 8)) as (b & Eb & Hb); [left; lia|]. specialize (A (x - 8) ltac:(lia)). replace (0 + 1 * (x - 8)) with (x - 8) in A by lia.
    rewrite A in Eb. inversion Eb; subst. apply Hb. reflexivity.
Qed.
Lemma get_float_ok t H : table_of t H ->
  (exists r, get_float_register t = Some (r, zupd t (r - 30) true) /\ float_temporary r /\ ~ H r /\ forall x, float_temporary x -> x < r -> H x) \/
  (get_float_register t = None /\ forall x, float_temporary x -> H x).
Proof.
  intros (L & T). unfold get_float_register. destruct (find_ok t 2 ltac:(lia) 6 23 10) as (m & R & E & A & B); [lia|lia|lia|].
  change (Z.of_nat 6) with 6 in *. unfold TEMP_REG_AMOUNT, TEMP_FP_REG_AMOUNT. change (12 + 10) with (10 + 2 * 6). rewrite E. cbn [bind].
  assert (HX : forall x, float_temporary x -> x < 40 + 2 * m -> H x).
  { intros x (X1 & X2) X3. assert (X4 : exists j, x = 40 + 2 * j /\ 0 <= j < m) by (exists ((x - 40) / 2); Z.div_mod_to_equations; lia). destruct X4 as (j & -> & J).
    destruct (T (40 + 2 * j) (10 + 2 * j)) as (b & Eb & Hb); [right; right; lia|]. rewrite A in Eb by lia. inversion Eb; subst. apply Hb. reflexivity. }
  destruct (Z.eq_dec m 6) as [->|M].
  - right. split; [reflexivity|]. intros x X. apply HX; [exact X|]. unfold float_temporary in X. lia.
  - left. exists (40 + 2 * m). replace (10 + 2 * m =? 10 + 2 * 6) with false by lia. unfold R_FT0.
    replace (10 + 2 * m + 40 - 10) with (40 + 2 * m) by lia. replace (40 + 2 * m - 30) with (10 + 2 * m) by lia. split; [reflexivity|].
    split; [unfold float_temporary; Z.div_mod_to_equations; lia|]. split; [|exact HX].
    intros HM. destruct (T (40 + 2 * m) (10 + 2 * m)) as (b & Eb & Hb); [right; right; lia|]. rewrite B in Eb by lia. inversion Eb; subst. apply Hb in HM. discriminate.
Qed.

Lemma uses_table t H : uses t H -> table_of t H.
Proof.
  induction 1 as [|t H r t' U IH Q E|t H r t' U IH E|t H r U IH|t H r U IH].
  - split; [reflexivity|]. intros r i R. exists false. split; [|split; [discriminate|tauto]]. unfold no_registers. apply znth_repeat. apply (tracked_range r). exact R.
  - destruct (get_ok t H IH Q) as (r' & E' & R & _). rewrite E in E'. inversion E'; subst. apply (table_upd t H r' (r' - 8) true); auto.
    + left. unfold temporary in R. lia.
    + intros x N. tauto.
    + tauto.
  - destruct (get_float_ok t H IH) as [(r' & E' & R & _)|(E' & _)]; rewrite E in E'; [|discriminate]. inversion E'; subst. apply (table_upd t H r' (r' - 30) true); auto.
    + right; right. unfold float_temporary in R. lia.
    + intros x N. tauto.
    + tauto.
  - apply (table_set t H r false); auto; [intros x N; tauto|]. split; [discriminate|tauto].
  - apply (table_set t H r true); auto; [intros x N; tauto|]. tauto.
Qed.

(** ** Arguments *)
Lemma places_agree kinds : forall i a f regs fregs, 0 <= a -> 0 <= f -> f mod 2 = 0 -> regs = Z.min 4 a -> fregs = Z.min 2 (f / 2) ->
  Forall2 (fun x p => match x, p with
                      | InRegister r, InRegister r' => r = r'
                      | OnStack d, OnStack d' => d' = d + FUNC_DISPL_PRESERVED + WORD_LENGTH
                      | _, _ => False
                      end) (arguments_loop i a f kinds) (parameters_loop i regs fregs kinds).
Proof.
  induction kinds as [|k kinds IH]; intros i a f regs fregs A F P R FR; cbn [arguments_loop parameters_loop]; [constructor|].
  unfold ARG_REG_AMOUNT in *. change (4 / 2) with 2. destruct k; cbn [negb].
  - destruct (f <? 4) eqn:E.
    + replace (fregs <? 2) with true by (Z.div_mod_to_equations; lia). constructor; [cbn beta iota; Z.div_mod_to_equations; lia|]. apply IH; auto; try lia; Z.div_mod_to_equations; lia.
    + replace (fregs <? 2) with false by (Z.div_mod_to_equations; lia). constructor; [reflexivity|]. apply IH; auto; try lia; Z.div_mod_to_equations; lia.
  - destruct (a <? 4) eqn:E.
    + replace (regs <? 4) with true by lia. constructor; [cbn beta iota; lia|]. apply IH; auto; lia.
    + replace (regs <? 4) with false by lia. constructor; [reflexivity|]. apply IH; auto; lia.
Qed.
Lemma registers_differ kinds : forall i a f, 0 <= a -> 0 <= f -> f mod 2 = 0 -> forall x, In (InRegister x) (arguments_loop i a f kinds) -> (4 + a <= x < 8) \/ (36 + f <= x < 40).
Proof.
  induction kinds as [|k kinds IH]; intros i a f A F P x H; cbn [arguments_loop] in H; [contradiction|]. unfold ARG_REG_AMOUNT, R_FA0, R_A0 in *. destruct k; destruct H as [H|H].
  - destruct (f <? 4) eqn:E; [|discriminate]. assert (x = 36 + f) by congruence. right. lia.
  - apply IH in H; [lia|lia|lia|Z.div_mod_to_equations; lia].
  - destruct (a <? 4) eqn:E; [|discriminate]. assert (x = 4 + a) by congruence. left. lia.
  - apply IH in H; [lia|lia|lia|exact P].
Qed.
Definition in_registers (l : list place) : list Z := flat_map (fun p => match p with InRegister r => [r] | OnStack _ => [] end) l.
Lemma in_reg l x : In x (in_registers l) <-> In (InRegister x) l.
Proof.
  unfold in_registers. rewrite in_flat_map. split.
  - intros (p & I & H). destruct p; cbn in H; [destruct H as [->|[]]; exact I|contradiction].
  - intros I. exists (InRegister x). split; [exact I|left; reflexivity].
Qed.
Lemma registers_nodup kinds : forall i a f, 0 <= a -> 0 <= f -> f mod 2 = 0 -> NoDup (in_registers (arguments_loop i a f kinds)).
Proof.
  induction kinds as [|k kinds IH]; intros i a f A F P; cbn [arguments_loop]; [constructor|]. unfold ARG_REG_AMOUNT, R_FA0, R_A0. destruct k.
  - assert (N : NoDup (in_registers (arguments_loop (i + 1) a (f + 2) kinds))) by (apply IH; try lia; Z.div_mod_to_equations; lia).
    destruct (f <? 4) eqn:E; [|exact N]. cbn [in_registers flat_map app]. constructor; [|exact N]. rewrite in_reg. intros H.
    apply registers_differ in H; try lia; Z.div_mod_to_equations; lia.
  - assert (N : NoDup (in_registers (arguments_loop (i + 1) (a + 1) f kinds))) by (apply IH; lia).
    destruct (a <? 4) eqn:E; [|exact N]. cbn [in_registers flat_map app]. constructor; [|exact N]. rewrite in_reg. intros H.
    apply registers_differ in H; lia.
Qed.

Lemma restored_ok kinds : forall n a f i j, 0 <= a -> 0 <= f -> f mod 2 = 0 -> i = Z.min 4 a -> j = Z.min 2 (f / 2) ->
  call_restored i j (map (fun s => (snd (fst s), snd s)) (call_saved n a f kinds)) = map fst (call_saved n a f kinds).
Proof.
  induction kinds as [|k kinds IH]; intros n a f i j A F P I J; cbn [call_saved]; [reflexivity|]. unfold ARG_REG_AMOUNT. destruct k.
  - destruct (f <? 4) eqn:E.
    + cbn [map call_restored fst snd]. rewrite (IH (n + 1) a (f + 2)) by (Z.div_mod_to_equations; lia). f_equal. f_equal. Z.div_mod_to_equations; lia.
    + apply IH; auto; try lia; Z.div_mod_to_equations; lia.
  - destruct (a <? 4) eqn:E.
    + cbn [map call_restored fst snd]. rewrite (IH (n + 1) (a + 1) f) by (try lia; assumption). f_equal. f_equal. lia.
    + apply IH; auto; lia.
Qed.
Lemma saved_are kinds : forall n a f, map (fun s => fst (fst s)) (call_saved n a f kinds) = in_registers (arguments_loop n a f kinds).
Proof.
  induction kinds as [|k kinds IH]; intros n a f; cbn [call_saved arguments_loop]; [reflexivity|].
  destruct k; destruct (_ <? ARG_REG_AMOUNT); cbn [in_registers flat_map app map fst]; rewrite IH; reflexivity.
Qed.

(** ** Frames *)

(** What runs through the body of a function: the displacements, and the variables
    of the blocks that are open, the innermost block first. *)
Definition do_event (e : event) (d : displ) (live : list (list piece)) : option (displ * list (list piece)) :=
  match e, live with
  | Local n, top :: rest => let '(loc, d) := add_local d n in Some (d, ((loc, n) :: top) :: rest)
  | Enter, _ => Some (enter d, [] :: live)
  | Leave, _ :: (_ :: _) as rest => do d <- leave d; Some (d, rest)
  | _, _ => None
  end.
Fixpoint body (es : list event) (d : displ) (live : list (list piece)) : option (displ * list (list piece)) :=
  match es with
  | [] => Some (d, live)
  | e :: es => do '(d, live) <- do_event e d live; body es d live
  end.

Lemma apart_sym p q : apart p q -> apart q p.
Proof. unfold apart. tauto. Qed.
Lemma all_apart_app l1 l2 : all_apart (l1 ++ l2) <-> all_apart l1 /\ all_apart l2 /\ forall p q, In p l1 -> In q l2 -> apart p q.
Proof.
  unfold all_apart. induction l1 as [|p l1 IH]; cbn [app].
  - split; [intros H; repeat split; [constructor|exact H|intros ? ? []]|tauto].
  - split.
    + intros H. inversion H as [|? ? F O]; subst. apply IH in O as (A & B & C). apply Forall_app in F as (F1 & F2). repeat split; [constructor; assumption|exact B|].
      intros x y [->|X] Y; [apply (proj1 (Forall_forall _ _) F2); exact Y|auto].
    + intros (A & B & C). inversion A as [|? ? F O]; subst. constructor.
      * apply Forall_app. split; [exact F|]. apply Forall_forall. intros y Y. apply C; [left; reflexivity|exact Y].
      * apply IH. repeat split; auto. intros x y X Y. apply C; [right; exact X|exact Y].
Qed.

(** The variables of the open blocks lie between the scope of the innermost and
    [$fp]; below a block are those of the blocks around it. *)
Fixpoint stacked (scope : Z) (saved : list Z) (live : list (list piece)) : Prop :=
  match saved, live with
  | [], [top] => all_apart top /\ 0 <= scope /\ Forall (fun p => - scope <= fst p /\ fst p + snd p <= 0) top
  | s :: saved, top :: rest => all_apart top /\ s <= scope /\ Forall (fun p => - scope <= fst p /\ fst p + snd p <= - s) top /\ stacked s saved rest
  | _, _ => False
  end.
Lemma stacked_pos saved : forall scope live, stacked scope saved live -> 0 <= scope.
Proof.
  induction saved as [|s saved IH]; intros scope [|top rest] H; cbn in H; try contradiction.
  - destruct rest; [tauto|contradiction].
  - destruct H as (_ & L & _ & H). apply IH in H. lia.
Qed.
Lemma stacked_ok saved : forall scope live, stacked scope saved live -> all_apart (concat live) /\ Forall (fun p => - scope <= fst p /\ fst p + snd p <= 0) (concat live).
Proof.
  induction saved as [|s saved IH]; intros scope [|top rest] H; cbn in H; try contradiction.
  - destruct rest; [|contradiction]. cbn [concat]. rewrite app_nil_r. tauto.
  - destruct H as (A & L & F & H). pose proof (stacked_pos _ _ _ H) as P. apply IH in H as (B & G). cbn [concat]. split.
    + apply all_apart_app. repeat split; auto. intros p q Hp Hq. apply (proj1 (Forall_forall _ _) F) in Hp. apply (proj1 (Forall_forall _ _) G) in Hq. left. lia.
    + apply Forall_app. split; eapply Forall_impl; try eassumption; cbn; intros; lia.
Qed.
Lemma stacked_local n scope saved top rest : 0 <= n -> stacked scope saved (top :: rest) -> stacked (scope + n) saved (((- (scope + n), n) :: top) :: rest).
Proof.
  intros N H. assert (X : forall s, s <= scope -> all_apart top -> Forall (fun p => - scope <= fst p /\ fst p + snd p <= - s) top ->
    all_apart ((- (scope + n), n) :: top) /\ Forall (fun p => - (scope + n) <= fst p /\ fst p + snd p <= - s) ((- (scope + n), n) :: top)).
  { intros s S A F. split.
    - constructor; [|exact A]. eapply Forall_impl; [|exact F]. cbn. intros p Hp. left. cbn. lia.
    - constructor; [cbn; lia|]. eapply Forall_impl; [|exact F]. cbn. intros; lia. }
  destruct saved as [|s saved]; cbn [stacked] in *.
  - destruct rest; [|contradiction]. destruct H as (A & S & F). destruct (X 0) as (B & G); auto.
    split; [exact B|]. split; [lia|exact G].
  - destruct H as (A & S & F & H). destruct (X s) as (B & G); auto. split; [exact B|]. split; [lia|]. split; [exact G|exact H].
Qed.

Lemma event_keeps e d live d' live' : event_ok e -> stacked (d_scope d) (d_saved d) live -> d_scope d <= d_max d -> do_event e d live = Some (d', live') ->
  stacked (d_scope d') (d_saved d') live' /\ d_scope d' <= d_max d' /\ d_max d <= d_max d'.
Proof.
  intros K S M E. destruct e as [n| |]; cbn [do_event] in E.
  - destruct live as [|top rest]; [discriminate|]. unfold add_local in E. inversion E; subst. cbn [d_scope d_saved d_max]. split; [apply stacked_local; assumption|]. lia.
  - inversion E; subst. cbn [enter d_scope d_saved d_max]. split; [|lia]. cbn [stacked]. repeat split; try constructor; try lia. exact S.
  - destruct live as [|top [|x rest]]; try discriminate. unfold leave in E. destruct (d_saved d) as [|s saved]; [discriminate|]. cbn [bind] in E. inversion E; subst.
    cbn [d_scope d_saved d_max]. cbn [stacked] in S. destruct S as (A & L & F & S). split; [exact S|]. lia.
Qed.
Lemma body_keeps es : forall d live d' live', Forall event_ok es -> stacked (d_scope d) (d_saved d) live -> d_scope d <= d_max d -> body es d live = Some (d', live') ->
  stacked (d_scope d') (d_saved d') live' /\ d_scope d' <= d_max d' /\ d_max d <= d_max d'.
Proof.
  induction es as [|e es IH]; intros d live d' live' K S M E; cbn [body] in E; [inversion E; subst; repeat split; auto; lia|].
  inversion K as [|? ? K1 K2]; subst. destruct (do_event e d live) as [[d1 live1]|] eqn:E1; cbn [bind] in E; [|discriminate].
  destruct (event_keeps e d live d1 live1 K1 S M E1) as (S1 & M1 & G1). destruct (IH d1 live1 d' live' K2 S1 M1 E) as (S2 & M2 & G2). repeat split; auto; lia.
Qed.
Lemma body_app es1 : forall es2 d live, body (es1 ++ es2) d live = do '(d, live) <- body es1 d live; body es2 d live.
Proof.
  induction es1 as [|e es1 IH]; intros es2 d live; cbn [app body bind]; [reflexivity|].
  destruct (do_event e d live) as [[d1 live1]|]; cbn [bind]; [apply IH|reflexivity].
Qed.

(** Words one after the other. *)
Lemma words_apart base n : all_apart (map (fun i => (base + Z.of_nat i * 4, 4)) (seq 0 n)).
Proof.
  generalize 0%nat as k. induction n as [|n IH]; intros k; cbn [seq map]; constructor; [|apply IH].
  apply Forall_forall. intros p Hp. apply in_map_iff in Hp as (j & <- & J). apply in_seq in J. left. cbn [fst snd]. lia.
Qed.
Lemma saved_apart sp : all_apart (map (fun s => (sp + snd s, 4)) saved_registers).
Proof.
  replace (map _ saved_registers) with (map (fun o => (sp + o, 4)) (map snd saved_registers)) by apply map_map.
  replace (map snd saved_registers) with [-4; -8; -12; -16; -20; -24; -28; -32; -36; -40; -44; -48; -52; -56; -60] by reflexivity.
  cbn [map]. unfold all_apart. repeat (apply FOP_cons; [repeat (apply Forall_cons; [unfold apart; cbn [fst snd]; lia|]); apply Forall_nil|]). apply FOP_nil.
Qed.
Lemma saved_range p : In p saved_registers -> -60 <= snd p <= -4.
Proof.
  intros H. assert (F : forallb (fun p => (-60 <=? snd p) && (snd p <=? -4)) saved_registers = true) by reflexivity.
  pose proof (proj1 (forallb_forall _ _) F p H) as Q. cbn beta in Q. lia.
Qed.

(** Global variables one after the other. *)
Fixpoint globals (sizes : list Z) (d : displ) : list piece * displ :=
  match sizes with
  | [] => ([], d)
  | n :: sizes => let '(loc, d) := add_global d n in let '(l, d) := globals sizes d in ((loc, n) :: l, d)
  end.
Lemma globals_ok sizes : forall d, Forall (fun n => 0 <= n) sizes ->
  let '(l, d') := globals sizes d in all_apart l /\ d_global d <= d_global d' /\ Forall (fun p => d_global d <= fst p /\ fst p + snd p <= d_global d') l /\ map snd l = sizes.
Proof.
  induction sizes as [|n sizes IH]; intros d F; cbn [globals].
  - repeat split; try constructor. lia.
  - inversion F as [|? ? N F']; subst. unfold add_global. set (d1 := mkDispl _ _ _ _). specialize (IH d1 F'). destruct (globals sizes d1) as [l d'].
    unfold d1 in IH. cbn [d_global] in IH. destruct IH as (A & L & R & E). repeat split.
    + constructor; [|exact A]. eapply Forall_impl; [|exact R]. cbn. intros p P. left. cbn. lia.
    + lia.
    + constructor; [cbn; lia|]. eapply Forall_impl; [|exact R]. cbn. intros; lia.
    + cbn [map snd]. rewrite E. reflexivity.
Qed.

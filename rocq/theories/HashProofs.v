(** Proofs about the table of records. *)
From Verif Require Import Prelude VectorSpec LVec HashModel HashSpec.

Record rec := mkRec { r_h : Z; r_idx : Z; r_key : Z; r_vals : list Z }.
Definition r_end (r : rec) : Z := r_idx r + 3 + zlen (r_vals r).

Fixpoint chain (hs : list Z) (c : Z) (l : list Z) : Prop :=
  match l with
  | [] => lv_get hs c = 0
  | i :: l => lv_get hs c = i /\ chain hs i l
  end.

Definition inh (h : Z) (r : rec) : bool := r_h r =? h.
Definition cells_of (hs : list Z) (r : rec) : Prop :=
  lv_get hs (r_idx r + 1) = r_key r /\ lv_get hs (r_idx r + 2) = zlen (r_vals r) /\
  forall j, 0 <= j < zlen (r_vals r) -> znth hs (r_idx r + 3 + j) = znth (r_vals r) j.

Record hinv (hs : list Z) (R : list rec) (S : hstate) : Prop := {
  h_len : 256 <= zlen hs;
  h_range : forall r, In r R -> 0 <= r_h r < 256 /\ 256 <= r_idx r /\ r_end r <= zlen hs;
  h_cells : forall r, In r R -> cells_of hs r;
  h_disj : forall a b, In a R -> In b R -> a = b \/ r_end a <= r_idx b \/ r_end b <= r_idx a;
  h_chain : forall h, 0 <= h < 256 -> chain hs h (map r_idx (filter (inh h) R));
  h_hash : forall r, In r R -> r_key r <> ITEM_MAX -> key_hash (r_key r) = r_h r;
  h_keys : forall a b, In a R -> In b R -> r_key a = r_key b -> r_key a <> ITEM_MAX -> a = b;
  h_nodup : NoDup (map r_idx R);
  h_state : forall k i vs, S k = Some (i, vs) <-> k <> ITEM_MAX /\ exists r, In r R /\ r_key r = k /\ r_idx r = i /\ r_vals r = vs }.

Lemma r_end_ge r : r_idx r + 3 <= r_end r.
Proof. unfold r_end. pose proof (zlen_nonneg (r_vals r)). lia. Qed.

Lemma u64_s x : 0 <= x < 2 ^ 62 -> u64 x = x.
Proof. intros. unfold u64, two64. apply Z.mod_small. lia. Qed.

Lemma key_hash_range k : 0 <= key_hash k < 256.
Proof. unfold key_hash, MAX_HASH. apply Z.mod_pos_bound. lia. Qed.

Definition fkey (k : Z) (Rs : list rec) : option rec := find (fun r => r_key r =? k) Rs.
Definition ffree (n : Z) (Rs : list rec) : option rec :=
  find (fun r => (r_key r =? ITEM_MAX) && (zlen (r_vals r) =? n)) Rs.

Lemma fkey_none k R r : fkey k R = None -> In r R -> r_key r <> k.
Proof. intros F H Q. eapply find_none in F; eauto. cbn in F. lia. Qed.

Lemma find_filter {A} (p q : A -> bool) l : (forall x, In x l -> p x = true -> q x = true) -> find p (filter q l) = find p l.
Proof.
  induction l as [|a l IH]; intros H; cbn; auto. destruct (q a) eqn:Q; cbn.
  - destruct (p a); auto. apply IH. intros x X. apply H; right; auto.
  - destruct (p a) eqn:P; [rewrite (H a) in Q; auto; [discriminate|left; auto]|]. apply IH. intros x X. apply H; right; auto.
Qed.

Lemma chain_ext hs hs' l : forall c, lv_get hs' c = lv_get hs c -> (forall i, In i l -> lv_get hs' i = lv_get hs i) ->
  chain hs c l -> chain hs' c l.
Proof.
  induction l as [|i l IH]; cbn; intros c E H C; [congruence|]. destruct C as [C1 C2]. split; [congruence|].
  apply IH; auto.
Qed.

Lemma chain_snoc hs hs' n l : forall c, chain hs c l -> NoDup (c :: l) ->
  (forall i, In i (c :: l) -> i <> last l c -> lv_get hs' i = lv_get hs i) ->
  lv_get hs' (last l c) = n -> lv_get hs' n = 0 -> chain hs' c (l ++ [n]).
Proof.
  induction l as [|i l IH]; intros c C D H N Z; cbn [app chain] in *.
  - cbn [last] in N. auto.
  - destruct C as [C1 C2].
    assert (LE: last (i :: l) c = last l i).
    { clear. revert i. induction l as [|j l IH]; intros; auto. change (last (i :: j :: l) c) with (last (j :: l) c). rewrite IH.
      change (last (j :: l) i) with (last (j :: l) i). rewrite <- (IH j). clear. revert j. induction l as [|k l IH]; intros; auto.
      change (last (j :: k :: l) c = last (j :: k :: l) i). cbn [last]. apply (IH k). }
    rewrite LE in *. inversion D; subst. assert (LI: In (last l (lv_get hs c)) (lv_get hs c :: l)).
    { clear. induction l as [|k l IH] using rev_ind; [left; auto|]. rewrite last_last. right. apply in_or_app. right; left; auto. }
    split.
    + rewrite H; auto; [left; auto|]. intros Q. apply H2. rewrite Q at 1. exact LI.
    + apply IH; auto. intros j J. apply H. right; auto.
Qed.

Lemma chain_len hs c l : chain hs c l -> True. Proof. auto. Qed.

Lemma rec_bound hs R S r : hinv hs R S -> zlen hs < 2 ^ 60 -> In r R -> 256 <= r_idx r /\ r_end r <= zlen hs /\ r_end r < 2 ^ 60 /\ r_idx r + 3 <= r_end r.
Proof. intros I B H. destruct (h_range _ _ _ I r H) as (_ & H1 & H2). pose proof (r_end_ge r). lia. Qed.

Lemma not_max x : 0 <= x < 2 ^ 60 -> x <> ITEM_MAX /\ x <> SIZE_MAX.
Proof. unfold ITEM_MAX, LLONG_MAX, SIZE_MAX, two63, two64. lia. Qed.

Lemma index_loop_ok hs R S key : hinv hs R S -> zlen hs < 2 ^ 60 -> forall Rs fuel c, (forall r, In r Rs -> In r R) ->
  (length Rs < fuel)%nat -> chain hs c (map r_idx Rs) ->
  index_loop fuel hs key (lv_get hs c) = Some (match fkey key Rs with Some r => r_idx r | None => SIZE_MAX end).
Proof.
  intros I B. induction Rs as [|r Rs IH]; intros fuel c H F C; cbn [map chain fkey find] in *.
  - rewrite C. destruct fuel; reflexivity.
  - destruct C as [C1 C2]. rewrite C1. assert (HR: In r R) by (apply H; left; auto).
    destruct (rec_bound hs R S r I B HR) as (X1 & X2 & X3 & X4). pose proof (not_max (r_idx r) ltac:(lia)) as [N1 N2].
    destruct fuel as [|fuel]; [cbn in F; lia|]. cbn [index_loop].
    replace (negb (r_idx r =? ITEM_MAX) && negb (r_idx r =? 0)) with true by lia.
    rewrite !u64_s by lia. destruct (h_cells _ _ _ I r HR) as (K & _). rewrite K. destruct (r_key r =? key); auto.
    apply IH; auto. { intros x X. apply H; right; auto. } { cbn in F. lia. }
Qed.

Lemma add_loop_ok hs R S key amount : hinv hs R S -> zlen hs < 2 ^ 60 -> key <> ITEM_MAX -> forall Rs fuel c record, (forall r, In r Rs -> In r R) ->
  (length Rs < fuel)%nat -> chain hs c (map r_idx Rs) -> 0 <= c < 2 ^ 60 ->
  add_loop fuel hs key amount c (lv_get hs c) record = Some (match fkey key Rs with
    | Some r => None
    | None => Some (last (map r_idx Rs) c, 0, if record =? ITEM_MAX then match ffree amount Rs with Some r => r_idx r | None => ITEM_MAX end else record)
    end).
Proof.
  intros I B NK. induction Rs as [|r Rs IH]; intros fuel c record H F C Hc; cbn [map chain fkey ffree find] in *.
  - rewrite C. destruct (record =? ITEM_MAX) eqn:E; [apply Z.eqb_eq in E; subst record|]; destruct fuel; reflexivity.
  - destruct C as [C1 C2]. rewrite C1. assert (HR: In r R) by (apply H; left; auto).
    destruct (rec_bound hs R S r I B HR) as (X1 & X2 & X3 & X4). pose proof (not_max (r_idx r) ltac:(lia)) as [N1 N2].
    destruct fuel as [|fuel]; [cbn in F; lia|]. cbn [add_loop].
    replace (negb (r_idx r =? ITEM_MAX) && negb (r_idx r =? 0)) with true by lia.
    rewrite (u64_s (r_idx r + 1)), (u64_s (r_idx r + 2)), (u64_s (r_idx r)) by lia. destruct (h_cells _ _ _ I r HR) as (K & A & _). rewrite K, A.
    rewrite u64_s by (unfold r_end in X3; pose proof (zlen_nonneg (r_vals r)); lia).
    assert (LL: forall l, last (r_idx r :: l) c = last l (r_idx r)).
    { clear. intros l. destruct l as [|j l]; auto. cbn [last]. change (last (j :: l) c = last (j :: l) (r_idx r)). revert j.
      induction l as [|k l IH]; intros; auto. cbn [last]. apply (IH k). }
    rewrite LL. assert (HT: forall x, In x Rs -> In x R) by (intros x X; apply H; right; auto).
    assert (FT: (length Rs < fuel)%nat) by (cbn in F; lia).
    destruct (r_key r =? ITEM_MAX) eqn:E1; cbn [andb].
    + replace (r_key r =? key) with false by lia. rewrite andb_true_r.
      destruct (record =? ITEM_MAX) eqn:E2; cbn [andb].
      * destruct (zlen (r_vals r) =? amount) eqn:E3.
        -- rewrite IH by (auto; lia). fold (fkey key Rs). destruct (fkey key Rs); auto. replace (r_idx r =? ITEM_MAX) with false by lia. auto.
        -- rewrite IH by (auto; lia). fold (fkey key Rs). rewrite E2. reflexivity.
      * rewrite IH by (auto; lia). fold (fkey key Rs). rewrite E2. reflexivity.
    + rewrite andb_false_r. cbn [andb]. destruct (r_key r =? key); auto. rewrite IH by (auto; lia). reflexivity.
Qed.

Lemma bucket_find hs R S key : hinv hs R S -> key <> ITEM_MAX -> fkey key (filter (inh (key_hash key)) R) = fkey key R.
Proof.
  intros I N. apply find_filter. intros r H E. unfold inh. pose proof (h_hash _ _ _ I r H). apply Z.eqb_eq in E. rewrite E in *. specialize (H0 N). lia.
Qed.

Lemma filter_len {A} (f : A -> bool) l : (length (filter f l) <= length l)%nat.
Proof. induction l as [|a l IH]; cbn; auto. destruct (f a); cbn; lia. Qed.

Lemma recs_count hs R S : hinv hs R S -> (length R <= length hs)%nat.
Proof.
  intros I. pose proof (h_nodup _ _ _ I) as D. rewrite <- (map_length r_idx R).
  assert (X: incl (map r_idx R) (map Z.of_nat (seq 0 (length hs)))).
  { intros i H. apply in_map_iff in H as (r & <- & H). destruct (h_range _ _ _ I r H) as (_ & H1 & H2). pose proof (r_end_ge r).
    apply in_map_iff. exists (Z.to_nat (r_idx r)). split; [lia|]. apply in_seq. rewrite zlen_unf in H2. lia. }
  apply NoDup_incl_length in X; auto. rewrite (map_length Z.of_nat), seq_length in X. auto.
Qed.

Lemma state_find hs R S k : hinv hs R S -> k <> ITEM_MAX -> S k = option_map (fun r => (r_idx r, r_vals r)) (fkey k R).
Proof.
  intros I N. destruct (fkey k R) as [r|] eqn:F; cbn [option_map].
  - apply find_some in F as [F1 F2]. apply (h_state _ _ _ I). split; auto. exists r. split; auto. split; [lia|auto].
  - destruct (S k) as [[i vs]|] eqn:E; auto. apply (h_state _ _ _ I) in E as (_ & r & H1 & H2 & _).
    eapply find_none in F; eauto. cbn in F. lia.
Qed.

Lemma get_index_ok hs R S key : hinv hs R S -> zlen hs < 2 ^ 60 -> key <> ITEM_MAX ->
  hash_get_index hs key = Some (match S key with Some (i, _) => i | None => SIZE_MAX end).
Proof.
  intros I B N. unfold hash_get_index.
  rewrite (index_loop_ok hs R S key I B (filter (inh (key_hash key)) R)).
  - rewrite (bucket_find hs R S key I N), (state_find hs R S key I N). destruct (fkey key R); reflexivity.
  - intros r H. apply filter_In in H. tauto.
  - pose proof (filter_len (inh (key_hash key)) R). pose proof (recs_count hs R S I). lia.
  - apply (h_chain _ _ _ I). apply key_hash_range.
Qed.

(** ** Changing one record in place *)
Definition repl (R : list rec) (i k : Z) (vs : list Z) : list rec :=
  map (fun r => if r_idx r =? i then mkRec (r_h r) i k vs else r) R.

Lemma repl_idx R i k vs : map r_idx (repl R i k vs) = map r_idx R.
Proof. unfold repl. rewrite map_map. apply map_ext_in. intros r H. destruct (r_idx r =? i) eqn:E; cbn; lia. Qed.

Lemma repl_bucket h R i k vs : map r_idx (filter (inh h) (repl R i k vs)) = map r_idx (filter (inh h) R).
Proof.
  unfold repl. induction R as [|r R IH]; cbn [map filter]; auto.
  assert (E: inh h (if r_idx r =? i then mkRec (r_h r) i k vs else r) = inh h r) by (destruct (r_idx r =? i); reflexivity).
  rewrite E. destruct (inh h r); cbn [map]; rewrite IH; auto. f_equal. destruct (r_idx r =? i) eqn:Q; cbn; lia.
Qed.

Lemma repl_In R i k vs r : In r (repl R i k vs) <->
  (exists r0, In r0 R /\ r_idx r0 = i /\ r = mkRec (r_h r0) i k vs) \/ (In r R /\ r_idx r <> i).
Proof.
  unfold repl. rewrite in_map_iff. split.
  - intros (x & E & H). destruct (r_idx x =? i) eqn:Q.
    + left. exists x. split; auto. split; [lia|auto].
    + right. subst x. split; auto. lia.
  - intros [(r0 & H & E & ->)|[H N]].
    + exists r0. replace (r_idx r0 =? i) with true by lia. auto.
    + exists r. replace (r_idx r =? i) with false by lia. auto.
Qed.

Lemma idx_inj hs R S a b : hinv hs R S -> In a R -> In b R -> r_idx a = r_idx b -> a = b.
Proof.
  intros I A B E. destruct (h_disj _ _ _ I a b A B) as [D|[D|D]]; auto;
  pose proof (r_end_ge a); pose proof (r_end_ge b); lia.
Qed.

Definition hput_opt (S : hstate) (r0 : rec) (k : Z) (vs : list Z) : hstate :=
  fun k' => if (k' =? k) && negb (k =? ITEM_MAX) then Some (r_idx r0, vs) else if k' =? r_key r0 then None else S k'.

Lemma repl_ok hs R S r0 hs' k vs : hinv hs R S -> In r0 R -> zlen hs' = zlen hs -> zlen vs = zlen (r_vals r0) ->
  (forall c, c <= r_idx r0 \/ r_end r0 <= c -> znth hs' c = znth hs c) ->
  cells_of hs' (mkRec (r_h r0) (r_idx r0) k vs) ->
  (k = ITEM_MAX \/ k = r_key r0 \/ fkey k R = None) -> (k <> ITEM_MAX -> key_hash k = r_h r0) ->
  hinv hs' (repl R (r_idx r0) k vs) (hput_opt S r0 k vs).
Proof.
  intros I H0 ZL ZV U C KO KH. pose proof I as I0.
  assert (OTH: forall r, In r R -> r_idx r <> r_idx r0 -> r_end r <= r_idx r0 \/ r_end r0 <= r_idx r).
  { intros r H N. destruct (h_disj _ _ _ I r r0 H H0) as [->|D]; [congruence|lia]. }
  assert (E0: forall x, In x R -> r_idx x = r_idx r0 -> x = r0) by (intros; eapply idx_inj; eauto).
  assert (EV: r_end (mkRec (r_h r0) (r_idx r0) k vs) = r_end r0) by (unfold r_end; cbn; lia).
  assert (LV: forall c, c <= r_idx r0 \/ r_end r0 <= c -> lv_get hs' c = lv_get hs c) by (intros c Hc; unfold lv_get; rewrite U; auto).
  split.
  - rewrite ZL. apply I.
  - intros r H. rewrite ZL. apply repl_In in H as [(x & X1 & X2 & ->)|[H N]].
    + assert (x = r0) by auto; subst x. rewrite EV. cbn [r_h r_idx]. apply (h_range _ _ _ I r0 H0).
    + apply (h_range _ _ _ I r H).
  - intros r H. apply repl_In in H as [(x & X1 & X2 & ->)|[H N]].
    + assert (x = r0) by auto; subst x. auto.
    + destruct (h_cells _ _ _ I r H) as (C1 & C2 & C3). specialize (OTH r H N). pose proof (r_end_ge r). pose proof (r_end_ge r0).
      split; [|split].
      * rewrite LV by lia. auto.
      * rewrite LV by lia. auto.
      * intros j Hj. unfold r_end in OTH. rewrite U; [auto|]. unfold r_end. lia.
  - intros a b A B. apply repl_In in A as [(x & X1 & X2 & ->)|[A NA]]; apply repl_In in B as [(y & Y1 & Y2 & ->)|[B NB]].
    + left. apply E0 in X2; auto. apply E0 in Y2; auto. subst. auto.
    + right. assert (x = r0) by auto; subst x. rewrite EV. cbn [r_idx]. specialize (OTH b B NB). lia.
    + right. assert (y = r0) by auto; subst y. rewrite EV. cbn [r_idx]. specialize (OTH a A NA). lia.
    + apply (h_disj _ _ _ I a b A B).
  - intros h Hh. rewrite repl_bucket. pose proof (h_range _ _ _ I r0 H0) as (_ & R1 & _).
    apply (chain_ext hs); [apply LV; lia| |apply (h_chain _ _ _ I h Hh)].
    intros i Hi. apply in_map_iff in Hi as (r & <- & Hi). apply filter_In in Hi as [Hi _]. apply LV.
    destruct (Z.eq_dec (r_idx r) (r_idx r0)) as [->|N]; [lia|]. specialize (OTH r Hi N). pose proof (r_end_ge r). lia.
  - intros r H N. apply repl_In in H as [(x & X1 & X2 & ->)|[H NI]].
    + assert (x = r0) by auto; subst x. cbn in *. auto.
    + apply (h_hash _ _ _ I r H N).
  - intros a b A B EK N. apply repl_In in A as [(x & X1 & X2 & ->)|[A NA]]; apply repl_In in B as [(y & Y1 & Y2 & ->)|[B NB]]; cbn [r_key] in *.
    + apply E0 in X2; auto. apply E0 in Y2; auto. subst. auto.
    + exfalso. assert (x = r0) by auto; subst x. destruct KO as [Q|[Q|Q]]; auto.
      * apply NB. rewrite Q in EK. rewrite (h_keys _ _ _ I r0 b); auto. congruence.
      * pose proof (fkey_none _ _ b Q B); congruence.
    + exfalso. assert (y = r0) by auto; subst y. destruct KO as [Q|[Q|Q]]; try congruence.
      * apply NA. rewrite (h_keys _ _ _ I a r0); auto. congruence.
      * pose proof (fkey_none _ _ a Q A); congruence.
    + apply (h_keys _ _ _ I); auto.
  - rewrite repl_idx. apply I.
  - intros k' i vs'. unfold hput_opt. split.
    + destruct ((k' =? k) && negb (k =? ITEM_MAX)) eqn:Q.
      * intros E. injection E as <- <-. split; [lia|]. exists (mkRec (r_h r0) (r_idx r0) k vs). cbn. split; [|split; [lia|auto]].
        apply repl_In. left. exists r0. auto.
      * destruct (k' =? r_key r0) eqn:Q2; [discriminate|]. intros E. apply (h_state _ _ _ I) in E as (N & r & H1 & H2 & H3 & H4).
        split; auto. exists r. split; auto. apply repl_In. right. split; auto. intros X. apply E0 in X; auto. subst r. lia.
    + intros (N & r & H & K & <- & <-). apply repl_In in H as [(x & X1 & X2 & ->)|[H NI]].
      * assert (x = r0) by auto; subst x. cbn [r_key r_idx r_vals] in *. subst k'. replace ((k =? k) && negb (k =? ITEM_MAX)) with true by lia. auto.
      * assert (NK: k' <> r_key r0). { intros Q. apply NI. rewrite (h_keys _ _ _ I r r0); auto; congruence. }
        replace (k' =? r_key r0) with false by lia.
        replace ((k' =? k) && negb (k =? ITEM_MAX)) with false.
        -- apply (h_state _ _ _ I). split; auto. exists r. auto.
        -- symmetry. apply andb_false_iff. destruct KO as [Q|[Q|Q]]; [right; lia|left; lia|left].
           pose proof (fkey_none _ _ r Q H). lia.
Qed.

(** ** A new record at the end *)
Lemma new_ok hs R S key amount : hinv hs R S -> key <> ITEM_MAX -> 0 <= amount -> fkey key R = None ->
  let h := key_hash key in
  let prev := last (map r_idx (filter (inh h) R)) h in
  let n := zlen hs in
  hinv (lv_set (lv_set (lv_increase (lv_set hs prev n) (3 + amount)) (n + 2) amount) (n + 1) key)
       (R ++ [mkRec h n key (repeat 0 (Z.to_nat amount))]) (hput S key (Some (n, repeat 0 (Z.to_nat amount))))
  /\ forall r, In r R -> r_idx r <> n.
Proof.
  intros I NK HA F h prev n. set (hs' := lv_set _ _ key). set (nr := mkRec h n key _).
  pose proof (key_hash_range key) as HR. fold h in HR. pose proof (h_len _ _ _ I) as HL. fold n in HL.
  assert (FR: forall r, In r R -> r_idx r <> n) by (intros r H; pose proof (h_range _ _ _ I r H); pose proof (r_end_ge r); unfold n; lia).
  split; auto.
  assert (PV: 0 <= prev < n /\ (prev = h \/ exists r, In r R /\ r_h r = h /\ r_idx r = prev)).
  { unfold prev. induction (filter (inh h) R) as [|r l _] eqn:FL using rev_ind; [cbn; split; [lia|auto]|].
    rewrite map_app. cbn [map]. rewrite last_last. assert (X: In r (filter (inh h) R)) by (rewrite FL; apply in_elt).
    apply filter_In in X as [X1 X2]. unfold inh in X2. pose proof (h_range _ _ _ I r X1). pose proof (r_end_ge r). split; [unfold n; lia|].
    right. exists r. split; auto. split; [lia|auto]. }
  destruct PV as [PR PV].
  assert (ZL: zlen hs' = n + 3 + amount). { unfold hs'. rewrite !zlen_lv_set, zlen_lv_increase, zlen_lv_set by lia. unfold n. lia. }
  assert (ZA: zlen (repeat 0 (Z.to_nat amount)) = amount) by (rewrite zlen_repeat; lia).
  assert (OLD: forall c, c < n -> c <> prev -> znth hs' c = znth hs c).
  { intros c Hc N. unfold hs', lv_set, lv_increase. rewrite !znth_zupd_other by lia. rewrite znth_app1 by (rewrite zlen_zupd; auto).
    apply znth_zupd_other. auto. }
  assert (OLDg: forall c, c < n -> c <> prev -> lv_get hs' c = lv_get hs c) by (intros; unfold lv_get; rewrite OLD; auto).
  assert (PVg: lv_get hs' prev = n).
  { unfold hs'. rewrite !lv_get_set_other by lia. unfold lv_increase. rewrite lv_get_app1 by (rewrite zlen_lv_set; fold n; lia).
    apply lv_get_set_same. fold n. lia. }
  assert (ZERO: forall c, n <= c < n + 3 + amount -> c <> n + 1 -> c <> n + 2 -> znth hs' c = Some 0).
  { intros c Hc N1 N2. unfold hs', lv_set, lv_increase. rewrite !znth_zupd_other by lia. rewrite znth_app2 by (rewrite zlen_zupd; fold n; lia).
    rewrite zlen_zupd. fold n. destruct (znth (repeat 0 (Z.to_nat (3 + amount))) (c - n)) as [x|] eqn:Q.
    - apply znth_In in Q. apply repeat_spec in Q. congruence.
    - apply znth_None in Q. rewrite zlen_repeat in Q. lia. }
  assert (NC: cells_of hs' nr).
  { unfold cells_of, nr. cbn [r_idx r_key r_vals]. split; [|split].
    - unfold hs'. apply lv_get_set_same. rewrite zlen_lv_set, zlen_lv_increase, zlen_lv_set by lia. fold n. lia.
    - unfold hs'. rewrite lv_get_set_other by lia. rewrite ZA. apply lv_get_set_same. rewrite zlen_lv_increase, zlen_lv_set by lia. fold n. lia.
    - intros j Hj. rewrite ZA in Hj. rewrite ZERO by lia.
      destruct (znth (repeat 0 (Z.to_nat amount)) j) as [x|] eqn:Q.
      + apply znth_In in Q. apply repeat_spec in Q. congruence.
      + apply znth_None in Q. rewrite ZA in Q. lia. }
  assert (PI: forall r, In r R -> prev <> r_idx r + 1 /\ prev <> r_idx r + 2 /\ forall j, 0 <= j < zlen (r_vals r) -> prev <> r_idx r + 3 + j).
  { intros r H. destruct (h_range _ _ _ I r H) as (_ & R1 & R2). destruct PV as [->|(x & X1 & X2 & <-)].
    - repeat split; lia.
    - destruct (h_disj _ _ _ I x r X1 H) as [->|D]; [repeat split; lia|]. pose proof (r_end_ge x). pose proof (r_end_ge r). unfold r_end in *. repeat split; lia. }
  assert (RE: forall r, In r R -> r_end r <= n) by (intros r H; apply (h_range _ _ _ I r H)).
  split.
  - lia.
  - intros r H. apply in_app_or in H as [H|[<-|[]]].
    + destruct (h_range _ _ _ I r H) as (R1 & R2 & R3). fold n in R3. rewrite ZL. lia.
    + unfold r_end, nr. cbn [r_h r_idx r_vals]. rewrite ZA. lia.
  - intros r H. apply in_app_or in H as [H|[<-|[]]]; auto.
    destruct (h_cells _ _ _ I r H) as (C1 & C2 & C3). destruct (PI r H) as (P1 & P2 & P3). pose proof (RE r H). pose proof (r_end_ge r). unfold r_end in *.
    split; [|split].
    + rewrite OLDg by lia. auto.
    + rewrite OLDg by lia. auto.
    + intros j Hj. rewrite OLD; [auto|lia|]. specialize (P3 j Hj). auto.
  - intros a b A B. apply in_app_or in A as [A|[<-|[]]]; apply in_app_or in B as [B|[<-|[]]]; auto.
    + apply (h_disj _ _ _ I a b A B).
  - intros h' Hh. rewrite filter_app. cbn [filter]. unfold inh at 2. cbn [r_h nr].
    destruct (h =? h') eqn:E.
    + apply Z.eqb_eq in E. subst h'. rewrite map_app. cbn [map]. cbn [r_idx nr].
      apply (chain_snoc hs).
      * apply (h_chain _ _ _ I h Hh).
      * constructor.
        -- intros Q. apply in_map_iff in Q as (r & Q1 & Q2). apply filter_In in Q2 as [Q2 _]. pose proof (h_range _ _ _ I r Q2). lia.
        -- pose proof (h_nodup _ _ _ I) as D. clear - D. induction R as [|r R IH]; cbn in *; [constructor|]. inversion D; subst.
           destruct (inh h r); cbn; auto. constructor; auto. intros Q. apply H1. apply in_map_iff in Q as (x & Q1 & Q2). apply filter_In in Q2 as [Q2 _].
           rewrite <- Q1. apply in_map; auto.
      * fold prev. intros i Hi N. apply OLDg; auto. destruct Hi as [<-|Hi]; [lia|]. apply in_map_iff in Hi as (r & <- & Hi). apply filter_In in Hi as [Hi _].
        pose proof (RE r Hi). pose proof (r_end_ge r). lia.
      * apply PVg.
      * apply lv_get_in. apply ZERO; lia.
    + rewrite app_nil_r. apply (chain_ext hs); [| |apply (h_chain _ _ _ I h' Hh)].
      * apply OLDg; [lia|]. destruct PV as [->|(x & X1 & X2 & <-)]; [lia|]. pose proof (h_range _ _ _ I x X1). lia.
      * intros i Hi. apply in_map_iff in Hi as (r & <- & Hi). apply filter_In in Hi as [Hi Hh2]. pose proof (RE r Hi). pose proof (r_end_ge r).
        apply OLDg; [lia|]. pose proof (h_range _ _ _ I r Hi). destruct PV as [->|(x & X1 & X2 & <-)]; [lia|]. intros Q.
        assert (r = x) by (eapply idx_inj; eauto). subst x. unfold inh in Hh2. lia.
  - intros r H N. apply in_app_or in H as [H|[<-|[]]]; auto. apply (h_hash _ _ _ I r H N).
  - intros a b A B EK N. apply in_app_or in A as [A|[<-|[]]]; apply in_app_or in B as [B|[<-|[]]]; auto.
    + apply (h_keys _ _ _ I); auto.
    + exfalso. cbn in EK. pose proof (fkey_none _ _ a F A). congruence.
    + exfalso. cbn in EK. pose proof (fkey_none _ _ b F B). congruence.
  - rewrite map_app. cbn [map]. pose proof (h_nodup _ _ _ I) as D. apply NoDup_rev in D. rewrite <- (rev_involutive (_ ++ _)). apply NoDup_rev.
    rewrite rev_app_distr. cbn. constructor; auto. rewrite <- in_rev. intros Q. apply in_map_iff in Q as (r & Q1 & Q2). apply (FR r Q2). auto.
  - intros k i vs. unfold hput. split.
    + destruct (k =? key) eqn:Q.
      * intros E. injection E as <- <-. split; [lia|]. exists nr. cbn. split; [apply in_elt|]. split; [lia|auto].
      * intros E. apply (h_state _ _ _ I) in E as (N & r & H1 & H2 & H3 & H4). split; auto. exists r. split; auto. apply in_or_app; auto.
    + intros (N & r & H & K & <- & <-). apply in_app_or in H as [H|[<-|[]]].
      * replace (k =? key) with false. { apply (h_state _ _ _ I). split; auto. exists r. auto. }
        symmetry. apply Z.eqb_neq. intros Q. pose proof (fkey_none _ _ r F H). congruence.
      * cbn in *. subst k. rewrite Z.eqb_refl. auto.
Qed.

(** ** Clearing a reused record *)
Lemma clear_ok n : forall hs base i, 0 <= base -> 0 <= i -> base + 3 + i + Z.of_nat n <= zlen hs -> zlen hs < 2 ^ 60 ->
  zlen (clear_loop n hs base i) = zlen hs /\
  forall c, znth (clear_loop n hs base i) c = if (base + 3 + i <=? c) && (c <? base + 3 + i + Z.of_nat n) then Some 0 else znth hs c.
Proof.
  induction n as [|n IH]; intros hs base i Hb Hi HL B; cbn [clear_loop].
  - split; auto. intros c. replace ((base + 3 + i <=? c) && (c <? base + 3 + i + Z.of_nat 0)) with false by lia. auto.
  - rewrite u64_s by lia. destruct (IH (lv_set hs (base + 3 + i) 0) base (i + 1)) as [Z1 Z2]; try (rewrite ?zlen_lv_set; lia).
    rewrite zlen_lv_set in Z1. split; auto. intros c. rewrite Z2.
    destruct (Z.eq_dec c (base + 3 + i)) as [->|N].
    + unfold lv_set. rewrite znth_zupd_same by lia.
      replace ((base + 3 + i <=? base + 3 + i) && (base + 3 + i <? base + 3 + i + Z.of_nat (S n))) with true by lia.
      destruct ((base + 3 + (i + 1) <=? base + 3 + i) && _); auto.
    + unfold lv_set. rewrite znth_zupd_other by lia.
      replace ((base + 3 + i <=? c) && (c <? base + 3 + i + Z.of_nat (S n))) with ((base + 3 + (i + 1) <=? c) && (c <? base + 3 + (i + 1) + Z.of_nat n)) by lia.
      auto.
Qed.

Lemma hinv_same hs R S S' : hinv hs R S -> same S S' -> hinv hs R S'.
Proof. intros [] E. split; auto. intros k i vs. rewrite E. auto. Qed.

Lemma add_full hs R S key amount : hinv hs R S -> key <> ITEM_MAX -> 0 <= amount -> zlen hs + (3 + amount) < 2 ^ 60 ->
  exists r hs' R' S', hash_add hs key amount = Some (r, hs') /\ hinv hs' R' S' /\ hspec S (HAdd key amount) r S'.
Proof.
  intros I NK HA B. unfold hash_add.
  assert (E: (if negb (lv_get hs (key_hash key) =? 0) then add_loop (Datatypes.S (length hs)) hs key amount (key_hash key) (lv_get hs (key_hash key)) ITEM_MAX
              else Some (Some (key_hash key, lv_get hs (key_hash key), ITEM_MAX))) =
             add_loop (Datatypes.S (length hs)) hs key amount (key_hash key) (lv_get hs (key_hash key)) ITEM_MAX).
  { destruct (lv_get hs (key_hash key) =? 0) eqn:Q; auto. cbn [negb add_loop]. rewrite Q. cbn [negb andb]. rewrite andb_false_r. reflexivity. }
  rewrite E. clear E. pose proof (key_hash_range key) as HR.
  rewrite (add_loop_ok hs R S key amount I ltac:(lia) NK (filter (inh (key_hash key)) R)).
  2: { intros r H. apply filter_In in H. tauto. }
  2: { pose proof (filter_len (inh (key_hash key)) R). pose proof (recs_count hs R S I). lia. }
  2: { apply (h_chain _ _ _ I). auto. }
  2: { lia. }
  rewrite (bucket_find hs R S key I NK). cbn [bind]. cbn [hspec]. rewrite (state_find hs R S key I NK).
  destruct (fkey key R) as [r0|] eqn:F; cbn [option_map].
  { exists SIZE_MAX, hs, R, S. split; auto. split; auto. split; auto. intros k; auto. }
  rewrite Z.eqb_refl. destruct (ffree amount (filter (inh (key_hash key)) R)) as [r0|] eqn:FF.
  - apply find_some in FF as [H0 HF]. apply filter_In in H0 as [H0 HH]. unfold inh in HH.
    destruct (rec_bound hs R S r0 I ltac:(lia) H0) as (X1 & X2 & X3 & X4). pose proof (not_max (r_idx r0) ltac:(lia)) as [N1 N2].
    replace (r_idx r0 =? ITEM_MAX) with false by lia. cbn [negb andb]. replace (r_idx r0 =? 0) with false by lia.
    rewrite !u64_s by lia. unfold r_end in X2, X3.
    destruct (clear_ok (Z.to_nat amount) hs (r_idx r0) 0) as [CZ CN]; try lia.
    set (hs1 := clear_loop _ _ _ _) in *. set (hs2 := lv_set hs1 (r_idx r0 + 1) key).
    assert (ZA: zlen (repeat 0 (Z.to_nat amount)) = amount) by (rewrite zlen_repeat; lia).
    assert (U: forall c, c <= r_idx r0 \/ r_end r0 <= c -> znth hs2 c = znth hs c).
    { intros c Hc. unfold r_end in Hc. unfold hs2, lv_set. rewrite znth_zupd_other by lia. rewrite CN.
      replace ((r_idx r0 + 3 + 0 <=? c) && (c <? r_idx r0 + 3 + 0 + Z.of_nat (Z.to_nat amount))) with false by lia. auto. }
    assert (C: cells_of hs2 (mkRec (r_h r0) (r_idx r0) key (repeat 0 (Z.to_nat amount)))).
    { split; [|split]; cbn [r_idx r_key r_vals].
      - apply lv_get_set_same. rewrite CZ. lia.
      - unfold hs2. rewrite lv_get_set_other by lia. unfold lv_get. rewrite CN.
        replace ((r_idx r0 + 3 + 0 <=? r_idx r0 + 2) && (r_idx r0 + 2 <? r_idx r0 + 3 + 0 + Z.of_nat (Z.to_nat amount))) with false by lia.
        destruct (h_cells _ _ _ I r0 H0) as (_ & Q & _). unfold lv_get in Q. rewrite Q, ZA. lia.
      - intros j Hj. rewrite ZA in Hj. unfold hs2, lv_set. rewrite znth_zupd_other by lia. rewrite CN.
        replace ((r_idx r0 + 3 + 0 <=? r_idx r0 + 3 + j) && (r_idx r0 + 3 + j <? r_idx r0 + 3 + 0 + Z.of_nat (Z.to_nat amount))) with true by lia.
        destruct (znth (repeat 0 (Z.to_nat amount)) j) as [x|] eqn:Q.
        + apply znth_In in Q. apply repeat_spec in Q. congruence.
        + apply znth_None in Q. rewrite ZA in Q. lia. }
    pose proof (repl_ok hs R S r0 hs2 key (repeat 0 (Z.to_nat amount)) I H0) as P.
    eexists _, _, _, _. split; [reflexivity|]. split; [apply P|]; auto.
    + unfold hs2. rewrite zlen_lv_set. auto.
    + lia.
    + lia.
    + split; [unfold SIZE_MAX, two64; lia|]. split.
      * intros k' vs Q. apply (h_state _ _ _ I) in Q as (Q & r & Q1 & Q2 & Q3 & _).
        assert (r = r0) by (eapply idx_inj; eauto). subst r. lia.
      * intros k'. unfold hput_opt, hput. replace (negb (key =? ITEM_MAX)) with true by lia. rewrite andb_true_r. destruct (k' =? key) eqn:Q; auto.
        destruct (k' =? r_key r0) eqn:Q2; auto. destruct (S k') as [[i vs]|] eqn:Q3; auto.
        apply (h_state _ _ _ I) in Q3 as (Q3 & _). lia.
  - rewrite Z.eqb_refl. cbn [negb andb]. change (0 =? ITEM_MAX) with false. change (0 =? 0) with true. cbn [andb].
     rewrite !u64_s by (pose proof (zlen_nonneg hs); lia).
    destruct (new_ok hs R S key amount I NK HA F) as [I' FR].
    eexists _, _, _, _. split; [reflexivity|]. split; [exact I'|]. split; [|split].
    + pose proof (zlen_nonneg hs). unfold SIZE_MAX, two64. lia.
    + intros k' vs Q. apply (h_state _ _ _ I) in Q as (_ & r & Q1 & _ & Q3 & _). apply (FR r Q1). auto.
    + intros k; auto.
Qed.

(** ** Calls on a record *)
Lemma amount_ok hs R S r : hinv hs R S -> zlen hs < 2 ^ 60 -> In r R -> hash_get_amount_by_index hs (r_idx r) = zlen (r_vals r).
Proof.
  intros I B H. destruct (rec_bound hs R S r I B H) as (X1 & X2 & X3 & X4). unfold hash_get_amount_by_index, r_end in *.
  pose proof (not_max (r_idx r) ltac:(lia)) as [N1 N2]. pose proof (not_max (zlen (r_vals r)) ltac:(pose proof (zlen_nonneg (r_vals r)); lia)) as [N3 N4].
  destruct (h_cells _ _ _ I r H) as (_ & A & _). rewrite (u64_s (r_idx r + 2)), A by lia.
  replace (negb (r_idx r =? SIZE_MAX) && negb (zlen (r_vals r) =? ITEM_MAX)) with true by lia. apply u64_s. pose proof (zlen_nonneg (r_vals r)). lia.
Qed.
Lemma amount_none hs : hash_get_amount_by_index hs SIZE_MAX = 0.
Proof. unfold hash_get_amount_by_index. rewrite Z.eqb_refl. reflexivity. Qed.

Lemma value_cell hs R S r n : hinv hs R S -> zlen hs < 2 ^ 60 -> In r R -> 0 <= n < zlen (r_vals r) ->
  znth hs (u64 (r_idx r + 3 + n)) = znth (r_vals r) n.
Proof.
  intros I B H Hn. destruct (rec_bound hs R S r I B H) as (X1 & X2 & X3 & X4). unfold r_end in *. rewrite u64_s by lia.
  apply (h_cells _ _ _ I r H). auto.
Qed.

Lemma or_else_out {A} (l : list A) n : ~ 0 <= n < zlen l -> znth l n = None. Proof. apply znth_None. Qed.

Lemma get_at_ok hs R S r n : hinv hs R S -> zlen hs < 2 ^ 60 -> In r R -> is_size n ->
  hash_get_by_index hs (r_idx r) n = or_else (znth (r_vals r) n) ITEM_MAX.
Proof.
  intros I B H Hn. unfold hash_get_by_index. rewrite (amount_ok hs R S r) by auto. unfold is_size in Hn. destruct (n <? zlen (r_vals r)) eqn:E.
  - unfold lv_get. rewrite (value_cell hs R S r n); auto. lia.
  - rewrite or_else_out by lia. reflexivity.
Qed.

Lemma set_cells hs R S r n v : hinv hs R S -> zlen hs < 2 ^ 60 -> In r R -> 0 <= n < zlen (r_vals r) ->
  hinv (lv_set hs (u64 (r_idx r + 3 + n)) v) (repl R (r_idx r) (r_key r) (zupd (r_vals r) n v)) (hput_opt S r (r_key r) (zupd (r_vals r) n v)).
Proof.
  intros I B H Hn. destruct (rec_bound hs R S r I B H) as (X1 & X2 & X3 & X4). unfold r_end in X2, X3. rewrite u64_s by lia.
  apply (repl_ok hs R S r); auto.
  - apply zlen_lv_set.
  - apply zlen_zupd.
  - intros c Hc. unfold r_end in Hc. apply znth_zupd_other. lia.
  - destruct (h_cells _ _ _ I r H) as (C1 & C2 & C3). split; [|split]; cbn [r_idx r_key r_vals].
    + rewrite lv_get_set_other by lia. auto.
    + rewrite lv_get_set_other, zlen_zupd by lia. auto.
    + intros j Hj. rewrite zlen_zupd in Hj. destruct (Z.eq_dec n j) as [<-|N].
      * unfold lv_set. rewrite !znth_zupd_same by lia. auto.
      * unfold lv_set. rewrite !znth_zupd_other by lia. auto.
  - intros N. apply (h_hash _ _ _ I r H N).
Qed.

Lemma put_same S r vs : r_key r <> ITEM_MAX -> same (hput S (r_key r) (Some (r_idx r, vs))) (hput_opt S r (r_key r) vs).
Proof.
  intros N k. unfold hput, hput_opt. destruct (k =? r_key r) eqn:E; cbn [andb]; auto.
  replace (negb (r_key r =? ITEM_MAX)) with true by lia. auto.
Qed.

Lemma state_rec hs R S k i vs : hinv hs R S -> S k = Some (i, vs) -> exists r, In r R /\ r_key r = k /\ r_idx r = i /\ r_vals r = vs /\ k <> ITEM_MAX.
Proof. intros I E. apply (h_state _ _ _ I) in E as (N & r & ? & ? & ? & ?). exists r. auto. Qed.

Lemma remove_cells hs R S r : hinv hs R S -> zlen hs < 2 ^ 60 -> In r R -> r_key r <> ITEM_MAX ->
  exists R' S', hinv (lv_set hs (u64 (r_idx r + 1)) ITEM_MAX) R' S' /\ same (hput S (r_key r) None) S'.
Proof.
  intros I B H N. destruct (rec_bound hs R S r I B H) as (X1 & X2 & X3 & X4). rewrite u64_s by lia.
  unfold r_end in X2, X3. exists (repl R (r_idx r) ITEM_MAX (r_vals r)), (hput_opt S r ITEM_MAX (r_vals r)). split.
  - pose proof (zlen_nonneg (r_vals r)). apply (repl_ok hs R S r); auto.
    + apply zlen_lv_set.
    + intros c Hc. unfold r_end in Hc. apply znth_zupd_other. lia.
    + destruct (h_cells _ _ _ I r H) as (C1 & C2 & C3). split; [|split]; cbn [r_idx r_key r_vals].
      * apply lv_get_set_same. lia.
      * rewrite lv_get_set_other by lia. auto.
      * intros j Hj. unfold lv_set. rewrite znth_zupd_other by lia. auto.
    + congruence.
  - intros k. unfold hput, hput_opt. rewrite Z.eqb_refl. cbn [negb]. rewrite andb_false_r. auto.
Qed.

Lemma same_refl S : same S S. Proof. intros k. auto. Qed.

Lemma set_st_ok hs R S r n : hinv hs R S -> zlen hs < 2 ^ 60 -> In r R -> 0 <= n < zlen (r_vals r) ->
  u64 (r_idx r + 3 + n) < zlen hs.
Proof. intros I B H Hn. destruct (rec_bound hs R S r I B H) as (X1 & X2 & X3 & X4). unfold r_end in *. rewrite u64_s by lia. lia. Qed.

Lemma num_ok n a : 0 <= n < SIZE_MAX -> (u64 (n + 1) <=? a) = (n <? a).
Proof. intros H. unfold u64, SIZE_MAX, two64 in *. rewrite Z.mod_small by lia. lia. Qed.

Lemma hexec_ok hs R S op : hinv hs R S -> zlen hs + hop_size op < 2 ^ 60 -> legal S op ->
  exists r hs' R' S', hexec hs op = Some (r, hs') /\ hinv hs' R' S' /\ hspec S op r S'.
Proof.
  intros I B L. assert (B0: zlen hs < 2 ^ 60). { destruct op; cbn [hop_size legal] in *; lia. }
  destruct op as [k n|k|k|k n|k n|k n|k n v|k n v|k n v|k|i|i|i n|i n v|i]; cbn [legal hexec hop_size] in *.
  - destruct L as [[_ K] N]. apply (add_full hs R S); auto.
  - destruct L as [_ K]. rewrite (get_index_ok hs R S k I B0 K). eexists _, hs, R, S. split; [reflexivity|]. split; auto. split; [auto|apply same_refl].
  - destruct L as [_ K]. unfold hash_get_amount. rewrite (get_index_ok hs R S k I B0 K). eexists _, hs, R, S. split; [reflexivity|]. split; auto. split; [|apply same_refl].
    destruct (S k) as [[i vs]|] eqn:E; [|apply amount_none]. destruct (state_rec _ _ _ _ _ _ I E) as (r & H1 & H2 & <- & <- & _). apply (amount_ok hs R S); auto.
  - destruct L as [[_ K] N]. unfold hash_get. rewrite (get_index_ok hs R S k I B0 K). eexists _, hs, R, S. split; [reflexivity|]. split; auto. split; [|apply same_refl].
    destruct (S k) as [[i vs]|] eqn:E.
    + destruct (state_rec _ _ _ _ _ _ I E) as (r & H1 & H2 & <- & <- & _). apply (get_at_ok hs R S); auto.
    + unfold hash_get_by_index. rewrite amount_none. unfold is_size in N. replace (n <? 0) with false by lia. auto.
  - destruct L as [[_ K] N]. unfold hash_get_int64. rewrite (get_index_ok hs R S k I B0 K). eexists _, hs, R, S. split; [reflexivity|]. split; auto. split; [|apply same_refl].
    destruct (S k) as [[i vs]|] eqn:E; unfold hash_get_int64_by_index; rewrite num_ok by auto.
    + destruct (state_rec _ _ _ _ _ _ I E) as (r & H1 & H2 & <- & <- & _). rewrite (amount_ok hs R S) by auto.
      destruct (n <? zlen (r_vals r)) eqn:Q; [rewrite (value_cell hs R S) by (auto; lia); auto|rewrite or_else_out by lia; auto].
    + rewrite amount_none. replace (n <? 0) with false by lia. auto.
  - destruct L as [[_ K] N]. unfold hash_get_double. rewrite (get_index_ok hs R S k I B0 K). eexists _, hs, R, S. split; [reflexivity|]. split; auto. split; [|apply same_refl].
    destruct (S k) as [[i vs]|] eqn:E; unfold hash_get_double_by_index; rewrite num_ok by auto.
    + destruct (state_rec _ _ _ _ _ _ I E) as (r & H1 & H2 & <- & <- & _). rewrite (amount_ok hs R S) by auto.
      destruct (n <? zlen (r_vals r)) eqn:Q; [rewrite (value_cell hs R S) by (auto; lia); auto|rewrite or_else_out by lia; auto].
    + rewrite amount_none. replace (n <? 0) with false by lia. auto.
  - destruct L as [[_ K] N]. unfold hash_set. rewrite (get_index_ok hs R S k I B0 K). cbn [bind hspec]. unfold hash_set_by_index, is_size in *.
    destruct (S k) as [[i vs]|] eqn:E.
    + destruct (state_rec _ _ _ _ _ _ I E) as (r & H1 & <- & <- & <- & _). rewrite (amount_ok hs R S) by auto.
      destruct (n <? zlen (r_vals r)) eqn:Q.
      * unfold lv_set_st. pose proof (set_st_ok hs R S r n I B0 H1 ltac:(lia)). replace (u64 (r_idx r + 3 + n) <? zlen hs) with true by lia.
        eexists _, _, _, _. split; [reflexivity|]. split; [apply (set_cells hs R S); auto; lia|]. split; auto. apply put_same; auto.
      * eexists _, hs, R, S. split; [reflexivity|]. split; auto. split; auto. apply same_refl.
    + rewrite amount_none. replace (n <? 0) with false by lia. eexists _, hs, R, S. split; [reflexivity|]. split; auto. split; auto. apply same_refl.
  - destruct L as [[_ K] N]. unfold hash_set_int64. rewrite (get_index_ok hs R S k I B0 K). cbn [bind hspec]. unfold hash_set_int64_by_index.
    destruct (S k) as [[i vs]|] eqn:E.
    + destruct (state_rec _ _ _ _ _ _ I E) as (r & H1 & <- & <- & <- & _). rewrite (amount_ok hs R S) by auto.
      destruct (rec_bound hs R S r I B0 H1) as (X1 & X2 & X3 & X4). unfold r_end in *. rewrite num_ok by (unfold SIZE_MAX, two64; lia).
      replace (n <? zlen (r_vals r)) with true by lia. pose proof (set_st_ok hs R S r n I B0 H1 ltac:(lia)). replace (u64 (r_idx r + 3 + n) <? zlen hs) with true by lia.
      change (negb (1 =? LLONG_MAX)) with true. cbv iota.
      eexists _, _, _, _. split; [reflexivity|]. split; [apply (set_cells hs R S); auto; lia|]. split; auto. apply put_same; auto.
    + rewrite num_ok by auto. rewrite amount_none. replace (n <? 0) with false by lia. change (negb (SIZE_MAX =? LLONG_MAX)) with true. cbv iota.
      eexists _, hs, R, S. split; [reflexivity|]. split; auto. split; auto. apply same_refl.
  - destruct L as [[_ K] N]. unfold hash_set_double. rewrite (get_index_ok hs R S k I B0 K). cbn [bind hspec]. unfold hash_set_int64_by_index.
    destruct (S k) as [[i vs]|] eqn:E.
    + destruct (state_rec _ _ _ _ _ _ I E) as (r & H1 & <- & <- & <- & _). rewrite (amount_ok hs R S) by auto.
      destruct (rec_bound hs R S r I B0 H1) as (X1 & X2 & X3 & X4). unfold r_end in *. rewrite num_ok by (unfold SIZE_MAX, two64; lia).
      replace (n <? zlen (r_vals r)) with true by lia. pose proof (set_st_ok hs R S r n I B0 H1 ltac:(lia)). replace (u64 (r_idx r + 3 + n) <? zlen hs) with true by lia.
      eexists _, _, _, _. split; [reflexivity|]. split; [apply (set_cells hs R S); auto; lia|]. split; auto. apply put_same; auto.
    + rewrite num_ok by auto. rewrite amount_none. replace (n <? 0) with false by lia.
      eexists _, hs, R, S. split; [reflexivity|]. split; auto. split; auto. apply same_refl.
  - destruct L as [_ K]. unfold hash_remove. rewrite (get_index_ok hs R S k I B0 K). cbn [bind hspec]. unfold hash_remove_by_index.
    destruct (S k) as [[i vs]|] eqn:E.
    + destruct (state_rec _ _ _ _ _ _ I E) as (r & H1 & <- & <- & <- & _). destruct (rec_bound hs R S r I B0 H1) as (X1 & X2 & X3 & X4).
      pose proof (not_max (r_idx r) ltac:(lia)) as [N1 N2]. replace (negb (r_idx r =? SIZE_MAX)) with true by lia.
      destruct (remove_cells hs R S r I B0 H1 K) as (R' & S' & I' & E'). unfold lv_set_st.
      replace (u64 (r_idx r + 1) <? zlen hs) with true by (rewrite u64_s by lia; lia).
      eexists _, _, R', S'. split; [reflexivity|]. split; auto.
    + rewrite Z.eqb_refl. cbn [negb]. eexists _, hs, R, S. split; [reflexivity|]. split; auto. split; auto. apply same_refl.
  - destruct L as (k & vs & E). eexists _, hs, R, S. split; [reflexivity|]. split; auto. split; [|apply same_refl].
    destruct (state_rec _ _ _ _ _ _ I E) as (r & H1 & <- & <- & <- & _). destruct (rec_bound hs R S r I B0 H1) as (X1 & X2 & X3 & X4).
    unfold hash_get_key. rewrite u64_s by lia. destruct (h_cells _ _ _ I r H1) as (-> & _). eauto.
  - eexists _, hs, R, S. split; [reflexivity|]. split; auto. split; [|apply same_refl]. intros k vs E.
    destruct (state_rec _ _ _ _ _ _ I E) as (r & H1 & <- & <- & <- & _). apply (amount_ok hs R S); auto.
  - destruct L as [_ N]. eexists _, hs, R, S. split; [reflexivity|]. split; auto. split; [|apply same_refl]. intros k vs E.
    destruct (state_rec _ _ _ _ _ _ I E) as (r & H1 & <- & <- & <- & _). apply (get_at_ok hs R S); auto.
  - destruct L as [(k & vs & E) N]. destruct (state_rec _ _ _ _ _ _ I E) as (r & H1 & <- & <- & <- & NK). unfold hash_set_by_index.
    rewrite (amount_ok hs R S) by auto. unfold is_size in N.
    assert (UQ: forall k' vs', S k' = Some (r_idx r, vs') -> k' = r_key r /\ vs' = r_vals r).
    { intros k' vs' E'. destruct (state_rec _ _ _ _ _ _ I E') as (r' & Q1 & <- & Q2 & <- & _). assert (r' = r) by (eapply idx_inj; eauto). subst. auto. }
    destruct (n <? zlen (r_vals r)) eqn:Q.
    + unfold lv_set_st. pose proof (set_st_ok hs R S r n I B0 H1 ltac:(lia)). replace (u64 (r_idx r + 3 + n) <? zlen hs) with true by lia.
      eexists _, _, _, _. split; [reflexivity|]. split; [apply (set_cells hs R S); auto; lia|].
      intros k' vs' E'. destruct (UQ k' vs' E') as [-> ->]. rewrite Q. split; auto. apply put_same; auto.
    + eexists _, hs, R, S. split; [reflexivity|]. split; auto. intros k' vs' E'. destruct (UQ k' vs' E') as [-> ->]. rewrite Q. split; auto. apply same_refl.
  - destruct L as (k & vs & E). destruct (state_rec _ _ _ _ _ _ I E) as (r & H1 & <- & <- & <- & NK). unfold hash_remove_by_index.
    destruct (rec_bound hs R S r I B0 H1) as (X1 & X2 & X3 & X4).
    pose proof (not_max (r_idx r) ltac:(lia)) as [N1 N2]. replace (negb (r_idx r =? SIZE_MAX)) with true by lia.
    destruct (remove_cells hs R S r I B0 H1 NK) as (R' & S' & I' & E'). unfold lv_set_st.
    replace (u64 (r_idx r + 1) <? zlen hs) with true by (rewrite u64_s by lia; lia).
    eexists _, _, R', S'. split; [reflexivity|]. split; auto.
    intros k' vs' E2. destruct (state_rec _ _ _ _ _ _ I E2) as (r' & Q1 & <- & Q2 & <- & _). assert (r' = r) by (apply (idx_inj hs R S); auto). subst. auto.
Qed.

Lemma create_inv : hinv hash_create [] hempty.
Proof.
  split; try (intros; contradiction).
  - vm_compute. discriminate.
  - intros h Hh. cbn [filter map chain]. unfold hash_create, lv_increase. cbn [app]. unfold lv_get, MAX_HASH.
    destruct (znth (repeat 0 (Z.to_nat 256)) h) as [x|] eqn:Q.
    + apply znth_In in Q. apply repeat_spec in Q. auto.
    + apply znth_None in Q. rewrite zlen_repeat in Q. lia.
  - constructor.
  - intros k i vs. unfold hempty. split; [discriminate|]. intros (_ & r & [] & _).
Qed.

Lemma hspec_unique S op r S1 S2 : legal S op -> hspec S op r S1 -> hspec S op r S2 -> same S1 S2.
Proof.
  intros L A B. assert (T: forall T, same T S1 -> same T S2 -> same S1 S2) by (intros T X Y k; rewrite X, Y; auto).
  destruct op; cbn [hspec legal] in *;
    repeat match goal with
    | L : exists k vs, S k = Some _ |- _ => destruct L as (? & ? & L)
    | L : _ /\ _ |- _ => destruct L
    | H : forall k vs, S k = Some (?i, vs) -> _ , L : S ?k = Some (?i, ?vs) |- _ => specialize (H k vs L)
    | H : context[match S ?k with _ => _ end] |- _ => destruct (S k) as [[? ?]|]
    | H : context[if ?b then _ else _] |- _ => destruct b
    end; try solve [eapply T; eauto].
Qed.

Lemma reach_inv hs S : hreach hs S -> exists R, hinv hs R S.
Proof.
  induction 1 as [|hs S op r hs' S' _ [R I] L B E P].
  - exists []. apply create_inv.
  - destruct (hexec_ok hs R S op I B L) as (r' & hs2 & R' & S2 & E' & I' & P'). rewrite E in E'. injection E' as <- <-.
    exists R'. apply (hinv_same hs' R' S2); auto. apply (hspec_unique S op r); auto.
Qed.

Lemma hash_full hs S op : hreach hs S -> legal S op -> zlen hs + hop_size op < 2 ^ 60 ->
  exists r hs' S', hexec hs op = Some (r, hs') /\ hspec S op r S'.
Proof.
  intros H L B. destruct (reach_inv hs S H) as [R I]. destruct (hexec_ok hs R S op I B L) as (r & hs' & R' & S' & E & _ & P). eauto.
Qed.

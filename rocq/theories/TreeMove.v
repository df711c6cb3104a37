(** The calls that move nodes keep the layout, with the tree changed as it should. *)
From Verif Require Import Prelude VectorSpec LVec TreeModel TreeSpec TreeShape TreeProofs TreeEdit.
From Coq Require Import List.
Local Open Scope Z_scope.

Lemma vswap_get c i j x : 0 <= i < zlen c -> 0 <= j < zlen c -> lv_get (vector_swap c i j) x = lv_get c (exch i j x).
Proof.
  intros I J. unfold vector_swap, exch. destruct (x =? j) eqn:EJ.
  - assert (x = j) as -> by lia. rewrite lv_get_set_same by (rewrite zlen_lv_set; auto). destruct (j =? i) eqn:E; auto. f_equal. lia.
  - rewrite lv_get_set_other by lia. destruct (x =? i) eqn:EI; [|rewrite lv_get_set_other by lia; auto].
    assert (x = i) as -> by lia. rewrite lv_get_set_same by auto. auto.
Qed.
Lemma vswap_len c i j : zlen (vector_swap c i j) = zlen c.
Proof. unfold vector_swap. rewrite !zlen_lv_set. auto. Qed.

Section Move.
Variables (c : list Z) (t : tree).
Hypothesis L : lay c t.
Hypothesis SM : small c.
Notation kids := (t_kids t).
Notation node := (node_of t).

(** Where a node is among the children of its parent. *)
Lemma kid_at p l1 n l2 m i : node p -> kids p = l1 ++ n :: l2 -> node m -> nth i (kids m) (- m) = n -> n <> 0 -> m = p /\ i = length l1.
Proof.
  intros P E M X NZ. assert (In n (kids p)) as IP by (rewrite E; apply in_or_app; right; left; auto).
  pose proof (kid_nz c t L p n P IP). pose proof (node_range c t L SM m M).
  destruct (le_lt_dec (length (kids m)) i) as [GE|LT]; [rewrite nth_overflow in X by auto; lia|].
  assert (In n (kids m)) as IM by (rewrite <- X; apply nth_In; auto).
  assert (m = p) as -> by (apply (sh_uniq _ (l_shape _ _ L) m p n); auto). split; auto.
  pose proof (sh_nodup _ (l_shape _ _ L) p P) as ND. rewrite (NoDup_nth _ (- p)) in ND. apply ND; auto.
  - rewrite E, app_length. cbn. lia.
  - rewrite X, E, app_nth2, Nat.sub_diag by lia. reflexivity.
Qed.
Lemma at_kid p l1 n l2 d : kids p = l1 ++ n :: l2 -> nth (length l1) (kids p) d = n.
Proof. intros E. rewrite E, app_nth2, Nat.sub_diag by lia. reflexivity. Qed.
Lemma split_facts p l1 n l2 : node p -> kids p = l1 ++ n :: l2 -> In n (kids p) /\ kids p <> [] /\ (length l1 < length (kids p))%nat /\ node n /\ 5 <= n.
Proof.
  intros P E. assert (In n (kids p)) as I by (rewrite E; apply in_or_app; right; left; auto). repeat split; auto.
  - rewrite E. destruct l1; discriminate.
  - rewrite E, app_length. cbn. lia.
  - eapply kid_node; eauto.
  - eapply kid_nz; eauto.
Qed.

(** ** Exchanging two nodes. *)
Section Swap.
Variables (a b pa pb : Z) (la la' lb lb' : list Z).
Hypothesis PA : node pa.
Hypothesis PB : node pb.
Hypothesis EA : kids pa = la ++ a :: la'.
Hypothesis EB : kids pb = lb ++ b :: lb'.
Hypothesis AB : ~ below kids a b.
Hypothesis BA : ~ below kids b a.
Definition c_swap : list Z := vector_swap (vector_swap c (refn pa (kids pa) (length la)) (refn pb (kids pb) (length lb))) (a - 2) (b - 2).

Lemma swap_eq : node_swap c a b = Some (0, c_swap).
Proof.
  unfold node_swap. rewrite (parent_of c t L SM pa la a la' PA EA), (parent_of c t L SM pb lb b lb' PB EB). cbn [bind].
  rewrite (node_ok c t L SM pa PA), (node_ok c t L SM pb PB). cbn [negb orb].
  rewrite (ref_to_is c t L SM pa la a la' PA EA), (ref_to_is c t L SM pb lb b lb' PB EB). reflexivity.
Qed.

Let A := proj1 (proj2 (proj2 (proj2 (split_facts pa la a la' PA EA)))).
Let B := proj1 (proj2 (proj2 (proj2 (split_facts pb lb b lb' PB EB)))).

Lemma swap_get x : lv_get c_swap x = lv_get c (exch (refn pa (kids pa) (length la)) (refn pb (kids pb) (length lb)) (exch (a - 2) (b - 2) x)).
Proof.
  destruct (split_facts pa la a la' PA EA) as (IA & NA & LA & NDA & A5). destruct (split_facts pb lb b lb' PB EB) as (IB & NB & LB & NDB & B5).
  unfold c_swap. pose proof (node_range c t L SM a NDA). pose proof (node_range c t L SM b NDB).
  rewrite vswap_get by (rewrite vswap_len; lia). apply vswap_get; apply (ref_range c t L SM), link_is; auto; lia.
Qed.

Lemma swap_data m d : node m -> -1 <= d <= 0 \/ 2 <= d < 3 + zlen (t_args t m) -> lv_get c_swap (m + d) = lv_get c (m + d).
Proof.
  intros M D. destruct (split_facts pa la a la' PA EA) as (IA & NA & LA & NDA & A5). destruct (split_facts pb lb b lb' PB EB) as (IB & NB & LB & NDB & B5).
  rewrite swap_get. assert (is_ref t (a - 2)) as RA by (apply (ref_next_is t); auto; lia). assert (is_ref t (b - 2)) as RB by (apply (ref_next_is t); auto; lia).
  pose proof (ref_ne c t L SM _ m d RA M D). pose proof (ref_ne c t L SM _ m d RB M D). rewrite (exch_other (a - 2)) by lia.
  rewrite exch_other; auto; apply not_eq_sym; apply (ref_ne c t L SM); auto; apply link_is; auto; lia.
Qed.

Lemma swap_refn m i : node m -> kids m <> [] -> (i <= length (kids m))%nat -> exch (a - 2) (b - 2) (refn m (map (exch a b) (kids m)) i) = refn m (kids m) i.
Proof.
  intros M NE I. destruct (split_facts pa la a la' PA EA) as (IA & NA & LA & NDA & A5). destruct (split_facts pb lb b lb' PB EB) as (IB & NB & LB & NDB & B5).
  pose proof (zlen_nonneg (t_args t m)). pose proof (zlen_nonneg (t_args t a)). pose proof (zlen_nonneg (t_args t b)). destruct i as [|j]; cbn [refn].
  - apply exch_other; intros X; [destruct (cell_inj c t L m a 1 (-2) M NDA)|destruct (cell_inj c t L m b 1 (-2) M NDB)]; lia.
  - rewrite (nth_indep _ 0 (exch a b 0)) by (rewrite map_length; lia). rewrite map_nth.
    transitivity (exch a b (exch a b (nth j (kids m) 0)) - 2); [|rewrite exch_invol; auto].
    generalize (exch a b (nth j (kids m) 0)). intros z. unfold exch. replace (z - 2 =? a - 2) with (z =? a) by lia. replace (z - 2 =? b - 2) with (z =? b) by lia. destruct (z =? a), (z =? b); lia.
Qed.

Lemma swap_lay : lay c_swap (mkTree (fun m => map (exch a b) (kids m)) (t_type t) (t_args t) (t_last t)).
Proof.
  destruct (split_facts pa la a la' PA EA) as (IA & NA & LA & NDA & A5). destruct (split_facts pb lb b lb' PB EB) as (IB & NB & LB & NDB & B5).
  set (t' := mkTree _ _ _ _). assert (forall m, node_of t' m <-> node m) as NODES by (intros m; apply (swap_below kids a b (l_shape _ _ L)); auto).
  assert (zlen c_swap = zlen c) as LEN by (unfold c_swap; rewrite !vswap_len; auto).
  split; cbn [t' t_kids t_type t_args t_last].
  - apply (shape_swap kids a b (l_shape _ _ L)); auto.
  - intros m M. apply NODES in M. apply L; auto.
  - intros m M. apply NODES in M. rewrite LEN. apply L; auto.
  - intros m k M K. apply NODES in M, K. apply L; auto.
  - intros m M MZ. apply NODES in M. replace (m - 1) with (m + -1) by lia. rewrite swap_data by (auto; lia). apply L; auto.
  - intros m M. apply NODES in M. replace m with (m + 0) at 1 by lia. rewrite swap_data by (auto; lia). rewrite Z.add_0_r, zlen_map. apply L; auto.
  - intros m M. apply NODES in M. pose proof (zlen_nonneg (t_args t m)). rewrite swap_data by (auto; lia). apply L; auto.
  - intros m i M I. apply NODES in M. pose proof (zlen_length (t_args t m)). rewrite <- Z.add_assoc. rewrite swap_data by (auto; lia). rewrite Z.add_assoc. apply L; auto.
  - intros m i M NE I. apply NODES in M. rewrite map_length in I. assert (kids m <> []) as KNE by (intros X; rewrite X in NE; apply NE; reflexivity).
    rewrite swap_get, swap_refn by auto. pose proof (node_range c t L SM m M).
    assert (nth i (map (exch a b) (kids m)) (- m) = exch a b (nth i (kids m) (- m))) as ->.
    { rewrite <- (exch_other a b (- m)) at 1 by lia. apply map_nth. }
    unfold exch at 1. destruct (refn m (kids m) i =? refn pa (kids pa) (length la)) eqn:E1.
    + destruct (ref_inj c t L SM m pa i (length la) M PA KNE NA I ltac:(lia) ltac:(lia)) as [-> ->].
      rewrite (l_links _ _ L) by (auto; lia). rewrite (at_kid pb lb b lb' _ EB), (at_kid pa la a la' _ EA), exch_l. auto.
    + destruct (refn m (kids m) i =? refn pb (kids pb) (length lb)) eqn:E2.
      * destruct (ref_inj c t L SM m pb i (length lb) M PB KNE NB I ltac:(lia) ltac:(lia)) as [-> ->].
        rewrite (l_links _ _ L) by (auto; lia). rewrite (at_kid pb lb b lb' _ EB), (at_kid pa la a la' _ EA), exch_r. auto.
      * rewrite (l_links _ _ L) by auto. symmetry. apply exch_other; intros X.
        -- destruct (kid_at pa la a la' m i PA EA M X ltac:(lia)) as [-> ->]. lia.
        -- destruct (kid_at pb lb b lb' m i PB EB M X ltac:(lia)) as [-> ->]. lia.
  - intros m M LA2. apply NODES in M. rewrite LEN. apply L; auto.
Qed.
End Swap.

(** ** A new node above a node. *)
Section Insert.
Variables (n p y argc : Z) (l1 l2 : list Z).
Hypothesis P : node p.
Hypothesis E : kids p = l1 ++ n :: l2.
Hypothesis AC : 0 <= argc.
Notation r := (r_new c).
Definition c_ins : list Z := lv_set (lv_set (c ++ [lv_get c (n - 2); y; 1; n; argc] ++ repeat 0 (Z.to_nat argc)) (refn p (kids p) (length l1)) r) (n - 2) (- r).

Lemma insert_eq : node_insert c n y argc = Some (r, c_ins).
Proof.
  unfold node_insert. rewrite (parent_of c t L SM p l1 n l2 P E). cbn [bind]. rewrite (node_ok c t L SM p P). cbn [negb].
  pose proof (ref_to_is c t L SM p l1 n l2 P E) as R. unfold ref_to in R. rewrite R. unfold ref_next, to_negative, c_ins.
  assert (zlen (lv_add (lv_add c (lv_get c (n - 2))) y) = r) as -> by (rewrite !zlen_lv_add; unfold r_new; lia).
  f_equal. f_equal. f_equal. f_equal. unfold lv_increase, lv_add. rewrite <- !app_assoc. reflexivity.
Qed.

Lemma insert_lay : lay c_ins (mkTree (upd (fun m => map (put n r) (kids m)) r [n]) (upd (t_type t) r y) (upd (t_args t) r (repeat 0 (Z.to_nat argc))) (Some r)).
Proof.
  destruct (split_facts p l1 n l2 P E) as (IN & NE0 & LT & N & N5). set (t' := mkTree _ _ _ _).
  pose proof (node_range c t L SM n N) as RN. assert (is_ref t (n - 2)) as RNX by (apply ref_next_is; auto; lia).
  set (e := refn p (kids p) (length l1)). assert (is_ref t e) as RE by (apply link_is; auto; lia).
  assert (n - 2 = refn p (kids p) (S (length l1))) as NX by (cbn [refn]; rewrite (at_kid p l1 n l2 _ E); auto).
  assert (e <> n - 2) as ENE by (rewrite NX; intros X; destruct (ref_inj c t L SM p p (length l1) (S (length l1)) P P NE0 NE0 ltac:(lia) ltac:(lia) X); lia).
  pose proof (ref_range c t L SM _ RE). pose proof (ref_range c t L SM _ RNX).
  set (tail := [lv_get c (n - 2); y; 1; n; argc] ++ repeat 0 (Z.to_nat argc)).
  assert (zlen tail = 5 + argc) as LT2 by (unfold tail; rewrite zlen_app, zlen_repeat, Z2Nat.id by lia; reflexivity).
  assert (forall k, k < 5 -> lv_get tail k = lv_get [lv_get c (n - 2); y; 1; n; argc] k) as T by (intros k K; unfold tail; apply lv_get_app1; exact K).
  assert (zlen c_ins = zlen c + 5 + argc) as LEN by (unfold c_ins; rewrite !zlen_lv_set, zlen_app; fold tail; lia).
  assert (forall x, x < zlen c -> x <> n - 2 -> x <> e -> lv_get c_ins x = lv_get c x) as OLD.
  { intros x X1 X2 X3. unfold c_ins. fold e. rewrite !lv_get_set_other by lia. apply lv_get_app1. auto. }
  assert (forall x, zlen c <= x -> lv_get c_ins x = lv_get tail (x - zlen c)) as NEW.
  { intros x X1. unfold c_ins. fold e. rewrite !lv_get_set_other by lia. apply lv_get_app2. auto. }
  assert (lv_get c_ins (n - 2) = - r) as GN.
  { unfold c_ins. apply lv_get_set_same. rewrite zlen_lv_set, zlen_app. fold tail. lia. }
  assert (lv_get c_ins e = r) as GE.
  { unfold c_ins. fold e. rewrite lv_get_set_other by lia. apply lv_get_set_same. rewrite zlen_app. fold tail. lia. }
  assert (forall m, node_of t' m <-> node m \/ m = r) as NODES by (intros m; apply (ins_below kids n r N ltac:(lia) (r_new_fresh c t L SM))).
  assert (forall m, node m -> t_args t' m = t_args t m) as ARGS by (intros m M; pose proof (fresh c t L SM m M); cbn [t' t_args]; unfold upd; destruct (m =? r) eqn:?; [lia|auto]).
  assert (forall m, node m -> t_kids t' m = map (put n r) (kids m)) as KIDS by (intros m M; pose proof (fresh c t L SM m M); cbn [t' t_kids]; unfold upd; destruct (m =? r) eqn:?; [lia|auto]).
  assert (t_args t' r = repeat 0 (Z.to_nat argc)) as AR by (cbn [t' t_args]; unfold upd; rewrite Z.eqb_refl; auto).
  assert (t_kids t' r = [n]) as KR by (cbn [t' t_kids]; unfold upd; rewrite Z.eqb_refl; auto).
  assert (zlen (repeat 0 (Z.to_nat argc)) = argc) as ZR by (rewrite zlen_repeat; lia).
  assert (r = zlen c + 2) as RR by reflexivity.
  assert (forall m d, node m -> -1 <= d <= 0 \/ 2 <= d < 3 + zlen (t_args t m) -> lv_get c_ins (m + d) = lv_get c (m + d)) as DATA.
  { intros m d M D. pose proof (node_range c t L SM m M). pose proof (ref_ne c t L SM _ m d RNX M D). pose proof (ref_ne c t L SM _ m d RE M D). apply OLD; lia. }
  split.
  - apply (shape_ins kids n r); auto; [apply L|lia|apply (r_new_fresh c t L SM)].
  - intros m M. apply NODES in M as [M| ->]; [apply L; auto|]. lia.
  - intros m M. rewrite LEN. apply NODES in M as [M| ->]; [rewrite ARGS by auto; pose proof (l_in _ _ L m M); lia|]. rewrite AR, ZR. lia.
  - intros m k M K LTm. apply NODES in M as [M| ->], K as [K| ->]; try (pose proof (fresh c t L SM m M)); try (pose proof (fresh c t L SM k K)); try lia.
    + rewrite ARGS by auto. apply L; auto.
    + rewrite ARGS by auto. pose proof (l_in _ _ L m M). lia.
  - intros m M MZ. cbn [t' t_type]. unfold upd. apply NODES in M as [M| ->].
    + pose proof (fresh c t L SM m M). destruct (m =? r) eqn:?; [lia|]. replace (m - 1) with (m + -1) by lia. rewrite DATA by (auto; lia). apply L; auto.
    + rewrite Z.eqb_refl, NEW by lia. replace (r - 1 - zlen c) with 1 by lia. rewrite T by lia. reflexivity.
  - intros m M. apply NODES in M as [M| ->].
    + rewrite KIDS, zlen_map by auto. replace m with (m + 0) at 1 by lia. rewrite DATA by (auto; lia). rewrite Z.add_0_r. apply L; auto.
    + rewrite KR, NEW by lia. replace (r - zlen c) with 2 by lia. rewrite T by lia. reflexivity.
  - intros m M. apply NODES in M as [M| ->].
    + rewrite ARGS by auto. pose proof (zlen_nonneg (t_args t m)). rewrite DATA by (auto; lia). apply L; auto.
    + rewrite AR, ZR, NEW by lia. replace (r + 2 - zlen c) with 4 by lia. rewrite T by lia. reflexivity.
  - intros m i M I. apply NODES in M as [M| ->].
    + rewrite ARGS in * by auto. pose proof (zlen_length (t_args t m)). rewrite <- Z.add_assoc, DATA by (auto; lia). rewrite Z.add_assoc. apply L; auto.
    + rewrite AR in *. rewrite repeat_length in I. rewrite NEW by lia. unfold tail. rewrite lv_get_app2; [|change (zlen [lv_get c (n - 2); y; 1; n; argc]) with 5; lia].
      change (zlen [lv_get c (n - 2); y; 1; n; argc]) with 5. replace (r + 3 + Z.of_nat i - zlen c - 5) with (Z.of_nat i) by lia.
      assert (nth i (repeat 0 (Z.to_nat argc)) 0 = 0) as -> by apply nth_repeat. unfold lv_get. assert (znth (repeat 0 (Z.to_nat argc)) (Z.of_nat i) = Some 0) as ->; [|reflexivity].
      unfold znth. rewrite ZR. replace ((Z.of_nat i <? 0) || (argc <=? Z.of_nat i)) with false by lia. rewrite Nat2Z.id. apply nth_error_repeat. auto.
  - intros m i M NE I. apply NODES in M as [M| ->].
    + rewrite KIDS in * by auto. rewrite map_length in I. assert (kids m <> []) as KNE by (intros X; rewrite X in NE; apply NE; reflexivity). pose proof (node_range c t L SM m M).
      assert (nth i (map (put n r) (kids m)) (- m) = put n r (nth i (kids m) (- m))) as ->.
      { assert (put n r (- m) = - m) as Q by (unfold put; destruct (- m =? n) eqn:?; [lia|auto]). rewrite <- Q at 1. apply map_nth. }
      assert (forall j, (j < length (kids m))%nat -> nth j (map (put n r) (kids m)) 0 = put n r (nth j (kids m) 0)) as MN.
      { intros j J. rewrite (nth_indep _ 0 (put n r 0)) by (rewrite map_length; lia). apply map_nth. }
      destruct (Nat.eq_dec i (S (length l1))) as [EI|NI]; [destruct (Z.eq_dec m p) as [EP|NP]|].
      * (* the cell after the node: now it is the one of the new node *)
        subst i m. cbn [refn]. rewrite MN by lia. rewrite (at_kid p l1 n l2 _ E). unfold put at 1. rewrite Z.eqb_refl. rewrite NEW by lia. replace (r - 2 - zlen c) with 0 by lia.
        rewrite T by lia. transitivity (lv_get c (n - 2)); [reflexivity|].
        rewrite NX, (l_links _ _ L) by (auto; lia). unfold put. destruct (_ =? n) eqn:X; auto. destruct (kid_at p l1 n l2 p (S (length l1)) P E P ltac:(lia) ltac:(lia)). lia.
      * assert (refn m (map (put n r) (kids m)) i = refn m (kids m) i) as ->.
        { subst i. cbn [refn]. rewrite MN by lia. unfold put. destruct (_ =? n) eqn:X; auto. exfalso. destruct (kid_at p l1 n l2 m (length l1) P E M); try lia. rewrite (nth_indep _ _ 0) by lia. lia. }
        rewrite OLD; [| |rewrite NX|].
        -- rewrite (l_links _ _ L) by auto. unfold put. destruct (_ =? n) eqn:X; auto. destruct (kid_at p l1 n l2 m i P E M ltac:(lia) ltac:(lia)). lia.
        -- apply (ref_range c t L SM). apply link_is; auto.
        -- intros X. destruct (ref_inj c t L SM m p i (S (length l1)) M P KNE NE0 I ltac:(lia) X). lia.
        -- intros X. destruct (ref_inj c t L SM m p i (length l1) M P KNE NE0 I ltac:(lia) X). lia.
      * assert (refn m (map (put n r) (kids m)) i = refn m (kids m) i) as ->.
        { destruct i as [|j]; cbn [refn]; auto. rewrite MN by lia. unfold put. destruct (_ =? n) eqn:X; auto. exfalso. destruct (kid_at p l1 n l2 m j P E M); try lia. rewrite (nth_indep _ _ 0) by lia. lia. }
        destruct (Z.eq_dec (refn m (kids m) i) e) as [X|X].
        -- destruct (ref_inj c t L SM m p i (length l1) M P KNE NE0 I ltac:(lia) X) as [-> ->]. rewrite X, GE, (at_kid p l1 n l2 _ E). unfold put. rewrite Z.eqb_refl. auto.
        -- rewrite OLD; auto; [|apply (ref_range c t L SM), link_is; auto|rewrite NX; intros Y; destruct (ref_inj c t L SM m p i (S (length l1)) M P KNE NE0 I ltac:(lia) Y); lia].
           rewrite (l_links _ _ L) by auto. unfold put. destruct (_ =? n) eqn:Y; auto. exfalso. apply X. destruct (kid_at p l1 n l2 m i P E M ltac:(lia) ltac:(lia)) as [-> ->]. reflexivity.
    + rewrite KR in *. cbn in I. destruct i as [|[|i]]; [| |lia]; cbn [refn nth].
      * rewrite NEW by lia. replace (r + 1 - zlen c) with 3 by lia. rewrite T by lia. reflexivity.
      * auto.
  - intros m M LM. rewrite LEN. cbn [t' t_last] in LM. injection LM as <-. rewrite AR, ZR. lia.
Qed.
End Insert.
End Move.

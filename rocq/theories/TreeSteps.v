(** One call refines the ordered tree. *)
From Verif Require Import Prelude VectorSpec LVec TreeModel TreeSpec TreeShape TreeProofs TreeEdit TreeMove TreeCut TreeRun.
From Coq Require Import List.
Local Open Scope Z_scope.

Lemma below_ext f g n m : below f n m -> (forall k, below f n k -> g k = f k) -> below g n m.
Proof.
  intros B H. induction B as [|m k B IH I]; [constructor|]. econstructor; eauto. rewrite H; auto.
Qed.
Lemma below_ext_iff f g n m : (forall k, below f n k -> g k = f k) -> (below f n m <-> below g n m).
Proof.
  intros H. split; intros B; [eapply below_ext; eauto|]. induction B as [|m k B IH I]; [constructor|]. rewrite H in I by auto. econstructor; eauto.
Qed.
Lemma shape_ext f g : shape f -> (forall k, below f 0 k -> g k = f k) -> shape g.
Proof.
  intros SH H. pose proof (fun m => below_ext_iff f g 0 m H) as B. split.
  - assert (forall m, fin f m -> below f 0 m -> fin g m) as G; [|apply G; [apply SH|constructor]].
    induction 1 as [m F IH]. intros M. constructor. intros k I. rewrite H in I by auto. apply IH; auto. econstructor; eauto.
  - intros n m k N M. apply B in N, M. rewrite !H by auto. apply SH; auto.
  - intros n N. apply B in N. rewrite H by auto. apply SH; auto.
  - intros n N. apply B in N. rewrite H by auto. apply SH; auto.
Qed.
Lemma lay_ext_kids c t f : lay c t -> (forall m, node_of t m -> f m = t_kids t m) -> lay c (mkTree f (t_type t) (t_args t) (t_last t)).
Proof.
  intros L H. assert (forall m, node_of (mkTree f (t_type t) (t_args t) (t_last t)) m <-> node_of t m) as B by (intros m; symmetry; apply (below_ext_iff (t_kids t) f 0 m); auto).
  split; cbn [t_kids t_type t_args t_last].
  - apply (shape_ext (t_kids t)); auto. apply L.
  - intros m M. apply B in M. apply L; auto.
  - intros m M. apply B in M. apply L; auto.
  - intros m k M K. apply B in M, K. apply L; auto.
  - intros m M. apply B in M. apply L; auto.
  - intros m M. apply B in M. rewrite H by auto. apply L; auto.
  - intros m M. apply B in M. apply L; auto.
  - intros m i M. apply B in M. apply L; auto.
  - intros m i M. apply B in M. rewrite H by auto. apply L; auto.
  - intros m M. apply B in M. apply L; auto.
Qed.

Lemma tree_eta t : t = mkTree (t_kids t) (t_type t) (t_args t) (t_last t).
Proof. destruct t; reflexivity. Qed.

Lemma spec_of t op r t' : tspec t op r t' <-> tspec (mkTree (t_kids t) (t_type t) (t_args t) (t_last t)) op r t'.
Proof. rewrite <- tree_eta. tauto. Qed.

Section Step.
Variables (nop : Z) (c : list Z) (t : tree).
Hypothesis L : lay c t.

(** The call ends, its answer is right for some next tree, and for any next tree
    allowed by it the layout is kept; the cells grow no more than allowed for. *)
Definition good (op : top) : Prop := exists r c', tdo nop c op = Some (r, c') /\ (exists t', tspec t op r t') /\ (forall t', tspec t op r t' -> lay c' t') /\ zlen c' <= zlen c + t_room op.

Lemma good_read op r : tdo nop c op = Some (r, c) -> tspec t op r t -> (forall t', tspec t op r t' -> t' = t) -> 0 <= t_room op -> good op.
Proof. intros D S U RM. exists r, c. split; auto. split; [eauto|]. split; [|lia]. intros t' H. rewrite (U t' H). auto. Qed.

Lemma good_one op r c' t' : tdo nop c op = Some (r, c') -> tspec t op r t' -> (forall t2, tspec t op r t2 -> t2 = t') -> lay c' t' -> zlen c' <= zlen c + t_room op -> good op.
Proof. intros D S U LY RM. exists r, c'. split; auto. split; [eauto|]. split; auto. intros t2 H. rewrite (U t2 H). auto. Qed.

Lemma small_of op : fits c op -> 0 <= t_room op -> small c.
Proof. unfold fits, small. lia. Qed.

Lemma good_swap a b : small c -> tlegal t (TSwap a b) -> good (TSwap a b).
Proof.
  intros SM (A & B & AB & BA). destruct (swap_nz (t_kids t) a b A B AB BA) as (AZ & BZ & NE).
  destruct (parent_split t a A AZ) as (pa & la & la' & PA & EA). destruct (parent_split t b B BZ) as (pb & lb & lb' & PB & EB).
  eapply good_one.
  - cbn [tdo]. apply (swap_eq c t L SM a b pa pb la la' lb lb'); auto.
  - apply (proj2 (spec_of t _ _ _)). cbn [tspec]. split; reflexivity.
  - intros t2 H. apply (proj1 (spec_of t _ _ _)) in H. cbn [tspec] in H. apply H.
  - apply (swap_lay c t L SM a b pa pb la la' lb lb'); auto.
  - unfold c_swap. rewrite !vswap_len. cbn [t_room]. lia.
Qed.

Lemma good_order a b : small c -> tlegal t (TOrder a b) -> good (TOrder a b).
Proof.
  intros SM (A & B & AB & BA). destruct (swap_nz (t_kids t) a b A B AB BA) as (AZ & BZ & NE).
  destruct (parent_split t a A AZ) as (pa & la & la' & PA & EA). destruct (parent_split t b B BZ) as (pb & lb & lb' & PB & EB).
  pose proof (swap_eq c t L SM a b pa pb la la' lb lb' PA PB EA EB) as SW. pose proof (swap_lay c t L SM a b pa pb la la' lb lb' PA PB EA EB AB BA) as L2.
  set (t2 := mkTree _ _ _ _) in L2. set (c2 := c_swap c t a b pa pb la lb) in *.
  assert (SM2: small c2) by (unfold small, c2, c_swap; rewrite !vswap_len; exact SM).
  pose proof (fun m => swap_below (t_kids t) a b (l_shape _ _ L) A B AB BA m) as NB. pose proof (fun m => ord_below0 (t_kids t) a b AZ BZ m) as OB.
  assert (forall m, node_of t (exch a b m) <-> node_of t m) as NX.
  { intros m. unfold exch. destruct (m =? a) eqn:?; [assert (m = a) as -> by lia; tauto|]. destruct (m =? b) eqn:?; [assert (m = b) as -> by lia; tauto|tauto]. }
  assert (TR: trade c2 a b = c_trade c2 t2 a b /\ lay (c_trade c2 t2 a b) (mkTree (fun m => t_kids t2 (exch a b m)) (t_type t2) (t_args t2) (t_last t2))).
  { assert (node_of t2 a) as A2 by (apply NB; auto). assert (node_of t2 b) as B2 by (apply NB; auto).
    assert (SH2: shape (fun m => t_kids t2 (exch a b m))) by (apply (shape_ord (t_kids t) a b (l_shape _ _ L)); auto).
    assert (ND2: forall m, below (fun m => t_kids t2 (exch a b m)) 0 m <-> node_of t2 m) by (intros m; etransitivity; [apply OB|]; etransitivity; [apply NX|]; symmetry; apply NB).
    split; [apply (trade_eq c2 t2 a b L2 SM2); auto|apply (trade_lay c2 t2 a b L2 SM2); auto]. }
  destruct TR as [TE TL]. eapply good_one.
  - cbn [tdo]. unfold node_order. rewrite SW. cbn [bind]. change (negb (0 =? 0)) with false. cbn match. fold (trade c2 a b). rewrite TE. reflexivity.
  - apply (proj2 (spec_of t _ _ _)). cbn [tspec]. split; reflexivity.
  - intros t3 H. apply (proj1 (spec_of t _ _ _)) in H. cbn [tspec] in H. apply H.
  - exact TL.
  - rewrite trade_len. unfold c2, c_swap. rewrite !vswap_len. cbn [t_room]. lia.
Qed.

Lemma remove_whole n : small c -> node_of t n -> n <> 0 -> exists c', node_remove c n = Some (0, c') /\ lay c' (t_rem t n) /\ zlen c' <= zlen c.
Proof.
  intros SM N NZ. destruct (parent_split t n N NZ) as (p & l1 & l2 & P & E).
  destruct (remove_eq c t n p l1 l2 L SM P E) as (c1 & RE & LEN & GP & GE & OLD). pose proof (rem_lay c t n p l1 l2 L SM P E c1 LEN GP GE OLD) as L1.
  destruct (n_facts c t n p l1 l2 L P E) as (I & NE & LT & _ & N5 & PN). assert (SM1: small c1) by (unfold small; rewrite LEN; exact SM).
  pose proof (node_range c t L SM n N) as RN. pose proof (zlen_nonneg (t_args t n)).
  assert (node_is_correct n = true) as OK by (apply (node_ok c t L SM); auto).
  assert (lv_get c1 n = lv_get c n) as G1. { apply OLD; auto. apply not_eq_sym. pose proof (ref_ne c t L SM (refn p (t_kids t p) (length l1)) n 0). rewrite Z.add_0_r in H0. apply H0; auto; [apply link_is; auto; lia|lia]. }
  assert (lv_get c1 (n + 2) = lv_get c (n + 2)) as G2.
  { apply OLD.
    - pose proof (zlen_nonneg (t_args t p)). intros X. destruct (cell_inj c t L n p 2 0 N P); lia.
    - apply not_eq_sym. apply (ref_ne c t L SM); auto; [apply link_is; auto; lia|lia]. }
  rewrite RE. unfold finish, node_get_amount, node_get_argc, ref_amount, ref_argc, ref_next. rewrite OK, G1, G2, (l_amount _ _ L n N), (l_argc _ _ L n N).
  destruct ((zlen (t_kids t n) =? 0) && (n + 2 + zlen (t_args t n) =? zlen c1 - 1)) eqn:C; [|exists c1; split; auto; split; auto; lia].
  exists (lv_resize c1 (n - 2)). split; auto. split.
  - apply lay_shrink; auto; [lia|]. intros m M. cbn [t_rem t_args].
    assert (node_of t m /\ ~ below (t_kids t) n m) as [M1 M2] by (apply (rem_below_iff (t_kids t) n (l_shape _ _ L) m N NZ); auto).
    pose proof (l_disj _ _ L m n M1 N). pose proof (l_disj _ _ L n m N M1). pose proof (node_range c t L SM m M1).
    assert (m <> n) by (intros ->; apply M2; constructor). lia.
  - unfold lv_resize, resized. rewrite zlen_app, zlen_firstn, zlen_repeat. lia.
Qed.
End Step.

Lemma swap_len c a b r c' : node_swap c a b = Some (r, c') -> zlen c' = zlen c.
Proof.
  unfold node_swap. intros E. destruct (node_search_parent c a) as [[? ?]|]; [|discriminate]. destruct (node_search_parent c b) as [[? ?]|]; [|discriminate]. cbn [bind] in E.
  assert (forall A (x y : A) (a b : Z), Some (a, x) = Some (b, y) -> x = y) as SI by congruence. destruct (negb _ || _); apply SI in E; rewrite <- E; rewrite ?vswap_len; auto.
Qed.

(** Moving a node to the end of the children of another. *)
Lemma good_move nop c t p n : lay c t -> zlen c + 5 < 2 ^ 62 -> tlegal t (TMove p n) -> good nop c t (TMove p n).
Proof.
  intros L RM (P & N & NZ & NP). assert (SM: small c) by (unfold small; lia).
  set (r := r_new c). pose proof (r_new_fresh c t L SM) as FR. fold r in FR. assert (NR: forall m, node_of t m -> m <> r) by (intros m M ->; auto).
  (* a child that keeps the place *)
  pose proof (add_child_eq c t L SM p nop P) as E1. pose proof (add_child_lay c t L SM p nop P) as L1. fold r in E1, L1. set (c1 := c_add c t p nop) in *. set (t1 := mkTree _ _ _ _) in L1.
  assert (zlen c1 = zlen c + 5) as LEN1 by (unfold c1, c_add; rewrite !zlen_lv_set, zlen_app; reflexivity). assert (SM1: small c1) by (unfold small; lia).
  assert (N1: forall m, node_of t1 m <-> node_of t m \/ m = r) by (intros m; apply (add_below (t_kids t) p r P FR)).
  assert (K1: forall m, m <> r -> t_kids t1 m = t_kids t m ++ (if m =? p then [r] else [])) by (intros m; apply (add_other (t_kids t) p r)).
  assert (KR: t_kids t1 r = []) by (apply (add_r (t_kids t) p r)).
  assert (D1: ~ below (t_kids t1) n r).
  { assert (forall m, below (t_kids t1) n m -> m <> r -> below (t_kids t) n m) as G.
    { induction 1 as [|m k B IH I]; intros MR; [constructor|]. destruct (Z.eq_dec m r) as [->|MR2]; [rewrite KR in I; contradiction|].
      rewrite K1 in I by auto. apply in_app_or in I as [I|I]; [econstructor; eauto|]. destruct (m =? p); [|contradiction]. destruct I as [<-|[]]. congruence. }
    intros B. destruct (below_inv _ _ _ B) as [->|(m & B' & I)]; [auto|]. destruct (Z.eq_dec m r) as [->|MR]; [rewrite KR in I; contradiction|].
    rewrite K1 in I by auto. apply in_app_or in I as [I|I].
    - apply FR. assert (node_of t m) as M by (apply (below_trans _ 0 n m); [auto|apply G; auto]). econstructor; eauto.
    - destruct (m =? p) eqn:E; [|contradiction]. apply NP. replace p with m by lia. apply G; auto. }
  assert (D2: ~ below (t_kids t1) r n).
  { intros B. destruct (below_head _ _ _ B) as [X|(k & I & _)]; [apply (NR n N); auto|]. rewrite KR in I. contradiction. }
  (* exchanged with the node *)
  destruct (good_swap nop c1 t1 L1 n r SM1) as (q & c2 & E2 & (t2 & S2) & L2 & _).
  { repeat split; auto; apply N1; auto. }
  specialize (L2 t2 S2). cbn [t1 tspec] in S2. destruct S2 as [-> T2]. cbn [tdo] in E2. pose proof (swap_len _ _ _ _ _ E2) as Z2.
  assert (small c2) as SM2 by (unfold small; rewrite Z2; lia).
  assert (N2: forall m, node_of t2 m <-> node_of t m \/ m = r).
  { intros m. rewrite <- N1. subst t2. apply (swap_below (t_kids t1) n r (l_shape _ _ L1)); auto; apply N1; auto. }
  (* and removed *)
  assert (r <> 0) as RZ by (unfold r, r_new; pose proof (zlen_nonneg c); lia).
  destruct (remove_whole c2 t2 L2 r SM2) as (c3 & E3 & L3 & Z3); [apply N2; auto|auto|].
  assert (N3: forall m, node_of (t_rem t2 r) m -> node_of t m).
  { intros m M. apply (rem_below_iff (t_kids t2) r (l_shape _ _ L2)) in M as [M1 M2]; [|apply N2; auto|auto]. apply N2 in M1 as [M1| ->]; auto. exfalso. apply M2. constructor. }
  exists 0, c3. split; [cbn [tdo]; unfold node_set_child; rewrite E1, E2; cbn [bind]; rewrite E3; reflexivity|].
  assert (KEY: forall m, node_of t m -> t_kids (t_rem t2 r) m = filter (fun k => negb (k =? n)) (t_kids t m) ++ (if m =? p then [n] else [])).
  { intros m M. cbn [t_rem t_kids]. assert (t_kids t2 m = map (exch n r) (t_kids t1 m)) as -> by (subst t2; reflexivity). rewrite K1 by auto. rewrite map_app, filter_app. f_equal.
    - assert (forall k, In k (t_kids t m) -> k <> r) as NRK by (intros k I ->; apply FR; econstructor; eauto). induction (t_kids t m) as [|k l IH]; [reflexivity|].
      cbn [map filter]. rewrite IH by (intros; apply NRK; right; auto). unfold exch at 1. pose proof (NRK k (or_introl eq_refl)). destruct (k =? n) eqn:KN; cbn [negb]; [rewrite Z.eqb_refl; reflexivity|].
      unfold exch. rewrite KN. destruct (k =? r) eqn:?; [lia|]. replace (k =? r) with false by lia. reflexivity.
    - destruct (m =? p); [|reflexivity]. cbn [map filter]. rewrite exch_r. destruct (n =? r) eqn:X; [exfalso; apply (NR n N); lia|]. reflexivity. }
  assert (L4: lay c3 (mkTree (t_kids (t_rem t2 r)) (t_type t) (t_args t) None)).
  { apply lay_ext; auto. intros m M. apply N3 in M. subst t2. cbn [t_rem t_type t_args]. unfold upd. pose proof (NR m M). destruct (m =? r) eqn:?; [lia|]. auto. }
  split.
  - exists (mkTree (t_kids (t_rem t2 r)) (t_type t) (t_args t) None). apply (proj2 (spec_of t _ _ _)). cbn [tspec]. split; auto. exists (t_kids (t_rem t2 r)). split; auto.
  - split; [|cbn [t_room]; lia]. intros t' H. apply (proj1 (spec_of t _ _ _)) in H. cbn [tspec] in H. destruct H as (_ & f & -> & F).
    apply (lay_ext_kids c3 _ f L4). intros m M. apply N3 in M. cbn [t_kids]. rewrite F by exact M. symmetry. apply KEY. auto.
Qed.

(** ** Every call. *)
Theorem step_good nop c t op : lay c t -> fits c op -> tlegal t op -> good nop c t op.
Proof.
  intros L FT LG. assert (SM: small c). { unfold fits, t_room in FT. unfold small. destruct op; cbn in LG; lia. }
  destruct op; cbn [tlegal] in LG.
  - destruct LG as [N I]. eapply good_read; auto; try (cbn [t_room]; lia); [reflexivity|apply (proj2 (spec_of t _ _ _)); cbn [tspec]; rewrite <- tree_eta; split; auto; apply get_child_of; auto|]. intros t' H. apply (proj1 (spec_of t _ _ _)) in H. cbn [tspec] in H. rewrite <- tree_eta in H. apply H.
  - destruct (get_parent_of c t L SM n LG) as (r & E & R). eapply good_read; auto; try (cbn [t_room]; lia); [cbn [tdo]; rewrite E; reflexivity|apply (proj2 (spec_of t _ _ _)); cbn [tspec]; rewrite <- tree_eta; split; auto|]. intros t' H. apply (proj1 (spec_of t _ _ _)) in H. cbn [tspec] in H. rewrite <- tree_eta in H. apply H.
  - eapply good_read; auto; try (cbn [t_room]; lia); [reflexivity|apply (proj2 (spec_of t _ _ _)); cbn [tspec]; rewrite <- tree_eta; split; auto; apply get_type_of; auto|]. intros t' H. apply (proj1 (spec_of t _ _ _)) in H. cbn [tspec] in H. rewrite <- tree_eta in H. apply H.
  - eapply good_read; auto; try (cbn [t_room]; lia); [reflexivity|apply (proj2 (spec_of t _ _ _)); cbn [tspec]; rewrite <- tree_eta; split; auto; apply argc_of; auto|]. intros t' H. apply (proj1 (spec_of t _ _ _)) in H. cbn [tspec] in H. rewrite <- tree_eta in H. apply H.
  - destruct LG as [N I]. eapply good_read; auto; try (cbn [t_room]; lia); [reflexivity|apply (proj2 (spec_of t _ _ _)); cbn [tspec]; rewrite <- tree_eta; split; auto; apply get_arg_of; auto|]. intros t' H. apply (proj1 (spec_of t _ _ _)) in H. cbn [tspec] in H. rewrite <- tree_eta in H. apply H.
  - eapply good_read; auto; try (cbn [t_room]; lia); [reflexivity|apply (proj2 (spec_of t _ _ _)); cbn [tspec]; rewrite <- tree_eta; split; auto; apply amount_of; auto|]. intros t' H. apply (proj1 (spec_of t _ _ _)) in H. cbn [tspec] in H. rewrite <- tree_eta in H. apply H.
  - destruct LG as [N NE]. destruct (walk_ex (t_kids t) 0 (sh_fin _ (l_shape _ _ L))) as (l & W).
    assert (In n l) as I by (apply (walk_In _ _ _ W); auto). apply in_split in I as (b & a & ->).
    eapply good_read; auto; try (cbn [t_room]; lia); [cbn [tdo]; rewrite (next_of c t L SM n b a NE W); reflexivity|apply (proj2 (spec_of t _ _ _)); cbn [tspec]; rewrite <- tree_eta; split; eauto|]. intros t' H. apply (proj1 (spec_of t _ _ _)) in H. cbn [tspec] in H. rewrite <- tree_eta in H. apply H.
  - eapply good_read; auto; try (cbn [t_room]; lia); [reflexivity|apply (proj2 (spec_of t _ _ _)); cbn [tspec]; rewrite <- tree_eta; split; auto|]; [unfold node_save; rewrite (node_ok c t L SM n LG); apply (load_of c t L SM); auto|]. intros t' H. apply (proj1 (spec_of t _ _ _)) in H. cbn [tspec] in H. rewrite <- tree_eta in H. apply H.
  - eapply good_one; [cbn [tdo]; rewrite (add_child_eq c t L SM) by auto; reflexivity|apply (proj2 (spec_of t _ _ _)); cbn [tspec]; split; [apply (r_new_fresh c t L SM)|reflexivity]| |apply (add_child_lay c t L SM); auto|unfold c_add; rewrite !zlen_lv_set, zlen_app; cbn [t_room]; change (zlen [- n; ty; 0; 0; 0]) with 5; lia].
    intros t2 H. apply (proj1 (spec_of t _ _ _)) in H. cbn [tspec] in H. apply H.
  - destruct LG as [N AC]. destruct (t_kids t n) as [|k l] eqn:K.
    + destruct AC as [LA|]; [|congruence]. eapply good_one.
      * cbn [tdo]. unfold node_add_arg. rewrite (node_ok c t L SM n N), (amount_of c t L SM n N), K. change (negb (zlen (@nil Z) =? 0)) with false. cbn [negb].
        assert (node_get_argc (lv_add c x) n = zlen (t_args t n)) as ->; [|reflexivity].
        unfold node_get_argc. rewrite (node_ok c t L SM n N). unfold ref_argc, lv_add. pose proof (node_range c t L SM n N). rewrite lv_get_app1 by lia. apply L; auto.
      * apply (proj2 (spec_of t _ _ _)). cbn [tspec]. rewrite K. split; reflexivity.
      * intros t2 H. apply (proj1 (spec_of t _ _ _)) in H. cbn [tspec] in H. rewrite K in H. apply H.
      * apply (add_arg_lay c t L SM); auto.
      * rewrite zlen_lv_set, zlen_lv_add. cbn [t_room]. lia.
    + eapply good_read; auto; try (cbn [t_room]; lia).
      * cbn [tdo]. unfold node_add_arg. rewrite (node_ok c t L SM n N), (amount_of c t L SM n N), K. replace (zlen (k :: l) =? 0) with false by (rewrite zlen_cons; pose proof (zlen_nonneg l); lia). reflexivity.
      * apply (proj2 (spec_of t _ _ _)). cbn [tspec]. rewrite K, <- tree_eta. split; reflexivity.
      * intros t' H. apply (proj1 (spec_of t _ _ _)) in H. cbn [tspec] in H. rewrite K, <- tree_eta in H. apply H.
  - destruct (Z.eq_dec n 0) as [->|NZ].
    + eapply good_read; auto; try (cbn [t_room]; lia); [reflexivity|apply (proj2 (spec_of t _ _ _)); cbn [tspec]; change (0 =? 0) with true; cbn match; rewrite <- tree_eta; split; reflexivity|]. intros t' H. apply (proj1 (spec_of t _ _ _)) in H. cbn [tspec] in H. change (0 =? 0) with true in H. cbn match in H. rewrite <- tree_eta in H. apply H.
    + assert (n =? 0 = false) as Z0 by lia. eapply good_one.
      * cbn [tdo]. unfold node_set_type. rewrite (node_ok c t L SM n LG), Z0. cbn [negb]. reflexivity.
      * apply (proj2 (spec_of t _ _ _)). cbn [tspec]. rewrite Z0. split; [|reflexivity]. unfold lv_set_st. pose proof (node_range c t L SM n LG). replace (n - 1 <? zlen c) with true by lia. reflexivity.
      * intros t2 H. apply (proj1 (spec_of t _ _ _)) in H. cbn [tspec] in H. rewrite Z0 in H. apply H.
      * apply (set_type_lay c t L SM); auto.
      * rewrite zlen_lv_set. cbn [t_room]. lia.
  - destruct LG as [N I]. pose proof (node_range c t L SM n N). destruct (i <? zlen (t_args t n)) eqn:C.
    + eapply good_one.
      * cbn [tdo]. unfold node_set_arg. rewrite (argc_of c t L SM n N). replace (i >=? zlen (t_args t n)) with false by lia. unfold ref_argc. replace (n + 2 + 1 + i) with (n + 3 + i) by lia. reflexivity.
      * apply (proj2 (spec_of t _ _ _)). cbn [tspec]. rewrite C. split; [|reflexivity]. unfold lv_set_st. replace (n + 3 + i <? zlen c) with true by lia. reflexivity.
      * intros t2 H2. apply (proj1 (spec_of t _ _ _)) in H2. cbn [tspec] in H2. rewrite C in H2. apply H2.
      * apply (set_arg_lay c t L SM); auto. lia.
      * rewrite zlen_lv_set. cbn [t_room]. lia.
    + eapply good_read; auto; try (cbn [t_room]; lia).
      * cbn [tdo]. unfold node_set_arg. rewrite (argc_of c t L SM n N). replace (i >=? zlen (t_args t n)) with true by lia. reflexivity.
      * apply (proj2 (spec_of t _ _ _)). cbn [tspec]. rewrite C, <- tree_eta. split; reflexivity.
      * intros t' H2. apply (proj1 (spec_of t _ _ _)) in H2. cbn [tspec] in H2. rewrite C, <- tree_eta in H2. apply H2.
  - destruct LG as (N & NZ & AC). destruct (parent_split t n N NZ) as (p & l1 & l2 & P & E). eapply good_one.
    + cbn [tdo]. apply (insert_eq c t L SM n p ty argc l1 l2); auto.
    + apply (proj2 (spec_of t _ _ _)). cbn [tspec]. split; [apply (r_new_fresh c t L SM)|reflexivity].
    + intros t2 H. apply (proj1 (spec_of t _ _ _)) in H. cbn [tspec] in H. apply H.
    + apply (insert_lay c t L SM n p ty argc l1 l2); auto.
    + unfold c_ins. rewrite !zlen_lv_set, !zlen_app, zlen_repeat. cbn [t_room]. change (zlen [lv_get c (n - 2); ty; 1; n; argc]) with 5. lia.
  - apply good_swap; auto.
  - apply good_order; auto.
  - destruct LG as [N NZ]. destruct (remove_whole c t L n SM N NZ) as (c' & E & L' & ZL). eapply good_one.
    + cbn [tdo]. exact E.
    + apply (proj2 (spec_of t _ _ _)). cbn [tspec]. split; reflexivity.
    + intros t2 H. apply (proj1 (spec_of t _ _ _)) in H. cbn [tspec] in H. apply H.
    + exact L'.
    + cbn [t_room]. lia.
  - apply good_move; auto.
Qed.

Lemma lay_empty : lay [0; 0; 0] t_empty.
Proof.
  assert (forall m, node_of t_empty m -> m = 0) as Z0 by (induction 1 as [|m k B IH I]; auto; contradiction).
  split.
  - split; [constructor; intros k []|intros n m k _ _ []|constructor|intros n _ []].
  - intros n N. auto.
  - intros n N. apply Z0 in N. subst. reflexivity || (cbn; rewrite (@zlen_nil Z); vm_compute; discriminate).
  - intros n m N M. apply Z0 in N, M. lia.
  - intros n N. apply Z0 in N. congruence.
  - intros n N. apply Z0 in N. subst. reflexivity.
  - intros n N. apply Z0 in N. subst. reflexivity.
  - intros n i _ I. cbn in I. lia.
  - intros n i _ NE. exfalso. apply NE. reflexivity.
  - intros n N _. apply Z0 in N. subst. reflexivity.
Qed.

Theorem treach_lay nop c t : treach nop c t -> lay c t.
Proof.
  induction 1 as [|c t op r c' t' R IH LG FT D S].
  - apply lay_empty.
  - destruct (step_good nop c t op IH FT LG) as (r1 & c1 & D1 & _ & K & _). rewrite D1 in D. injection D as -> ->. auto.
Qed.

(** Trading children, removal, and a move made of the others. *)
From Verif Require Import Prelude VectorSpec LVec TreeModel TreeSpec TreeShape TreeProofs TreeEdit TreeMove.
From Coq Require Import List.
Local Open Scope Z_scope.

Lemma last_of (l : list Z) d : l <> [] -> exists k, length l = S k /\ refn d l (length l) = nth k l 0 - 2.
Proof. destruct l as [|x l]; [congruence|]. intros _. exists (length l). split; reflexivity. Qed.

(** ** Two nodes trade their children: the second half of [node_order]. *)
Section Trade.
Variables (c : list Z) (t : tree) (a b : Z).
Hypothesis L : lay c t.
Hypothesis SM : small c.
Notation kids := (t_kids t).
Notation node := (node_of t).
Hypothesis A : node a.
Hypothesis B : node b.
Hypothesis AZ : a <> 0.
Hypothesis BZ : b <> 0.
Hypothesis AB : a <> b.
Let f m := kids (exch a b m).
Hypothesis SH : shape f.
Hypothesis ND : forall m, below f 0 m <-> node m.

Definition c_half : list Z := vector_swap (vector_swap c a b) (a + 1) (b + 1).
Definition c_endb : list Z := match kids b with [] => c_half | _ => lv_set c_half (refn b (kids b) (length (kids b))) (- a) end.
Definition c_trade : list Z := match kids a with [] => c_endb | _ => lv_set c_endb (refn a (kids a) (length (kids a))) (- b) end.

Definition trade (c : list Z) (fst snd : Z) : list Z :=
  let c := vector_swap c (ref_amount fst) (ref_amount snd) in
  let c := vector_swap c (ref_children fst) (ref_children snd) in
  let fst_amount := node_get_amount c fst in
  let c := if negb (fst_amount =? 0) then lv_set c (ref_next (node_get_child c fst (fst_amount - 1))) (to_negative fst) else c in
  let snd_amount := node_get_amount c snd in
  if negb (snd_amount =? 0) then lv_set c (ref_next (node_get_child c snd (snd_amount - 1))) (to_negative snd) else c.

Lemma half_get x : lv_get c_half x = lv_get c (exch a b (exch (a + 1) (b + 1) x)).
Proof.
  pose proof (node_range c t L SM a A). pose proof (node_range c t L SM b B).
  unfold c_half. rewrite vswap_get by (rewrite vswap_len; lia). apply vswap_get; lia.
Qed.
Lemma half_cell m d : node m -> -2 <= d < 3 + zlen (t_args t m) -> d <> 0 -> d <> 1 -> lv_get c_half (m + d) = lv_get c (m + d).
Proof.
  intros M D D0 D1. pose proof (zlen_nonneg (t_args t a)). pose proof (zlen_nonneg (t_args t b)). rewrite half_get. rewrite !exch_other; auto; intros X.
  - destruct (cell_inj c t L m a d 1 M A); lia.
  - destruct (cell_inj c t L m b d 1 M B); lia.
  - rewrite exch_other in X; [destruct (cell_inj c t L m a d 0 M A); lia| |]; intros Y; [destruct (cell_inj c t L m a d 1 M A)|destruct (cell_inj c t L m b d 1 M B)]; lia.
  - rewrite exch_other in X; [destruct (cell_inj c t L m b d 0 M B); lia| |]; intros Y; [destruct (cell_inj c t L m a d 1 M A)|destruct (cell_inj c t L m b d 1 M B)]; lia.
Qed.
Lemma half_amount m : node m -> lv_get c_half m = lv_get c (exch a b m).
Proof.
  intros M. pose proof (zlen_nonneg (t_args t a)). pose proof (zlen_nonneg (t_args t b)). pose proof (zlen_nonneg (t_args t m)). rewrite half_get. f_equal. f_equal. apply exch_other; intros X.
  - destruct (cell_inj c t L m a 0 1 M A); lia.
  - destruct (cell_inj c t L m b 0 1 M B); lia.
Qed.
Lemma half_children m : node m -> lv_get c_half (m + 1) = lv_get c (exch a b m + 1).
Proof.
  intros M. rewrite half_get. f_equal. pose proof (zlen_nonneg (t_args t a)). pose proof (zlen_nonneg (t_args t b)). pose proof (zlen_nonneg (t_args t m)).
  assert (exch (a + 1) (b + 1) (m + 1) = exch a b m + 1) as -> by (unfold exch; replace (m + 1 =? a + 1) with (m =? a) by lia; replace (m + 1 =? b + 1) with (m =? b) by lia; destruct (m =? a), (m =? b); lia).
  assert (node (exch a b m)) as M' by (unfold exch; destruct (m =? a), (m =? b); auto). pose proof (zlen_nonneg (t_args t (exch a b m))).
  apply exch_other; intros X; [destruct (cell_inj c t L (exch a b m) a 1 0 M' A)|destruct (cell_inj c t L (exch a b m) b 1 0 M' B)]; lia.
Qed.
Lemma half_link m i : node m -> kids (exch a b m) <> [] -> (i <= length (kids (exch a b m)))%nat ->
  lv_get c_half (refn m (kids (exch a b m)) i) = nth i (kids (exch a b m)) (- exch a b m).
Proof.
  intros M NE I. assert (node (exch a b m)) as M' by (unfold exch; destruct (m =? a), (m =? b); auto).
  destruct i as [|j]; cbn [refn].
  - rewrite half_children by auto. apply (l_links _ _ L (exch a b m) 0); auto.
  - pose proof (kid_node t (exch a b m) _ M' (nth_kid t (exch a b m) j ltac:(lia))) as K. pose proof (zlen_nonneg (t_args t (nth j (kids (exch a b m)) 0))).
    pose proof (half_cell _ (-2) K ltac:(lia) ltac:(lia) ltac:(lia)) as Q. replace (nth j (kids (exch a b m)) 0 - 2) with (nth j (kids (exch a b m)) 0 + -2) by lia. rewrite Q.
    apply (l_links _ _ L (exch a b m) (S j)); auto.
Qed.
Lemma endb_get x : (kids b <> [] -> x <> refn b (kids b) (length (kids b))) -> lv_get c_endb x = lv_get c_half x.
Proof. unfold c_endb. intros H. destruct (kids b); auto. apply lv_get_set_other. intros X. apply H; auto. discriminate. Qed.
Lemma trade_get x : (kids b <> [] -> x <> refn b (kids b) (length (kids b))) -> (kids a <> [] -> x <> refn a (kids a) (length (kids a))) -> lv_get c_trade x = lv_get c_half x.
Proof.
  intros H1 H2. unfold c_trade. rewrite <- (endb_get x H1). destruct (kids a); auto. apply lv_get_set_other. intros X. apply H2; auto. discriminate.
Qed.

Lemma half_len : zlen c_half = zlen c.
Proof. unfold c_half. rewrite !vswap_len. auto. Qed.
Lemma trade_len : zlen c_trade = zlen c.
Proof. unfold c_trade, c_endb. destruct (kids a), (kids b); rewrite ?zlen_lv_set, ?half_len; auto. Qed.

Lemma end_ref m : node m -> kids m <> [] -> is_ref t (refn m (kids m) (length (kids m))).
Proof. intros. apply link_is; auto. Qed.

Lemma trade_eq : trade c a b = c_trade.
Proof.
  unfold trade, ref_amount, ref_children, ref_next, to_negative. fold c_half.
  assert (exch a b a = b) as XA by apply exch_l. assert (exch a b b = a) as XB by apply exch_r.
  assert (node_get_amount c_half a = zlen (kids b)) as -> by (unfold node_get_amount; rewrite (node_ok c t L SM a A); unfold ref_amount; rewrite half_amount, XA by auto; apply L; auto).
  assert (EB: (if negb (zlen (kids b) =? 0) then lv_set c_half (node_get_child c_half a (zlen (kids b) - 1) - 2) (- a) else c_half) = c_endb).
  { unfold c_endb. destruct (kids b) as [|k l] eqn:E; [reflexivity|]. replace (zlen (k :: l) =? 0) with false by (rewrite zlen_cons; pose proof (zlen_nonneg l); lia). cbn [negb].
    f_equal. cbn [length refn]. f_equal. replace (zlen (k :: l) - 1) with (Z.of_nat (length l)) by (rewrite zlen_cons, zlen_length; lia). rewrite <- E.
    assert (length (kids b) = S (length l)) as LN by (rewrite E; reflexivity). apply child_links.
    - rewrite half_amount, XA, (l_amount _ _ L b B), zlen_length by auto. lia.
    - apply (node_ok c t L SM a A).
    - intros i I. pose proof (half_link a i A) as Q. rewrite XA in Q. rewrite Q by (try congruence; lia). apply nth_indep. lia. }
  rewrite EB.
  assert (EQ: forall x, (exists i, (i < length (kids a))%nat /\ x = refn b (kids a) i) \/ x = b -> lv_get c_endb x = lv_get c_half x).
  { intros x X. apply endb_get. intros NE. destruct (last_of (kids b) b NE) as (k & LK & ->). pose proof (nth_kid t b k ltac:(lia)) as K. pose proof (kid_node t b _ B K) as KN. pose proof (kid_nz c t L b _ B K).
    set (kb := nth k (kids b) 0) in *. pose proof (zlen_nonneg (t_args t b)). pose proof (zlen_nonneg (t_args t kb)).
    destruct X as [(i & I & ->)| ->].
    - destruct i as [|j]; cbn [refn]; intros X.
      + destruct (cell_inj c t L b kb 1 (-2) B KN); lia.
      + pose proof (nth_kid t a j ltac:(lia)) as J. assert (nth j (kids a) 0 = kb) by lia. rewrite H2 in J. apply AB. apply (sh_uniq _ (l_shape _ _ L) a b kb); auto.
    - intros X. destruct (cell_inj c t L b kb 0 (-2) B KN); lia. }
  assert (node_get_amount c_endb b = zlen (kids a)) as ->.
  { unfold node_get_amount. rewrite (node_ok c t L SM b B). unfold ref_amount. rewrite EQ by auto. rewrite half_amount, XB by auto. apply L; auto. }
  unfold c_trade. destruct (kids a) as [|k l] eqn:E; [reflexivity|]. replace (zlen (k :: l) =? 0) with false by (rewrite zlen_cons; pose proof (zlen_nonneg l); lia). cbn [negb].
  f_equal. cbn [length refn]. f_equal. replace (zlen (k :: l) - 1) with (Z.of_nat (length l)) by (rewrite zlen_cons, zlen_length; lia).
  assert (length (kids a) = S (length l)) as LN by (rewrite E; reflexivity). apply child_links.
  - rewrite EQ by auto. rewrite half_amount, XB, (l_amount _ _ L a A), zlen_length by auto. lia.
  - apply (node_ok c t L SM b B).
  - intros i I. rewrite EQ by (left; exists i; split; auto; cbn; lia). pose proof (half_link b i B) as Q. rewrite XB, E in Q. rewrite Q; [apply nth_indep; cbn; lia|discriminate|cbn; lia].
Qed.

Lemma trade_lay : lay c_trade (mkTree f (t_type t) (t_args t) (t_last t)).
Proof.
  set (t' := mkTree _ _ _ _). assert (forall m, node_of t' m <-> node m) as NODES by (intros m; apply ND).
  assert (forall m d, node m -> -1 <= d <= 0 \/ 2 <= d < 3 + zlen (t_args t m) -> lv_get c_trade (m + d) = lv_get c_half (m + d)) as DATA.
  { intros m d M D. apply trade_get; intros NE; apply not_eq_sym; apply (ref_ne c t L SM); auto; apply end_ref; auto. }
  assert (forall m, node m -> node (exch a b m)) as NX by (intros m M; unfold exch; destruct (m =? a), (m =? b); auto).
  split; cbn [t' t_kids t_type t_args t_last].
  - exact SH.
  - intros m M. apply NODES in M. apply L; auto.
  - intros m M. apply NODES in M. rewrite trade_len. apply L; auto.
  - intros m k M K. apply NODES in M, K. apply L; auto.
  - intros m M MZ. apply NODES in M. pose proof (zlen_nonneg (t_args t m)). replace (m - 1) with (m + -1) by lia. rewrite DATA, half_cell by (auto; lia). apply L; auto.
  - intros m M. apply NODES in M. replace m with (m + 0) at 1 by lia. rewrite DATA by (auto; lia). rewrite Z.add_0_r, half_amount by auto. apply L; auto.
  - intros m M. apply NODES in M. pose proof (zlen_nonneg (t_args t m)). rewrite DATA, half_cell by (auto; lia). apply L; auto.
  - intros m i M I. apply NODES in M. pose proof (zlen_length (t_args t m)). rewrite <- Z.add_assoc. rewrite DATA, half_cell by (auto; lia). rewrite Z.add_assoc. apply L; auto.
  - intros m i M NE I. apply NODES in M. unfold f in *. pose proof (NX m M) as M'.
    (* which of the two end cells this is *)
    assert (forall q, node q -> kids q <> [] -> refn m (kids (exch a b m)) i = refn q (kids q) (length (kids q)) -> exch a b m = q /\ i = length (kids q)) as WHICH.
    { intros q Q QNE X. destruct i as [|j].
      - exfalso. destruct (last_of (kids q) q QNE) as (k & LK & Y). rewrite Y in X. cbn [refn] in X. pose proof (nth_kid t q k ltac:(lia)) as K. pose proof (kid_node t q _ Q K) as KN. pose proof (kid_nz c t L q _ Q K).
        pose proof (zlen_nonneg (t_args t m)). pose proof (zlen_nonneg (t_args t (nth k (kids q) 0))). destruct (cell_inj c t L m (nth k (kids q) 0) 1 (-2) M KN); lia.
      - apply (ref_inj c t L SM (exch a b m) q (S j) (length (kids q))); auto. }
    pose proof (node_range c t L SM a A). pose proof (node_range c t L SM b B).
    assert (forall q, exch a b m = q -> i = length (kids q) -> refn m (kids (exch a b m)) i = refn q (kids q) (length (kids q))) as CELL.
    { intros q Q QI. rewrite Q in *. subst i. destruct (last_of (kids q) q NE) as (k & LK & ->). rewrite LK. reflexivity. }
    assert (forall q, node q -> kids q <> [] -> forall s, node s -> kids s <> [] -> q <> s -> refn q (kids q) (length (kids q)) <> refn s (kids s) (length (kids s))) as ENDS.
    { intros q Q QNE s S SNE QS X. destruct (ref_inj c t L SM q s (length (kids q)) (length (kids s)) Q S QNE SNE (le_n _) (le_n _) X). auto. }
    destruct (Z.eq_dec (exch a b m) b) as [XB|NB]; [destruct (Nat.eq_dec i (length (kids b))) as [IB|NI]|].
    + (* the end of the children of b, now those of a *)
      rewrite (CELL b XB IB). assert (m = a) as -> by (rewrite <- (exch_invol a b m), XB; apply exch_r). rewrite XB in *. rewrite nth_overflow by lia.
      pose proof (ref_range c t L SM _ (end_ref b B NE)). unfold c_trade.
      assert (lv_get c_endb (refn b (kids b) (length (kids b))) = - a) as G by (unfold c_endb; destruct (kids b); [congruence|]; apply lv_get_set_same; rewrite half_len; lia).
      destruct (kids a) as [|ka la] eqn:EA; auto. rewrite lv_get_set_other; auto. rewrite <- EA. apply ENDS; auto; congruence.
    + rewrite trade_get; [rewrite half_link by auto; apply nth_indep; rewrite XB in *; lia| |]; intros QNE X; apply WHICH in X as [X1 X2]; auto; congruence.
    + destruct (Z.eq_dec (exch a b m) a) as [XA|NA]; [destruct (Nat.eq_dec i (length (kids a))) as [IA|NI]|].
      * rewrite (CELL a XA IA). assert (m = b) as -> by (rewrite <- (exch_invol a b m), XA; apply exch_l). rewrite XA in *. rewrite nth_overflow by lia.
        pose proof (ref_range c t L SM _ (end_ref a A NE)). unfold c_trade. destruct (kids a) eqn:EA; [congruence|]. apply lv_get_set_same. unfold c_endb. destruct (kids b); rewrite ?zlen_lv_set, half_len; lia.
      * rewrite trade_get; [rewrite half_link by auto; apply nth_indep; rewrite XA in *; lia| |]; intros QNE X; apply WHICH in X as [X1 X2]; auto; congruence.
      * assert (exch a b m = m) as XM by (apply exch_other; intros ->; [apply NB, exch_l|apply NA, exch_r]).
        rewrite trade_get; [rewrite half_link by auto; rewrite XM; auto| |]; intros QNE X; apply WHICH in X as [X1 X2]; auto; congruence.
  - intros m M LA. apply NODES in M. rewrite trade_len. apply L; auto.
Qed.
End Trade.

(** ** Removal. *)
Section Remove.
Variables (c : list Z) (t : tree) (n p : Z) (l1 l2 : list Z).
Hypothesis L : lay c t.
Hypothesis SM : small c.
Notation kids := (t_kids t).
Notation node := (node_of t).
Hypothesis P : node p.
Hypothesis E : kids p = l1 ++ n :: l2.
Notation e := (refn p (kids p) (length l1)).

Definition finish (c : list Z) (nd : Z) : option (Z * list Z) :=
  if (node_get_amount c nd =? 0) && (ref_argc nd + node_get_argc c nd =? zlen c - 1)
  then Some (0, lv_resize c (ref_next nd)) else Some (0, c).

Lemma n_facts : In n (kids p) /\ kids p <> [] /\ (length l1 < length (kids p))%nat /\ node n /\ 5 <= n /\ p <> n.
Proof.
  destruct (split_facts c t L p l1 n l2 P E) as (A1 & A2 & A3 & A4 & A5). repeat split; auto. intros ->. apply (acyclic kids (l_shape _ _ L) n n); auto. constructor.
Qed.

Lemma remove_eq : exists c', node_remove c n = finish c' n /\ zlen c' = zlen c /\ lv_get c' p = zlen (kids p) - 1
  /\ (l1 ++ l2 <> [] -> lv_get c' e = lv_get c (n - 2)) /\ (forall x, x <> p -> x <> e -> lv_get c' x = lv_get c x).
Proof.
  destruct n_facts as (I & NE & LT & N & N5 & PN). pose proof (node_range c t L SM p P). pose proof (node_range c t L SM n N).
  assert (is_ref t e) as RE by (apply link_is; auto; lia). pose proof (ref_range c t L SM _ RE). pose proof (ref_ne c t L SM _ p 0 RE P).
  pose proof (ref_ne c t L SM _ p 0 (ref_next_is t n N ltac:(lia)) P).
  unfold node_remove. rewrite (parent_of c t L SM p l1 n l2 P E). cbn [bind]. rewrite (node_ok c t L SM p P). cbn [negb].
  destruct l1 as [|x1 l1' _] using rev_ind.
  - change (zlen (@nil Z) =? 0) with true. cbn match. unfold ref_amount, ref_children, ref_next.
    assert (node_get_amount c p = zlen (kids p)) as -> by (apply amount_of; auto).
    assert (node_get_amount (lv_set c p (zlen (kids p) - 1)) p = zlen (kids p) - 1) as -> by (unfold node_get_amount, ref_amount; rewrite (node_ok c t L SM p P); apply lv_get_set_same; lia).
    rewrite lv_get_set_other by lia. cbn [app length refn] in *. destruct (zlen (kids p) - 1 =? 0) eqn:E0; cbn [negb].
    + eexists. split; [reflexivity|]. rewrite zlen_lv_set. split; auto. rewrite lv_get_set_same by lia. split; auto. split.
      * intros X. exfalso. rewrite E, zlen_cons in E0. destruct l2 as [|y l2']; [auto|]. rewrite zlen_cons in E0. pose proof (zlen_nonneg l2'). lia.
      * intros x X _. apply lv_get_set_other. auto.
    + eexists. split; [reflexivity|]. rewrite !zlen_lv_set. split; auto. rewrite lv_get_set_other by lia. rewrite lv_get_set_same by lia. split; auto. split.
      * intros _. rewrite lv_get_set_same by (rewrite zlen_lv_set; lia). auto.
      * intros x X Y. rewrite !lv_get_set_other by lia. auto.
  - assert (node_get_child c p (zlen (l1' ++ [x1]) - 1) = x1) as PREV.
    { replace (zlen (l1' ++ [x1]) - 1) with (Z.of_nat (length l1')) by (rewrite zlen_snoc, zlen_length; lia). rewrite (child_of c t L SM); auto.
      - rewrite E, <- app_assoc, app_nth2, Nat.sub_diag by lia. reflexivity.
      - rewrite E, !app_length. cbn. lia. }
    replace (zlen (l1' ++ [x1]) =? 0) with false by (rewrite zlen_snoc; pose proof (zlen_nonneg l1'); lia). rewrite PREV.
    assert (refn p (kids p) (length (l1' ++ [x1])) = x1 - 2) as EX. { rewrite app_length, Nat.add_1_r. cbn [refn]. f_equal. rewrite E, <- app_assoc, app_nth2, Nat.sub_diag by lia. reflexivity. }
    rewrite EX in *. unfold ref_next, ref_amount.
    assert (lv_get c (x1 - 2) = n) as LN. { rewrite <- EX. rewrite (l_links _ _ L) by (auto; lia). apply (at_kid t p (l1' ++ [x1]) n l2 _ E). }
    rewrite LN. assert (node_get_amount (lv_set c (x1 - 2) (lv_get c (n - 2))) p = zlen (kids p)) as ->.
    { unfold node_get_amount. rewrite (node_ok c t L SM p P). unfold ref_amount. rewrite lv_get_set_other by lia. apply L; auto. }
    eexists. split; [reflexivity|]. rewrite !zlen_lv_set. split; auto. split; [apply lv_get_set_same; rewrite zlen_lv_set; lia|]. split.
    + intros _. rewrite lv_get_set_other by lia. apply lv_get_set_same. lia.
    + intros x X Y. rewrite !lv_get_set_other by lia. auto.
Qed.

Definition t_rem : tree := mkTree (fun m => filter (fun k => negb (k =? n)) (kids m)) (t_type t) (t_args t) None.

Lemma filter_out l : ~ In n l -> filter (fun k => negb (k =? n)) l = l.
Proof.
  induction l as [|x l IH]; cbn [filter]; auto. intros NI. destruct (x =? n) eqn:X; cbn [negb]; [exfalso; apply NI; left; lia|]. f_equal. apply IH. intros I. apply NI. right; auto.
Qed.
Lemma rem_p : t_kids t_rem p = l1 ++ l2.
Proof.
  pose proof (sh_nodup _ (l_shape _ _ L) p P) as ND. cbn [t_rem t_kids]. rewrite E in *. rewrite filter_app. cbn [filter]. rewrite Z.eqb_refl. cbn [negb].
  apply NoDup_remove_2 in ND. rewrite !filter_out; auto; intros I; apply ND; apply in_or_app; auto.
Qed.
Lemma rem_other m : node m -> m <> p -> t_kids t_rem m = kids m.
Proof. intros M NE. cbn [t_rem t_kids]. apply filter_out. intros I. apply NE. apply (sh_uniq _ (l_shape _ _ L) m p n); auto. apply n_facts. Qed.

Lemma rem_lay c' : zlen c' = zlen c -> lv_get c' p = zlen (kids p) - 1 -> (l1 ++ l2 <> [] -> lv_get c' e = lv_get c (n - 2)) -> (forall x, x <> p -> x <> e -> lv_get c' x = lv_get c x) -> lay c' t_rem.
Proof.
  intros LEN GP GE OLD. destruct n_facts as (I & NE & LT & N & N5 & PN). pose proof (node_range c t L SM p P).
  assert (is_ref t e) as RE by (apply link_is; auto; lia).
  assert (forall m, node_of t_rem m -> node m) as NODES by (intros m; apply (rem_below kids n)).
  assert (forall m d, node m -> d = -1 \/ 2 <= d < 3 + zlen (t_args t m) -> lv_get c' (m + d) = lv_get c (m + d)) as DATA.
  { intros m d M D. pose proof (zlen_nonneg (t_args t m)). pose proof (zlen_nonneg (t_args t p)). apply OLD; [|apply not_eq_sym, (ref_ne c t L SM); auto; lia]. intros X. destruct (cell_inj c t L m p d 0 M P); lia. }
  split; cbn [t_rem t_type t_args t_last].
  - apply (shape_rem kids n (l_shape _ _ L)).
  - intros m M. apply L. auto.
  - intros m M. rewrite LEN. apply L. auto.
  - intros m k M K. apply L; auto.
  - intros m M MZ. pose proof (NODES m M). pose proof (zlen_nonneg (t_args t m)). replace (m - 1) with (m + -1) by lia. rewrite DATA by (auto; lia). apply L; auto.
  - intros m M. pose proof (NODES m M) as M'. destruct (Z.eq_dec m p) as [->|NP].
    + rewrite rem_p, GP, E, !zlen_app, zlen_cons. lia.
    + rewrite rem_other by auto. rewrite OLD; [apply L; auto|auto|]. pose proof (ref_ne c t L SM _ m 0 RE M'). lia.
  - intros m M. pose proof (NODES m M). pose proof (zlen_nonneg (t_args t m)). rewrite DATA by (auto; lia). apply L; auto.
  - intros m i M II. pose proof (NODES m M). pose proof (zlen_length (t_args t m)). rewrite <- Z.add_assoc, DATA by (auto; lia). rewrite Z.add_assoc. apply L; auto.
  - intros m i M MNE II. pose proof (NODES m M) as M'. destruct (Z.eq_dec m p) as [->|NP].
    + rewrite rem_p in *. rewrite app_length in II.
      assert (LK: forall j, (j <= length (kids p))%nat -> j <> length l1 -> lv_get c' (refn p (kids p) j) = nth j (kids p) (- p)).
      { intros j J JN. assert (is_ref t (refn p (kids p) j)) as R by (apply link_is; auto). pose proof (ref_ne c t L SM _ p 0 R P). rewrite OLD; [apply L; auto|lia|].
        intros X. destruct (ref_inj c t L SM p p j (length l1) P P NE NE J ltac:(lia) X). auto. }
      assert (length (kids p) = S (length l1 + length l2)) as LL by (rewrite E, app_length; cbn; lia).
      destruct (lt_eq_lt_dec i (length l1)) as [[C|C]|C].
      * replace (refn p (l1 ++ l2) i) with (refn p (kids p) i) by (destruct i; cbn [refn]; auto; rewrite E, !app_nth1 by lia; auto). rewrite LK by lia. rewrite E, !app_nth1 by lia. apply nth_indep. auto.
      * subst i. replace (refn p (l1 ++ l2) (length l1)) with e by (destruct (length l1) as [|k] eqn:LE; cbn [refn]; auto; rewrite E, !app_nth1 by lia; auto). rewrite GE by auto.
        replace (n - 2) with (refn p (kids p) (S (length l1))) by (cbn [refn]; rewrite (at_kid t p l1 n l2 _ E); auto). rewrite (l_links _ _ L) by (auto; lia). rewrite E, !app_nth2 by lia. rewrite Nat.sub_diag. replace (S (length l1) - length l1)%nat with 1%nat by lia. reflexivity.
      * destruct i as [|j]; [lia|]. replace (refn p (l1 ++ l2) (S j)) with (refn p (kids p) (S (S j))).
        -- rewrite LK by lia. rewrite E, !app_nth2 by lia. replace (S (S j) - length l1)%nat with (S (S j - length l1)) by lia. reflexivity.
        -- cbn [refn]. f_equal. rewrite E, !app_nth2 by lia. replace (S j - length l1)%nat with (S (j - length l1)) by lia. reflexivity.
    + rewrite rem_other in * by auto. assert (is_ref t (refn m (kids m) i)) as R by (apply link_is; auto). pose proof (ref_ne c t L SM _ p 0 R P). rewrite OLD; [apply L; auto|lia|].
      intros X. destruct (ref_inj c t L SM m p i (length l1) M' P MNE NE II ltac:(lia) X). auto.
  - intros m _ X. discriminate X.
Qed.
End Remove.

Lemma lay_shrink c t k : lay c t -> small c -> 0 <= k <= zlen c -> t_last t = None -> (forall m, node_of t m -> m + 3 + zlen (t_args t m) <= k) -> lay (lv_resize c k) t.
Proof.
  intros L SM K LA H.
  assert (zlen (lv_resize c k) = k) as LEN. { unfold lv_resize, resized. rewrite zlen_app, zlen_firstn, zlen_repeat. lia. }
  assert (forall x, 0 <= x < k -> lv_get (lv_resize c k) x = lv_get c x) as OLD.
  { intros x X. unfold lv_resize, resized. rewrite lv_get_app1 by (rewrite zlen_firstn; lia). unfold lv_get. f_equal. symmetry. rewrite <- (firstn_skipn (Z.to_nat k) c) at 1. apply znth_app1. rewrite zlen_firstn. lia. }
  assert (forall m d, node_of t m -> (m = 0 -> 0 <= d) -> -2 <= d < 3 + zlen (t_args t m) -> lv_get (lv_resize c k) (m + d) = lv_get c (m + d)) as CELL.
  { intros m d M Z0 D. pose proof (H m M). pose proof (l_low _ _ L m M). apply OLD. lia. }
  split.
  - apply L. - apply L. - intros m M. rewrite LEN. auto. - apply L.
  - intros m M MZ. pose proof (zlen_nonneg (t_args t m)). replace (m - 1) with (m + -1) by lia. rewrite CELL by (auto; lia). apply L; auto.
  - intros m M. pose proof (zlen_nonneg (t_args t m)). replace m with (m + 0) at 1 by lia. rewrite CELL by (auto; lia). rewrite Z.add_0_r. apply L; auto.
  - intros m M. pose proof (zlen_nonneg (t_args t m)). rewrite CELL by (auto; lia). apply L; auto.
  - intros m i M I. pose proof (zlen_length (t_args t m)). rewrite <- Z.add_assoc, CELL by (auto; lia). rewrite Z.add_assoc. apply L; auto.
  - intros m i M NE I. rewrite <- (l_links _ _ L m i) by auto. destruct (refn_cases c t L m i M I) as [[_ ->]|(q & Q & Q5 & _ & ->)].
    + pose proof (zlen_nonneg (t_args t m)). apply CELL; auto; lia.
    + pose proof (zlen_nonneg (t_args t q)). replace (q - 2) with (q + -2) by lia. apply CELL; auto; lia.
  - intros m _ X. congruence.
Qed.

(** Only the nodes count. *)
Lemma lay_ext c t ty args : lay c t -> t_last t = None -> (forall m, node_of t m -> ty m = t_type t m /\ args m = t_args t m) -> lay c (mkTree (t_kids t) ty args None).
Proof.
  intros L LA H. split; unfold node_of; cbn [t_kids t_type t_args t_last]; fold (node_of t).
  - apply L. - apply L. - intros m M. destruct (H m M) as [_ ->]. apply L; auto.
  - intros m k M K. destruct (H m M) as [_ ->]. apply L; auto.
  - intros m M. destruct (H m M) as [-> _]. apply L; auto.
  - apply L. - intros m M. destruct (H m M) as [_ ->]. apply L; auto.
  - intros m i M. destruct (H m M) as [_ ->]. apply L; auto.
  - apply L. - intros m _ X. discriminate X.
Qed.

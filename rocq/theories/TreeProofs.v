(** The tree in a vector refines the ordered tree. *)
From Verif Require Import Prelude VectorSpec LVec TreeModel TreeSpec TreeShape.
From Coq Require Import List.
Local Open Scope Z_scope.

(** ** Layout of a tree in the cells. *)

(** The cell that leads to child number [i] of [n] with children [l]; for [i] the
    number of children, the cell that leads back to [n]. *)
Definition refn (n : Z) (l : list Z) (i : nat) : Z := match i with O => n + 1 | S j => nth j l 0 - 2 end.

Record lay (c : list Z) (t : tree) : Prop := mkLay {
  l_shape : shape (t_kids t);
  l_low : forall n, node_of t n -> n = 0 \/ 5 <= n;
  l_in : forall n, node_of t n -> n + 3 + zlen (t_args t n) <= zlen c;
  l_disj : forall n m, node_of t n -> node_of t m -> n < m -> n + 3 + zlen (t_args t n) <= m - 2;
  l_type : forall n, node_of t n -> n <> 0 -> lv_get c (n - 1) = t_type t n;
  l_amount : forall n, node_of t n -> lv_get c n = zlen (t_kids t n);
  l_argc : forall n, node_of t n -> lv_get c (n + 2) = zlen (t_args t n);
  l_args : forall n i, node_of t n -> (i < length (t_args t n))%nat -> lv_get c (n + 3 + Z.of_nat i) = nth i (t_args t n) 0;
  l_links : forall n i, node_of t n -> t_kids t n <> [] -> (i <= length (t_kids t n))%nat -> lv_get c (refn n (t_kids t n) i) = nth i (t_kids t n) (- n);
  l_last : forall n, node_of t n -> t_last t = Some n -> n + 3 + zlen (t_args t n) = zlen c
}.

Definition small (c : list Z) : Prop := zlen c < 2 ^ 62.

Lemma zlen_length {A} (l : list A) : zlen l = Z.of_nat (length l).
Proof. apply zlen_unf. Qed.

Lemma nodup_bound l b : NoDup l -> (forall x, In x l -> 0 <= x < b) -> zlen l <= Z.max 0 b.
Proof.
  intros ND H. rewrite zlen_length.
  assert (length (map Z.to_nat l) <= length (seq 0 (Z.to_nat b)))%nat as L.
  { apply NoDup_incl_length.
    - clear - ND H. induction ND as [|x l NI ND IH]; cbn; constructor; [|apply IH; intros; apply H; right; auto].
      rewrite in_map_iff. intros (y & E & I). apply NI. pose proof (H x (or_introl eq_refl)). pose proof (H y (or_intror I)). replace x with y by lia. auto.
    - intros k. rewrite in_map_iff, in_seq. intros (x & <- & I). apply H in I. lia. }
  rewrite map_length, seq_length in L. lia.
Qed.

Section Lay.
Variables (c : list Z) (t : tree).
Hypothesis L : lay c t.
Hypothesis SM : small c.
Notation kids := (t_kids t).
Notation node := (node_of t).

Lemma root_node : node 0.
Proof. constructor. Qed.
Lemma kid_node n k : node n -> In k (kids n) -> node k.
Proof. intros. econstructor; eauto. Qed.
Lemma kid_nz n k : node n -> In k (kids n) -> 5 <= k.
Proof.
  intros N I. destruct (l_low _ _ L k) as [->|]; auto; [eapply kid_node; eauto|]. exfalso. eapply (sh_root _ (l_shape _ _ L)); eauto.
Qed.
Lemma node_range n : node n -> (n = 0 \/ 5 <= n) /\ n + 3 + zlen (t_args t n) <= zlen c /\ 0 <= zlen (t_args t n) /\ zlen c < 2 ^ 62.
Proof. intros N. repeat split; [apply L; auto|apply L; auto|apply zlen_nonneg|apply SM]. Qed.
Lemma node_ok n : node n -> node_is_correct n = true.
Proof. intros N. destruct (node_range n N) as (A & B & C & D). unfold node_is_correct, BROKEN, SIZE_MAX, two64. lia. Qed.
Lemma kids_bound n : node n -> zlen (kids n) <= zlen c.
Proof.
  intros N. pose proof (nodup_bound (kids n) (zlen c)) as H. pose proof (zlen_nonneg c). rewrite Z.max_r in H by lia. apply H.
  - apply (l_shape _ _ L). auto.
  - intros k I. pose proof (kid_nz n k N I). pose proof (kid_node n k N I) as K. destruct (node_range k K). lia.
Qed.
Lemma amount_of n : node n -> node_get_amount c n = zlen (kids n).
Proof. intros N. unfold node_get_amount. rewrite node_ok by auto. apply L; auto. Qed.
Lemma argc_of n : node n -> node_get_argc c n = zlen (t_args t n).
Proof. intros N. unfold node_get_argc. rewrite node_ok by auto. apply L; auto. Qed.

Lemma nth_kid n i : (i < length (kids n))%nat -> In (nth i (kids n) 0) (kids n).
Proof. apply nth_In. Qed.
Lemma nth_d {A} (l : list A) i d d' : (i < length l)%nat -> nth i l d = nth i l d'.
Proof. apply nth_indep. Qed.

(** Children. *)
Lemma child_links c' n l j : Z.of_nat j < lv_get c' n -> node_is_correct n = true -> (forall i, (i <= j)%nat -> lv_get c' (refn n l i) = nth i l 0) ->
  node_get_child c' n (Z.of_nat j) = nth j l 0.
Proof.
  intros A OK H. unfold node_get_child, node_get_amount, ref_amount. rewrite OK, Nat2Z.id. cbn [negb orb].
  replace (Z.of_nat j >=? lv_get c' n) with false by lia. clear A.
  unfold ref_children. induction j as [|j IH]; cbn [Nat.iter].
  - apply (H O); auto.
  - unfold Nat.iter in *. cbn [nat_rect]. rewrite IH by (intros; apply H; lia). apply (H (S j)); auto.
Qed.
Lemma child_of n j : node n -> (j < length (kids n))%nat -> node_get_child c n (Z.of_nat j) = nth j (kids n) 0.
Proof.
  intros N J. apply child_links; [rewrite (l_amount _ _ L), zlen_length by auto; lia|apply node_ok; auto|]. intros i I. rewrite (l_links _ _ L); auto; try lia; [|intros E; rewrite E in J; cbn in J; lia].
  apply nth_d. lia.
Qed.

(** Parent. *)
Lemma search_from n k : node n -> kids n <> [] -> forall i number, (i <= length (kids n))%nat -> (length (kids n) - i < k)%nat ->
  search_loop k c (nth i (kids n) (- n)) number = Some (- n, number + Z.of_nat (length (kids n) - i)).
Proof.
  intros N NE. induction k as [|k IH]; intros i number I K; [lia|].
  destruct (Nat.eq_dec i (length (kids n))) as [->|].
  - rewrite nth_overflow by lia. cbn [search_loop]. unfold is_negative. pose proof (node_range n N).
    replace (negb (- n <? 0) && negb (- n =? 0)) with false by lia. do 2 f_equal. lia.
  - cbn [search_loop]. rewrite (nth_d _ i (-n) 0) by lia. pose proof (kid_nz n _ N (nth_kid n i ltac:(lia))). unfold is_negative.
    replace (negb (nth i (kids n) 0 <? 0) && negb (nth i (kids n) 0 =? 0)) with true by lia.
    change (nth i (kids n) 0 - 2) with (refn n (kids n) (S i)). rewrite (l_links _ _ L) by (auto; lia). rewrite IH by lia. do 2 f_equal. lia.
Qed.
Lemma parent_of p l1 n l2 : node p -> kids p = l1 ++ n :: l2 -> node_search_parent c n = Some (p, zlen l1).
Proof.
  intros P E. assert (In n (kids p)) as I by (rewrite E; apply in_or_app; right; left; auto).
  pose proof (kid_nz p n P I) as NZ. pose proof (kid_node p n P I) as N. unfold node_search_parent. rewrite node_ok by auto.
  replace (negb true || (n =? 0)) with false by lia. unfold ref_next.
  assert (length (kids p) = length l1 + S (length l2))%nat as LN by (rewrite E, app_length; auto).
  replace n with (nth (length l1) (kids p) 0) by (rewrite E, app_nth2, Nat.sub_diag by lia; auto).
  change (nth (length l1) (kids p) 0 - 2) with (refn p (kids p) (S (length l1))).
  assert (kids p <> []) by (rewrite E; destruct l1; discriminate).
  rewrite (l_links _ _ L) by (auto; lia). pose proof (kids_bound p P) as KB. rewrite !zlen_length in KB.
  rewrite search_from by (auto; lia). unfold bind, from_negative. rewrite Z.opp_involutive, amount_of by auto. rewrite zlen_length.
  destruct (node_range p P) as (_ & _ & _ & SMALL). rewrite zlen_length in SMALL. unfold u64. rewrite Z.mod_small by (unfold two64; lia). do 2 f_equal. rewrite zlen_length. lia.
Qed.
Lemma parent_split n : node n -> n <> 0 -> exists p l1 l2, node p /\ kids p = l1 ++ n :: l2.
Proof.
  intros N NZ. destruct (parent_ex kids n N NZ) as (p & P & I). apply in_split in I as (l1 & l2 & E). exists p, l1, l2. auto.
Qed.
Lemma parent_root : node_search_parent c 0 = Some (BROKEN, 0).
Proof. reflexivity. Qed.

(** The cells of the links. *)
Definition is_ref (x : Z) : Prop := exists n i, node n /\ kids n <> [] /\ (i <= length (kids n))%nat /\ x = refn n (kids n) i.

Lemma disj n m : node n -> node m -> n = m \/ (n < m /\ n + 3 + zlen (t_args t n) <= m - 2) \/ (m < n /\ m + 3 + zlen (t_args t m) <= n - 2).
Proof.
  intros N M. pose proof (l_disj _ _ L n m N M). pose proof (l_disj _ _ L m n M N). lia.
Qed.
Lemma refn_cases n i : node n -> (i <= length (kids n))%nat -> (i = O /\ refn n (kids n) i = n + 1) \/ (exists k, node k /\ 5 <= k /\ In k (kids n) /\ refn n (kids n) i = k - 2).
Proof.
  intros N I. destruct i as [|j]; [left; auto|]. right. exists (nth j (kids n) 0). pose proof (nth_kid n j ltac:(lia)) as K. repeat split; auto; [eapply kid_node; eauto|eapply kid_nz; eauto].
Qed.
Lemma is_ref_cases x : is_ref x -> (exists n, node n /\ kids n <> [] /\ x = n + 1) \/ (exists k, node k /\ 5 <= k /\ x = k - 2).
Proof.
  intros (n & i & N & NE & I & ->). destruct (refn_cases n i N I) as [[_ E]|(k & K & K5 & _ & E)]; rewrite E; [left; exists n|right; exists k]; auto.
Qed.
Lemma ref_data x m d : is_ref x -> node m -> -1 <= d <= 0 \/ 2 <= d < 3 + zlen (t_args t m) -> x <> m + d.
Proof.
  intros R M D. destruct (node_range m M) as (A1 & A2 & A3 & _). destruct (is_ref_cases x R) as [(n & N & _ & ->)|(n & N & N5 & ->)]; destruct (node_range n N) as (B1 & B2 & B3 & _);
    destruct (disj n m N M) as [E|[E|E]]; subst; lia.
Qed.
Lemma ref_range x : is_ref x -> 0 <= x < zlen c.
Proof.
  intros R. destruct (is_ref_cases x R) as [(n & N & _ & ->)|(n & N & N5 & ->)]; destruct (node_range n N) as (B1 & B2 & B3 & _); lia.
Qed.
Lemma ref_next_is n : node n -> n <> 0 -> is_ref (n - 2).
Proof.
  intros N NZ. destruct (parent_split n N NZ) as (p & l1 & l2 & P & E). exists p, (S (length l1)). repeat split; auto.
  - rewrite E. destruct l1; discriminate.
  - rewrite E, app_length. cbn. lia.
  - cbn [refn]. rewrite E, app_nth2, Nat.sub_diag by lia. reflexivity.
Qed.
Lemma ref_inj n m i j : node n -> node m -> kids n <> [] -> kids m <> [] -> (i <= length (kids n))%nat -> (j <= length (kids m))%nat ->
  refn n (kids n) i = refn m (kids m) j -> n = m /\ i = j.
Proof.
  intros N M NE ME I J E. pose proof (node_range n N). pose proof (node_range m M).
  destruct i as [|i], j as [|j]; cbn [refn] in E.
  - split; lia.
  - pose proof (nth_kid m j ltac:(lia)) as K. set (k := nth j (kids m) 0) in *. pose proof (kid_node _ _ M K) as KN. pose proof (kid_nz _ _ M K). destruct (disj n k N KN) as [X|[X|X]]; pose proof (node_range k KN); lia.
  - pose proof (nth_kid n i ltac:(lia)) as K. set (k := nth i (kids n) 0) in *. pose proof (kid_node _ _ N K) as KN. pose proof (kid_nz _ _ N K). destruct (disj m k M KN) as [X|[X|X]]; pose proof (node_range k KN); lia.
  - pose proof (nth_kid n i ltac:(lia)) as K1. pose proof (nth_kid m j ltac:(lia)) as K2.
    assert (nth i (kids n) 0 = nth j (kids m) 0) as E2 by lia. rewrite <- E2 in K2.
    assert (n = m) as <- by (apply (sh_uniq _ (l_shape _ _ L) n m _ N M K1 K2)). split; auto. f_equal.
    pose proof (sh_nodup _ (l_shape _ _ L) n N) as ND. rewrite (NoDup_nth _ 0) in ND. apply (ND i j); auto; lia.
Qed.
(** The cell [node_insert] and [node_swap] take for the one that leads to a node. *)
Lemma ref_to_is p l1 n l2 : node p -> kids p = l1 ++ n :: l2 -> ref_to c p (zlen l1) = refn p (kids p) (length l1).
Proof.
  intros P E. unfold ref_to. destruct l1 as [|x l1 _] using rev_ind; [reflexivity|].
  rewrite zlen_snoc. pose proof (zlen_nonneg l1). replace (zlen l1 + 1 =? 0) with false by lia. unfold ref_next. rewrite zlen_length. replace (Z.of_nat (length l1) + 1 - 1) with (Z.of_nat (length l1)) by lia.
  rewrite child_of; auto; [|rewrite E, !app_length; cbn; lia].
  rewrite app_length, Nat.add_1_r. cbn [refn]. auto.
Qed.

(** ** Reading. *)
Lemma get_parent_of n : node n -> exists r, node_get_parent c n = Some r /\ (n = 0 /\ r = SIZE_MAX \/ In n (kids r) /\ node r).
Proof.
  intros N. unfold node_get_parent. destruct (Z.eq_dec n 0) as [->|NZ]; [exists SIZE_MAX; auto|].
  destruct (parent_split n N NZ) as (p & l1 & l2 & P & E). rewrite (parent_of p l1 n l2 P E). exists p. split; auto. right. split; auto. rewrite E. apply in_or_app; right; left; auto.
Qed.
Lemma get_child_of n i : node n -> 0 <= i -> node_get_child c n i = nth (Z.to_nat i) (kids n) SIZE_MAX.
Proof.
  intros N I. destruct (Z_lt_dec i (zlen (kids n))) as [LT|GE].
  - rewrite <- (Z2Nat.id i) at 1 by lia. rewrite zlen_length in LT. rewrite child_of by (auto; lia). apply nth_d. lia.
  - unfold node_get_child. rewrite node_ok, amount_of by auto. replace (negb true || (i >=? zlen (kids n))) with true by lia. rewrite zlen_length in GE. rewrite nth_overflow by lia. reflexivity.
Qed.
Lemma get_type_of n : node n -> node_get_type c n = (if n =? 0 then ITEM_MAX else t_type t n).
Proof. intros N. unfold node_get_type. rewrite node_ok by auto. destruct (n =? 0) eqn:E; cbn [negb andb]; auto. apply L; auto. lia. Qed.
Lemma get_arg_of n i : node n -> 0 <= i -> node_get_arg c n i = nth (Z.to_nat i) (t_args t n) ITEM_MAX.
Proof.
  intros N I. unfold node_get_arg, ref_argc. rewrite argc_of by auto. rewrite zlen_length. destruct (i <? Z.of_nat (length (t_args t n))) eqn:E.
  - rewrite <- (Z2Nat.id i) at 1 by lia. replace (n + 2 + 1 + Z.of_nat (Z.to_nat i)) with (n + 3 + Z.of_nat (Z.to_nat i)) by lia.
    rewrite (l_args _ _ L) by (auto; lia). apply nth_d. lia.
  - rewrite nth_overflow by lia. reflexivity.
Qed.
Lemma load_of n : node n -> node_load c n = n.
Proof.
  intros N. pose proof (node_range n N). unfold node_load, u64, s64. rewrite Z.mod_small by (unfold two64; lia). rewrite (l_argc _ _ L) by auto.
  unfold u64. rewrite Z.mod_small by (unfold two64; lia).
  destruct (zlen c - n - 2 <? two63) eqn:E; [|unfold two63 in E; lia].
  replace (zlen (t_args t n) >=? zlen c - n - 2) with false by lia. reflexivity.
Qed.

(** Next in pre-order. *)
Lemma next_more k k' i r : next_loop k c i = Some r -> (k <= k')%nat -> next_loop k' c i = Some r.
Proof.
  revert k' i. induction k as [|k IH]; intros k' i; cbn [next_loop].
  - intros E _. destruct k'; cbn [next_loop]; destruct (is_negative i); congruence.
  - intros E LE. destruct k' as [|k']; [lia|]. cbn [next_loop]. destruct (is_negative i); auto. apply IH; auto. lia.
Qed.
Lemma climb n : node n -> exists p, NoDup p /\ (forall x, In x p -> node x /\ below kids x n) /\
  (n <> 0 -> forall r, cont kids BROKEN n r -> next_loop (length p) c (lv_get c (n - 2)) = Some (if r =? BROKEN then 0 else r)).
Proof.
  induction 1 as [|n k N IH I].
  - exists []. split; [constructor|]. split; [intros x []|congruence].
  - destruct IH as (p & ND & IN & RUN). exists (k :: p). assert (node k) as K by (eapply kid_node; eauto). split; [|split].
    + constructor; auto. intros J. apply IN in J as [_ B]. apply (acyclic kids (l_shape _ _ L) k n); auto.
    + intros x [<-|J]; [split; auto; constructor|]. apply IN in J as [X B]. split; auto. econstructor; eauto.
    + intros NZ r C. pose proof (kid_nz n k N I) as K5.
      assert (forall m a b, node m -> kids m = a ++ k :: b -> m = n /\ lv_get c (k - 2) = nth (S (length a)) (kids m) (- m)) as LINK.
      { intros m a b M E. assert (In k (kids m)) as J by (rewrite E; apply in_or_app; right; left; auto). split; [apply (sh_uniq _ (l_shape _ _ L) m n k); auto|].
        rewrite <- (l_links _ _ L m (S (length a))); auto; [|rewrite E; destruct a; discriminate|rewrite E, app_length; cbn; lia].
        cbn [refn]. rewrite E, app_nth2, Nat.sub_diag by lia. reflexivity. }
      inversion C as [|m a k' j b M E|m a k' r' M E C']; subst.
      * congruence.
      * destruct (LINK m a (r :: b) M E) as [-> ->]. rewrite E, app_nth2 by lia. replace (S (length a) - length a)%nat with 1%nat by lia. cbn [nth length next_loop].
        assert (In r (kids n)) as J by (rewrite E; apply in_or_app; right; right; left; auto). pose proof (kid_nz n r N J). pose proof (node_range r (kid_node n r N J)).
        unfold is_negative. replace (r <? 0) with false by lia. replace (r =? BROKEN) with false by (unfold BROKEN, SIZE_MAX, two64; lia). reflexivity.
      * destruct (LINK m a [] M E) as [-> ->]. rewrite E, nth_overflow by (rewrite app_length; cbn; lia). cbn [length next_loop]. destruct (Z.eq_dec n 0) as [->|NN].
        -- cbn. inversion C'; subst; try reflexivity.
           ++ exfalso. apply (sh_root _ (l_shape _ _ L) n); auto. rewrite H0. apply in_or_app; right; left; auto.
           ++ exfalso. apply (sh_root _ (l_shape _ _ L) n); auto. rewrite H0. apply in_or_app; right; left; auto.
        -- pose proof (node_range n N). unfold is_negative. replace (- n <? 0) with true by lia. unfold from_negative. rewrite Z.opp_involutive. apply RUN; auto.
Qed.
Lemma next_of n before after : kids 0 <> [] -> walk kids 0 (before ++ n :: after) -> node_get_next c n = Some (hd SIZE_MAX after).
Proof.
  intros NE W. assert (N: node n) by (apply (walk_In _ _ _ W); apply in_or_app; right; left; auto).
  pose proof (walk_step kids BROKEN 0 _ W (below_self _ _) BROKEN (cont_root _ _) _ _ _ eq_refl) as ST.
  unfold node_get_next. rewrite node_ok, amount_of by auto. cbn [negb]. fold BROKEN. set (r := hd BROKEN after) in *.
  unfold stepr in ST. destruct (kids n) as [|k ks] eqn:E.
  - change (zlen (@nil Z) =? 0) with true. cbn match. destruct (climb n N) as (p & ND & IN & RUN).
    assert (n <> 0) as NZ by congruence. specialize (RUN NZ r ST).
    assert (length p <= length c)%nat as LE.
    { pose proof (nodup_bound p (zlen c) ND) as H. pose proof (zlen_nonneg c). rewrite Z.max_r in H by lia. rewrite !zlen_length in H. rewrite zlen_length in *. 
      assert (Z.of_nat (length p) <= Z.of_nat (length c)); [|lia]. apply H. intros x I. apply IN in I as [X _]. destruct (node_range x X) as (? & ? & ? & _). rewrite !zlen_length in *. lia. }
    unfold ref_next. rewrite (next_more _ _ _ _ RUN LE). cbn [bind]. destruct (r =? BROKEN) eqn:EB; [apply Z.eqb_eq in EB; rewrite EB; reflexivity|]. f_equal.
    (* a proper answer is not the root *)
    assert (r <> 0) as RZ; [|destruct (r =? 0) eqn:?; auto; lia].
    intros Z0. unfold r in Z0. destruct after as [|x after]; cbn in Z0; [discriminate Z0|]. subst x.
    assert (B: before <> []). { intros ->. cbn in W. destruct (walk_hd _ _ _ W) as (l' & X). congruence. }
    pose proof (walk_nodup _ (l_shape _ _ L) 0 _ W (below_self _ _)) as ND0. destruct (walk_hd _ _ _ W) as (l' & X). destruct before as [|y before]; [congruence|].
    cbn in X. injection X as -> X. cbn in ND0. inversion ND0 as [|? ? NI ?]; subst. apply NI. apply in_or_app. right. right. left. auto.
  - replace (zlen (k :: ks) =? 0) with false by (rewrite zlen_cons; pose proof (zlen_nonneg ks); lia). unfold ref_children.
    change (n + 1) with (refn n (kids n) 0). rewrite (l_links _ _ L) by (auto; try lia; congruence). rewrite E. cbn [nth bind]. rewrite ST.
    pose proof (kid_nz n k N ltac:(rewrite E; left; auto)). replace (k =? 0) with false by lia. reflexivity.
Qed.
End Lay.

(** Every editing call keeps the layout, with the tree changed as it should. *)
From Verif Require Import Prelude VectorSpec LVec TreeModel TreeSpec TreeShape TreeProofs.
From Coq Require Import List.
Local Open Scope Z_scope.

Lemma nth_znth (l : list Z) j d : nth j l d = or_else (znth l (Z.of_nat j)) d.
Proof.
  unfold znth. rewrite zlen_length. rewrite Nat2Z.id. destruct ((Z.of_nat j <? 0) || (Z.of_nat (length l) <=? Z.of_nat j)) eqn:E.
  - rewrite nth_overflow by lia. reflexivity.
  - destruct (nth_error l j) as [v|] eqn:V; [apply nth_error_nth; auto|]. apply nth_error_None in V. lia.
Qed.

Section Edit.
Variables (c : list Z) (t : tree).
Hypothesis L : lay c t.
Hypothesis SM : small c.
Notation kids := (t_kids t).
Notation node := (node_of t).

Lemma cell_inj n m d e : node n -> node m -> -2 <= d < 3 + zlen (t_args t n) -> -2 <= e < 3 + zlen (t_args t m) -> n + d = m + e -> n = m /\ d = e.
Proof.
  intros N M D E X. destruct (disj c t L n m N M) as [Y|[Y|Y]]; lia.
Qed.
Lemma ref_ne x n d : is_ref t x -> node n -> -1 <= d <= 0 \/ 2 <= d < 3 + zlen (t_args t n) -> x <> n + d.
Proof. apply (ref_data c); auto. Qed.
Lemma link_is n i : node n -> kids n <> [] -> (i <= length (kids n))%nat -> is_ref t (refn n (kids n) i).
Proof. intros. exists n, i. auto. Qed.
Lemma argc_nn n : 0 <= zlen (t_args t n).
Proof. apply zlen_nonneg. Qed.

(** ** Types and arguments. *)
Lemma set_type_lay n y : node n -> n <> 0 -> lay (lv_set c (n - 1) y) (mkTree kids (upd (t_type t) n y) (t_args t) (t_last t)).
Proof.
  intros N NZ. pose proof (node_range c t L SM n N) as RN. pose proof (argc_nn n).
  assert (forall m d, node m -> (d = -2 \/ 0 <= d < 3 + zlen (t_args t m)) -> lv_get (lv_set c (n - 1) y) (m + d) = lv_get c (m + d)) as FR.
  { intros m d M D. pose proof (argc_nn m). rewrite lv_get_set_other; auto. intros E. destruct (cell_inj n m (-1) d N M); lia. }
  split; cbn [t_kids t_type t_args t_last]; unfold node_of; cbn [t_kids]; fold (node_of t).
  - apply L. - apply L. - rewrite zlen_lv_set. apply L. - apply L.
  - intros m M MZ. unfold upd. destruct (m =? n) eqn:E.
    + replace m with n by lia. apply lv_get_set_same. lia.
    + rewrite lv_get_set_other by lia. apply L; auto.
  - intros m M. pose proof (argc_nn m). rewrite <- (Z.add_0_r m) at 1. rewrite FR by (auto; lia). rewrite Z.add_0_r. apply L; auto.
  - intros m M. pose proof (argc_nn m). rewrite FR by (auto; lia). apply L; auto.
  - intros m i M I. pose proof (zlen_length (t_args t m)). rewrite <- Z.add_assoc. rewrite FR by (auto; lia). rewrite Z.add_assoc. apply L; auto.
  - intros m i M NE I. rewrite lv_get_set_other; [apply L; auto|]. pose proof (ref_ne _ n (-1) (link_is m i M NE I) N). lia.
  - intros m M. rewrite zlen_lv_set. apply L; auto.
Qed.

Lemma set_arg_lay n i x : node n -> 0 <= i < zlen (t_args t n) ->
  lay (lv_set c (n + 3 + i) x) (mkTree kids (t_type t) (upd (t_args t) n (zupd (t_args t n) i x)) (t_last t)).
Proof.
  intros N I. pose proof (node_range c t L SM n N) as RN.
  assert (forall m, zlen (upd (t_args t) n (zupd (t_args t n) i x) m) = zlen (t_args t m)) as LEN.
  { intros m. unfold upd. destruct (m =? n) eqn:E; auto. rewrite zlen_zupd. replace m with n by lia. auto. }
  assert (forall m d, node m -> -2 <= d < 3 -> lv_get (lv_set c (n + 3 + i) x) (m + d) = lv_get c (m + d)) as FR.
  { intros m d M D. pose proof (argc_nn m). rewrite lv_get_set_other; auto. intros E. destruct (cell_inj n m (3 + i) d N M); lia. }
  split; cbn [t_kids t_type t_args t_last]; unfold node_of; cbn [t_kids]; fold (node_of t).
  - apply L. - apply L.
  - intros m M. rewrite zlen_lv_set, LEN. apply L. auto.
  - intros m k M K. rewrite LEN. apply L; auto.
  - intros m M MZ. replace (m - 1) with (m + -1) by lia. rewrite FR by (auto; lia). apply L; auto.
  - intros m M. rewrite <- (Z.add_0_r m) at 1. rewrite FR by (auto; lia). rewrite Z.add_0_r. apply L; auto.
  - intros m M. rewrite FR by (auto; lia). rewrite LEN. apply L; auto.
  - intros m j M J. pose proof (LEN m) as LM. rewrite !zlen_length in LM. pose proof (zlen_length (t_args t m)).
    unfold upd in *. destruct (m =? n) eqn:E.
    + assert (m = n) as -> by lia. destruct (Z.eq_dec i (Z.of_nat j)) as [->|NE].
      * rewrite lv_get_set_same by lia. rewrite nth_znth, znth_zupd_same by lia. reflexivity.
      * rewrite lv_get_set_other by lia. rewrite (l_args _ _ L) by (auto; lia). rewrite !nth_znth, znth_zupd_other by lia. reflexivity.
    + rewrite lv_get_set_other; [apply L; auto; lia|]. intros X. destruct (cell_inj n m (3 + i) (3 + Z.of_nat j) N M); lia.
  - intros m j M NE J. rewrite lv_get_set_other; [apply L; auto|]. pose proof (ref_ne _ n (3 + i) (link_is m j M NE J) N ltac:(lia)). lia.
  - intros m M LA. rewrite zlen_lv_set, LEN. apply L; auto.
Qed.

Lemma add_arg_lay n x : node n -> t_last t = Some n ->
  lay (lv_set (lv_add c x) (n + 2) (zlen (t_args t n) + 1)) (mkTree kids (t_type t) (upd (t_args t) n (t_args t n ++ [x])) (t_last t)).
Proof.
  intros N LA. pose proof (node_range c t L SM n N) as RN. pose proof (l_last _ _ L n N LA) as END.
  assert (forall m, zlen (upd (t_args t) n (t_args t n ++ [x]) m) = zlen (t_args t m) + (if m =? n then 1 else 0)) as LEN.
  { intros m. unfold upd. destruct (m =? n) eqn:E; [|lia]. rewrite zlen_snoc. replace m with n by lia. auto. }
  assert (forall m d, node m -> -2 <= d < 3 + zlen (t_args t m) -> m + d <> n + 2 -> lv_get (lv_set (lv_add c x) (n + 2) (zlen (t_args t n) + 1)) (m + d) = lv_get c (m + d)) as FR.
  { intros m d M D NE. pose proof (node_range c t L SM m M). rewrite lv_get_set_other by lia. unfold lv_add. rewrite lv_get_app1; auto. lia. }
  assert (forall m, node m -> m <> n -> m < n) as MAX.
  { intros m M NE. destruct (disj c t L n m N M) as [X|[X|X]]; try lia. pose proof (node_range c t L SM m M). lia. }
  split; cbn [t_kids t_type t_args t_last]; unfold node_of; cbn [t_kids]; fold (node_of t).
  - apply L. - apply L.
  - intros m M. rewrite zlen_lv_set, zlen_lv_add, LEN. pose proof (l_in _ _ L m M). destruct (m =? n); lia.
  - intros m k M K LT. rewrite LEN. pose proof (l_disj _ _ L m k M K LT). destruct (m =? n) eqn:E; [|lia]. pose proof (MAX k K). lia.
  - intros m M MZ. pose proof (argc_nn m). replace (m - 1) with (m + -1) by lia. rewrite FR; auto; [apply L; auto|lia|]. intros X. pose proof (argc_nn n). destruct (cell_inj m n (-1) 2 M N); lia.
  - intros m M. pose proof (argc_nn m). rewrite <- (Z.add_0_r m) at 1. rewrite FR; auto; [rewrite Z.add_0_r; apply L; auto|lia|]. intros X. pose proof (argc_nn n). destruct (cell_inj m n 0 2 M N); lia.
  - intros m M. rewrite LEN. pose proof (argc_nn m). destruct (m =? n) eqn:E.
    + replace m with n by lia. apply lv_get_set_same. rewrite zlen_lv_add. lia.
    + rewrite FR by (auto; lia). rewrite Z.add_0_r. apply L; auto.
  - intros m j M J. pose proof (LEN m) as LM. pose proof (argc_nn n). rewrite <- Z.add_assoc. unfold upd in *. destruct (m =? n) eqn:E.
    + assert (m = n) as -> by lia. rewrite app_length in J. cbn in J. destruct (Nat.eq_dec j (length (t_args t n))) as [->|NE].
      * rewrite lv_get_set_other by lia. rewrite app_nth2, Nat.sub_diag by lia. unfold lv_add. rewrite <- zlen_length. rewrite lv_get_app2 by lia. replace (n + (3 + zlen (t_args t n)) - zlen c) with 0 by lia. reflexivity.
      * rewrite app_nth1 by lia. rewrite FR; auto; [|rewrite zlen_length; lia|lia]. rewrite Z.add_assoc. apply L; auto. lia.
    + rewrite FR; auto; [rewrite Z.add_assoc; apply L; auto|rewrite zlen_length; lia|]. intros X. rewrite Z.add_assoc in X. pose proof (MAX m M ltac:(lia)). pose proof (disj c t L m n M N). rewrite (zlen_length (t_args t m)) in *. lia.
  - intros m j M NE J. pose proof (argc_nn n). pose proof (ref_ne _ n 2 (link_is m j M NE J) N ltac:(lia)). pose proof (ref_range c t L SM _ (link_is m j M NE J)).
    rewrite lv_get_set_other by lia. unfold lv_add. rewrite lv_get_app1 by lia. apply L; auto.
  - intros m M LM. rewrite zlen_lv_set, zlen_lv_add, LEN. assert (m = n) as -> by congruence. rewrite Z.eqb_refl. lia.
Qed.

(** ** A new child. *)
Definition r_new : Z := zlen c + 2.
Definition c_add (n y : Z) : list Z := lv_set (lv_set (c ++ [- n; y; 0; 0; 0]) n (zlen (kids n) + 1)) (refn n (kids n) (length (kids n))) r_new.

Lemma fresh m : node m -> m < r_new - 2.
Proof. intros M. pose proof (node_range c t L SM m M). unfold r_new. lia. Qed.
Lemma r_new_fresh : ~ node r_new.
Proof. intros M. apply fresh in M. lia. Qed.
(** The cell at the end of the list of children. *)
Lemma end_cell n : node n -> 0 <= refn n (kids n) (length (kids n)) < zlen c /\ refn n (kids n) (length (kids n)) <> n
  /\ (forall m d, node m -> -1 <= d <= 0 \/ 2 <= d < 3 + zlen (t_args t m) -> refn n (kids n) (length (kids n)) <> m + d)
  /\ (forall m i, node m -> kids m <> [] -> (i <= length (kids m))%nat -> refn n (kids n) (length (kids n)) = refn m (kids m) i -> m = n /\ i = length (kids n)).
Proof.
  intros N. pose proof (node_range c t L SM n N). pose proof (argc_nn n). destruct (kids n) as [|k l] eqn:E.
  - cbn [refn length]. repeat split; try lia.
    + intros m d M D X. pose proof (argc_nn m). destruct (cell_inj n m 1 d N M); lia.
    + exfalso. destruct (refn_cases c t L m i) as [[_ X]|(k & K & K5 & _ & X)]; auto; rewrite X in *.
      * assert (m = n) by lia. congruence.
      * pose proof (argc_nn k). destruct (cell_inj n k 1 (-2) N K); lia.
    + exfalso. destruct (refn_cases c t L m i) as [[_ X]|(k & K & K5 & _ & X)]; auto; rewrite X in *.
      * assert (m = n) by lia. congruence.
      * pose proof (argc_nn k). destruct (cell_inj n k 1 (-2) N K); lia.
  - assert (is_ref t (refn n (k :: l) (length (k :: l)))) as R by (rewrite <- E; apply link_is; auto; congruence).
    repeat split; try apply (ref_range c t L SM _ R).
    + pose proof (ref_ne _ n 0 R N). lia.
    + intros m d M D. apply ref_ne; auto.
    + rewrite <- E in *. destruct (ref_inj c t L SM n m (length (kids n)) i); auto. congruence.
    + rewrite <- E in *. destruct (ref_inj c t L SM n m (length (kids n)) i); auto. congruence.
Qed.

Lemma add_child_eq n y : node n -> node_add_child c n y = (r_new, c_add n y).
Proof.
  intros N. pose proof (node_range c t L SM n N) as RN. destruct (end_cell n N) as (R1 & R2 & _ & R4).
  unfold node_add_child. rewrite (node_ok c t L SM n N). cbn [negb].
  assert (lv_increase (lv_add (lv_add (lv_add c (to_negative n)) y) 0) 2 = c ++ [- n; y; 0; 0; 0]) as -> by (unfold lv_increase, lv_add; rewrite <- !app_assoc; reflexivity).
  assert (zlen (lv_add (lv_add c (to_negative n)) y) = r_new) as -> by (rewrite !zlen_lv_add; unfold r_new; lia).
  assert (node_get_amount (c ++ [- n; y; 0; 0; 0]) n = zlen (kids n)) as ->.
  { unfold node_get_amount, ref_amount. rewrite (node_ok c t L SM n N), lv_get_app1 by lia. apply L; auto. }
  unfold ref_amount, c_add. destruct (kids n) as [|k l] eqn:E; [reflexivity|].
  replace (zlen (k :: l) =? 0) with false by (rewrite zlen_cons; pose proof (zlen_nonneg l); lia). f_equal. f_equal. unfold ref_next. cbn [length refn]. f_equal.
  replace (zlen (k :: l) - 1) with (Z.of_nat (length l)) by (rewrite zlen_length; cbn [length]; lia). rewrite <- E.
  assert (length (kids n) = S (length l)) as LN by (rewrite E; reflexivity).
  apply child_links.
  - rewrite lv_get_set_same by (rewrite zlen_app; pose proof (zlen_nonneg [- n; y; 0; 0; 0]); lia). rewrite zlen_length. lia.
  - apply (node_ok c t L SM n N).
  - intros i I. assert (is_ref t (refn n (kids n) i)) as R by (apply link_is; auto; [congruence|lia]).
    pose proof (ref_ne _ n 0 R N). pose proof (ref_range c t L SM _ R). rewrite lv_get_set_other by lia. rewrite lv_get_app1 by lia.
    rewrite (l_links _ _ L); auto; [apply nth_indep; lia|congruence|lia].
Qed.

Lemma add_child_lay n y : node n -> lay (c_add n y) (mkTree (upd (upd kids n (kids n ++ [r_new])) r_new []) (upd (t_type t) r_new y) (upd (t_args t) r_new []) (Some r_new)).
Proof.
  intros N. pose proof (node_range c t L SM n N) as RN. destruct (end_cell n N) as (R1 & R2 & R3 & R4).
  set (e := refn n (kids n) (length (kids n))) in *. set (t' := mkTree _ _ _ _).
  assert (zlen (c_add n y) = zlen c + 5) as LEN by (unfold c_add; rewrite !zlen_lv_set, zlen_app; reflexivity).
  assert (forall x, x < zlen c -> x <> n -> x <> e -> lv_get (c_add n y) x = lv_get c x) as OLD.
  { intros x X1 X2 X3. unfold c_add. fold e. rewrite !lv_get_set_other by lia. apply lv_get_app1. auto. }
  assert (forall x, zlen c <= x -> lv_get (c_add n y) x = lv_get [- n; y; 0; 0; 0] (x - zlen c)) as NEW.
  { intros x X1. unfold c_add. fold e. rewrite !lv_get_set_other by lia. apply lv_get_app2. auto. }
  assert (lv_get (c_add n y) n = zlen (kids n) + 1) as GN.
  { unfold c_add. fold e. rewrite lv_get_set_other by lia. apply lv_get_set_same. rewrite zlen_app. pose proof (zlen_nonneg [- n; y; 0; 0; 0]). lia. }
  assert (lv_get (c_add n y) e = r_new) as GE.
  { unfold c_add. fold e. apply lv_get_set_same. rewrite zlen_lv_set, zlen_app. pose proof (zlen_nonneg [- n; y; 0; 0; 0]). lia. }
  assert (forall m, node_of t' m <-> node m \/ m = r_new) as NODES by (intros m; apply (add_below kids n r_new N r_new_fresh)).
  assert (forall m, node m -> t_args t' m = t_args t m) as ARGS by (intros m M; pose proof (fresh m M); cbn [t' t_args]; unfold upd; destruct (m =? r_new) eqn:?; [lia|auto]).
  assert (forall m, node m -> m <> n -> t_kids t' m = kids m) as KIDS by (intros m M NE; pose proof (fresh m M); cbn [t' t_kids]; unfold upd; destruct (m =? r_new) eqn:?; [lia|]; destruct (m =? n) eqn:?; [lia|auto]).
  assert (t_kids t' n = kids n ++ [r_new]) as KN by (pose proof (fresh n N); cbn [t' t_kids]; unfold upd; destruct (n =? r_new) eqn:?; [lia|]; rewrite Z.eqb_refl; auto).
  assert (t_args t' r_new = []) as AR by (cbn [t' t_args]; unfold upd; rewrite Z.eqb_refl; auto).
  assert (t_kids t' r_new = []) as KR by (cbn [t' t_kids]; unfold upd; rewrite Z.eqb_refl; auto).
  assert (r_new = zlen c + 2) as RR by reflexivity. pose proof (zlen_nonneg c).
  split.
  - apply (shape_add kids n r_new); auto; [apply L|apply r_new_fresh].
  - intros m M. apply NODES in M as [M| ->]; [apply L; auto|]. lia.
  - intros m M. rewrite LEN. apply NODES in M as [M| ->]; [rewrite ARGS by auto; pose proof (l_in _ _ L m M); lia|]. rewrite AR, (@zlen_nil Z). lia.
  - intros m k M K LT. apply NODES in M as [M| ->], K as [K| ->]; try (pose proof (fresh m M)); try (pose proof (fresh k K)); try lia.
    + rewrite ARGS by auto. apply L; auto.
    + rewrite ARGS by auto. pose proof (l_in _ _ L m M). lia.
  - intros m M MZ. cbn [t' t_type]. unfold upd. apply NODES in M as [M| ->].
    + pose proof (fresh m M). destruct (m =? r_new) eqn:?; [lia|]. pose proof (argc_nn m). rewrite OLD; [apply L; auto|lia| |].
      * intros X. destruct (cell_inj m n (-1) 0 M N); lia.
      * intros X. apply (R3 m (-1) M); lia.
    + rewrite Z.eqb_refl, NEW by lia. replace (r_new - 1 - zlen c) with 1 by lia. reflexivity.
  - intros m M. apply NODES in M as [M| ->].
    + destruct (Z.eq_dec m n) as [->|NE]; [rewrite GN, KN, zlen_snoc; auto|]. rewrite KIDS by auto. pose proof (fresh m M). rewrite OLD; [apply L; auto|lia|lia|]. intros X. apply (R3 m 0 M); lia.
    + rewrite KR, NEW by lia. replace (r_new - zlen c) with 2 by lia. reflexivity.
  - intros m M. apply NODES in M as [M| ->].
    + rewrite ARGS by auto. pose proof (l_in _ _ L m M). pose proof (argc_nn m). rewrite OLD; [apply L; auto|lia| |].
      * intros X. pose proof (argc_nn n). destruct (cell_inj m n 2 0 M N); lia.
      * intros X. apply (R3 m 2 M); lia.
    + rewrite AR, NEW by lia. replace (r_new + 2 - zlen c) with 4 by lia. reflexivity.
  - intros m i M I. apply NODES in M as [M| ->]; [|rewrite AR in I; cbn in I; lia].
    rewrite ARGS in * by auto. pose proof (l_in _ _ L m M). pose proof (zlen_length (t_args t m)). rewrite OLD; [apply L; auto|lia| |].
    + intros X. pose proof (argc_nn n). destruct (cell_inj m n (3 + Z.of_nat i) 0 M N); lia.
    + intros X. apply (R3 m (3 + Z.of_nat i) M); lia.
  - intros m i M NE I. apply NODES in M as [M| ->]; [|congruence]. destruct (Z.eq_dec m n) as [->|MN].
    + rewrite KN in *. rewrite app_length in I. cbn in I. destruct (Nat.eq_dec i (S (length (kids n)))) as [->|].
      * cbn [refn]. rewrite app_nth2, Nat.sub_diag by lia. cbn [nth]. rewrite nth_overflow by (rewrite app_length; cbn; lia). rewrite NEW by lia. replace (r_new - 2 - zlen c) with 0 by lia. reflexivity.
      * assert (refn n (kids n ++ [r_new]) i = refn n (kids n) i) as -> by (destruct i; cbn [refn]; auto; rewrite app_nth1 by lia; auto).
        destruct (Nat.eq_dec i (length (kids n))) as [->|].
        -- fold e. rewrite GE, app_nth2, Nat.sub_diag by lia. reflexivity.
        -- assert (kids n <> []) as KNE by (intros X; rewrite X in *; cbn in *; lia). assert (is_ref t (refn n (kids n) i)) as R by (apply link_is; auto; lia).
           pose proof (ref_range c t L SM _ R). pose proof (ref_ne _ n 0 R N). rewrite OLD; [|lia|lia|].
           ++ rewrite (l_links _ _ L), app_nth1 by (auto; lia). apply nth_indep. lia.
           ++ intros X. destruct (R4 n i N KNE); auto; lia.
    + rewrite KIDS in * by auto. assert (is_ref t (refn m (kids m) i)) as R by (apply link_is; auto).
      pose proof (ref_range c t L SM _ R). pose proof (ref_ne _ n 0 R N). rewrite OLD; [apply L; auto|lia|lia|]. intros X. destruct (R4 m i M NE); auto.
  - intros m M LM. rewrite LEN. cbn [t' t_last] in LM. injection LM as <-. rewrite AR, (@zlen_nil Z). lia.
Qed.
End Edit.

(** The identifier table as a list of entries, and the loop that undoes a scope. *)
From Verif Require Import Prelude VectorSpec LVec TypesModel IdentModel.

Ltac big := change SIZE_MAX with 18446744073709551615 in *; change ITEM_MAX with 9223372036854775807 in *.

Record ent := mkEnt { e_prev : Z; e_repr : Z; e_type : Z; e_displ : Z }.
Definition ent4 (e : ent) : list Z := [e_prev e; e_repr e; e_type e; e_displ e].
Definition cells (es : list ent) : list Z := 0 :: 0 :: flat_map ent4 es.
Definition idx (k : Z) : Z := 2 + 4 * k.

Lemma zlen_flat es : zlen (flat_map ent4 es) = 4 * zlen es.
Proof. induction es; cbn [flat_map]; [reflexivity|]. rewrite zlen_app, IHes, zlen_cons. change (zlen (ent4 a)) with 4. lia. Qed.
Lemma zlen_cells es : zlen (cells es) = idx (zlen es).
Proof. unfold cells, idx. rewrite !zlen_cons, zlen_flat. lia. Qed.

Lemma znth_split {A} (l : list A) k x : znth l k = Some x -> exists a b, l = a ++ x :: b /\ zlen a = k.
Proof.
  intros H. pose proof (znth_Some_lt _ _ _ H) as B. rewrite znth_unf in H. destruct (k <? 0) eqn:E; [lia|].
  apply nth_error_split in H as (a & b & -> & L). exists a, b. split; auto. rewrite zlen_unf. lia.
Qed.

Lemma get_flat a e b j : 0 <= j < 4 -> znth (cells (a ++ e :: b)) (idx (zlen a) + j) = znth (ent4 e) j.
Proof.
  intros H. unfold cells, idx. pose proof (zlen_nonneg a). rewrite !znth_cons_pos by lia. rewrite flat_map_app. cbn [flat_map].
  rewrite znth_app2 by (rewrite zlen_flat; lia). rewrite znth_app1 by (rewrite zlen_flat; change (zlen (ent4 e)) with 4; lia).
  f_equal. rewrite zlen_flat. lia.
Qed.
Lemma zupd_cons_pos {A} (x : A) l i v : 0 < i -> zupd (x :: l) i v = x :: zupd l (i - 1) v.
Proof. intros. change (x :: l) with ([x] ++ l). rewrite zupd_app2 by (change (zlen [x]) with 1; lia). reflexivity. Qed.
Lemma set_flat a e b j v : 0 <= j < 4 -> 
  zupd (cells (a ++ e :: b)) (idx (zlen a) + j) v = cells a ++ zupd (ent4 e) j v ++ flat_map ent4 b.
Proof.
  intros H. unfold cells, idx. pose proof (zlen_nonneg a). rewrite !zupd_cons_pos by lia. rewrite flat_map_app. cbn [flat_map].
  rewrite zupd_app2 by (rewrite zlen_flat; lia). rewrite zupd_app1 by (rewrite zlen_flat; change (zlen (ent4 e)) with 4; lia).
  rewrite zlen_flat. replace (2 + 4 * zlen a + j - 1 - 1 - 4 * zlen a) with j by lia. reflexivity.
Qed.

Section S.
Variables (s : idents) (es : list ent).
Hypothesis C : id_cells s = cells es.
Hypothesis B : idx (zlen es) < ITEM_MAX.

Lemma in_range k e j : znth es k = Some e -> 0 <= j < 4 -> u64 (idx k + j) = idx k + j.
Proof.
  intros H J. apply znth_Some_lt in H. apply u64_id. unfold is_size, idx in *.
  big. lia.
Qed.
Lemma get_ent k e j : znth es k = Some e -> 0 <= j < 4 -> ident_get s (idx k + j) = or_else (znth (ent4 e) j) ITEM_MAX.
Proof.
  intros H J. unfold ident_get, lv_get. rewrite (in_range _ _ _ H J), C.
  apply znth_split in H as (a & b & -> & <-). rewrite get_flat by auto. reflexivity.
Qed.
Lemma get_prev k e : znth es k = Some e -> ident_get_prev s (idx k) = e_prev e.
Proof. intros H. unfold ident_get_prev. replace (idx k) with (idx k + 0) by lia. rewrite (get_ent _ _ _ H) by lia. reflexivity. Qed.
Lemma get_repr k e : znth es k = Some e -> ident_get_repr s (idx k) = e_repr e.
Proof. intros H. unfold ident_get_repr. rewrite (get_ent _ _ _ H) by lia. reflexivity. Qed.
Lemma get_type k e : znth es k = Some e -> ident_get_type s (idx k) = e_type e.
Proof. intros H. unfold ident_get_type. rewrite (get_ent _ _ _ H) by lia. reflexivity. Qed.
Lemma get_displ k e : znth es k = Some e -> ident_get_displ s (idx k) = e_displ e.
Proof. intros H. unfold ident_get_displ. rewrite (get_ent _ _ _ H) by lia. reflexivity. Qed.

Lemma set_ent k e e' j v : znth es k = Some e -> 0 <= j < 4 -> zupd (ent4 e) j v = ent4 e' ->
  ident_set s (idx k + j) v = with_cells s (cells (zupd es k e')).
Proof.
  intros H J E. unfold ident_set. f_equal. unfold lv_set. rewrite (in_range _ _ _ H J), C.
  apply znth_split in H as (a & b & -> & <-). rewrite set_flat by auto. rewrite E.
  rewrite zupd_app2 by lia. replace (zlen a - zlen a) with 0 by lia.
  change (zupd (e :: b) 0 e') with (e' :: b). unfold cells. cbn [app]. rewrite flat_map_app. reflexivity.
Qed.
Lemma set_repr k p r t d v : znth es k = Some (mkEnt p r t d) -> ident_set_repr s (idx k) v = with_cells s (cells (zupd es k (mkEnt p v t d))).
Proof. intros H. apply (set_ent _ _ _ _ _ H); [lia|reflexivity]. Qed.
Lemma set_type k p r t d v : znth es k = Some (mkEnt p r t d) -> ident_set_type s (idx k) v = with_cells s (cells (zupd es k (mkEnt p r v d))).
Proof. intros H. apply (set_ent _ _ _ _ _ H); [lia|reflexivity]. Qed.
Lemma set_displ k p r t d v : znth es k = Some (mkEnt p r t d) -> ident_set_displ s (idx k) v = with_cells s (cells (zupd es k (mkEnt p r t v))).
Proof. intros H. apply (set_ent _ _ _ _ _ H); [lia|reflexivity]. Qed.
End S.

Lemma znth_last {A} (l : list A) x : znth (l ++ [x]) (zlen l) = Some x.
Proof. rewrite znth_app2 by lia. replace (zlen l - zlen l) with 0 by lia. reflexivity. Qed.
Lemma zupd_last {A} (l : list A) x y : zupd (l ++ [x]) (zlen l) y = l ++ [y].
Proof. rewrite zupd_app2 by lia. replace (zlen l - zlen l) with 0 by lia. reflexivity. Qed.
Lemma cells_add es p : lv_increase (lv_add (cells es) p) 3 = cells (es ++ [mkEnt p 0 0 0]).
Proof. unfold lv_increase, lv_add, cells. cbn [app]. rewrite flat_map_app. cbn. rewrite <- app_assoc. reflexivity. Qed.

(** Undoing a scope. *)
Definition dec (p : Z) : Z := if p =? ITEM_MAX - 1 then ITEM_MAX else p.
Definition enc (r : Z) : Z := if r =? ITEM_MAX then ITEM_MAX - 1 else r.
Definition link (e : ent) : Z * Z := (e_prev e, e_repr e).
Definition undo (l : list (Z * Z)) (r : Z -> Z) : Z -> Z := fold_right (fun e r => set_ref r (snd e) (dec (fst e))) r l.
Definition first (l : list (Z * Z)) (x : Z) : option (Z * Z) := find (fun e => negb (snd e <? 0) && (snd e =? x)) l.
Lemma undo_first l r x : undo l r x = match first l x with Some e => dec (fst e) | None => r x end.
Proof.
  induction l as [|[p n] l IH]; cbn [undo fold_right first find fst snd]; auto. unfold set_ref at 1.
  destruct (n <? 0) eqn:E; cbn [negb andb]; auto. destruct (n =? x) eqn:F; rewrite (Z.eqb_sym x n), F; auto.
Qed.
Lemma undo_app a b r : undo (a ++ b) r = undo a (undo b r).
Proof. unfold undo. apply fold_right_app. Qed.
Lemma undo_ext l r r' : (forall x, r x = r' x) -> forall x, undo l r x = undo l r' x.
Proof. intros H x. rewrite !undo_first. destruct (first l x); auto. Qed.
Lemma undo_idem l r x : undo l (undo l r) x = undo l r x.
Proof. rewrite undo_first. rewrite (undo_first l r). destruct (first l x); auto. Qed.

Lemma restore_entries ec : forall eb ea s fuel, id_cells s = cells (ea ++ eb ++ ec) -> idx (zlen (ea ++ eb ++ ec)) < ITEM_MAX ->
  id_cur s = idx (zlen ea) -> 1 <= zlen ea -> (length eb <= fuel)%nat ->
  restore fuel s (u64 (idx (zlen ea + zlen eb) - 4)) = Some (with_refs s (undo (map link eb) (id_refs s))).
Proof.
  intros eb ea. induction eb as [|e eb IH] in ec |- * using rev_ind; intros s fuel C B U L F.
  - assert (E: (u64 (idx (zlen ea + zlen (@nil ent)) - 4) >=? id_cur s) = false).
    { rewrite U. change (zlen (@nil ent)) with 0. rewrite u64_id.
      - unfold idx. lia.
      - rewrite !zlen_app in B. pose proof (zlen_nonneg ec). unfold is_size, idx in *. big.
        change (zlen (@nil ent)) with 0 in B. lia. }
    destruct fuel; cbn [restore]; rewrite E; cbn; destruct s; reflexivity.
  - rewrite app_length in F. cbn [length] in F. destruct fuel as [|fuel]; [lia|].
    rewrite <- app_assoc in C, B. cbn [app] in C, B.
    assert (Hn: znth (ea ++ eb ++ e :: ec) (zlen ea + zlen eb) = Some e).
    { rewrite app_assoc, znth_app2 by (rewrite zlen_app; lia). rewrite zlen_app.
      replace (zlen ea + zlen eb - (zlen ea + zlen eb)) with 0 by lia. apply znth_cons_0. }
    pose proof (zlen_nonneg eb).
    assert (I: u64 (idx (zlen ea + zlen (eb ++ [e])) - 4) = idx (zlen ea + zlen eb)).
    { rewrite zlen_app. change (zlen [e]) with 1. pose proof (in_range _ B _ _ 0 Hn ltac:(lia)) as R.
      replace (idx (zlen ea + (zlen eb + 1)) - 4) with (idx (zlen ea + zlen eb) + 0) by (unfold idx; lia).
      rewrite R. lia. }
    rewrite I. cbn [restore]. rewrite U.
    replace (idx (zlen ea + zlen eb) >=? idx (zlen ea)) with true by (unfold idx; lia).
    rewrite (get_prev _ _ C B _ _ Hn), (get_repr _ _ C B _ _ Hn).
    specialize (IH (e :: ec) (repr_set_reference s (e_repr e) (if e_prev e =? ITEM_MAX - 1 then ITEM_MAX else e_prev e)) fuel).
    rewrite IH; auto; [|lia]. rewrite map_app, undo_app. cbn. destruct s; reflexivity.
Qed.
Lemma restore_all_entries s ea eb : id_cells s = cells (ea ++ eb) -> idx (zlen (ea ++ eb)) < ITEM_MAX ->
  id_cur s = idx (zlen ea) -> 1 <= zlen ea -> restore_all s = Some (with_refs s (undo (map link eb) (id_refs s))).
Proof.
  intros C B U L. unfold restore_all. rewrite C, zlen_cells, zlen_app.
  apply (restore_entries [] eb ea); rewrite ?app_nil_r; auto.
  unfold cells. cbn [length]. rewrite flat_map_app, app_length.
  assert (length eb <= length (flat_map ent4 eb))%nat; [|lia]. clear. induction eb; cbn; lia.
Qed.

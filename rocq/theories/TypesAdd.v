(** Adding a record to the type table, and what the numbers denote. *)
From Verif Require Import Prelude LVec TypesModel TypesSpec TypesProofs TypesEqual.
From Verif Require Import VectorSpec.

Lemma resize_back (c x : list Z) : lv_resize (c ++ x) (zlen c) = c.
Proof.
  unfold lv_resize, resized. rewrite zlen_unf, Nat2Z.id, firstn_app, Nat.sub_diag, firstn_all. cbn [firstn].
  rewrite zlen_app, zlen_length. pose proof (zlen_nonneg x).
  replace (Z.to_nat (zlen c - (zlen c + zlen x))) with 0%nat by lia. cbn. rewrite !app_nil_r. reflexivity.
Qed.

Lemma laid_count c start T : laid c start T -> zlen T <= start.
Proof.
  revert start. induction T as [|[n s] T IH]; cbn [laid].
  - intros start ->. change (zlen (@nil (Z * shape))) with 0. lia.
  - intros start (-> & H & A & B & W & L). rewrite zlen_cons. destruct T as [|[n' s'] T']; [change (zlen (@nil (Z * shape))) with 0; lia|].
    specialize (IH _ L). inversion B as [|? ? B1 _]; subst. cbn in B1. cbn in L. destruct L as (-> & _). pose proof (enc_pos s'). lia.
Qed.

Lemma laid_start c start T : laid c start T -> T <> [] -> 0 < start < zlen c.
Proof.
  destruct T as [|[n s] T]; [congruence|]. cbn [laid]. intros (-> & H & A & _) _. apply at_len in A. pose proof (enc_pos s). lia.
Qed.

(** The walk along the chain. *)
Lemma find_ok t T1 st s fuel : laid (ty_cells t) st T1 -> lv_get (ty_cells t) 0 = 0 -> In (ty_start t + 1, s) T1 ->
  forall T p, laid (ty_cells t) p T -> incl T T1 -> (length T <= fuel)%nat ->
  (find_equal fuel t p = Some 0 /\ forall b s', In (b, s') T -> ~ seq T1 s s')
  \/ exists b s', In (b, s') T /\ seq T1 s s' /\ find_equal fuel t p = Some (b - 1).
Proof.
  intros L C I. induction fuel as [|fuel IH]; intros T p Lp Inc F; (destruct T as [|[n0 s0] T];
    [cbn in Lp; subst p; left; split; [reflexivity|contradiction]|]).
  { cbn in F. lia. }
  pose proof Lp as Lp'. cbn [laid] in Lp. destruct Lp as (-> & P & A & B & W & Lp). cbn [find_equal].
  replace (p =? 0) with false by lia. unfold bind.
  destruct (equal_spec t st T1 (length (ty_cells t)) (ty_start t + 1) (p + 1) s s0 L C I) as (r & E & Q).
  { apply Inc. left. auto. }
  { rewrite zlen_length. destruct (laid_in _ _ _ _ _ L I) as (A' & _). apply at_len in A'. pose proof (enc_pos s). lia. }
  rewrite E. destruct r.
  - right. exists (p + 1), s0. split; [left; auto|]. split; [apply Q; auto|]. f_equal. lia.
  - destruct (IH T (type_get t p)) as [(E' & N)|(b & s' & Ib & Sb & E')]; auto.
    + intros e Ie. apply Inc. right. auto.
    + cbn in F. lia.
    + left. split; auto. intros b s' [X|Ib] Sb; [|eapply N; eauto]. injection X as <- <-. apply Q in Sb. discriminate.
    + right. exists b, s'. split; [right; auto|]. auto.
Qed.

(** A new record that is not an enumeration. *)
Definition is_enm (s : shape) : bool := match s with SEnm _ _ _ => true | _ => false end.

Lemma laid_new c st T s : laid c st T -> 0 < zlen c -> st < zlen c -> wf T s ->
  laid ((c ++ [st]) ++ enc s) (zlen c) ((zlen c + 1, s) :: T).
Proof.
  intros L C S W. cbn [laid]. split; auto. split; auto. split; [|split; [|split; auto]].
  - exists (c ++ [st]), []. rewrite app_nil_r. split; auto. apply zlen_snoc.
  - apply Forall_forall. intros [n s'] I. cbn. destruct (laid_in _ _ _ _ _ L I) as (A & _). apply at_len in A. lia.
  - rewrite lv_get_app1 by (rewrite zlen_snoc; lia). rewrite lv_get_app2 by lia. rewrite Z.sub_diag.
    change (lv_get [st] 0) with st. rewrite <- app_assoc. apply laid_ext. auto.
Qed.

Lemma add_ok t T s : laid (ty_cells t) (ty_start t) T -> lv_get (ty_cells t) 0 = 0 -> 0 < zlen (ty_cells t) ->
  wf T s ->
  let T1 := (zlen (ty_cells t) + 1, s) :: T in
  let t1 := mkTypes ((ty_cells t ++ [ty_start t]) ++ enc s) (zlen (ty_cells t)) in
  laid (ty_cells t1) (ty_start t1) T1 /\ lv_get (ty_cells t1) 0 = 0 /\
  ((type_add t (enc s) = Some (zlen (ty_cells t) + 1, t1) /\ forall b s', In (b, s') T -> ~ seq T1 s s')
  \/ exists b s', In (b, s') T /\ seq T1 s s' /\ type_add t (enc s) = Some (b, t)).
Proof.
  intros L C Z0 W T1 t1.
  assert (S : ty_start t < zlen (ty_cells t)).
  { destruct T as [|e T]; [cbn in L; lia|]. apply laid_start in L; [lia|congruence]. }
  assert (L1 : laid (ty_cells t1) (ty_start t1) T1) by (apply laid_new; auto).
  assert (C1 : lv_get (ty_cells t1) 0 = 0) by (cbn [t1 ty_cells]; rewrite <- app_assoc, lv_get_app1; auto).
  split; auto. split; auto.
  assert (G : type_get t1 (zlen (ty_cells t)) = ty_start t).
  { unfold type_get. cbn [t1 ty_cells]. rewrite lv_get_app1 by (rewrite zlen_snoc; lia). rewrite lv_get_app2, Z.sub_diag by lia. reflexivity. }
  unfold type_add. cbv zeta. unfold lv_add. fold t1. rewrite G. unfold bind.
  destruct (find_ok t1 T1 (ty_start t1) s (length (ty_cells t1)) L1 C1 ltac:(left; auto) T (ty_start t)) as [(E & N)|(b & s' & Ib & Sb & E)].
  - cbn [t1 ty_cells]. rewrite <- app_assoc. apply laid_ext. auto.
  - intros e I. right. auto.
  - pose proof (laid_count _ _ _ L). cbn [t1 ty_cells]. rewrite !app_length. pose proof (zlen_length T). pose proof (zlen_length (ty_cells t)). lia.
  - left. rewrite E. cbn [Z.eqb]. split; auto.
  - right. exists b, s'. split; auto. split; auto. rewrite E.
    destruct (laid_in _ _ _ _ _ L Ib) as (_ & R & _). replace (b - 1 =? 0) with false by lia.
    cbn [t1 ty_cells]. rewrite <- app_assoc, resize_back. f_equal. f_equal; [lia|]. destruct t; auto.
Qed.

(** A new enumeration. *)
Lemma quot2_small v : is_int64 v -> Z.quot v 2 <> ITEM_MAX.
Proof. unfold is_int64, ITEM_MAX, LLONG_MIN, LLONG_MAX, two63. intros. pose proof (Z.quot_rem' v 2). 
  pose proof (Z.rem_bound_abs v 2). lia. Qed.

Lemma enum_new t T v rest k : laid (ty_cells t) (ty_start t) T -> lv_get (ty_cells t) 0 = 0 -> 0 < zlen (ty_cells t) ->
  is_int64 v ->
  let c := ty_cells t in
  let T1 := (zlen c + 1, SEnm k v rest) :: T in
  let t1 := mkTypes ((c ++ [ty_start t]) ++ enc (SEnm k v rest)) (zlen c) in
  laid (ty_cells t1) (ty_start t1) T1 /\ lv_get (ty_cells t1) 0 = 0 /\
  exists t', type_add t [TYPE_ENUM] = Some (zlen c + 1, t')
    /\ type_enum_add_fields t' (Z.quot v 2 :: rest) = Some (zlen c + 1, t1).
Proof.
  intros L C Z0 V c T1 t1.
  assert (S : ty_start t < zlen c).
  { destruct T as [|e T]; [cbn in L; unfold c; lia|]. apply laid_start in L; [unfold c; lia|congruence]. }
  assert (L1 : laid (ty_cells t1) (ty_start t1) T1) by (apply laid_new; auto; split; [constructor|auto]).
  assert (C1 : lv_get (ty_cells t1) 0 = 0) by (cbn [t1 ty_cells]; rewrite <- app_assoc, lv_get_app1; auto).
  split; auto. split; auto.
  set (t' := mkTypes ((c ++ [ty_start t]) ++ [TYPE_ENUM]) (zlen c)).
  assert (LT : zlen (ty_cells t') = zlen c + 2) by (cbn [t' ty_cells]; rewrite !zlen_snoc; lia).
  assert (H1 : lv_get (ty_cells t') (zlen c + 1) = TYPE_ENUM).
  { cbn [t' ty_cells]. rewrite lv_get_app2 by (rewrite zlen_snoc; lia). rewrite zlen_snoc. replace (zlen c + 1 - (zlen c + 1)) with 0 by lia. reflexivity. }
  assert (H2 : lv_get (ty_cells t') (zlen c + 2) = ITEM_MAX) by (apply lv_get_out; lia).
  exists t'. split.
  - unfold type_add. cbv zeta. unfold lv_add. fold c. fold t'.
    assert (G : type_get t' (zlen c) = ty_start t).
    { unfold type_get. cbn [t' ty_cells]. rewrite lv_get_app1 by (rewrite zlen_snoc; lia). rewrite lv_get_app2, Z.sub_diag by lia. reflexivity. }
    rewrite G.
    assert (F : forall fuel T0 p, laid (ty_cells t') p T0 -> incl T0 T -> (length T0 <= fuel)%nat -> find_equal fuel t' p = Some 0).
    { induction fuel as [|fuel IH]; intros T0 p Lp Inc F; (destruct T0 as [|[n0 s0] T0];
        [cbn in Lp; subst p; reflexivity|]); [cbn in F; lia|].
      pose proof Lp as Lp'. cbn [laid] in Lp. destruct Lp as (-> & P & A & B & W & Lp). cbn [find_equal].
      replace (p =? 0) with false by lia. unfold bind.
      assert (E : type_is_equal (length (ty_cells t')) t' (ty_start t' + 1) (p + 1) = Some false).
      { change (ty_start t') with (zlen c).
        assert (TG : type_get t' (p + 1) = tag s0) by (eapply shape_tag; [exact Lp'|left; auto]).
        assert (Q : forall f, type_is_equal f t' (zlen c + 1) (p + 1) = Some false).
        { intros f. destruct (tag s0 =? TYPE_ENUM) eqn:X.
          2:{ destruct f; cbn [type_is_equal]; unfold type_get at 1; rewrite H1, TG, Z.eqb_sym, X; reflexivity. }
          destruct s0; try discriminate X. destruct W as [_ W].
          assert (X' : fields_equal t' (zlen c + 1 + 1) (p + 1 + 1) 1 = false).
          { cbn [fields_equal]. unfold type_get. replace (zlen c + 1 + 1) with (zlen c + 2) by lia. rewrite H2.
            rewrite (shape_get1 _ _ _ _ _ Lp' ltac:(left; auto)). cbn [enc]. rewrite get_1.
            pose proof (quot2_small _ W). replace (ITEM_MAX =? Z.quot v0 2) with false by lia. reflexivity. }
          destruct f; cbn [type_is_equal]; unfold type_get at 1 2 3 4; fold (type_get t' (p + 1));
            rewrite H1, TG; cbn [tag]; change (negb (TYPE_ENUM =? TYPE_ENUM)) with false; change (TYPE_ENUM =? TYPE_CONST) with false;
            cbv iota; change ((TYPE_ENUM =? TYPE_STRUCTURE)) with false; unfold type_get at 1; rewrite H1;
            change ((TYPE_ENUM =? TYPE_FUNCTION)) with false; cbn [orb]; change (Z.to_nat 1) with 1%nat; rewrite X'; reflexivity. }
        apply Q. }
      rewrite E. apply (IH T0); auto; [intros e Ie; apply Inc; right; auto|cbn in F; lia]. }
    rewrite (F _ T); [reflexivity| | |].
    + cbn [t' ty_cells]. rewrite <- app_assoc. apply laid_ext. auto.
    + intros e I. auto.
    + pose proof (laid_count _ _ _ L). pose proof (zlen_length T). pose proof (zlen_length (ty_cells t')). lia.
  - unfold type_enum_add_fields, type_is_enum, is_class, unqualified, bind. rewrite LT.
    replace (zlen c + 2 - 1) with (zlen c + 1) by lia.
    assert (NC : type_is_const t' (zlen c + 1) = false) by (unfold type_is_const, type_get; rewrite H1; apply andb_false_r).
    destruct (length (ty_cells t')); cbn [strip]; rewrite NC; unfold type_get; rewrite H1;
      replace (zlen c + 1 >? 0) with true by (unfold c; lia); cbn [andb];
      change (TYPE_ENUM =? TYPE_ENUM) with true; cbv iota; unfold t1, t'; cbn [ty_cells ty_start enc];
      rewrite <- app_assoc; reflexivity.
Qed.

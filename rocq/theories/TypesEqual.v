(** The comparison of two records of the type table. *)
From Verif Require Import Prelude LVec TypesModel TypesSpec TypesProofs.

(** When two records count as one type. *)
Inductive seq (T : list (Z * shape)) : shape -> shape -> Prop :=
| q_ptr m : seq T (SPtr m) (SPtr m)
| q_arr m : seq T (SArr m) (SArr m)
| q_str sz ms : seq T (SStr sz ms) (SStr sz ms)
| q_fun r ps : seq T (SFun r ps) (SFun r ps)
| q_enm k v r k' v' r' : Z.quot v 2 = Z.quot v' 2 -> seq T (SEnm k v r) (SEnm k' v' r')
| q_num m m' : simple_code m -> simple_code m' -> (m = 0 <-> m' = 0) -> (m = -1 <-> m' = -1) -> seq T (SCst m) (SCst m')
| q_cst m m' s s' : In (m, s) T -> In (m', s') T -> seq T s s' -> seq T (SCst m) (SCst m').

Lemma seq_mono T T1 s s' : incl T T1 -> seq T s s' -> seq T1 s s'.
Proof. intros I H. induction H; try (constructor; auto; fail). eapply q_cst; eauto. Qed.

Lemma seq_refl c start T : laid c start T -> forall n s, In (n, s) T -> seq T s s.
Proof.
  intros L. assert (K : forall k n s, Z.of_nat k >= n -> In (n, s) T -> seq T s s).
  { induction k as [|k IH]; intros n s B I; destruct (laid_in _ _ _ _ _ L I) as (_ & R & P & _); [lia|].
    destruct s; try (constructor; auto; fail). cbn [parts] in P. inversion P as [|? ? [[V|[s V]] P2] _]; subst.
    - apply q_num; auto; lia.
    - eapply q_cst; eauto. eapply (IH m); eauto. lia. }
  intros n s I. eapply (K (Z.to_nat n)); eauto. lia.
Qed.

(** It depends on older records only. *)
Lemma seq_strengthen c start T T1 s s' : laid c start T1 -> incl T T1 ->
  seq T1 s s' -> forall n n', In (n, s) T -> In (n', s') T ->
  (forall n s, In (n, s) T -> Forall (valid T) (parts s)) -> seq T s s'.
Proof.
  intros L I H. induction H; intros n n' N N' W; try (constructor; auto; fail).
  pose proof (W _ _ N) as P. cbn in P. inversion P as [|? ? [V|[s0 V]] _]; subst.
  { destruct (laid_in _ _ _ _ _ L H) as (_ & R & _). unfold simple_code in V. lia. }
  pose proof (laid_key _ _ _ _ _ _ L H (I _ V)) as <-.
  pose proof (W _ _ N') as P'. cbn in P'. inversion P' as [|? ? [V'|[s0' V']] _]; subst.
  { destruct (laid_in _ _ _ _ _ L H0) as (_ & R & _). unfold simple_code in V'. lia. }
  pose proof (laid_key _ _ _ _ _ _ L H0 (I _ V')) as <-.
  eapply q_cst; eauto.
Qed.

Lemma fields_equal_spec t a b n :
  fields_equal t a b n = true <-> forall i, 0 <= i < Z.of_nat n -> type_get t (a + i) = type_get t (b + i).
Proof.
  revert a b. induction n as [|n IH]; intros a b; cbn [fields_equal].
  - split; auto. intros. lia.
  - rewrite andb_true_iff, IH, Z.eqb_eq. split.
    + intros [H K] i B. destruct (Z.eq_dec i 0) as [->|]; [rewrite !Z.add_0_r; auto|].
      specialize (K (i - 1) ltac:(lia)). replace (a + i) with (a + 1 + (i - 1)) by lia.
      replace (b + i) with (b + 1 + (i - 1)) by lia. auto.
    + intros H. split; [specialize (H 0 ltac:(lia)); rewrite !Z.add_0_r in H; auto|]. intros i B.
      specialize (H (i + 1) ltac:(lia)). replace (a + 1 + i) with (a + (i + 1)) by lia.
      replace (b + 1 + i) with (b + (i + 1)) by lia. auto.
Qed.

Lemma lists_by_get (l l' : list Z) : zlen l = zlen l' ->
  (forall i, 0 <= i < zlen l -> lv_get l i = lv_get l' i) -> l = l'.
Proof.
  revert l'. induction l as [|x l IH]; intros [|y l'] E H; auto.
  - rewrite zlen_cons in E. change (zlen []) with 0 in E. pose proof (zlen_nonneg l'). lia.
  - rewrite zlen_cons in E. change (zlen []) with 0 in E. pose proof (zlen_nonneg l). lia.
  - rewrite !zlen_cons in *. pose proof (zlen_nonneg l). f_equal.
    + specialize (H 0 ltac:(lia)). cbn in H. auto.
    + apply IH; [lia|]. intros i B. specialize (H (i + 1) ltac:(lia)).
      change (x :: l) with ([x] ++ l) in H. change (y :: l') with ([y] ++ l') in H.
      rewrite !lv_get_app2 in H by (rewrite zlen_cons, zlen_nil; lia).
      rewrite !zlen_cons, !zlen_nil in H. replace (i + 1 - (1 + 0)) with i in H by lia. auto.
Qed.

(** Reading a record. *)
Lemma rec_get c start T n s i : laid c start T -> In (n, s) T -> 0 <= i < zlen (enc s) ->
  lv_get c (n + i) = lv_get (enc s) i.
Proof. intros L I B. destruct (laid_in _ _ _ _ _ L I) as (A & _). apply at_get; auto. Qed.

Lemma get_cons x (l : list Z) i : 0 < i -> lv_get (x :: l) i = lv_get l (i - 1).
Proof.
  intros. change (x :: l) with ([x] ++ l). rewrite lv_get_app2 by (rewrite zlen_cons, zlen_nil; lia).
  reflexivity.
Qed.

Lemma get_head x (l : list Z) : lv_get (x :: l) 0 = x.
Proof.
  change (x :: l) with ([x] ++ l). rewrite lv_get_app1; [reflexivity|]. rewrite zlen_cons. pose proof (zlen_nonneg (@nil Z)). lia.
Qed.
Lemma get_1 x y (l : list Z) : lv_get (x :: y :: l) 1 = y.
Proof. rewrite get_cons by lia. apply get_head. Qed.
Lemma get_2 x y z (l : list Z) : lv_get (x :: y :: z :: l) 2 = z.
Proof. rewrite get_cons by lia. apply get_1. Qed.

(** Two records of the same tag whose cells are compared. *)
Lemma cells_equal t start T a b s s' n : laid (ty_cells t) start T -> In (a, s) T -> In (b, s') T ->
  zlen (enc s) = n + 1 -> zlen (enc s') = n + 1 -> tag s = tag s' ->
  (fields_equal t (a + 1) (b + 1) (Z.to_nat n) = true <-> enc s = enc s').
Proof.
  intros L I I' N N' G. rewrite fields_equal_spec. split.
  - intros H. apply lists_by_get; [lia|]. intros i B.
    rewrite <- (rec_get _ _ _ _ _ i L I), <- (rec_get _ _ _ _ _ i L I') by lia.
    destruct (Z.eq_dec i 0) as [->|].
    + rewrite !Z.add_0_r, (shape_tag _ _ _ _ _ L I), (shape_tag _ _ _ _ _ L I'); auto.
    + specialize (H (i - 1) ltac:(lia)). unfold type_get in H. replace (a + 1 + (i - 1)) with (a + i) in H by lia.
      replace (b + 1 + (i - 1)) with (b + i) in H by lia. auto.
  - intros E i B. unfold type_get. replace (a + 1 + i) with (a + (i + 1)) by lia.
    replace (b + 1 + i) with (b + (i + 1)) by lia.
    pose proof (enc_pos s). rewrite (rec_get _ _ _ _ _ _ L I), (rec_get _ _ _ _ _ _ L I') by lia. rewrite E. auto.
Qed.

Lemma tags_seq T s s' : seq T s s' -> tag s = tag s'.
Proof. destruct 1; auto. Qed.

Lemma simple_cell c m : lv_get c 0 = 0 -> simple_code m -> lv_get c m = if m =? 0 then 0 else ITEM_MAX.
Proof.
  intros C M. unfold simple_code in M. destruct (m =? 0) eqn:E; [replace m with 0 by lia; auto|]. apply lv_get_out. lia.
Qed.

Definition num_eq (m m' : Z) : bool := eqb (m =? 0) (m' =? 0) && eqb (m =? -1) (m' =? -1).
Lemma equal_simple t fuel m m' : lv_get (ty_cells t) 0 = 0 -> simple_code m -> simple_code m' ->
  type_is_equal fuel t m m' = Some (num_eq m m').
Proof.
  intros C M M'. assert (Q : type_is_equal fuel t m m' =
    if negb (type_get t m =? type_get t m') then Some false else Some (fields_equal t (m + 1) (m' + 1) 1)).
  { assert (type_get t m =? TYPE_CONST = false /\ type_get t m =? TYPE_STRUCTURE = false /\ type_get t m =? TYPE_FUNCTION = false) as (A & B & D).
    { unfold type_get. rewrite (simple_cell _ _ C M). destruct (m =? 0); auto. }
    destruct fuel; cbn [type_is_equal]; rewrite A, B, D; reflexivity. }
  rewrite Q. unfold fields_equal, type_get. rewrite (simple_cell _ _ C M), (simple_cell _ _ C M').
  unfold num_eq. unfold simple_code in *. 
  destruct (m =? 0) eqn:E, (m' =? 0) eqn:E'; cbn [negb eqb andb]; auto.
  - replace m with 0 by lia. replace m' with 0 by lia. rewrite !Z.eqb_refl. reflexivity.
  - rewrite Z.eqb_refl. cbn [negb]. rewrite andb_true_r. f_equal.
    destruct (m =? -1) eqn:F, (m' =? -1) eqn:F'; cbn [eqb].
    + replace m with (-1) by lia. replace m' with (-1) by lia. apply Z.eqb_refl.
    + replace (m + 1) with 0 by lia. rewrite C, lv_get_out by lia. reflexivity.
    + replace (m' + 1) with 0 by lia. rewrite C, lv_get_out by lia. reflexivity.
    + rewrite !lv_get_out by lia. apply Z.eqb_refl.
Qed.
Lemma num_eq_spec m m' : num_eq m m' = true <-> (m = 0 <-> m' = 0) /\ (m = -1 <-> m' = -1).
Proof. unfold num_eq. rewrite andb_true_iff, !eqb_true_iff. lia. Qed.

Lemma tag_not_simple c m s : lv_get c 0 = 0 -> simple_code m -> lv_get c m =? tag s = false.
Proof. intros C M. rewrite (simple_cell _ _ C M). destruct (m =? 0), s; reflexivity. Qed.

Lemma equal_spec t start T fuel a b s s' : laid (ty_cells t) start T -> lv_get (ty_cells t) 0 = 0 ->
  In (a, s) T -> In (b, s') T -> a <= Z.of_nat fuel ->
  exists r, type_is_equal fuel t a b = Some r /\ (r = true <-> seq T s s').
Proof.
  intros L C. revert a b s s'. induction fuel as [|fuel IH]; intros a b s s' I I' F.
  { destruct (laid_in _ _ _ _ _ L I) as (_ & R & _). lia. }
  assert (TG : type_get t a = tag s) by (apply (shape_tag _ _ _ _ _ L I)).
  assert (TG' : type_get t b = tag s') by (apply (shape_tag _ _ _ _ _ L I')).
  cbn [type_is_equal]. rewrite TG, TG'.
  destruct (tag s =? tag s') eqn:G; cbn [negb].
  2:{ exists false. split; auto. split; [discriminate|]. intros Q. apply tags_seq in Q. lia. }
  destruct (laid_in _ _ _ _ _ L I) as (_ & R & P & _). destruct (laid_in _ _ _ _ _ L I') as (_ & R' & P' & _).
  assert (W1 : forall n, zlen (enc s) = n + 1 -> zlen (enc s') = n + 1 ->
    fields_equal t (a + 1) (b + 1) (Z.to_nat n) = true <-> enc s = enc s').
  { intros n N N'. eapply cells_equal; eauto. lia. }
  assert (G' : tag s = tag s') by lia.
  destruct s; destruct s'; try discriminate G'; cbn [tag]; clear G G'.
  - (* pointer *) change (TYPE_POINTER =? TYPE_CONST) with false. change (TYPE_POINTER =? TYPE_STRUCTURE) with false. change (TYPE_POINTER =? TYPE_FUNCTION) with false. cbn [orb]. eexists. split; [reflexivity|]. rewrite (W1 1) by reflexivity. cbn.
    split; [intros E; injection E as ->; constructor|intros Q; inversion Q; auto].
  - change (TYPE_ARRAY =? TYPE_CONST) with false. change (TYPE_ARRAY =? TYPE_STRUCTURE) with false. change (TYPE_ARRAY =? TYPE_FUNCTION) with false. cbn [orb]. eexists. split; [reflexivity|]. rewrite (W1 1) by reflexivity. cbn.
    split; [intros E; injection E as ->; constructor|intros Q; inversion Q; auto].
  - (* constant *) change (TYPE_CONST =? TYPE_CONST) with true. cbv iota.
    rewrite (const_get _ _ _ _ _ L I), (const_get _ _ _ _ _ L I').
    cbn [parts] in P, P'. inversion P as [|? ? [V Vm] _]; inversion P' as [|? ? [V' Vm'] _]; subst.
    destruct V as [V|[s V]], V' as [V'|[s' V']].
    + rewrite equal_simple by auto. eexists. split; [reflexivity|]. rewrite num_eq_spec. split.
      * intros [A B]. apply q_num; auto.
      * intros Q. inversion Q; subst; auto. destruct (laid_in _ _ _ _ _ L H1) as (_ & R1 & _). unfold simple_code in V. lia.
    + exists false. split.
      * assert (X : type_get t m =? type_get t m0 = false)
          by (unfold type_get; rewrite (shape_tag _ _ _ _ _ L V'); apply tag_not_simple; auto).
        destruct fuel; cbn [type_is_equal]; rewrite X; reflexivity.
      * split; [discriminate|]. intros Q. inversion Q; subst.
        -- destruct (laid_in _ _ _ _ _ L V') as (_ & R1 & _). unfold simple_code in H2. lia.
        -- destruct (laid_in _ _ _ _ _ L H1) as (_ & R1 & _). unfold simple_code in V. lia.
    + exists false. split.
      * assert (X : type_get t m =? type_get t m0 = false)
          by (unfold type_get; rewrite (shape_tag _ _ _ _ _ L V); rewrite Z.eqb_sym; apply tag_not_simple; auto).
        destruct fuel; cbn [type_is_equal]; rewrite X; reflexivity.
      * split; [discriminate|]. intros Q. inversion Q; subst.
        -- destruct (laid_in _ _ _ _ _ L V) as (_ & R1 & _). unfold simple_code in H1. lia.
        -- destruct (laid_in _ _ _ _ _ L H2) as (_ & R1 & _). unfold simple_code in V'. lia.
    + destruct (IH m m0 s s' V V' ltac:(lia)) as (r & E & Q). exists r. split; auto. rewrite Q. split.
      * intros; eapply q_cst; eauto.
      * intros Q'. inversion Q'; subst.
        -- destruct (laid_in _ _ _ _ _ L V) as (_ & R1 & _). unfold simple_code in H1. lia.
        -- rewrite (laid_key _ _ _ _ _ _ L V H1), (laid_key _ _ _ _ _ _ L V' H2). auto.
  - (* structure *) change (TYPE_STRUCTURE =? TYPE_CONST) with false. change (TYPE_STRUCTURE =? TYPE_STRUCTURE) with true. change (TYPE_STRUCTURE =? TYPE_FUNCTION) with false. cbn [orb]. eexists. split; [reflexivity|].
    unfold type_get. rewrite (rec_get _ _ _ _ _ 2 L I) by (cbn [enc]; rewrite !zlen_cons; pose proof (zlen_nonneg (flat ms)); lia).
    cbn [enc]. rewrite get_2.
    destruct (Z.eq_dec (zlen ms) (zlen ms0)) as [N|N].
    + rewrite (W1 (2 + zlen ms * 2)) by (cbn [enc]; rewrite !zlen_cons, zlen_flat; lia). cbn [enc]. split.
      * intros E. injection E as -> _ E. apply flat_inj in E as ->. constructor.
      * intros Q. inversion Q; subst. auto.
    + split; [|intros Q; inversion Q; subst; congruence]. intros E. exfalso. rewrite fields_equal_spec in E. specialize (E 1).
      pose proof (zlen_nonneg ms). specialize (E ltac:(lia)). unfold type_get in E.
      replace (a + 1 + 1) with (a + 2) in E by lia. replace (b + 1 + 1) with (b + 2) in E by lia.
      rewrite (rec_get _ _ _ _ _ 2 L I), (rec_get _ _ _ _ _ 2 L I') in E
        by (cbn [enc]; rewrite !zlen_cons, zlen_flat; pose proof (zlen_nonneg ms0); lia).
      cbn [enc] in E. rewrite !get_2 in E. lia.
  - (* function *) change (TYPE_FUNCTION =? TYPE_CONST) with false. change (TYPE_FUNCTION =? TYPE_STRUCTURE) with false. change (TYPE_FUNCTION =? TYPE_FUNCTION) with true. cbn [orb]. eexists. split; [reflexivity|].
    unfold type_get. rewrite (rec_get _ _ _ _ _ 2 L I) by (cbn [enc]; rewrite !zlen_cons; pose proof (zlen_nonneg ps); lia).
    cbn [enc]. rewrite get_2.
    destruct (Z.eq_dec (zlen ps) (zlen ps0)) as [N|N].
    + rewrite (W1 (2 + zlen ps)) by (cbn [enc]; rewrite !zlen_cons; lia). cbn [enc]. split.
      * intros E. injection E as -> _ ->. constructor.
      * intros Q. inversion Q; subst. auto.
    + split; [|intros Q; inversion Q; subst; congruence]. intros E. exfalso. rewrite fields_equal_spec in E. specialize (E 1).
      pose proof (zlen_nonneg ps). specialize (E ltac:(lia)). unfold type_get in E.
      replace (a + 1 + 1) with (a + 2) in E by lia. replace (b + 1 + 1) with (b + 2) in E by lia.
      rewrite (rec_get _ _ _ _ _ 2 L I), (rec_get _ _ _ _ _ 2 L I') in E
        by (cbn [enc]; rewrite !zlen_cons; pose proof (zlen_nonneg ps0); lia).
      cbn [enc] in E. rewrite !get_2 in E. lia.
  - (* enumeration *) change (TYPE_ENUM =? TYPE_CONST) with false. change (TYPE_ENUM =? TYPE_STRUCTURE) with false. change (TYPE_ENUM =? TYPE_FUNCTION) with false. cbn [orb]. eexists. split; [reflexivity|].
    change (Z.to_nat 1) with 1%nat. cbn [fields_equal]. unfold type_get.
    rewrite (shape_get1 _ _ _ _ _ L I), (shape_get1 _ _ _ _ _ L I').
    cbn [enc]. rewrite !get_1.
    rewrite andb_true_r, Z.eqb_eq. split; [intros; constructor; auto|intros Q; inversion Q; auto].
Qed.

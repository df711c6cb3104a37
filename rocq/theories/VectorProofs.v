From Verif Require Import Prelude VectorModel VectorSpec VectorRun.

Definition vinv (v : vector) (l : list Z) : Prop :=
  exists a, v_array v = Some a /\ zlen a = v_alloc v /\ 0 < v_alloc v < 2 * two60
    /\ v_size v = zlen l /\ v_size v <= v_alloc v /\ firstn (Z.to_nat (v_size v)) a = l.

Lemma cells_small n : 0 <= n < 2 * two60 -> cells n = n.
Proof. unfold cells, u64, two60, two64. intros. rewrite Z.mod_small by lia. lia. Qed.

Lemma zlen_junk e n : 0 <= n -> zlen (junk_list e n) = n.
Proof. intros. unfold junk_list. rewrite zlen_map. Transparent zlen. unfold zlen. rewrite seq_length. lia. Opaque zlen. Qed.

Lemma u64s x : 0 <= x < two64 -> u64 x = x.
Proof. intros. apply u64_id. unfold is_size, SIZE_MAX. lia. Qed.

Lemma change_size_ok e v l size a :
  vinv v l -> v_array v = Some a -> 0 <= size < two60 ->
  exists st v', change_size e v a size = Some (st, v') /\
   ((st = 0 /\ vinv v' (resized l size)) \/ (mem_ok e = false /\ v_alloc v < size /\ st = -1 /\ v' = v)).
Proof.
  intros (a' & Ha & HL & Hal & Hs & Hle & Hf) Ha2 Hsz. rewrite Ha in Ha2. inversion Ha2; subst a'. clear Ha2.
  unfold change_size.
  destruct (v_alloc v <? size) eqn:G.
  - destruct (mem_ok e) eqn:M; cbn [andb negb].
    2:{ do 2 eexists; split; [reflexivity|]. right. repeat split; auto. lia. }
    set (al := if u64 (2 * v_alloc v) <? size then size else u64 (2 * v_alloc v)).
    assert (U: u64 (2 * v_alloc v) = 2 * v_alloc v).
    { apply u64s. unfold two60, two64 in *. lia. }
    assert (Hal2: size <= al /\ 0 < al < 2 * two60 /\ v_alloc v < al).
    { unfold al. rewrite U. unfold two60 in *. destruct (2 * v_alloc v <? size) eqn:E; lia. }
    rewrite cells_small by lia. unfold realloc. rewrite HL.
    destruct (al <=? v_alloc v) eqn:E; [lia|].
    pose proof (zlen_junk e (al - v_alloc v) ltac:(lia)) as HJ.
    set (J := junk_list e (al - v_alloc v)) in *.
    pose proof (zlen_nonneg l).
    destruct (v_size v <? size) eqn:E2; [|lia].
    unfold memset0. rewrite zlen_app.
    destruct ((0 <=? v_size v) && (v_size v + (size - v_size v) <=? zlen a + zlen J)) eqn:E3; [|lia].
    cbn [bind]. do 2 eexists; split; [reflexivity|]. left. split; [reflexivity|].
    unfold vinv. cbn [v_array v_alloc v_size].
    eexists. split; [reflexivity|]. unfold resized.
    assert (LEN: zlen (firstn (Z.to_nat (v_size v)) (a ++ J) ++
       repeat 0 (Z.to_nat (size - v_size v)) ++ skipn (Z.to_nat (v_size v + (size - v_size v))) (a ++ J)) = al).
    { rewrite !zlen_app, zlen_firstn, zlen_skipn, zlen_repeat, zlen_app. lia. }
    repeat split; try lia.
    + rewrite zlen_app, zlen_firstn, zlen_repeat. lia.
    + apply zlist_ext.
      * rewrite zlen_firstn, LEN, zlen_app, zlen_firstn, zlen_repeat. lia.
      * intros i Hi. rewrite zlen_firstn, LEN in Hi. rewrite firstn_znth by lia.
        destruct (Z.lt_ge_cases i (v_size v)).
        -- rewrite znth_app1 by (rewrite zlen_firstn, zlen_app; lia).
           rewrite firstn_znth by lia. rewrite znth_app1 by lia.
           rewrite znth_app1 by (rewrite zlen_firstn; lia).
           rewrite firstn_znth by lia. rewrite <- Hf. rewrite firstn_znth by lia. reflexivity.
        -- assert (Q: zlen (firstn (Z.to_nat (v_size v)) (a ++ J)) = v_size v) by (rewrite zlen_firstn, zlen_app; lia).
           rewrite znth_app2 by lia. rewrite Q.
           rewrite znth_app1 by (rewrite zlen_repeat; lia).
           assert (Q2: zlen (firstn (Z.to_nat size) l) = zlen l) by (rewrite zlen_firstn; lia).
           rewrite znth_app2 by lia. rewrite Q2.
           rewrite !znth_repeat by lia. reflexivity.
  - cbn [andb]. pose proof (zlen_nonneg l).
    destruct (v_size v <? size) eqn:E2.
    + unfold memset0. destruct ((0 <=? v_size v) && (v_size v + (size - v_size v) <=? zlen a)) eqn:E3; [|lia].
      cbn [bind]. do 2 eexists; split; [reflexivity|]. left. split; [reflexivity|].
      unfold vinv. cbn [v_array v_alloc v_size]. eexists. split; [reflexivity|]. unfold resized.
      assert (LEN: zlen (firstn (Z.to_nat (v_size v)) a ++
       repeat 0 (Z.to_nat (size - v_size v)) ++ skipn (Z.to_nat (v_size v + (size - v_size v))) a) = v_alloc v).
      { rewrite !zlen_app, zlen_firstn, zlen_skipn, zlen_repeat. lia. }
      repeat split; try lia.
      * rewrite zlen_app, zlen_firstn, zlen_repeat. lia.
      * apply zlist_ext.
        -- rewrite zlen_firstn, LEN, zlen_app, zlen_firstn, zlen_repeat. lia.
        -- intros i Hi. rewrite zlen_firstn, LEN in Hi. rewrite firstn_znth by lia.
           destruct (Z.lt_ge_cases i (v_size v)).
           ++ rewrite znth_app1 by (rewrite zlen_firstn; lia).
              rewrite firstn_znth by lia.
              rewrite znth_app1 by (rewrite zlen_firstn; lia).
              rewrite firstn_znth by lia. rewrite <- Hf. rewrite firstn_znth by lia. reflexivity.
           ++ assert (Q: zlen (firstn (Z.to_nat (v_size v)) a) = v_size v) by (rewrite zlen_firstn; lia).
              rewrite znth_app2 by lia. rewrite Q.
              rewrite znth_app1 by (rewrite zlen_repeat; lia).
              assert (Q2: zlen (firstn (Z.to_nat size) l) = zlen l) by (rewrite zlen_firstn; lia).
              rewrite znth_app2 by lia. rewrite Q2.
              rewrite !znth_repeat by lia. reflexivity.
    + cbn [bind]. do 2 eexists; split; [reflexivity|]. left. split; [reflexivity|].
      unfold vinv. cbn [v_array v_alloc v_size]. eexists. split; [reflexivity|]. unfold resized.
      replace (Z.to_nat (size - zlen l)) with O by lia. cbn [repeat]. rewrite app_nil_r.
      repeat split; try lia.
      * rewrite zlen_firstn. lia.
      * rewrite <- Hf. rewrite firstn_firstn. f_equal. lia.
Qed.

Lemma resized_succ l x : zupd (resized l (zlen l + 1)) (zlen l) x = l ++ [x].
Proof.
  unfold resized. replace (Z.to_nat (zlen l + 1 - zlen l)) with 1%nat by lia.
  rewrite firstn_all2.
  2:{ Transparent zlen. unfold zlen. lia. Opaque zlen. }
  rewrite zupd_app2 by lia. replace (zlen l - zlen l) with 0 by lia. reflexivity.
Qed.

Lemma firstn_zupd {A} (a : list A) n i x : 0 <= i < Z.of_nat n -> Z.of_nat n <= zlen a ->
  firstn n (zupd a i x) = zupd (firstn n a) i x.
Proof.
  intros. apply zlist_ext.
  - rewrite zlen_zupd, !zlen_firstn, zlen_zupd. auto.
  - intros j Hj. rewrite zlen_firstn, zlen_zupd in Hj. rewrite firstn_znth by lia.
    destruct (Z.eq_dec i j) as [->|N].
    + rewrite !znth_zupd_same; auto; rewrite ?zlen_firstn; lia.
    + rewrite !znth_zupd_other by auto. rewrite firstn_znth by lia. auto.
Qed.

Lemma store_ok a i x : 0 <= i < zlen a -> store a i x = Some (zupd a i x).
Proof. unfold store; intros. destruct ((0 <=? i) && (i <? zlen a)) eqn:E; auto. lia. Qed.

Lemma vinv_set v l a i x : vinv v l -> v_array v = Some a -> 0 <= i < zlen l ->
  vinv (mkVec (Some (zupd a i x)) (v_size v) (v_alloc v)) (zupd l i x).
Proof.
  intros (a' & Ha & HL & Hal & Hs & Hle & Hf) Ha2 Hi. rewrite Ha in Ha2. inversion Ha2; subst a'.
  unfold vinv. cbn [v_array v_alloc v_size]. eexists. split; [reflexivity|].
  rewrite !zlen_zupd. repeat split; try lia.
  rewrite firstn_zupd by lia. congruence.
Qed.

Lemma vinv_get v l a i : vinv v l -> v_array v = Some a -> i < zlen l -> znth a i = znth l i.
Proof.
  intros (a' & Ha & HL & Hal & Hs & Hle & Hf) Ha2 Hi. rewrite Ha in Ha2. inversion Ha2; subst a'.
  rewrite <- Hf. rewrite firstn_znth; auto. rewrite Hs. pose proof (zlen_nonneg l). lia.
Qed.

Lemma last_split {A} (l : list A) : l <> [] -> exists l' x, l = l' ++ [x].
Proof. intros H. destruct (exists_last H) as (l' & x & E). eauto. Qed.

Lemma vinv_pop v l x : vinv v (l ++ [x]) -> vinv (mkVec (v_array v) (v_size v - 1) (v_alloc v)) l.
Proof.
  intros (a & Ha & HL & Hal & Hs & Hle & Hf).
  rewrite zlen_snoc in Hs.
  pose proof (zlen_nonneg l).
  exists a. cbn [v_array v_alloc v_size]. repeat split; auto; try lia.
  assert (firstn (Z.to_nat (v_size v - 1)) (firstn (Z.to_nat (v_size v)) a) = l).
  { rewrite Hf. rewrite firstn_app.
    Transparent zlen. unfold zlen in *. Opaque zlen.
    replace (Z.to_nat (v_size v - 1) - length l)%nat with O by lia.
    cbn. rewrite app_nil_r. apply firstn_all2. lia. }
  rewrite firstn_firstn in H0. etransitivity; [|exact H0]. f_equal. lia.
Qed.

Lemma or_else_None l i d : zlen l <= i -> or_else (znth l i) d = d.
Proof. intros. assert (znth l i = None) as -> by (apply znth_None; lia). auto. Qed.

Lemma vexec_ok e v l op : vinv v l -> vop_ok op -> zlen l + vop_demand op < two60 ->
  exists r v' l', vexec e v op = Some (r, v') /\ vspec (mem_ok e) l op r l' /\ vinv v' l'
     /\ zlen l' <= zlen l + vop_demand op.
Proof.
  intros I OK D. pose proof I as (a & Ha & HL & Hal & Hs & Hle & Hf).
  pose proof (zlen_nonneg l) as NN.
  destruct op; cbn [vexec vop_ok vspec vop_demand] in *.
  - (* add *)
    unfold vector_add. rewrite Ha. rewrite Hs, u64s by (unfold two60, two64 in *; lia).
    destruct (change_size_ok e v l (zlen l + 1) a I Ha ltac:(lia)) as (st & v1 & E & H).
    rewrite E. cbn [bind]. destruct H as [[-> I1]|(M & _ & -> & ->)].
    + cbn [Z.eqb negb]. destruct I1 as (a1 & Ha1 & HL1 & Hal1 & Hs1 & Hle1 & Hf1). rewrite Ha1.
      assert (S1: v_size v1 = zlen l + 1).
      { rewrite Hs1. unfold resized. rewrite zlen_app, zlen_firstn, zlen_repeat. lia. }
      rewrite S1. rewrite u64s by (unfold two60, two64 in *; lia).
      rewrite store_ok by lia. cbn [bind]. replace (zlen l + 1 - 1) with (zlen l) by lia.
      eexists _, _, (l ++ [x]). split; [reflexivity|]. split; [left; auto|]. split.
      * rewrite <- resized_succ. rewrite <- S1.
        apply vinv_set; auto. { unfold vinv. rewrite S1 in *. eauto 10. }
        unfold resized. rewrite zlen_app, zlen_firstn, zlen_repeat. lia.
      * rewrite zlen_snoc. lia.
    + cbn [Z.eqb negb]. eexists _, _, l. split; [reflexivity|]. split; [right; auto|]. split; auto. lia.
  - (* set *)
    unfold vector_set. rewrite Ha. rewrite Hs. unfold is_size in OK.
    destruct (i <? zlen l) eqn:E.
    + destruct (zlen l <=? i) eqn:E2; [lia|]. rewrite store_ok by lia. cbn [bind].
      do 3 eexists; split; [reflexivity|]. split; [auto|]. rewrite <- Hs. split.
      * apply vinv_set; auto. lia.
      * rewrite zlen_zupd. lia.
    + destruct (zlen l <=? i) eqn:E2; [|lia]. do 3 eexists; split; [reflexivity|]. split; [auto|]. split; auto. lia.
  - (* set64 *)
    unfold vector_set_int64. rewrite Ha. rewrite u64s by (unfold SIZE_MAX, two64 in *; lia).
    rewrite Hs. destruct (i <? zlen l) eqn:E.
    + destruct (zlen l <? i + 1) eqn:E2; [lia|]. rewrite store_ok by lia. cbn [bind].
      do 3 eexists; split; [reflexivity|]. split; [auto|]. rewrite <- Hs. split.
      * apply vinv_set; auto. lia.
      * rewrite zlen_zupd. lia.
    + destruct (zlen l <? i + 1) eqn:E2; [|lia]. do 3 eexists; split; [reflexivity|]. split; [auto|]. split; auto. lia.
  - (* get *)
    unfold vector_get. rewrite Ha, Hs. unfold is_size in OK. destruct (zlen l <=? i) eqn:E.
    + cbn [bind]. do 3 eexists; split; [reflexivity|]. rewrite or_else_None by lia. repeat split; auto; lia.
    + unfold load. rewrite (vinv_get v l a i) by (auto; lia).
      destruct (znth_ex l i) as (y & Hy); [lia|]. rewrite Hy. cbn [bind or_else].
      do 3 eexists; split; [reflexivity|]. repeat split; auto; lia.
  - (* get64 *)
    unfold vector_get_int64. rewrite Ha, Hs. rewrite u64s by (unfold SIZE_MAX, two64 in *; lia).
    destruct (zlen l <? i + 1) eqn:E.
    + cbn [bind]. do 3 eexists; split; [reflexivity|]. rewrite or_else_None by lia. repeat split; auto; lia.
    + unfold load. rewrite (vinv_get v l a i) by (auto; lia).
      destruct (znth_ex l i) as (y & Hy); [lia|]. rewrite Hy. cbn [bind or_else].
      do 3 eexists; split; [reflexivity|]. repeat split; auto; lia.
  - (* get double *)
    unfold vector_get_double. rewrite Ha, Hs. rewrite u64s by (unfold SIZE_MAX, two64 in *; lia).
    destruct (zlen l <? i + 1) eqn:E.
    + cbn [bind]. do 3 eexists; split; [reflexivity|]. rewrite or_else_None by lia. repeat split; auto; lia.
    + unfold load. rewrite (vinv_get v l a i) by (auto; lia).
      destruct (znth_ex l i) as (y & Hy); [lia|]. rewrite Hy. cbn [bind or_else].
      do 3 eexists; split; [reflexivity|]. repeat split; auto; lia.
  - (* remove *)
    unfold vector_remove. rewrite Ha, Hs. destruct l as [|h t] eqn:El.
    + rewrite (@zlen_nil Z). cbn [Z.eqb]. do 3 eexists; split; [reflexivity|]. repeat split; auto; lia.
    + destruct (last_split (h :: t)) as (l' & y & E); [discriminate|]. rewrite E in *.
      rewrite zlen_snoc in *. pose proof (zlen_nonneg l').
      destruct (zlen l' + 1 =? 0) eqn:E2; [lia|].
      unfold load.
      assert (G: znth a (zlen l' + 1 - 1) = znth (l' ++ [y]) (zlen l' + 1 - 1)).
      { apply (vinv_get v); [exact I|exact Ha|]. rewrite zlen_snoc; lia. }
      rewrite G.
      rewrite znth_app2 by lia. replace (zlen l' + 1 - 1 - zlen l') with 0 by lia.
      change (znth [y] 0) with (Some y). cbn [bind].
      eexists _, _, l'. split; [reflexivity|]. split; [right; auto|]. split; [|lia].
      rewrite <- Ha. rewrite <- Hs. eapply vinv_pop; eauto.
  - (* remove double *)
    unfold vector_remove_double. rewrite Ha, Hs. destruct l as [|h t] eqn:El.
    + rewrite (@zlen_nil Z). cbn [Z.ltb Z.compare]. do 3 eexists; split; [reflexivity|]. repeat split; auto; lia.
    + destruct (last_split (h :: t)) as (l' & y & E); [discriminate|]. rewrite E in *.
      rewrite zlen_snoc in *. pose proof (zlen_nonneg l').
      destruct (zlen l' + 1 <? 1) eqn:E2; [lia|].
      unfold load.
      assert (G: znth a (zlen l' + 1 - 1) = znth (l' ++ [y]) (zlen l' + 1 - 1)).
      { apply (vinv_get v); [exact I|exact Ha|]. rewrite zlen_snoc; lia. }
      rewrite G.
      rewrite znth_app2 by lia. replace (zlen l' + 1 - 1 - zlen l') with 0 by lia.
      change (znth [y] 0) with (Some y). cbn [bind].
      eexists _, _, l'. split; [reflexivity|]. split; [right; eauto|]. split; [|lia].
      rewrite <- Ha. rewrite <- Hs. eapply vinv_pop; eauto.
  - (* increase *)
    unfold vector_increase. rewrite Ha, Hs, u64s by (unfold two60, two64 in *; lia).
    destruct (change_size_ok e v l (zlen l + n) a I Ha ltac:(lia)) as (st & v1 & E & H).
    rewrite E. assert (R: resized l (zlen l + n) = l ++ repeat 0 (Z.to_nat n)).
    { unfold resized. f_equal. { apply firstn_all2. Transparent zlen. unfold zlen. Opaque zlen. lia. } f_equal. lia. }
    destruct H as [[-> I1]|(M & _ & -> & ->)].
    + exists 0, v1, (resized l (zlen l + n)). split; [reflexivity|]. split; [left; auto|]. split; auto.
      rewrite R, zlen_app, zlen_repeat. lia.
    + eexists _, _, l; split; [reflexivity|]. split; [right; eauto|]. split; auto; lia.
  - (* resize *)
    unfold vector_resize. rewrite Ha.
    destruct (change_size_ok e v l n a I Ha ltac:(lia)) as (st & v1 & E & H).
    rewrite E. destruct H as [[-> I1]|(M & L & -> & ->)].
    + exists 0, v1, (resized l n). split; [reflexivity|]. split; [left; auto|]. split; auto.
      unfold resized. rewrite zlen_app, zlen_firstn, zlen_repeat. lia.
    + eexists _, _, l; split; [reflexivity|]. split; [right; repeat split; auto; lia|]. split; auto; lia.
  - (* size *)
    unfold vector_size, vector_is_correct. rewrite Ha, Hs. do 3 eexists; split; [reflexivity|]. repeat split; auto; lia.
Qed.

Lemma demand_nonneg h : Forall vop_ok h -> 0 <= demand h.
Proof.
  unfold demand. induction 1; cbn [fold_right]; [lia|].
  destruct x; cbn [vop_ok vop_demand] in *; lia.
Qed.

Lemma vrun_ok h : forall v l, vinv v l -> Forall vop_ok (map snd h) -> zlen l + demand (map snd h) < two60 ->
  exists rs v' l', vrun v h = Some (rs, v') /\ vtrace l (mems h) rs l' /\ vinv v' l'.
Proof.
  induction h as [|[e op] h IH]; intros v l I OK D.
  - do 3 eexists; split; [reflexivity|]. split; [constructor|auto].
  - inversion OK; subst. cbn [map snd] in D, H1, H2.
    assert (D2: demand (op :: map snd h) = vop_demand op + demand (map snd h)) by reflexivity.
    rewrite D2 in D. pose proof (demand_nonneg _ H2).
    destruct (vexec_ok e v l op I H1 ltac:(lia)) as (r & v1 & l1 & E & S & I1 & B).
    destruct (IH v1 l1 I1 H2 ltac:(lia)) as (rs & v2 & l2 & E2 & T & I2).
    cbn [vrun]. rewrite E. cbn [bind]. rewrite E2. cbn [bind].
    exists (r :: rs), v2, l2; split; [reflexivity|]. split; auto. cbn [mems map fst snd]. econstructor; eauto.
Qed.

Lemma contents_ok v l : vinv v l -> contents v = map Some l.
Proof.
  intros I. pose proof I as (a & Ha & HL & Hal & Hs & Hle & Hf). pose proof (zlen_nonneg l).
  assert (VS: vector_size v = zlen l) by (unfold vector_size, vector_is_correct; rewrite Ha; auto).
  assert (QL: zlen (contents v) = zlen l).
  { unfold contents. rewrite zlen_map, VS. Transparent zlen. unfold zlen. rewrite seq_length. lia. Opaque zlen. }
  apply zlist_ext.
  - rewrite QL, zlen_map; auto.
  - intros i Hi. rewrite QL in Hi. unfold contents. rewrite !znth_map.
    assert (znth (seq 0 (Z.to_nat (vector_size v))) i = Some (Z.to_nat i)) as ->.
    { rewrite znth_unf. destruct (i <? 0) eqn:E; [lia|]. rewrite VS.
      rewrite <- (Nat.add_0_l (Z.to_nat i)) at 2.
      assert (Z.to_nat i < Z.to_nat (zlen l))%nat by lia.
      clear - H0. remember (Z.to_nat (zlen l)) as m. remember (Z.to_nat i) as k.
      assert (forall s, nth_error (seq s m) k = Some (s + k)%nat) as Q; [|apply Q].
      clear -H0. revert k H0. induction m; intros; [lia|]. destruct k; cbn.
      - f_equal; lia.
      - rewrite IHm by lia. f_equal; lia. }
    cbn [option_map]. rewrite Z2Nat.id by lia. unfold vector_get. rewrite Ha, Hs.
    destruct (zlen l <=? i) eqn:E; [lia|]. unfold load.
    rewrite (vinv_get v l a i) by (auto; lia).
    destruct (znth_ex l i) as (y & ->); [lia|]. reflexivity.
Qed.

Lemma create_ok e alloc : mem_ok e = true -> 0 <= alloc < two60 -> vinv (vector_create e alloc) [].
Proof.
  intros M H. unfold vector_create, vinv. rewrite M. cbn [v_array v_alloc v_size].
  eexists; split; [reflexivity|]. rewrite (@zlen_nil Z).
  assert (N: 0 < (if alloc =? 0 then 1 else alloc) < two60) by (destruct (alloc =? 0) eqn:E; unfold two60 in *; lia).
  rewrite cells_small by (unfold two60 in *; lia).
  repeat split; try lia. apply zlen_junk. lia.
Qed.

Theorem vector_ok e0 alloc h :
  mem_ok e0 = true -> 0 <= alloc < two60 -> Forall vop_ok (map snd h) -> demand (map snd h) < two60 ->
  exists rs v l, vrun (vector_create e0 alloc) h = Some (rs, v)
    /\ vtrace [] (mems h) rs l /\ contents v = map Some l.
Proof.
  intros. destruct (vrun_ok h (vector_create e0 alloc) []) as (rs & v & l & E & T & I); auto.
  - apply create_ok; auto.
  - exists rs, v, l. repeat split; auto. apply contents_ok; auto.
Qed.

(** ** Stack *)
Lemma sexec_ok e v l op : vinv v (rev l) -> zlen l + 1 < two60 ->
  exists r v' l', sexec e v op = Some (r, v') /\ sspec (mem_ok e) l op r l' /\ vinv v' (rev l')
    /\ zlen l' <= zlen l + 1.
Proof.
  intros I D. assert (RL: zlen (rev l) = zlen l).
  { Transparent zlen. unfold zlen. Opaque zlen. rewrite rev_length; auto. }
  pose proof (zlen_nonneg l).
  destruct op; cbn [sexec sspec].
  - destruct (vexec_ok e v (rev l) (OAdd x) I) as (r & v' & l' & E & S & I' & B); cbn; auto. { lia. }
    cbn [vexec vspec] in *. unfold stack_push. rewrite E. cbn [bind].
    destruct S as [[-> ->]|(M & -> & ->)].
    + rewrite RL. destruct (zlen l =? SIZE_MAX) eqn:E2; [unfold SIZE_MAX, two64, two60 in *; lia|].
      exists 0, v', (x :: l). repeat split; auto. rewrite zlen_cons. lia.
    + cbn [Z.eqb]. exists (-1), v', l. repeat split; auto; lia.
  - destruct (vexec_ok e v (rev l) ORemove I) as (r & v' & l' & E & S & I' & B); cbn; auto. { lia. }
    cbn [vexec vspec] in *. unfold stack_pop. rewrite E.
    destruct S as [(R & -> & ->)|S].
    + assert (l = []) as -> by (rewrite <- (rev_involutive l), R; auto).
      exists ITEM_MAX, v', []. repeat split; auto; lia.
    + assert (l = r :: rev l') as ->.
      { rewrite <- (rev_involutive l), S. rewrite rev_app_distr. auto. }
      exists r, v', (rev l'). rewrite rev_involutive. repeat split; auto.
      rewrite zlen_cons. lia.
  - unfold stack_peek. pose proof I as (a & Ha & HL & Hal & Hs & Hle & Hf).
    assert (VS: vector_size v = zlen l) by (unfold vector_size, vector_is_correct; rewrite Ha, Hs; auto).
    rewrite VS. destruct l as [|x t].
    + cbn [bind]. unfold vector_get. rewrite Ha, Hs. cbn [rev]. rewrite (@zlen_nil Z).
      destruct (0 <=? u64 (0 - 1)) eqn:E; [|vm_compute in E; discriminate].
      cbn [bind]. exists ITEM_MAX, v, []. repeat split; auto. rewrite (@zlen_nil Z). lia.
    + rewrite zlen_cons in *. rewrite u64s by (unfold two60, two64 in *; pose proof (zlen_nonneg t); lia).
      assert (OK: vop_ok (OGet (1 + zlen t - 1))) by (unfold vop_ok; unfold is_size, SIZE_MAX, two60, two64 in *; pose proof (zlen_nonneg t); lia).
      assert (D2: zlen (rev (x :: t)) + vop_demand (OGet (1 + zlen t - 1)) < two60) by (rewrite RL; cbn [vop_demand]; lia).
      destruct (vexec_ok e v (rev (x :: t)) (OGet (1 + zlen t - 1)) I OK D2) as (r & v' & l' & E & S & I' & B).
      cbn [vexec vspec] in *. rewrite E. destruct S as [-> ->].
      cbn [rev]. assert (RT: zlen (rev t) = zlen t).
      { Transparent zlen. unfold zlen. Opaque zlen. rewrite rev_length; auto. }
      rewrite znth_app2 by lia. rewrite RT. replace (1 + zlen t - 1 - zlen t) with 0 by lia.
      change (znth [x] 0) with (Some x). cbn [or_else].
      exists x, v', (x :: t). repeat split; auto. rewrite zlen_cons. lia.
  - unfold stack_reset. pose proof I as (a & Ha & HL & Hal & Hs & Hle & Hf). unfold vector_resize. rewrite Ha.
    destruct (change_size_ok e v (rev l) 0 a I Ha) as (st & v1 & E & HH). { unfold two60; lia. }
    rewrite E. destruct HH as [[-> I1]|(M & L & -> & ->)]; [|lia].
    exists 0, v1, []. repeat split; auto; [|rewrite (@zlen_nil Z); lia].
    replace (rev []) with (resized (rev l) 0); auto.
    unfold resized. rewrite RL. replace (Z.to_nat (0 - zlen l)) with O by lia. reflexivity.
  - unfold stack_size, vector_size, vector_is_correct. pose proof I as (a & Ha & HL & Hal & Hs & Hle & Hf).
    rewrite Ha, Hs, RL. exists (zlen l), v, l. repeat split; auto; lia.
Qed.

Lemma srun_ok h : forall v l, vinv v (rev l) -> zlen l + zlen h < two60 ->
  exists rs v' l', srun v h = Some (rs, v') /\ strace l (smems h) rs l' /\ vinv v' (rev l').
Proof.
  induction h as [|[e op] h IH]; intros v l I D.
  - do 3 eexists; split; [reflexivity|]. split; [constructor|auto].
  - rewrite zlen_cons in D. pose proof (zlen_nonneg h).
    destruct (sexec_ok e v l op I ltac:(lia)) as (r & v1 & l1 & E & S & I1 & B).
    destruct (IH v1 l1 I1 ltac:(lia)) as (rs & v2 & l2 & E2 & T & I2).
    cbn [srun]. rewrite E. cbn [bind]. rewrite E2. cbn [bind].
    exists (r :: rs), v2, l2; split; [reflexivity|]. split; auto. cbn [smems map fst snd]. econstructor; eauto.
Qed.

Theorem stack_ok e0 alloc h :
  mem_ok e0 = true -> 0 <= alloc < two60 -> zlen h < two60 ->
  exists rs s l, srun (stack_create e0 alloc) h = Some (rs, s)
    /\ strace [] (smems h) rs l /\ contents s = map Some (rev l).
Proof.
  intros. destruct (srun_ok h (stack_create e0 alloc) []) as (rs & v & l & E & T & I); auto.
  - apply create_ok; auto.
  - exists rs, v, l. repeat split; auto. apply contents_ok; auto.
Qed.

(** Pushing a list and popping it gives it back reversed. *)
Theorem stack_push_pop_ok e0 alloc xs (es1 : list env) (es2 : list env) :
  mem_ok e0 = true -> 0 <= alloc < two60 -> 2 * zlen xs < two60 ->
  length es1 = length xs -> length es2 = length xs -> Forall (fun e => mem_ok e = true) es1 ->
  exists s, srun (stack_create e0 alloc)
     (combine es1 (map SPush xs) ++ combine es2 (map (fun _ => SPop) xs))
     = Some (map (fun _ => 0) xs ++ rev xs, s) /\ contents s = [].
Proof.
  intros M A LX L1 L2 F.
  set (h := combine es1 (map SPush xs) ++ combine es2 (map (fun _ => SPop) xs)).
  assert (HL: zlen h < two60).
  { unfold h. rewrite zlen_app. Transparent zlen. unfold zlen in *. Opaque zlen.
    rewrite !combine_length, !map_length. lia. }
  destruct (stack_ok e0 alloc h M A HL) as (rs & s & l & E & T & C).
  assert (GEN: forall xs es1, length es1 = length xs -> Forall (fun e => mem_ok e = true) es1 ->
     forall acc tail rs l, strace acc (smems (combine es1 (map SPush xs)) ++ tail) rs l ->
     exists rs', rs = map (fun _ => 0) xs ++ rs' /\ strace (rev xs ++ acc) tail rs' l).
  { clear. induction xs; intros es1 L F acc tail rs l T; destruct es1; cbn in L; try lia.
    - exists rs; split; auto.
    - inversion F; subst. cbn [combine map smems fst snd app] in T. rewrite H1 in T.
      inversion T as [|? ? ? ? ? ? ? ? SS TT]; subst. cbn [sspec] in SS. destruct SS as [[-> ->]|(? & _)]; [|discriminate].
      destruct (IHxs es1 ltac:(lia) H2 _ _ _ _ TT) as (rs' & -> & T').
      exists rs'; split; [reflexivity|]. cbn [rev]. rewrite <- app_assoc. exact T'. }
  assert (POP: forall xs es2, length es2 = length xs -> forall rs l,
     strace xs (smems (combine es2 (map (fun _ => SPop) xs))) rs l -> rs = xs /\ l = []).
  { clear. induction xs; intros es2 L rs l T; destruct es2; cbn in L; try lia.
    - inversion T; auto.
    - cbn [combine map smems fst snd] in T. inversion T as [|? ? ? ? ? ? ? ? SS TT]; subst. cbn [sspec] in SS. destruct SS as [-> ->].
      destruct (IHxs es2 ltac:(lia) _ _ TT) as [-> ->]. auto. }
  unfold h in T. unfold smems in T at 1. rewrite map_app in T.
  destruct (GEN xs es1 L1 F [] _ _ _ T) as (rs' & -> & T').
  rewrite app_nil_r in T'.
  assert (rs' = rev xs /\ l = []) as [-> ->].
  { apply (POP (rev xs) es2). { rewrite rev_length; auto. }
    replace (map (fun _ : Z => SPop) (rev xs)) with (map (fun _ : Z => SPop) xs); auto.
    clear. rewrite map_rev. induction xs; cbn; auto. rewrite <- IHxs.
    clear. induction xs; cbn; auto. f_equal; auto. }
  exists s; split; auto.
Qed.

Lemma peek_int64_empty e alloc : mem_ok e = true -> 0 <= alloc < two60 ->
  stack_peek_int64 (stack_create e alloc) = None
  /\ stack_peek_double (stack_create e alloc) = None.
Proof.
  intros M H. unfold stack_peek_int64, stack_peek_double, vector_size, vector_is_correct, stack_create, vector_create,
    vector_get_int64, vector_get_double. rewrite M. cbn [v_array v_size].
  change (u64 (0 - 1)) with SIZE_MAX. change (0 <? u64 (SIZE_MAX + 1)) with false. cbv iota.
  assert (E: load (junk_list e (cells (if alloc =? 0 then 1 else alloc))) SIZE_MAX = None).
  { apply znth_None.
    rewrite cells_small by (destruct (alloc =? 0); unfold two60 in *; lia).
    rewrite zlen_junk by (destruct (alloc =? 0); lia).
    unfold SIZE_MAX, two64, two60 in *. destruct (alloc =? 0); lia. }
  rewrite E. auto.
Qed.

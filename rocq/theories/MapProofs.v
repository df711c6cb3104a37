From Verif Require Import Prelude Utf8Model Utf8Spec Utf8Proofs UniioModel UniioProofs StringsModel StringsSpec StringsRun StringsProofs MapModel MapSpec.

(** ** Keys *)
Lemma key_eqb_eq a b : key_eqb a b = true <-> a = b.
Proof.
  revert b; induction a as [|x a IH]; destruct b as [|y b]; cbn [key_eqb]; split; intros H; try congruence; auto.
  - apply andb_true_iff in H as [H1 H2]. apply IH in H2. f_equal; auto. lia.
  - inversion H; subst. apply andb_true_iff; split; [lia|]. apply IH; auto.
Qed.
Lemma key_eqb_neq a b : a <> b -> key_eqb a b = false.
Proof. intros H. destruct (key_eqb a b) eqn:E; auto. apply key_eqb_eq in E. congruence. Qed.

Lemma enc_cancel c s c' s' : code_point c -> code_point c' -> enc c ++ s = enc c' ++ s' -> c = c' /\ s = s'.
Proof.
  intros H H' E. assert (c = c').
  { pose proof (convert_enc c s H) as A. pose proof (convert_enc c' s' H') as B. rewrite E in A. congruence. }
  subst. split; auto. eapply app_inv_head; eauto.
Qed.

Lemma encs_inj a : Forall code_point a -> forall b, Forall code_point b -> encs a = encs b -> a = b.
Proof.
  induction 1 as [|c a Hc Ha IH]; intros b Hb E; destruct Hb as [|d b Hd Hb]; auto.
  - cbn [encs flat_map] in E. destruct (enc_cons d) as (x & r & X). rewrite X in E. discriminate.
  - cbn [encs flat_map] in E. destruct (enc_cons c) as (x & r & X). rewrite X in E. discriminate.
  - cbn [encs flat_map] in E. apply enc_cancel in E as [-> E]; auto. f_equal. apply IH; auto.
Qed.

Lemma good_cps cs : Forall good_symbol cs -> Forall code_point cs.
Proof. apply Forall_impl. intros c H. apply encodable_cp, good_encodable; auto. Qed.

Lemma encs_eqb a b : Forall good_symbol a -> Forall good_symbol b -> bytes_eqb (encs a) (encs b) = key_eqb a b.
Proof.
  intros Ha Hb. destruct (bytes_eqb (encs a) (encs b)) eqn:E.
  - apply bytes_eqb_eq in E. apply encs_inj in E; [|apply good_cps; auto ..]. symmetry. apply key_eqb_eq; auto.
  - destruct (key_eqb a b) eqn:E2; auto. apply key_eqb_eq in E2. subst.
    assert (bytes_eqb (encs b) (encs b) = true) by (apply bytes_eqb_eq; auto). congruence.
Qed.

Definition khash (cs : list Z) : Z := fold_right Z.add 0 cs mod 256.
Lemma khash_range cs : 0 <= khash cs < 256. Proof. unfold khash. apply Z.mod_pos_bound. lia. Qed.

(** ** State *)
Record mentry := mkME { k_key : list Z; k_idx : Z; k_ref : Z; k_val : Z }.
Definition kbytes (L : list mentry) : list bytes := map (fun en => encs (k_key en)) L.
Definition inb (h : Z) (en : mentry) : bool := khash (k_key en) =? h.
Definition bucket (h : Z) (L : list mentry) : list Z := map k_idx (filter (inb h) L).
Definition idxs (L : list mentry) : list Z := map k_idx L.

Definition nx (vals : list cell) (i : Z) : option Z := option_map c_next (znth vals i).
Fixpoint linked (vals : list cell) (b : list Z) : Prop :=
  match b with
  | [] => True
  | i :: t => nx vals i = Some (match t with [] => SIZE_MAX | j :: _ => j end) /\ linked vals t
  end.

Definition to_dict (L : list mentry) : dict := map (fun en => (k_key en, k_idx en, k_val en)) L.

Record minv (m : map_t) (L : list mentry) : Prop := {
  mi_keys : exists rest, m_keys m = arena (kbytes L) ++ rest;
  mi_ksize : m_ksize m = zlen (arena (kbytes L));
  mi_klen : 8 <= zlen (m_keys m) < 2 ^ 61;
  mi_refs : map k_ref L = offsets 0 (kbytes L);
  mi_cells : Forall (fun en => exists n, znth (m_vals m) (k_idx en) = Some (mkCell n (k_ref en) (k_val en))) L;
  mi_bucket : forall h, 0 <= h < 256 ->
      linked (m_vals m) (bucket h L) /\
      match bucket h L with
      | [] => exists v, znth (m_vals m) h = Some (mkCell SIZE_MAX SIZE_MAX v)
      | i :: _ => i = h
      end;
  mi_nodup : NoDup (idxs L);
  mi_used : forall i, 256 <= i < m_vsize m -> In i (idxs L);
  mi_range : Forall (fun i => 0 <= i < m_vsize m) (idxs L);
  mi_vsize : 256 <= m_vsize m <= zlen (m_vals m);
  mi_good : Forall (fun en => Forall good_symbol (k_key en) /\ k_key en <> []) L;
  mi_kdup : NoDup (map k_key L);
  mi_vmax : zlen (m_vals m) <= 2 ^ 51 + 2 * m_vsize m;
  mi_vcount : m_vsize m <= 256 + zlen L }.

(** The key just written after the stored ones. *)
Definition pending (m : map_t) (L : list mentry) (cs : list Z) : Prop :=
  m_knext m = m_ksize m + zlen (encs cs) /\
  exists rest, m_keys m = arena (kbytes L) ++ encs cs ++ 0 :: rest.

(** Writing a key. *)
Definition same_vals (m m' : map_t) : Prop := m_vals m' = m_vals m /\ m_vsize m' = m_vsize m /\ m_ksize m' = m_ksize m.

Lemma room_u64 m : 0 <= m_knext m <= zlen (m_keys m) -> zlen (m_keys m) < 2 ^ 61 ->
  u64 (zlen (m_keys m) - m_knext m) = zlen (m_keys m) - m_knext m.
Proof. intros. unfold u64, two64. apply Z.mod_small. lia. Qed.

Lemma add_symbol_ok fuel : forall e m A W rest c, mem_always e -> encodable c ->
  m_keys m = A ++ W ++ rest -> m_knext m = zlen A + zlen W -> 8 <= zlen (m_keys m) < 2 ^ 61 ->
  m_knext m + 8 < 2 ^ 60 -> m_knext m + 8 <= zlen (m_keys m) * 2 ^ Z.of_nat fuel ->
  exists m' rest', map_add_key_symbol fuel e m c = Some (true, m')
    /\ m_keys m' = A ++ (W ++ enc c) ++ 0 :: rest'
    /\ m_knext m' = zlen A + zlen (W ++ enc c) /\ same_vals m m'
    /\ 8 <= zlen (m_keys m') < 2 ^ 61.
Proof.
  induction fuel as [|fuel IH]; intros e m A W rest c M Hc HK HN HL B P;
    pose proof (zlen_nonneg A); pose proof (zlen_nonneg W);
    assert (R: 0 <= m_knext m <= zlen (m_keys m)) by (rewrite HK, HN, !zlen_app; pose proof (zlen_nonneg rest); lia);
    cbn [map_add_key_symbol]; unfold MAX_SYMBOL_SIZE; rewrite room_u64 by lia;
    destruct (8 <=? zlen (m_keys m) - m_knext m) eqn:E.
  1,3: destruct (to_string_le c Hc) as [LS LB]; unfold put_symbol; destruct (utf8_to_string c) as [|b s] eqn:T;
      [rewrite (@zlen_nil Z) in LS; lia|];
      (assert (W0: write_at (m_keys m) (m_knext m) ((b :: s) ++ [0])
       = Some (A ++ W ++ (b :: s) ++ 0 :: skipn (Z.to_nat (zlen (b :: s) + 1)) rest));
      [rewrite HK, HN, app_assoc, <- zlen_app; rewrite write_at_ok;
        [rewrite zlen_snoc; rewrite <- !app_assoc; cbn [app]; reflexivity
        |rewrite zlen_snoc, LS; rewrite HK, HN, !zlen_app in E; lia]
      |rewrite W0; cbn [bind]; rewrite <- T, to_string_ok in * by auto; eexists _, _; split; [reflexivity|];
       cbn [m_keys m_knext]; rewrite <- !app_assoc; split; [reflexivity|]; split; [rewrite HN, zlen_app; lia|];
       split; [repeat split|]; cbn [m_keys m_knext];
       rewrite !zlen_app, zlen_cons, zlen_skipn; rewrite HK, HN, !zlen_app in E; rewrite HK, !zlen_app in HL; lia]).
  - exfalso. cbn in P. lia.
  - rewrite M by lia.
    destruct (IH e (mkMap (m_keys m ++ o_fresh e (zlen (m_keys m))) (m_ksize m) (m_knext m) (m_vals m) (m_vsize m)) A W
       (rest ++ o_fresh e (zlen (m_keys m))) c) as (m' & r' & E' & K' & N' & S' & L'); auto; cbn [m_keys m_knext].
    + rewrite HK at 1. rewrite <- !app_assoc. reflexivity.
    + rewrite zlen_app, zlen_o_fresh by lia. lia.
    + rewrite zlen_app, zlen_o_fresh by lia. rewrite Nat2Z.inj_succ, Z.pow_succ_r in P by lia. lia.
    + exists m', r'. split; auto.
Qed.

Lemma add_symbol64 e m A W rest c : mem_always e -> encodable c ->
  m_keys m = A ++ W ++ rest -> m_knext m = zlen A + zlen W -> 8 <= zlen (m_keys m) < 2 ^ 61 ->
  m_knext m + 8 < 2 ^ 60 ->
  exists m' rest', map_add_key_symbol 64 e m c = Some (true, m')
    /\ m_keys m' = A ++ (W ++ enc c) ++ 0 :: rest'
    /\ m_knext m' = zlen A + zlen (W ++ enc c) /\ same_vals m m'
    /\ 8 <= zlen (m_keys m') < 2 ^ 61.
Proof. intros. eapply add_symbol_ok; eauto. nia. Qed.

Lemma same_trans a b c : same_vals a b -> same_vals b c -> same_vals a c.
Proof. intros (A1 & A2 & A3) (B1 & B2 & B3). repeat split; congruence. Qed.

(** All symbols of a key are written (from symbols). *)
Lemma hash_utf8_ok e cs : mem_always e -> Forall encodable cs -> forall m A W rest h,
  m_keys m = A ++ W ++ rest -> m_knext m = zlen A + zlen W -> 8 <= zlen (m_keys m) < 2 ^ 61 ->
  m_knext m + 4 * zlen cs + 8 < 2 ^ 60 ->
  (cs = [] -> exists r, rest = 0 :: r) ->
  exists m' rest', hash_utf8_loop e m cs h = Some ((h + fold_right Z.add 0 cs) mod 256, m')
    /\ m_keys m' = A ++ (W ++ encs cs) ++ 0 :: rest'
    /\ m_knext m' = zlen A + zlen (W ++ encs cs) /\ same_vals m m'
    /\ 8 <= zlen (m_keys m') < 2 ^ 61.
Proof.
  intros M HE. induction HE as [|c cs Hc Hcs IH]; intros m A W rest h HK HN HL B R; cbn [hash_utf8_loop].
  - destruct (R eq_refl) as [r ->]. exists m, r. cbn [encs flat_map fold_right]. rewrite app_nil_r, Z.add_0_r. repeat split; auto; lia.
  - rewrite zlen_cons in B. pose proof (zlen_nonneg cs).
    destruct (add_symbol64 e m A W rest c) as (m1 & r1 & E1 & K1 & N1 & S1 & L1); auto; [lia|].
    rewrite E1. cbn [bind negb].
    destruct (IH m1 A (W ++ enc c) (0 :: r1) (h + c)) as (m2 & r2 & E2 & K2 & N2 & S2 & L2); auto.
    + rewrite N1, zlen_app. destruct (to_string_le c Hc) as [_ LB]. rewrite <- size_enc by (apply encodable_cp; auto). lia.
    + eauto.
    + exists m2, r2. rewrite E2. cbn [fold_right encs flat_map]. rewrite <- app_assoc in K2, N2. fold (encs cs).
      split; [f_equal; f_equal; f_equal; lia|]. split; [rewrite K2, <- !app_assoc; auto|]. split; auto. split; auto. eapply same_trans; eauto.
Qed.

(** The loop over a C string does the same. *)
Lemma hash_str_ok e all cs : mem_always e -> Forall good_symbol cs -> forall fuel m A W rest h,
  all = W ++ encs cs ++ [0] ->
  m_keys m = A ++ W ++ rest -> m_knext m = zlen A + zlen W -> m_ksize m = zlen A -> 8 <= zlen (m_keys m) < 2 ^ 61 ->
  m_knext m + 4 * zlen cs + 8 < 2 ^ 60 -> (List.length cs < fuel)%nat ->
  hash_loop fuel e m all h = hash_utf8_loop e m cs h.
Proof.
  intros M HE. induction HE as [|c cs Hc Hcs IH]; intros fuel m A W rest h HA HK HN HS HL B F;
    (destruct fuel as [|fuel]; [cbn in F; lia|]); cbn [hash_loop hash_utf8_loop];
    rewrite HN, HS; replace (zlen A + zlen W - zlen A) with (zlen W) by lia; rewrite HA.
  - cbn [encs flat_map app]. rewrite znth_app2 by lia. rewrite Z.sub_diag. cbn [bind znth]. rewrite znth_cons_0. reflexivity.
  - rewrite zlen_cons in B. pose proof (zlen_nonneg cs). cbn [encs flat_map]. fold (encs cs). destruct (good_encodable c Hc) as [He Hz].
    pose proof (nonzero_enc c He Hz) as NZ. destruct (enc_cons c) as (x & r & X).
    rewrite znth_app2 by lia. rewrite Z.sub_diag. rewrite X. cbn [app]. rewrite znth_cons_0. cbn [bind].
    replace (x =? 0) with false by (rewrite X in NZ; inversion NZ; lia).
    replace (zlen W) with (zlen W + 0) by lia. rewrite skipn_zlen_app by lia. cbn [Z.to_nat skipn].
    change (x :: (r ++ encs cs) ++ [0]) with ((x :: r) ++ encs cs ++ [0]) || idtac.
    rewrite app_comm_cons, app_comm_cons, <- X, <- app_assoc. rewrite convert_enc by (apply encodable_cp; auto). cbn [bind].
    destruct (add_symbol64 e m A W rest c) as (m1 & r1 & E1 & K1 & N1 & S1 & L1); auto; [lia|].
    rewrite E1. cbn [bind negb]. destruct (to_string_le c He) as [_ LB].
    replace (W ++ enc c ++ encs cs ++ [0]) with all by (rewrite HA; cbn [encs flat_map]; rewrite <- !app_assoc; reflexivity).
    rewrite size_enc in LB by (apply encodable_cp; auto).
    apply (IH fuel m1 A (W ++ enc c) (0 :: r1) (h + c)); auto.
    + rewrite HA. cbn [encs flat_map]. rewrite <- !app_assoc. reflexivity.
    + destruct S1 as (_ & _ & ->). auto.
    + rewrite N1, zlen_app. lia.
    + cbn in F. lia.
Qed.

Lemma start_encodable c : ident_start c -> encodable c /\ c <> 0.
Proof.
  unfold ident_start, utf8_is_letter, utf8_is_russian, encodable. lia.
Qed.
Lemma next_good c : ident_next c -> good_symbol c.
Proof. unfold ident_next, utf8_is_letter, utf8_is_digit, utf8_is_russian, good_symbol. lia. Qed.
Lemma start_good c : ident_start c -> good_symbol c.
Proof. unfold ident_start, utf8_is_letter, utf8_is_russian, good_symbol. lia. Qed.

(** ... and so does the loop over an input. *)
Lemma hash_io_ok e D tl last io2 cs : mem_always e -> Forall ident_next cs -> ~ ident_next last -> forall fuel m h pre c A W rest,
  D = pre ++ encs cs ++ tl ->
  uni_scan_char (mkIn D (zlen (pre ++ encs cs))) = (last, io2) ->
  ident_next c ->
  m_keys m = A ++ W ++ rest -> m_knext m = zlen A + zlen W -> 8 <= zlen (m_keys m) < 2 ^ 61 ->
  m_knext m + 4 * zlen (c :: cs) + 8 < 2 ^ 60 -> (S (List.length cs) < fuel)%nat ->
  hash_io_loop fuel e m (mkIn D (zlen pre)) c h
  = do ' (r, m) <- hash_utf8_loop e m (c :: cs) h; Some (r, last, io2, m).
Proof.
  intros M HE Hl. unfold ident_next in Hl. apply not_true_is_false in Hl.
  induction HE as [|d cs Hd Hcs IH]; intros fuel m h pre c A W rest HD Hsc Hc HK HN HL B F;
    (destruct fuel as [|fuel]; [lia|]); rewrite zlen_cons in B; cbn [hash_io_loop hash_utf8_loop]; unfold ident_next in Hc; rewrite Hc;
    assert (He: encodable c) by (apply ident_encodable; auto).
  - rewrite (@zlen_nil Z) in B. destruct (add_symbol64 e m A W rest c) as (m1 & r1 & E1 & K1 & N1 & S1 & L1); auto; [lia|].
    rewrite E1. cbn [bind negb]. cbn [encs flat_map] in Hsc. rewrite app_nil_r in Hsc. rewrite Hsc.
    destruct fuel as [|fuel]; [cbn in F; lia|]. cbn [hash_io_loop]. rewrite Hl. reflexivity.
  - rewrite zlen_cons in B. pose proof (zlen_nonneg cs).
    destruct (add_symbol64 e m A W rest c) as (m1 & r1 & E1 & K1 & N1 & S1 & L1); auto; [lia|].
    rewrite E1. cbn [bind negb].
    destruct (to_string_le c He) as [_ LB]. rewrite size_enc in LB by (apply encodable_cp; auto).
    assert (Sd: uni_scan_char (mkIn D (zlen pre)) = (d, mkIn D (zlen (pre ++ enc d)))).
    { rewrite HD, zlen_app. cbn [encs flat_map]. fold (encs cs). rewrite <- !app_assoc. apply scan_char_enc. apply encodable_cp, ident_encodable; auto. }
    rewrite Sd. rewrite (IH fuel m1 (h + c) (pre ++ enc d) d A (W ++ enc c) (0 :: r1)); auto.
    + rewrite HD. cbn [encs flat_map]. rewrite <- !app_assoc. reflexivity.
    + rewrite <- Hsc. cbn [encs flat_map]. rewrite <- !app_assoc. reflexivity.
    + rewrite N1, zlen_app, zlen_cons. lia.
    + cbn in F. lia.
Qed.

Lemma hash_io_key e D tl last io2 c cs m pre A rest : mem_always e -> ident_start c -> Forall ident_next cs -> ~ ident_next last ->
  D = pre ++ encs (c :: cs) ++ tl ->
  uni_scan_char (mkIn D (zlen (pre ++ encs (c :: cs)))) = (last, io2) ->
  m_keys m = A ++ rest -> m_ksize m = zlen A -> 8 <= zlen (m_keys m) < 2 ^ 61 ->
  m_ksize m + 4 * zlen (c :: cs) + 8 < 2 ^ 60 ->
  map_get_hash_by_io e m (mkIn D (zlen pre))
  = do ' (r, m) <- hash_utf8_loop e (set_knext m (m_ksize m)) (c :: cs) 0; Some (r, last, io2, m).
Proof.
  intros M Hc Hcs Hl HD Hsc HK HN HL B. unfold map_get_hash_by_io. rewrite zlen_cons in B. pose proof (zlen_nonneg cs).
  destruct (start_encodable c Hc) as [He _]. pose proof (encodable_cp c He) as Hcp.
  assert (Sc: uni_scan_char (mkIn D (zlen pre)) = (c, mkIn D (zlen (pre ++ enc c)))).
  { rewrite HD, zlen_app. cbn [encs flat_map]. fold (encs cs). rewrite <- !app_assoc. apply scan_char_enc. auto. }
  rewrite Sc. replace (negb (utf8_is_letter c) && negb (c =? 35)) with false.
  2:{ destruct Hc as [-> | ->]; [reflexivity|]. symmetry. apply andb_false_r. }
  cbn [hash_utf8_loop].
  destruct (add_symbol64 e (set_knext m (m_ksize m)) A [] rest c) as (m1 & r1 & E1 & K1 & N1 & S1 & L1); auto; cbn [set_knext m_keys m_knext]; try lia.
  { rewrite (@zlen_nil Z). lia. }
  rewrite E1. cbn [bind negb app] in *. rewrite Z.add_0_l.
  destruct (to_string_le c He) as [_ LB]. rewrite size_enc in LB by auto.
  destruct cs as [|d cs].
  - replace (pre ++ encs [c]) with (pre ++ enc c) in Hsc by (cbn [encs flat_map]; rewrite app_nil_r; reflexivity).
    rewrite Hsc. cbn [hash_io_loop hash_utf8_loop].
    apply not_true_is_false in Hl. rewrite Hl. reflexivity.
  - inversion Hcs as [|? ? Hd Hcs']; subst. rewrite zlen_cons in B.
    set (D := pre ++ encs (c :: d :: cs) ++ tl) in *.
    assert (Sd: uni_scan_char (mkIn D (zlen (pre ++ enc c))) = (d, mkIn D (zlen ((pre ++ enc c) ++ enc d)))).
    { unfold D. rewrite (zlen_app (pre ++ enc c) (enc d)). cbn [encs flat_map]. fold (encs cs). rewrite <- !app_assoc. rewrite (app_assoc pre (enc c)).
      apply scan_char_enc. apply encodable_cp, ident_encodable; auto. }
    rewrite Sd. rewrite (hash_io_ok e D tl last io2 cs M Hcs' Hl _ m1 c ((pre ++ enc c) ++ enc d) d A (enc c) (0 :: r1)); auto.
    + unfold D. cbn [encs flat_map]. rewrite <- !app_assoc. reflexivity.
    + rewrite <- Hsc. cbn [encs flat_map]. rewrite <- !app_assoc. reflexivity.
    + rewrite N1. rewrite zlen_cons. cbn [app]. lia.
    + cbn [in_data]. unfold D. cbn [encs flat_map]. fold (encs cs). rewrite !app_length. pose proof (length_encs_ge cs).
      assert (1 <= List.length (enc c))%nat by (rewrite zlen_unf in LB; lia).
      assert (1 <= List.length (enc d))%nat by (destruct (enc_cons d) as (? & ? & ->); cbn; lia). lia.
Qed.

Lemma set_knext_same m n : same_vals m (set_knext m n). Proof. repeat split. Qed.

Lemma minv_same m L m' rest : minv m L -> same_vals m m' ->
  m_keys m' = arena (kbytes L) ++ rest -> 8 <= zlen (m_keys m') < 2 ^ 61 -> minv m' L.
Proof. intros [] (V & S & K) HK HL. split; rewrite ?V, ?S, ?K; eauto. Qed.

Lemma key_good k cs x : key_of k cs x -> Forall good_symbol cs.
Proof.
  intros H; inversion H; subst; auto; constructor; try (apply start_good; auto);
    eapply Forall_impl; try eassumption; apply next_good.
Qed.

Lemma ident_len cs : 0 <= zlen cs <= zlen (encs cs).
Proof. pose proof (length_encs_ge cs). rewrite (zlen_unf cs), (zlen_unf (encs cs)). lia. Qed.

Lemma map_get_hash_ne e m key : key <> [] -> map_get_hash e m key =
  do ch <- utf8_convert (key ++ [0]);
  do ' (ok, m) <- map_add_key_symbol 64 e (set_knext m (m_ksize m)) ch;
  if negb ok then Some (SIZE_MAX, m) else hash_loop (S (List.length (key ++ [0]))) e m (key ++ [0]) ch.
Proof. destruct key; [congruence|]. intros _. reflexivity. Qed.
Lemma EOF_not_start : negb (utf8_is_letter EOF32) && negb (EOF32 =? 35) = true. Proof. reflexivity. Qed.

Lemma utf8_key_ok e m L ds : mem_always e -> minv m L -> Forall good_symbol ds -> ds <> [] -> m_ksize m + 4 * zlen ds + 16 < 2 ^ 60 ->
  exists m', hash_utf8_loop e (set_knext m (m_ksize m)) ds 0 = Some (khash ds, m')
      /\ minv m' L /\ same_vals m m' /\ pending m' L ds.
Proof.
  intros M I G Ne Bd. pose proof I as I0. destruct I as [[rest Hk] Hks Hkl _ _ _ _ _ _ _ _ _ _ _].
  pose proof (zlen_nonneg (arena (kbytes L))) as NA. pose proof (zlen_nonneg ds).
  destruct (hash_utf8_ok e ds M (good_all _ G) (set_knext m (m_ksize m)) (arena (kbytes L)) [] rest 0)
      as (m' & r' & E & K & N & S & Ln); cbn [set_knext m_keys m_knext]; auto; try lia; [rewrite (@zlen_nil Z); lia|congruence|].
  exists m'. rewrite E. cbn [app] in *. split; [unfold khash; rewrite Z.add_0_l; reflexivity|].
  assert (S': same_vals m m') by (eapply same_trans; [apply set_knext_same|exact S]).
  split; [eapply minv_same; eauto|]. split; auto. split; [|eauto]. destruct S' as (_ & _ & ->). lia.
Qed.

Lemma str_key_ok e m L c cs : mem_always e -> minv m L -> Forall good_symbol (c :: cs) ->
  m_ksize m + zlen (encs (c :: cs)) + 16 < 2 ^ 58 ->
  map_get_hash e m (encs (c :: cs)) = hash_utf8_loop e (set_knext m (m_ksize m)) (c :: cs) 0.
Proof.
  intros M I G B. destruct I as [[rest Hk] Hks Hkl _ _ _ _ _ _ _ _ _ _ _]. pose proof (zlen_nonneg (arena (kbytes L))) as NA.
  destruct (enc_cons c) as (b & r & X).
  assert (NE: encs (c :: cs) <> []) by (cbn [encs flat_map]; rewrite X; discriminate).
  rewrite (map_get_hash_ne e m _ NE). set (m0 := set_knext m (m_ksize m)).
  inversion G as [|? ? Gc Gcs]; subst. destruct (good_encodable c Gc) as [He Hz].
  pose proof (ident_len cs). pose proof (zlen_nonneg (enc c)).
  assert (LE: zlen (encs (c :: cs)) = zlen (enc c) + zlen (encs cs)) by (cbn [encs flat_map]; rewrite zlen_app; reflexivity).
  cbn [hash_utf8_loop encs flat_map]. fold (encs cs). rewrite <- app_assoc. rewrite convert_enc by (apply encodable_cp; auto). cbn [bind].
  destruct (add_symbol64 e m0 (arena (kbytes L)) [] rest c) as (m1 & r1 & E1 & K1 & N1 & S1 & L1); auto.
  { cbn [m0 set_knext m_knext]. rewrite (@zlen_nil Z). lia. }
  { cbn [m0 set_knext m_knext]. lia. }
  rewrite E1. cbn [bind negb].
  rewrite (hash_str_ok e (enc c ++ encs cs ++ [0]) cs M Gcs _ m1 (arena (kbytes L)) (enc c) (0 :: r1) c); auto.
  - destruct S1 as (_ & _ & ->). exact Hks.
  - rewrite N1. cbn [app]. lia.
  - rewrite !app_length. pose proof (length_encs_ge cs). lia.
Qed.

Lemma io_key_ok e m L k c cs last io2 : mem_always e -> minv m L -> key_of (KIo k) (c :: cs) (Some (last, io2)) ->
  m_ksize m + zlen (in_data k) + 16 < 2 ^ 58 ->
  map_get_hash_by_io e m k
  = (do ' (r, m) <- hash_utf8_loop e (set_knext m (m_ksize m)) (c :: cs) 0; Some (r, last, io2, m))
  /\ zlen (encs (c :: cs)) <= zlen (in_data k).
Proof.
  intros M I HK B. destruct I as [[rest Hk] Hks Hkl _ _ _ _ _ _ _ _ _ _ _]. pose proof (zlen_nonneg (arena (kbytes L))) as NA.
  pose proof (ident_len (c :: cs)) as IL. inversion HK as [| |pre c0 cs0 d rest0 H1 H2 H3 H4|pre c0 cs0 H1 H2| |]; subst; cbn [in_data] in *;
    change (enc c ++ encs cs) with (encs (c :: cs)) in *.
  - rewrite !zlen_app in B. pose proof (zlen_nonneg pre). pose proof (zlen_nonneg (enc last)). pose proof (zlen_nonneg rest0).
    split; [|rewrite !zlen_app; lia].
    apply (hash_io_key e (pre ++ encs (c :: cs) ++ enc last ++ rest0) (enc last ++ rest0) last _ c cs m pre (arena (kbytes L)) rest); auto; try lia.
    replace (zlen (pre ++ encs (c :: cs) ++ enc last)) with (zlen (pre ++ encs (c :: cs)) + zlen (enc last)) by (rewrite !zlen_app; lia).
    rewrite (app_assoc pre). apply scan_char_enc; auto.
  - rewrite !zlen_app in B. pose proof (zlen_nonneg pre). split; [|rewrite !zlen_app; lia].
    apply (hash_io_key e (pre ++ encs (c :: cs)) [] EOF32 _ c cs m pre (arena (kbytes L)) rest); auto; try lia.
    + intros X. unfold ident_next in X. rewrite EOF_not_ident in X. discriminate.
    + rewrite app_nil_r. reflexivity.
    + apply scan_char_end. unfold in_size. cbn [in_data in_pos]. lia.
Qed.

Lemma io_nokey_ok e m k last io2 : key_of (KIo k) [] (Some (last, io2)) ->
  map_get_hash_by_io e m k = Some (SIZE_MAX, last, io2, set_knext m (m_ksize m)).
Proof.
  intros HK. unfold map_get_hash_by_io. inversion HK as [| | | |pre d rest H H0|pre]; subst.
  - rewrite scan_char_enc by auto.
    replace (negb (utf8_is_letter last) && negb (last =? 35)) with true.
    2:{ unfold ident_start in H. destruct (utf8_is_letter last) eqn:E1; [tauto|]. destruct (last =? 35) eqn:E2; [|reflexivity]. apply Z.eqb_eq in E2. tauto. }
    rewrite zlen_app. reflexivity.
  - rewrite scan_char_end by (unfold in_size; cbn [in_data in_pos]; lia). rewrite EOF_not_start. reflexivity.
Qed.

Lemma key_size k cs x : key_of k cs x -> 4 * zlen cs <= 4 * src_size k.
Proof.
  pose proof (ident_len cs) as IL. intros H; destruct H; cbn [src_size in_data]; rewrite ?zlen_app, ?(@zlen_nil Z) in *; try lia;
    pose proof (zlen_nonneg pre); try lia; pose proof (zlen_nonneg (enc d)); pose proof (zlen_nonneg rest); lia.
Qed.

Lemma get_hash_ok e m L k cs x : mem_always e -> minv m L -> key_of k cs x ->
  m_ksize m + src_size k + 16 < 2 ^ 58 ->
  exists m', get_hash e m k = Some (if key_eqb cs [] then SIZE_MAX else khash cs, x, m')
    /\ minv m' L /\ same_vals m m' /\ (cs <> [] -> pending m' L cs)
    /\ zlen (encs cs) <= src_size k.
Proof.
  intros M I HK B. pose proof (key_good _ _ _ HK) as G. pose proof (ident_len cs) as IL.
  assert (NA: 0 <= m_ksize m) by (destruct I; rewrite mi_ksize0; apply zlen_nonneg).
  assert (X: x = None \/ exists last io2, x = Some (last, io2)) by (destruct x as [[? ?]|]; eauto).
  assert (EM: minv (set_knext m (m_ksize m)) L) by (destruct (mi_keys _ _ I) as [r K]; eapply minv_same; eauto; [apply set_knext_same|apply (mi_klen _ _ I)]).
  destruct cs as [|c cs].
  - change (key_eqb [] []) with true. cbn iota. assert (Z0: zlen (encs []) <= src_size k).
    { cbn [encs flat_map]. rewrite (@zlen_nil Z). destruct k; cbn [src_size]; try apply zlen_nonneg. pose proof (zlen_nonneg cs). lia. }
    destruct k as [s|s|io]; cbn [get_hash].
    + inversion HK; subst. exists m. split; [reflexivity|]. split; auto. split; [repeat split|]. split; [congruence|auto].
    + inversion HK; subst. exists m. split; [reflexivity|]. split; auto. split; [repeat split|]. split; [congruence|auto].
    + destruct X as [->|(last & io2 & ->)]; [inversion HK|].
      rewrite (io_nokey_ok e m io last io2 HK). cbn [bind]. eexists. split; [reflexivity|].
      split; auto. split; [repeat split|]. split; [congruence|auto].
  - rewrite (key_eqb_neq (c :: cs) []) by discriminate.
    destruct (utf8_key_ok e m L (c :: cs) M I G ltac:(discriminate)) as (m' & E & I' & S' & P').
    { pose proof (key_size _ _ _ HK). lia. }
    exists m'. destruct k as [s|s|io]; cbn [get_hash src_size] in *.
    + inversion HK; subst. rewrite (str_key_ok e m L c cs M I G) by lia. rewrite E. cbn [bind]. auto using Z.le_refl.
    + inversion HK; subst. cbn [map_get_hash_by_utf8]. rewrite E. cbn [bind]. split; auto. split; auto. split; auto. split; auto.
      apply zlen_encs_le; auto.
    + destruct X as [->|(last & io2 & ->)]; [inversion HK|].
      destruct (io_key_ok e m L io c cs last io2 M I HK B) as [EI LI]. rewrite EI, E. cbn [bind]. auto.
Qed.

(** ** Walking a bucket *)
Lemma at_entry L en : forall p, map k_ref L = offsets p (kbytes L) -> In en L ->
  exists a b, kbytes L = a ++ encs (k_key en) :: b /\ k_ref en = p + zlen (arena a).
Proof.
  induction L as [|x L IH]; intros p R H; [destruct H|]. cbn [map kbytes offsets] in R. injection R as R1 R2.
  destruct H as [->|H].
  - exists [], (kbytes L). cbn [arena flat_map app]. rewrite (@zlen_nil Z). split; [reflexivity|lia].
  - destruct (IH _ R2 H) as (a & b & E1 & E2). exists (encs (k_key x) :: a), b. cbn [kbytes map]. fold (kbytes L). rewrite E1.
    split; [reflexivity|]. cbn [arena flat_map]. fold (arena a). rewrite !zlen_app. change (zlen [0]) with 1. lia.
Qed.

Lemma pending_string m L cs : minv m L -> pending m L cs -> Forall good_symbol cs ->
  c_string (skipn (Z.to_nat (m_ksize m)) (m_keys m)) = Some (encs cs).
Proof.
  intros I (_ & rest & K) G. destruct I. rewrite mi_ksize0, K.
  replace (zlen (arena (kbytes L))) with (zlen (arena (kbytes L)) + 0) by lia. rewrite skipn_zlen_app by lia. cbn [Z.to_nat skipn].
  apply c_string_app. apply nonzero_encs; auto.
Qed.

Lemma entry_string m L en : minv m L -> In en L ->
  c_string (skipn (Z.to_nat (k_ref en)) (m_keys m)) = Some (encs (k_key en))
  /\ 0 <= k_ref en < zlen (arena (kbytes L)).
Proof.
  intros I H. destruct I. destruct (at_entry L en 0 mi_refs0 H) as (a & b & E1 & E2). rewrite Z.add_0_l in E2.
  destruct mi_keys0 as [rest K]. rewrite Forall_forall in mi_good0. destruct (mi_good0 en H) as [G N].
  split.
  - rewrite E2. apply (string_at_ok a (encs (k_key en)) b _ rest); [rewrite K, E1; reflexivity|apply nonzero_encs; auto].
  - rewrite E2, E1, arena_app, zlen_app. cbn [arena flat_map]. rewrite !zlen_app. change (zlen [0]) with 1.
    pose proof (zlen_nonneg (arena a)). pose proof (zlen_nonneg (encs (k_key en))). fold (arena b). pose proof (zlen_nonneg (arena b)). fold (arena a). lia.
Qed.

Lemma cmp_ok m L en cs : minv m L -> pending m L cs -> Forall good_symbol cs -> In en L ->
  map_cmp_key m (k_idx en) = Some (key_eqb (k_key en) cs).
Proof.
  intros I P G H. unfold map_cmp_key. pose proof I as I0. destruct I.
  rewrite Forall_forall in mi_cells0, mi_good0. destruct (mi_cells0 en H) as [n C]. rewrite C. cbn [bind c_ref].
  destruct (entry_string m L en I0 H) as [S R]. rewrite S. cbn [bind]. rewrite (pending_string m L cs I0 P G). cbn [bind].
  destruct mi_keys0 as [rest K]. rewrite K, zlen_app. pose proof (zlen_nonneg rest).
  replace ((0 <=? k_ref en) && (k_ref en <? zlen (arena (kbytes L)) + zlen rest)) with true by lia.
  rewrite encs_eqb; auto. apply mi_good0; auto.
Qed.

(** The entries of a bucket, walked in order. *)
Definition walk_result (b : list mentry) (cs : list Z) (w : Z + Z) : Prop :=
  match w with
  | inl i => exists en, In en b /\ k_idx en = i /\ k_key en = cs
  | inr i => exists b0 en, b = b0 ++ [en] /\ k_idx en = i /\ (forall x, In x b0 -> k_key x <> cs)
  end.

Lemma max_idx m L en : minv m L -> In en L -> zlen (m_vals m) < 2 ^ 62 -> k_idx en <> SIZE_MAX.
Proof.
  intros [] H B E. rewrite Forall_forall in mi_range0. assert (0 <= k_idx en < m_vsize m) by (apply mi_range0; apply in_map; auto).
  unfold SIZE_MAX, two64 in E. lia.
Qed.

Lemma walk_ok m L cs : minv m L -> pending m L cs -> Forall good_symbol cs -> zlen (m_vals m) < 2 ^ 62 ->
  forall b en fuel, (forall x, In x (en :: b) -> In x L) -> linked (m_vals m) (map k_idx (en :: b)) ->
  (List.length b < fuel)%nat ->
  exists w, map_walk fuel m (k_idx en) = Some w /\ walk_result (en :: b) cs w.
Proof.
  intros I P G BV b. induction b as [|e2 b IH]; intros en fuel HI HL F; (destruct fuel as [|fuel]; [lia|]); cbn [map_walk].
  - cbn [map linked] in HL. destruct HL as [N _]. unfold nx in N. destruct (znth (m_vals m) (k_idx en)) as [c|] eqn:C; [|discriminate].
    cbn [bind option_map] in *. injection N as ->. rewrite Z.eqb_refl. eexists. split; [reflexivity|].
    exists [], en. split; auto.
  - cbn [map] in HL. destruct HL as [N HL]. unfold nx in N. destruct (znth (m_vals m) (k_idx en)) as [c|] eqn:C; [|discriminate].
    cbn [bind option_map] in *. injection N as ->.
    assert (I2: In e2 L) by (apply HI; right; left; auto).
    pose proof (max_idx m L e2 I I2 BV) as NM. replace (k_idx e2 =? SIZE_MAX) with false by lia.
    rewrite (cmp_ok m L en cs) by (auto; apply HI; left; auto). cbn [bind].
    destruct (key_eqb (k_key en) cs) eqn:E.
    + apply key_eqb_eq in E. eexists. split; [reflexivity|]. exists en. split; [left; auto|]. auto.
    + destruct (IH e2 fuel) as (w & W & R); [intros x Hx; apply HI; right; auto|exact HL|cbn in F; lia|].
      exists w. split; auto. destruct w as [i|i]; cbn [walk_result] in *.
      * destruct R as (x & X1 & X2). exists x. split; auto. right; auto.
      * destruct R as (b0 & x & B1 & B2 & B3). exists (en :: b0), x. rewrite B1. split; auto. split; auto.
        intros y [<-|Y]; auto. intros Q. apply key_eqb_eq in Q. congruence.
Qed.

(** Looking a key up. *)
Definition lookup_entry (L : list mentry) (cs : list Z) : option mentry := find (fun en => key_eqb (k_key en) cs) L.

Lemma dfind_lookup L cs : dfind (to_dict L) cs = option_map (fun en => (k_idx en, k_val en)) (lookup_entry L cs).
Proof.
  induction L as [|en L IH]; cbn [to_dict map dfind lookup_entry find]; auto.
  destruct (key_eqb (k_key en) cs); auto.
Qed.

Lemma lookup_unique L cs en : NoDup (map k_key L) -> In en L -> k_key en = cs -> lookup_entry L cs = Some en.
Proof.
  intros D H E. unfold lookup_entry. induction L as [|x L IH]; [destruct H|]. cbn [find map] in *. inversion D as [|? ? D1 D2]; subst.
  destruct H as [->|H].
  - assert (key_eqb (k_key en) (k_key en) = true) as -> by (apply key_eqb_eq; auto). auto.
  - rewrite key_eqb_neq; auto. intros Q. apply D1. rewrite Q. apply in_map; auto.
Qed.
Lemma lookup_absent L cs : (forall x, In x L -> k_key x <> cs) -> lookup_entry L cs = None.
Proof.
  intros H. unfold lookup_entry. induction L as [|x L IH]; cbn [find]; auto.
  rewrite key_eqb_neq by (apply H; left; auto). apply IH. intros y Y. apply H. right; auto.
Qed.
Lemma lookup_In L cs en : lookup_entry L cs = Some en -> In en L /\ k_key en = cs.
Proof. intros H. apply find_some in H as [H1 H2]. apply key_eqb_eq in H2. auto. Qed.

Lemma bucket_entries h L : bucket h L = map k_idx (filter (inb h) L). Proof. reflexivity. Qed.

(** What the walk of the bucket of [cs] tells. *)
Lemma filter_length_le {A} (f : A -> bool) l : (List.length (filter f l) <= List.length l)%nat.
Proof. induction l as [|x l IH]; cbn; auto. destruct (f x); cbn; lia. Qed.

Lemma idxs_count m L : minv m L -> (List.length L <= List.length (m_vals m))%nat.
Proof.
  intros []. assert (X: incl (idxs L) (map Z.of_nat (seq 0 (List.length (m_vals m))))).
  { intros i Hi. rewrite Forall_forall in mi_range0. apply mi_range0 in Hi. rewrite (zlen_unf (m_vals m)) in mi_vsize0.
    apply in_map_iff. exists (Z.to_nat i). split; [lia|]. apply in_seq. lia. }
  apply NoDup_incl_length in X; auto. unfold idxs in X. rewrite !map_length, seq_length in X. exact X.
Qed.

Lemma walk_bucket m L cs : minv m L -> pending m L cs -> Forall good_symbol cs -> cs <> [] -> zlen (m_vals m) < 2 ^ 62 ->
  exists w, map_walk (S (List.length (m_vals m))) m (khash cs) = Some w /\
  match w with
  | inl i => exists en, lookup_entry L cs = Some en /\ k_idx en = i
  | inr i =>
      (filter (inb (khash cs)) L = [] /\ i = khash cs /\ lookup_entry L cs = None)
      \/ exists b0 en, filter (inb (khash cs)) L = b0 ++ [en] /\ i = k_idx en /\ In en L
           /\ (k_key en = cs /\ lookup_entry L cs = Some en \/ k_key en <> cs /\ lookup_entry L cs = None)
  end.
Proof.
  intros I P G Ne BV. pose proof I as I0. destruct I. destruct (mi_bucket0 (khash cs) (khash_range cs)) as [LK HB].
  unfold bucket in *. destruct (filter (inb (khash cs)) L) as [|en b] eqn:FL.
  - cbn [map] in HB. destruct HB as [v C]. exists (inr (khash cs)). cbn [map_walk]. rewrite C. cbn [bind c_next]. rewrite Z.eqb_refl.
    split; auto. left. split; auto. split; auto. apply lookup_absent. intros x Hx E.
    assert (In x (filter (inb (khash cs)) L)) by (apply filter_In; split; auto; unfold inb; rewrite E; apply Z.eqb_refl).
    rewrite FL in H. destruct H.
  - cbn [map] in HB. rewrite <- HB.
    assert (SUB: forall x, In x (en :: b) -> In x L) by (intros x Hx; rewrite <- FL in Hx; apply filter_In in Hx; tauto).
    destruct (walk_ok m L cs I0 P G BV b en (S (List.length (m_vals m)))) as (w & W & R); auto.
    { pose proof (filter_length_le (inb (khash cs)) L) as Q. rewrite FL in Q. cbn [List.length] in Q. pose proof (idxs_count m L I0). lia. }
    exists w. split; auto. destruct w as [i|i]; cbn [walk_result] in R.
    + destruct R as (x & X1 & X2 & X3). exists x. split; auto. apply lookup_unique; auto.
    + right. destruct R as (b0 & x & B1 & B2 & B3). exists b0, x. split; auto. split; auto.
      assert (IX: In x L) by (apply SUB; rewrite B1; apply in_or_app; right; left; auto). split; auto.
      destruct (key_eqb (k_key x) cs) eqn:E.
      * apply key_eqb_eq in E. left. split; auto. apply lookup_unique; auto.
      * right. assert (k_key x <> cs) by (intros Q; apply key_eqb_eq in Q; congruence). split; auto.
        apply lookup_absent. intros y Hy Q.
        assert (Y: In y (filter (inb (khash cs)) L)) by (apply filter_In; split; auto; unfold inb; rewrite Q; apply Z.eqb_refl).
        rewrite FL, B1 in Y. apply in_app_or in Y as [Y|[<-|[]]]; auto. apply (B3 y); auto.
Qed.

Lemma entry_cell m L en : minv m L -> In en L -> exists n, znth (m_vals m) (k_idx en) = Some (mkCell n (k_ref en) (k_val en)).
Proof. intros [] H. rewrite Forall_forall in mi_cells0. auto. Qed.

Lemma ref_not_max m L en : minv m L -> In en L -> k_ref en <> SIZE_MAX.
Proof.
  intros I H E. destruct (entry_string m L en I H) as [_ R]. destruct I. destruct mi_keys0 as [r K]. rewrite K, zlen_app in mi_klen0.
  pose proof (zlen_nonneg r). unfold SIZE_MAX, two64 in E. lia.
Qed.

Lemma khash_not_max cs : khash cs <> SIZE_MAX.
Proof. pose proof (khash_range cs). unfold SIZE_MAX, two64. lia. Qed.

Lemma get_index_ok m L cs : minv m L -> pending m L cs -> Forall good_symbol cs -> cs <> [] -> zlen (m_vals m) < 2 ^ 62 ->
  map_get_index_by_hash m (khash cs) = Some (match lookup_entry L cs with Some en => k_idx en | None => SIZE_MAX end).
Proof.
  intros I P G Ne BV. unfold map_get_index_by_hash. pose proof (khash_not_max cs). replace (khash cs =? SIZE_MAX) with false by lia.
  destruct (walk_bucket m L cs I P G Ne ltac:(lia)) as (w & W & R). rewrite W. cbn [bind]. destruct w as [i|i].
  - destruct R as (en & -> & ->). reflexivity.
  - destruct R as [(F & -> & ->)|(b0 & en & F & -> & HI & R)].
    + pose proof (mi_bucket _ _ I (khash cs) (khash_range cs)) as [_ HB]. unfold bucket in HB. rewrite F in HB. cbn [map] in HB.
      destruct HB as [v C]. rewrite C. cbn [bind c_ref]. rewrite Z.eqb_refl. reflexivity.
    + destruct (entry_cell m L en I HI) as [n C]. rewrite C. cbn [bind c_ref].
      pose proof (ref_not_max m L en I HI). replace (k_ref en =? SIZE_MAX) with false by lia.
      rewrite (cmp_ok m L en cs) by auto. cbn [bind]. destruct R as [[E ->]|[E ->]].
      * assert (key_eqb (k_key en) cs = true) as -> by (apply key_eqb_eq; auto). reflexivity.
      * rewrite key_eqb_neq by auto. reflexivity.
Qed.

(** ** Changing the table *)
Lemma vals_bound m L : minv m L -> m_ksize m < 2 ^ 56 -> zlen (m_vals m) < 2 ^ 58.
Proof.
  intros [] B. pose proof (arena_ge (kbytes L)) as A. unfold kbytes in A at 1. rewrite zlen_map in A. lia.
Qed.

Definition upd_val (L : list mentry) (i v : Z) : list mentry :=
  map (fun en => if k_idx en =? i then mkME (k_key en) (k_idx en) (k_ref en) v else en) L.

Lemma upd_val_map {B} (f : mentry -> B) L i v : (forall k j r v v', f (mkME k j r v) = f (mkME k j r v')) ->
  map f (upd_val L i v) = map f L.
Proof.
  intros H. unfold upd_val. rewrite map_map. apply map_ext. intros [k j r w]. cbn. destruct (j =? i); auto.
Qed.

Lemma upd_val_bucket h L i v : bucket h (upd_val L i v) = bucket h L.
Proof.
  unfold bucket, upd_val. induction L as [|[k j r w] L IH]; cbn [map filter]; auto.
  assert (E: inb h (if j =? i then mkME k j r v else mkME k j r w) = inb h (mkME k j r w)) by (destruct (j =? i); reflexivity).
  cbn [k_idx k_key k_ref]. rewrite E. destruct (inb h (mkME k j r w)); cbn [map]; rewrite IH; auto. destruct (j =? i); reflexivity.
Qed.

Lemma upd_val_dict L i v : to_dict (upd_val L i v) = dset (to_dict L) i v.
Proof.
  unfold to_dict, dset, upd_val. rewrite !map_map. apply map_ext. intros [k j r w]. cbn. destruct (j =? i); reflexivity.
Qed.

Lemma linked_ext vals vals' b : (forall i, In i b -> nx vals' i = nx vals i) -> linked vals b -> linked vals' b.
Proof.
  induction b as [|i b IH]; cbn [linked]; auto. intros H [N K]. split.
  - rewrite H by (left; auto). auto.
  - apply IH; auto. intros j J. apply H. right; auto.
Qed.

Lemma set_value_ok m L en v : minv m L -> In en L ->
  exists n m', znth (m_vals m) (k_idx en) = Some (mkCell n (k_ref en) (k_val en)) /\
    put_cell m (k_idx en) (mkCell n (k_ref en) v) = Some m' /\ minv m' (upd_val L (k_idx en) v)
    /\ m_ksize m' = m_ksize m.
Proof.
  intros I H. pose proof I as I0. destruct (entry_cell m L en I H) as [n C]. destruct I.
  pose proof (znth_Some_lt _ _ _ C) as R. exists n. unfold put_cell.
  replace ((0 <=? k_idx en) && (k_idx en <? zlen (m_vals m))) with true by lia.
  eexists. split; auto. split; [reflexivity|]. split; [|reflexivity].
  assert (NX: forall i, nx (zupd (m_vals m) (k_idx en) (mkCell n (k_ref en) v)) i = nx (m_vals m) i).
  { intros i. unfold nx. destruct (Z.eq_dec (k_idx en) i) as [<-|N].
    - rewrite znth_zupd_same, C by auto. reflexivity.
    - rewrite znth_zupd_other by auto. reflexivity. }
  assert (KB: kbytes (upd_val L (k_idx en) v) = kbytes L) by (apply upd_val_map; reflexivity).
  assert (KI: idxs (upd_val L (k_idx en) v) = idxs L) by (apply upd_val_map; reflexivity).
  split; cbn [m_keys m_ksize m_knext m_vals m_vsize]; rewrite ?KB, ?KI; auto.
  - rewrite <- mi_refs0. apply upd_val_map; reflexivity.
  - unfold upd_val. apply Forall_forall. intros x Hx. apply in_map_iff in Hx as (y & <- & Hy).
    rewrite Forall_forall in mi_cells0. destruct (mi_cells0 y Hy) as [n' C'].
    destruct (k_idx y =? k_idx en) eqn:E.
    + apply Z.eqb_eq in E. cbn [k_idx k_ref k_val]. rewrite E. rewrite znth_zupd_same by auto. exists n.
      rewrite E, C in C'. injection C' as _ <- _. reflexivity.
    + exists n'. rewrite znth_zupd_other by lia. auto.
  - intros h Hh. rewrite upd_val_bucket. destruct (mi_bucket0 h Hh) as [A B]. split.
    + eapply linked_ext; eauto.
    + destruct (bucket h L) as [|i b] eqn:BB; auto. destruct B as [w W]. exists w.
      rewrite znth_zupd_other; auto. intros Q. rewrite <- Q, C in W. injection W as _ W _. apply (ref_not_max m L en I0 H W).
  - rewrite zlen_zupd. auto.
  - unfold upd_val. apply Forall_forall. intros x Hx. apply in_map_iff in Hx as (y & <- & Hy).
    rewrite Forall_forall in mi_good0. specialize (mi_good0 y Hy). destruct (k_idx y =? k_idx en); auto.
  - assert (KK: map k_key (upd_val L (k_idx en) v) = map k_key L) by (apply upd_val_map; reflexivity). rewrite KK; auto.
  - rewrite zlen_zupd. auto.
  - unfold upd_val. rewrite zlen_map. auto.
Qed.

Lemma dset_none L i v : (forall en, In en L -> k_idx en <> i) -> dset (to_dict L) i v = to_dict L.
Proof.
  intros H. unfold dset, to_dict. rewrite map_map. apply map_ext_in. intros en Hen. specialize (H en Hen).
  replace (k_idx en =? i) with false by lia. reflexivity.
Qed.

Lemma dat_find L i : dat (to_dict L) i = option_map (fun en => (k_key en, k_val en)) (find (fun en => k_idx en =? i) L).
Proof. induction L as [|en L IH]; cbn [to_dict map dat find]; auto. destruct (k_idx en =? i); auto. Qed.

(** The cell at any index below the size. *)
Lemma index_ok m L i : minv m L -> 0 <= i < m_vsize m ->
  match find (fun en => k_idx en =? i) L with
  | Some en => In en L /\ k_idx en = i
  | None => exists v, znth (m_vals m) i = Some (mkCell SIZE_MAX SIZE_MAX v)
  end.
Proof.
  intros I R. pose proof I as I0. destruct I. destruct (find (fun en => k_idx en =? i) L) as [en|] eqn:F.
  - apply find_some in F as [F1 F2]. split; auto. lia.
  - assert (N: ~ In i (idxs L)).
    { intros H. apply in_map_iff in H as (en & E & H). eapply find_none in F; eauto. cbn in F. lia. }
    destruct (Z.lt_ge_cases i 256) as [Lt|Ge]; [|exfalso; apply N; apply mi_used0; lia].
    destruct (mi_bucket0 i ltac:(lia)) as [_ B]. destruct (bucket i L) as [|j b] eqn:E; auto.
    exfalso. subst j. apply N. unfold bucket in E. assert (X: In i (map k_idx (filter (inb i) L))) by (rewrite E; left; auto).
    apply in_map_iff in X as (en & X1 & X2). apply filter_In in X2 as [X2 _]. rewrite <- X1. apply in_map; auto.
Qed.

Lemma no_index m L i : minv m L -> m_vsize m <= i -> find (fun en => k_idx en =? i) L = None.
Proof.
  intros I R. destruct (find _ L) as [en|] eqn:F; auto. apply find_some in F as [F1 F2]. destruct I.
  rewrite Forall_forall in mi_range0. assert (0 <= k_idx en < m_vsize m) by (apply mi_range0, in_map; auto). lia.
Qed.

Lemma set_by_index_ok m L i v : minv m L -> 0 <= i ->
  exists m' L', map_set_by_index m i v = Some (match dat (to_dict L) i with Some _ => 0 | None => -1 end, m')
    /\ minv m' L' /\ to_dict L' = dset (to_dict L) i v /\ m_ksize m' = m_ksize m.
Proof.
  intros I R. unfold map_set_by_index. rewrite dat_find. destruct (m_vsize m <=? i) eqn:E.
  - rewrite (no_index m L i) by (auto; lia). exists m, L. split; auto. split; auto. split; auto.
    symmetry. apply dset_none. intros en H Q. pose proof (no_index m L i I ltac:(lia)) as F. eapply find_none in F; eauto. cbn in F. lia.
  - pose proof (index_ok m L i I ltac:(lia)) as X. destruct (find (fun en => k_idx en =? i) L) as [en|] eqn:F.
    + destruct X as [H <-]. destruct (set_value_ok m L en v I H) as (n & m' & C & P & I' & K).
      rewrite C. cbn [bind c_ref c_next]. pose proof (ref_not_max m L en I H). replace (k_ref en =? SIZE_MAX) with false by lia.
      rewrite P. cbn [bind option_map]. exists m', (upd_val L (k_idx en) v). split; auto. split; auto. split; auto. apply upd_val_dict.
    + destruct X as [w C]. rewrite C. cbn [bind c_ref]. rewrite Z.eqb_refl. exists m, L. split; auto. split; auto. split; auto.
      symmetry. apply dset_none. intros en H Q. eapply find_none in F; eauto. cbn in F. lia.
Qed.

Lemma get_by_index_ok m L i : minv m L -> 0 <= i ->
  map_get_by_index m i = Some (match dat (to_dict L) i with Some (_, v) => v | None => ITEM_MAX end).
Proof.
  intros I R. unfold map_get_by_index. rewrite dat_find. destruct (i <? m_vsize m) eqn:E.
  - pose proof (index_ok m L i I ltac:(lia)) as X. destruct (find (fun en => k_idx en =? i) L) as [en|] eqn:F.
    + destruct X as [H <-]. destruct (entry_cell m L en I H) as [n C]. rewrite C. cbn [bind c_ref c_value option_map].
      pose proof (ref_not_max m L en I H). replace (k_ref en =? SIZE_MAX) with false by lia. auto.
    + destruct X as [w C]. rewrite C. cbn [bind c_ref]. rewrite Z.eqb_refl. auto.
  - rewrite (no_index m L i) by (auto; lia). auto.
Qed.

Lemma to_string_index_ok m L i : minv m L -> 0 <= i ->
  map_to_string m i = Some (match dat (to_dict L) i with Some (k, _) => Some (encs k) | None => None end).
Proof.
  intros I R. unfold map_to_string. rewrite dat_find. destruct (i <? m_vsize m) eqn:E.
  - pose proof (index_ok m L i I ltac:(lia)) as X. destruct (find (fun en => k_idx en =? i) L) as [en|] eqn:F.
    + destruct X as [H <-]. destruct (entry_cell m L en I H) as [n C]. rewrite C. cbn [bind c_ref c_value option_map].
      pose proof (ref_not_max m L en I H). replace (k_ref en =? SIZE_MAX) with false by lia.
      destruct (entry_string m L en I H) as [S _]. rewrite S. auto.
    + destruct X as [w C]. rewrite C. cbn [bind c_ref]. rewrite Z.eqb_refl. auto.
  - rewrite (no_index m L i) by (auto; lia). auto.
Qed.

(** Adding an entry. *)
Lemma nodup_snoc {A} (l : list A) x : NoDup l -> ~ In x l -> NoDup (l ++ [x]).
Proof.
  intros D N. apply NoDup_rev in D. rewrite <- (rev_involutive (l ++ [x])). apply NoDup_rev. rewrite rev_app_distr. cbn.
  constructor; auto. rewrite <- in_rev. auto.
Qed.

Lemma bucket_snoc h L en : bucket h (L ++ [en]) = if inb h en then bucket h L ++ [k_idx en] else bucket h L.
Proof. unfold bucket. rewrite filter_app. cbn [filter]. destruct (inb h en); rewrite map_app; cbn [map]; auto. apply app_nil_r. Qed.

Lemma bucket_In h L i : In i (bucket h L) -> exists en, In en L /\ k_idx en = i /\ khash (k_key en) = h.
Proof.
  unfold bucket. intros H. apply in_map_iff in H as (en & E & H). apply filter_In in H as [H1 H2]. unfold inb in H2. exists en. split; auto. split; auto. lia.
Qed.

Lemma linked_snoc vals vals' b i j : linked vals (b ++ [i]) ->
  (forall k, In k b -> nx vals' k = nx vals k) -> nx vals' i = Some j -> nx vals' j = Some SIZE_MAX ->
  linked vals' ((b ++ [i]) ++ [j]).
Proof.
  induction b as [|k b IH]; cbn [app linked]; intros L E N1 N2.
  - auto.
  - destruct L as [L1 L2]. split.
    + rewrite E by (left; auto). rewrite L1. destruct b; reflexivity.
    + apply IH; auto. intros x X. apply E. right; auto.
Qed.

(** Parts of the invariant that only depend on the list and the keys. *)
Lemma key_parts m L cs idx v : minv m L -> pending m L cs ->
  let L' := L ++ [mkME cs idx (m_ksize m) v] in
  (exists rest, m_keys m = arena (kbytes L') ++ rest)
  /\ m_knext m + 1 = zlen (arena (kbytes L'))
  /\ map k_ref L' = offsets 0 (kbytes L').
Proof.
  intros I (N & rest & K) L'. destruct I. unfold L'.
  assert (KB: kbytes (L ++ [mkME cs idx (m_ksize m) v]) = kbytes L ++ [encs cs]) by (unfold kbytes; rewrite map_app; reflexivity).
  rewrite KB. rewrite arena_app. cbn [arena flat_map]. rewrite app_nil_r. fold (arena (kbytes L)). split; [|split].
  - exists rest. rewrite K, <- !app_assoc. reflexivity.
  - rewrite N, zlen_app, zlen_snoc. lia.
  - rewrite offsets_app, map_app, mi_refs0. cbn [map offsets k_ref]. rewrite Z.add_0_l, mi_ksize0. reflexivity.
Qed.

Lemma absent_key L cs : lookup_entry L cs = None -> ~ In cs (map k_key L).
Proof.
  intros F H. apply in_map_iff in H as (en & E & H). unfold lookup_entry in F. eapply find_none in F; eauto. cbn in F.
  apply key_eqb_eq in E. congruence.
Qed.

Lemma add_first_ok m L cs v w : minv m L -> pending m L cs -> Forall good_symbol cs -> cs <> [] ->
  lookup_entry L cs = None -> filter (inb (khash cs)) L = [] ->
  znth (m_vals m) (khash cs) = Some (mkCell SIZE_MAX SIZE_MAX w) ->
  let i := khash cs in
  minv (mkMap (m_keys m) (m_knext m + 1) (m_knext m) (zupd (m_vals m) i (mkCell SIZE_MAX (m_ksize m) v)) (m_vsize m))
       (L ++ [mkME cs i (m_ksize m) v])
  /\ ~ In i (idxs L).
Proof.
  intros I P G Ne LN FL C i. pose proof (khash_range cs) as HR. fold i in HR, FL, C.
  assert (NI: forall en, In en L -> k_idx en <> i).
  { intros en H Q. destruct (entry_cell m L en I H) as [n C']. rewrite Q, C in C'. injection C' as _ C' _.
    apply (ref_not_max m L en I H). auto. }
  assert (NI': ~ In i (idxs L)) by (intros H; apply in_map_iff in H as (en & E & H); apply (NI en); auto).
  split; auto. destruct (key_parts m L cs i v I P) as (K1 & K2 & K3). pose proof (znth_Some_lt _ _ _ C) as RG.
  destruct I. split; cbn [m_keys m_ksize m_knext m_vals m_vsize]; auto.
  - apply Forall_app. split.
    + eapply Forall_impl; [|apply Forall_and; [exact mi_cells0|apply Forall_forall; exact NI]].
      intros en [[n Cn] N]. exists n. rewrite znth_zupd_other; auto.
    + constructor; auto. cbn [k_idx k_ref k_val]. exists SIZE_MAX. rewrite znth_zupd_same; auto.
  - intros h Hh. rewrite bucket_snoc. unfold inb. cbn [k_key k_idx]. fold i. destruct (mi_bucket0 h Hh) as [A B].
    destruct (i =? h) eqn:E.
    + apply Z.eqb_eq in E. rewrite <- E. unfold bucket in *. rewrite FL in *. cbn [map app linked]. split; auto. split; auto.
      unfold nx. rewrite znth_zupd_same; auto.
    + split.
      * eapply linked_ext; [|exact A]. intros j J. apply bucket_In in J as (en & J1 & J2 & _). unfold nx.
        rewrite znth_zupd_other; auto. intros Q. apply (NI en J1). lia.
      * destruct (bucket h L); auto. destruct B as [w' B]. exists w'. rewrite znth_zupd_other; auto. lia.
  - unfold idxs. rewrite map_app. apply nodup_snoc; auto.
  - intros j J. unfold idxs. rewrite map_app. apply in_or_app. left. apply mi_used0; auto.
  - unfold idxs. rewrite map_app. apply Forall_app. split; auto. constructor; auto. cbn [k_idx]. lia.
  - rewrite zlen_zupd; auto.
  - apply Forall_app. split; auto.
  - rewrite map_app. apply nodup_snoc; auto. apply absent_key; auto.
  - rewrite zlen_zupd; auto.
  - rewrite zlen_snoc. lia.
Qed.

Lemma add_next_ok m L cs v vals b0 en n r w : minv m L -> pending m L cs -> Forall good_symbol cs -> cs <> [] ->
  lookup_entry L cs = None -> filter (inb (khash cs)) L = b0 ++ [en] ->
  (forall i, i < zlen (m_vals m) -> znth vals i = znth (m_vals m) i) ->
  m_vsize m < zlen vals -> zlen vals <= 2 ^ 51 + 2 * m_vsize m ->
  znth vals (k_idx en) = Some (mkCell n r w) ->
  let k := m_vsize m in
  minv (mkMap (m_keys m) (m_knext m + 1) (m_knext m)
          (zupd (zupd vals (k_idx en) (mkCell k r w)) k (mkCell SIZE_MAX (m_ksize m) v)) (k + 1))
       (L ++ [mkME cs k (m_ksize m) v])
  /\ ~ In k (idxs L).
Proof.
  intros I P G Ne LN FL VX VL VM C k. pose proof (khash_range cs) as HR.
  assert (Hen: In en L) by (assert (X: In en (filter (inb (khash cs)) L)) by (rewrite FL; apply in_elt); apply filter_In in X; tauto).
  assert (NI: forall x, In x L -> 0 <= k_idx x < k).
  { intros x H. destruct I. rewrite Forall_forall in mi_range0. apply mi_range0, in_map; auto. }
  assert (NI': ~ In k (idxs L)) by (intros H; apply in_map_iff in H as (x & E & H); specialize (NI x H); lia).
  split; auto. destruct (key_parts m L cs k v I P) as (K1 & K2 & K3). pose proof I as I0. destruct I.
  set (vals' := zupd (zupd vals (k_idx en) (mkCell k r w)) k (mkCell SIZE_MAX (m_ksize m) v)).
  pose proof (NI en Hen) as Ren.
  assert (V1: znth vals' k = Some (mkCell SIZE_MAX (m_ksize m) v)) by (unfold vals'; rewrite znth_zupd_same; auto; rewrite zlen_zupd; lia).
  assert (V2: znth vals' (k_idx en) = Some (mkCell k r w)) by (unfold vals'; rewrite znth_zupd_other by lia; rewrite znth_zupd_same; auto; lia).
  assert (V3: forall j, j < zlen (m_vals m) -> j <> k -> j <> k_idx en -> znth vals' j = znth (m_vals m) j).
  { intros j J1 J2 J3. unfold vals'. rewrite !znth_zupd_other by lia. apply VX; auto. }
  assert (ZL: zlen vals' = zlen vals) by (unfold vals'; rewrite !zlen_zupd; auto).
  assert (VR: 256 <= k <= zlen (m_vals m)) by (unfold k; lia).
  assert (BK: bucket (khash cs) L = map k_idx b0 ++ [k_idx en]) by (unfold bucket; rewrite FL, map_app; reflexivity).
  split; cbn [m_keys m_ksize m_knext m_vals m_vsize]; auto.
  - apply Forall_app. split.
    + apply Forall_forall. intros x Hx. rewrite Forall_forall in mi_cells0. destruct (mi_cells0 x Hx) as [n' Cn]. specialize (NI x Hx).
      destruct (Z.eq_dec (k_idx x) (k_idx en)) as [E|E].
      * exists k. rewrite E, V2. rewrite <- VX in Cn by lia. rewrite E, C in Cn. injection Cn as _ <- <-. reflexivity.
      * exists n'. rewrite V3; auto; lia.
    + constructor; auto. cbn [k_idx k_ref k_val]. exists SIZE_MAX. auto.
  - intros h Hh. rewrite bucket_snoc. unfold inb. cbn [k_key k_idx]. destruct (mi_bucket0 h Hh) as [A B].
    assert (ND: forall j, In j (idxs L) -> j < k) by (intros j J; apply in_map_iff in J as (x & <- & J); specialize (NI x J); lia).
    destruct (khash cs =? h) eqn:E.
    + apply Z.eqb_eq in E. subst h. rewrite BK in *. split.
      * eapply linked_snoc; eauto.
        -- intros j J. unfold nx. rewrite V3; auto.
           ++ apply in_map_iff in J as (x & <- & J). assert (In x L). { assert (X: In x (filter (inb (khash cs)) L)) by (rewrite FL; apply in_or_app; auto). apply filter_In in X; tauto. }
              specialize (NI x H). lia.
           ++ apply in_map_iff in J as (x & <- & J). assert (In x L). { assert (X: In x (filter (inb (khash cs)) L)) by (rewrite FL; apply in_or_app; auto). apply filter_In in X; tauto. }
              specialize (NI x H). lia.
           ++ intros Q. subst j. assert (DB: NoDup (map k_idx b0 ++ [k_idx en])).
              { rewrite <- BK. unfold bucket. clear - mi_nodup0. unfold idxs in mi_nodup0. induction L as [|x L IH]; cbn; [constructor|].
                inversion mi_nodup0; subst. destruct (inb (khash cs) x); auto. cbn. constructor; auto.
                intros H. apply H1. apply in_map_iff in H as (y & <- & H). apply filter_In in H as [H _]. apply in_map; auto. }
              apply NoDup_remove in DB as [_ DB]. rewrite app_nil_r in DB. auto.
        -- unfold nx. rewrite V2. reflexivity.
        -- unfold nx. rewrite V1. reflexivity.
      * destruct b0 as [|x b0]; cbn [map app] in *; auto.
    + split.
      * eapply linked_ext; [|exact A]. intros j J. apply bucket_In in J as (x & J1 & J2 & J3). unfold nx. specialize (NI x J1).
        rewrite V3; auto; [lia|lia|]. intros Q.
        (* an index has one entry *)
        assert (x = en).
        { clear - mi_nodup0 J1 Hen J2 Q. unfold idxs in *. induction L as [|y L IH]; [destruct Hen|]. cbn in *. inversion mi_nodup0; subst.
          destruct J1 as [<-|J1]; destruct Hen as [<-|Hen]; auto.
          - exfalso. apply H1. rewrite Q. apply in_map; auto.
          - exfalso. apply H1. rewrite <- Q. apply in_map; auto. }
        subst x. assert (X: In en (filter (inb (khash cs)) L)) by (rewrite FL; apply in_elt). apply filter_In in X as [_ X]. unfold inb in X. lia.
      * destruct (bucket h L) as [|j b] eqn:BB; auto. destruct B as [w' B]. exists w'. rewrite V3; auto; try lia.
        intros Q. subst h. destruct (entry_cell m L en I0 Hen) as [n' C']. rewrite B in C'. injection C' as _ C' _. apply (ref_not_max m L en I0 Hen); auto.
  - unfold idxs. rewrite map_app. apply nodup_snoc; auto.
  - intros j J. unfold idxs. rewrite map_app. apply in_or_app. destruct (Z.eq_dec j k) as [->|N]; [right; left; auto|left; apply mi_used0; unfold k in *; lia].
  - unfold idxs. rewrite map_app. apply Forall_app. split; [|constructor; auto; cbn [k_idx]; lia].
    eapply Forall_impl; [|exact mi_range0]. intros j J. cbn in J. unfold k. lia.
  - rewrite ZL. unfold k in *. lia.
  - apply Forall_app. split; auto.
  - rewrite map_app. apply nodup_snoc; auto. apply absent_key; auto.
  - rewrite ZL. unfold k. lia.
  - rewrite zlen_snoc. unfold k. lia.
Qed.

Lemma add_by_hash_ok e m L cs v : mem_always e -> minv m L -> pending m L cs -> Forall good_symbol cs -> cs <> [] -> m_ksize m < 2 ^ 56 ->
  exists r m' L', map_add_by_hash e m (khash cs) v = Some (r, m') /\ minv m' L' /\ add_entry (to_dict L) cs v r (to_dict L')
    /\ m_ksize m' <= m_ksize m + zlen (encs cs) + 1 /\ m_knext m' = m_knext m
    /\ (lookup_entry L cs <> None -> m' = m /\ L' = L) /\ (lookup_entry L cs = None -> m_ksize m' = m_knext m + 1).
Proof.
  intros M I P G Ne B. pose proof (vals_bound m L I B) as BV. pose proof (zlen_nonneg (encs cs)) as ZE.
  unfold map_add_by_hash. pose proof (khash_not_max cs). replace (khash cs =? SIZE_MAX) with false by lia.
  unfold add_entry. rewrite dfind_lookup. rewrite (key_eqb_neq cs []) by auto.
  assert (DI: forall L, dindexes (to_dict L) = idxs L) by (intros; unfold dindexes, to_dict, idxs; rewrite map_map; apply map_ext; reflexivity).
  destruct (walk_bucket m L cs I P G Ne ltac:(lia)) as (w & W & R). rewrite W. cbn [bind]. destruct w as [i|i].
  - destruct R as (en & -> & <-). cbn [option_map]. exists (if v =? ITEM_MAX then k_idx en else SIZE_MAX), m, L.
    split; auto. split; auto. split; auto. split; [lia|]. split; auto. split; auto. discriminate.
  - destruct R as [(F & -> & LN)|(b0 & en & F & -> & HI & R)].
    + rewrite LN. cbn [option_map].
      pose proof (mi_bucket _ _ I (khash cs) (khash_range cs)) as [_ HB]. unfold bucket in HB. rewrite F in HB. cbn [map] in HB.
      destruct HB as [u C]. rewrite C. cbn [bind c_ref c_next]. rewrite Z.eqb_refl. unfold put_cell. pose proof (znth_Some_lt _ _ _ C) as RG.
      replace ((0 <=? khash cs) && (khash cs <? zlen (m_vals m))) with true by lia. cbn [bind m_keys m_ksize m_knext m_vals m_vsize].
      destruct (add_first_ok m L cs v u I P G Ne LN F C) as [I' N'].
      eexists _, _, _. split; [reflexivity|]. split; [exact I'|]. cbn [m_ksize m_knext].
      split; [rewrite DI; split; auto; split; [pose proof (khash_range cs); unfold SIZE_MAX, two64; lia|unfold to_dict; rewrite map_app; reflexivity]|].
      split; [destruct P as [-> _]; lia|]. split; auto. split; [congruence|auto].
    + destruct (entry_cell m L en I HI) as [n C]. rewrite C. cbn [bind c_ref].
      pose proof (ref_not_max m L en I HI). replace (k_ref en =? SIZE_MAX) with false by lia.
      rewrite (cmp_ok m L en cs) by auto. cbn [bind]. destruct R as [[E LN]|[E LN]].
      * rewrite LN. assert (key_eqb (k_key en) cs = true) as -> by (apply key_eqb_eq; auto). cbn [option_map].
        exists (if v =? ITEM_MAX then k_idx en else SIZE_MAX), m, L.
        split; auto. split; auto. split; auto. split; [lia|]. split; auto. split; auto. discriminate.
      * rewrite LN. rewrite key_eqb_neq by auto. cbn [option_map].
        pose proof (mi_vsize _ _ I) as VS. pose proof (mi_vmax _ _ I) as VM. pose proof (znth_Some_lt _ _ _ C) as RG.
        assert (RI: 0 <= k_idx en < m_vsize m). { pose proof (mi_range _ _ I) as Q. rewrite Forall_forall in Q. apply Q, in_map; auto. }
        set (full := m_vsize m =? zlen (m_vals m)).
        rewrite (M (2 * zlen (m_vals m) * 24)) by lia. rewrite andb_false_r.
        set (vals := if full then m_vals m ++ fresh_cells e (zlen (m_vals m)) else m_vals m).
        assert (EM: (if full then mkMap (m_keys m) (m_ksize m) (m_knext m) (m_vals m ++ fresh_cells e (zlen (m_vals m))) (m_vsize m) else m)
                    = mkMap (m_keys m) (m_ksize m) (m_knext m) vals (m_vsize m)).
        { unfold vals. destruct full; auto. destruct m; reflexivity. }
        rewrite EM. cbn [m_vals m_vsize]. clear EM.
        assert (VX: forall i, i < zlen (m_vals m) -> znth vals i = znth (m_vals m) i).
        { intros i Hi. unfold vals. destruct full; auto. apply znth_app1; auto. }
        assert (ZF: zlen (fresh_cells e (zlen (m_vals m))) = zlen (m_vals m)) by (unfold fresh_cells; rewrite zlen_map; apply zlen_o_fresh; lia).
        assert (VL: m_vsize m < zlen vals) by (unfold vals, full; destruct (m_vsize m =? zlen (m_vals m)) eqn:Q; [rewrite zlen_app, ZF|]; lia).
        assert (VM': zlen vals <= 2 ^ 51 + 2 * m_vsize m) by (unfold vals, full; destruct (m_vsize m =? zlen (m_vals m)) eqn:Q; [rewrite zlen_app, ZF|]; lia).
        assert (C': znth vals (k_idx en) = Some (mkCell n (k_ref en) (k_val en))) by (rewrite VX; auto; lia).
        rewrite C'. cbn [bind c_ref c_value]. unfold put_cell at 1. cbn [m_vals m_keys m_ksize m_knext m_vsize].
        replace ((0 <=? k_idx en) && (k_idx en <? zlen vals)) with true by lia. cbn [bind]. unfold put_cell. cbn [m_vals m_keys m_ksize m_knext m_vsize].
        rewrite zlen_zupd. replace ((0 <=? m_vsize m) && (m_vsize m <? zlen vals)) with true by lia. cbn [bind m_vals m_keys m_ksize m_knext m_vsize].
        destruct (add_next_ok m L cs v vals b0 en n (k_ref en) (k_val en) I P G Ne LN F VX VL VM' C') as [I' N'].
        eexists _, _, _. split; [reflexivity|]. split; [exact I'|]. cbn [m_ksize m_knext].
        split; [rewrite DI; split; auto; split; [unfold SIZE_MAX, two64; lia|unfold to_dict; rewrite map_app; reflexivity]|].
        split; [destruct P as [-> _]; lia|]. split; auto. split; [congruence|auto].
Qed.

(** ** Calls with a key *)
Lemma dfind_empty m L : minv m L -> dfind (to_dict L) [] = None.
Proof.
  intros I. rewrite dfind_lookup. destruct (lookup_entry L []) as [en|] eqn:F; auto. apply lookup_In in F as [F1 F2].
  pose proof (mi_good _ _ I) as G. rewrite Forall_forall in G. destruct (G en F1). congruence.
Qed.

Lemma empty_or cs : {cs = @nil Z} + {cs <> []}.
Proof. destruct cs; [left|right]; congruence. Qed.

Lemma add_ok e m L k cs x v : mem_always e -> minv m L -> key_of k cs x -> m_ksize m + src_size k + 16 < 2 ^ 56 ->
  exists r m' L', map_add e m k v = Some (r, x, m') /\ minv m' L' /\ add_entry (to_dict L) cs v r (to_dict L')
    /\ m_ksize m' <= m_ksize m + src_size k + 16.
Proof.
  intros M I HK B. destruct (get_hash_ok e m L k cs x M I HK ltac:(lia)) as (m1 & E & I1 & (_ & _ & S3) & P & Z).
  unfold map_add. rewrite E. cbn [bind]. pose proof (zlen_nonneg (encs cs)). destruct (empty_or cs) as [->|Ne].
  - exists SIZE_MAX, m1, L. split; [reflexivity|]. split; auto. split; [|lia]. unfold add_entry. rewrite (dfind_empty m L) by auto. split; auto.
  - rewrite key_eqb_neq by auto.
    destruct (add_by_hash_ok e m1 L cs v M I1 (P Ne) (key_good _ _ _ HK) Ne ltac:(lia)) as (r & m' & L' & Q1 & Q2 & Q3 & Q4 & _).
    rewrite Q1. exists r, m', L'. split; [reflexivity|]. split; auto. split; auto. lia.
Qed.

Lemma index_key_ok e m L k cs x : mem_always e -> minv m L -> key_of k cs x -> m_ksize m + src_size k + 16 < 2 ^ 56 ->
  exists h m', get_hash e m k = Some (h, x, m') /\ minv m' L /\ m_ksize m' = m_ksize m /\
    map_get_index_by_hash m' h = Some (match lookup_entry L cs with Some en => k_idx en | None => SIZE_MAX end)
    /\ (cs <> [] -> pending m' L cs).
Proof.
  intros M I HK B. destruct (get_hash_ok e m L k cs x M I HK ltac:(lia)) as (m1 & E & I1 & (_ & _ & S3) & P & Z).
  eexists _, m1. split; [exact E|]. split; auto. split; auto. split; auto. pose proof (zlen_nonneg (encs cs)). destruct (empty_or cs) as [->|Ne].
  - unfold map_get_index_by_hash. cbn [key_eqb]. rewrite Z.eqb_refl.
    pose proof (dfind_empty m L I) as Q. rewrite dfind_lookup in Q. destruct (lookup_entry L []); [discriminate|auto].
  - rewrite key_eqb_neq by auto. apply get_index_ok; auto. { apply (key_good _ _ _ HK). }
    pose proof (vals_bound m1 L I1 ltac:(lia)). lia.
Qed.

Lemma idx_not_max m L en : minv m L -> In en L -> m_ksize m < 2 ^ 56 -> k_idx en <> SIZE_MAX.
Proof. intros I H B. apply (max_idx m L en I H). pose proof (vals_bound m L I B). lia. Qed.

Lemma set_ok e m L k cs x v : mem_always e -> minv m L -> key_of k cs x -> m_ksize m + src_size k + 16 < 2 ^ 56 ->
  exists r m' L', map_set e m k v = Some (r, x, m') /\ minv m' L' /\ m_ksize m' = m_ksize m /\
    match dfind (to_dict L) cs with
    | Some (i, _) => r = i /\ to_dict L' = dset (to_dict L) i v
    | None => r = SIZE_MAX /\ L' = L
    end.
Proof.
  intros M I HK B. destruct (index_key_ok e m L k cs x M I HK B) as (h & m1 & E & I1 & S & F & _).
  assert (NS: 0 <= src_size k) by (destruct (get_hash_ok e m L k cs x M I HK ltac:(lia)) as (? & _ & _ & _ & _ & Z); pose proof (zlen_nonneg (encs cs)); lia).
  unfold map_set. rewrite E. cbn [bind]. unfold map_set_by_hash. rewrite F. cbn [bind]. rewrite dfind_lookup.
  destruct (lookup_entry L cs) as [en|] eqn:LE; cbn [option_map].
  - apply lookup_In in LE as [LE _]. pose proof (idx_not_max m1 L en I1 LE ltac:(lia)). replace (k_idx en =? SIZE_MAX) with false by lia.
    destruct (set_value_ok m1 L en v I1 LE) as (n & m' & C & P & I' & K). rewrite C. cbn [bind c_next c_ref]. rewrite P. cbn [bind].
    exists (k_idx en), m', (upd_val L (k_idx en) v). split; [reflexivity|]. split; auto. split; [lia|]. split; auto. apply upd_val_dict.
  - rewrite Z.eqb_refl. exists SIZE_MAX, m1, L. split; [reflexivity|]. split; auto.
Qed.

Lemma get_index_full e m L k cs x : mem_always e -> minv m L -> key_of k cs x -> m_ksize m + src_size k + 16 < 2 ^ 56 ->
  exists m', map_get_index e m k = Some (match dfind (to_dict L) cs with Some (i, _) => i | None => SIZE_MAX end, x, m')
    /\ minv m' L /\ m_ksize m' = m_ksize m /\ (cs <> [] -> pending m' L cs).
Proof.
  intros M I HK B. destruct (index_key_ok e m L k cs x M I HK B) as (h & m1 & E & I1 & S & F & P).
  unfold map_get_index. rewrite E. cbn [bind]. rewrite F. cbn [bind]. rewrite dfind_lookup. exists m1. split; auto.
  destruct (lookup_entry L cs); reflexivity.
Qed.

Lemma get_full e m L k cs x : mem_always e -> minv m L -> key_of k cs x -> m_ksize m + src_size k + 16 < 2 ^ 56 ->
  exists m', map_get e m k = Some (match dfind (to_dict L) cs with Some (_, v) => v | None => ITEM_MAX end, x, m')
    /\ minv m' L /\ m_ksize m' = m_ksize m /\ (cs <> [] -> pending m' L cs).
Proof.
  intros M I HK B. destruct (index_key_ok e m L k cs x M I HK B) as (h & m1 & E & I1 & S & F & P).
  assert (NS: 0 <= src_size k) by (destruct (get_hash_ok e m L k cs x M I HK ltac:(lia)) as (? & _ & _ & _ & _ & Z); pose proof (zlen_nonneg (encs cs)); lia).
  unfold map_get. rewrite E. cbn [bind]. unfold map_get_by_hash. rewrite F. cbn [bind]. rewrite dfind_lookup. exists m1.
  split; [|auto]. destruct (lookup_entry L cs) as [en|] eqn:LE; cbn [option_map].
  - apply lookup_In in LE as [LE _]. pose proof (idx_not_max m1 L en I1 LE ltac:(lia)). replace (k_idx en =? SIZE_MAX) with false by lia.
    destruct (entry_cell m1 L en I1 LE) as [n C]. rewrite C. reflexivity.
  - rewrite Z.eqb_refl. reflexivity.
Qed.

(** ** Histories *)
Lemma mexec_ok e m L op : mem_always e -> minv m L -> mop_ok op -> m_ksize m + mop_size op < 2 ^ 56 ->
  exists r m' L', mexec e m op = Some (r, m') /\ minv m' L' /\ mspec (to_dict L) op r (to_dict L')
    /\ m_ksize m' <= m_ksize m + mop_size op.
Proof.
  intros M I O B. destruct op as [k v|k|k v|k|k|i v|i|i]; cbn [mop_ok mop_size] in *.
  - destruct O as (cs & x & HK). destruct (add_ok e m L k cs x v M I HK ltac:(lia)) as (r & m' & L' & E & I' & A & S).
    cbn [mexec]. rewrite E. exists (MNum r x), m', L'. split; [reflexivity|]. split; auto. split; [econstructor; eauto|lia].
  - destruct O as (cs & x & HK). destruct (add_ok e m L k cs x ITEM_MAX M I HK ltac:(lia)) as (r & m' & L' & E & I' & A & S).
    cbn [mexec]. change (map_reserve e m k) with (map_add e m k ITEM_MAX). rewrite E. exists (MNum r x), m', L'. split; [reflexivity|]. split; auto. split; [econstructor; eauto|lia].
  - destruct O as (cs & x & HK). pose proof (key_size k cs x HK). pose proof (zlen_nonneg cs).
    destruct (set_ok e m L k cs x v M I HK ltac:(lia)) as (r & m' & L' & E & I' & S & D).
    cbn [mexec]. rewrite E. exists (MNum r x), m', L'. split; [reflexivity|]. split; auto. split; [|lia].
    destruct (dfind (to_dict L) cs) as [[i w]|] eqn:F; destruct D as [-> D].
    + rewrite D. eapply ms_set; eauto.
    + rewrite D. eapply ms_set_none; eauto.
  - destruct O as (cs & x & HK). pose proof (key_size k cs x HK). pose proof (zlen_nonneg cs).
    destruct (get_index_full e m L k cs x M I HK ltac:(lia)) as (m' & E & I' & S & _).
    cbn [mexec]. rewrite E. eexists _, m', L. split; [reflexivity|]. split; auto. split; [constructor; auto|lia].
  - destruct O as (cs & x & HK). pose proof (key_size k cs x HK). pose proof (zlen_nonneg cs).
    destruct (get_full e m L k cs x M I HK ltac:(lia)) as (m' & E & I' & S & _).
    cbn [mexec]. rewrite E. eexists _, m', L. split; [reflexivity|]. split; auto. split; [constructor; auto|lia].
  - destruct (set_by_index_ok m L i v I O) as (m' & L' & E & I' & D & S). cbn [mexec]. rewrite E. eexists _, m', L'.
    split; [reflexivity|]. split; auto. split; [rewrite D; constructor|lia].
  - cbn [mexec]. rewrite (get_by_index_ok m L i I O). eexists _, m, L. split; [reflexivity|]. split; auto. split; [constructor|lia].
  - cbn [mexec]. rewrite (to_string_index_ok m L i I O). eexists _, m, L. split; [reflexivity|]. split; auto. split; [constructor|lia].
Qed.

Lemma mop_size_nonneg op : mop_ok op -> 0 <= mop_size op.
Proof.
  intros O. destruct op as [k v|k|k v|k|k|i v|i|i]; cbn [mop_ok mop_size] in *; try lia;
    destruct O as (cs & x & HK); pose proof (key_size k cs x HK); pose proof (zlen_nonneg cs); lia.
Qed.
Lemma mops_size_nonneg ops : Forall mop_ok ops -> 0 <= mops_size ops.
Proof. induction 1; cbn; [lia|]. pose proof (mop_size_nonneg x H). unfold mops_size in IHForall. lia. Qed.

Lemma mrun_ok h : forall m L, minv m L -> Forall mem_always (map fst h) -> Forall mop_ok (map snd h) ->
  m_ksize m + mops_size (map snd h) < 2 ^ 56 ->
  exists rs m' L', mrun m h = Some (rs, m') /\ minv m' L' /\ mtrace (to_dict L) (map snd h) rs (to_dict L')
    /\ m_ksize m' <= m_ksize m + mops_size (map snd h).
Proof.
  induction h as [|[e op] h IH]; intros m L I M O B.
  - exists [], m, L. split; auto. split; auto. split; [constructor|cbn; lia].
  - cbn [map fst snd mops_size fold_right] in *. inversion M; inversion O; subst. fold (mops_size (map snd h)) in *.
    pose proof (mops_size_nonneg _ H6).
    destruct (mexec_ok e m L op H1 I H5 ltac:(lia)) as (r & m1 & L1 & E & I1 & S & K).
    destruct (IH m1 L1 I1 H2 H6 ltac:(lia)) as (rs & m2 & L2 & E2 & I2 & S2 & K2).
    cbn [mrun]. rewrite E. cbn [bind]. rewrite E2. cbn [bind]. exists (r :: rs), m2, L2. split; auto. split; auto. split; [econstructor; eauto|lia].
Qed.

Lemma create_ok e alloc : 0 <= alloc < 2 ^ 50 -> minv (map_create e alloc) [].
Proof.
  intros A. unfold map_create, MAP_HASH_MAX, MAP_KEY_SIZE.
  assert (Z1: zlen (o_fresh e ((256 + alloc) * 8)) = (256 + alloc) * 8) by (apply zlen_o_fresh; lia).
  assert (Z2: zlen (o_fresh e 256) = 256) by (apply zlen_o_fresh; lia).
  assert (Z3: zlen (fresh_cells e alloc) = alloc) by (unfold fresh_cells; rewrite zlen_map; apply zlen_o_fresh; lia).
  split; cbn [m_keys m_ksize m_knext m_vals m_vsize]; try solve [constructor]; try solve [lia]; auto.
  - exists (o_fresh e ((256 + alloc) * 8)). reflexivity.
  - intros h Hh. cbn [bucket filter map]. split; [exact Logic.I|].
    assert (In256: znth (o_fresh e 256) h <> None) by (rewrite znth_None; lia).
    rewrite znth_app1 by (rewrite zlen_map; lia). rewrite znth_map. destruct (znth (o_fresh e 256) h) as [w|]; [|congruence].
    exists w. reflexivity.
  - rewrite zlen_app, zlen_map. lia.
  - rewrite zlen_app, zlen_map. lia.
  - pose proof (zlen_nonneg (@nil mentry)). lia.
Qed.

(** ** Indexes are stable *)
Lemma dfind_app d d' k : dfind (d ++ d') k = match dfind d k with Some p => Some p | None => dfind d' k end.
Proof. induction d as [|[[k' i] v] d IH]; cbn; auto. destruct (key_eqb k' k); auto. Qed.
Lemma dat_app d d' i : dat (d ++ d') i = match dat d i with Some p => Some p | None => dat d' i end.
Proof. induction d as [|[[k' j] v] d IH]; cbn; auto. destruct (j =? i); auto. Qed.

Definition has (d : dict) (cs : list Z) (i : Z) : Prop :=
  exists v, dfind d cs = Some (i, v) /\ dat d i = Some (cs, v).

Lemma minv_has m L cs i v : minv m L -> dfind (to_dict L) cs = Some (i, v) -> has (to_dict L) cs i.
Proof.
  intros I F. exists v. split; auto. rewrite dfind_lookup in F. destruct (lookup_entry L cs) as [en|] eqn:LE; [|discriminate].
  injection F as <- <-. apply lookup_In in LE as [LE <-]. rewrite dat_find. pose proof (mi_nodup _ _ I) as D. clear I.
  unfold idxs in D. induction L as [|x L IH]; [destruct LE|]. cbn [map] in D. inversion D; subst. cbn [find]. destruct LE as [->|LE].
  - rewrite Z.eqb_refl. reflexivity.
  - replace (k_idx x =? k_idx en) with false; auto. symmetry. apply Z.eqb_neq. intros Q. apply H1. rewrite Q. apply in_map; auto.
Qed.

Lemma dset_find d i v k : dfind (dset d i v) k = match dfind d k with Some (j, w) => Some (j, if j =? i then v else w) | None => None end.
Proof. induction d as [|[[k' j] w] d IH]; cbn; auto. destruct (key_eqb k' k); auto. Qed.

Lemma mspec_find d op r d' cs i v : mspec d op r d' -> dfind d cs = Some (i, v) -> exists v', dfind d' cs = Some (i, v').
Proof.
  intros S F. destruct S; eauto.
  - unfold add_entry in H0. destruct (dfind d cs0) as [[j w]|]; [destruct H0 as [_ ->]; eauto|]. destruct (key_eqb cs0 []); [destruct H0 as [_ ->]; eauto|].
    destruct H0 as (_ & _ & ->). rewrite dfind_app, F. eauto.
  - unfold add_entry in H0. destruct (dfind d cs0) as [[j w]|]; [destruct H0 as [_ ->]; eauto|]. destruct (key_eqb cs0 []); [destruct H0 as [_ ->]; eauto|].
    destruct H0 as (_ & _ & ->). rewrite dfind_app, F. eauto.
  - rewrite dset_find, F. eauto.
  - rewrite dset_find, F. eauto.
Qed.

Lemma mtrace_find d ops rs d' : mtrace d ops rs d' -> forall cs i v, dfind d cs = Some (i, v) -> exists v', dfind d' cs = Some (i, v').
Proof.
  induction 1; intros cs i v F; eauto. destruct (mspec_find _ _ _ _ _ _ _ H F) as [v' F']. eauto.
Qed.

(** ** The statements *)
Lemma map_full e0 alloc h : 0 <= alloc < 2 ^ 50 -> Forall mem_always (map fst h) -> Forall mop_ok (map snd h) ->
  mops_size (map snd h) < 2 ^ 55 ->
  exists rs m L, mrun (map_create e0 alloc) h = Some (rs, m) /\ minv m L /\ mtrace [] (map snd h) rs (to_dict L)
    /\ m_ksize m <= mops_size (map snd h).
Proof.
  intros A M O B. destruct (mrun_ok h (map_create e0 alloc) [] (create_ok e0 alloc A) M O) as (rs & m & L & E & I & T & S).
  { change (m_ksize (map_create e0 alloc)) with 0. lia. }
  change (m_ksize (map_create e0 alloc)) with 0 in S. exists rs, m, L. auto.
Qed.

Lemma add_has e m L k cs x v r m1 : mem_always e -> minv m L -> key_of k cs x -> m_ksize m + src_size k + 16 < 2 ^ 56 ->
  mexec e m (MAdd k v) = Some (MNum r x, m1) -> r <> SIZE_MAX ->
  exists L1 w, minv m1 L1 /\ dfind (to_dict L1) cs = Some (r, w) /\ m_ksize m1 <= m_ksize m + src_size k + 16.
Proof.
  intros M I HK B E R. destruct (add_ok e m L k cs x v M I HK B) as (r' & m' & L' & E' & I' & A & S).
  cbn [mexec] in E. rewrite E' in E. cbn [bind] in E. injection E as <- <-. exists L'.
  unfold add_entry in A. destruct (dfind (to_dict L) cs) as [[i w]|] eqn:F.
  - destruct A as [-> ->]. destruct (v =? ITEM_MAX); [|congruence]. eauto.
  - destruct (key_eqb cs []) eqn:Q; [destruct A; congruence|]. destruct A as (_ & _ & ->). exists v. rewrite dfind_app, F. cbn [dfind].
    assert (key_eqb cs cs = true) as -> by (apply key_eqb_eq; auto). auto.
Qed.

Lemma stable_ok m L cs i w : minv m L -> dfind (to_dict L) cs = Some (i, w) ->
  map_to_string m i = Some (Some (encs cs)) /\
  forall e k x, mem_always e -> key_of k cs x -> m_ksize m + src_size k + 32 < 2 ^ 56 ->
    (exists m', map_get_index e m k = Some (i, x, m')) /\
    (exists u m', map_get e m k = Some (u, x, m') /\ map_get_by_index m i = Some u) /\
    (forall u, exists m' m'', map_set e m k u = Some (i, x, m') /\ map_get_by_index m' i = Some u
                        /\ map_set_by_index m i u = Some (0, m'') /\ exists m3, map_get e m'' k = Some (u, x, m3)).
Proof.
  intros I F. destruct (minv_has m L cs i w I F) as (w' & F' & D). rewrite F in F'. injection F' as <-.
  assert (R: 0 <= i). { rewrite dfind_lookup in F. destruct (lookup_entry L cs) as [en|] eqn:LE; [|discriminate]. injection F as <- <-.
    apply lookup_In in LE as [LE _]. pose proof (mi_range _ _ I) as Q. rewrite Forall_forall in Q. apply Q, in_map; auto. }
  split; [rewrite (to_string_index_ok m L i I R), D; reflexivity|].
  intros e k x M HK B. split; [|split].
  - destruct (get_index_full e m L k cs x M I HK ltac:(lia)) as (m' & E & _). rewrite F in E. eauto.
  - destruct (get_full e m L k cs x M I HK ltac:(lia)) as (m' & E & _). rewrite F in E. exists w, m'. split; auto.
    rewrite (get_by_index_ok m L i I R), D. auto.
  - intros u. destruct (set_ok e m L k cs x u M I HK ltac:(lia)) as (r & m' & L' & E & I' & S & Q). rewrite F in Q. destruct Q as [-> Q].
    destruct (set_by_index_ok m L i u I R) as (m'' & L'' & E'' & I'' & Q'' & S''). rewrite D in E''.
    destruct (get_full e m'' L'' k cs x M I'' HK ltac:(lia)) as (m3 & E3 & _).
    rewrite Q'', dset_find, F, Z.eqb_refl in E3.
    exists m', m''. split; auto. split; [|split; [auto|eauto]].
    assert (F2: dfind (to_dict L') cs = Some (i, u)) by (rewrite Q, dset_find, F, Z.eqb_refl; auto).
    destruct (minv_has m' L' cs i u I' F2) as (u' & F3 & D3). rewrite F2 in F3. injection F3 as <-.
    rewrite (get_by_index_ok m' L' i I' R), D3. auto.
Qed.

Lemma index_stable e0 alloc h1 e k cs x v h2 rs1 m1 r m2 rs2 m3 :
  0 <= alloc < 2 ^ 50 ->
  Forall mem_always (map fst (h1 ++ (e, MAdd k v) :: h2)) -> Forall mop_ok (map snd (h1 ++ (e, MAdd k v) :: h2)) ->
  mops_size (map snd (h1 ++ (e, MAdd k v) :: h2)) < 2 ^ 54 ->
  key_of k cs x ->
  mrun (map_create e0 alloc) h1 = Some (rs1, m1) -> mexec e m1 (MAdd k v) = Some (MNum r x, m2) -> r <> SIZE_MAX ->
  mrun m2 h2 = Some (rs2, m3) ->
  map_to_string m3 r = Some (Some (encs cs)) /\
  forall e' k' x', mem_always e' -> key_of k' cs x' -> src_size k' < 2 ^ 54 ->
    (exists m', map_get_index e' m3 k' = Some (r, x', m')) /\
    (exists u m', map_get e' m3 k' = Some (u, x', m') /\ map_get_by_index m3 r = Some u) /\
    (forall u, exists m' m'', map_set e' m3 k' u = Some (r, x', m') /\ map_get_by_index m' r = Some u
                        /\ map_set_by_index m3 r u = Some (0, m'') /\ exists m4, map_get e' m'' k' = Some (u, x', m4)).
Proof.
  intros A M O B HK E1 E2 R E3. rewrite map_app in *. cbn [map fst snd] in *.
  apply Forall_app in M as [M1 M2]. apply Forall_app in O as [O1 O2]. inversion M2; inversion O2; subst.
  assert (SZ: mops_size (map snd h1 ++ MAdd k v :: map snd h2) = mops_size (map snd h1) + (src_size k + 16 + mops_size (map snd h2))).
  { clear. induction (map snd h1) as [|op l IH]; cbn; [reflexivity|]. unfold mops_size in *. rewrite IH. lia. }
  rewrite SZ in B. pose proof (mops_size_nonneg _ O1). pose proof (mops_size_nonneg _ H6).
  assert (0 <= src_size k) by (pose proof (key_size k cs x HK); pose proof (zlen_nonneg cs); lia).
  destruct (map_full e0 alloc h1 A M1 O1 ltac:(lia)) as (rs & m & L & E & I & _ & S). rewrite E1 in E. injection E as <- <-.
  destruct (add_has e m1 L k cs x v r m2 H1 I HK ltac:(lia) E2 R) as (L1 & w & I1 & F & S1).
  destruct (mrun_ok h2 m2 L1 I1 H2 H6 ltac:(lia)) as (rs' & m' & L2 & E & I2 & T & S2). rewrite E3 in E. injection E as <- <-.
  destruct (mtrace_find _ _ _ _ T cs r w F) as [w' F'].
  destruct (stable_ok m3 L2 cs r w' I2 F') as [Q1 Q2]. split; auto. intros e' k' x' M' HK' B'. apply Q2; auto. lia.
Qed.

(** ** The key read last *)
Lemma pending_last m L cs : minv m L -> pending m L cs -> Forall good_symbol cs -> cs <> [] ->
  map_last_read m = Some (Some (encs cs)).
Proof.
  intros I P G Ne. unfold map_last_read. destruct P as [P1 P2]. pose proof (ident_len cs). rewrite P1.
  assert (0 < zlen cs) by (destruct cs; [congruence|rewrite zlen_cons; pose proof (zlen_nonneg cs); lia]).
  replace (m_ksize m <? m_ksize m + zlen (encs cs)) with true by lia.
  pose proof (pending_string m L cs I (conj P1 P2) G) as Q. rewrite Q. reflexivity.
Qed.

Lemma last_read_ok e0 alloc h rs m e k cs x : 0 <= alloc < 2 ^ 50 -> Forall mem_always (map fst h) -> Forall mop_ok (map snd h) ->
  mops_size (map snd h) < 2 ^ 54 -> mrun (map_create e0 alloc) h = Some (rs, m) ->
  mem_always e -> key_of k cs x -> cs <> [] -> src_size k < 2 ^ 54 ->
  (exists r m', map_get_index e m k = Some (r, x, m') /\ map_last_read m' = Some (Some (encs cs))) /\
  (exists r m', map_get e m k = Some (r, x, m') /\ map_last_read m' = Some (Some (encs cs))) /\
  (exists r m', map_reserve e m k = Some (r, x, m') /\
      map_last_read m' = Some (match map_get_index e m k with Some (i, _, _) => if i =? SIZE_MAX then None else Some (encs cs) | None => None end)).
Proof.
  intros A M O B E M' HK Ne BK. pose proof (key_good _ _ _ HK) as G.
  assert (0 <= src_size k) by (pose proof (key_size k cs x HK); pose proof (zlen_nonneg cs); lia).
  destruct (map_full e0 alloc h A M O ltac:(lia)) as (rs' & m0 & L & E0 & I & _ & S). rewrite E in E0. injection E0 as <- <-.
  destruct (get_index_full e m L k cs x M' I HK ltac:(lia)) as (m1 & E1 & I1 & S1 & P1).
  destruct (get_full e m L k cs x M' I HK ltac:(lia)) as (m2 & E2 & I2 & S2 & P2).
  split; [|split].
  - eexists _, m1. split; [exact E1|]. eapply pending_last; eauto.
  - eexists _, m2. split; [exact E2|]. eapply pending_last; eauto.
  - rewrite E1. destruct (get_hash_ok e m L k cs x M' I HK ltac:(lia)) as (m3 & E3 & I3 & (_ & _ & S3) & P3 & _).
    unfold map_reserve. rewrite E3. cbn [bind]. rewrite key_eqb_neq by auto.
    destruct (add_by_hash_ok e m3 L cs ITEM_MAX M' I3 (P3 Ne) G Ne ltac:(lia)) as (r & m4 & L4 & E4 & I4 & A4 & _ & K4 & Q1 & Q2).
    rewrite E4. cbn [bind]. eexists _, m4. split; [reflexivity|]. rewrite dfind_lookup. destruct (lookup_entry L cs) as [en|] eqn:LE; cbn [option_map].
    + destruct (Q1 ltac:(discriminate)) as [-> ->]. apply lookup_In in LE as [LE _].
      pose proof (idx_not_max m3 L en I3 LE ltac:(lia)). replace (k_idx en =? SIZE_MAX) with false by lia. eapply pending_last; eauto.
    + rewrite Z.eqb_refl. unfold map_last_read. rewrite (Q2 eq_refl), K4. replace (m_knext m3 + 1 <? m_knext m3) with false by lia. reflexivity.
Qed.

From Verif Require Import Prelude ItemModel ItemSpec.

Lemma pow2_pos n : 0 <= n -> 0 < 2 ^ n.
Proof. intros; apply Z.pow_pos_nonneg; lia. Qed.

Lemma lor_disjoint a b n : 0 <= n -> 0 <= a < 2 ^ n -> Z.lor a (Z.shiftl b n) = a + b * 2 ^ n.
Proof.
  intros Hn Ha. rewrite <- Z.lxor_lor.
  - rewrite <- Z.add_nocarry_lxor. { rewrite Z.shiftl_mul_pow2 by lia. auto. }
    apply Z.bits_inj'. intros k Hk. rewrite Z.land_spec, Z.bits_0.
    destruct (Z.lt_ge_cases k n).
    + rewrite Z.shiftl_spec_low by lia. apply andb_false_r.
    + rewrite <- (Z.mod_small a (2 ^ n)) by lia. rewrite Z.mod_pow2_bits_high by lia. auto.
  - apply Z.bits_inj'. intros k Hk. rewrite Z.land_spec, Z.bits_0.
    destruct (Z.lt_ge_cases k n).
    + rewrite Z.shiftl_spec_low by lia. apply andb_false_r.
    + rewrite <- (Z.mod_small a (2 ^ n)) by lia. rewrite Z.mod_pow2_bits_high by lia. auto.
Qed.

Lemma mask_val st : target st -> item_get_mask (item_get_shift (item_get_size st)) = Z.ones (width st)
  /\ item_get_shift (item_get_size st) = width st /\ 8 <= width st <= 64
  /\ item_get_size st * width st = 64 /\ item_get_size st <> 0.
Proof.
  intros [H1 H2]. destruct st; try congruence; vm_compute; repeat split; congruence.
Qed.

Definition chunk (s V i : Z) : Z := (V / 2 ^ (s * i)) mod 2 ^ s.

Lemma chunk_raw s V i : 0 < s -> 0 <= i ->
  Z.shiftr (Z.land V (Z.shiftl (Z.ones s) (s * i))) (s * i) = chunk s V i.
Proof.
  intros. rewrite Z.shiftr_land. rewrite Z.shiftr_shiftl_l by nia.
  replace (s * i - s * i) with 0 by lia. rewrite Z.shiftl_0_r.
  rewrite Z.land_ones by lia. rewrite Z.shiftr_div_pow2 by nia. reflexivity.
Qed.

Lemma chunk_range s V i : 0 < s -> 0 <= chunk s V i < 2 ^ s.
Proof. intros. apply Z.mod_pos_bound. apply pow2_pos; lia. Qed.

Lemma two64_pow : two64 = 2 ^ 64. Proof. reflexivity. Qed.

Lemma shl_ones_small s k : 0 <= s -> 0 <= k -> s + k <= 64 -> u64 (Z.shiftl (Z.ones s) k) = Z.shiftl (Z.ones s) k.
Proof.
  intros. apply u64_id. unfold is_size, SIZE_MAX. rewrite Z.shiftl_mul_pow2 by lia.
  rewrite Z.ones_equiv. pose proof (pow2_pos s ltac:(lia)). pose proof (pow2_pos k ltac:(lia)).
  assert (2 ^ s * 2 ^ k <= two64).
  { rewrite <- Z.pow_add_r by lia. rewrite two64_pow. apply Z.pow_le_mono_r; lia. }
  rewrite <- Z.sub_1_r. nia.
Qed.

(** The word written for a chunk [c]. *)
Definition word (st : item_status) (c : Z) : Z :=
  if is_signed st && (2 ^ (width st - 1) <=? c) then c - 2 ^ width st else
    if width st =? 64 then s64 c else c.

Definition sign_of (st : item_status) : Z :=
  let mask := item_get_mask (item_get_shift (item_get_size st)) in
  if is_signed st then Z.land (Z.shiftr (not64 mask) 1) mask else 0.

Lemma sign_val st : target st ->
  sign_of st = if is_signed st && (width st <? 64) then 2 ^ (width st - 1) else 0.
Proof. intros [H1 H2]. destruct st; try congruence; reflexivity. Qed.

Lemma land_top c n : 0 <= n -> 0 <= c < 2 ^ (n + 1) -> (Z.land c (2 ^ n) =? 0) = (c <? 2 ^ n).
Proof.
  intros Hn Hc. rewrite Z.pow_add_r in Hc by lia. change (2 ^ 1) with 2 in Hc. pose proof (pow2_pos n Hn).
  destruct (c <? 2 ^ n) eqn:E.
  - apply Z.eqb_eq. apply Z.bits_inj'. intros k Hk. rewrite Z.land_spec, Z.bits_0.
    destruct (Z.eq_dec k n) as [->|N].
    + rewrite <- (Z.mod_small c (2 ^ n)) by lia. rewrite Z.mod_pow2_bits_high by lia. auto.
    + rewrite Z.pow2_bits_false by lia. apply andb_false_r.
  - apply Z.eqb_neq. intros Q.
    assert (Z.testbit (Z.land c (2 ^ n)) n = true).
    { rewrite Z.land_spec, Z.pow2_bits_true by lia. rewrite andb_true_r.
      rewrite Z.testbit_eqb by lia. replace (c / 2 ^ n) with 1; auto.
      apply Z.div_unique with (c - 2 ^ n); lia. }
    rewrite Q, Z.bits_0 in H0. discriminate.
Qed.

Lemma s64_high x : two63 <= x < two64 -> s64 x = x - two64.
Proof.
  intros. unfold s64. rewrite Z.mod_small by (unfold two63, two64 in *; lia).
  destruct (x <? two63) eqn:E; lia.
Qed.

Lemma pow2_le_two63 n : 0 <= n <= 63 -> 2 ^ n <= two63.
Proof. intros. change two63 with (2 ^ 63). apply Z.pow_le_mono_r; lia. Qed.

Lemma word_ok st c : target st -> 0 <= c < 2 ^ width st ->
  (let w := s64 c in if Z.land (u64 w) (sign_of st) =? 0 then w
     else s64 (Z.lor (u64 w) (not64 (item_get_mask (item_get_shift (item_get_size st)))))) = word st c.
Proof.
  intros T Hc. destruct (mask_val st T) as (M & S & W & _). rewrite M. rewrite sign_val by auto. unfold word.
  cbv zeta.
  destruct (Z.eq_dec (width st) 64) as [E64|N64].
  - rewrite E64 in *. change (64 <? 64) with false. rewrite andb_false_r, Z.land_0_r. cbn [Z.eqb].
    change (64 - 1) with 63. change (2 ^ 63) with two63. change (2 ^ 64) with two64 in *.
    destruct (is_signed st && (two63 <=? c)) eqn:E; auto.
    apply s64_high. lia.
  - replace (width st =? 64) with false by lia. replace (width st <? 64) with true by lia.
    assert (W2: 8 <= width st <= 63) by lia.
    assert (c < two63).
    { pose proof (pow2_le_two63 (width st)). lia. }
    rewrite s64_id by (unfold is_int64, LLONG_MIN, LLONG_MAX, two63 in *; lia).
    rewrite u64_id by (unfold is_size, SIZE_MAX, two63, two64 in *; lia).
    destruct (is_signed st) eqn:SG; cbn [andb].
    2:{ rewrite Z.land_0_r. reflexivity. }
    rewrite land_top; [|lia|replace (width st - 1 + 1) with (width st) by lia; lia].
    destruct (c <? 2 ^ (width st - 1)) eqn:E1; destruct (2 ^ (width st - 1) <=? c) eqn:E2; try lia.
    assert (N: not64 (Z.ones (width st)) = Z.shiftl (2 ^ (64 - width st) - 1) (width st)).
    { unfold not64. rewrite Z.ones_equiv, <- Z.sub_1_r. unfold Z.lnot, u64.
      rewrite Z.shiftl_mul_pow2 by lia. rewrite Z.mul_sub_distr_r. rewrite <- Z.pow_add_r by lia.
      replace (64 - width st + width st) with 64 by lia. rewrite <- two64_pow.
      pose proof (pow2_pos (width st)). pose proof (pow2_le_two63 (width st)).
      symmetry. apply Z.mod_unique with (-1).
      - left. unfold two63, two64 in *. lia.
      - lia. }
    rewrite N. rewrite lor_disjoint by lia.
    rewrite Z.mul_sub_distr_r, <- Z.pow_add_r by lia.
    replace (64 - width st + width st) with 64 by lia. rewrite <- two64_pow.
    pose proof (pow2_pos (width st)). pose proof (pow2_le_two63 (width st - 1)).
    assert (2 ^ width st = 2 * 2 ^ (width st - 1)).
    { rewrite <- Z.pow_succ_r by lia. f_equal. lia. }
    rewrite s64_high; [lia|]. unfold two63, two64 in *. lia.
Qed.

Lemma store_loop_ok st V n i : target st -> 0 <= i -> (i + Z.of_nat n) * width st = 64 ->
  store_loop n i V (width st) (item_get_mask (item_get_shift (item_get_size st))) (sign_of st)
    (u64 (Z.shiftl (Z.ones (width st)) (width st * i)))
  = map (fun k => word st (chunk (width st) (u64 V) (i + Z.of_nat k))) (seq 0 n).
Proof.
  intros T. destruct (mask_val st T) as (M & S & W & _).
  revert i. induction n; intros i Hi HS; [reflexivity|].
  cbn [store_loop seq map].
  rewrite (shl_ones_small (width st) (width st * i)) by nia.
  rewrite chunk_raw by lia.
  f_equal.
  - rewrite Z.add_0_r. apply (word_ok st (chunk (width st) (u64 V) i) T). apply chunk_range. lia.
  - rewrite Z.shiftl_shiftl by lia.
    replace (width st * i + width st) with (width st * (i + 1)) by lia.
    rewrite IHn by lia. rewrite <- seq_shift, map_map. apply map_ext. intros k. do 2 f_equal. lia.
Qed.

Lemma store_ok st V : target st ->
  item_store_int64_for_target st V
  = Some (map (fun k => word st (chunk (width st) (u64 V) (Z.of_nat k))) (seq 0 (Z.to_nat (item_get_size st)))).
Proof.
  intros T. destruct (mask_val st T) as (M & S & W & N & NZ).
  unfold item_store_int64_for_target. replace (item_get_size st =? 0) with false by lia.
  f_equal. fold (sign_of st).
  pose proof (store_loop_ok st V (Z.to_nat (item_get_size st)) 0 T ltac:(lia) ltac:(lia)) as Q.
  rewrite Z.mul_0_r, Z.shiftl_0_r in Q.
  assert (O: u64 (Z.ones (width st)) = Z.ones (width st)).
  { apply u64_id. unfold is_size, SIZE_MAX.
    rewrite Z.ones_equiv. pose proof (pow2_pos (width st)).
    assert (2 ^ width st <= two64) by (rewrite two64_pow; apply Z.pow_le_mono_r; lia). lia. }
  rewrite O in Q. rewrite M in *. rewrite S. exact Q.
Qed.

(** Reading back: any words, whatever their high bits. *)
Lemma land_word st w : target st -> Z.land (u64 w) (Z.ones (width st)) = w mod 2 ^ width st.
Proof.
  intros T. destruct (mask_val st T) as (M & S & W & _). rewrite Z.land_ones by lia.
  unfold u64. rewrite two64_pow. symmetry.
  replace 64 with (width st + (64 - width st)) by lia. rewrite Z.pow_add_r by lia.
  rewrite Z.rem_mul_r by (pose proof (pow2_pos (width st)); pose proof (pow2_pos (64 - width st)); lia).
  rewrite Z.mul_comm, Z.mod_add by (pose proof (pow2_pos (width st)); lia).
  rewrite Z.mod_mod by (pose proof (pow2_pos (width st)); lia). auto.
Qed.

Lemma restore_loop_ok st n : target st -> forall i pre ws acc, zlen pre = i -> length ws = n -> 0 <= i ->
  (i + Z.of_nat n) * width st = 64 -> 0 <= acc < 2 ^ (width st * i) ->
  restore_loop n i (pre ++ ws) (width st) (Z.ones (width st)) (s64 acc)
  = Some (s64 (acc + 2 ^ (width st * i) * words_value (width st) (map (fun w => w mod 2 ^ width st) ws))).
Proof.
  intros T. destruct (mask_val st T) as (M & S & W & _).
  induction n; intros i pre ws acc HP HL Hi HS HA.
  - destruct ws; [|discriminate]. cbn. f_equal. f_equal. lia.
  - destruct ws as [|w ws]; [discriminate|]. cbn [restore_loop].
    rewrite znth_app2 by lia. replace (i - zlen pre) with 0 by lia.
    rewrite znth_cons_0. rewrite land_word by auto.
    pose proof (Z.mod_pos_bound w (2 ^ width st) (pow2_pos (width st) ltac:(lia))) as B.
    set (c := w mod 2 ^ width st) in *.
    pose proof (pow2_pos (width st * i) ltac:(nia)) as P1.
    assert (P2: 2 ^ (width st * (i + 1)) = 2 ^ (width st * i) * 2 ^ width st).
    { rewrite <- Z.pow_add_r by nia. f_equal. lia. }
    assert (P3: 2 ^ (width st * (i + 1)) <= two64).
    { rewrite two64_pow. apply Z.pow_le_mono_r; [lia|]. clear - HS W. nia. }
    assert (U1: u64 (s64 acc) = acc).
    { rewrite <- (u64_id acc) at 2 by (unfold is_size, SIZE_MAX; nia).
      unfold s64, u64. destruct (acc mod two64 <? two63).
      - rewrite Z.mod_mod by (unfold two64; lia). auto.
      - replace (acc mod two64 - two64) with (acc mod two64 + (-1) * two64) by lia.
        rewrite Z.mod_add by (unfold two64; lia). rewrite Z.mod_mod by (unfold two64; lia). auto. }
    assert (U2: u64 (Z.shiftl c (width st * i)) = Z.shiftl c (width st * i)).
    { apply u64_id. rewrite Z.shiftl_mul_pow2 by nia. unfold is_size, SIZE_MAX. nia. }
    rewrite U1, U2. rewrite lor_disjoint by nia.
    replace (pre ++ w :: ws) with ((pre ++ [w]) ++ ws) by (rewrite <- app_assoc; auto).
    rewrite IHn; try lia.
    + f_equal. f_equal. cbn [map words_value]. fold c. rewrite P2. lia.
    + rewrite zlen_snoc. lia.
    + cbn in HL. lia.
    + rewrite P2. nia.
Qed.

Lemma restore_ok st ws : target st -> Z.of_nat (length ws) = item_get_size st ->
  item_restore_int64_for_target st ws
  = Some (s64 (words_value (width st) (map (fun w => w mod 2 ^ width st) ws))).
Proof.
  intros T HL. destruct (mask_val st T) as (M & S & W & N & NZ).
  unfold item_restore_int64_for_target. replace (item_get_size st =? 0) with false by lia.
  rewrite S. rewrite <- S at 2. rewrite M.
  change 0 with (s64 0) at 2. change ws with ([] ++ ws) at 1.
  rewrite (restore_loop_ok st (Z.to_nat (item_get_size st)) T 0 [] ws 0); auto; try lia.
  - f_equal. f_equal. rewrite Z.mul_0_r. change (2 ^ 0) with 1. lia.
Qed.

Lemma word_mod st c : target st -> 0 <= c < 2 ^ width st -> word st c mod 2 ^ width st = c.
Proof.
  intros T Hc. destruct (mask_val st T) as (M & S & W & _). pose proof (pow2_pos (width st) ltac:(lia)).
  unfold word. destruct (is_signed st && _).
  - replace (c - 2 ^ width st) with (c + (-1) * 2 ^ width st) by lia.
    rewrite Z.mod_add by lia. apply Z.mod_small; auto.
  - destruct (width st =? 64) eqn:E; [|apply Z.mod_small; auto].
    assert (Q64: width st = 64) by lia. rewrite Q64 in *. rewrite <- two64_pow in *.
    unfold s64. rewrite (Z.mod_small c) by lia. destruct (c <? two63); [apply Z.mod_small; auto|].
    replace (c - two64) with (c + (-1) * two64) by lia.
    rewrite Z.mod_add by (unfold two64; lia). apply Z.mod_small; auto.
Qed.

Lemma chunks_value s V : 0 < s -> 0 <= V -> forall n i, 0 <= i ->
  words_value s (map (fun k => chunk s V (i + Z.of_nat k)) (seq 0 n)) = (V / 2 ^ (s * i)) mod 2 ^ (s * Z.of_nat n).
Proof.
  intros Hs HV. induction n; intros i Hi.
  - cbn [seq map words_value]. rewrite Nat2Z.inj_0, Z.mul_0_r. change (2 ^ 0) with 1. rewrite Z.mod_1_r. auto.
  - cbn [seq map words_value]. rewrite Z.add_0_r.
    rewrite <- seq_shift, map_map.
    rewrite (map_ext _ (fun k => chunk s V (i + 1 + Z.of_nat k))) by (intros; f_equal; lia).
    rewrite IHn by lia. unfold chunk.
    replace (s * Z.of_nat (S n)) with (s + s * Z.of_nat n) by lia.
    rewrite (Z.pow_add_r 2 s) by nia.
    rewrite (Z.rem_mul_r _ (2 ^ s)) by (pose proof (pow2_pos s); pose proof (pow2_pos (s * Z.of_nat n)); nia).
    f_equal. f_equal. rewrite Z.div_div by (pose proof (pow2_pos s); pose proof (pow2_pos (s * i)); nia).
    rewrite <- Z.pow_add_r by nia. do 2 f_equal. f_equal. lia.
Qed.

Lemma u64_congr a b : u64 a = u64 b -> s64 a = s64 b.
Proof. unfold u64, s64. intros ->. auto. Qed.

Lemma store_full st V : target st -> is_int64 V ->
  exists ws, item_store_int64_for_target st V = Some ws
    /\ Z.of_nat (length ws) * width st = 64
    /\ words_value (width st) (map (fun w => w mod 2 ^ width st) ws) = V mod two64
    /\ (st <> item_uint64 \/ 0 <= V -> Forall (word_range st) ws)
    /\ item_restore_int64_for_target st ws = Some V.
Proof.
  intros T HV. destruct (mask_val st T) as (M & S & W & N & NZ).
  eexists. split; [apply store_ok; auto|].
  assert (SZ: 0 < item_get_size st <= 8) by (destruct T; destruct st; cbn; try congruence; lia).
  assert (LN: Z.of_nat (length (map (fun k => word st (chunk (width st) (u64 V) (Z.of_nat k))) (seq 0 (Z.to_nat (item_get_size st))))) = item_get_size st).
  { rewrite map_length, seq_length. lia. }
  assert (R: words_value (width st) (map (fun w => w mod 2 ^ width st)
        (map (fun k => word st (chunk (width st) (u64 V) (Z.of_nat k))) (seq 0 (Z.to_nat (item_get_size st))))) = u64 V).
  { rewrite map_map. rewrite (map_ext _ (fun k => chunk (width st) (u64 V) (0 + Z.of_nat k))).
    2:{ intros. rewrite word_mod; auto. apply chunk_range; lia. }
    rewrite chunks_value; try lia. 2:{ apply u64_range. }
    rewrite Z.mul_0_r. change (2 ^ 0) with 1. rewrite Z.div_1_r.
    replace (width st * Z.of_nat (Z.to_nat (item_get_size st))) with 64 by lia.
    rewrite <- two64_pow. unfold u64. apply Z.mod_mod. unfold two64; lia. }
  split; [lia|]. split; [|split].
  - exact R.
  - intros HU. apply Forall_forall. intros w Hw. apply in_map_iff in Hw as (k & <- & _).
    set (c := chunk (width st) (u64 V) (Z.of_nat k)).
    assert (Hc: 0 <= c < 2 ^ width st) by (apply chunk_range; lia).
    assert (HU64: st = item_uint64 -> s64 c = c).
    { intros E. destruct HU as [HU|HU]; [congruence|]. apply s64_id.
      unfold is_int64, LLONG_MIN, LLONG_MAX in *.
      assert (UV: u64 V = V) by (apply u64_id; unfold is_size, SIZE_MAX, two64, two63 in *; lia).
      assert (c <= V).
      { unfold c, chunk. rewrite UV.
        pose proof (pow2_pos (width st * Z.of_nat k) ltac:(nia)). pose proof (pow2_pos (width st) ltac:(lia)).
        pose proof (Z.mod_le (V / 2 ^ (width st * Z.of_nat k)) (2 ^ width st)).
        pose proof (Z.div_pos V (2 ^ (width st * Z.of_nat k))).
        assert (V / 2 ^ (width st * Z.of_nat k) <= V) by (apply Z.div_le_upper_bound; nia). lia. }
      unfold two63 in *; lia. }
    assert (P: 2 ^ width st = 2 * 2 ^ (width st - 1)) by (rewrite <- Z.pow_succ_r by lia; f_equal; lia).
    unfold word_range, word.
    destruct st; cbn [is_signed andb]; try (destruct T; congruence);
      try (change (width item_uint64 =? 64) with true; cbv iota; rewrite HU64 by auto; exact Hc);
      try (change (width item_uint32 =? 64) with false; exact Hc);
      try (change (width item_uint16 =? 64) with false; exact Hc);
      try (change (width item_uint8 =? 64) with false; exact Hc);
      (destruct (2 ^ (width _ - 1) <=? c) eqn:E; [lia|]);
      try (change (width item_int64 =? 64) with true; cbv iota; rewrite s64_id; [lia|];
           unfold is_int64, LLONG_MIN, LLONG_MAX, two63; change (2 ^ (width item_int64 - 1)) with 9223372036854775808 in E; lia);
      try (change (width item_int32 =? 64) with false; cbv iota; lia);
      try (change (width item_int16 =? 64) with false; cbv iota; lia);
      try (change (width item_int8 =? 64) with false; cbv iota; lia).
  - rewrite restore_ok by (auto; lia). rewrite R. rewrite s64_u64. f_equal. apply s64_id; auto.
Qed.

Lemma check_var_ok st x : target st -> is_int64 x -> item_check_var st x = true <-> word_range st x.
Proof.
  intros [T1 T2] H. unfold item_check_var, word_range, is_int64, LLONG_MIN, LLONG_MAX in *. unfold two63 in H.
  destruct st; try congruence; cbn [item_get_min item_get_max width];
   unfold ITEM_MAX, LLONG_MIN, LLONG_MAX, two63;
   match goal with |- context [2 ^ ?e] => let v := eval vm_compute in (2 ^ e) in change (2 ^ e) with v end; lia.
Qed.

Lemma store_double_full st P : target st -> is_int64 P -> P <> LLONG_MAX ->
  exists ws, item_store_double_for_target st P = Some ws /\ item_restore_double_for_target st ws = Some P.
Proof.
  intros T HP N. destruct (store_full st P T HP) as (ws & E & _ & _ & _ & R).
  exists ws. split; auto. unfold item_restore_double_for_target. rewrite R.
  replace (P =? LLONG_MAX) with false by lia. auto.
Qed.

(** ** Target flags *)
Lemma status_eqb_eq a b : status_eqb a b = true <-> a = b.
Proof. destruct a, b; cbn; split; congruence. Qed.

Lemma status_error fl : status_loop fl item_error = item_error.
Proof. destruct fl; reflexivity. Qed.

Definition targets (flags : list bytes) : list item_status :=
  flat_map (fun f => match flag_status f with Some s => [s] | None => [] end) flags.

Lemma flag_status_target f s : flag_status f = Some s -> target s.
Proof.
  unfold flag_status, target. intros H.
  repeat match type of H with (if ?b then _ else _) = _ => destruct b; [inversion H; split; congruence|] end.
  discriminate.
Qed.

Lemma status_loop_ok fl : forall st, st <> item_error ->
  status_loop fl st =
  match targets fl with
  | [] => st
  | s :: r => if status_eqb st item_types then (match r with [] => s | _ => item_error end) else item_error
  end.
Proof.
  induction fl as [|f fl IH]; intros st NE; [reflexivity|].
  cbn [status_loop targets flat_map]. destruct (status_eqb st item_error) eqn:E.
  { apply status_eqb_eq in E. congruence. }
  fold (targets fl). destruct (flag_status f) as [s|] eqn:F; cbn [app].
  - pose proof (flag_status_target _ _ F) as [T1 T2].
    destruct (status_eqb st item_types) eqn:ET.
    + rewrite IH by auto. destruct (targets fl); auto.
      destruct (status_eqb s item_types) eqn:Q; auto. apply status_eqb_eq in Q. congruence.
    + apply status_error.
  - apply IH; auto.
Qed.

Lemma get_status_ok fl : item_get_status fl =
  match targets fl with [] => item_int32 | [s] => s | _ => item_error end.
Proof.
  unfold item_get_status. rewrite status_loop_ok by congruence.
  assert (forall s r, targets fl = s :: r -> target s) as HT.
  { intros s r E. assert (In s (targets fl)) by (rewrite E; left; auto).
    unfold targets in H. apply in_flat_map in H as (f & _ & Hf).
    destruct (flag_status f) eqn:Q; cbn in Hf; [|tauto]. destruct Hf as [->|[]]. eapply flag_status_target; eauto. }
  destruct (targets fl) as [|s [|s2 r]] eqn:E; cbn; auto.
  specialize (HT s [] eq_refl) as [T1 T2]. destruct (status_eqb s item_types) eqn:Q; auto.
  apply status_eqb_eq in Q. congruence.
Qed.

Lemma flag_status_table f s : flag_status f = Some s <-> In (f, s) flag_table.
Proof.
  unfold flag_status. split.
  - intros H.
    repeat match type of H with (if ?b then _ else _) = _ => destruct b eqn:?E;
       [inversion H; subst; apply bytes_eqb_eq in E; subst; unfold flag_table; cbn [In]; tauto|clear E] end.
    discriminate.
  - intros H. unfold flag_table in H. cbn [In] in H.
    repeat match type of H with _ \/ _ => destruct H as [H|H] end; try contradiction;
    inversion H; subst; reflexivity.
Qed.

Lemma names_target_status f : names_target f = true <-> exists s, flag_status f = Some s.
Proof.
  unfold names_target. rewrite existsb_exists. split.
  - intros ([g s] & H & E). apply bytes_eqb_eq in E. cbn in E. subst. exists s. apply flag_status_table; auto.
  - intros (s & H). apply flag_status_table in H. exists (f, s). split; auto. apply bytes_eqb_eq. auto.
Qed.

Lemma targets_filter fl : map Some (targets fl) = map flag_status (filter names_target fl).
Proof.
  induction fl as [|f fl IH]; [reflexivity|]. cbn [targets flat_map filter]. fold (targets fl).
  destruct (names_target f) eqn:E.
  - apply names_target_status in E as (s & E). rewrite E. cbn [app map]. rewrite E. f_equal; auto.
  - destruct (flag_status f) eqn:F; auto.
    assert (names_target f = true) by (apply names_target_status; eauto). congruence.
Qed.

Lemma get_status_spec fl :
  (filter names_target fl = [] -> item_get_status fl = item_int32)
  /\ (forall f s, filter names_target fl = [f] -> In (f, s) flag_table -> item_get_status fl = s)
  /\ (forall f g r, filter names_target fl = f :: g :: r -> item_get_status fl = item_error).
Proof.
  pose proof (targets_filter fl) as H. pose proof (get_status_ok fl) as G. repeat split; intros.
  - rewrite H0 in H. destruct (targets fl); [auto|discriminate].
  - rewrite H0 in H. apply flag_status_table in H1. cbn [map] in H. rewrite H1 in H.
    destruct (targets fl) as [|a [|b r]]; try discriminate. cbn in H. congruence.
  - rewrite H0 in H. cbn [map] in H. destruct (targets fl) as [|a [|b q]]; try discriminate. auto.
Qed.

Lemma double_nan st : target st ->
  exists ws, item_store_double_for_target st LLONG_MAX = Some ws
    /\ item_restore_double_for_target st ws = Some DBL_MAX_bits /\ DBL_MAX_bits <> LLONG_MAX.
Proof.
  intros T. destruct (store_full st LLONG_MAX T) as (ws & E & _ & _ & _ & R).
  { unfold is_int64, LLONG_MIN, LLONG_MAX, two63; lia. }
  exists ws. split; auto. unfold item_restore_double_for_target. rewrite R.
  split; [reflexivity|]. unfold DBL_MAX_bits, LLONG_MAX, two63. lia.
Qed.

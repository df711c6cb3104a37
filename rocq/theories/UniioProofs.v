From Verif Require Import Prelude Utf8Model Utf8Spec Utf8Proofs UniioModel UniioSpec.

(** ** Input *)
Lemma scan_byte_at pre b rest :
  scan_byte (mkIn (pre ++ b :: rest) (zlen pre)) = Some (b, mkIn (pre ++ b :: rest) (zlen pre + 1)).
Proof.
  unfold scan_byte. cbn [in_data in_pos]. rewrite znth_app2 by lia.
  rewrite Z.sub_diag, znth_cons_0. reflexivity.
Qed.

Lemma scan_bytes_at bs : forall pre rest,
  scan_bytes (List.length bs) (mkIn (pre ++ bs ++ rest) (zlen pre))
  = (bs, true, mkIn (pre ++ bs ++ rest) (zlen pre + zlen bs)).
Proof.
  induction bs as [|b bs IH]; intros pre rest; cbn [List.length scan_bytes app].
  - rewrite (@zlen_nil Z), Z.add_0_r. reflexivity.
  - rewrite scan_byte_at. specialize (IH (pre ++ [b]) rest).
    rewrite <- !app_assoc in IH. cbn [app] in IH. rewrite zlen_snoc in IH. rewrite IH.
    rewrite zlen_cons. replace (zlen pre + 1 + zlen bs) with (zlen pre + (1 + zlen bs)) by lia. reflexivity.
Qed.

Lemma scan_char_enc pre c rest : code_point c ->
  uni_scan_char (mkIn (pre ++ enc c ++ rest) (zlen pre))
  = (c, mkIn (pre ++ enc c ++ rest) (zlen pre + zlen (enc c))).
Proof.
  intros H. destruct (enc_cons c) as (b & r & E).
  assert (SS: utf8_symbol_size b = zlen (enc c)) by (eapply symbol_size_enc; eauto).
  assert (CV: utf8_convert (b :: r) = Some c).
  { pose proof (convert_enc c [] H) as Q. rewrite app_nil_r, E in Q. exact Q. }
  unfold uni_scan_char. rewrite E in *. cbn [app]. rewrite scan_byte_at.
  rewrite SS. rewrite zlen_cons. replace (Z.to_nat (1 + zlen r - 1)) with (List.length r) by (rewrite zlen_unf; lia).
  pose proof (scan_bytes_at r (pre ++ [b]) rest) as Q.
  rewrite <- !app_assoc in Q. cbn [app] in Q. rewrite zlen_snoc in Q. rewrite Q, CV.
  replace (zlen pre + 1 + zlen r) with (zlen pre + (1 + zlen r)) by lia. reflexivity.
Qed.

Lemma scan_char_end io : in_size io <= in_pos io -> uni_scan_char io = (EOF32, io).
Proof.
  intros H. unfold uni_scan_char, scan_byte. assert (E: znth (in_data io) (in_pos io) = None) by (apply znth_None; intros Q; unfold in_size in H; lia). rewrite E. reflexivity.
Qed.

Lemma scan_bytes_full n : forall io bs io', scan_bytes n io = (bs, true, io') -> List.length bs = n.
Proof.
  induction n as [|n IH]; intros io bs io' H; cbn [scan_bytes] in H.
  - inversion H; reflexivity.
  - destruct (scan_byte io) as [[b io1]|]; [|discriminate].
    destruct (scan_bytes n io1) as [[bs1 ok1] io2] eqn:E. inversion H; subst. cbn. f_equal. eapply IH; eauto.
Qed.

Lemma convert_loop_some n s r : (n <= List.length s)%nat -> exists c, convert_loop n s r = Some c.
Proof.
  revert s r. induction n as [|n IH]; intros s r H; cbn [convert_loop]; [eauto|].
  destruct s as [|x s]; [cbn in H; lia|]. apply IH. cbn in H. lia.
Qed.

(** The default in [uni_scan_char] is never used. *)
Lemma scan_char_converts io b io1 bs io2 : scan_byte io = Some (b, io1) ->
  scan_bytes (Z.to_nat (utf8_symbol_size b - 1)) io1 = (bs, true, io2) ->
  exists c, utf8_convert (b :: bs) = Some c /\ uni_scan_char io = (c, io2).
Proof.
  intros H1 H2. assert (L := scan_bytes_full _ _ _ _ H2).
  destruct (convert_loop_some (Z.to_nat (utf8_symbol_size b - 1)) bs
    (if utf8_symbol_size b =? 2 then Z.land (Z.land 255 b) 31 else if utf8_symbol_size b =? 3 then Z.land (Z.land 255 b) 15
     else if utf8_symbol_size b =? 4 then Z.land (Z.land 255 b) 7 else Z.land 255 b)) as [c Hc]; [lia|].
  exists c. assert (E: utf8_convert (b :: bs) = Some c) by exact Hc. split; auto.
  unfold uni_scan_char. rewrite H1, H2, E. reflexivity.
Qed.

Lemma reads_text cs : forall pre, Forall code_point cs ->
  reads uni_scan_char EOF32 (mkIn (pre ++ encs cs) (zlen pre)) cs.
Proof.
  induction cs as [|c cs IH]; intros pre H.
  - econstructor. apply scan_char_end. unfold in_size. cbn [in_data in_pos encs flat_map]. rewrite app_nil_r. lia.
  - inversion H as [|? ? Hc Hcs]; subst. cbn [encs flat_map]. fold (encs cs). econstructor.
    + apply scan_char_enc; auto.
    + unfold code_point, EOF32 in *. lia.
    + specialize (IH (pre ++ enc c) Hcs). rewrite <- app_assoc, zlen_app in IH. exact IH.
Qed.

Lemma reads_buffer cs : Forall code_point cs -> reads uni_scan_char EOF32 (in_set_buffer (encs cs)) cs.
Proof. intros H. exact (reads_text cs [] H). Qed.

Lemma utf8_size_enc_pos c : code_point c -> 1 <= utf8_size c <= 4.
Proof.
  intros H. rewrite size_enc by auto. unfold enc. repeat destruct (_ <? _); rewrite zlen_unf; cbn; lia.
Qed.

(** Pushing back. *)
Lemma unscan_enc pre c rest : code_point c -> zlen (pre ++ enc c ++ rest) < two64 ->
  let io := mkIn (pre ++ enc c ++ rest) (zlen pre) in
  let '(c', io') := uni_scan_char io in c' = c /\ uni_unscan_char io' c' = (0, io).
Proof.
  intros H L. cbv zeta. rewrite scan_char_enc by auto. split; auto.
  unfold uni_unscan_char, in_set_position, in_size. cbn [in_data in_pos]. rewrite size_enc by auto.
  replace (zlen pre + zlen (enc c) - zlen (enc c)) with (zlen pre) by lia.
  rewrite !zlen_app in *. pose proof (zlen_nonneg pre). pose proof (zlen_nonneg (enc c)). pose proof (zlen_nonneg rest).
  unfold u64. rewrite Z.mod_small by lia.
  destruct (zlen pre <=? _) eqn:E; [reflexivity|lia].
Qed.

Lemma size_EOF : utf8_size EOF32 = 0. Proof. reflexivity. Qed.

Lemma unscan_end io : 0 <= in_pos io -> in_pos io = in_size io -> in_size io < two64 ->
  uni_scan_char io = (EOF32, io) /\ uni_unscan_char io EOF32 = (0, io).
Proof.
  intros H E L. split; [apply scan_char_end; lia|].
  unfold uni_unscan_char, in_set_position. rewrite size_EOF, Z.sub_0_r.
  unfold u64. rewrite Z.mod_small by lia. destruct (in_pos io <=? in_size io) eqn:Q; [|lia].
  destruct io; reflexivity.
Qed.

Lemma scan_bytes_pos n : forall io bs ok io', scan_bytes n io = (bs, ok, io') ->
  in_data io' = in_data io /\ in_pos io <= in_pos io'.
Proof.
  induction n as [|n IH]; intros io bs ok io' H; cbn [scan_bytes] in H; [inversion H; subst; split; auto; lia|].
  unfold scan_byte in H. destruct (znth _ _); [|inversion H; subst; split; auto; lia].
  destruct (scan_bytes n _) as [[bs1 ok1] io2] eqn:E. inversion H; subst. apply IH in E. cbn [in_data in_pos] in E. split; [tauto|lia].
Qed.

Lemma scan_char_pos io c io' : uni_scan_char io = (c, io') ->
  (c = EOF32 /\ io' = io /\ ~ (0 <= in_pos io < in_size io)) \/ (in_data io' = in_data io /\ in_pos io < in_pos io' /\ 0 <= in_pos io < in_size io).
Proof.
  unfold uni_scan_char, scan_byte, in_size. destruct (znth _ _) eqn:E.
  - apply znth_Some_lt in E. destruct (scan_bytes _ _) as [[bs1 ok1] io2] eqn:F. apply scan_bytes_pos in F. cbn [in_data in_pos] in F.
    destruct ok1; intros H; inversion H; subst; right; (split; [tauto|]); split; auto; lia.
  - apply znth_None in E. intros H; inversion H; subst; left; auto.
Qed.

(** Where the unscan goes for arbitrary bytes. *)
Lemma unscan_general io c io' : uni_scan_char io = (c, io') ->
  0 <= in_pos io' <= in_size io' -> in_size io' < two63 ->
  (snd (uni_unscan_char io' c) = io <-> in_data io' = in_data io /\ in_pos io' - in_pos io = utf8_size c /\ 0 <= in_pos io).
Proof.
  intros SC H L. apply scan_char_pos in SC. unfold uni_unscan_char, in_set_position.
  assert (SZ: 0 <= utf8_size c <= 4).
  { unfold utf8_size. repeat (destruct (_ =? _); [lia|]). lia. }
  destruct (Z.lt_ge_cases (in_pos io') (utf8_size c)) as [C|C].
  - assert (U: u64 (in_pos io' - utf8_size c) = in_pos io' - utf8_size c + two64).
    { unfold u64. rewrite <- (Z.mod_add _ 1) by (unfold two64; lia). rewrite Z.mul_1_l. apply Z.mod_small. unfold two64 in *. lia. }
    rewrite U. destruct (_ <=? in_size io') eqn:E; cbn [snd]; [unfold two63, two64 in *; lia|].
    split; intros Q; [|lia].
    subst io'. exfalso. destruct SC as [(-> & _)|SC]; [rewrite size_EOF in C; lia|lia].
  - unfold u64. rewrite Z.mod_small by (unfold two63, two64 in *; lia). destruct (_ <=? in_size io') eqn:E; [|lia]. cbn [snd].
    split; intros Q.
    + subst io. cbn [in_data in_pos]. split; auto. lia.
    + destruct Q as (D & P & _). destruct io as [d p]. cbn [in_data in_pos] in *. subst. f_equal. lia.
Qed.

(** Identifiers. *)
Lemma ident_encodable c : (utf8_is_letter c || utf8_is_digit c) = true -> encodable c.
Proof. unfold utf8_is_letter, utf8_is_russian, utf8_is_digit, encodable. lia. Qed.

Lemma EOF_not_ident : (utf8_is_letter EOF32 || utf8_is_digit EOF32) = false.
Proof. reflexivity. Qed.

Definition stops (rest : list Z) : Prop :=
  match rest with [] => True | c :: _ => (utf8_is_letter c || utf8_is_digit c) = false end.

Definition last_of (rest : list Z) : Z := match rest with [] => EOF32 | c :: _ => c end.
Definition after_last (pre : bytes) (rest : list Z) : Z :=
  match rest with [] => zlen pre | c :: _ => zlen pre + zlen (enc c) end.

Lemma scan_next pre rest : Forall code_point rest ->
  uni_scan_char (mkIn (pre ++ encs rest) (zlen pre))
  = (last_of rest, mkIn (pre ++ encs rest) (after_last pre rest)).
Proof.
  intros H. destruct rest as [|c rest].
  - apply scan_char_end. unfold in_size. cbn [in_data in_pos encs flat_map after_last]. rewrite app_nil_r. lia.
  - inversion H; subst. cbn [encs flat_map last_of after_last]. apply scan_char_enc; auto.
Qed.

Lemma ident_loop_ok ids : forall fuel c pre rest,
  (utf8_is_letter c || utf8_is_digit c) = true ->
  Forall (fun c => (utf8_is_letter c || utf8_is_digit c) = true) ids ->
  Forall code_point rest -> stops rest -> (List.length ids < fuel)%nat ->
  ident_loop fuel c (mkIn (pre ++ encs ids ++ encs rest) (zlen pre))
  = Some (encs (c :: ids), last_of rest,
          mkIn (pre ++ encs ids ++ encs rest) (after_last (pre ++ encs ids) rest)).
Proof.
  induction ids as [|d ids IH]; intros fuel c pre rest Hc Hids Hrest Hs Hf.
  - destruct fuel as [|fuel]; [lia|]. cbn [encs flat_map app]. fold (encs rest).
    cbn [ident_loop]. rewrite Hc. rewrite scan_next by auto.
    assert (E: ident_loop fuel (last_of rest) (mkIn (pre ++ encs rest) (after_last pre rest))
        = Some ([], last_of rest, mkIn (pre ++ encs rest) (after_last pre rest))).
    { assert (F: (utf8_is_letter (last_of rest) || utf8_is_digit (last_of rest)) = false)
        by (destruct rest; [apply EOF_not_ident|exact Hs]).
      destruct fuel; cbn [ident_loop]; rewrite F; reflexivity. }
    rewrite E. cbn [bind]. rewrite to_string_ok by (apply ident_encodable; auto). rewrite !app_nil_r. reflexivity.
  - destruct fuel as [|fuel]; [lia|]. inversion Hids as [|? ? Hd Hids']; subst.
    cbn [ident_loop]. rewrite Hc. cbn [encs flat_map]. fold (encs ids). rewrite <- app_assoc.
    rewrite scan_char_enc by (apply encodable_cp, ident_encodable; auto).
    specialize (IH fuel d (pre ++ enc d) rest Hd Hids' Hrest Hs). rewrite <- app_assoc, zlen_app in IH.
    rewrite IH by (cbn in Hf; lia). cbn [bind].
    rewrite to_string_ok by (apply ident_encodable; auto). cbn [encs flat_map]. rewrite <- app_assoc. reflexivity.
Qed.

Lemma unscan_last pre rest : Forall code_point rest -> zlen (pre ++ encs rest) < two64 ->
  uni_unscan_char (mkIn (pre ++ encs rest) (after_last pre rest)) (last_of rest)
  = (0, mkIn (pre ++ encs rest) (zlen pre)).
Proof.
  intros H L. pose proof (zlen_nonneg pre).
  unfold uni_unscan_char, in_set_position, in_size. cbn [in_data in_pos].
  assert (E: after_last pre rest - utf8_size (last_of rest) = zlen pre).
  { destruct rest as [|c rest]; cbn [after_last last_of]; [rewrite size_EOF; lia|].
    inversion H; subst. rewrite size_enc by auto. lia. }
  rewrite E. rewrite zlen_app in *. pose proof (zlen_nonneg (encs rest)).
  unfold u64. rewrite Z.mod_small by lia. destruct (zlen pre <=? _) eqn:Q; [reflexivity|lia].
Qed.

Lemma encs_app a b : encs (a ++ b) = encs a ++ encs b.
Proof. apply flat_map_app. Qed.

Lemma length_encs_ge cs : (List.length cs <= List.length (encs cs))%nat.
Proof.
  induction cs as [|c cs IH]; cbn [encs flat_map List.length]; [lia|]. rewrite app_length.
  destruct (enc_cons c) as (b & r & E). rewrite E. cbn [List.length]. fold (encs cs). lia.
Qed.

Lemma scan_identifier_ok pre c ids rest : utf8_is_letter c = true ->
  Forall (fun c => (utf8_is_letter c || utf8_is_digit c) = true) ids ->
  Forall code_point rest -> stops rest ->
  zlen (pre ++ encs (c :: ids) ++ encs rest) < two64 ->
  uni_scan_identifier (mkIn (pre ++ encs (c :: ids) ++ encs rest) (zlen pre))
  = Some (encs (c :: ids), mkIn (pre ++ encs (c :: ids) ++ encs rest) (zlen pre + zlen (encs (c :: ids)))).
Proof.
  intros Hc Hids Hrest Hs L. unfold uni_scan_identifier.
  assert (Hc': (utf8_is_letter c || utf8_is_digit c) = true) by (rewrite Hc; reflexivity).
  assert (S1: uni_scan_char (mkIn (pre ++ encs (c :: ids) ++ encs rest) (zlen pre))
     = (c, mkIn ((pre ++ enc c) ++ encs ids ++ encs rest) (zlen (pre ++ enc c)))).
  { cbn [encs flat_map]. fold (encs ids). rewrite <- !app_assoc. rewrite zlen_app. apply scan_char_enc. apply encodable_cp, ident_encodable; auto. }
  rewrite S1. rewrite Hc. cbn [negb].
  rewrite ident_loop_ok; auto.
  2:{ cbn [in_data]. rewrite !app_length. pose proof (length_encs_ge ids). lia. }
  cbn [bind]. 
  assert (D: (pre ++ enc c) ++ encs ids ++ encs rest = (pre ++ encs (c :: ids)) ++ encs rest).
  { cbn [encs flat_map]. rewrite <- !app_assoc. reflexivity. }
  assert (P: (pre ++ enc c) ++ encs ids = pre ++ encs (c :: ids)).
  { cbn [encs flat_map]. rewrite <- !app_assoc. reflexivity. }
  rewrite D, P. rewrite unscan_last; auto.
  - rewrite <- app_assoc, zlen_app. reflexivity.
  - rewrite <- app_assoc. exact L.
Qed.

Lemma scan_identifier_none pre rest : Forall code_point rest ->
  match rest with [] => True | c :: _ => utf8_is_letter c = false end ->
  zlen (pre ++ encs rest) < two64 ->
  uni_scan_identifier (mkIn (pre ++ encs rest) (zlen pre))
  = Some ([], mkIn (pre ++ encs rest) (zlen pre)).
Proof.
  intros H N L. unfold uni_scan_identifier. rewrite scan_next by auto.
  assert (E: utf8_is_letter (last_of rest) = false) by (destruct rest; [reflexivity|exact N]).
  rewrite E. cbn [negb]. rewrite unscan_last by auto. reflexivity.
Qed.

(** ** Output *)
Definition oinv (io : output) (l : bytes) : Prop :=
  exists tail, out_buffer io = l ++ 0 :: tail /\ out_pos io = zlen l.

Lemma zlen_o_fresh e n : 0 <= n -> zlen (o_fresh e n) = n.
Proof.
  intros. unfold o_fresh. assert (X: forall k i, zlen (o_fresh_from e k i) = Z.of_nat k).
  { induction k as [|k IH]; intros i; cbn [o_fresh_from]; rewrite ?zlen_cons, ?IH; [reflexivity|lia]. }
  rewrite X. lia.
Qed.

Lemma firstn_zlen_app {A} (a b : list A) : firstn (Z.to_nat (zlen a)) (a ++ b) = a.
Proof.
  rewrite zlen_unf, Nat2Z.id. rewrite firstn_app, Nat.sub_diag, firstn_all, app_nil_r. reflexivity.
Qed.
Lemma skipn_zlen_app {A} (a b : list A) k : 0 <= k -> skipn (Z.to_nat (zlen a + k)) (a ++ b) = skipn (Z.to_nat k) b.
Proof.
  intros. rewrite zlen_unf. rewrite skipn_app, skipn_all2 by lia. cbn [app]. f_equal. lia.
Qed.

Lemma write_at_ok pre b bs : zlen bs <= zlen b ->
  write_at (pre ++ b) (zlen pre) bs = Some (pre ++ bs ++ skipn (Z.to_nat (zlen bs)) b).
Proof.
  intros H. unfold write_at. pose proof (zlen_nonneg pre). pose proof (zlen_nonneg bs). rewrite zlen_app.
  replace ((0 <=? zlen pre) && (zlen pre + zlen bs <=? zlen pre + zlen b)) with true by lia.
  rewrite firstn_zlen_app, skipn_zlen_app by lia. reflexivity.
Qed.

Lemma out_func_ok fuel : forall e io l text,
  oinv io l -> (0 < fuel)%nat -> zlen l + zlen text < 2 ^ 60 -> out_size io < 2 ^ 61 ->
  zlen l + zlen text < out_size io * 2 ^ (Z.of_nat fuel - 1) ->
  exists r io' l', out_func_buffer fuel e io text = Some (r, io') /\ oinv io' l'
    /\ out_size io' < 2 ^ 61
    /\ ((r = zlen text /\ l' = l ++ text)
        \/ ((exists n, 0 < n < 2 ^ 61 /\ o_alloc e n = false) /\ r = -1 /\ l' = l)).
Proof.
  induction fuel as [|fuel IH]; intros e io l text (tail & HB & HP) F B SZ PW; [lia|].
  cbn [out_func_buffer]. unfold out_size in *. rewrite HB, HP in *.
  pose proof (zlen_nonneg l) as Ll. pose proof (zlen_nonneg tail) as Lt. pose proof (zlen_nonneg text) as Lx.
  assert (LB: zlen (l ++ 0 :: tail) = zlen l + 1 + zlen tail) by (rewrite zlen_app, zlen_cons; lia).
  rewrite LB in *.
  assert (U1: u64 (zlen l + 1 + zlen tail - zlen l) = 1 + zlen tail) by (unfold u64, two64; rewrite Z.mod_small; lia).
  rewrite U1. unfold vsnprintf. replace (1 + zlen tail =? 0) with false by lia.
  replace (1 + zlen tail - 1) with (zlen tail) by lia.
  set (w := firstn (Z.to_nat (zlen tail)) text ++ [0]).
  assert (LW: zlen w = Z.min (zlen tail) (zlen text) + 1).
  { unfold w. rewrite zlen_snoc, zlen_firstn. lia. }
  rewrite write_at_ok by (rewrite LW, zlen_cons; lia). cbn [bind].
  unfold u64, two64. rewrite (Z.mod_small (zlen text + zlen l)) by lia.
  destruct (zlen text + zlen l <? zlen l + 1 + zlen tail) eqn:C.
  - eexists _, _, (l ++ text). split; [reflexivity|].
    assert (W: w = text ++ [0]).
    { unfold w. rewrite firstn_all2; auto. rewrite (zlen_unf text) in *. lia. }
    split; [|split; [|left; split; reflexivity]].
    + rewrite W. eexists. cbn [out_buffer out_pos]. split; [rewrite <- !app_assoc; cbn [app]; reflexivity|]. rewrite zlen_app. lia.
    + cbn [out_buffer]. rewrite !zlen_app, zlen_skipn, LW, zlen_cons. lia.
  - assert (Sk: skipn (Z.to_nat (zlen w)) (0 :: tail) = []).
    { apply skipn_all2. rewrite LW. cbn [List.length]. rewrite (zlen_unf tail) in *. lia. }
    rewrite Sk, app_nil_r.
    rewrite write_at_ok by (change (zlen [0]) with 1; lia). cbn [bind].
    set (b1 := l ++ [0] ++ skipn (Z.to_nat (zlen [0])) w).
    assert (L1: zlen b1 = zlen l + 1 + zlen tail).
    { unfold b1. rewrite !zlen_app, zlen_skipn, LW. change (zlen [0]) with 1. lia. }
    assert (U2: (2 * (zlen l + 1 + zlen tail)) mod 18446744073709551616 = 2 * (zlen l + 1 + zlen tail)) by (rewrite Z.mod_small; lia).
    rewrite U2. destruct (o_alloc e _) eqn:A.
    + assert (FB: firstn (Z.to_nat (2 * (zlen l + 1 + zlen tail))) b1 = b1).
      { apply firstn_all2. rewrite zlen_unf in L1. lia. }
      rewrite FB.
      set (fr := o_fresh e (2 * (zlen l + 1 + zlen tail) - (zlen l + 1 + zlen tail))).
      assert (LF: zlen fr = zlen l + 1 + zlen tail) by (unfold fr; rewrite zlen_o_fresh; lia).
      destruct fuel as [|fuel].
      { exfalso. change (Z.of_nat 1 - 1) with 0 in PW. lia. }
      apply IH.
      * exists (skipn (Z.to_nat (zlen [0])) w ++ fr). cbn [out_buffer out_pos]. split; auto. unfold b1. rewrite <- !app_assoc. reflexivity.
      * lia.
      * lia.
      * cbn [out_buffer]. rewrite zlen_app, L1, LF. lia.
      * cbn [out_buffer]. rewrite zlen_app, L1, LF.
        replace (Z.of_nat (S (S fuel)) - 1) with (Z.succ (Z.of_nat (S fuel) - 1)) in PW by lia.
        rewrite Z.pow_succ_r in PW by lia. lia.
    + exists (-1), (mkOut b1 (zlen l)), l. split; auto. split.
      { exists (skipn (Z.to_nat (zlen [0])) w). cbn [out_buffer out_pos]. split; auto. }
      split; [cbn [out_buffer]; lia|]. right. split; auto. exists (2 * (zlen l + 1 + zlen tail)). split; [lia|auto].
Qed.

Lemma printf_ok e io l text : oinv io l -> zlen l + zlen text < 2 ^ 60 -> out_size io < 2 ^ 61 ->
  exists r io' l', uni_printf e io text = Some (r, io') /\ oinv io' l' /\ out_size io' < 2 ^ 61
    /\ ((r = zlen text /\ l' = l ++ text)
        \/ ((exists n, 0 < n < 2 ^ 61 /\ o_alloc e n = false) /\ r = -1 /\ l' = l)).
Proof.
  intros H B SZ. apply out_func_ok; auto; [lia|].
  destruct H as (tail & HB & HP). unfold out_size. rewrite HB, zlen_app, zlen_cons.
  pose proof (zlen_nonneg l). pose proof (zlen_nonneg tail). change (Z.of_nat 64 - 1) with 63.
  nia.
Qed.

(** Histories of print calls. *)
Inductive pop := PText (t : bytes) | PChar (c : Z).
Definition pop_text (p : pop) : bytes := match p with PText t => t | PChar c => utf8_to_string c end.
Definition pexec (e : oenv) (io : output) (p : pop) : option (Z * output) :=
  match p with PText t => uni_printf e io t | PChar c => uni_print_char e io c end.
Fixpoint prun (io : output) (h : list (oenv * pop)) : option (list Z * output) :=
  match h with
  | [] => Some ([], io)
  | (e, p) :: h => do ' (r, io) <- pexec e io p; do ' (rs, io) <- prun io h; Some (r :: rs, io)
  end.

Lemma print_char_ok e io l c : oinv io l -> zlen l + zlen (utf8_to_string c) < 2 ^ 60 -> out_size io < 2 ^ 61 ->
  exists r io' l', uni_print_char e io c = Some (r, io') /\ oinv io' l' /\ out_size io' < 2 ^ 61
    /\ ((r = zlen (utf8_to_string c) /\ l' = l ++ utf8_to_string c)
        \/ ((exists n, 0 < n < 2 ^ 61 /\ o_alloc e n = false) /\ r = -1 /\ l' = l)).
Proof.
  intros H B SZ. unfold uni_print_char. destruct (utf8_to_string c) as [|b s] eqn:E.
  - exists 0, io, l. split; auto. split; auto. split; auto. left. rewrite app_nil_r. auto.
  - apply printf_ok; auto.
Qed.

Definition mem_fine (e : oenv) (b : bool) : Prop := b = true -> forall n, 0 < n < 2 ^ 61 -> o_alloc e n = true.

Lemma prun_ok h : forall io l ms, oinv io l -> out_size io < 2 ^ 61 ->
  Forall2 (fun ep b => mem_fine (fst ep) b) h ms ->
  zlen l + zlen (flat_map (fun ep => pop_text (snd ep)) h) < 2 ^ 60 ->
  exists rs io' l', prun io h = Some (rs, io') /\ oinv io' l'
    /\ printed_all (combine ms (map (fun ep => pop_text (snd ep)) h)) rs l l'.
Proof.
  induction h as [|[e p] h IH]; intros io l ms H SZ HM B.
  - inversion HM; subst. exists [], io, l. split; auto. split; auto. constructor.
  - inversion HM as [|? b ? ms' Hb Hms]; subst. cbn [flat_map fst snd] in *. rewrite zlen_app in B.
    pose proof (zlen_nonneg (flat_map (fun ep => pop_text (snd ep)) h)).
    assert (exists r io' l', pexec e io p = Some (r, io') /\ oinv io' l' /\ out_size io' < 2 ^ 61
      /\ ((r = zlen (pop_text p) /\ l' = l ++ pop_text p)
        \/ ((exists n, 0 < n < 2 ^ 61 /\ o_alloc e n = false) /\ r = -1 /\ l' = l))) as (r & io1 & l1 & E1 & I1 & S1 & R1).
    { destruct p as [t|c]; cbn [pexec pop_text] in *; [apply printf_ok|apply print_char_ok]; auto; lia. }
    assert (B1: zlen l1 + zlen (flat_map (fun ep => pop_text (snd ep)) h) < 2 ^ 60).
    { destruct R1 as [[_ ->]|(_ & _ & ->)]; [rewrite zlen_app; lia|]. pose proof (zlen_nonneg (pop_text p)). lia. }
    destruct (IH io1 l1 ms' I1 S1 Hms B1) as (rs & io2 & l2 & E2 & I2 & P2).
    exists (r :: rs), io2, l2. cbn [prun]. rewrite E1. cbn [bind]. rewrite E2. cbn [bind].
    split; auto. split; auto. cbn [map combine snd]. econstructor; [|exact P2].
    destruct R1 as [R1|((n & Hn & An) & R1)]; [left; exact R1|]. right. split; [|exact R1].
    destruct b; auto. rewrite (Hb eq_refl n Hn) in An. discriminate.
Qed.

Lemma c_string_app l tail : Forall (fun b => b <> 0) l -> c_string (l ++ 0 :: tail) = Some l.
Proof.
  induction l as [|x l IH]; intros H; cbn [app c_string].
  - reflexivity.
  - inversion H; subst. replace (x =? 0) with false by lia. rewrite IH by auto. reflexivity.
Qed.

Lemma printed_all_nonzero h rs a b : printed_all h rs a b -> Forall (fun b => b <> 0) a ->
  Forall (fun mt => Forall (fun b => b <> 0) (snd mt)) h -> Forall (fun b => b <> 0) b.
Proof.
  induction 1 as [b|m t r h rs a b c P PA IH]; intros Ha Hh; auto.
  inversion Hh; subst. apply IH; auto. destruct P as [[_ ->]|(_ & _ & ->)]; auto. apply Forall_app; auto.
Qed.

Lemma output_ok e0 size h ms : 0 <= size < 2 ^ 60 -> o_alloc e0 (size + 1) = true ->
  Forall2 (fun ep b => mem_fine (fst ep) b) h ms ->
  Forall (fun ep => Forall (fun b => b <> 0) (pop_text (snd ep))) h ->
  zlen (flat_map (fun ep => pop_text (snd ep)) h) < 2 ^ 60 ->
  exists io rs io' l, out_set_buffer e0 size = Some (Some io) /\ prun io h = Some (rs, io')
    /\ printed_all (combine ms (map (fun ep => pop_text (snd ep)) h)) rs [] l
    /\ out_extract_buffer io' = Some l.
Proof.
  intros Hs A HM HZ B. unfold out_set_buffer. unfold u64, two64. rewrite Z.mod_small by lia. rewrite A.
  replace (0 <? size + 1) with true by lia.
  set (io := mkOut (zupd (o_fresh e0 (size + 1)) 0 0) 0).
  assert (I: oinv io []).
  { unfold io, oinv. cbn [out_buffer out_pos app].
    pose proof (zlen_o_fresh e0 (size + 1) ltac:(lia)) as L.
    destruct (o_fresh e0 (size + 1)) as [|x t]; [rewrite (@zlen_nil Z) in L; lia|].
    exists t. split; [|reflexivity]. change (x :: t) with ([x] ++ t). rewrite zupd_app1 by (change (zlen [x]) with 1; lia). reflexivity. }
  assert (SZ: out_size io < 2 ^ 61).
  { unfold out_size, io. cbn [out_buffer]. rewrite zlen_zupd, zlen_o_fresh; lia. }
  destruct (prun_ok h io [] ms I SZ HM) as (rs & io' & l & E & I' & P); [exact B|].
  exists io, rs, io', l. split; auto. split; auto. split; auto.
  unfold out_extract_buffer. destruct I' as (tail & -> & _). apply c_string_app.
  eapply printed_all_nonzero; [exact P|constructor|].
  clear - HZ HM. revert ms HM. induction HZ as [|ep h Hz Hh IH]; intros ms HM; inversion HM; subst; cbn [map combine]; constructor; auto.
Qed.

Lemma printed_all_true ts rs a b : printed_all (combine (map (fun _ => true) ts) ts) rs a b ->
  rs = map (@zlen Z) ts /\ b = a ++ concat ts.
Proof.
  revert rs a. induction ts as [|t ts IH]; intros rs a H; cbn [map combine concat] in *; inversion H as [|? ? r ? rs' ? b1 ? P PA]; subst.
  - rewrite app_nil_r. auto.
  - destruct P as [[-> ->]|[? _]]; [|discriminate]. apply IH in PA as [-> ->]. rewrite app_assoc. auto.
Qed.

Lemma unscan_str pre s rest : zlen (pre ++ s ++ rest) < two64 ->
  uni_unscan (mkIn (pre ++ s ++ rest) (zlen pre + zlen s)) s = (0, mkIn (pre ++ s ++ rest) (zlen pre)).
Proof.
  intros L. unfold uni_unscan, in_set_position, in_size. cbn [in_data in_pos].
  replace (zlen pre + zlen s - zlen s) with (zlen pre) by lia. rewrite !zlen_app in *.
  pose proof (zlen_nonneg pre). pose proof (zlen_nonneg s). pose proof (zlen_nonneg rest).
  unfold u64. rewrite Z.mod_small by lia. destruct (_ <=? _) eqn:E; [reflexivity|lia].
Qed.

Lemma output_success e0 size (h : list (oenv * pop)) : 0 <= size < 2 ^ 60 -> o_alloc e0 (size + 1) = true ->
  Forall (fun ep => forall n, 0 < n < 2 ^ 61 -> o_alloc (fst ep) n = true) h ->
  Forall (fun ep => Forall (fun b => b <> 0) (pop_text (snd ep))) h ->
  zlen (concat (map (fun ep => pop_text (snd ep)) h)) < 2 ^ 60 ->
  exists io rs io', out_set_buffer e0 size = Some (Some io) /\ prun io h = Some (rs, io')
    /\ rs = map (fun ep => zlen (pop_text (snd ep))) h
    /\ out_extract_buffer io' = Some (concat (map (fun ep => pop_text (snd ep)) h)).
Proof.
  intros Hs A HM HZ B. rewrite <- flat_map_concat_map in B.
  destruct (output_ok e0 size h (map (fun _ => true) h) Hs A) as (io & rs & io' & l & E1 & E2 & P & X); auto.
  { clear - HM. induction HM; cbn [map]; constructor; auto. intros _. assumption. }
  exists io, rs, io'. split; auto. split; auto.
  assert (Q: combine (map (fun _ => true) h) (map (fun ep => pop_text (snd ep)) h)
     = combine (map (fun _ => true) (map (fun ep => pop_text (snd ep)) h)) (map (fun ep : oenv * pop => pop_text (snd ep)) h)).
  { rewrite map_map. reflexivity. }
  rewrite Q in P. apply printed_all_true in P as [-> ->]. rewrite map_map. split; auto.
Qed.

Lemma scan_identifier_full pre c ids rest : utf8_is_letter c = true ->
  Forall (fun c => (utf8_is_letter c || utf8_is_digit c) = true) ids ->
  Forall code_point rest ->
  (forall d r, rest = d :: r -> (utf8_is_letter d || utf8_is_digit d) = false) ->
  zlen (pre ++ encs (c :: ids) ++ encs rest) < two64 ->
  uni_scan_identifier (mkIn (pre ++ encs (c :: ids) ++ encs rest) (zlen pre))
  = Some (encs (c :: ids), mkIn (pre ++ encs (c :: ids) ++ encs rest) (zlen pre + zlen (encs (c :: ids)))).
Proof.
  intros H1 H2 H3 H4 H5. apply scan_identifier_ok; auto. destruct rest as [|d r]; [exact I|]. eapply H4; reflexivity.
Qed.

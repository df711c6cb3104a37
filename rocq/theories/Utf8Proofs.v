From Verif Require Import Prelude Utf8Model Utf8Spec.

(** Small facts settled by exhaustion over six-bit values. *)
Lemma range_ind (P : Z -> bool) n : forallb (fun k => P (Z.of_nat k)) (seq 0 n) = true ->
  forall x, 0 <= x < Z.of_nat n -> P x = true.
Proof.
  intros H x Hx. rewrite forallb_forall in H. specialize (H (Z.to_nat x)).
  rewrite Z2Nat.id in H by lia. apply H. apply in_seq. lia.
Qed.

Ltac by_range n :=
  let x := fresh in let H := fresh in
  intros x H; apply Z.eqb_eq; revert x H; apply (range_ind _ n); vm_compute; reflexivity.

Lemma or80 x : 0 <= x < 64 -> Z.lor 128 x = 128 + x.
Proof. revert x. by_range 64%nat. Qed.
Lemma orC0 x : 0 <= x < 32 -> Z.lor (128 + x) 0xC0 = 0xC0 + x.
Proof. revert x. by_range 32%nat. Qed.
Lemma orE0 x : 0 <= x < 16 -> Z.lor (128 + x) 0xE0 = 0xE0 + x.
Proof. revert x. by_range 16%nat. Qed.
Lemma orF0 x : 0 <= x < 8 -> Z.lor (128 + x) 0xF0 = 0xF0 + x.
Proof. revert x. by_range 8%nat. Qed.
Lemma and3F x : 0 <= x < 64 -> Z.land 0x3F (128 + x) = x.
Proof. revert x. by_range 64%nat. Qed.
Lemma and1F x : 0 <= x < 32 -> Z.land (Z.land 0xFF (0xC0 + x)) 0x1F = x.
Proof. revert x. by_range 32%nat. Qed.
Lemma and0F x : 0 <= x < 16 -> Z.land (Z.land 0xFF (0xE0 + x)) 0x0F = x.
Proof. revert x. by_range 16%nat. Qed.
Lemma and07 x : 0 <= x < 8 -> Z.land (Z.land 0xFF (0xF0 + x)) 0x07 = x.
Proof. revert x. by_range 8%nat. Qed.
Lemma andFF x : 0 <= x < 128 -> Z.land 0xFF x = x.
Proof. revert x. by_range 128%nat. Qed.

Lemma ssize1 x : 0 <= x < 128 -> utf8_symbol_size x = 1.
Proof. revert x. by_range 128%nat. Qed.
Lemma ssize2 x : 0 <= x < 32 -> utf8_symbol_size (0xC0 + x) = 2.
Proof. revert x. by_range 32%nat. Qed.
Lemma ssize3 x : 0 <= x < 16 -> utf8_symbol_size (0xE0 + x) = 3.
Proof. revert x. by_range 16%nat. Qed.
Lemma ssize4 x : 0 <= x < 8 -> utf8_symbol_size (0xF0 + x) = 4.
Proof. revert x. by_range 8%nat. Qed.

(** A mask of the form [0xFFF..F << k]. *)
Lemma high_mask c k : 0 <= k -> 0 <= c < 4294967296 -> k <= 32 ->
  (Z.land c (Z.shiftl (Z.ones (32 - k)) k) =? 0) = (c <? 2 ^ k).
Proof.
  intros Hk Hc Hk2. assert (P: 0 < 2 ^ k) by (apply Z.pow_pos_nonneg; lia).
  assert (E: Z.land c (Z.shiftl (Z.ones (32 - k)) k) = Z.shiftl (Z.shiftr c k) k).
  { apply Z.bits_inj'. intros n Hn. rewrite Z.land_spec.
    destruct (Z.lt_ge_cases n k).
    - rewrite !Z.shiftl_spec_low by lia. apply andb_false_r.
    - rewrite !Z.shiftl_spec_high by lia. rewrite Z.shiftr_spec by lia.
      replace (n - k + k) with n by lia. destruct (Z.lt_ge_cases n 32).
      + rewrite Z.ones_spec_low by lia. apply andb_true_r.
      + rewrite Z.ones_spec_high by lia. rewrite andb_false_r.
        symmetry. apply Z.bits_above_log2; [lia|].
        assert (Z.log2 c < 32); [|lia]. destruct (Z.eq_dec c 0) as [->|]; [cbn; lia|].
        apply Z.log2_lt_pow2; lia. }
  rewrite E. rewrite Z.shiftr_div_pow2, Z.shiftl_mul_pow2 by lia.
  destruct (c <? 2 ^ k) eqn:L.
  - rewrite Z.div_small by lia. reflexivity.
  - assert (1 <= c / 2 ^ k) by (apply Z.div_le_lower_bound; lia). nia.
Qed.

Lemma m80 c : 0 <= c < 4294967296 -> (Z.land c 0xFFFFFF80 =? 0) = (c <? 0x80).
Proof. intros. apply (high_mask c 7); lia. Qed.
Lemma m800 c : 0 <= c < 4294967296 -> (Z.land c 0xFFFFF800 =? 0) = (c <? 0x800).
Proof. intros. apply (high_mask c 11); lia. Qed.
Lemma m10000 c : 0 <= c < 4294967296 -> (Z.land c 0xFFFF0000 =? 0) = (c <? 0x10000).
Proof. intros. apply (high_mask c 16); lia. Qed.
Lemma m200000 c : 0 <= c < 4294967296 -> (Z.land c 0xFFE00000 =? 0) = (c <? 0x200000).
Proof. intros. apply (high_mask c 21); lia. Qed.

(** The six-bit group [k] of [c]. *)
Lemma group c k : 0 <= k ->
  Z.shiftr (Z.land c (Z.shiftl 63 k)) k = (c / 2 ^ k) mod 64.
Proof.
  intros. rewrite Z.shiftr_land. rewrite Z.shiftr_shiftl_l by lia.
  replace (k - k) with 0 by lia. rewrite Z.shiftl_0_r.
  change 63 with (Z.ones 6). rewrite Z.land_ones by lia. rewrite Z.shiftr_div_pow2 by lia. reflexivity.
Qed.

Lemma group0 c k : 0 <= k -> (Z.land c (Z.shiftl 63 k) =? 0) = ((c / 2 ^ k) mod 64 =? 0).
Proof.
  intros. rewrite <- group by lia.
  assert (E: Z.land c (Z.shiftl 63 k) = Z.shiftl (Z.shiftr (Z.land c (Z.shiftl 63 k)) k) k).
  { apply Z.bits_inj'. intros n Hn. destruct (Z.lt_ge_cases n k).
    - rewrite Z.land_spec, !Z.shiftl_spec_low by lia. apply andb_false_r.
    - rewrite (Z.shiftl_spec_high (Z.shiftr _ _)) by lia. rewrite Z.shiftr_spec by lia. f_equal. lia. }
  destruct (Z.shiftr (Z.land c (Z.shiftl 63 k)) k =? 0) eqn:Q.
  - apply Z.eqb_eq in Q. rewrite E, Q, Z.shiftl_0_l. auto.
  - apply Z.eqb_neq in Q. apply Z.eqb_neq. intros R. apply Q. rewrite R, Z.shiftr_0_l. auto.
Qed.

(** Decoder. *)
Lemma conv_step r b : 0 <= r < 32768 -> 0 <= b < 64 ->
  Z.lor (Z.shiftl r 6 mod 4294967296) (Z.land 0x3F (128 + b)) = r * 64 + b.
Proof.
  intros. rewrite and3F by auto. rewrite Z.shiftl_mul_pow2 by lia. change (2 ^ 6) with 64.
  rewrite Z.mod_small by lia.
  rewrite <- Z.lxor_lor, <- Z.add_nocarry_lxor; auto.
  all: apply Z.bits_inj'; intros n Hn; rewrite Z.land_spec, Z.bits_0;
    change 64 with (2 ^ 6) in *; rewrite <- Z.shiftl_mul_pow2 by lia;
    destruct (Z.lt_ge_cases n 6);
    [rewrite Z.shiftl_spec_low by lia; reflexivity|
     rewrite <- (Z.mod_small b (2 ^ 6)) by lia; rewrite Z.mod_pow2_bits_high by lia; apply andb_false_r].
Qed.

Lemma convert_enc c rest : code_point c -> utf8_convert (enc c ++ rest) = Some c.
Proof.
  unfold code_point, enc. intros Hc. destruct (c <? 0x80) eqn:E1; [|destruct (c <? 0x800) eqn:E2; [|destruct (c <? 0x10000) eqn:E3]];
  cbn [app utf8_convert].
  - rewrite ssize1 by lia. change (1 =? 2) with false. change (1 =? 3) with false. change (1 =? 4) with false. cbv iota.
    rewrite andFF by lia. reflexivity.
  - rewrite ssize2 by lia. change (2 =? 2) with true. cbv iota. rewrite and1F by lia.
    change (Z.to_nat (2 - 1)) with 1%nat. cbn [convert_loop].
    rewrite conv_step by lia. f_equal. lia.
  - rewrite ssize3 by lia. change (3 =? 2) with false. change (3 =? 3) with true. cbv iota. rewrite and0F by lia.
    change (Z.to_nat (3 - 1)) with 2%nat. cbn [convert_loop].
    rewrite (conv_step (c / 4096)) by lia. rewrite conv_step by lia. f_equal. lia.
  - rewrite ssize4 by lia. change (4 =? 2) with false. change (4 =? 3) with false. change (4 =? 4) with true. cbv iota.
    rewrite and07 by lia.
    change (Z.to_nat (4 - 1)) with 3%nat. cbn [convert_loop].
    rewrite (conv_step (c / 262144)) by lia. rewrite (conv_step (c / 262144 * 64 + _)) by lia. rewrite conv_step by lia. f_equal. lia.
Qed.

Lemma size_enc c : code_point c -> utf8_size c = zlen (enc c) .
Proof.
  unfold code_point. intros. unfold utf8_size. rewrite m80, m800, m10000, m200000 by lia. unfold enc.
  destruct (c <? 0x80) eqn:E1; [reflexivity|]. destruct (c <? 0x800) eqn:E2; [reflexivity|].
  destruct (c <? 0x10000) eqn:E3; [reflexivity|]. destruct (c <? 0x200000) eqn:E4; [reflexivity|lia].
Qed.

Lemma symbol_size_enc c b r : code_point c -> enc c = b :: r -> utf8_symbol_size b = zlen (enc c).
Proof.
  unfold code_point. intros H E. unfold enc in *.
  destruct (c <? 0x80) eqn:E1; [inversion E; subst; apply ssize1; lia|].
  destruct (c <? 0x800) eqn:E2; [inversion E; subst; apply ssize2; lia|].
  destruct (c <? 0x10000) eqn:E3; [inversion E; subst; apply ssize3; lia|].
  inversion E; subst; apply ssize4; lia.
Qed.

Lemma enc_cons c : exists b r, enc c = b :: r.
Proof. unfold enc. repeat destruct (_ <? _); eauto. Qed.

(** Encoder. *)
Definition encodable (c : Z) : Prop :=
  0 <= c < 0x800 \/ 0x1000 <= c < 0x10000 \/ 0x40000 <= c < 0x200000.

Lemma s0 c : Z.shiftr c 0 = c. Proof. apply Z.shiftr_0_r. Qed.

Lemma to_string_4 c : 0x40000 <= c < 0x200000 ->
  utf8_to_string c = [0xF0 + c / 262144; 0x80 + (c / 4096) mod 64; 0x80 + (c / 64) mod 64; 0x80 + c mod 64].
Proof.
  intros H. unfold utf8_to_string. rewrite m200000, m80 by lia.
  replace (c <? 0x200000) with true by lia. replace (c <? 0x80) with false by lia. cbn [negb].
  cbn [octets_loop]. change 0x00FC0000 with (Z.shiftl 63 18). rewrite (group0 c 18) by lia.
  change (2 ^ 18) with 262144. replace ((c / 262144) mod 64 =? 0) with false by lia. cbn [andb].
  change (Z.to_nat 4) with 4%nat. cbn [fill_loop].
  change (Z.shiftr (Z.shiftl 63 18) 6) with (Z.shiftl 63 12).
  change (Z.shiftr (Z.shiftl 63 12) 6) with (Z.shiftl 63 6).
  change (Z.shiftr (Z.shiftl 63 6) 6) with (Z.shiftl 63 0).
  change (6 * Z.of_nat 3) with 18. change (6 * Z.of_nat 2) with 12. change (6 * Z.of_nat 1) with 6. change (6 * Z.of_nat 0) with 0.
  rewrite !group by lia. change (2 ^ 18) with 262144. change (2 ^ 12) with 4096. change (2 ^ 6) with 64. change (2 ^ 0) with 1.
  rewrite !(Z.mod_small _ 256) by lia. rewrite !or80 by lia.
  cbn [Z.eqb Pos.eqb]. rewrite orF0 by lia. rewrite Z.div_1_r.
  f_equal. lia.
Qed.

Lemma to_string_3 c : 0x1000 <= c < 0x40000 ->
  utf8_to_string c = [Z.lor (128 + c / 4096) 0xE0; 0x80 + (c / 64) mod 64; 0x80 + c mod 64].
Proof.
  intros H. unfold utf8_to_string. rewrite m200000, m80 by lia.
  replace (c <? 0x200000) with true by lia. replace (c <? 0x80) with false by lia. cbn [negb].
  cbn [octets_loop]. change 0x00FC0000 with (Z.shiftl 63 18). rewrite (group0 c 18) by lia.
  change (2 ^ 18) with 262144. replace ((c / 262144) mod 64 =? 0) with true by lia.
  change (1 <? 4) with true. cbn [andb].
  change (Z.shiftr (Z.shiftl 63 18) 6) with (Z.shiftl 63 12). rewrite (group0 c 12) by lia.
  change (2 ^ 12) with 4096. replace ((c / 4096) mod 64 =? 0) with false by lia. cbn [andb].
  change (Z.to_nat (4 - 1)) with 3%nat. cbn [fill_loop].
  change (Z.shiftr (Z.shiftl 63 12) 6) with (Z.shiftl 63 6).
  change (Z.shiftr (Z.shiftl 63 6) 6) with (Z.shiftl 63 0).
  change (6 * Z.of_nat 2) with 12. change (6 * Z.of_nat 1) with 6. change (6 * Z.of_nat 0) with 0.
  rewrite !group by lia. change (2 ^ 12) with 4096. change (2 ^ 6) with 64. change (2 ^ 0) with 1.
  rewrite !(Z.mod_small _ 256) by lia. rewrite !or80 by lia.
  change (4 - 1 =? 2) with false. change (4 - 1 =? 3) with true. cbv iota. rewrite Z.div_1_r.
  f_equal. f_equal. f_equal. lia.
Qed.

Lemma to_string_2 c : 0x80 <= c < 0x1000 ->
  utf8_to_string c = [Z.lor (128 + c / 64) 0xC0; 0x80 + c mod 64].
Proof.
  intros H. unfold utf8_to_string. rewrite m200000, m80 by lia.
  replace (c <? 0x200000) with true by lia. replace (c <? 0x80) with false by lia. cbn [negb].
  cbn [octets_loop]. change 0x00FC0000 with (Z.shiftl 63 18). rewrite (group0 c 18) by lia.
  change (2 ^ 18) with 262144. replace ((c / 262144) mod 64 =? 0) with true by lia.
  change (1 <? 4) with true. cbn [andb].
  change (Z.shiftr (Z.shiftl 63 18) 6) with (Z.shiftl 63 12). rewrite (group0 c 12) by lia.
  change (2 ^ 12) with 4096. replace ((c / 4096) mod 64 =? 0) with true by lia.
  change (1 <? 4 - 1) with true. cbn [andb].
  change (Z.shiftr (Z.shiftl 63 12) 6) with (Z.shiftl 63 6). rewrite (group0 c 6) by lia.
  change (2 ^ 6) with 64. replace ((c / 64) mod 64 =? 0) with false by lia. cbn [andb].
  change (Z.to_nat (4 - 1 - 1)) with 2%nat. cbn [fill_loop].
  change (Z.shiftr (Z.shiftl 63 6) 6) with (Z.shiftl 63 0).
  change (6 * Z.of_nat 1) with 6. change (6 * Z.of_nat 0) with 0.
  rewrite !group by lia. change (2 ^ 6) with 64. change (2 ^ 0) with 1.
  rewrite !(Z.mod_small _ 256) by lia. rewrite !or80 by lia.
  change (4 - 1 - 1 =? 2) with true. cbv iota. rewrite Z.div_1_r.
  f_equal. f_equal. f_equal. lia.
Qed.

Lemma to_string_1 c : 0 <= c < 0x80 -> utf8_to_string c = [c].
Proof.
  intros H. unfold utf8_to_string. rewrite m200000, m80 by lia.
  replace (c <? 0x200000) with true by lia. replace (c <? 0x80) with true by lia. reflexivity.
Qed.

Lemma to_string_ok c : encodable c -> utf8_to_string c = enc c.
Proof.
  intros H. unfold enc. destruct (c <? 0x80) eqn:E1; [apply to_string_1; unfold encodable in H; lia|].
  destruct (c <? 0x800) eqn:E2.
  { rewrite to_string_2 by (unfold encodable in H; lia). rewrite orC0 by lia. reflexivity. }
  destruct (c <? 0x10000) eqn:E3.
  { rewrite to_string_3 by (unfold encodable in H; lia). rewrite orE0 by (unfold encodable in H; lia). reflexivity. }
  rewrite to_string_4 by (unfold encodable in H; lia). reflexivity.
Qed.

Lemma to_string_iff c : code_point c -> (utf8_to_string c = enc c <-> encodable c).
Proof.
  intros H. split; [|apply to_string_ok]. intros E. unfold code_point, encodable in *.
  assert (Q: zlen (utf8_to_string c) = zlen (enc c)) by congruence.
  rewrite <- size_enc in Q by auto. unfold utf8_size in Q. rewrite m80, m800, m10000, m200000 in Q by lia.
  destruct (Z.lt_ge_cases c 0x800); [lia|]. destruct (Z.lt_ge_cases c 0x1000).
  { rewrite to_string_2 in Q by lia. change (zlen _) with 2 in Q.
    replace (c <? 128) with false in Q by lia. replace (c <? 2048) with false in Q by lia.
    replace (c <? 65536) with true in Q by lia. discriminate. }
  destruct (Z.lt_ge_cases c 0x10000); [lia|]. destruct (Z.lt_ge_cases c 0x40000); [|lia].
  rewrite to_string_3 in Q by lia. change (zlen _) with 3 in Q.
  replace (c <? 128) with false in Q by lia. replace (c <? 2048) with false in Q by lia.
  replace (c <? 65536) with false in Q by lia. replace (c <? 2097152) with true in Q by lia. discriminate.
Qed.


(** Round trip through the encoder. *)
Lemma round_trip c rest : encodable c ->
  zlen (utf8_to_string c) = utf8_size c
  /\ (exists b r, utf8_to_string c = b :: r /\ utf8_symbol_size b = utf8_size c)
  /\ utf8_convert (utf8_to_string c ++ rest) = Some c.
Proof.
  intros H. assert (code_point c) by (unfold encodable, code_point in *; lia).
  rewrite to_string_ok by auto. rewrite size_enc by auto. split; auto. split.
  - destruct (enc_cons c) as (b & r & E). exists b, r. split; auto. eapply symbol_size_enc; eauto.
  - apply convert_enc; auto.
Qed.

Lemma decode_standard c rest : code_point c ->
  utf8_size c = zlen (enc c)
  /\ (exists b r, enc c = b :: r /\ utf8_symbol_size b = zlen (enc c))
  /\ utf8_convert (enc c ++ rest) = Some c.
Proof.
  intros H. split; [apply size_enc; auto|]. split.
  - destruct (enc_cons c) as (b & r & E). exists b, r. split; auto. eapply symbol_size_enc; eauto.
  - apply convert_enc; auto.
Qed.

Lemma skip_enc c rest b r : code_point c -> enc c = b :: r ->
  skipn (Z.to_nat (utf8_symbol_size b)) (enc c ++ rest) = rest.
Proof.
  intros H E. rewrite (symbol_size_enc c b r) by auto.
  rewrite skipn_app. rewrite (skipn_all2 (enc c)) by (rewrite zlen_unf; lia).
  cbn [app]. replace (_ - _)%nat with 0%nat by (rewrite zlen_unf; lia). reflexivity.
Qed.

(** Code pages. *)
Lemma to_codepage_encs f cs fuel : Forall code_point cs -> (List.length (encs cs) <= fuel)%nat ->
  to_codepage_loop fuel f (encs cs) = Some (map f cs).
Proof.
  revert fuel. induction cs as [|c cs IH]; intros fuel H L.
  - destruct fuel; reflexivity.
  - inversion H as [|? ? Hc Hcs]; subst. cbn [encs flat_map] in *.
    destruct (enc_cons c) as (b & r & E). rewrite app_length in L.
    destruct fuel as [|fuel]; [rewrite E in L; cbn in L; lia|].
    assert (Q: enc c ++ flat_map enc cs = b :: (r ++ flat_map enc cs)) by (rewrite E; reflexivity).
    rewrite Q. cbn [to_codepage_loop]. rewrite <- Q. rewrite convert_enc by auto. cbn [bind].
    rewrite (skip_enc c _ b r) by auto. fold (encs cs). rewrite IH; auto.
    rewrite E in L. cbn in L. unfold encs. lia.
Qed.

Lemma translit_encs cs fuel : Forall code_point cs -> (List.length (encs cs) <= fuel)%nat ->
  translit_loop fuel (encs cs) = Some (flat_map char_transliteration cs).
Proof.
  revert fuel. induction cs as [|c cs IH]; intros fuel H L.
  - destruct fuel; reflexivity.
  - inversion H as [|? ? Hc Hcs]; subst. cbn [encs flat_map] in *.
    destruct (enc_cons c) as (b & r & E). rewrite app_length in L.
    destruct fuel as [|fuel]; [rewrite E in L; cbn in L; lia|].
    assert (Q: enc c ++ flat_map enc cs = b :: (r ++ flat_map enc cs)) by (rewrite E; reflexivity).
    rewrite Q. cbn [translit_loop]. rewrite <- Q. rewrite convert_enc by auto. cbn [bind].
    rewrite (skip_enc c _ b r) by auto. fold (encs cs). rewrite IH; auto.
    rewrite E in L. cbn in L. unfold encs. lia.
Qed.

Definition encodableb (c : Z) : bool :=
  ((0 <=? c) && (c <? 0x800)) || ((0x1000 <=? c) && (c <? 0x10000)) || ((0x40000 <=? c) && (c <? 0x200000)).
Lemma encodableb_ok c : encodableb c = true -> encodable c.
Proof. unfold encodableb, encodable. lia. Qed.
Lemma encodable_cp c : encodable c -> code_point c.
Proof. unfold encodable, code_point. lia. Qed.

Lemma cp866_byte b : 0 <= b < 256 -> stands_for cp866_standard b (char32_from_cp866 b)
  /\ char_to_cp866 (char32_from_cp866 b) = b /\ encodable (char32_from_cp866 b).
Proof.
  intros H. assert (Q: (match znth cp866_standard b with Some c => c =? char32_from_cp866 b | None => false end
     && (char_to_cp866 (char32_from_cp866 b) =? b) && encodableb (char32_from_cp866 b)) = true).
  { revert b H. apply (range_ind _ 256). vm_compute. reflexivity. }
  apply andb_true_iff in Q as [Q Q3]. apply andb_true_iff in Q as [Q1 Q2].
  unfold stands_for. destruct (znth cp866_standard b); [|discriminate].
  split; [f_equal; lia|]. split; [lia|]. apply encodableb_ok; auto.
Qed.

Lemma cp1251_byte b : 0 <= b < 256 -> stands_for cp1251_standard b (char32_from_cp1251 b)
  /\ (b <> 0x98 -> char_to_cp1251 (char32_from_cp1251 b) = b) /\ encodable (char32_from_cp1251 b).
Proof.
  intros H. assert (Q: (match znth cp1251_standard b with Some c => c =? char32_from_cp1251 b | None => false end
     && ((char_to_cp1251 (char32_from_cp1251 b) =? b) || (b =? 0x98)) && encodableb (char32_from_cp1251 b)) = true).
  { revert b H. apply (range_ind _ 256). vm_compute. reflexivity. }
  apply andb_true_iff in Q as [Q Q3]. apply andb_true_iff in Q as [Q1 Q2].
  unfold stands_for. destruct (znth cp1251_standard b); [|discriminate].
  split; [f_equal; lia|]. split; [lia|]. apply encodableb_ok; auto.
Qed.

Lemma lookup_In {A} x (t : list (Z * A)) v : lookup x t = Some v -> In (x, v) t.
Proof.
  induction t as [|[k w] t IH]; cbn [lookup]; [discriminate|].
  destruct (x =? k) eqn:E; intros H; [left; f_equal; [lia|congruence]|right; auto].
Qed.

Definition memb (x : Z) (l : list Z) : bool := existsb (Z.eqb x) l.
Lemma memb_In x l : memb x l = true -> In x l.
Proof. unfold memb. rewrite existsb_exists. intros (y & I & E). apply Z.eqb_eq in E. congruence. Qed.

Lemma to_cp866_unknown c : 0 <= c -> ~ In c cp866_standard -> char_to_cp866 c = 0x1A.
Proof.
  intros Hc N. unfold char_to_cp866. destruct (c <? 0x80) eqn:E1.
  { exfalso. apply N, memb_In. assert (H: 0 <= c < Z.of_nat 128) by lia. clear - H. revert c H.
    apply (range_ind (fun c => memb c cp866_standard)). vm_compute. reflexivity. }
  destruct ((1040 <=? c) && (c <=? 1087)) eqn:E2.
  { exfalso. apply N, memb_In. replace c with (1040 + (c - 1040)) by lia.
    assert (H: 0 <= c - 1040 < Z.of_nat 48) by lia. revert H. generalize (c - 1040).
    apply (range_ind (fun d => memb (1040 + d) cp866_standard)). vm_compute. reflexivity. }
  destruct ((1088 <=? c) && (c <=? 1103)) eqn:E3.
  { exfalso. apply N, memb_In. replace c with (1088 + (c - 1088)) by lia.
    assert (H: 0 <= c - 1088 < Z.of_nat 16) by lia. revert H. generalize (c - 1088).
    apply (range_ind (fun d => memb (1088 + d) cp866_standard)). vm_compute. reflexivity. }
  destruct (lookup c to_cp866_table) as [b|] eqn:E4; auto.
  exfalso. apply N, memb_In. apply lookup_In in E4.
  assert (F: forallb (fun p => memb (fst p) cp866_standard) to_cp866_table = true) by (vm_compute; reflexivity).
  rewrite forallb_forall in F. apply (F (c, b)); auto.
Qed.

Lemma to_cp1251_unknown c : 0 <= c -> ~ In c cp1251_standard -> char_to_cp1251 c = 0x1A.
Proof.
  intros Hc N. unfold char_to_cp1251. destruct (c <? 0x80) eqn:E1.
  { exfalso. apply N, memb_In. assert (H: 0 <= c < Z.of_nat 128) by lia. clear - H. revert c H.
    apply (range_ind (fun c => memb c cp1251_standard)). vm_compute. reflexivity. }
  destruct ((1040 <=? c) && (c <=? 1103)) eqn:E2.
  { exfalso. apply N, memb_In. replace c with (1040 + (c - 1040)) by lia.
    assert (H: 0 <= c - 1040 < Z.of_nat 64) by lia. revert H. generalize (c - 1040).
    apply (range_ind (fun d => memb (1040 + d) cp1251_standard)). vm_compute. reflexivity. }
  destruct (lookup c to_cp1251_table) as [b|] eqn:E4; auto.
  exfalso. apply N, memb_In. apply lookup_In in E4.
  assert (F: forallb (fun p => memb (fst p) cp1251_standard) to_cp1251_table = true) by (vm_compute; reflexivity).
  rewrite forallb_forall in F. apply (F (c, b)); auto.
Qed.

Lemma encs_map (f : Z -> Z) bs : Forall (fun b => encodable (f b)) bs ->
  utf8_from_codepage f bs = encs (map f bs).
Proof.
  unfold utf8_from_codepage, encs. induction bs as [|b bs IH]; intros H; auto.
  inversion H; subst. cbn [flat_map map]. rewrite to_string_ok, IH; auto.
Qed.

Lemma codepage_text (dec cod : Z -> Z) (good : Z -> Prop) :
  (forall b, good b -> cod (dec b) = b /\ encodable (dec b)) ->
  forall bs, Forall good bs ->
    utf8_from_codepage dec bs = encs (map dec bs)
    /\ utf8_to_codepage cod (utf8_from_codepage dec bs) = Some bs.
Proof.
  intros H bs HB.
  assert (E: Forall (fun b => encodable (dec b)) bs) by (eapply Forall_impl; [|exact HB]; intros; apply H; auto).
  split; [apply encs_map; auto|]. rewrite encs_map by auto. unfold utf8_to_codepage.
  rewrite to_codepage_encs; [|apply Forall_map; eapply Forall_impl; [|exact E]; intros; apply encodable_cp; auto|lia].
  f_equal. rewrite map_map. rewrite <- (map_id bs) at 2. apply map_ext_in.
  intros b I. rewrite Forall_forall in HB. apply H; auto.
Qed.

Lemma cp866_text bs : Forall (fun b => 0 <= b < 256) bs ->
  exists cs, Forall2 (stands_for cp866_standard) bs cs
    /\ utf8_from_cp866 bs = encs cs /\ utf8_to_cp866 (encs cs) = Some bs.
Proof.
  intros H. exists (map char32_from_cp866 bs).
  assert (Q: forall b, 0 <= b < 256 -> char_to_cp866 (char32_from_cp866 b) = b /\ encodable (char32_from_cp866 b))
    by (intros b Hb; apply (cp866_byte b Hb)).
  destruct (codepage_text _ _ _ Q bs H) as [E1 E2]. rewrite E1 in E2.
  split; [|split]; auto. clear - H. induction H as [|b bs Hb Hbs IH]; cbn [map]; constructor; auto. apply cp866_byte; auto.
Qed.

Lemma cp1251_text bs : Forall (fun b => 0 <= b < 256 /\ b <> 0x98) bs ->
  exists cs, Forall2 (stands_for cp1251_standard) bs cs
    /\ utf8_from_cp1251 bs = encs cs /\ utf8_to_cp1251 (encs cs) = Some bs.
Proof.
  intros H. exists (map char32_from_cp1251 bs).
  assert (Q: forall b, 0 <= b < 256 /\ b <> 0x98 -> char_to_cp1251 (char32_from_cp1251 b) = b /\ encodable (char32_from_cp1251 b))
    by (intros b [Hb Hn]; split; apply (cp1251_byte b Hb); auto).
  destruct (codepage_text _ _ _ Q bs H) as [E1 E2]. rewrite E1 in E2.
  split; [|split]; auto. clear - H. induction H as [|b bs Hb Hbs IH]; cbn [map]; constructor; auto. apply cp1251_byte; tauto.
Qed.

(** First byte of a symbol. *)
Lemma first_byte_at pre b conts rest k :
  Z.land b 0xC0 <> 0x80 -> Forall (fun x => Z.land x 0xC0 = 0x80) conts ->
  (k <= List.length conts)%nat ->
  utf8_to_first_byte (pre ++ (b :: conts) ++ rest) (List.length pre + k) = Some (zlen pre).
Proof.
  intros Hb Hc. induction k as [|k IH]; intros L.
  - replace (List.length pre + 0)%nat with (List.length pre) by lia.
    assert (N: nth_error (pre ++ (b :: conts) ++ rest) (List.length pre) = Some b).
    { rewrite nth_error_app2 by lia. rewrite Nat.sub_diag. reflexivity. }
    rewrite zlen_unf. destruct (List.length pre); cbn [utf8_to_first_byte]; rewrite N;
      destruct (Z.land b 0xC0 =? 0x80) eqn:E; try lia; reflexivity.
  - replace (List.length pre + S k)%nat with (S (List.length pre + k)) by lia.
    cbn [utf8_to_first_byte].
    assert (exists x, nth_error (pre ++ (b :: conts) ++ rest) (S (List.length pre + k)) = Some x /\ Z.land x 0xC0 = 0x80) as (x & N & Hx).
    { rewrite nth_error_app2 by lia. replace (S _ - _)%nat with (S k) by lia. cbn [app nth_error].
      rewrite nth_error_app1 by lia. destruct (nth_error conts k) as [x|] eqn:E.
      - exists x. split; auto. rewrite Forall_forall in Hc. apply Hc. eapply nth_error_In; eauto.
      - apply nth_error_None in E. lia. }
    rewrite N. replace (Z.land x 0xC0 =? 0x80) with true by lia. apply IH. lia.
Qed.

Lemma cont_byte x : 0 <= x < 64 -> Z.land (0x80 + x) 0xC0 = 0x80.
Proof. revert x. by_range 64%nat. Qed.
Lemma lead_byte1 x : 0 <= x < 128 -> Z.land x 0xC0 <> 0x80.
Proof. intros H. apply Z.eqb_neq. apply negb_true_iff. revert x H. apply (range_ind _ 128). vm_compute. reflexivity. Qed.
Lemma lead_byte2 x : 0 <= x < 64 -> Z.land (0xC0 + x) 0xC0 <> 0x80.
Proof. intros H. apply Z.eqb_neq. apply negb_true_iff. revert x H. apply (range_ind _ 64). vm_compute. reflexivity. Qed.

Lemma enc_shape c : code_point c -> exists b conts, enc c = b :: conts
  /\ Z.land b 0xC0 <> 0x80 /\ Forall (fun x => Z.land x 0xC0 = 0x80) conts.
Proof.
  unfold code_point, enc. intros H.
  destruct (c <? 0x80) eqn:E1; [|destruct (c <? 0x800) eqn:E2; [|destruct (c <? 0x10000) eqn:E3]];
    do 2 eexists; (split; [reflexivity|]).
  - split; [apply lead_byte1; lia|constructor].
  - split; [apply lead_byte2; lia|]. repeat constructor; apply cont_byte; lia.
  - split; [replace (0xE0 + c / 4096) with (0xC0 + (32 + c / 4096)) by lia; apply lead_byte2; lia|]. repeat constructor; apply cont_byte; lia.
  - split; [replace (0xF0 + c / 262144) with (0xC0 + (48 + c / 262144)) by lia; apply lead_byte2; lia|]. repeat constructor; apply cont_byte; lia.
Qed.

Lemma first_byte_text cs1 c cs2 k : code_point c -> 0 <= k < zlen (enc c) ->
  utf8_to_first_byte (encs (cs1 ++ c :: cs2)) (Z.to_nat (zlen (encs cs1) + k)) = Some (zlen (encs cs1)).
Proof.
  intros H Hk. destruct (enc_shape c H) as (b & conts & E & Hb & Hc).
  unfold encs. rewrite flat_map_app. cbn [flat_map]. rewrite E in *.
  rewrite zlen_unf in *. replace (Z.to_nat _) with (List.length (flat_map enc cs1) + Z.to_nat k)%nat by lia.
  apply first_byte_at; auto. cbn [List.length] in Hk. lia.
Qed.

(** Letters. *)
Lemma to_upper_id c : ~ (97 <= c <= 122) -> ~ (1072 <= c <= 1103) -> utf8_to_upper c = c.
Proof.
  intros. unfold utf8_to_upper. replace ((97 <=? c) && (c <=? 122)) with false by lia.
  replace ((1072 <=? c) && (c <=? 1103)) with false by lia. auto.
Qed.

Lemma to_upper_pairs big small : In (big, small) (russian_letters ++ latin_letters) -> small <> 1105 ->
  utf8_to_upper small = big /\ utf8_to_upper big = big.
Proof.
  intros H N.
  assert (F: forallb (fun p => (snd p =? 1105) || ((utf8_to_upper (snd p) =? fst p) && (utf8_to_upper (fst p) =? fst p)))
      (russian_letters ++ latin_letters) = true) by (vm_compute; reflexivity).
  rewrite forallb_forall in F. specialize (F _ H). cbn [fst snd] in F. lia.
Qed.

Lemma ident_char_ok c : ident_char c <-> (utf8_is_letter c || utf8_is_digit c) = true.
Proof.
  split.
  - intros [((b & s) & I & E)|H].
    + assert (F: forallb (fun p => utf8_is_letter (fst p) && utf8_is_letter (snd p)) (russian_letters ++ latin_letters) = true)
        by (vm_compute; reflexivity).
      rewrite forallb_forall in F. specialize (F _ I). cbn [fst snd] in F, E. apply andb_true_iff in F as [F1 F2]. apply orb_true_iff. left. destruct E; subst; auto.
    + unfold utf8_is_letter, utf8_is_russian, utf8_is_digit. lia.
  - intros H.
    assert (C: (48 <= c <= 57 \/ c = 95) \/ 65 <= c <= 90 \/ 97 <= c <= 122 \/ c = 1025 \/ c = 1105 \/ 1040 <= c <= 1071 \/ 1072 <= c <= 1103)
      by (unfold utf8_is_letter, utf8_is_russian, utf8_is_digit in H; lia).
    destruct C as [C|C]; [right; exact C|]. left.
    assert (L: forall i, (i < 26)%nat -> In (65 + Z.of_nat i, 97 + Z.of_nat i) (russian_letters ++ latin_letters)).
    { intros i Hi. apply in_or_app. right. unfold latin_letters. apply in_map_iff. exists i. split; auto. apply in_seq. lia. }
    assert (R: forall i, (i < 32)%nat -> In (1040 + Z.of_nat i, 1072 + Z.of_nat i) (russian_letters ++ latin_letters)).
    { intros i Hi. apply in_or_app. left. unfold russian_letters. apply in_or_app. left. apply in_map_iff. exists i. split; auto. apply in_seq. lia. }
    assert (Y: In (1025, 1105) (russian_letters ++ latin_letters)).
    { apply in_or_app. left. unfold russian_letters. apply in_or_app. right. left. auto. }
    destruct C as [C|[C|[C|[C|[C|C]]]]].
    + eexists. split; [apply (L (Z.to_nat (c - 65))); lia|]. cbn [fst snd]. lia.
    + eexists. split; [apply (L (Z.to_nat (c - 97))); lia|]. cbn [fst snd]. lia.
    + eexists. split; [exact Y|]. cbn [fst snd]. lia.
    + eexists. split; [exact Y|]. cbn [fst snd]. lia.
    + eexists. split; [apply (R (Z.to_nat (c - 1040))); lia|]. cbn [fst snd]. lia.
    + eexists. split; [apply (R (Z.to_nat (c - 1072))); lia|]. cbn [fst snd]. lia.
Qed.

Definition ascii_identb (b : Z) : bool :=
  ((65 <=? b) && (b <=? 90)) || ((97 <=? b) && (b <=? 122)) || ((48 <=? b) && (b <=? 57)) || (b =? 95).

Lemma translit_char c : ident_char c -> Forall ascii_ident_byte (char_transliteration c).
Proof.
  intros H. unfold char_transliteration. destruct (lookup c translit_table) as [s|] eqn:E.
  - apply lookup_In in E.
    assert (F: forallb (fun p => forallb ascii_identb (snd p)) translit_table = true) by (vm_compute; reflexivity).
    rewrite forallb_forall in F. specialize (F _ E). cbn [snd] in F. rewrite forallb_forall in F.
    apply Forall_forall. intros x I. specialize (F x I). unfold ascii_identb, ascii_ident_byte in *. lia.
  - assert (A: 48 <= c <= 57 \/ c = 95 \/ 65 <= c <= 90 \/ 97 <= c <= 122).
    { destruct H as [((b & s) & I & H)|H]; [|lia].
      assert (F: forallb (fun p => let ok c := match lookup c translit_table with None => ascii_identb c | _ => true end in
           ok (fst p) && ok (snd p)) (russian_letters ++ latin_letters) = true) by (vm_compute; reflexivity).
      rewrite forallb_forall in F. specialize (F _ I). cbv zeta in F. cbn [fst snd] in *. apply andb_true_iff in F as [F1 F2].
      destruct H as [<-|<-]; [rewrite E in F1|rewrite E in F2]; unfold ascii_identb in *; lia. }
    rewrite to_string_1 by lia. constructor; [unfold ascii_ident_byte; lia|constructor].
Qed.

Lemma ident_code_point c : ident_char c -> code_point c.
Proof.
  intros H. apply ident_char_ok in H.
  unfold utf8_is_letter, utf8_is_russian, utf8_is_digit, code_point in *. lia.
Qed.

Lemma translit_text cs : Forall ident_char cs ->
  exists out, utf8_transliteration (encs cs) = Some out /\ Forall ascii_ident_byte out.
Proof.
  intros H. exists (flat_map char_transliteration cs). split.
  - unfold utf8_transliteration. apply translit_encs; [|lia]. eapply Forall_impl; [|exact H]. apply ident_code_point.
  - induction H as [|c cs Hc Hcs IH]; cbn [flat_map]; [constructor|]. apply Forall_app. split; auto. apply translit_char; auto.
Qed.

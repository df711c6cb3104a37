(** Proofs for C70: the search. *)
From Verif Require Import Prelude CodeModel ExportSpec ExportProofs Utf8Model Utf8Spec Utf8Proofs UniioModel UniioProofs LocModel LocSpec.
Import String.StringSyntax.
Local Open Scope Z_scope.
Local Open Scope string_scope.
Local Open Scope list_scope.

Definition at_ (pre rest : bytes) : input := mkIn (pre ++ rest) (zlen pre).
Lemma at_move pre a rest : mkIn (pre ++ a ++ rest) (zlen pre + zlen a) = at_ (pre ++ a) rest.
Proof. unfold at_. rewrite <- app_assoc, zlen_app. reflexivity. Qed.
Lemma at_same pre a rest : in_data (at_ (pre ++ a) rest) = in_data (at_ pre (a ++ rest)).
Proof. unfold at_. cbn. rewrite <- app_assoc. reflexivity. Qed.
Lemma scan_at pre b rest : scan_byte (at_ pre (b :: rest)) = Some (b, at_ (pre ++ [b]) rest).
Proof. unfold at_ at 1. rewrite scan_byte_at. f_equal. f_equal. exact (at_move pre [b] rest). Qed.
Lemma scan_at_end pre : scan_byte (at_ pre []) = None.
Proof. unfold scan_byte, at_. cbn [in_data in_pos]. rewrite app_nil_r. replace (znth pre (zlen pre)) with (@None Z); [reflexivity|]. symmetry. apply znth_None. lia. Qed.
Lemma scan_c_at ch pre b rest : scan_c ch (at_ pre (b :: rest)) = (b, at_ (pre ++ [b]) rest).
Proof. unfold scan_c. rewrite scan_at. reflexivity. Qed.
Lemma scan_c_end ch pre : scan_c ch (at_ pre []) = (ch, at_ pre []).
Proof. unfold scan_c. rewrite scan_at_end. reflexivity. Qed.
Lemma char_at pre c rest : code_point c -> uni_scan_char (at_ pre (enc c ++ rest)) = (c, at_ (pre ++ enc c) rest).
Proof. intros C. unfold at_ at 1. rewrite scan_char_enc by auto. f_equal. apply at_move. Qed.
Lemma char_end pre : uni_scan_char (at_ pre []) = (EOF32, at_ pre []).
Proof. apply scan_char_end. unfold in_size, at_. cbn. rewrite app_nil_r. lia. Qed.
Lemma char_nl pre rest : uni_scan_char (at_ pre (10 :: rest)) = (10, at_ (pre ++ [10]) rest).
Proof. apply (char_at pre 10 rest). unfold code_point. lia. Qed.

(** ** To the beginning of a line *)
Definition blank (b : Z) : bool := (b =? 32) || (b =? 9).
Definition fill (w : bytes) (f : Z) : Z := fold_right (fun b f => if blank b then f + 1 else FIRST_SYMBOL) f w.
Definition weight (w : bytes) : Z := fold_right (fun b s => s + (2 - utf8_symbol_size b)) 0 w.
Lemma weight_app a b : weight (a ++ b) = weight a + weight b.
Proof. induction a as [|x a IH]; cbn [app weight fold_right]; [reflexivity|]. fold (weight (a ++ b)). fold (weight a). rewrite IH. lia. Qed.
Lemma fill_indent w : fill w 1 = 1 + indent w.
Proof. induction w as [|b w IH]; cbn [fill fold_right indent]; [reflexivity|]. fold (fill w 1). rewrite IH. unfold blank, FIRST_SYMBOL. destruct (_ || _); lia. Qed.
(** A line begins here. *)
Definition begins (pre : bytes) : Prop := pre = [] \/ exists p, pre = p ++ [10].
Lemma begins_after pre : begins (pre ++ [10]).
Proof. right. eauto. Qed.

Lemma begin_loop_at pre : begins pre -> forall w s f post, Forall (fun b => b <> 10) w -> pre ++ w <> [] ->
  begin_loop (List.length (pre ++ w) - 1) (pre ++ w ++ post) s f = (s + weight w, fill w f, zlen pre).
Proof.
  intros B. induction w as [|b w IH] using rev_ind; intros s f post F N.
  - rewrite app_nil_r in *. destruct B as [->|(p & ->)]; [congruence|]. rewrite app_length. cbn [List.length app weight fill fold_right].
    replace (List.length p + 1 - 1)%nat with (List.length p) by lia.
    assert (Q : fst (scan_c 0 {| in_data := (p ++ [10]) ++ post; in_pos := Z.of_nat (List.length p) |}) = 10).
    { rewrite <- app_assoc. cbn [app]. pose proof (scan_c_at 0 p 10 post) as Q. unfold at_ in Q at 1. rewrite (zlen_unf p) in Q. rewrite Q. reflexivity. }
    rewrite zlen_app, (zlen_unf p). change (zlen [10]) with 1.
    destruct (List.length p); cbn [begin_loop]; rewrite Q; cbn; rewrite Z.add_0_r; reflexivity.
  - apply Forall_app in F as [F1 F2]. inversion F2 as [|? ? B10 _]; subst. rewrite app_assoc, app_length. cbn [List.length].
    replace (List.length (pre ++ w) + 1 - 1)%nat with (List.length (pre ++ w)) by lia. rewrite <- (app_assoc w [b] post).
    assert (Q : fst (scan_c 0 {| in_data := pre ++ w ++ [b] ++ post; in_pos := Z.of_nat (List.length (pre ++ w)) |}) = b).
    { pose proof (scan_c_at 0 (pre ++ w) b post) as Q. unfold at_ in Q at 1. rewrite <- app_assoc, (zlen_unf (pre ++ w)) in Q. cbn [app]. cbn [app] in Q. rewrite Q. reflexivity. }
    rewrite weight_app. unfold fill. rewrite fold_right_app. cbn [fold_right weight]. change (fold_right (fun b f => if blank b then f + 1 else FIRST_SYMBOL) ?x w) with (fill w x).
    destruct (List.length (pre ++ w)) as [|n] eqn:L.
    + destruct pre; [|discriminate]. destruct w; [|discriminate]. cbn [begin_loop]. rewrite Q. replace (b =? 10) with false by lia. reflexivity.
    + cbn [begin_loop]. rewrite Q. replace (b =? 10) with false by lia.
      specialize (IH (s + (2 - utf8_symbol_size b)) (if blank b then f + 1 else FIRST_SYMBOL) ([b] ++ post) F1 ltac:(intros E; rewrite E in L; discriminate)).
      replace (S n - 1)%nat with n in IH by lia. etransitivity; [exact IH|]. f_equal. f_equal. lia.
Qed.
Lemma line_to_begin_at pre w post : begins pre -> Forall (fun b => b <> 10) w ->
  line_to_begin (at_ (pre ++ w) post) = (1 + weight w, 1 + indent w, at_ pre (w ++ post)).
Proof.
  intros B F. unfold line_to_begin, at_. cbn [in_pos in_data]. rewrite <- app_assoc, (zlen_unf (pre ++ w)), Nat2Z.id.
  destruct (List.length (pre ++ w)) as [|n] eqn:L.
  - destruct pre; [|discriminate]. destruct w; [|discriminate]. reflexivity.
  - pose proof (begin_loop_at pre B w FIRST_SYMBOL FIRST_SYMBOL post F ltac:(intros E; rewrite E in L; discriminate)) as Q.
    rewrite L in Q. replace (S n - 1)%nat with n in Q by lia. rewrite Q. rewrite <- fill_indent. reflexivity.
Qed.

(** Characters and bytes. *)
Lemma plain_point c : plain_char c -> code_point c.
Proof. intros [E _]. apply encodable_cp, E. Qed.
Lemma cont_size x : 0 <= x < 64 -> utf8_symbol_size (0x80 + x) = 1.
Proof. revert x. by_range 64%nat. Qed.
Lemma weight_enc c : code_point c -> weight (enc c) = 1.
Proof.
  intros C. unfold code_point in C. unfold enc. pose proof (Z.mod_pos_bound c 64 ltac:(lia)). pose proof (Z.mod_pos_bound (c / 64) 64 ltac:(lia)). pose proof (Z.mod_pos_bound (c / 4096) 64 ltac:(lia)).
  destruct (c <? 0x80) eqn:E1; [cbn [weight fold_right]; rewrite ssize1 by lia; reflexivity|].
  destruct (c <? 0x800) eqn:E2; [|destruct (c <? 0x10000) eqn:E3]; cbn [weight fold_right]; rewrite !cont_size by lia.
  - rewrite ssize2; [lia|]. split; [apply Z.div_pos; lia|apply Z.div_lt_upper_bound; lia].
  - rewrite ssize3; [lia|]. split; [apply Z.div_pos; lia|apply Z.div_lt_upper_bound; lia].
  - rewrite ssize4; [lia|]. split; [apply Z.div_pos; lia|apply Z.div_lt_upper_bound; lia].
Qed.
Lemma weight_encs cs : Forall code_point cs -> weight (encs cs) = zlen cs.
Proof.
  induction 1 as [|c cs C F IH]; [reflexivity|]. cbn [encs flat_map]. fold (encs cs). rewrite weight_app, weight_enc, IH, zlen_cons by auto. reflexivity.
Qed.
Lemma enc_high c : code_point c -> 128 <= c -> Forall (fun b => 128 <= b) (enc c).
Proof.
  intros C H. unfold code_point in C. unfold enc. pose proof (Z.mod_pos_bound c 64 ltac:(lia)). pose proof (Z.mod_pos_bound (c / 64) 64 ltac:(lia)). pose proof (Z.mod_pos_bound (c / 4096) 64 ltac:(lia)).
  pose proof (Z.div_pos c 64 ltac:(lia) ltac:(lia)). pose proof (Z.div_pos c 4096 ltac:(lia) ltac:(lia)). pose proof (Z.div_pos c 262144 ltac:(lia) ltac:(lia)).
  replace (c <? 0x80) with false by lia. destruct (c <? 0x800); [|destruct (c <? 0x10000)]; repeat (constructor; [lia|]); constructor.
Qed.
Lemma enc_low c : 0 <= c < 128 -> enc c = [c].
Proof. intros C. unfold enc. replace (c <? 0x80) with true by lia. reflexivity. Qed.
Lemma encs_no k cs : 0 <= k < 128 -> Forall code_point cs -> ~ In k cs -> Forall (fun b => b <> k) (encs cs).
Proof.
  intros K F N. induction F as [|c cs C F IH]; [constructor|]. cbn [encs flat_map]. fold (encs cs). apply Forall_app. split.
  - destruct (Z.lt_ge_cases c 128).
    + rewrite enc_low by (unfold code_point in C; lia). constructor; [|constructor]. intros ->. apply N. left. reflexivity.
    + eapply Forall_impl; [|apply enc_high; [exact C|lia]]. cbn. lia.
  - apply IH. intros I. apply N. right. exact I.
Qed.
Lemma plain_points cs : Forall plain_char cs -> Forall code_point cs.
Proof. intros F. eapply Forall_impl; [|exact F]. intros c. apply plain_point. Qed.
Lemma plain_bytes cs : Forall plain_char cs -> Forall (fun b => b <> 10) (encs cs).
Proof.
  intros F. apply encs_no; [lia|apply plain_points, F|]. intros I. rewrite Forall_forall in F. destruct (F _ I). congruence.
Qed.
Lemma indent_encs cs : Forall code_point cs -> indent (encs cs) = indent cs.
Proof.
  induction 1 as [|c cs C F IH]; [reflexivity|]. cbn [encs flat_map]. fold (encs cs). destruct (Z.lt_ge_cases c 128) as [L|L].
  - rewrite enc_low by (unfold code_point in C; lia). cbn [app indent]. rewrite IH. reflexivity.
  - pose proof (enc_high c C L) as H. destruct (enc_cons c) as (b & r & E). rewrite E in *. inversion H; subst. cbn [app indent].
    replace ((b =? 32) || (b =? 9)) with false by lia. replace ((c =? 32) || (c =? 9)) with false by lia. reflexivity.
Qed.

(** ** To the end of a line *)
(** A line ends here. *)
Definition ends (rest : bytes) : Prop := rest = [] \/ exists r, rest = 10 :: r.
Definition tail_ (rest : bytes) : bytes := match rest with [] => [] | _ :: r => r end.
Definition after (pre rest : bytes) : bytes := match rest with [] => pre | b :: _ => pre ++ [b] end.
Lemma end_loop_at cs : forall n pre rest, Forall plain_char cs -> ends rest -> (List.length cs < n)%nat ->
  end_loop n (at_ pre (encs cs ++ rest)) = Some (at_ (after (pre ++ encs cs) rest) (tail_ rest)).
Proof.
  induction cs as [|c cs IH]; intros n pre rest F E L; (destruct n as [|n]; [cbn in L; lia|]); cbn [end_loop].
  - cbn [encs flat_map app]. rewrite app_nil_r. destruct E as [->|(r & ->)]; [rewrite char_end|rewrite char_nl]; reflexivity.
  - inversion F as [|? ? C F']; subst. cbn [encs flat_map]. fold (encs cs). rewrite <- app_assoc, char_at by (apply plain_point, C).
    destruct C as [C C10]. replace ((c =? 10) || (c =? EOF32)) with false by (unfold EOF32; apply encodable_cp in C; unfold code_point in C; lia).
    rewrite IH by (auto; cbn in L; lia). rewrite <- app_assoc. reflexivity.
Qed.
Lemma fuel_at pre rest cs t : rest = encs cs ++ t -> (List.length cs < fuel (at_ pre rest))%nat.
Proof. intros ->. unfold fuel, at_. cbn. rewrite !app_length. pose proof (length_encs_ge cs). lia. Qed.
Lemma line_to_end_at cs pre rest : Forall plain_char cs -> ends rest ->
  line_to_end (at_ pre (encs cs ++ rest)) = Some (at_ (after (pre ++ encs cs) rest) (tail_ rest)).
Proof. intros F E. apply end_loop_at; auto. eapply fuel_at. reflexivity. Qed.
Lemma line_loop_at cs : forall n pre rest, Forall plain_char cs -> ends rest -> (List.length cs < n)%nat ->
  line_loop n (at_ pre (encs cs ++ rest)) = Some (encs cs).
Proof.
  induction cs as [|c cs IH]; intros n pre rest F E L; (destruct n as [|n]; [cbn in L; lia|]); cbn [line_loop].
  - cbn [encs flat_map app]. destruct E as [->|(r & ->)]; [rewrite char_end|rewrite char_nl]; reflexivity.
  - inversion F as [|? ? C F']; subst. cbn [encs flat_map]. fold (encs cs). rewrite <- app_assoc, char_at by (apply plain_point, C).
    destruct C as [C C10]. replace ((c =? 10) || (c =? EOF32)) with false by (unfold EOF32; apply encodable_cp in C; unfold code_point in C; lia).
    rewrite IH by (auto; cbn in L; lia). cbn [bind]. rewrite to_string_ok by exact C. reflexivity.
Qed.
Lemma path_loop_at cs : forall n pre rest, Forall plain_char cs -> ~ In 34 cs -> (List.length cs < n)%nat ->
  path_loop n (at_ pre (encs cs ++ 34 :: rest)) = Some (encs cs).
Proof.
  induction cs as [|c cs IH]; intros n pre rest F E L; (destruct n as [|n]; [cbn in L; lia|]); cbn [path_loop].
  - cbn [encs flat_map app]. pose proof (char_at pre 34 rest ltac:(unfold code_point; lia)) as Q. rewrite enc_low in Q by lia. cbn [app] in Q. rewrite Q. reflexivity.
  - inversion F as [|? ? C F']; subst. cbn [encs flat_map]. fold (encs cs). rewrite <- app_assoc, char_at by (apply plain_point, C).
    replace (c =? QUOTE) with false by (unfold QUOTE; assert (c <> 34) by (intros ->; apply E; left; reflexivity); lia).
    rewrite IH; [|exact F'|intros I; apply E; right; exact I|cbn in L; lia]. cbn [bind]. rewrite to_string_ok by apply C. reflexivity.
Qed.

(** ** Marks *)
Lemma compare_at s : forall ch pre rest, compare_loop ch s (at_ pre (s ++ 32 :: rest)) = (true, at_ (pre ++ s ++ [32]) rest).
Proof.
  induction s as [|x s IH]; intros ch pre rest; cbn [compare_loop app]; rewrite scan_c_at; [reflexivity|].
  rewrite Z.eqb_refl, IH, <- app_assoc. reflexivity.
Qed.
Lemma compare_not s : forall ch pre rest, firstn (S (List.length s)) rest <> s ++ [32] -> Forall (fun x => x <> ch) (firstn 1 (s ++ [32])) ->
  (forall a x y b, s ++ [32] = a ++ x :: y :: b -> x <> y) -> exists io, compare_loop ch s (at_ pre rest) = (false, io).
Proof.
  induction s as [|x s IH]; intros ch pre rest N F D; cbn [compare_loop].
  - destruct rest as [|b rest]; [rewrite scan_c_end|rewrite scan_c_at].
    + inversion F; subst. replace (ch =? SEPARATOR) with false by (unfold SEPARATOR; lia). eauto.
    + cbn in N. replace (b =? SEPARATOR) with false by (unfold SEPARATOR; assert (b <> 32) by congruence; lia). eauto.
  - destruct rest as [|b rest]; [rewrite scan_c_end|rewrite scan_c_at].
    + inversion F; subst. replace (ch =? x) with false by lia. eauto.
    + destruct (b =? x) eqn:E; [|eauto]. assert (b = x) by lia. subst b. apply IH.
      * intros Q. apply N. cbn [List.length firstn app] in *. f_equal. exact Q.
      * destruct s as [|y s]; cbn [app firstn]; (constructor; [|constructor]).
        -- apply not_eq_sym. apply (D [] x 32 []). reflexivity.
        -- apply not_eq_sym. apply (D [] x y (s ++ [32])). reflexivity.
      * intros a u v r Q. apply (D (x :: a) u v r). cbn [app]. f_equal. exact Q.
Qed.

Lemma digit_digit d : is_digit d -> utf8_is_digit d = true.
Proof. unfold is_digit, utf8_is_digit. lia. Qed.
Lemma read_grows w : forall v r, 0 <= v -> read_digits w v = Some r -> v <= r.
Proof.
  induction w as [|d w IH]; intros v r V R; cbn [read_digits] in R; [inversion R; lia|].
  destruct (_ && _) eqn:E; [|discriminate]. apply IH in R; lia.
Qed.
Definition no_digit (rest : bytes) : Prop := match rest with [] => True | b :: _ => utf8_is_digit b = false end.
Lemma zu_digits_at w : forall k v r pre rest, read_digits w v = Some r -> Forall is_digit w -> 0 <= v -> r <= SIZE_MAX -> no_digit rest -> (List.length w < k)%nat ->
  zu_digits k v (at_ pre (w ++ rest)) = (r, at_ (pre ++ w) rest).
Proof.
  induction w as [|d w IH]; intros k v r pre rest R F V M D K; (destruct k as [|k]; [cbn in K; lia|]); cbn [zu_digits app].
  - cbn in R. inversion R; subst. rewrite app_nil_r. destruct rest as [|b rest]; [rewrite scan_at_end; reflexivity|]. rewrite scan_at. cbn in D. rewrite D. reflexivity.
  - rewrite scan_at. inversion F as [|? ? Fd F']; subst. rewrite digit_digit by exact Fd. cbn [read_digits] in R. unfold is_digit in Fd.
    replace ((48 <=? d) && (d <=? 57)) with true in R by lia. pose proof (read_grows w (10 * v + (d - 48)) r ltac:(lia) R). rewrite Z.min_l by lia.
    rewrite (IH k _ r) by (auto; try lia; cbn in K; lia). rewrite <- app_assoc. reflexivity.
Qed.
Lemma scan_zu_at n k pre rest : 0 <= n < SIZE_MAX -> no_digit rest -> (List.length (decimal n) < k)%nat ->
  scan_zu k (at_ pre (decimal n ++ rest)) = Some (n, at_ (pre ++ decimal n) rest).
Proof.
  intros N D K. destruct (digits_read 20 n) as [R F]; [unfold SIZE_MAX, two64 in *; change (10 ^ Z.of_nat 20) with 100000000000000000000; lia|].
  assert (E : decimal n = digits 20 n []) by (unfold decimal; replace (n <? 0) with false by lia; reflexivity).
  rewrite E in *. destruct k as [|k]; [lia|]. cbn [scan_zu]. pose proof (digits_some 20 n ltac:(discriminate)) as NE.
  destruct (digits 20 n []) as [|d w] eqn:W; [congruence|]. cbn [app]. rewrite scan_at. inversion F as [|? ? Fd F']; subst.
  replace (is_blank d) with false by (unfold is_blank; unfold is_digit in Fd; lia). rewrite digit_digit by exact Fd.
  change (d :: w ++ rest) with ((d :: w) ++ rest). rewrite (zu_digits_at (d :: w) (S k) 0 n); auto; lia.
Qed.

Lemma ascii_prefix p : Forall (fun b => 0 <= b < 128 /\ b <> 10) p -> forall cs rest, Forall code_point cs -> ends rest ->
  firstn (List.length p) (encs cs ++ rest) = p -> firstn (List.length p) cs = p.
Proof.
  induction 1 as [|b p [B B10] F IH]; intros cs rest C E Q; [reflexivity|].
  destruct C as [|c cs Cc C].
  - exfalso. cbn [encs flat_map app] in Q. destruct E as [->|(r & ->)]; cbn in Q; congruence.
  - cbn [encs flat_map] in Q. fold (encs cs) in Q. rewrite <- app_assoc in Q. destruct (Z.lt_ge_cases c 128) as [L|L].
    + rewrite enc_low in Q by (unfold code_point in Cc; lia). cbn [app List.length firstn] in *. inversion Q as [[Q1 Q2]]. rewrite Q2. f_equal. eapply IH; eauto.
    + pose proof (enc_high c Cc L) as H. destruct (enc_cons c) as (x & r & X). rewrite X in *. inversion H; subst. cbn in Q. inversion Q. lia.
Qed.
Lemma recognize_code cs pre rest m : proper (Code cs) -> ends rest -> exists io, mark_recognize (at_ pre (encs cs ++ rest)) m = Some (false, m, io).
Proof.
  intros [F N] E. unfold mark_recognize, mark_compare.
  destruct (compare_not PREFIX 0 pre (encs cs ++ rest)) as [io Q].
  - intros Q. apply N. apply (ascii_prefix (str "#line ")) with rest; [|apply plain_points, F|exact E|exact Q].
    repeat (constructor; [cbn; lia|]). constructor.
  - repeat constructor. cbn. lia.
  - intros a x y b Q. cbn in Q. do 5 (destruct a as [|? a]; [inversion Q; subst; lia|apply (f_equal (@tl Z)) in Q; cbn [tl app] in Q]). destruct a as [|? [|]]; discriminate.
  - rewrite Q. exists io. reflexivity.
Qed.
Lemma no_digit_end rest : ends rest -> no_digit rest.
Proof. intros [->|(r & ->)]; cbn; auto. Qed.
Lemma fuel_ge pre rest (w : bytes) : (List.length w <= List.length rest)%nat -> (List.length w < fuel (at_ pre rest))%nat.
Proof. unfold fuel, at_. cbn. rewrite app_length. lia. Qed.
Lemma head_at n rest : head n ++ rest = PREFIX ++ 32 :: (decimal n ++ rest).
Proof. unfold head. rewrite <- app_assoc. reflexivity. Qed.
Lemma recognize_end n pre rest m : proper (End n) -> ends rest -> exists io, mark_recognize (at_ pre (head n ++ rest)) m = Some (true, mkMark n SIZE_MAX SIZE_MAX, io).
Proof.
  intros N E. cbn in N. unfold mark_recognize, mark_compare. rewrite head_at. rewrite compare_at. cbn [negb]. cbv beta iota.
  rewrite scan_zu_at by (auto using no_digit_end; apply fuel_ge; rewrite app_length; lia).
  destruct E as [->|(r & ->)]; [rewrite scan_c_end|rewrite scan_c_at]; cbn; eauto.
Qed.
Lemma quote_loop_at w : forall n ch pre rest, Forall (fun b => b <> 34) w -> (List.length w < n)%nat ->
  quote_loop n ch (at_ pre (w ++ 34 :: rest)) = Some (34, at_ (pre ++ w ++ [34]) rest).
Proof.
  induction w as [|b w IH]; intros n ch pre rest F L; (destruct n as [|n]; [cbn in L; lia|]); cbn [quote_loop app]; rewrite scan_at.
  - reflexivity.
  - inversion F; subst. replace (b =? QUOTE) with false by (unfold QUOTE; lia). rewrite IH by (auto; cbn in L; lia). rewrite <- app_assoc. reflexivity.
Qed.
Lemma recognize_usual n path pre rest m : proper (Usual n path) -> ends rest ->
  exists io, mark_recognize (at_ pre (head n ++ quoted path ++ rest)) m = Some (true, mkMark n (zlen (pre ++ head n ++ [32; 34])) SIZE_MAX, io).
Proof.
  intros (N & F & Q) E. unfold mark_recognize, mark_compare. rewrite head_at. rewrite compare_at. cbn [negb]. cbv beta iota.
  unfold quoted. rewrite <- !app_assoc. cbn [app].
  rewrite scan_zu_at; [|exact N|reflexivity|apply fuel_ge; rewrite app_length; lia].
  rewrite scan_c_at. cbn [negb]. change (32 =? SEPARATOR) with true. cbn [negb]. rewrite scan_c_at.
  rewrite quote_loop_at; [|apply encs_no; [lia|apply plain_points, F|exact Q]|apply fuel_ge; rewrite app_length; lia]. cbn [bind].
  assert (P : in_pos (at_ ((((pre ++ PREFIX ++ [32]) ++ decimal n) ++ [32]) ++ [34]) (encs path ++ 34 :: rest)) = zlen (pre ++ head n ++ [32; 34])).
  { unfold at_. cbn [in_pos]. f_equal. unfold head. rewrite <- !app_assoc. reflexivity. }
  rewrite P. destruct E as [->|(r & ->)]; [rewrite scan_c_end|rewrite scan_c_at]; cbn; eauto.
Qed.
Lemma recognize_begin n path source pre rest m : proper (Begin n path source) ->
  exists io, mark_recognize (at_ pre (head n ++ quoted path ++ str " // " ++ encs source ++ rest)) m
    = Some (true, mkMark n (zlen (pre ++ head n ++ [32; 34])) (zlen (pre ++ head n ++ quoted path ++ str " // ")), io).
Proof.
  intros (N & F & Q & _). unfold mark_recognize, mark_compare. rewrite head_at. rewrite compare_at. cbn [negb]. cbv beta iota.
  unfold quoted at 1 2. rewrite <- !app_assoc. cbn [app].
  rewrite scan_zu_at; [|exact N|reflexivity|apply fuel_ge; rewrite app_length; lia].
  rewrite scan_c_at. cbn [negb]. change (32 =? SEPARATOR) with true. cbn [negb]. rewrite scan_c_at.
  rewrite quote_loop_at; [|apply encs_no; [lia|apply plain_points, F|exact Q]|apply fuel_ge; rewrite app_length; lia]. cbn [bind].
  assert (P : in_pos (at_ ((((pre ++ PREFIX ++ [32]) ++ decimal n) ++ [32]) ++ [34]) (encs path ++ 34 :: str " // " ++ encs source ++ rest)) = zlen (pre ++ head n ++ [32; 34])).
  { unfold at_. cbn [in_pos]. f_equal. unfold head. rewrite <- !app_assoc. reflexivity. }
  rewrite P. change (str " // " ++ encs source ++ rest) with (32 :: COMMENT ++ 32 :: (encs source ++ rest)).
  rewrite scan_c_at. change (32 =? SEPARATOR) with true. cbv beta iota. rewrite compare_at. eexists. do 4 f_equal.
  unfold at_. cbn [in_pos]. f_equal. unfold head, quoted. rewrite <- !app_assoc. reflexivity.
Qed.

(** ** Back over the lines *)
Lemma no_nl_decimal n : 0 <= n < SIZE_MAX -> Forall (fun b => b <> 10) (decimal n).
Proof.
  intros N. destruct (digits_read 20 n) as [_ F]; [unfold SIZE_MAX, two64 in *; change (10 ^ Z.of_nat 20) with 100000000000000000000; lia|].
  unfold decimal. replace (n <? 0) with false by lia. eapply Forall_impl; [|exact F]. unfold is_digit. cbn. lia.
Qed.
Lemma no_nl_head n : 0 <= n < SIZE_MAX -> Forall (fun b => b <> 10) (head n).
Proof. intros N. apply Forall_app. split; [cbn; repeat (constructor; [lia|]); constructor|apply no_nl_decimal, N]. Qed.
Lemma no_nl_quoted p : Forall plain_char p -> Forall (fun b => b <> 10) (quoted p).
Proof. intros F. unfold quoted. apply Forall_app. split; [cbn; repeat (constructor; [lia|]); constructor|]. apply Forall_app. split; [apply plain_bytes, F|repeat constructor; lia]. Qed.
Lemma no_nl l : proper l -> Forall (fun b => b <> 10) (line_text l).
Proof.
  destruct l; cbn [proper line_text].
  - intros [F _]. apply plain_bytes, F.
  - intros (N & F & _). apply Forall_app. split; [apply no_nl_head, N|apply no_nl_quoted, F].
  - intros (N & F & _ & S). apply Forall_app. split; [apply no_nl_head, N|]. apply Forall_app. split; [apply no_nl_quoted, F|].
    apply Forall_app. split; [cbn; repeat (constructor; [lia|]); constructor|apply plain_bytes, S].
  - apply no_nl_head.
Qed.
Lemma above_app a b : above (a ++ b) = above a ++ above b.
Proof. unfold above. apply flat_map_app. Qed.
Lemma above_snoc ls l : above (ls ++ [l]) = above ls ++ line_text l ++ [10].
Proof. rewrite above_app. cbn. rewrite app_nil_r. reflexivity. Qed.
Lemma begins_above ls : begins (above ls).
Proof.
  destruct ls as [|l ls _] using rev_ind; [left; reflexivity|]. right. exists (above ls ++ line_text l). rewrite above_snoc, app_assoc. reflexivity.
Qed.
Lemma above_pos ls l : zlen (above ls) < zlen (above (ls ++ [l])).
Proof. rewrite above_snoc, !zlen_app. change (zlen [10]) with 1. pose proof (zlen_nonneg (line_text l)). lia. Qed.

(** What a line says when it stands after [pre]. *)
Definition said (pre : bytes) (l : line) (m : mark) : bool * mark :=
  match l with
  | Code _ => (false, m)
  | Usual n path => (true, mkMark n (zlen (pre ++ head n ++ [32; 34])) SIZE_MAX)
  | Begin n path source => (true, mkMark n (zlen (pre ++ head n ++ [32; 34])) (zlen (pre ++ head n ++ quoted path ++ str " // ")))
  | End n => (true, mkMark n SIZE_MAX SIZE_MAX)
  end.
Lemma recognize_at l pre rest m : proper l -> ends rest ->
  exists io, mark_recognize (at_ pre (line_text l ++ rest)) m = Some (fst (said pre l m), snd (said pre l m), io).
Proof.
  intros P E. destruct l; cbn [said fst snd line_text].
  - apply recognize_code; auto.
  - rewrite <- app_assoc. apply recognize_usual; auto.
  - rewrite <- !app_assoc. apply recognize_begin; auto.
  - apply recognize_end; auto.
Qed.
Lemma reverse_at ls l rest m f : proper l ->
  mark_reverse_recognize (at_ (above (ls ++ [l])) rest) m f
  = Some (fst (said (above ls) l m), snd (said (above ls) l m), match l with Code cs => 1 + indent cs | _ => f end, at_ (above ls) (line_text l ++ 10 :: rest)).
Proof.
  intros P. unfold mark_reverse_recognize. rewrite above_snoc, app_assoc.
  assert (Z0 : in_pos (at_ ((above ls ++ line_text l) ++ [10]) rest) = zlen (above ls ++ line_text l) + 1) by (unfold at_; cbn [in_pos]; apply zlen_snoc).
  rewrite Z0. pose proof (zlen_nonneg (above ls ++ line_text l)). replace (_ + 1 =? 0) with false by lia.
  replace (mkIn (in_data _) _) with (at_ (above ls ++ line_text l) (10 :: rest)) by (unfold at_; cbn [in_data]; f_equal; [rewrite <- (app_assoc _ [10] rest); reflexivity|lia]).
  rewrite line_to_begin_at by (auto using begins_above, no_nl).
  destruct (recognize_at l (above ls) (10 :: rest) m P) as [io Q]; [right; eauto|]. rewrite Q. cbn [bind].
  replace (mkIn (in_data (at_ (above ls) (line_text l ++ 10 :: rest))) (in_pos (at_ (above ls) (line_text l ++ 10 :: rest)))) with (at_ (above ls) (line_text l ++ 10 :: rest)) by reflexivity.
  destruct l; try reflexivity. cbn [said fst line_text]. rewrite indent_encs by (apply plain_points, P). reflexivity.
Qed.

(** Positions of paths and of lines. *)
Definition path_at (d : bytes) (file : option (list Z)) (pos : Z) : Prop :=
  match file with
  | None => pos = SIZE_MAX
  | Some p => exists pre rest, d = pre ++ encs p ++ 34 :: rest /\ pos = zlen pre /\ Forall plain_char p /\ ~ In 34 p
  end.
Definition line_at (d : bytes) (cs : list Z) (pos : Z) : Prop :=
  exists pre rest, d = pre ++ encs cs ++ rest /\ ends rest /\ pos = zlen pre /\ Forall plain_char cs.
(** A source line in a mark: it follows a blank. *)
Definition comment_at (d : bytes) (cs : list Z) (pos : Z) : Prop := line_at d cs pos /\ znth d (pos - 1) = Some 32.
Lemma pre_small (a b d : bytes) : d = a ++ b -> zlen d < SIZE_MAX -> zlen a <> SIZE_MAX.
Proof. intros -> L. rewrite zlen_app in L. pose proof (zlen_nonneg b). lia. Qed.
Lemma said_usual d ls n path rest : d = above ls ++ line_text (Usual n path) ++ 10 :: rest -> proper (Usual n path) -> path_at d (Some path) (zlen (above ls ++ head n ++ [32; 34])).
Proof.
  intros -> (N & F & Q). eexists _, (10 :: rest). split; [|split; [reflexivity|auto]]. cbn [line_text]. unfold quoted. rewrite <- !app_assoc. reflexivity.
Qed.
Lemma said_begin d ls n path source rest : d = above ls ++ line_text (Begin n path source) ++ rest -> ends rest -> proper (Begin n path source) ->
  path_at d (Some path) (zlen (above ls ++ head n ++ [32; 34])) /\ comment_at d source (zlen (above ls ++ head n ++ quoted path ++ str " // ")).
Proof.
  intros -> E (N & F & Q & S). split.
  - eexists _, (str " // " ++ encs source ++ rest). split; [|split; [reflexivity|auto]]. cbn [line_text]. unfold quoted. rewrite <- !app_assoc. reflexivity.
  - split; [eexists _, rest; split; [|split; [exact E|split; [reflexivity|exact S]]]; cbn [line_text]; rewrite <- !app_assoc; reflexivity|].
    cbn [line_text]. change (str " // ") with ([32; 47; 47] ++ [32]). rewrite !app_assoc, zlen_snoc. rewrite <- (app_assoc _ (encs source) rest), <- (app_assoc _ [32] (encs source ++ rest)). rewrite znth_app2 by lia.
    replace (_ + 1 - 1 - _) with 0 by lia. reflexivity.
Qed.

Lemma walk_app a : forall b st, walk st (a ++ b) = do st <- walk st a; walk st b.
Proof. induction a as [|l a IH]; intros b st; cbn [walk app bind]; [reflexivity|]. destruct (step st l); cbn [bind]; [apply IH|reflexivity]. Qed.
Lemma walk_snoc ls l st0 st : walk st0 (ls ++ [l]) = Some st -> exists st', walk st0 ls = Some st' /\ step st' l = Some st.
Proof. rewrite walk_app. destruct (walk st0 ls) as [st'|]; cbn [bind walk]; [|discriminate]. intros H. exists st'. split; [reflexivity|]. destruct (step st' l); cbn in H; congruence. Qed.

Lemma back_at d ls : forall n m f rest p k c col, Forall proper ls -> walk start ls = Some (Inside p k c col) -> d = above ls ++ rest -> zlen d < SIZE_MAX -> (List.length ls < n)%nat ->
  exists m', back_loop n (at_ (above ls) rest) m f = Some m' /\ path_at d (Some p) (m_path m') /\ m_line m' = k /\ comment_at d c (m_code m') /\ m_code m' <> SIZE_MAX.
Proof.
  induction ls as [|l ls IH] using rev_ind; intros n m f rest p k c col F W D L K; [discriminate|].
  rewrite app_length in K. cbn in K. destruct n as [|n]; [lia|]. cbn [back_loop]. apply Forall_app in F as [F Fl]. inversion Fl as [|? ? P _]; subst.
  rewrite reverse_at by exact P. cbn [bind].
  assert (D' : above (ls ++ [l]) ++ rest = above ls ++ line_text l ++ 10 :: rest) by (rewrite above_snoc, <- !app_assoc; reflexivity).
  apply walk_snoc in W as (st' & W & S). destruct l; cbn [step] in S; [| |inversion S; subst; clear S|destruct st'; try discriminate; destruct (_ <=? _); discriminate].
  - destruct st' as [| |]; try discriminate.
    cbn [said fst snd]. destruct (zlen (above ls) =? 0) eqn:E0.
    + destruct ls as [|l' ls _] using rev_ind; [discriminate|]. pose proof (above_pos ls l'). pose proof (zlen_nonneg (above ls)). lia.
    + cbn [in_pos at_ orb]. rewrite E0.
      assert (Q : file = p /\ n0 = k /\ source = c) by (destruct column; inversion S; auto). destruct Q as (-> & -> & ->).
      eapply IH; eauto; lia.
  - discriminate.
  - cbn [said fst snd orb]. eexists. split; [reflexivity|]. cbn [m_path m_line m_code].
    destruct (said_begin (above (ls ++ [Begin k p c]) ++ rest) ls k p c (10 :: rest) D') as [A B]; [right; eauto|exact P|]. split; [exact A|split; [reflexivity|split; [exact B|]]].
    destruct B as ((a & b & DD & _ & -> & _) & _). eapply pre_small; [exact DD|exact L].
Qed.

(** What is known beforehand, if anything. *)
Definition anchored (d : bytes) (ls : list line) (loc : location) : Prop :=
  forall ls0 ls1, ls = ls0 ++ ls1 -> l_code loc = zlen (above ls0) -> ls0 <> [] ->
  exists st, walk start ls0 = Some st /\
    match st with
    | Plain f k => path_at d f (l_path loc) /\ l_line loc = k
    | After p k n0 _ => path_at d (Some p) (l_path loc) /\ l_line loc = k /\ n0 < k
    | Inside _ _ _ _ => False
    end.
Lemma anchored_less d ls l loc : anchored d (ls ++ [l]) loc -> anchored d ls loc.
Proof. intros A ls0 ls1 E. apply (A ls0 (ls1 ++ [l])). rewrite app_assoc, <- E. reflexivity. Qed.
Lemma walk_after ls : forall p k n0 c, walk start ls = Some (After p k n0 c) -> n0 <= k.
Proof.
  induction ls as [|l ls IH] using rev_ind; intros p k n0 c W; [discriminate|]. apply walk_snoc in W as (st' & W & S).
  destruct l, st' as [| ? ? ? [|] |]; cbn [step] in S; try discriminate; inversion S; subst.
  - apply IH in W. lia.
  - destruct (_ <=? _) eqn:E; inversion S; subst; lia.
  - destruct (_ <=? _) eqn:E; inversion S; subst; lia.
Qed.

Definition found_at (d : bytes) (st : state) (loc : location) (code diff filler : Z) (r : location) : Prop :=
  match st with
  | Plain f k => path_at d f (l_path r) /\ l_line r = k + diff /\ l_symbol r = l_symbol loc /\ l_code r = code
  | Inside p n c col => path_at d (Some p) (l_path r) /\ l_line r = n /\ l_symbol r = match col with Some k => k | None => filler end /\ comment_at d c (l_code r) /\ l_code r <> SIZE_MAX
  | After p k n0 c => path_at d (Some p) (l_path r) /\ l_line r = k + diff /\ l_symbol r = l_symbol loc
      /\ if k + diff =? n0 then comment_at d c (l_code r) else l_code r = code
  end.
Lemma search_at d loc code ls : forall n diff m filler rest st, Forall proper ls -> walk start ls = Some st -> d = above ls ++ rest -> zlen d < SIZE_MAX ->
  anchored d ls loc -> 0 <= diff -> (List.length ls < n)%nat ->
  exists r, search_loop n loc code (zlen (above ls)) diff (at_ (above ls) rest) m filler = Some r /\ found_at d st loc code diff filler r.
Proof.
  induction ls as [|l ls IH] using rev_ind; intros n diff m filler rest st F W D L A DP K; (destruct n as [|n]; [rewrite ?app_length in K; cbn in K; lia|]); cbn [search_loop].
  - change (zlen (above [])) with 0. cbn [Z.eqb orb]. eexists. split; [reflexivity|]. inversion W; subst. cbn. unfold FIRST_LINE. auto.
  - pose proof (above_pos ls l). pose proof (zlen_nonneg (above ls)). replace (zlen (above (ls ++ [l])) =? 0) with false by lia. cbn [orb].
    destruct (zlen (above (ls ++ [l])) =? l_code loc) eqn:E.
    + eexists. split; [reflexivity|]. destruct (A (ls ++ [l]) []) as (st1 & W1 & S1); [rewrite app_nil_r; reflexivity|lia|destruct ls; discriminate|].
      rewrite W in W1. inversion W1; subst st1. destruct st as [f k|p k c col|p k n0 c]; cbn [found_at l_path l_line l_symbol l_code]; [|contradiction|].
      * destruct S1 as [S1 S2]. repeat split; auto. lia.
      * destruct S1 as (S1 & S2 & S3). repeat split; auto; [lia|]. replace (k + diff =? n0) with false by lia. reflexivity.
    + clear E. apply Forall_app in F as [F Fl]. inversion Fl as [|? ? P _]; subst x l0. rewrite reverse_at by exact P. cbn [bind].
      assert (D' : d = above ls ++ line_text l ++ 10 :: rest) by (rewrite D, above_snoc, <- !app_assoc; reflexivity).
      rewrite app_length in K. cbn in K. apply walk_snoc in W as (st' & W & S). apply anchored_less in A.
      destruct l as [cs|k p|k p c|k]; cbn [said fst snd negb m_code m_path m_line].
      * destruct (IH n (diff + 1) m (1 + indent cs) (line_text (Code cs) ++ 10 :: rest) st') as (r & R & O); auto; [lia|lia|]. exists r. split; [exact R|].
        destruct st' as [f k|p k c [col|]|p k n0 c]; cbn [step] in S; inversion S; subst st; cbn [found_at] in *.
        -- destruct O as (O1 & O2 & O3 & O4). repeat split; auto. lia.
        -- exact O.
        -- exact O.
        -- destruct O as (O1 & O2 & O3 & O4). repeat split; auto; [lia|]. replace (k + 1 + diff =? n0) with (k + (diff + 1) =? n0) by lia. exact O4.
      * change (SIZE_MAX =? SIZE_MAX) with true. cbn [negb]. pose proof (said_usual d ls k p rest D' P) as Q.
        assert (NE : zlen (above ls ++ head k ++ [32; 34]) <> SIZE_MAX) by (pose proof Q as (a & b & DD & QQ & _); rewrite QQ; eapply pre_small; [exact DD|exact L]).
        replace (zlen (above ls ++ head k ++ [32; 34]) =? SIZE_MAX) with false by lia.
        cbn [negb]. eexists. split; [reflexivity|]. inversion S; subst st. cbn. auto.
      * destruct (said_begin d ls k p c (10 :: rest) D') as [Q1 Q2]; [right; eauto|exact P|].
        assert (NE : zlen (above ls ++ head k ++ quoted p ++ str " // ") <> SIZE_MAX) by (pose proof Q2 as ((a & b & DD & _ & QQ & _) & _); rewrite QQ; eapply pre_small; [exact DD|exact L]).
        replace (zlen (above ls ++ head k ++ quoted p ++ str " // ") =? SIZE_MAX) with false by lia. cbn [negb].
        eexists. split; [reflexivity|]. inversion S; subst st. cbn [found_at l_path l_line l_symbol l_code]. auto.
      * change (SIZE_MAX =? SIZE_MAX) with true. cbn [negb].
        destruct st' as [|p n0 c col|]; cbn [step] in S; try discriminate. destruct (n0 <=? k) eqn:E; inversion S; subst st.
        destruct (back_at d ls (fuel (at_ (above ls) (line_text (End k) ++ 10 :: rest))) (mkMark k SIZE_MAX SIZE_MAX) filler (line_text (End k) ++ 10 :: rest) p n0 c col F W D' L) as (m' & M & M1 & M2 & M3 & M4).
        { unfold fuel, at_. cbn [in_data]. rewrite app_length. assert (List.length ls <= List.length (above ls))%nat; [|lia].
          clear. induction ls as [|l ls IH]; cbn; [lia|]. rewrite !app_length. cbn. fold (above ls). lia. }
        rewrite M. cbn [bind]. eexists. split; [reflexivity|]. cbn [found_at l_path l_line l_symbol l_code]. rewrite M2.
        replace (m_code m' =? SIZE_MAX) with false by lia. cbn [negb]. rewrite andb_true_r. split; [exact M1|split; [reflexivity|split; [reflexivity|]]].
        destruct (k + diff =? n0); auto.
Qed.

(** ** The place found *)
Lemma get_path own d f loc : path_at d f (l_path loc) -> zlen d < SIZE_MAX -> loc_get_path own d loc = Some (match f with Some path => encs path | None => own end).
Proof.
  unfold loc_get_path, path_at. destruct f as [p|]; [|intros ->; reflexivity].
  intros (pre & rest & D & -> & F & Q) L. replace (zlen pre =? SIZE_MAX) with false by (pose proof (pre_small _ _ _ D L); lia).
  subst d. fold (at_ pre (encs p ++ 34 :: rest)). apply path_loop_at; auto. eapply fuel_at. reflexivity.
Qed.
Lemma index_loop_at n : forall cs pre rest, Forall plain_char cs -> (n <= List.length cs)%nat ->
  in_pos (index_loop n (at_ pre (encs cs ++ rest))) = zlen (pre ++ encs (firstn n cs)).
Proof.
  induction n as [|n IH]; intros cs pre rest F N; [cbn; rewrite app_nil_r; reflexivity|]. destruct cs as [|c cs]; [cbn in N; lia|]. inversion F as [|? ? C F']; subst.
  cbn [index_loop encs flat_map firstn]. fold (encs cs). fold (encs (firstn n cs)). rewrite <- app_assoc, char_at by (apply plain_point, C). cbn [snd]. rewrite IH by (auto; cbn in N; lia). rewrite <- app_assoc. reflexivity.
Qed.
Lemma get_line d cs loc : line_at d cs (l_code loc) -> line_shown d loc cs.
Proof.
  intros (pre & rest & -> & E & P & F). split.
  - unfold loc_get_code_line. rewrite P. fold (at_ pre (encs cs ++ rest)). apply line_loop_at; auto. eapply fuel_at. reflexivity.
  - intros R. unfold loc_get_index. rewrite P. fold (at_ pre (encs cs ++ rest)). unfold FIRST_SYMBOL. rewrite index_loop_at by (auto; rewrite zlen_unf in R; lia). rewrite zlen_app. lia.
Qed.
Lemma text_app ls l ls2 : text (ls ++ l :: ls2) = above ls ++ text (l :: ls2).
Proof. induction ls as [|x ls IH]; [reflexivity|]. cbn [app above flat_map]. fold (above ls). rewrite <- app_assoc, <- app_assoc, <- IH. destruct ls; reflexivity. Qed.
Definition below (ls : list line) : bytes := match ls with [] => [] | _ => 10 :: text ls end.
Lemma text_cons l ls : text (l :: ls) = line_text l ++ below ls.
Proof. destruct ls; cbn [text below]; [rewrite app_nil_r|]; reflexivity. Qed.
Lemma ends_below ls : ends (below ls).
Proof. destruct ls; [left; reflexivity|right; eexists; reflexivity]. Qed.
Lemma length_above ls : (List.length ls <= List.length (above ls))%nat.
Proof. induction ls as [|l ls IH]; cbn; [lia|]. rewrite !app_length. cbn. fold (above ls). lia. Qed.

(** What the search answers, with positions. *)
Definition answers (d : bytes) (ls : list line) (cur : list Z) (j : nat) (next : option line) (st : state) (r : location) : Prop :=
  match next with
  | Some (Begin n p c) => path_at d (Some p) (l_path r) /\ l_line r = n /\ l_symbol r = 1 + Z.of_nat j /\ comment_at d c (l_code r)
  | _ => found_at d st (mkLoc 0 0 0 (1 + Z.of_nat j)) (zlen (above ls)) 0 (1 + indent (firstn j cur)) r
  end.
Lemma search_raw ls cur ls2 j st loc : Forall proper (ls ++ Code cur :: ls2) -> walk start ls = Some st -> (j <= List.length cur)%nat ->
  zlen (text (ls ++ Code cur :: ls2)) < SIZE_MAX -> anchored (text (ls ++ Code cur :: ls2)) ls loc ->
  exists r, loc_search_from (mkIn (text (ls ++ Code cur :: ls2)) (zlen (above ls ++ encs (firstn j cur)))) loc = Some r
    /\ answers (text (ls ++ Code cur :: ls2)) ls cur j (hd_error ls2) st r.
Proof.
  intros F W J L A. set (d := text (ls ++ Code cur :: ls2)) in *.
  apply Forall_app in F as [F1 F2]. inversion F2 as [|? ? P F3]; subst x l. pose proof P as [PC PM].
  assert (D : d = above ls ++ encs cur ++ below ls2) by (unfold d; rewrite text_app, text_cons; reflexivity).
  assert (D2 : d = (above ls ++ encs (firstn j cur)) ++ encs (skipn j cur) ++ below ls2).
  { rewrite D. rewrite <- (firstn_skipn j cur) at 1. rewrite encs_app, <- !app_assoc. reflexivity. }
  assert (PF : Forall plain_char (firstn j cur)) by (rewrite <- (firstn_skipn j cur) in PC; apply Forall_app in PC; tauto).
  unfold loc_search_from. assert (AT : mkIn d (zlen (above ls ++ encs (firstn j cur))) = at_ (above ls ++ encs (firstn j cur)) (encs (skipn j cur) ++ below ls2)).
  { unfold at_. f_equal. exact D2. }
  rewrite AT. rewrite line_to_begin_at by (auto using begins_above, plain_bytes). cbv beta iota.
  replace (encs (firstn j cur) ++ encs (skipn j cur) ++ below ls2) with (encs cur ++ below ls2) by (rewrite <- (firstn_skipn j cur) at 1; rewrite encs_app, <- !app_assoc; reflexivity).
  rewrite line_to_end_at by (auto using ends_below). cbn [bind].
  rewrite weight_encs, indent_encs by (apply plain_points, PF). rewrite (zlen_unf (firstn j cur)), firstn_length, Nat.min_l by exact J.
  set (m0 := mkMark FIRST_LINE SIZE_MAX SIZE_MAX). set (loc1 := mkLoc _ _ _ _).
  assert (GO : forall m, exists r, search_loop (fuel (at_ (above ls ++ encs (firstn j cur)) (encs (skipn j cur) ++ below ls2))) loc1 (zlen (above ls)) (zlen (above ls)) 0
                (at_ (above ls) (encs cur ++ below ls2)) m (1 + indent (firstn j cur)) = Some r /\ answers d ls cur j None st r).
  { intros m. destruct (search_at d loc1 (zlen (above ls)) ls (fuel (at_ (above ls ++ encs (firstn j cur)) (encs (skipn j cur) ++ below ls2))) 0 m (1 + indent (firstn j cur)) (encs cur ++ below ls2) st) as (r & R & O); auto; [lia| |].
    - unfold fuel, at_. cbn [in_data]. rewrite !app_length. pose proof (length_above ls). lia.
    - exists r. split; [exact R|exact O]. }
  destruct ls2 as [|l2 ls2].
  - cbn [below after tail_ hd_error]. destruct (recognize_at (Code []) (above ls ++ encs cur) [] m0) as [io Q]; [split; [constructor|discriminate]|left; reflexivity|].
    cbn [line_text encs flat_map app] in Q. rewrite Q. cbn [bind said fst snd andb]. apply GO.
  - change (after (above ls ++ encs cur) (below (l2 :: ls2))) with ((above ls ++ encs cur) ++ [10]). change (tail_ (below (l2 :: ls2))) with (text (l2 :: ls2)). cbn [hd_error].
    inversion F3 as [|? ? P2 F4]; subst x l. rewrite (text_cons l2 ls2).
    destruct (recognize_at l2 ((above ls ++ encs cur) ++ [10]) (below ls2) m0 P2 (ends_below ls2)) as [io Q]. rewrite Q. cbn [bind].
    assert (NX : (above ls ++ encs cur) ++ [10] = above (ls ++ [Code cur])) by (rewrite above_snoc, <- app_assoc; reflexivity).
    destruct l2 as [cs2|k p|k p c|k]; cbn [said fst snd andb m_code m_path m_line answers].
    + apply GO.
    + change (SIZE_MAX =? SIZE_MAX) with true. cbn [negb andb]. apply GO.
    + rewrite NX. assert (D3 : d = above (ls ++ [Code cur]) ++ line_text (Begin k p c) ++ below ls2).
      { unfold d. replace (ls ++ Code cur :: Begin k p c :: ls2) with ((ls ++ [Code cur]) ++ Begin k p c :: ls2) by (rewrite <- app_assoc; reflexivity). rewrite text_app, text_cons. reflexivity. }
      destruct (said_begin d (ls ++ [Code cur]) k p c (below ls2) D3 (ends_below ls2) P2) as [Q1 Q2].
      replace (zlen (above (ls ++ [Code cur]) ++ head k ++ quoted p ++ str " // ") =? SIZE_MAX) with false
        by (symmetry; apply Z.eqb_neq; pose proof Q2 as ((a & b & DD & _ & QQ & _) & _); rewrite QQ; eapply pre_small; [exact DD|exact L]).
      cbn [negb]. eexists. split; [reflexivity|]. auto.
    + change (SIZE_MAX =? SIZE_MAX) with true. cbn [negb andb]. apply GO.
Qed.
Lemma answers_shown own ls cur ls2 j st r : Forall proper (ls ++ Code cur :: ls2) -> zlen (text (ls ++ Code cur :: ls2)) < SIZE_MAX ->
  answers (text (ls ++ Code cur :: ls2)) ls cur j (hd_error ls2) st r -> shows own (text (ls ++ Code cur :: ls2)) r (place_of st cur j (hd_error ls2)).
Proof.
  intros F L. set (d := text (ls ++ Code cur :: ls2)) in *. apply Forall_app in F as [F1 F2]. inversion F2 as [|? ? P F3]; subst x l. pose proof P as [PC PM].
  assert (D : d = above ls ++ encs cur ++ below ls2) by (unfold d; rewrite text_app, text_cons; reflexivity).
  assert (LA : line_at d cur (zlen (above ls))) by (exists (above ls), (below ls2); auto using ends_below).
  assert (GO : found_at d st (mkLoc 0 0 0 (1 + Z.of_nat j)) (zlen (above ls)) 0 (1 + indent (firstn j cur)) r -> shows own d r (place_of st cur j None)).
  { intros O. unfold shows. destruct st as [f k|p k c col|p k n0 c]; cbn [found_at place_of p_file p_line p_column p_shown] in *.
      + destruct O as (O1 & O2 & O3 & O4). rewrite (get_path own d f) by auto. rewrite O2, O3. split; [reflexivity|]. split; [lia|]. split; [reflexivity|]. apply get_line. rewrite O4. exact LA.
      + destruct O as (O1 & O2 & O3 & O4 & _). rewrite (get_path own d (Some p)) by auto. rewrite O2, O3. split; [reflexivity|]. split; [reflexivity|]. split; [reflexivity|]. apply get_line, O4.
      + destruct O as (O1 & O2 & O3 & O4). rewrite Z.add_0_r in *. rewrite (get_path own d (Some p)) by auto. rewrite O2, O3. split; [reflexivity|]. split; [reflexivity|]. split; [reflexivity|].
        destruct (k =? n0); apply get_line; [apply O4|rewrite O4; exact LA]. }
  destruct ls2 as [|[cs2|k p|k p c|k] ls2]; cbn [hd_error answers]; try exact GO.
  intros (Q1 & Q2 & Q3 & Q4). unfold shows. cbn [place_of p_file p_line p_column p_shown].
  rewrite (get_path own d (Some p)) by auto. split; [reflexivity|]. split; [exact Q2|]. split; [exact Q3|]. apply get_line, Q4.
Qed.
Lemma search_from_ok own ls cur ls2 j st loc : Forall proper (ls ++ Code cur :: ls2) -> walk start ls = Some st -> (j <= List.length cur)%nat ->
  zlen (text (ls ++ Code cur :: ls2)) < SIZE_MAX -> anchored (text (ls ++ Code cur :: ls2)) ls loc ->
  exists r, loc_search_from (mkIn (text (ls ++ Code cur :: ls2)) (zlen (above ls ++ encs (firstn j cur)))) loc = Some r
    /\ shows own (text (ls ++ Code cur :: ls2)) r (place_of st cur j (hd_error ls2)).
Proof. intros F W J L A. destruct (search_raw ls cur ls2 j st loc F W J L A) as (r & R & O). exists r. split; [exact R|]. apply answers_shown; auto. Qed.

Lemma anchored_start d ls p k s : anchored d ls (mkLoc p 0 k s).
Proof.
  intros ls0 ls1 _ Q N. cbn in Q. destruct ls0 as [|l ls0 _] using rev_ind; [congruence|]. pose proof (above_pos ls0 l). pose proof (zlen_nonneg (above ls0)). lia.
Qed.
Lemma above_inj a : forall a' b b' : list line, a ++ b = a' ++ b' -> zlen (above a) = zlen (above a') -> a = a'.
Proof.
  induction a as [|l a IH]; intros a' b b' E L.
  - destruct a' as [|l' a' _] using rev_ind; [reflexivity|]. pose proof (above_pos a' l'). pose proof (zlen_nonneg (above a')). change (zlen (above [])) with 0 in L. lia.
  - destruct a' as [|l' a'].
    + change (zlen (above [])) with 0 in L. destruct (@exists_last _ (l :: a) ltac:(discriminate)) as (x & y & X). rewrite X in L. pose proof (above_pos x y). pose proof (zlen_nonneg (above x)). lia.
    + cbn [app] in E. injection E as -> E. f_equal. apply (IH a' b b' E). cbn [above flat_map] in L. fold (above a) in L. fold (above a') in L. rewrite !zlen_app in L. lia.
Qed.
Lemma answers_anchor ls cur ls2 j st r lsX ls' : walk start ls = Some st ->
  answers (text (ls ++ Code cur :: ls2)) ls cur j (hd_error ls2) st r -> ls ++ Code cur :: ls2 = lsX ++ ls' -> anchored (text (ls ++ Code cur :: ls2)) lsX r.
Proof.
  intros W O E ls0 ls1 -> C N. set (d := text (ls ++ Code cur :: ls2)) in *.
  assert (NC : forall c, ~ comment_at d c (l_code r)).
  { intros c [_ Q]. rewrite C in Q. destruct ls0 as [|l ls0 _] using rev_ind; [congruence|].
    unfold d in Q. rewrite E in Q. rewrite <- app_assoc in Q. destruct (ls1 ++ ls') as [|x y] eqn:X.
    - assert (E2 : ls ++ Code cur :: ls2 = ls0 ++ [l]) by (rewrite E, <- app_assoc, X, app_nil_r; reflexivity).
      clear X. assert (T : text ((ls0 ++ [l]) ++ []) = above ls0 ++ line_text l) by (rewrite app_nil_r, text_app; cbn [text]; reflexivity).
      rewrite T in Q. apply znth_Some_lt in Q. rewrite above_snoc, !zlen_app in Q. change (zlen [10]) with 1 in Q. lia.
    - rewrite text_app, above_snoc, app_assoc, zlen_snoc in Q. rewrite <- (app_assoc _ [10]) in Q. rewrite znth_app2 in Q by lia.
      replace (_ + 1 - 1 - _) with 0 in Q by lia. cbn in Q. discriminate. }
  assert (GO : found_at d st (mkLoc 0 0 0 (1 + Z.of_nat j)) (zlen (above ls)) 0 (1 + indent (firstn j cur)) r ->
    exists st0 : state, walk start ls0 = Some st0 /\ match st0 with
      | Plain f k => path_at d f (l_path r) /\ l_line r = k
      | Inside _ _ _ _ => False
      | After p k n0 _ => path_at d (Some p) (l_path r) /\ l_line r = k /\ n0 < k end).
  { clear O. intros O. assert (SAME : l_code r = zlen (above ls) -> ls0 = ls).
    { intros Q. apply (above_inj ls0 ls (ls1 ++ ls') (Code cur :: ls2)); [rewrite app_assoc; auto|congruence]. }
    destruct st as [f k|p k c col|p k n0 c]; cbn [found_at] in O.
    - destruct O as (O1 & O2 & _ & O4). rewrite (SAME O4). exists (Plain f k). split; [exact W|]. split; [exact O1|lia].
    - destruct O as (_ & _ & _ & O4 & _). destruct (NC _ O4).
    - destruct O as (O1 & O2 & _ & O4). rewrite Z.add_0_r in *. destruct (k =? n0) eqn:K; [destruct (NC _ O4)|].
      rewrite (SAME O4). exists (After p k n0 c). split; [exact W|]. pose proof (walk_after _ _ _ _ _ W). repeat split; auto; lia. }
  destruct ls2 as [|[cs2|k p|k p c|k] ls2]; cbn [hd_error answers] in O; auto. destruct O as (_ & _ & _ & O4). destruct (NC _ O4).
Qed.

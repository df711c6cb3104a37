From Verif Require Import Prelude Utf8Model Utf8Spec Utf8Proofs UniioModel UniioProofs StringsModel StringsSpec StringsRun.

Definition arena (l : list bytes) : bytes := flat_map (fun s => s ++ [0]) l.
Fixpoint offsets (p : Z) (l : list bytes) : list Z :=
  match l with [] => [] | s :: l => p :: offsets (p + zlen s + 1) l end.

Record sinv (v : strings) (l : list bytes) : Prop := {
  si_all : exists rest, s_all v = arena l ++ rest;
  si_size : s_size v = zlen (arena l);
  si_idx : exists rest, s_idx v = offsets 0 l ++ rest;
  si_n : s_n v = zlen l;
  si_pos : 1 <= zlen (s_idx v) /\ 1 <= zlen (s_all v);
  si_nz : Forall (fun s => Forall (fun b => b <> 0) s) l }.

Lemma zlen_offsets p l : zlen (offsets p l) = zlen l.
Proof. revert p. induction l as [|s l IH]; intros p; cbn [offsets]; rewrite ?zlen_cons, ?IH; auto. Qed.

Lemma arena_app a b : arena (a ++ b) = arena a ++ arena b.
Proof. apply flat_map_app. Qed.

Lemma offsets_app p a b : offsets p (a ++ b) = offsets p a ++ offsets (p + zlen (arena a)) b.
Proof.
  revert p. induction a as [|s a IH]; intros p; cbn [offsets app arena flat_map].
  - rewrite (@zlen_nil Z), Z.add_0_r. reflexivity.
  - rewrite IH. f_equal. f_equal. f_equal. rewrite !zlen_app. fold (arena a). change (zlen [0]) with 1. lia.
Qed.

Lemma put_ok pre x y post : put (pre ++ x :: post) (zlen pre) y = Some (pre ++ y :: post).
Proof.
  unfold put. pose proof (zlen_nonneg pre). pose proof (zlen_nonneg post).
  rewrite zlen_app, zlen_cons. replace ((0 <=? zlen pre) && (zlen pre <? zlen pre + (1 + zlen post))) with true by lia.
  rewrite zupd_app2 by lia. rewrite Z.sub_diag. reflexivity.
Qed.

(** State while a string is being added: the index cell is set, the bytes of
    the new string so far are [w]. *)
Record adding (v : strings) (l : list bytes) (w : bytes) : Prop := {
  ad_all : exists rest, s_all v = arena l ++ w ++ rest;
  ad_size : s_size v = zlen (arena l) + zlen w;
  ad_idx : exists rest, s_idx v = offsets 0 l ++ zlen (arena l) :: rest;
  ad_n : s_n v = zlen l;
  ad_pos : 1 <= zlen (s_all v) }.

Lemma add_index_ok e v l : mem_always e -> sinv v l -> zlen l < 2 ^ 59 ->
  exists v', strings_add_index e v = Some (true, v') /\ adding v' l [] .
Proof.
  intros M I B. destruct I as [[ra Ha] Hs [ri Hi] Hn Hp Hz].
  unfold strings_add_index. rewrite Hn, Hi in *. rewrite zlen_app, zlen_offsets in *. pose proof (zlen_nonneg l).
  destruct ri as [|x ri].
  - rewrite (@zlen_nil Z) in *. replace (zlen l =? zlen l + 0) with true by lia.
    rewrite M by lia. rewrite app_nil_r.
    destruct (o_fresh e (zlen l + 0)) as [|y t] eqn:F.
    { pose proof (zlen_o_fresh e (zlen l + 0) ltac:(lia)) as Q. rewrite F, (@zlen_nil Z) in Q. lia. }
    rewrite <- (zlen_offsets 0 l), put_ok. cbn [bind]. eexists. split; [reflexivity|].
    split; cbn [s_all s_size s_idx s_n].
    + exists ra. exact Ha.
    + rewrite (@zlen_nil Z). lia.
    + exists t. rewrite Hs. reflexivity.
    + rewrite ?zlen_offsets. auto.
    + tauto.
  - rewrite zlen_cons in *. pose proof (zlen_nonneg ri). replace (zlen l =? zlen l + (1 + zlen ri)) with false by lia.
    rewrite <- (zlen_offsets 0 l), put_ok. cbn [bind]. eexists. split; [reflexivity|].
    split; cbn [s_all s_size s_idx s_n].
    + exists ra. exact Ha.
    + rewrite (@zlen_nil Z). lia.
    + exists ri. rewrite Hs. reflexivity.
    + rewrite ?zlen_offsets in *. auto.
    + tauto.
Qed.

Lemma increase_ok fuel : forall e v l w n, mem_always e -> adding v l w -> 0 <= n ->
  s_size v + n < 2 ^ 60 -> s_size v + n <= zlen (s_all v) * 2 ^ Z.of_nat fuel ->
  exists v', strings_increase fuel e v n = Some (true, v') /\ adding v' l w
    /\ s_size v' + n <= zlen (s_all v').
Proof.
  induction fuel as [|fuel IH]; intros e v l w n M A Hn B P; cbn [strings_increase].
  - rewrite Z.mul_1_r in P. replace (s_size v + n <=? zlen (s_all v)) with true by lia. eauto.
  - destruct (s_size v + n <=? zlen (s_all v)) eqn:E; [exists v; split; auto; split; auto; lia|].
    destruct A as [[rest Ha] Hs [ri Hi] Hln Hp].
    rewrite M by lia. apply (IH e _ l w n); auto.
    + split; cbn [s_all s_size s_idx s_n]; eauto.
      * exists (rest ++ o_fresh e (zlen (s_all v))). rewrite Ha at 1. rewrite <- !app_assoc. reflexivity.
      * rewrite zlen_app. pose proof (zlen_nonneg (o_fresh e (zlen (s_all v)))). lia.
    + cbn [s_all s_size]. rewrite zlen_app, zlen_o_fresh by lia.
      rewrite Nat2Z.inj_succ, Z.pow_succ_r in P by lia. lia.
Qed.

Lemma increase64 e v l w n : mem_always e -> adding v l w -> 0 <= n -> s_size v + n < 2 ^ 60 ->
  exists v', strings_increase 64 e v n = Some (true, v') /\ adding v' l w
    /\ s_size v' + n <= zlen (s_all v') /\ s_size v' = s_size v.
Proof.
  intros M A Hn B. pose proof A as A0. destruct A as [_ Hs _ _ Hp].
  destruct (increase_ok 64 e v l w n M A0 Hn B) as (v' & E & A' & C); [nia|].
  exists v'. split; auto. split; auto. split; auto. destruct A'. lia.
Qed.

Lemma add_loop_ok e l str : mem_always e -> forall v w, adding v l w ->
  s_size v + zlen str + 1 < 2 ^ 60 ->
  (str = [] -> s_size v < zlen (s_all v)) ->
  exists v', add_loop e v str = Some (true, v') /\ adding v' l (w ++ str) /\ s_size v' < zlen (s_all v').
Proof.
  intros M. induction str as [|b str IH]; intros v w A B R; cbn [add_loop].
  - exists v. rewrite app_nil_r. auto.
  - rewrite zlen_cons in B. pose proof (zlen_nonneg str).
    destruct (increase64 e v l w 2 M A ltac:(lia)) as (v1 & E1 & A1 & C1 & S1); [lia|].
    rewrite E1. cbn [bind negb]. destruct A1 as [[rest Ha] Hs [ri Hi] Hn Hp].
    assert (LR: 2 <= zlen rest) by (rewrite Ha, !zlen_app in C1; lia).
    destruct rest as [|x [|y rest]]; [rewrite ?zlen_cons, (@zlen_nil Z) in LR; lia ..|].
    rewrite Ha, Hs. rewrite app_assoc, <- zlen_app, put_ok. cbn [bind].
    rewrite <- app_assoc.
    destruct (IH (mkStr (arena l ++ w ++ b :: y :: rest) (zlen (arena l ++ w) + 1) (s_idx v1) (s_n v1)) (w ++ [b])) as (v2 & E2 & A2 & C2).
    + split; cbn [s_all s_size s_idx s_n]; eauto.
      * exists (y :: rest). rewrite <- !app_assoc. reflexivity.
      * rewrite !zlen_app. change (zlen [b]) with 1. lia.
      * rewrite !zlen_app, !zlen_cons. pose proof (zlen_nonneg (arena l)). pose proof (zlen_nonneg w). pose proof (zlen_nonneg rest). lia.
    + cbn [s_size]. rewrite zlen_app. lia.
    + intros ->. cbn [s_size s_all]. rewrite !zlen_app, !zlen_cons. pose proof (zlen_nonneg rest). lia.
    + exists v2. split; auto. rewrite <- app_assoc in A2. auto.
Qed.

Lemma finish_nul v l w : adding v l w -> Forall (fun b => b <> 0) w -> Forall (fun s => Forall (fun b => b <> 0) s) l ->
  forall all rest, all = arena l ++ w ++ 0 :: rest ->
  sinv (mkStr all (s_size v + 1) (s_idx v) (s_n v + 1)) (l ++ [w]).
Proof.
  intros [Ha Hs [ri Hi] Hn Hp] Hw Hl all rest ->. split; cbn [s_all s_size s_idx s_n].
  - exists rest. rewrite arena_app. cbn [arena flat_map]. rewrite app_nil_r, <- !app_assoc. reflexivity.
  - rewrite arena_app, zlen_app. cbn [arena flat_map]. rewrite app_nil_r, zlen_snoc. fold (arena l). lia.
  - exists ri. rewrite offsets_app. cbn [offsets]. rewrite <- app_assoc. rewrite Hi. reflexivity.
  - rewrite zlen_snoc. lia.
  - rewrite Hi, !zlen_app, zlen_cons. pose proof (zlen_nonneg (offsets 0 l)). pose proof (zlen_nonneg ri).
    rewrite zlen_cons. pose proof (zlen_nonneg (arena l)). pose proof (zlen_nonneg w). pose proof (zlen_nonneg rest). lia.
  - apply Forall_app; auto.
Qed.

Lemma add_ok e v l s : mem_always e -> sinv v l -> Forall (fun b => b <> 0) s -> s <> [] ->
  zlen l < 2 ^ 59 -> s_size v + zlen s + 2 < 2 ^ 60 ->
  exists v', strings_add e v s = Some (zlen l, v') /\ sinv v' (l ++ [s]).
Proof.
  intros M I Hs Ne B1 B2. unfold strings_add. destruct s as [|b s]; [congruence|].
  destruct (add_index_ok e v l M I B1) as (v1 & E1 & A1). rewrite E1. cbn [bind negb].
  assert (S1: s_size v1 = s_size v) by (destruct A1, I; rewrite ad_size0, (@zlen_nil Z); lia).
  destruct (add_loop_ok e l (b :: s) M v1 [] A1) as (v2 & E2 & A2 & C2); [lia|congruence|].
  rewrite E2. cbn [bind negb app] in *. pose proof A2 as A2'. destruct A2 as [[rest Ha] Hsz [ri Hi] Hn Hp].
  assert (LR: 1 <= zlen rest) by (rewrite Ha, !zlen_app in C2; lia).
  destruct rest as [|x rest]; [rewrite (@zlen_nil Z) in LR; lia|].
  rewrite Ha, Hsz. rewrite app_assoc, <- zlen_app, put_ok. cbn [bind]. eexists. split; [rewrite Hn; reflexivity|].
  rewrite <- app_assoc. rewrite zlen_app, <- Hsz. rewrite <- Hn.
  eapply finish_nul; eauto. destruct I; auto.
Qed.

Lemma to_string_le c : encodable c -> zlen (utf8_to_string c) = utf8_size c /\ 1 <= utf8_size c <= 4.
Proof.
  intros H. rewrite to_string_ok by auto. rewrite size_enc by (apply encodable_cp; auto). split; auto.
  rewrite <- size_enc by (apply encodable_cp; auto). apply utf8_size_enc_pos. apply encodable_cp; auto.
Qed.

Lemma good_encodable c : good_symbol c -> encodable c /\ c <> 0.
Proof. unfold good_symbol, encodable. lia. Qed.

Lemma add_symbols_ok e l cs : mem_always e -> Forall encodable cs -> forall v w, adding v l w ->
  s_size v + 4 * zlen cs + 1 < 2 ^ 60 ->
  (cs = [] -> exists rest, s_all v = arena l ++ w ++ 0 :: rest) ->
  exists v', add_symbols e v cs = Some (true, v') /\ adding v' l (w ++ encs cs)
    /\ exists rest, s_all v' = arena l ++ (w ++ encs cs) ++ 0 :: rest.
Proof.
  intros M HE. induction HE as [|c cs Hc Hcs IH]; intros v w A B R; cbn [add_symbols].
  - exists v. cbn [encs flat_map]. rewrite app_nil_r. auto.
  - rewrite zlen_cons in B. pose proof (zlen_nonneg cs). destruct (to_string_le c Hc) as [LS LB].
    destruct (increase64 e v l w (utf8_size c + 1) M A) as (v1 & E1 & A1 & C1 & S1); [lia|lia|].
    rewrite E1. cbn [bind negb]. destruct A1 as [[rest Ha] Hs [ri Hi] Hn Hp].
    unfold put_symbol. destruct (utf8_to_string c) as [|b s] eqn:T; [rewrite (@zlen_nil Z) in LS; lia|].
    assert (W: write_at (s_all v1) (s_size v1) ((b :: s) ++ [0])
       = Some (arena l ++ w ++ (b :: s) ++ 0 :: skipn (Z.to_nat (zlen (b :: s) + 1)) rest)).
    { rewrite Ha, Hs, app_assoc, <- zlen_app. rewrite write_at_ok.
      - rewrite zlen_snoc. rewrite <- !app_assoc. cbn [app]. reflexivity.
      - rewrite zlen_snoc, LS. rewrite Ha, !zlen_app in C1. lia. }
    rewrite W. cbn [bind].
    assert (EC: enc c = b :: s) by (rewrite <- to_string_ok by auto; auto).
    destruct (IH (mkStr (arena l ++ w ++ (b :: s) ++ 0 :: skipn (Z.to_nat (zlen (b :: s) + 1)) rest)
                  (s_size v1 + zlen (b :: s)) (s_idx v1) (s_n v1)) (w ++ b :: s)) as (v2 & E2 & A2 & R2).
    + split; cbn [s_all s_size s_idx s_n]; eauto.
      * exists (0 :: skipn (Z.to_nat (zlen (b :: s) + 1)) rest). rewrite <- !app_assoc. reflexivity.
      * rewrite zlen_app. lia.
      * rewrite !zlen_app, zlen_cons. pose proof (zlen_nonneg (arena l)). pose proof (zlen_nonneg w). pose proof (zlen_nonneg s).
        pose proof (zlen_nonneg (0 :: skipn (Z.to_nat (1 + zlen s + 1)) rest)). lia.
    + cbn [s_size]. lia.
    + intros _. exists (skipn (Z.to_nat (zlen (b :: s) + 1)) rest). cbn [s_all]. rewrite <- !app_assoc. reflexivity.
    + exists v2. rewrite <- app_assoc in A2, R2. cbn [encs flat_map]. rewrite EC. auto.
Qed.

Lemma nonzero_enc c : encodable c -> c <> 0 -> Forall (fun b => b <> 0) (enc c).
Proof. intros H N. unfold enc, encodable in *. repeat match goal with |- context[if ?b then _ else _] => destruct b eqn:? end; repeat (apply Forall_cons; [lia|]); apply Forall_nil. Qed.

Lemma nonzero_encs cs : Forall good_symbol cs -> Forall (fun b => b <> 0) (encs cs).
Proof.
  induction 1 as [|c cs Hc Hcs IH]; cbn [encs flat_map]; [constructor|]. apply Forall_app. split; auto.
  apply nonzero_enc; apply good_encodable; auto.
Qed.

Lemma good_all cs : Forall good_symbol cs -> Forall encodable cs.
Proof. apply Forall_impl. intros c H. apply good_encodable; auto. Qed.

Lemma add_text_ok e v l cs : mem_always e -> sinv v l -> Forall good_symbol cs -> cs <> [] ->
  zlen l < 2 ^ 59 -> s_size v + 4 * zlen cs + 2 < 2 ^ 60 ->
  exists v1 v2, strings_add_index e v = Some (true, v1) /\ add_symbols e v1 cs = Some (true, v2)
    /\ s_n v2 = zlen l /\ sinv (mkStr (s_all v2) (s_size v2 + 1) (s_idx v2) (s_n v2 + 1)) (l ++ [encs cs]).
Proof.
  intros M I Hc Ne B1 B2.
  destruct (add_index_ok e v l M I B1) as (v1 & E1 & A1).
  assert (S1: s_size v1 = s_size v) by (destruct A1, I; rewrite ad_size0, (@zlen_nil Z); lia).
  destruct (add_symbols_ok e l cs M (good_all _ Hc) v1 [] A1) as (v2 & E2 & A2 & rest & R2); [lia|congruence|].
  exists v1, v2. split; auto. split; auto. cbn [app] in *. split; [destruct A2; auto|].
  eapply finish_nul; eauto. - apply nonzero_encs; auto. - destruct I; auto.
Qed.

Lemma add_utf8_ok e v l cs : mem_always e -> sinv v l -> Forall good_symbol cs -> cs <> [] ->
  zlen l < 2 ^ 59 -> s_size v + 4 * zlen cs + 2 < 2 ^ 60 ->
  exists v', strings_add_by_utf8 e v cs = Some (zlen l, v') /\ sinv v' (l ++ [encs cs]).
Proof.
  intros M I Hc Ne B1 B2. destruct (add_text_ok e v l cs M I Hc Ne B1 B2) as (v1 & v2 & E1 & E2 & N & J).
  unfold strings_add_by_utf8. destruct cs as [|c cs]; [congruence|]. rewrite E1. cbn [bind negb]. rewrite E2. cbn [bind negb].
  eexists. split; [f_equal; f_equal; exact N|]. exact J.
Qed.

Lemma before_nul_good cs : Forall good_symbol cs -> before_nul (map (fun x => x mod 4294967296) cs) = cs.
Proof.
  induction 1 as [|c cs Hc Hcs IH]; cbn [map before_nul]; auto.
  rewrite Z.mod_small by (unfold good_symbol in Hc; lia). replace (c =? 0) with false by (unfold good_symbol in Hc; lia).
  rewrite IH. reflexivity.
Qed.

Lemma add_vector_ok e v l cs : mem_always e -> sinv v l -> Forall good_symbol cs -> cs <> [] ->
  zlen l < 2 ^ 59 -> s_size v + 4 * zlen cs + 2 < 2 ^ 60 ->
  exists v', strings_add_by_vector e v cs = Some (zlen l, v') /\ sinv v' (l ++ [encs cs]).
Proof.
  intros M I Hc Ne B1 B2. destruct (add_text_ok e v l cs M I Hc Ne B1 B2) as (v1 & v2 & E1 & E2 & N & J).
  unfold strings_add_by_vector. rewrite before_nul_good by auto.
  assert (Z0: match znth cs 0 with Some c => c =? 0 | None => ITEM_MAX =? 0 end = false).
  { destruct cs as [|c cs]; [congruence|]. rewrite znth_cons_0. inversion Hc as [|? ? G]; subst. unfold good_symbol in G. lia. }
  rewrite Z0, E1. cbn [bind negb]. rewrite E2. cbn [bind negb].
  eexists. split; [f_equal; f_equal; exact N|]. exact J.
Qed.

(** Reading. *)
Lemma split_at {A} (l : list A) i x : znth l i = Some x -> exists a b, l = a ++ x :: b /\ zlen a = i.
Proof.
  intros H. pose proof (znth_Some_lt _ _ _ H). rewrite znth_unf in H. destruct (i <? 0) eqn:E; [lia|].
  apply nth_error_split in H as (a & b & -> & L). exists a, b. split; auto. rewrite zlen_unf. lia.
Qed.

Lemma offset_at a s b rest : znth (offsets 0 (a ++ s :: b) ++ rest) (zlen a) = Some (zlen (arena a)).
Proof.
  rewrite offsets_app. cbn [offsets]. rewrite <- app_assoc. rewrite znth_app2 by (rewrite zlen_offsets; lia).
  rewrite zlen_offsets, Z.sub_diag. cbn [app]. rewrite znth_cons_0. f_equal.
Qed.

Lemma string_at_ok a s b all rest : all = arena (a ++ s :: b) ++ rest -> Forall (fun x => x <> 0) s ->
  c_string (skipn (Z.to_nat (zlen (arena a))) all) = Some s.
Proof.
  intros -> H. rewrite arena_app. cbn [arena flat_map]. fold (arena b). rewrite <- !app_assoc.
  replace (zlen (arena a)) with (zlen (arena a) + 0) by lia. rewrite skipn_zlen_app by lia. cbn [Z.to_nat skipn app].
  apply c_string_app; auto.
Qed.

Lemma get_ok v l i : sinv v l -> 0 <= i -> strings_get v i = Some (znth l i).
Proof.
  intros [[ra Ha] Hs [ri Hi] Hn Hp Hz] H. unfold strings_get. rewrite Hn.
  destruct (zlen l <=? i) eqn:E.
  - f_equal. symmetry. apply znth_None. lia.
  - destruct (znth_ex l i) as [s Es]; [lia|]. destruct (split_at l i s Es) as (a & b & -> & <-).
    rewrite Hi, offset_at. cbn [bind]. unfold string_at. rewrite (string_at_ok a s b _ ra Ha); [|rewrite Forall_forall in Hz; apply Hz; apply in_elt].
    cbn [bind]. rewrite Es. reflexivity.
Qed.

Lemma arena_len_lt v l : sinv v l -> s_size v = zlen (arena l). Proof. intros []; auto. Qed.

Lemma length_ok v l i : sinv v l -> 0 <= i -> s_size v < 2 ^ 60 ->
  strings_get_length v i = Some (match znth l i with Some s => zlen s | None => 0 end).
Proof.
  intros [[ra Ha] Hs [ri Hi] Hn Hp Hz] H B. unfold strings_get_length. rewrite Hn.
  destruct (zlen l <=? i) eqn:E.
  - replace (znth l i) with (@None bytes); auto. symmetry. apply znth_None. lia.
  - destruct (znth_ex l i) as [s Es]; [lia|]. rewrite Es. destruct (split_at l i s Es) as (a & b & -> & <-).
    rewrite Hi, offset_at. cbn [bind]. pose proof (zlen_nonneg s). pose proof (zlen_nonneg (arena a)).
    rewrite zlen_app, zlen_cons in *. rewrite Hs in *.
    rewrite arena_app, zlen_app in *. cbn [arena flat_map] in *. fold (arena b) in *. rewrite !zlen_app in *. change (zlen [0]) with 1 in *.
    fold (arena a) in *.
    destruct b as [|s2 b].
    + rewrite (@zlen_nil bytes) in *. replace (zlen a =? zlen a + (1 + 0) - 1) with true by lia.
      cbn [arena flat_map] in *. rewrite (@zlen_nil Z) in *. unfold u64, two64. rewrite Z.mod_small by lia. f_equal. lia.
    + rewrite zlen_cons. pose proof (zlen_nonneg b). replace (zlen a =? zlen a + (1 + (1 + zlen b)) - 1) with false by lia.
      assert (O: znth (offsets 0 (a ++ s :: s2 :: b) ++ ri) (zlen a + 1) = Some (zlen (arena (a ++ [s])))).
      { pose proof (offset_at (a ++ [s]) s2 b ri) as Q. rewrite <- app_assoc, zlen_snoc in Q. exact Q. }
      rewrite O. cbn [bind]. rewrite arena_app, zlen_app. cbn [arena flat_map]. rewrite app_nil_r, zlen_snoc. fold (arena a).
      pose proof (zlen_nonneg (arena (s2 :: b))). cbn [arena flat_map] in *.
      unfold u64, two64. rewrite Z.mod_small by lia. f_equal. lia.
Qed.

Lemma remove_ok v l : sinv v l ->
  (l = [] -> strings_remove v = Some (None, v))
  /\ (forall a s, l = a ++ [s] -> exists v', strings_remove v = Some (Some s, v') /\ sinv v' a).
Proof.
  intros [[ra Ha] Hs [ri Hi] Hn Hp Hz]. unfold strings_remove. split.
  - intros ->. rewrite Hn, (@zlen_nil bytes). reflexivity.
  - intros a s ->. rewrite Hn, zlen_snoc. pose proof (zlen_nonneg a). replace (zlen a + 1 =? 0) with false by lia.
    replace (zlen a + 1 - 1) with (zlen a) by lia. rewrite Hi, offset_at. cbn [bind]. unfold string_at. cbn [s_all].
    apply Forall_app in Hz as [Hz1 Hz2]. inversion Hz2; subst.
    rewrite (string_at_ok a s [] _ ra Ha); auto. cbn [bind]. eexists. split; [reflexivity|].
    split; cbn [s_all s_size s_idx s_n]; auto.
    + rewrite Ha, arena_app. eexists. rewrite <- app_assoc. reflexivity.
    + rewrite offsets_app. eexists. rewrite <- app_assoc. reflexivity.
    + rewrite <- Hi. auto.
Qed.

Lemma create_ok e alloc : 0 <= alloc < 2 ^ 50 -> sinv (strings_create e alloc) [].
Proof.
  intros H. unfold strings_create. set (n := if alloc =? 0 then 1 else alloc). assert (1 <= n < 2 ^ 50) by (unfold n; destruct (alloc =? 0) eqn:E; lia).
  split; cbn [s_all s_size s_idx s_n]; auto.
  - exists (o_fresh e (n * 256)). reflexivity.
  - exists (o_fresh e n). reflexivity.
  - rewrite !zlen_o_fresh; lia.
Qed.

Lemma zlen_encs_le cs : Forall good_symbol cs -> zlen (encs cs) <= 4 * zlen cs.
Proof.
  induction 1 as [|c cs Hc Hcs IH]; cbn [encs flat_map]; [rewrite !zlen_unf; cbn; lia|].
  rewrite zlen_app, zlen_cons. fold (encs cs). destruct (good_encodable c Hc) as [E _].
  destruct (to_string_le c E) as [_ L]. rewrite <- size_enc by (apply encodable_cp; auto). lia.
Qed.

Lemma arena_ge l : zlen l <= zlen (arena l).
Proof.
  induction l as [|s l IH]; cbn [arena flat_map]; [rewrite !zlen_unf; cbn; lia|].
  fold (arena l). rewrite !zlen_app, zlen_cons. change (zlen [0]) with 1. pose proof (zlen_nonneg s). lia.
Qed.

Lemma size_snoc v l s v' : sinv v l -> sinv v' (l ++ [s]) -> s_size v' = s_size v + zlen s + 1.
Proof.
  intros [] []. rewrite si_size0, si_size1, arena_app, zlen_app. cbn [arena flat_map]. rewrite app_nil_r, zlen_snoc. fold (arena l). lia.
Qed.

Lemma strop_size_nonneg op : 0 <= strop_size op.
Proof. destruct op as [s|s|s| | | |]; cbn [strop_size]; try lia; pose proof (zlen_nonneg s); lia. Qed.

Lemma strexec_ok e v l op : mem_always e -> sinv v l -> strop_ok op -> s_size v + strop_size op < 2 ^ 59 ->
  exists r v', strexec e v op = Some (r, v') /\ strspec l op = (r, snd (strspec l op))
    /\ sinv v' (snd (strspec l op)) /\ s_size v' <= s_size v + strop_size op.
Proof.
  intros M I O B. pose proof (arena_ge l) as AG. pose proof (arena_len_lt v l I) as AL. pose proof (zlen_nonneg l) as NL.
  pose proof (strop_size_nonneg op) as SN.
  assert (B': zlen l < 2 ^ 59) by lia.
  destruct op as [s|cs|cs|i|i| |]; cbn [strexec strop_ok strop_size] in *.
  - destruct s as [|b s].
    + exists (RNum SIZE_MAX), v. cbn. split; auto. split; auto. split; auto. rewrite (@zlen_nil Z). lia.
    + destruct (add_ok e v l (b :: s) M I O ltac:(discriminate)) as (v' & E & I'); [lia|lia|].
      rewrite E. cbn [bind]. exists (RNum (zlen l)), v'. split; auto. cbn [strspec add_spec snd]. split; auto. split; auto.
      rewrite (size_snoc v l (b :: s) v') by auto. lia.
  - destruct cs as [|c cs].
    + exists (RNum SIZE_MAX), v. cbn. split; auto. split; auto. split; auto. rewrite (@zlen_nil Z). lia.
    + destruct (add_utf8_ok e v l (c :: cs) M I O ltac:(discriminate)) as (v' & E & I'); [lia|lia|].
      rewrite E. cbn [bind]. exists (RNum (zlen l)), v'. split; auto. cbn [strspec add_spec snd]. split; auto. split; auto.
      rewrite (size_snoc v l _ v') by eauto. pose proof (zlen_encs_le _ O). lia.
  - destruct O as [O Ne]. destruct (add_vector_ok e v l cs M I O Ne) as (v' & E & I'); [lia|lia|].
    rewrite E. cbn [bind]. exists (RNum (zlen l)), v'. split; auto. cbn [strspec add_spec snd]. split; auto. split; auto.
    rewrite (size_snoc v l _ v') by eauto. pose proof (zlen_encs_le _ O). lia.
  - rewrite (get_ok v l i I O). cbn [bind]. exists (RText (znth l i)), v. cbn. split; auto. split; auto. split; auto. lia.
  - rewrite (length_ok v l i I O) by lia. cbn [bind]. eexists _, v. cbn. split; [reflexivity|]. split; auto. split; auto. lia.
  - destruct (remove_ok v l I) as [R1 R2]. destruct (rev l) as [|s r] eqn:RL.
    + assert (l = []) by (rewrite <- (rev_involutive l), RL; reflexivity). subst. rewrite R1 by auto. cbn [bind strspec rev snd].
      exists (RText None), v. split; auto. split; auto. split; auto. lia.
    + assert (l = rev r ++ [s]) by (rewrite <- (rev_involutive l), RL; reflexivity).
      destruct (R2 _ _ H) as (v' & E & I'). rewrite E. cbn [bind strspec]. rewrite RL. cbn [snd].
      exists (RText (Some s)), v'. split; auto. split; auto. split; auto.
      destruct I, I'. rewrite si_size0, si_size1, H, arena_app, zlen_app. pose proof (zlen_nonneg (arena [s])). lia.
  - exists (RNum (zlen l)), v. unfold strings_size. destruct I as [? ? ? N ? ?]. rewrite N. cbn. split; auto. split; auto. split; [split; auto|lia].
Qed.

Lemma strrun_ok h : forall v l, sinv v l -> Forall mem_always (map fst h) -> Forall strop_ok (map snd h) ->
  s_size v + strops_size (map snd h) < 2 ^ 59 ->
  exists v', strrun v h = Some (fst (strspecs l (map snd h)), v') /\ sinv v' (snd (strspecs l (map snd h))).
Proof.
  induction h as [|[e op] h IH]; intros v l I M O B; cbn [strrun map strspecs fst snd].
  - exists v. auto.
  - inversion M; inversion O; subst. cbn [map strops_size fold_right fst snd] in *. fold (strops_size (map snd h)) in B.
    assert (0 <= strops_size (map snd h)).
    { clear. induction (map snd h) as [|o t IH]; cbn [strops_size fold_right]; [lia|]. fold (strops_size t).
      pose proof (strop_size_nonneg o). lia. }
    destruct (strexec_ok e v l op) as (r & v1 & E & S & I1 & Sz); auto; [lia|].
    rewrite E. cbn [bind]. destruct (IH v1 _ I1) as (v2 & E2 & I2); auto; [lia|].
    rewrite S. destruct (strspecs (snd (strspec l op)) (map snd h)) as [rs l2]. cbn [fst snd] in *.
    rewrite E2. cbn [bind]. eauto.
Qed.

Lemma strings_full e0 alloc h : 0 <= alloc < 2 ^ 50 -> Forall mem_always (map fst h) -> Forall strop_ok (map snd h) ->
  strops_size (map snd h) < 2 ^ 59 ->
  exists v', strrun (strings_create e0 alloc) h = Some (fst (strspecs [] (map snd h)), v').
Proof.
  intros H M O B. destruct (strrun_ok h (strings_create e0 alloc) [] (create_ok e0 alloc H) M O) as (v' & E & _); eauto.
Qed.

(** Words, and the whole of [lex] on a text. *)
From Verif Require Import Prelude Utf8Model Utf8Spec Utf8Proofs UniioModel UniioSpec UniioProofs StringsModel StringsSpec StringsRun MapModel MapSpec MapProofs LexModel LexText LexProofs LexMono LexStep.

Lemma reserve_ok e m L k cs x : mem_always e -> minv m L -> key_of k cs x -> m_ksize m + src_size k + 16 < 2 ^ 56 ->
  exists r m' L', map_reserve e m k = Some (r, x, m') /\ minv m' L' /\ add_entry (to_dict L) cs ITEM_MAX r (to_dict L')
    /\ m_ksize m' <= m_ksize m + src_size k + 16 /\ (dfind (to_dict L) cs <> None -> m_ksize m' = m_ksize m).
Proof.
  intros M I HK B. destruct (get_hash_ok e m L k cs x M I HK ltac:(lia)) as (m1 & E & I1 & (_ & _ & S3) & P & Z).
  change (map_reserve e m k) with (map_add e m k ITEM_MAX).
  unfold map_add. rewrite E. cbn [bind]. pose proof (zlen_nonneg (encs cs)). destruct (empty_or cs) as [->|Ne].
  - exists SIZE_MAX, m1, L. split; [reflexivity|]. split; auto. split; [|split; lia]. unfold add_entry. rewrite (dfind_empty m L) by auto. split; auto.
  - rewrite key_eqb_neq by auto.
    destruct (add_by_hash_ok e m1 L cs ITEM_MAX M I1 (P Ne) (key_good _ _ _ HK) Ne ltac:(lia)) as (r & m' & L' & Q1 & Q2 & Q3 & Q4 & _ & Q5 & _).
    rewrite Q1. exists r, m', L'. split; [reflexivity|]. split; auto. split; auto. split; [lia|]. rewrite dfind_lookup. intros D.
    destruct (lookup_entry L cs); [|cbn in D; congruence]. destruct Q5 as (-> & _); [discriminate|auto].
Qed.

Lemma take_drop p r : take_while p r ++ drop_while p r = r.
Proof. induction r as [|c r IH]; cbn [take_while drop_while]; auto. destruct (p c); auto. cbn [app]. f_equal. exact IH. Qed.
Lemma take_all p r : Forall (fun c => p c = true) (take_while p r).
Proof. induction r as [|c r IH]; cbn [take_while]; auto. destruct (p c) eqn:E; auto. Qed.
Lemma drop_head p r : match drop_while p r with [] => True | d :: _ => p d = false end.
Proof. induction r as [|c r IH]; cbn [drop_while]; auto. destruct (p c) eqn:E; auto. Qed.
Lemma encs_app a b : encs (a ++ b) = encs a ++ encs b. Proof. unfold encs. apply flat_map_app. Qed.

Section Word.
Variable T : list Z.
Hypothesis HT : Forall code_point T.
Variable e : lenv.
Hypothesis HM : mem_always (le_mem e).

(** The table as a dictionary, with room for one more word of the text. *)
Definition table (m : map_t) (d : dict) : Prop := exists L, minv m L /\ to_dict L = d.
Definition fits (m : map_t) : Prop := m_ksize m + zlen (encs T) + 16 < 2 ^ 56.

Definition value_in (d : dict) (w : list Z) : Z := match dfind d w with Some (_, v) => v | None => ITEM_MAX end.
Definition word_token (v p q i : Z) : token := if v >=? 0 then token_identifier p q i else token_keyword p q v.

Lemma word_key c r : sfx (c :: r) T -> zlen (encs T) < two64 -> utf8_is_letter c || (c =? 35) = true ->
  exists io, uni_unscan_char (mkIn (encs T) (pos_of T (c :: r))) c = (0, io) /\ src_size (KIo io) = zlen (encs T) /\
    key_of (KIo io) (c :: take_while ident_char r) (Some (last_of (drop_while ident_char r), mkIn (encs T) (pos_of T (drop_while ident_char r)))).
Proof.
  intros H SZ C. assert (CR := sfx_code T HT _ H). destruct H as (d & E).
  assert (E0: encs T = encs d ++ encs (c :: r)) by (rewrite E; apply encs_app).
  exists (mkIn (encs T) (zlen (encs d))). split; [|split; [reflexivity|]].
  - assert (BT: pos_of T (c :: r) = after_last (encs d) (c :: r)).
    { unfold pos_of, after_last. rewrite E0, zlen_app. lia. }
    rewrite BT, E0. change c with (last_of (c :: r)) at 3.
    apply unscan_last; auto. rewrite <- E0. exact SZ.
  - assert (IS: ident_start c) by (unfold ident_start; apply orb_prop in C; destruct C as [C|C]; [left; auto|right; apply Z.eqb_eq; auto]).
    assert (IN: Forall ident_next (take_while ident_char r)) by apply take_all.
    assert (TD := take_drop ident_char r). assert (DH := drop_head ident_char r).
    set (w := take_while ident_char r) in *. set (r' := drop_while ident_char r) in *. clearbody w r'.
    destruct r' as [|x r'].
    + assert (E1: encs T = encs d ++ encs (c :: w)) by (rewrite E0, <- TD, app_nil_r; reflexivity).
      assert (PP: pos_of T [] = zlen (encs T)) by (unfold pos_of; cbn [encs flat_map]; rewrite (@zlen_nil Z); lia).
      rewrite PP, E1. cbn [last_of]. apply key_io_end; auto.
    + assert (E1: encs T = encs d ++ encs (c :: w) ++ enc x ++ encs r').
      { rewrite E0, <- TD. change (c :: w ++ x :: r') with ((c :: w) ++ x :: r'). rewrite encs_app. reflexivity. }
      assert (PP: pos_of T (x :: r') = zlen (encs d ++ encs (c :: w) ++ enc x)).
      { unfold pos_of. rewrite E1. cbn [encs flat_map]. fold (encs r'). fold (encs w). rewrite !zlen_app. lia. }
      rewrite PP, E1. cbn [last_of]. apply key_io; auto.
      * unfold ident_next. unfold ident_char in DH. rewrite DH. discriminate.
      * inversion CR as [|? ? ? CX]; subst. apply Forall_app in CX. destruct CX as (_ & CX). inversion CX; auto.
Qed.

Lemma word_put b c r d : sfx (c :: r) T -> utf8_is_letter c || (c =? 35) = true ->
  table (b_map b) d -> fits (b_map b) ->
  let w := c :: take_while ident_char r in let r' := drop_while ident_char r in
  exists i m' d', lex_identifier_or_keyword e (put b T (c :: r))
     = Some (word_token (value_in d w) (pos_of T (c :: r)) (pos_of T r') i, put (mkBase m' (b_strs b) (b_errs b)) T r')
  /\ table m' d' /\ add_entry d w ITEM_MAX i d' /\ (dfind d w <> None -> m_ksize m' = m_ksize (b_map b)) /\ m_ksize m' <= m_ksize (b_map b) + zlen (encs T) + 16.
Proof.
  intros H C (L & I & DL) F w r'. assert (SZ0: zlen (encs T) < two64).
  { unfold fits in F. assert (KS: 0 <= m_ksize (b_map b)) by (rewrite (mi_ksize _ _ I); apply zlen_nonneg). unfold two64. lia. }
  destruct (word_key c r H SZ0 C) as (io & U & SZ & K).
  unfold fits in F. rewrite <- SZ in F.
  destruct (reserve_ok _ _ _ _ _ _ HM I K F) as (i & m' & L' & E & I' & A & GM & G).
  exists i, m', (to_dict L'). split; [|split; [exists L'; auto|split; [rewrite <- DL; exact A|split; [|rewrite <- SZ; exact GM]]]].
  - unfold lex_identifier_or_keyword. cbn [put l_io l_char l_map last_of]. rewrite U, E. cbn [bind].
    fold w in A. fold r' in E |- *. rewrite DL in A.
    assert (GV: 0 <= i /\ map_get_by_index m' i = Some (value_in d w)).
    { unfold add_entry in A. unfold value_in. destruct (dfind d w) as [[j v]|] eqn:D.
      - destruct A as (-> & D'). change (ITEM_MAX =? ITEM_MAX) with true. cbv iota.
        rewrite <- D' in D. destruct (minv_has m' L' w j v I' D) as (v' & D2 & DA).
        assert (R: 0 <= j).
        { rewrite dat_find in DA. destruct (find (fun en => k_idx en =? j) L') as [en|] eqn:FF; [|discriminate]. apply find_some in FF. destruct FF as (FI & FJ).
          pose proof (mi_range _ _ I') as R. rewrite Forall_forall in R. specialize (R j). apply Z.eqb_eq in FJ. apply R. unfold idxs. rewrite <- FJ. apply in_map. auto. }
        split; auto. rewrite (get_by_index_ok m' L' j) by auto. rewrite DA. congruence.
      - change (key_eqb w []) with false in A. cbv iota in A. destruct A as (A1 & A2 & A3). split; [lia|].
        assert (D2: dfind (to_dict L') w = Some (i, ITEM_MAX)).
        { rewrite A3. revert D. clear. induction d as [|[[k j] v] d IH]; cbn [dfind app]; intros D.
          - rewrite (proj2 (key_eqb_eq w w) eq_refl). reflexivity.
          - destruct (key_eqb k w); [discriminate|auto]. }
        destruct (minv_has m' L' w i _ I' D2) as (v' & D3 & DA). rewrite (get_by_index_ok m' L' i) by (auto; lia). rewrite DA. congruence. }
    destruct GV as (_ & ->). cbn [bind]. unfold word_token, put, l_pos. cbn [l_io in_pos b_map b_strs b_errs].
    destruct (value_in d w >=? 0); reflexivity.
  - intros D. rewrite <- DL in D. exact (G D).
Qed.

(** All the rounds of a call. *)
Fixpoint l_lex (fuel : nat) (d : dict) (r : list Z) : option (list Z * errs * lstep) :=
  match fuel with
  | O => None
  | S fuel =>
      let r1 := l_blanks r in
      match l_switch e r1 with
      | OHang => None
      | OSkip es r' => do ' (r2, es', s) <- l_lex fuel d r'; Some (r2, es ++ es', s)
      | OWord w r' => if value_in d w =? TK_LINE then l_lex fuel d (l_line r') else Some (r1, [], OWord w r')
      | s => Some (r1, [], s)
      end
  end.

Definition with_map (b : base) (m : map_t) : base := mkBase m (b_strs b) (b_errs b).

Definition finish (b : base) (d : dict) (x : list Z * errs * lstep) (t : token) (l : lexer) : Prop :=
  let '(r, es, s) := x in
  exists m' d', table m' d' /\ m_ksize m' <= m_ksize (b_map b) + zlen (encs T) + 16 /\ let b1 := note (with_map b m') T es in
  match s with
  | OEof => t = token_eof /\ d' = d /\ l = put b1 T []
  | OTok o => t = tok_at T r o /\ d' = d /\ l = after T b1 o
  | OStr s es' r' => t = token_string_literal (pos_of T r) (pos_of T r') (zlen (b_strs b)) /\ d' = d
      /\ l = put (mkBase m' (b_strs b ++ [s]) (b_errs (note b1 T es'))) T r'
  | OWord w r' => value_in d w <> TK_LINE /\ exists i, t = word_token (value_in d w) (pos_of T r) (pos_of T r') i
      /\ add_entry d w ITEM_MAX i d' /\ l = put b1 T r'
  | OSkip _ _ | OHang => False
  end.

Lemma round_lex f b r : sfx r T -> (List.length r < S f)%nat ->
  lex (S f) e (put b T r) =
  do x <- l_round T e (S f) b (l_blanks r);
  match x with LToken t l => Some (t, l) | LPunct k l1 => None | LAgain l => lex f e l end.
Proof.
  intros H L. rewrite lex_S, (skip_ws_put T HT) by auto. cbn [bind].
  assert (H1: sfx (l_blanks r) T) by (eapply sfx_trans; [apply sfx_drop|exact H]).
  assert (L1: (List.length (l_blanks r) < S f)%nat) by (apply sfx_len in H1; pose proof (sfx_len _ _ (sfx_drop is_blank r)); unfold l_blanks; lia).
  rewrite <- (round_put T HT e (S f) b (l_blanks r) H1 L1).
  destruct (lex_switch (S f) e (put b T (l_blanks r))) as [[t l|k l|l]|]; reflexivity.
Qed.

Lemma l_switch_word r w r' : l_switch e r = OWord w r' ->
  exists c r0, r = c :: r0 /\ utf8_is_letter c || (c =? 35) = true /\ w = c :: take_while ident_char r0 /\ r' = drop_while ident_char r0.
Proof.
  intros E. destruct r as [|c r0]; [discriminate|]. exists c, r0. split; auto. unfold l_switch in E.
  destruct (utf8_is_digit c || ((c =? 46) && starts utf8_is_digit r0)); [destruct (l_number e (c :: r0)); discriminate|].
  destruct (c =? 39); [discriminate|]. destruct (c =? 34); [destruct (l_pieces _ _) as [[[? ?] ?]|]; discriminate|].
  destruct (is_prefix [47; 47] (c :: r0)); [discriminate|].
  destruct (is_prefix [47; 42] (c :: r0)); [destruct (l_block r0); discriminate|].
  destruct (l_punct (c :: r0)) as [[? ?]|]; [discriminate|].
  destruct (utf8_is_letter c || (c =? 35)); [|discriminate]. inversion E; auto.
Qed.

Lemma switch_rest r : r <> [] -> (List.length (rest_of (l_switch e r)) < List.length r)%nat.
Proof.
  destruct r as [|c r]; intros N; [congruence|]. pose proof (sfx_len _ _ (switch_moves e c r)). cbn [List.length]. lia.
Qed.

Lemma put_map b m : put (with_map b m) T = fun r => put (mkBase m (b_strs b) (b_errs b)) T r.
Proof. reflexivity. Qed.
Lemma note_map b m es : with_map (note b T es) m = note (with_map b m) T es.
Proof. reflexivity. Qed.
Lemma with_map_same b : with_map b (b_map b) = b.
Proof. destruct b; reflexivity. Qed.
Lemma with_map_twice b m m' : with_map (with_map b m) m' = with_map b m'.
Proof. reflexivity. Qed.

Lemma line_char : TK_LINE < 0. Proof. reflexivity. Qed.

Lemma lex_put : forall n r b d, sfx r T -> (List.length r <= n)%nat -> table (b_map b) d -> fits (b_map b) ->
  match l_lex (S n) d r with
  | Some x => exists t l, finish b d x t l /\ forall fuel, (n < fuel)%nat -> lex fuel e (put b T r) = Some (t, l)
  | None => forall fuel, (n < fuel)%nat -> lex fuel e (put b T r) = None
  end.
Proof.
  induction n as [n IH] using lt_wf_ind. intros r b d H LN TB FT. cbn [l_lex]. cbv zeta.
  assert (H1: sfx (l_blanks r) T) by (eapply sfx_trans; [apply sfx_drop|exact H]).
  assert (L1: (List.length (l_blanks r) <= n)%nat) by (pose proof (sfx_len _ _ (sfx_drop is_blank r)); unfold l_blanks; lia).
  assert (SR: forall fuel, (n < fuel)%nat -> exists f, fuel = S f /\ lex fuel e (put b T r) =
     do x <- l_round T e (S f) b (l_blanks r);
     match x with LToken t l => Some (t, l) | LPunct k l1 => None | LAgain l => lex f e l end).
  { intros fuel F. destruct fuel as [|f]; [lia|]. exists f. split; auto. apply round_lex; auto. lia. }
  assert (SM := switch_rest (l_blanks r)). assert (SX: l_blanks r <> [] -> sfx (rest_of (l_switch e (l_blanks r))) (l_blanks r)).
  { destruct (l_blanks r) as [|c r0]; [congruence|]. intros _. eapply sfx_trans; [apply switch_moves|apply sfx_tail]. }
  unfold l_round in SR. set (r1 := l_blanks r) in *. clearbody r1.
  destruct (l_switch e r1) as [|o|s es r'|w r'|es r'|] eqn:W; cbn [rest_of] in SM, SX.
  - exists token_eof, (put b T []). assert (r1 = []) as ->.
    { destruct r1 as [|c r1]; auto. exfalso. revert W. unfold l_switch.
      destruct (utf8_is_digit c || ((c =? 46) && starts utf8_is_digit r1)); [destruct (l_number e (c :: r1)); discriminate|].
      destruct (c =? 39); [discriminate|]. destruct (c =? 34); [destruct (l_pieces _ _) as [[[? ?] ?]|]; discriminate|].
      destruct (is_prefix [47; 47] (c :: r1)); [discriminate|].
      destruct (is_prefix [47; 42] (c :: r1)); [destruct (l_block r1); discriminate|].
      destruct (l_punct (c :: r1)) as [[? ?]|]; [discriminate|].
      destruct (utf8_is_letter c || (c =? 35)); discriminate. }
    split.
    + exists (b_map b), d. split; auto. split; [pose proof (zlen_nonneg (encs T)); lia|]. cbv zeta. rewrite with_map_same, note_nil. auto.
    + intros fuel F. destruct (SR fuel F) as (f & -> & ->). reflexivity.
  - exists (tok_at T r1 o), (after T b o). split.
    + exists (b_map b), d. split; auto. split; [pose proof (zlen_nonneg (encs T)); lia|]. cbv zeta. rewrite with_map_same, note_nil. auto.
    + intros fuel F. destruct (SR fuel F) as (f & -> & ->). reflexivity.
  - eexists _, _. split; [|intros fuel F; destruct (SR fuel F) as (f & -> & ->); reflexivity].
    exists (b_map b), d. split; auto. split; [pose proof (zlen_nonneg (encs T)); lia|]. cbv zeta. rewrite with_map_same, note_nil. auto.
  - destruct (l_switch_word _ _ _ W) as (c & r0 & -> & C & EW & ER).
    assert (LL: (List.length r' < n)%nat) by (assert (X := SM ltac:(discriminate)); lia).
    assert (S' : sfx r' T) by (eapply sfx_trans; [apply SX; discriminate|auto]).
    destruct (word_put b c r0 d H1 C TB FT) as (i & m' & d' & E & TB' & A & F' & GM). rewrite <- EW, <- ER in *.
    unfold word_round in SR. rewrite E in SR. cbn [bind] in SR.
    destruct (value_in d w =? TK_LINE) eqn:VL.
    + assert (EQ: value_in d w = TK_LINE) by lia. rewrite EQ in SR.
      assert (KT: t_kind (word_token TK_LINE (pos_of T (c :: r0)) (pos_of T r') i) = TK_LINE) by reflexivity.
      rewrite KT, Z.eqb_refl in SR.
      assert (DF: dfind d w <> None).
      { unfold value_in in EQ. destruct (dfind d w); [discriminate|]. revert EQ. vm_compute. discriminate. }
      assert (F1: m_ksize m' = m_ksize (b_map b)) by (apply F'; exact DF).
      assert (F2: fits m') by (unfold fits in *; rewrite F1; exact FT). assert (DD: d' = d) by (unfold add_entry in A; destruct (dfind d w) as [[? ?]|]; [tauto|congruence]). subst d'.
      assert (SL: sfx (l_line r') T) by (eapply sfx_trans; [apply sfx_drop|auto]).
      assert (LLn: (List.length (l_line r') <= n - 1)%nat) by (pose proof (sfx_len _ _ (sfx_drop (fun c => negb (c =? 10)) r')); unfold l_line; lia).
      specialize (IH (n - 1)%nat ltac:(lia) (l_line r') (with_map b m') d SL LLn TB' F2).
      replace (S (n - 1)) with n in IH by lia.
      assert (SR': forall fuel, (n < fuel)%nat -> exists f, fuel = S f /\ lex fuel e (put b T r) = lex f e (put (with_map b m') T (l_line r'))).
      { intros fuel F. destruct (SR fuel F) as (f & -> & X). exists f. split; auto. rewrite X.
        rewrite (skip_line_put T HT) by (auto; lia). reflexivity. }
      destruct (l_lex n d (l_line r')) as [[[r2 es2] s2]|].
      * destruct IH as (t & l & (m2 & d2 & TB2 & GM2 & FN) & IH). exists t, l. split; [exists m2, d2; split; [auto|]; split; [cbn [with_map b_map] in GM2; rewrite F1 in GM2; exact GM2|exact FN]|]. intros fuel F. destruct (SR' fuel F) as (f & -> & ->). apply IH. lia.
      * intros fuel F. destruct (SR' fuel F) as (f & -> & ->). apply IH. lia.
    + assert (KT: (t_kind (word_token (value_in d w) (pos_of T (c :: r0)) (pos_of T r') i) =? TK_LINE) = false).
      { unfold word_token. destruct (value_in d w >=? 0); [reflexivity|exact VL]. }
      rewrite KT in SR. eexists _, _. split; [|intros fuel F; destruct (SR fuel F) as (f & -> & ->); reflexivity].
      exists m', d'. split; auto. split; [exact GM|]. cbv zeta. rewrite note_nil. split; [lia|]. exists i. auto.
  - assert (NE: r1 <> []) by (intros ->; discriminate). specialize (SM NE). specialize (SX NE).
    assert (S' : sfx r' T) by (eapply sfx_trans; [exact SX|auto]).
    specialize (IH (n - 1)%nat ltac:(lia) r' (note b T es) d S' ltac:(lia) TB FT).
    replace (S (n - 1)) with n in IH by lia.
    assert (SR': forall fuel, (n < fuel)%nat -> exists f, fuel = S f /\ lex fuel e (put b T r) = lex f e (put (note b T es) T r')).
    { intros fuel F. destruct (SR fuel F) as (f & -> & X). exists f. split; auto. }
    destruct (l_lex n d r') as [[[r2 es2] s2]|]; cbn [bind].
    + destruct IH as (t & l & (m' & d' & TB' & GM & FN) & IH). exists t, l. split.
      * exists m', d'. split; auto. split; [exact GM|]. cbv zeta in FN |- *. rewrite note_map, note_app in FN. exact FN.
      * intros fuel F. destruct (SR' fuel F) as (f & -> & ->). apply IH. lia.
    + intros fuel F. destruct (SR' fuel F) as (f & -> & ->). apply IH. lia.
  - intros fuel F. destruct (SR fuel F) as (f & -> & ->). reflexivity.
Qed.
End Word.

(** The model of the lexer on the bytes of a text computes the functions of
    LexText.v. *)
From Verif Require Import Prelude Utf8Model Utf8Spec Utf8Proofs UniioModel UniioSpec UniioProofs MapModel LexModel LexText.
From Coq Require Import SpecFloat.

(** The state of a lexer in text [T] with the rest [r]: the first symbol of [r]
    is the current one. *)
Record base := mkBase { b_map : map_t; b_strs : list (list Z); b_errs : list (lex_err * Z) }.
Definition pos_of (T r : list Z) : Z :=
  zlen (encs T) - zlen (encs r) + match r with [] => 0 | c :: _ => zlen (enc c) end.
Definition put (b : base) (T r : list Z) : lexer :=
  mkLexer (last_of r) (mkIn (encs T) (pos_of T r)) (b_map b) (b_strs b) (b_errs b).
Definition note (b : base) (T : list Z) (es : errs) : base :=
  mkBase (b_map b) (b_strs b) (b_errs b ++ map (fun x => (fst x, pos_of T (snd x))) es).
Definition sfx (r T : list Z) : Prop := exists d, T = d ++ r.

Lemma sfx_refl r : sfx r r. Proof. exists []. reflexivity. Qed.
Lemma sfx_nil T : sfx [] T. Proof. exists T. rewrite app_nil_r. reflexivity. Qed.
Lemma sfx_trans a b c : sfx a b -> sfx b c -> sfx a c.
Proof. intros (d & ->) (d' & ->). exists (d' ++ d). rewrite app_assoc. reflexivity. Qed.
Lemma sfx_cons c r T : sfx (c :: r) T -> sfx r T.
Proof. intros (d & ->). exists (d ++ [c]). rewrite <- app_assoc. reflexivity. Qed.
Lemma sfx_tail c r : sfx r (c :: r). Proof. exists [c]. reflexivity. Qed.
Lemma sfx_len r T : sfx r T -> (List.length r <= List.length T)%nat.
Proof. intros (d & ->). rewrite app_length. lia. Qed.
Lemma sfx_drop p r : sfx (drop_while p r) r.
Proof.
  induction r as [|c r IH]; cbn [drop_while]; [apply sfx_refl|]. destruct (p c); [|apply sfx_refl].
  eapply sfx_trans; [exact IH|apply sfx_tail].
Qed.

Lemma note_nil b T : note b T [] = b.
Proof. destruct b. unfold note. cbn. rewrite app_nil_r. reflexivity. Qed.
Lemma note_app b T es es' : note (note b T es) T es' = note b T (es ++ es').
Proof. unfold note. cbn [b_map b_strs b_errs]. rewrite map_app, app_assoc. reflexivity. Qed.

Section Text.
Variable T : list Z.
Hypothesis HT : Forall code_point T.

Lemma sfx_code r : sfx r T -> Forall code_point r.
Proof. intros (d & E). rewrite E in HT. apply Forall_app in HT. tauto. Qed.

Lemma head_code c r : sfx (c :: r) T -> code_point c.
Proof. intros H. apply sfx_code in H. inversion H; auto. Qed.

Lemma code_not_EOF c : code_point c -> (c =? EOF32) = false.
Proof. unfold code_point, EOF32. intros H. lia. Qed.

Lemma scan_put b c r : sfx (c :: r) T -> scan (put b T (c :: r)) = put b T r.
Proof.
  intros H. assert (C := sfx_code r (sfx_cons _ _ _ H)). destruct H as (d & E).
  assert (E1: encs T = encs (d ++ [c]) ++ encs r).
  { rewrite E. unfold encs. rewrite !flat_map_app. cbn [flat_map]. rewrite app_nil_r, <- app_assoc. reflexivity. }
  assert (P: pos_of T (c :: r) = zlen (encs (d ++ [c]))).
  { unfold pos_of. rewrite E1. cbn [encs flat_map]. fold (encs r). rewrite !zlen_app. lia. }
  unfold scan, put. cbn [l_io]. rewrite P, E1, (scan_next _ _ C). cbn [l_map l_strs l_errs].
  f_equal. f_equal. unfold pos_of. rewrite E1, zlen_app. unfold after_last. destruct r; lia.
Qed.

Lemma scan_put_nil b : scan (put b T []) = put b T [].
Proof.
  unfold scan, put. cbn [l_io]. rewrite scan_char_end.
  - reflexivity.
  - unfold in_size, pos_of. cbn [in_data in_pos encs flat_map]. rewrite (@zlen_nil Z). lia.
Qed.

Lemma scan_tl b r : sfx r T -> scan (put b T r) = put b T (tl r).
Proof. destruct r as [|c r]; intros H; [apply scan_put_nil|apply scan_put; auto]. Qed.

Lemma lookahead_put b c r : sfx (c :: r) T -> lookahead (put b T (c :: r)) = last_of r.
Proof.
  intros H. assert (E := scan_put b c r H). unfold scan in E. unfold lookahead.
  destruct (uni_scan_char (l_io (put b T (c :: r)))) as [x io]. cbn [fst]. unfold put in E. congruence.
Qed.

Lemma error_put b r err : lexer_error (put b T r) err = put (note b T [(err, r)]) T r.
Proof. reflexivity. Qed.

Lemma char_put b r : l_char (put b T r) = last_of r. Proof. reflexivity. Qed.
Lemma pos_put b r : l_pos (put b T r) = pos_of T r. Proof. reflexivity. Qed.

(** Loops that skip. *)
Lemma skip_ws_put b r : forall fuel, sfx r T -> (List.length r < fuel)%nat ->
  skip_whitespace fuel (put b T r) = Some (put b T (l_blanks r)).
Proof.
  induction r as [|c r IH]; intros fuel H L; (destruct fuel as [|fuel]; [lia|]); cbn [skip_whitespace]; rewrite char_put; cbn [last_of l_blanks drop_while].
  - change (is_blank EOF32) with false. reflexivity.
  - destruct (is_blank c); [|reflexivity]. rewrite scan_put by auto. apply IH; [eapply sfx_cons; eauto|cbn in L; lia].
Qed.

Lemma skip_line_put b r : forall fuel, sfx r T -> (List.length r < fuel)%nat ->
  skip_line_comment fuel (put b T r) = Some (put b T (l_line r)).
Proof.
  induction r as [|c r IH]; intros fuel H L; (destruct fuel as [|fuel]; [lia|]); cbn [skip_line_comment]; rewrite char_put; cbn [last_of l_line drop_while].
  - change (EOF32 =? 10) with false. change (EOF32 =? EOF32) with true. reflexivity.
  - rewrite (code_not_EOF c) by (eapply head_code; eauto). cbn [negb]. rewrite andb_true_r.
    destruct (negb (c =? 10)); [|reflexivity]. rewrite scan_put by auto. apply IH; [eapply sfx_cons; eauto|cbn in L; lia].
Qed.

Lemma skip_hexa_put b r : forall fuel, sfx r T -> (List.length r < fuel)%nat ->
  skip_hexa fuel (put b T r) = Some (put b T (drop_while utf8_is_hexa_digit r)).
Proof.
  induction r as [|c r IH]; intros fuel H L; (destruct fuel as [|fuel]; [lia|]); cbn [skip_hexa]; rewrite char_put; cbn [last_of drop_while].
  - change (utf8_is_hexa_digit EOF32) with false. reflexivity.
  - destruct (utf8_is_hexa_digit c); [|reflexivity]. rewrite scan_put by auto. apply IH; [eapply sfx_cons; eauto|cbn in L; lia].
Qed.

Lemma skip_exponent_put b r : forall fuel, sfx r T -> (List.length r < fuel)%nat ->
  skip_exponent fuel (put b T r) = Some (put b T (l_skip_exponent r)).
Proof.
  induction r as [|c r IH]; intros fuel H L; (destruct fuel as [|fuel]; [lia|]); cbn [skip_exponent]; rewrite char_put; cbn [last_of l_skip_exponent drop_while].
  - change (utf8_is_letter EOF32 || utf8_is_digit EOF32 || (EOF32 =? 43) || (EOF32 =? 45)) with false. reflexivity.
  - destruct (utf8_is_letter c || utf8_is_digit c || (c =? 43) || (c =? 45)); [|reflexivity].
    rewrite scan_put by auto. apply IH; [eapply sfx_cons; eauto|cbn in L; lia].
Qed.

Lemma skip_block_put b : forall n r fuel, (List.length r <= n)%nat -> sfx r T -> (List.length r < fuel)%nat ->
  skip_block_comment fuel (put b T r)
  = Some (let '(ok, r') := l_block r in put (note b T (if ok then [] else [(unterminated_block_comment, [])])) T r').
Proof.
  induction n as [|n IH]; intros r fuel Ln H L; (destruct fuel as [|fuel]; [lia|]).
  - destruct r; [|cbn in Ln; lia]. reflexivity.
  - destruct r as [|c r1]; [reflexivity|]. cbn [skip_block_comment l_block]. rewrite char_put. cbn [last_of].
    destruct (c =? 42) eqn:E.
    + rewrite scan_put by auto. rewrite char_put. destruct r1 as [|d r2].
      * reflexivity.
      * cbn [last_of]. destruct (d =? 47).
        -- rewrite scan_put by (eapply sfx_cons; eauto). rewrite note_nil. reflexivity.
        -- rewrite (code_not_EOF d) by (eapply head_code, sfx_cons; eauto).
           rewrite scan_put by (eapply sfx_cons; eauto).
           apply IH; [cbn in Ln; lia| |cbn in L; lia]. eapply sfx_cons, sfx_cons; eauto.
    + rewrite char_put. cbn [last_of]. rewrite (code_not_EOF c) by (eapply head_code; eauto).
      rewrite scan_put by auto. apply IH; [cbn in Ln; lia| |cbn in L; lia]. eapply sfx_cons; eauto.
Qed.

(** Numbers. *)
Lemma base_put b r : sfx r T ->
  lex_base (put b T r) = let '(base, m, r') := l_base r in (base, m, put b T r').
Proof.
  intros H. unfold lex_base, l_base. rewrite char_put. destruct r as [|c r1]; [reflexivity|]. cbn [last_of].
  destruct (c =? 48) eqn:E; [|reflexivity]. rewrite scan_put by auto. rewrite char_put.
  destruct r1 as [|x r2]; [reflexivity|]. cbn [last_of].
  repeat (match goal with |- context [if ?q then _ else _] => destruct q end; [rewrite scan_put by (eapply sfx_cons; eauto); reflexivity|]).
  reflexivity.
Qed.

Lemma base_sfx r : sfx (snd (l_base r)) r.
Proof.
  unfold l_base. destruct r as [|c r1]; [apply sfx_refl|]. destruct (c =? 48); [|apply sfx_refl].
  destruct r1 as [|x r2]; [apply sfx_tail|].
  repeat (match goal with |- context [if ?q then _ else _] => destruct q end; [exists [c; x]; reflexivity|]). apply sfx_tail.
Qed.

Lemma digits_put b base m r : forall n fuel, sfx r T -> (List.length r < fuel)%nat ->
  num_digits fuel base m n (put b T r) = Some (let '(w, n', r') := l_digits base m n r in (w, n', put b T r')).
Proof.
  induction r as [|c r IH]; intros n fuel H L; (destruct fuel as [|fuel]; [lia|]); cbn [num_digits]; rewrite char_put; cbn [last_of l_digits].
  - change (utf8_is_hexa_digit EOF32) with false. reflexivity.
  - destruct (utf8_is_hexa_digit c); [|reflexivity]. destruct (negb m && utf8_is_power c); [reflexivity|].
    destruct (utf8_to_number c >=? base); [reflexivity|]. rewrite scan_put by auto.
    apply IH; [eapply sfx_cons; eauto|cbn in L; lia].
Qed.

Lemma digits_sfx base m r : forall n, sfx (snd (l_digits base m n r)) r.
Proof.
  induction r as [|c r IH]; intros n; cbn [l_digits]; [apply sfx_refl|].
  destruct (utf8_is_hexa_digit c); [|apply sfx_refl]. destruct (negb m && utf8_is_power c); [apply sfx_refl|].
  destruct (utf8_to_number c >=? base); [apply sfx_refl|]. eapply sfx_trans; [apply IH|apply sfx_tail].
Qed.

Lemma fraction_put b r : forall f mult c fuel, sfx (c :: r) T -> (List.length (c :: r) < fuel)%nat ->
  num_fraction fuel f mult (put b T (c :: r)) = Some (let '(f', r') := l_fraction f mult r in (f', put b T r')).
Proof.
  induction r as [|d r IH]; intros f mult c fuel H L; (destruct fuel as [|fuel]; [lia|]); cbn [num_fraction]; rewrite scan_put by auto; rewrite char_put; cbn [last_of l_fraction].
  - change (utf8_is_digit EOF32) with false. reflexivity.
  - destruct (utf8_is_digit d); [|reflexivity]. apply IH; [eapply sfx_cons; eauto|cbn in L |- *; lia].
Qed.

Lemma fraction_sfx r : forall f mult, sfx (snd (l_fraction f mult r)) r.
Proof.
  induction r as [|d r IH]; intros f mult; cbn [l_fraction]; [apply sfx_refl|].
  destruct (utf8_is_digit d); [|apply sfx_refl]. eapply sfx_trans; [apply IH|apply sfx_tail].
Qed.

Lemma power_put b r : forall p fuel, sfx r T -> (List.length r < fuel)%nat ->
  num_power fuel p (put b T r) = do ' (p', r') <- l_power p r; Some (p', put b T r').
Proof.
  induction r as [|c r IH]; intros p fuel H L; (destruct fuel as [|fuel]; [lia|]); cbn [num_power]; rewrite char_put; cbn [last_of l_power].
  - change (utf8_is_digit EOF32) with false. reflexivity.
  - destruct (utf8_is_digit c); [|reflexivity]. destruct (p * 10 + utf8_to_number c <=? LLONG_MAX64); [|reflexivity].
    rewrite scan_put by auto. apply IH; [eapply sfx_cons; eauto|cbn in L; lia].
Qed.

Lemma power_sfx r : forall p p' r', l_power p r = Some (p', r') -> sfx r' r.
Proof.
  induction r as [|c r IH]; intros p p' r' E; cbn [l_power] in E; [inversion E; apply sfx_refl|].
  destruct (utf8_is_digit c); [|inversion E; apply sfx_refl]. destruct (_ <=? _); [|discriminate].
  eapply sfx_trans; [eapply IH; eauto|apply sfx_tail].
Qed.

Lemma sign_sfx n r : sfx (snd (l_sign n r)) r.
Proof.
  unfold l_sign. destruct r as [|c r]; [apply sfx_refl|]. destruct (c =? 45); [apply sfx_tail|].
  destruct (c =? 43); [apply sfx_tail|apply sfx_refl].
Qed.

Lemma starts_last p r : p EOF32 = false -> p (last_of r) = starts p r.
Proof. destruct r; auto. Qed.

Lemma exponent_put e b c r n fuel : sfx (c :: r) T -> (List.length (c :: r) < fuel)%nat ->
  num_exponent fuel e n (put b T (c :: r)) = do ' (w, n', r') <- l_exponent e n r; Some (w, n', put b T r').
Proof.
  intros H L. unfold num_exponent. rewrite scan_put by auto. assert (H1 := sfx_cons _ _ _ H).
  assert (Q: (if l_char (put b T r) =? 45 then (-1, num_to_float n, scan (put b T r))
              else if l_char (put b T r) =? 43 then (1, n, scan (put b T r)) else (1, n, put b T r))
             = let '(s, n', r') := l_sign n r in (s, n', put b T r')).
  { rewrite char_put. unfold l_sign. destruct r as [|d r]; [reflexivity|]. cbn [last_of]. rewrite scan_put by auto.
    destruct (d =? 45); [reflexivity|]. destruct (d =? 43); reflexivity. }
  rewrite Q. clear Q. unfold l_exponent. assert (SS := sign_sfx n r). destruct (l_sign n r) as [[s n'] r']. cbn [snd] in SS.
  rewrite char_put, (starts_last utf8_is_digit) by reflexivity. destruct (negb (starts utf8_is_digit r')); [reflexivity|].
  rewrite power_put by (try (eapply sfx_trans; eauto); apply sfx_len in SS; cbn in L; lia).
  destruct (l_power 0 r') as [[p' r2]|]; reflexivity.
Qed.

Lemma exponent_sfx e n r w n' r' : l_exponent e n r = Some (w, n', r') -> sfx r' r.
Proof.
  unfold l_exponent. assert (SS := sign_sfx n r). destruct (l_sign n r) as [[s n1] r1]. cbn [snd] in SS.
  destruct (negb _); [intros E; inversion E; subst; auto|]. destruct (l_power 0 r1) as [[p r2]|] eqn:P; [|discriminate].
  cbn [bind]. intros E. inversion E; subst. eapply sfx_trans; [eapply power_sfx; eauto|auto].
Qed.

Lemma point_put b m n r fuel : sfx r T -> (List.length r < fuel)%nat ->
  (if (l_char (put b T r) =? 46) && negb m then
     let n := num_to_float n in
     do ' (f, l) <- num_fraction fuel (n_float n) d_tenth (put b T r);
     Some (mkNum (n_int n) f (n_range n) (n_integer n), l)
   else Some (n, put b T r)) = Some (let '(n', r') := l_point m n r in (n', put b T r')).
Proof.
  intros H L. unfold l_point. rewrite char_put, (starts_last (fun c => c =? 46)) by reflexivity.
  destruct r as [|c r]; [reflexivity|]. cbn [starts tl]. destruct ((c =? 46) && negb m); [|reflexivity].
  cbv zeta. rewrite fraction_put by auto. cbn [bind]. destruct (l_fraction _ _ _) as [f r']. reflexivity.
Qed.

Lemma point_sfx m n r : sfx (snd (l_point m n r)) r.
Proof.
  unfold l_point. destruct r as [|c r]; [apply sfx_refl|]. cbn [starts tl]. destruct ((c =? 46) && negb m); [|apply sfx_refl].
  cbv zeta. assert (F := fraction_sfx r (n_float (num_to_float n)) d_tenth). destruct (l_fraction _ _ _) as [f r']. cbn [snd] in *.
  eapply sfx_trans; [eauto|apply sfx_tail].
Qed.

Definition tok_at (r : list Z) (o : lout) : token :=
  let '(k, d, _, r') := o in mkTok (pos_of T r) (pos_of T r') k d.
Definition after (b : base) (o : lout) : lexer := let '(_, _, es, r') := o in put (note b T es) T r'.

Lemma num_token_put b r n r' : num_token (pos_of T r) n (put b T r') = (tok_at r (l_num_token n r'), after b (l_num_token n r')).
Proof.
  unfold num_token, l_num_token. destruct (n_integer n); [cbn [tok_at after]; rewrite note_nil; reflexivity|].
  cbn [tok_at after]. destruct (n_range n); [rewrite note_nil|]; reflexivity.
Qed.

Lemma number_put e b r fuel : sfx r T -> (List.length r < fuel)%nat ->
  lex_numeric_literal fuel e (put b T r) = do o <- l_number e r; Some (tok_at r o, after b o).
Proof.
  intros H L. unfold lex_numeric_literal, l_number. rewrite pos_put, base_put by auto.
  assert (S1 := base_sfx r). destruct (l_base r) as [[base m] r1]. cbn [snd] in S1.
  assert (H1: sfx r1 T) by (eapply sfx_trans; eauto). assert (L1 := sfx_len _ _ S1).
  rewrite digits_put by (auto; lia). cbn [bind]. assert (S2 := digits_sfx base m r1 (mkNum 0 d_zero true true)).
  destruct (l_digits base m (mkNum 0 d_zero true true) r1) as [[w n] r2]. cbn [snd] in S2.
  assert (H2: sfx r2 T) by (eapply sfx_trans; eauto). assert (L2 := sfx_len _ _ S2).
  destruct w.
  - rewrite error_put, skip_hexa_put by (auto; lia). reflexivity.
  - rewrite point_put by (auto; lia). cbn [bind]. assert (S3 := point_sfx m n r2). destruct (l_point m n r2) as [n3 r3]. cbn [snd] in S3.
    assert (H3: sfx r3 T) by (eapply sfx_trans; eauto). assert (L3 := sfx_len _ _ S3).
    rewrite char_put, (starts_last utf8_is_power) by reflexivity.
    destruct (starts utf8_is_power r3 && negb m) eqn:Q; [|cbn [bind]; rewrite num_token_put; reflexivity].
    destruct r3 as [|c r3]; [discriminate|]. cbn [tl]. rewrite exponent_put by (auto; cbn in L3 |- *; lia).
    destruct (l_exponent e n3 r3) as [[[w n4] r4]|] eqn:X; [|reflexivity]. cbn [bind].
    assert (S4 := exponent_sfx _ _ _ _ _ _ X). assert (L4 := sfx_len _ _ S4).
    destruct w.
    + rewrite error_put, skip_exponent_put; [reflexivity| |cbn in L3; lia]. eapply sfx_trans; [exact S4|eapply sfx_cons; eauto].
    + rewrite num_token_put. reflexivity.
Qed.

Lemma number_sfx e r o : l_number e r = Some o -> sfx (snd o) r.
Proof.
  unfold l_number. assert (S1 := base_sfx r). destruct (l_base r) as [[base m] r1]. cbn [snd] in S1.
  assert (S2 := digits_sfx base m r1 (mkNum 0 d_zero true true)).
  destruct (l_digits base m (mkNum 0 d_zero true true) r1) as [[w n] r2]. cbn [snd] in S2.
  assert (S2' := sfx_trans _ _ _ S2 S1).
  destruct w; [intros E; inversion E; subst; cbn [snd]; eapply sfx_trans; [apply sfx_drop|auto]|].
  assert (S3 := point_sfx m n r2). destruct (l_point m n r2) as [n3 r3]. cbn [snd] in S3. assert (S3' := sfx_trans _ _ _ S3 S2').
  assert (NT: forall n x, snd (l_num_token n x) = x) by (intros n0 x; unfold l_num_token; destruct (n_integer n0); reflexivity).
  destruct (starts utf8_is_power r3 && negb m) eqn:Q.
  - destruct r3 as [|c r3]; [discriminate|]. cbn [tl].
    destruct (l_exponent e n3 r3) as [[[w n4] r4]|] eqn:X; [|discriminate]. cbn [bind].
    assert (S4 := exponent_sfx _ _ _ _ _ _ X). assert (S4' := sfx_trans _ _ _ S4 (sfx_trans _ _ _ (sfx_tail c r3) S3')).
    destruct w; intros E; inversion E; subst; cbn [snd]; [|rewrite NT; auto]. eapply sfx_trans; [apply sfx_drop|auto].
  - intros E; inversion E; subst. rewrite NT. auto.
Qed.

(** Characters and strings. *)
Lemma elem_put b c r : sfx (c :: r) T ->
  let '(v, l) := get_next_string_elem (put b T (c :: r)) in
  v = fst (fst (l_elem (c :: r))) /\ scan l = put (note b T (snd (fst (l_elem (c :: r))))) T (snd (l_elem (c :: r))).
Proof.
  intros H. unfold get_next_string_elem, l_elem. rewrite char_put. cbn [last_of]. destruct (c =? 92).
  - rewrite scan_put by auto. rewrite char_put. destruct r as [|d r]; cbn [last_of].
    + change ((EOF32 =? 110) || (EOF32 =? 1085)) with false. change ((EOF32 =? 116) || (EOF32 =? 1090)) with false.
      change (EOF32 =? 48) with false. change ((EOF32 =? 92) || (EOF32 =? 39) || (EOF32 =? 34)) with false.
      split; [reflexivity|]. rewrite error_put, scan_put_nil. reflexivity.
    + unfold escape. assert (H1 := sfx_cons _ _ _ H).
      repeat (match goal with |- context [if ?q then _ else _] => destruct q end;
        [cbn [fst snd]; (split; [reflexivity|]); rewrite note_nil, scan_put by auto; reflexivity|]).
      cbn [fst snd]. split; [reflexivity|]. rewrite error_put, scan_put by auto. reflexivity.
  - cbn [fst snd]. split; [reflexivity|]. rewrite note_nil, scan_put by auto. reflexivity.
Qed.

Lemma elem_sfx r : sfx (snd (l_elem r)) r.
Proof.
  unfold l_elem. destruct r as [|c r]; [apply sfx_refl|]. destruct (c =? 92); [|apply sfx_tail].
  destruct r as [|d r]; cbn [snd]; [apply sfx_nil|]. exists [c; d]. reflexivity.
Qed.

Lemma char_lit_put b c r : sfx (c :: r) T ->
  lex_char_literal (put b T (c :: r)) = (tok_at (c :: r) (l_char_literal (c :: r)), after b (l_char_literal (c :: r))).
Proof.
  intros H. unfold lex_char_literal, l_char_literal. rewrite pos_put, scan_put by auto. cbn [tl]. assert (H1 := sfx_cons _ _ _ H).
  rewrite char_put, (starts_last (fun c => c =? 39)) by reflexivity.
  destruct r as [|d r].
  - cbn [starts]. unfold get_next_string_elem. rewrite char_put. cbn [last_of]. change (EOF32 =? 92) with false. cbv iota.
    rewrite scan_put_nil, char_put. cbn [last_of l_elem]. change (EOF32 =? 39) with false. cbn [starts app]. rewrite error_put. reflexivity.
  - cbn [starts tl]. destruct (d =? 39).
    + rewrite error_put, scan_put by auto. reflexivity.
    + assert (E := elem_put b d r H1). destruct (get_next_string_elem (put b T (d :: r))) as [v l]. destruct E as (-> & E). rewrite E.
      assert (S1 := elem_sfx (d :: r)). destruct (l_elem (d :: r)) as [[v es] r']. cbn [fst snd] in *.
      rewrite char_put, (starts_last (fun c => c =? 39)) by reflexivity.
      destruct (starts (fun c => c =? 39) r') eqn:Q.
      * rewrite scan_tl by (eapply sfx_trans; eauto). reflexivity.
      * rewrite error_put, note_app. reflexivity.
Qed.

Lemma char_lit_sfx c r : sfx (snd (l_char_literal (c :: r))) r.
Proof.
  unfold l_char_literal. cbn [tl]. destruct (starts _ r) eqn:Q.
  - destruct r; [discriminate|]. apply sfx_tail.
  - assert (S1 := elem_sfx r). destruct (l_elem r) as [[v es] r']. cbn [fst snd] in *. destruct (starts _ r') eqn:Q'.
    + destruct r'; [discriminate|]. cbn [snd tl]. eapply sfx_trans; [apply sfx_tail|eauto].
    + exact S1.
Qed.

Lemma piece_eof fuel : forall b acc, string_piece fuel acc (put b T []) = None.
Proof.
  induction fuel as [|fuel IH]; intros b acc; cbn [string_piece]; rewrite char_put; cbn [last_of]; change (negb (EOF32 =? 34) && negb (EOF32 =? 10)) with true; cbv iota; [reflexivity|].
  unfold get_next_string_elem. rewrite char_put. cbn [last_of]. change (EOF32 =? 92) with false. cbv iota. rewrite scan_put_nil. apply IH.
Qed.

Lemma piece_put : forall n r fuel b acc, (List.length r <= n)%nat -> sfx r T -> (List.length r < fuel)%nat \/ l_piece r = None ->
  string_piece fuel acc (put b T r) = do ' (s, es, r') <- l_piece r; Some (acc ++ s, put (note b T es) T r').
Proof.
  induction n as [|n IH]; intros r fuel b acc Ln H L.
  - destruct r; [|cbn in Ln; lia]. apply piece_eof.
  - destruct r as [|c r]; [apply piece_eof|].
    destruct fuel as [|fuel].
    { destruct L as [L|L]; [lia|]. rewrite L. cbn [l_piece] in L. cbn [string_piece]. rewrite char_put. cbn [last_of].
      destruct (negb (c =? 34) && negb (c =? 10)); [reflexivity|discriminate]. }
    cbn [string_piece]. rewrite char_put. cbn [last_of l_piece] in *.
    destruct (negb (c =? 34) && negb (c =? 10)); [|cbn [bind]; rewrite note_nil, app_nil_r; reflexivity].
    assert (E := elem_put b c r H). destruct (get_next_string_elem (put b T (c :: r))) as [v l]. destruct E as (-> & E). rewrite E. clear E.
    unfold l_elem. assert (H1 := sfx_cons _ _ _ H).
    destruct (c =? 92).
    + destruct r as [|d r]; cbn [fst snd]; [apply piece_eof|].
      rewrite IH; [| cbn in Ln; lia | eapply sfx_cons; eauto |
         destruct L as [L|L]; [left; cbn in L; lia|right; destruct (l_piece r) as [[[? ?] ?]|]; [discriminate|reflexivity]]].
      destruct (l_piece r) as [[[s es] r']|]; [|reflexivity]. cbn [bind]. rewrite note_app, <- app_assoc. reflexivity.
    + cbn [fst snd]. rewrite note_nil. rewrite IH; [| cbn in Ln; lia | auto |
         destruct L as [L|L]; [left; cbn in L; lia|right; destruct (l_piece r) as [[[? ?] ?]|]; [discriminate|reflexivity]]].
      destruct (l_piece r) as [[[s es] r']|]; [|reflexivity]. cbn [bind]. rewrite <- app_assoc. reflexivity.
Qed.

Lemma piece_sfx : forall n r s es r', (List.length r <= n)%nat -> l_piece r = Some (s, es, r') ->
  sfx r' r /\ exists c x, r' = c :: x /\ (c = 34 \/ c = 10).
Proof.
  induction n as [|n IH]; intros r s es r' Ln E.
  - destruct r; [discriminate|cbn in Ln; lia].
  - destruct r as [|c r]; [discriminate|]. cbn [l_piece] in E. destruct (negb (c =? 34) && negb (c =? 10)) eqn:Q.
    + destruct (c =? 92).
      * destruct r as [|d r]; [discriminate|]. destruct (l_piece r) as [[[s1 es1] r1]|] eqn:P; [|discriminate].
        cbn [bind] in E. inversion E; subst. assert (Ln': (List.length r <= n)%nat) by (cbn in Ln; lia). destruct (IH _ _ _ _ Ln' P) as (A & B). split; auto.
        eapply sfx_trans; [eauto|]. exists [c; d]. reflexivity.
      * destruct (l_piece r) as [[[s1 es1] r1]|] eqn:P; [|discriminate].
        cbn [bind] in E. inversion E; subst. assert (Ln': (List.length r <= n)%nat) by (cbn in Ln; lia). destruct (IH _ _ _ _ Ln' P) as (A & B). split; auto.
        eapply sfx_trans; [eauto|apply sfx_tail].
    + inversion E; subst. split; [apply sfx_refl|]. exists c, r. split; auto. lia.
Qed.

Lemma piece_len r s es r' : l_piece r = Some (s, es, r') -> (List.length r' <= List.length r)%nat.
Proof. intros E. apply sfx_len. eapply piece_sfx; eauto. Qed.

Lemma piece_mono f : forall acc l a l', string_piece f acc l = Some (a, l') -> string_piece (S f) acc l = Some (a, l').
Proof.
  induction f as [|f IH]; intros acc l a l' E; cbn [string_piece] in E |- *.
  - destruct (negb (l_char l =? 34) && negb (l_char l =? 10)); [discriminate|exact E].
  - destruct (negb (l_char l =? 34) && negb (l_char l =? 10)); [|exact E].
    destruct (get_next_string_elem l) as [v l1]. apply IH. exact E.
Qed.

Lemma ws_mono f : forall l l', skip_whitespace f l = Some l' -> skip_whitespace (S f) l = Some l'.
Proof.
  induction f as [|f IH]; intros l l' E; cbn [skip_whitespace] in E |- *.
  - destruct (is_blank (l_char l)); [discriminate|exact E].
  - destruct (is_blank (l_char l)); [|exact E]. apply IH. exact E.
Qed.

Lemma pieces_mono f : forall acc l a l', string_pieces f acc l = Some (a, l') -> string_pieces (S f) acc l = Some (a, l').
Proof.
  induction f as [|f IH]; intros acc l a l' E.
  - cbn [string_pieces] in E |- *. destruct (l_char l =? 34); [discriminate|exact E].
  - set (f1 := S f) in *. cbn [string_pieces]. unfold f1 in E. cbn [string_pieces] in E. destruct (l_char l =? 34); [|exact E].
    fold f1 in E. destruct (string_piece f1 acc (scan l)) as [[a1 l1]|] eqn:P; [|discriminate].
    rewrite (piece_mono _ _ _ _ _ P). cbn [bind] in E |- *.
    destruct (skip_whitespace f1 _) as [l2|] eqn:W; [|discriminate]. rewrite (ws_mono _ _ _ W). cbn [bind] in E |- *.
    apply IH. exact E.
Qed.

Lemma l_pieces_S n r : l_pieces (S n) r =
  if starts (fun c => c =? 34) r then
    do ' (s, es, r) <- l_piece (tl r);
    let '(es', r) := if starts (fun c => c =? 34) r then ([], tl r) else ([(missing_terminating_quote_char, r)], r) in
    do ' (s2, es2, r) <- l_pieces n (l_blanks r);
    Some (s ++ s2, es ++ es' ++ es2, r)
  else Some ([], [], r).
Proof. reflexivity. Qed.

Lemma pieces_put_enough : forall n r fuel b acc, (List.length r <= n)%nat -> sfx r T -> (List.length r < fuel)%nat ->
  string_pieces fuel acc (put b T r) = do ' (s, es, r') <- l_pieces (S n) r; Some (acc ++ s, put (note b T es) T r').
Proof.
  induction n as [|n IH]; intros r fuel b acc Ln H L.
  - destruct r; [|cbn in Ln; lia]. cbn [l_pieces starts bind]. rewrite note_nil, app_nil_r. destruct fuel; reflexivity.
  - rewrite l_pieces_S. destruct r as [|c r].
    { cbn [starts bind]. rewrite note_nil, app_nil_r. destruct fuel; reflexivity. }
    cbn [starts tl]. destruct (c =? 34) eqn:Q; [|cbn [bind]; rewrite note_nil, app_nil_r; destruct fuel; cbn [string_pieces]; rewrite char_put; cbn [last_of]; rewrite Q; reflexivity].
    destruct fuel as [|fuel]; [lia|].
    cbn [string_pieces]. rewrite char_put. cbn [last_of]. rewrite Q. rewrite scan_put by auto. assert (H1 := sfx_cons _ _ _ H).
    cbn in L, Ln. rewrite (piece_put (List.length r)) by (auto; left; lia).
    destruct (l_piece r) as [[[s es] r1]|] eqn:P; [|reflexivity].
    cbn [bind]. destruct (piece_sfx _ _ _ _ _ (le_n _) P) as (S1 & d & x & -> & D).
    assert (L1 := sfx_len _ _ S1). assert (HX := sfx_trans _ _ _ S1 H1). cbn [starts tl].
    rewrite char_put. cbn [last_of].
    assert (SB := sfx_drop is_blank x). assert (LB := sfx_len _ _ SB). cbn in L1. destruct (d =? 34) eqn:D34.
    + rewrite scan_put by auto.
      rewrite skip_ws_put by (try (eapply sfx_cons; eauto); lia). cbn [bind].
      rewrite IH; [ | unfold l_blanks; lia | eapply sfx_trans; [exact SB|eapply sfx_cons; eauto] | unfold l_blanks; lia].
      destruct (l_pieces (S n) (l_blanks x)) as [[[s2 es2] r2]|]; [|reflexivity]. cbn [bind app]. rewrite note_app, <- app_assoc. reflexivity.
    + rewrite error_put. assert (BL: is_blank d = true) by (unfold is_blank; lia).
      rewrite skip_ws_put by (auto; cbn; lia). cbn [bind]. assert (EB: l_blanks (d :: x) = l_blanks x) by (cbn [l_blanks drop_while]; rewrite BL; reflexivity).
      rewrite EB.
      rewrite IH; [ | unfold l_blanks; lia | eapply sfx_trans; [exact SB|eapply sfx_cons; eauto] | unfold l_blanks; lia].
      destruct (l_pieces (S n) (l_blanks x)) as [[[s2 es2] r2]|]; [|reflexivity]. cbn [bind]. rewrite !note_app, <- !app_assoc. reflexivity.
Qed.

Lemma pieces_hang n r fuel b acc : (List.length r <= n)%nat -> sfx r T -> l_pieces (S n) r = None ->
  string_pieces fuel acc (put b T r) = None.
Proof.
  intros Ln H E. destruct (string_pieces fuel acc (put b T r)) as [[a l]|] eqn:P; auto. exfalso.
  assert (M: forall k, string_pieces (k + fuel) acc (put b T r) = Some (a, l)).
  { induction k as [|k IHk]; cbn [Nat.add]; auto. apply pieces_mono. exact IHk. }
  specialize (M (S n)). rewrite (pieces_put_enough n) in M by (auto; lia). rewrite E in M. discriminate.
Qed.

Lemma pieces_sfx : forall n r s es r', l_pieces n r = Some (s, es, r') -> sfx r' r.
Proof.
  induction n as [|n IH]; intros r s es r' E; [discriminate|]. rewrite l_pieces_S in E.
  destruct (starts _ r) eqn:Q; [|inversion E; apply sfx_refl]. destruct r as [|c r]; [discriminate|]. cbn [tl] in E.
  destruct (l_piece r) as [[[s1 es1] r1]|] eqn:P; [|discriminate]. cbn [bind] in E.
  destruct (piece_sfx _ _ _ _ _ (le_n _) P) as (S1 & d & x & -> & D). cbn [starts tl] in E.
  assert (X: sfx x (c :: r)) by (eapply sfx_trans; [apply (sfx_tail d)|eapply sfx_trans; [exact S1|apply sfx_tail]]).
  assert (X': sfx (d :: x) (c :: r)) by (eapply sfx_trans; [exact S1|apply sfx_tail]).
  destruct (d =? 34); cbn [fst snd] in E.
  - destruct (l_pieces n (l_blanks x)) as [[[s2 es2] r2]|] eqn:R; [|discriminate]. cbn [bind] in E. inversion E; subst.
    eapply sfx_trans; [eapply IH; eauto|]. eapply sfx_trans; [apply sfx_drop|exact X].
  - destruct (l_pieces n (l_blanks (d :: x))) as [[[s2 es2] r2]|] eqn:R; [|discriminate]. cbn [bind] in E. inversion E; subst.
    eapply sfx_trans; [eapply IH; eauto|]. eapply sfx_trans; [apply sfx_drop|exact X'].
Qed.

End Text.

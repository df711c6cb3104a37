(** One round of [lex] on a text. *)
From Verif Require Import Prelude Utf8Model Utf8Spec Utf8Proofs UniioModel UniioSpec UniioProofs MapModel LexModel LexText LexProofs.
From Coq Require Import SpecFloat.

Definition close (loc : Z) (r : lround) : lround :=
  match r with LPunct k l => LToken (token_punctuator loc (l_pos l) k) l | x => x end.

Ltac closed_num k := match k with Z0 => idtac | Zpos _ => idtac | Zneg _ => idtac end.
Ltac crunch :=
  repeat match goal with
  | |- context [utf8_is_digit ?k] => closed_num k; let v := eval vm_compute in (utf8_is_digit k) in change (utf8_is_digit k) with v
  | |- context [utf8_is_letter ?k] => closed_num k; let v := eval vm_compute in (utf8_is_letter k) in change (utf8_is_letter k) with v
  | |- context [?a =? ?b] => closed_num a; closed_num b; let v := eval vm_compute in (a =? b) in change (a =? b) with v
  end; cbn [negb andb orb]; cbv iota.

Section Step.
Variable T : list Z.
Hypothesis HT : Forall code_point T.
Variable e : lenv.

Definition word_round (fuel : nat) (b : base) (r : list Z) : option lround :=
  do ' (t, l) <- lex_identifier_or_keyword e (put b T r);
  if t_kind t =? TK_LINE then do l <- skip_line_comment fuel l; Some (LAgain l) else Some (LToken t l).

Definition l_round (fuel : nat) (b : base) (r : list Z) : option lround :=
  match l_switch e r with
  | OEof => Some (LToken token_eof (put b T r))
  | OTok o => Some (LToken (tok_at T r o) (after T b o))
  | OStr s es r' =>
      Some (LToken (token_string_literal (pos_of T r) (pos_of T r') (zlen (b_strs b)))
                   (put (mkBase (b_map b) (b_strs b ++ [s]) (b_errs (note b T es))) T r'))
  | OWord _ _ => word_round fuel b r
  | OSkip es r' => Some (LAgain (put (note b T es) T r'))
  | OHang => None
  end.

Lemma number_round fuel b r x : sfx r T -> (List.length r < fuel)%nat ->
  x = l_number e r ->
  option_map (close (pos_of T r)) (do ' (t, l) <- lex_numeric_literal fuel e (put b T r); Some (LToken t l))
  = match x with Some o => Some (LToken (tok_at T r o) (after T b o)) | None => None end.
Proof.
  intros H L ->. rewrite (number_put T HT) by auto. destruct (l_number e r); reflexivity.
Qed.

Lemma string_round fuel b c r : sfx (c :: r) T -> (List.length (c :: r) < fuel)%nat -> 
  option_map (close (pos_of T (c :: r))) (do ' (t, l) <- lex_string_literal fuel (put b T (c :: r)); Some (LToken t l))
  = match l_pieces (S (List.length (c :: r))) (c :: r) with
    | Some (s, es, r') =>
      Some (LToken (token_string_literal (pos_of T (c :: r)) (pos_of T r') (zlen (b_strs b)))
                   (put (mkBase (b_map b) (b_strs b ++ [s]) (b_errs (note b T es))) T r'))
    | None => None
    end.
Proof.
  intros H L. unfold lex_string_literal. rewrite (pieces_put_enough T HT (List.length (c :: r))) by auto.
  destruct (l_pieces _ _) as [[[s es] r']|]; reflexivity.
Qed.

Lemma punct_one fuel b c r k : sfx (c :: r) T -> 
  l_switch e (c :: r) = OTok (k, DNone, [], r) ->
  option_map (close (pos_of T (c :: r))) (Some (LPunct k (scan (put b T (c :: r))))) = l_round fuel b (c :: r).
Proof.
  intros H E. unfold l_round. rewrite E. rewrite (scan_put T HT) by auto. cbn [option_map close tok_at after].
  rewrite note_nil. reflexivity.
Qed.

Ltac tokens := unfold l_round; cbn [option_map close tok_at after]; rewrite ?note_nil; reflexivity.

Lemma last_eqb k r : (k =? EOF32) = false -> (last_of r =? k) = starts (fun c => c =? k) r.
Proof. intros H. destruct r; cbn [last_of starts]; [lia|reflexivity]. Qed.

Lemma equal_round fuel b c r eq no : sfx (c :: r) T ->
  l_switch e (c :: r) = (if starts (fun x => x =? 61) r then OTok (eq, DNone, [], tl r) else OTok (no, DNone, [], r)) ->
  option_map (close (pos_of T (c :: r))) (with_equal (put b T (c :: r)) eq no) = l_round fuel b (c :: r).
Proof.
  intros H E. unfold l_round. rewrite E. unfold with_equal. rewrite (scan_put T HT) by auto. assert (H1 := sfx_cons _ _ _ H).
  rewrite char_put, last_eqb by reflexivity. rewrite (scan_tl T HT) by auto.
  destruct (starts _ r); tokens.
Qed.

Lemma equal_or_round fuel b c r x eq twice no : sfx (c :: r) T -> (x =? EOF32) = false ->
  l_switch e (c :: r) = (if starts (fun x => x =? 61) r then OTok (eq, DNone, [], tl r)
     else if starts (fun y => y =? x) r then OTok (twice, DNone, [], tl r) else OTok (no, DNone, [], r)) ->
  option_map (close (pos_of T (c :: r))) (with_equal_or (put b T (c :: r)) x eq twice no) = l_round fuel b (c :: r).
Proof.
  intros H X E. unfold l_round. rewrite E. unfold with_equal_or. rewrite (scan_put T HT) by auto. assert (H1 := sfx_cons _ _ _ H).
  rewrite char_put, !last_eqb by (auto; reflexivity). rewrite (scan_tl T HT) by auto.
  destruct (starts _ r); [tokens|]. destruct (starts _ r); tokens.
Qed.

Lemma shift_round fuel b c r x t3 t2 eq no : sfx (c :: r) T -> (x =? EOF32) = false ->
  l_switch e (c :: r) = (if starts (fun y => y =? x) r then
        if starts (fun x => x =? 61) (tl r) then OTok (t3, DNone, [], tl (tl r)) else OTok (t2, DNone, [], tl r)
     else if starts (fun x => x =? 61) r then OTok (eq, DNone, [], tl r) else OTok (no, DNone, [], r)) ->
  option_map (close (pos_of T (c :: r))) (with_shift (put b T (c :: r)) x t3 t2 eq no) = l_round fuel b (c :: r).
Proof.
  intros H X E. unfold l_round. rewrite E. unfold with_shift. rewrite (scan_put T HT) by auto. assert (H1 := sfx_cons _ _ _ H).
  rewrite char_put, !last_eqb by (auto; reflexivity). rewrite (scan_tl T HT) by auto.
  assert (H2: sfx (tl r) T) by (destruct r; [auto|eapply sfx_cons; eauto]).
  destruct (starts (fun y => y =? x) r).
  - rewrite char_put, last_eqb by reflexivity. rewrite (scan_tl T HT) by auto. destruct (starts _ (tl r)); tokens.
  - destruct (starts _ r); tokens.
Qed.

Ltac table := unfold l_switch, l_punct, punctuators; cbn [find is_prefix fst snd]; crunch.

Lemma round_put fuel b r : sfx r T -> (List.length r < fuel)%nat ->
  option_map (close (pos_of T r)) (lex_switch fuel e (put b T r)) = l_round fuel b r.
Proof.
  intros H L. destruct r as [|c r]; [reflexivity|].
  unfold lex_switch. rewrite char_put. cbn [last_of]. cbv zeta. rewrite (code_not_EOF c) by (eapply head_code; eauto).
  assert (H1 := sfx_cons _ _ _ H).
  destruct (utf8_is_digit c) eqn:DG.
  { rewrite (number_round fuel b (c :: r) _ H L eq_refl). unfold l_round, l_switch. rewrite DG. cbn [orb]. destruct (l_number e (c :: r)); reflexivity. }
  destruct (c =? 39) eqn:C39.
  { apply Z.eqb_eq in C39. subst c. rewrite (char_lit_put T HT) by auto. reflexivity. }
  destruct (c =? 34) eqn:C34.
  { apply Z.eqb_eq in C34. subst c. rewrite string_round by auto. unfold l_round, l_switch. crunch.
    destruct (l_pieces _ _) as [[[s es] r']|]; reflexivity. }
  repeat (match goal with |- context [if c =? ?k then Some (LPunct ?t _) else _] =>
    let Q := fresh "Q" in destruct (c =? k) eqn:Q; [apply Z.eqb_eq in Q; subst c; apply punct_one; [exact H|table; reflexivity]|] end).
  destruct (c =? 46) eqn:C46.
  { apply Z.eqb_eq in C46. subst c. rewrite (lookahead_put T HT) by auto. rewrite (starts_last utf8_is_digit) by reflexivity.
    destruct (starts utf8_is_digit r) eqn:SD.
    - rewrite (number_round fuel b (46 :: r) _ H L eq_refl). unfold l_round, l_switch. crunch. rewrite SD. crunch. destruct (l_number e (46 :: r)); reflexivity.
    - apply punct_one; [exact H|]. unfold l_switch. crunch. rewrite SD. table. reflexivity. }
  repeat (match goal with |- context [if c =? ?k then with_equal _ _ _ else _] =>
    let Q := fresh "Q" in destruct (c =? k) eqn:Q; [apply Z.eqb_eq in Q; subst c; apply equal_round; [exact H|destruct r as [|d r]; cbn [starts tl]; table; [reflexivity|destruct (d =? 61); reflexivity]]|] end).
  repeat (match goal with |- context [if c =? ?k then with_equal_or _ _ _ _ _ else _] =>
    let Q := fresh "Q" in destruct (c =? k) eqn:Q; [apply Z.eqb_eq in Q; subst c; apply equal_or_round; [exact H|reflexivity|
      destruct r as [|d r]; cbn [starts tl]; table; [reflexivity|destruct (d =? 61); [reflexivity|]; crunch; destruct (d =? k); reflexivity]]|] end).
  destruct (c =? 45) eqn:C45.
  { apply Z.eqb_eq in C45. subst c. rewrite (scan_put T HT) by auto. rewrite char_put, !last_eqb by reflexivity. rewrite (scan_tl T HT) by auto.
    unfold l_round. destruct r as [|d r]; cbn [starts tl]; table; [tokens|].
    destruct (d =? 61) eqn:D1; [apply Z.eqb_eq in D1; subst d; crunch; tokens|].
    destruct (d =? 45) eqn:D2; [apply Z.eqb_eq in D2; subst d; crunch; tokens|].
    destruct (d =? 62) eqn:D3; crunch; tokens. }
  repeat (match goal with |- context [if c =? ?k then with_shift _ _ _ _ _ _ else _] =>
    let Q := fresh "Q" in destruct (c =? k) eqn:Q; [apply Z.eqb_eq in Q; subst c; apply shift_round; [exact H|reflexivity|
      destruct r as [|d r]; cbn [starts tl]; table; [reflexivity|
        destruct (d =? k) eqn:D1; [apply Z.eqb_eq in D1; subst d; crunch; destruct r as [|f r]; crunch; [reflexivity|cbn [starts tl]; destruct (f =? 61); reflexivity]|];
        crunch; destruct (d =? 61); reflexivity]]|] end).
  destruct (c =? 47) eqn:C47.
  { apply Z.eqb_eq in C47. subst c. rewrite (scan_put T HT) by auto. rewrite char_put, !last_eqb by reflexivity. rewrite (scan_tl T HT) by auto.
    unfold l_round. destruct r as [|d r]; cbn [starts tl]; table; [tokens|].
    destruct (d =? 61) eqn:D1; [apply Z.eqb_eq in D1; subst d; crunch; tokens|].
    destruct (d =? 47) eqn:D2; [apply Z.eqb_eq in D2; subst d; crunch|].
    - rewrite (skip_line_put T HT) by (auto; cbn in L |- *; lia). cbn [bind option_map close]. rewrite note_nil. reflexivity.
    - destruct (d =? 42) eqn:D3; [apply Z.eqb_eq in D3; subst d; crunch|crunch; tokens].
      rewrite (skip_block_put T HT _ (List.length (42 :: r))) by (auto; cbn in L |- *; lia). cbn [bind option_map close].
      destruct (l_block (42 :: r)) as [ok r']. reflexivity. }
  assert (LP: l_punct (c :: r) = None).
  { unfold l_punct, punctuators. cbn [find is_prefix fst].
    repeat match goal with Q : (c =? ?k) = false |- _ => rewrite Q; clear Q end. reflexivity. }
  unfold l_round, l_switch. rewrite DG, C46, C39, C34, LP. cbn [is_prefix orb andb]. rewrite C47. cbn [andb].
  destruct (utf8_is_letter c || (c =? 35)).
  - unfold word_round. destruct (lex_identifier_or_keyword e (put b T (c :: r))) as [[t l]|]; [|reflexivity]. cbn [bind].
    destruct (t_kind t =? TK_LINE); [|reflexivity]. destruct (skip_line_comment fuel l); reflexivity.
  - rewrite error_put, (scan_put T HT) by auto. reflexivity.
Qed.

(** What follows a round. *)
Definition rest_of (s : lstep) : list Z :=
  match s with OEof => [] | OTok o => snd o | OStr _ _ r => r | OWord _ r => r | OSkip _ r => r | OHang => [] end.

Lemma punct_sfx c r k r' : l_punct (c :: r) = Some (k, r') -> sfx r' r.
Proof.
  unfold l_punct. destruct (find _ punctuators) as [[p k']|] eqn:F; [|discriminate]. intros E. inversion E; subst. clear E.
  apply find_some in F. destruct F as (I & P). cbn [fst] in P.
  assert (NE: p <> []). { intros ->. revert I. unfold punctuators. cbn [In]. intros I. repeat (destruct I as [I|I]; [discriminate|]). exact I. }
  destruct p as [|x p]; [congruence|]. cbn [List.length skipn]. exists (firstn (List.length p) r). rewrite firstn_skipn. reflexivity.
Qed.

Lemma block_sfx : forall n r, (List.length r <= n)%nat -> sfx (snd (l_block r)) r.
Proof.
  induction n as [|n IH]; intros r L; [destruct r; [apply sfx_refl|cbn in L; lia]|].
  destruct r as [|c r]; [apply sfx_refl|]. cbn [l_block]. cbn in L. destruct (c =? 42).
  - destruct r as [|d r]; [apply sfx_nil|]. cbn in L. destruct (d =? 47); [exists [c; d]; reflexivity|].
    eapply sfx_trans; [apply IH; lia|]. exists [c; d]. reflexivity.
  - eapply sfx_trans; [apply IH; lia|apply sfx_tail].
Qed.

Lemma digits_len base m r : forall n w n' r', l_digits base m n r = (w, n', r') -> starts utf8_is_digit r = true ->
  base >= 10 \/ m = false ->
  (w = true /\ r' = r) \/ (List.length r' < List.length r)%nat.
Proof.
  intros n w n' r' E S1 B. destruct r as [|c r]; [discriminate|]. cbn [starts] in S1. cbn [l_digits] in E.
  assert (HX: utf8_is_hexa_digit c = true) by (unfold utf8_is_hexa_digit; rewrite S1; reflexivity). rewrite HX in E.
  assert (PW: utf8_is_power c = false) by (unfold utf8_is_power, utf8_is_digit in *; lia). rewrite PW, andb_false_r in E.
  destruct (utf8_to_number c >=? base) eqn:Q; [inversion E; subst; left; auto|]. right.
  assert (SS := digits_sfx base m r (num_digit base n (utf8_to_number c))). rewrite E in SS. apply sfx_len in SS. cbn in SS |- *. lia.
Qed.

Lemma number_len c r o : utf8_is_digit c || ((c =? 46) && starts utf8_is_digit r) = true -> l_number e (c :: r) = Some o -> sfx (snd o) r.
Proof.
  intros Q E. unfold l_number in E.
  destruct (c =? 48) eqn:C48.
  - (* leading zero *)
    assert (SB: sfx (snd (l_base (c :: r))) r).
    { unfold l_base. rewrite C48. destruct r as [|x r]; [apply sfx_refl|].
      repeat (match goal with |- context [if ?q then _ else _] => destruct q end; [apply sfx_tail|]). apply sfx_refl. }
    destruct (l_base (c :: r)) as [[base m] r1]. cbn [snd] in SB.
    eapply sfx_trans; [|exact SB]. 
    assert (S2 := digits_sfx base m r1 (mkNum 0 d_zero true true)).
    destruct (l_digits base m (mkNum 0 d_zero true true) r1) as [[w n] r2]. cbn [snd] in S2.
    eapply sfx_trans; [|exact S2].
    destruct w; [inversion E; subst; cbn [snd]; apply sfx_drop|].
    assert (S3 := point_sfx m n r2). destruct (l_point m n r2) as [n3 r3]. cbn [snd] in S3.
    eapply sfx_trans; [|exact S3].
    assert (NT: forall n x, snd (l_num_token n x) = x) by (intros n0 x; unfold l_num_token; destruct (n_integer n0); reflexivity).
    destruct (starts utf8_is_power r3 && negb m) eqn:P.
    + destruct r3 as [|d r3]; [discriminate|]. cbn [tl] in E.
      destruct (l_exponent e n3 r3) as [[[w n4] r4]|] eqn:X; [|discriminate]. cbn [bind] in E.
      assert (S4 := exponent_sfx _ _ _ _ _ _ X). assert (S4' := sfx_trans _ _ _ S4 (sfx_tail d r3)).
      destruct w; inversion E; subst; cbn [snd]; [|rewrite NT; auto]. eapply sfx_trans; [apply sfx_drop|auto].
    + inversion E; subst. rewrite NT. apply sfx_refl.
  - assert (LB: l_base (c :: r) = (10, false, c :: r)) by (unfold l_base; rewrite C48; reflexivity). rewrite LB in E.
    destruct (utf8_is_digit c) eqn:DG.
    + cbn [l_digits] in E.
      assert (HX: utf8_is_hexa_digit c = true) by (unfold utf8_is_hexa_digit; rewrite DG; reflexivity). rewrite HX in E.
      assert (PW: utf8_is_power c = false) by (unfold utf8_is_power, utf8_is_digit in *; lia). rewrite PW in E. cbn [negb andb] in E.
      assert (ND: utf8_to_number c >=? 10 = false) by (unfold utf8_to_number; rewrite DG; unfold utf8_is_digit in DG; lia). rewrite ND in E.
      assert (S2 := digits_sfx 10 false r (num_digit 10 (mkNum 0 d_zero true true) (utf8_to_number c))).
      destruct (l_digits 10 false _ r) as [[w n] r2]. cbn [snd] in S2. eapply sfx_trans; [|exact S2].
      destruct w; [inversion E; subst; cbn [snd]; apply sfx_drop|].
      assert (S3 := point_sfx false n r2). destruct (l_point false n r2) as [n3 r3]. cbn [snd] in S3.
      eapply sfx_trans; [|exact S3].
      assert (NT: forall n x, snd (l_num_token n x) = x) by (intros n0 x; unfold l_num_token; destruct (n_integer n0); reflexivity).
      destruct (starts utf8_is_power r3 && true) eqn:P.
      * destruct r3 as [|d r3]; [discriminate|]. cbn [tl] in E.
        destruct (l_exponent e n3 r3) as [[[w n4] r4]|] eqn:X; [|discriminate]. cbn [bind] in E.
        assert (S4 := exponent_sfx _ _ _ _ _ _ X). assert (S4' := sfx_trans _ _ _ S4 (sfx_tail d r3)).
        destruct w; inversion E; subst; cbn [snd]; [|rewrite NT; auto]. eapply sfx_trans; [apply sfx_drop|auto].
      * inversion E; subst. rewrite NT. apply sfx_refl.
    + cbn [orb] in Q. apply andb_prop in Q. destruct Q as (Q1 & Q2). apply Z.eqb_eq in Q1. subst c.
      cbn [l_digits] in E. change (utf8_is_hexa_digit 46) with false in E. cbv iota in E.
      unfold l_point in E. cbn [starts tl] in E. change (46 =? 46) with true in E. cbn [andb negb] in E. cbv zeta in E.
      assert (S3 := fraction_sfx r (n_float (num_to_float (mkNum 0 d_zero true true))) d_tenth).
      destruct (l_fraction _ _ r) as [f r3]. cbn [snd] in S3. eapply sfx_trans; [|exact S3].
      assert (NT: forall n x, snd (l_num_token n x) = x) by (intros n0 x; unfold l_num_token; destruct (n_integer n0); reflexivity).
      destruct (starts utf8_is_power r3 && true) eqn:P.
      * destruct r3 as [|d r3]; [discriminate|]. cbn [tl] in E.
        destruct (l_exponent e _ r3) as [[[w n4] r4]|] eqn:X; [|discriminate]. cbn [bind] in E.
        assert (S4 := exponent_sfx _ _ _ _ _ _ X). assert (S4' := sfx_trans _ _ _ S4 (sfx_tail d r3)).
        destruct w; inversion E; subst; cbn [snd]; [|rewrite NT; auto]. eapply sfx_trans; [apply sfx_drop|auto].
      * inversion E; subst. rewrite NT. apply sfx_refl.
Qed.

Lemma l_pieces_len n c r s es r' : (c =? 34) = true -> l_pieces n (c :: r) = Some (s, es, r') -> sfx r' r.
Proof.
  intros C E. destruct n as [|n]; [discriminate|]. rewrite l_pieces_S in E. cbn [starts tl] in E. rewrite C in E.
  destruct (l_piece r) as [[[s1 es1] r1]|] eqn:P; [|discriminate]. cbn [bind] in E.
  destruct (piece_sfx _ _ _ _ _ (le_n _) P) as (S1 & d & x & -> & D). cbn [starts tl] in E.
  assert (X: sfx x r) by (eapply sfx_trans; [apply (sfx_tail d)|exact S1]).
  destruct (d =? 34); cbn [fst snd] in E.
  - destruct (l_pieces n (l_blanks x)) as [[[s2 es2] r2]|] eqn:R; [|discriminate]. cbn [bind] in E. inversion E; subst.
    eapply sfx_trans; [eapply pieces_sfx; eauto|]. eapply sfx_trans; [apply sfx_drop|exact X].
  - destruct (l_pieces n (l_blanks (d :: x))) as [[[s2 es2] r2]|] eqn:R; [|discriminate]. cbn [bind] in E. inversion E; subst.
    eapply sfx_trans; [eapply pieces_sfx; eauto|]. eapply sfx_trans; [apply sfx_drop|exact S1].
Qed.

(** Every round moves past the first symbol. *)
Lemma switch_moves c r : sfx (rest_of (l_switch e (c :: r))) r.
Proof.
  unfold l_switch. destruct (utf8_is_digit c || ((c =? 46) && starts utf8_is_digit r)) eqn:Q.
  { destruct (l_number e (c :: r)) as [o|] eqn:N; [|apply sfx_nil]. cbn [rest_of]. eapply number_len; eauto. }
  destruct (c =? 39); [cbn [rest_of]; apply char_lit_sfx|].
  destruct (c =? 34) eqn:C34.
  { destruct (l_pieces _ _) as [[[s es] r']|] eqn:P; [|apply sfx_nil]. cbn [rest_of]. eapply l_pieces_len; eauto. }
  destruct (is_prefix [47; 47] (c :: r)) eqn:P1.
  { cbn [rest_of]. cbn [is_prefix] in P1. unfold l_line. cbn [drop_while]. replace (c =? 10) with false by lia. cbn [negb]. apply sfx_drop. }
  destruct (is_prefix [47; 42] (c :: r)).
  { assert (B := block_sfx _ r (le_n _)). destruct (l_block r) as [ok r']. exact B. }
  destruct (l_punct (c :: r)) as [[k r']|] eqn:LP; [cbn [rest_of]; eapply punct_sfx; exact LP|].
  destruct (utf8_is_letter c || (c =? 35)); cbn [rest_of]; [apply sfx_drop|apply sfx_refl].
Qed.
End Step.

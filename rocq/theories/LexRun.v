(** Strings, words and whole texts. *)
From Verif Require Import Prelude Utf8Model Utf8Spec Utf8Proofs UniioModel UniioSpec UniioProofs StringsModel StringsSpec StringsRun MapModel MapSpec MapProofs LexModel LexText LexProofs LexMono LexStep LexWord LexSpec LexFacts.
From Coq Require String.
Import String.StringSyntax.
Local Open Scope string_scope.
Local Open Scope list_scope.
Local Open Scope Z_scope.

(** ** Strings *)
Lemma escape_ok d v : escape_of d v -> escape d = (v, true).
Proof. intros H. destruct H; reflexivity. Qed.

Lemma piece_ok body s z rest : z = 34 \/ z = 10 -> elements 34 body s -> l_piece (body ++ z :: rest) = Some (s, [], z :: rest).
Proof.
  intros HZ H. induction H as [|c body s H1 H2 H3 H IH|d v body s E H IH].
  - cbn [app l_piece]. destruct HZ as [-> | ->]; reflexivity.
  - cbn [app l_piece]. replace (c =? 34) with false by lia. replace (c =? 10) with false by lia. replace (c =? 92) with false by lia.
    cbn [negb andb]. rewrite IH. reflexivity.
  - cbn [app l_piece]. change (negb (92 =? 34) && negb (92 =? 10)) with true. change (92 =? 92) with true. cbv iota.
    rewrite IH, (escape_ok _ _ E). reflexivity.
Qed.

Lemma piece_none body s : elements 34 body s -> l_piece body = None.
Proof.
  intros H. induction H as [|c body s H1 H2 H3 H IH|d v body s E H IH].
  - reflexivity.
  - cbn [l_piece]. replace (c =? 34) with false by lia. replace (c =? 10) with false by lia. replace (c =? 92) with false by lia.
    cbn [negb andb]. rewrite IH. reflexivity.
  - cbn [l_piece]. change (negb (92 =? 34) && negb (92 =? 10)) with true. change (92 =? 92) with true. cbv iota. rewrite IH. reflexivity.
Qed.

Lemma drop_blanks g rest : Forall blank g -> l_blanks (g ++ rest) = l_blanks rest.
Proof.
  intros H. unfold l_blanks. induction H as [|c g B H IH]; auto. cbn [app drop_while]. apply is_blank_iff in B. rewrite B. exact IH.
Qed.

Lemma not_bq_blanks rest : not_blank_or_quote rest -> l_blanks rest = rest /\ starts (fun c => c =? 34) rest = false.
Proof.
  intros H. destruct rest as [|c rest]; [split; reflexivity|]. destruct H as (H1 & H2). split; [|cbn [starts]; lia].
  apply not_blank_head. destruct (is_blank c) eqn:B; auto. apply is_blank_iff in B. tauto.
Qed.

Lemma pieces_end n rest : not_blank_or_quote rest -> (0 < n)%nat -> l_pieces n rest = Some ([], [], rest).
Proof. intros H L. destruct n as [|n]; [lia|]. rewrite l_pieces_S. rewrite (proj2 (not_bq_blanks rest H)). reflexivity. Qed.

Lemma quoted_head q s : quoted q s -> exists q', q = 34 :: q'.
Proof. intros H. destruct H; cbn [app]; eauto. Qed.

Lemma pieces_ok q s : quoted q s -> forall g rest n, Forall blank g -> not_blank_or_quote rest -> (List.length q < n)%nat ->
  l_pieces n (q ++ g ++ rest) = Some (s, [], rest).
Proof.
  intros H. induction H as [body s E|body s g0 q t E B0 H IH]; intros g rest n BG NB L.
  - destruct n as [|n]; [lia|]. rewrite l_pieces_S. cbn [app starts tl]. change (34 =? 34) with true. cbv iota.
    rewrite <- app_assoc. cbn [app]. rewrite (piece_ok body s 34) by auto. cbn [bind starts tl]. change (34 =? 34) with true. cbv iota beta.
    rewrite drop_blanks by auto. rewrite (proj1 (not_bq_blanks rest NB)). cbn [app List.length] in L. rewrite app_length in L. cbn [List.length] in L.
    rewrite pieces_end by (auto; lia). cbn [bind]. rewrite app_nil_r. reflexivity.
  - destruct n as [|n]; [lia|]. rewrite l_pieces_S. cbn [app starts tl]. change (34 =? 34) with true. cbv iota.
    rewrite <- !app_assoc. cbn [app]. rewrite (piece_ok body s 34) by auto. cbn [bind starts tl]. change (34 =? 34) with true. cbv iota beta.
    rewrite drop_blanks by auto.
    assert (QB: l_blanks (q ++ g ++ rest) = q ++ g ++ rest) by (destruct (quoted_head _ _ H) as (q' & ->); apply not_blank_head; reflexivity).
    rewrite QB, IH; auto. rewrite !app_length in L. cbn [List.length] in L. rewrite app_length in L. lia.
Qed.

Lemma string_switch e r x : starts (fun c => c =? 34) r = true -> l_pieces (S (List.length r)) r = x ->
  l_blanks r = r /\ l_switch e r = match x with Some (s, es, r') => OStr s es r' | None => OHang end.
Proof.
  intros H E. destruct r as [|c r]; [discriminate|]. cbn [starts] in H. apply Z.eqb_eq in H. subst c.
  split; [apply not_blank_head; reflexivity|]. unfold l_switch. change (34 =? 34) with true.
  change (utf8_is_digit 34 || (34 =? 46) && starts utf8_is_digit r) with false. change (34 =? 39) with false. cbv iota.
  rewrite E. reflexivity.
Qed.

Lemma string_ok e l before q s g rest :
  text (before ++ q ++ g ++ rest) -> stands l before (q ++ g ++ rest) -> quoted q s -> Forall blank g -> not_blank_or_quote rest ->
  exists l', returns e l (mkTok (l_pos l) (l_pos l') TK_STRING_LITERAL (DString (zlen (l_strs l)))) l'
    /\ stands l' (before ++ q ++ g) rest /\ l_strs l' = l_strs l ++ [s] /\ l_errs l' = l_errs l /\ l_map l' = l_map l.
Proof.
  intros HT SA Q B N. set (T := before ++ q ++ g ++ rest) in *.
  exists (put (mkBase (l_map l) (l_strs l ++ [s]) (l_errs l)) T rest).
  assert (SF: sfx (q ++ g ++ rest) T) by (exists before; reflexivity).
  assert (ST: starts (fun c => c =? 34) (q ++ g ++ rest) = true) by (destruct (quoted_head _ _ Q) as (q' & ->); reflexivity).
  assert (PO := pieces_ok q s Q g rest (S (List.length (q ++ g ++ rest))) B N ltac:(rewrite app_length; lia)).
  destruct (string_switch e _ _ ST PO) as (BL & W).
  split; [|split; [|auto]].
  - rewrite (stands_put _ _ _ SA) at 1 2 3. fold T. pose proof (returns_str T HT e (base_of l) _ _ _ _ SF BL W) as R. rewrite note_nil in R. exact R.
  - unfold T. replace (before ++ q ++ g ++ rest) with ((before ++ q ++ g) ++ rest) by (rewrite <- !app_assoc; reflexivity). apply put_stands.
Qed.

(** A string whose line ends before it is closed. *)
Lemma string_line_ok e l before body s g rest :
  text (before ++ (34 :: body) ++ 10 :: g ++ rest) -> stands l before ((34 :: body) ++ 10 :: g ++ rest) ->
  elements 34 body s -> Forall blank g -> not_blank_or_quote rest ->
  exists l' p, returns e l (mkTok (l_pos l) (l_pos l') TK_STRING_LITERAL (DString (zlen (l_strs l)))) l'
    /\ stands l' (before ++ (34 :: body) ++ 10 :: g) rest /\ l_strs l' = l_strs l ++ [s]
    /\ l_errs l' = l_errs l ++ [(missing_terminating_quote_char, p)] /\ l_map l' = l_map l.
Proof.
  intros HT SA E B N. set (T := before ++ (34 :: body) ++ 10 :: g ++ rest) in *.
  exists (put (mkBase (l_map l) (l_strs l ++ [s]) (l_errs l ++ [(missing_terminating_quote_char, pos_of T (10 :: g ++ rest))])) T rest), (pos_of T (10 :: g ++ rest)).
  assert (SF: sfx ((34 :: body) ++ 10 :: g ++ rest) T) by (exists before; reflexivity).
  assert (PO: l_pieces (S (List.length ((34 :: body) ++ 10 :: g ++ rest))) ((34 :: body) ++ 10 :: g ++ rest)
              = Some (s, [(missing_terminating_quote_char, 10 :: g ++ rest)], rest)).
  { rewrite l_pieces_S. cbn [app starts tl]. change (34 =? 34) with true. cbv iota.
    rewrite (piece_ok body s 10) by auto. cbn [bind starts tl]. change (10 =? 34) with false. cbv iota beta.
    change (l_blanks (10 :: g ++ rest)) with (l_blanks (g ++ rest)). rewrite drop_blanks by auto. rewrite (proj1 (not_bq_blanks rest N)).
    rewrite pieces_end by (auto; cbn [List.length]; lia). cbn [bind]. rewrite app_nil_r. reflexivity. }
  destruct (string_switch e _ _ (eq_refl : starts (fun c => c =? 34) ((34 :: body) ++ 10 :: g ++ rest) = true) PO) as (BL & W).
  split; [|split; [|auto]].
  - rewrite (stands_put _ _ _ SA) at 1 2 3. fold T. exact (returns_str T HT e (base_of l) _ _ _ _ SF BL W).
  - unfold T. replace (before ++ (34 :: body) ++ 10 :: g ++ rest) with ((before ++ (34 :: body) ++ 10 :: g) ++ rest) by (rewrite <- !app_assoc; reflexivity). apply put_stands.
Qed.

Lemma string_hangs e l before body s :
  text (before ++ 34 :: body) -> stands l before (34 :: body) -> elements 34 body s -> never_returns e l.
Proof.
  intros HT SA E.
  assert (PO: l_pieces (S (List.length (34 :: body))) (34 :: body) = None).
  { rewrite l_pieces_S. cbn [starts tl]. change (34 =? 34) with true. cbv iota. rewrite (piece_none body s E). reflexivity. }
  destruct (string_switch e (34 :: body) None eq_refl PO) as (BL & W).
  rewrite (stands_put _ _ _ SA). apply never_hang; auto. exists before. reflexivity.
Qed.

(** ** Characters *)
Lemma elem_ok body v rest : elements 39 body [v] -> l_elem (body ++ rest) = (v, [], rest) /\ starts (fun c => c =? 39) (body ++ rest) = false.
Proof.
  intros H. inversion H as [|c b s H1 H2 H3 H4|d v' b s E H4]; subst; inversion H4; subst.
  - cbn [app l_elem starts]. replace (v =? 92) with false by lia. split; [reflexivity|lia].
  - cbn [app l_elem starts]. change (92 =? 92) with true. cbv iota. rewrite (escape_ok _ _ E). split; reflexivity.
Qed.

Lemma char_switch e r : l_switch e (39 :: r) = OTok (l_char_literal (39 :: r)).
Proof. reflexivity. Qed.

Lemma char_ok e l before body v rest :
  text (before ++ (39 :: body ++ [39]) ++ rest) -> stands l before ((39 :: body ++ [39]) ++ rest) -> elements 39 body [v] ->
  exists l', returns e l (mkTok (l_pos l) (l_pos l') TK_CHAR_LITERAL (DChar v)) l' /\ stands l' (before ++ 39 :: body ++ [39]) rest /\ same_but_place l l'.
Proof.
  intros HT SA E. apply stands_tok; auto. cbn [app]. rewrite char_switch. f_equal. unfold l_char_literal. cbn [tl].
  rewrite <- app_assoc. destruct (elem_ok body v ([39] ++ rest) E) as (-> & ->). cbn [app starts tl]. change (39 =? 39) with true. cbv iota. reflexivity.
Qed.

(** A character that is not closed. *)
Lemma char_open_ok e l before body v rest :
  text (before ++ (39 :: body) ++ rest) -> stands l before ((39 :: body) ++ rest) -> elements 39 body [v] -> hd 0 rest <> 39 ->
  exists l' p, returns e l (mkTok (l_pos l) (l_pos l') TK_CHAR_LITERAL (DChar v)) l' /\ stands l' (before ++ 39 :: body) rest
    /\ l_errs l' = l_errs l ++ [(missing_terminating_apost_char, p)] /\ l_map l' = l_map l /\ l_strs l' = l_strs l.
Proof.
  intros HT SA E N. set (T := before ++ (39 :: body) ++ rest) in *.
  exists (put (note (base_of l) T [(missing_terminating_apost_char, rest)]) T rest), (pos_of T rest).
  assert (SF: sfx ((39 :: body) ++ rest) T) by (exists before; reflexivity).
  assert (W: l_switch e ((39 :: body) ++ rest) = OTok (TK_CHAR_LITERAL, DChar v, [(missing_terminating_apost_char, rest)], rest)).
  { cbn [app]. rewrite char_switch. f_equal. unfold l_char_literal. cbn [tl].
    destruct (elem_ok body v rest E) as (-> & ->).
    assert (X: starts (fun c => c =? 39) rest = false) by (destruct rest; [reflexivity|cbn [hd starts] in *; lia]). rewrite X. reflexivity. }
  split; [|split; [|auto]].
  - rewrite (stands_put _ _ _ SA) at 1 2. fold T. exact (returns_tok T HT e (base_of l) _ _ _ _ _ SF (not_blank_head 39 _ eq_refl) W).
  - unfold T. rewrite app_assoc. apply put_stands.
Qed.

Lemma char_empty_ok e l before rest :
  text (before ++ [39; 39] ++ rest) -> stands l before ([39; 39] ++ rest) ->
  exists l' p, returns e l (mkTok (l_pos l) (l_pos l') TK_CHAR_LITERAL (DChar 0)) l' /\ stands l' (before ++ [39; 39]) rest
    /\ l_errs l' = l_errs l ++ [(empty_character_literal, p)] /\ l_map l' = l_map l /\ l_strs l' = l_strs l.
Proof.
  intros HT SA. set (T := before ++ [39; 39] ++ rest) in *.
  exists (put (note (base_of l) T [(empty_character_literal, 39 :: rest)]) T rest), (pos_of T (39 :: rest)).
  assert (SF: sfx ([39; 39] ++ rest) T) by (exists before; reflexivity).
  assert (W: l_switch e ([39; 39] ++ rest) = OTok (TK_CHAR_LITERAL, DChar 0, [(empty_character_literal, 39 :: rest)], rest)) by reflexivity.
  split; [|split; [|auto]].
  - rewrite (stands_put _ _ _ SA) at 1 2. fold T. exact (returns_tok T HT e (base_of l) _ _ _ _ _ SF (not_blank_head 39 _ eq_refl) W).
  - unfold T. rewrite app_assoc. apply put_stands.
Qed.

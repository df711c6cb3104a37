(** The claims about single tokens. *)
From Verif Require Import Prelude Utf8Model Utf8Spec Utf8Proofs UniioModel UniioSpec UniioProofs StringsModel StringsSpec StringsRun MapModel MapSpec MapProofs LexModel LexText LexProofs LexMono LexStep LexWord LexSpec.
From Coq Require Import SpecFloat Sorted.
From Coq Require String.
Import String.StringSyntax.
Local Open Scope string_scope.
Local Open Scope list_scope.
Local Open Scope Z_scope.

Definition base_of (l : lexer) : base := mkBase (l_map l) (l_strs l) (l_errs l).

Lemma stands_put l before rest : stands l before rest -> l = put (base_of l) (before ++ rest) rest.
Proof.
  intros (D & P). destruct l as [ch io m ss es]. destruct io as [dt ps]. cbn [l_io l_char in_data in_pos l_map l_strs l_errs base_of] in *. subst dt.
  unfold put. cbn [b_map b_strs b_errs]. unfold pos_of. rewrite encs_app, zlen_app.
  destruct rest as [|c r]; destruct P as (-> & ->); cbn [last_of]; f_equal; f_equal; cbn [encs flat_map].
  - rewrite (@zlen_nil Z). lia.
  - rewrite encs_app, zlen_app. cbn [encs flat_map]. rewrite app_nil_r. lia.
Qed.

Lemma put_stands b before rest : stands (put b (before ++ rest) rest) before rest.
Proof.
  split; [reflexivity|]. cbn [put l_char l_io in_pos]. unfold pos_of. rewrite encs_app, zlen_app.
  destruct rest as [|c r]; (split; [reflexivity|]); cbn [encs flat_map].
  - rewrite (@zlen_nil Z). lia.
  - rewrite encs_app, !zlen_app. cbn [encs flat_map]. rewrite app_nil_r. lia.
Qed.

Lemma put_base b T r : base_of (put b T r) = b. Proof. destruct b; reflexivity. Qed.
Lemma base_of_same l b T r : base_of l = b -> same_but_place l (put b T r).
Proof. intros <-. repeat split. Qed.

Lemma returns_det e l t l' t2 l2 : returns e l t l' -> returns e l t2 l2 -> t = t2 /\ l' = l2.
Proof.
  intros (n & A) (m & B). specialize (A (max n m) ltac:(lia)). specialize (B (max n m) ltac:(lia)). rewrite A in B. inversion B; auto.
Qed.

Lemma never_not e l t l' : never_returns e l -> returns e l t l' -> False.
Proof. intros N (n & A). specialize (A n (le_n _)). rewrite N in A. discriminate. Qed.

Lemma never_from e l n : (forall fuel, (n <= fuel)%nat -> lex fuel e l = None) -> never_returns e l.
Proof.
  intros H fuel. destruct (lex fuel e l) as [x|] eqn:E; auto.
  apply (lex_more fuel (max n fuel)) in E; [|lia]. rewrite H in E by lia. discriminate.
Qed.

(** Two lexers whose calls agree. *)
Definition alike (e : lenv) (l l' : lexer) : Prop :=
  (forall t l1, returns e l t l1 <-> returns e l' t l1) /\ (never_returns e l <-> never_returns e l').
Lemma alike_refl e l : alike e l l. Proof. split; intros; reflexivity. Qed.
Lemma alike_trans e a b c : alike e a b -> alike e b c -> alike e a c.
Proof. intros (A & B) (C & D). split; intros; [rewrite A; apply C|rewrite B; apply D]. Qed.

Lemma alike_shift e l l' n k : (forall f, (n <= f)%nat -> lex (k + f) e l = lex f e l') -> alike e l l'.
Proof.
  intros H. split.
  - intros t l1. split; intros (m & A).
    + exists (max n m). intros f F. rewrite <- H by lia. apply A. lia.
    + exists (k + max n m)%nat. intros f F. replace f with (k + (f - k))%nat by lia. rewrite H by lia. apply A. lia.
  - split; intros N.
    + apply (never_from _ _ n). intros f F. rewrite <- H by lia. apply N.
    + apply (never_from _ _ (k + n)). intros f F. replace f with (k + (f - k))%nat by lia. rewrite H by lia. apply N.
Qed.

Section Facts.
Variable T : list Z.
Hypothesis HT : Forall code_point T.
Variable e : lenv.

(** ** One round *)
Lemma blanks_idem r : l_blanks (l_blanks r) = l_blanks r.
Proof.
  unfold l_blanks. induction r as [|c r IH]; cbn [drop_while]; auto. destruct (is_blank c) eqn:B; auto. cbn [drop_while]. rewrite B. reflexivity.
Qed.

Lemma alike_blanks b r : sfx r T -> alike e (put b T r) (put b T (l_blanks r)).
Proof.
  intros H. apply (alike_shift e _ _ (S (List.length r)) 0). intros f F. cbn [plus].
  assert (H1: sfx (l_blanks r) T) by (eapply sfx_trans; [apply sfx_drop|exact H]).
  assert (L1: (List.length (l_blanks r) <= List.length r)%nat) by (apply sfx_len, sfx_drop).
  destruct f as [|f]; [lia|]. rewrite !(round_lex T HT e) by (auto; lia). rewrite blanks_idem. reflexivity.
Qed.

Lemma alike_skip b r es r' : sfx r T -> l_blanks r = r -> l_switch e r = OSkip es r' -> alike e (put b T r) (put (note b T es) T r').
Proof.
  intros H B W. apply (alike_shift e _ _ (S (List.length r)) 1). intros f F. cbn [plus].
  rewrite (round_lex T HT e) by (auto; lia). unfold l_round. rewrite B, W. reflexivity.
Qed.

Lemma returns_tok b r k dt es r' : sfx r T -> l_blanks r = r -> l_switch e r = OTok (k, dt, es, r') ->
  returns e (put b T r) (mkTok (pos_of T r) (pos_of T r') k dt) (put (note b T es) T r').
Proof.
  intros H B W. exists (S (List.length r)). intros f F. destruct f as [|f]; [lia|].
  rewrite (round_lex T HT e) by (auto; lia). unfold l_round. rewrite B, W. reflexivity.
Qed.

Lemma returns_str b r s es r' : sfx r T -> l_blanks r = r -> l_switch e r = OStr s es r' ->
  returns e (put b T r) (mkTok (pos_of T r) (pos_of T r') TK_STRING_LITERAL (DString (zlen (b_strs b))))
    (put (mkBase (b_map b) (b_strs b ++ [s]) (b_errs (note b T es))) T r').
Proof.
  intros H B W. exists (S (List.length r)). intros f F. destruct f as [|f]; [lia|].
  rewrite (round_lex T HT e) by (auto; lia). unfold l_round. rewrite B, W. reflexivity.
Qed.

Lemma never_hang b r : sfx r T -> l_blanks r = r -> l_switch e r = OHang -> never_returns e (put b T r).
Proof.
  intros H B W. apply (never_from _ _ (S (List.length r))). intros f F. destruct f as [|f]; [lia|].
  rewrite (round_lex T HT e) by (auto; lia). unfold l_round. rewrite B, W. reflexivity.
Qed.

Lemma returns_eof b r : sfx r T -> l_blanks r = [] -> returns e (put b T r) token_eof (put b T []).
Proof.
  intros H B. exists (S (List.length r)). intros f F. destruct f as [|f]; [lia|].
  rewrite (round_lex T HT e) by (auto; lia). unfold l_round. rewrite B. reflexivity.
Qed.
End Facts.

Lemma not_blank_head c r : is_blank c = false -> l_blanks (c :: r) = c :: r.
Proof. intros H. unfold l_blanks. cbn [drop_while]. rewrite H. reflexivity. Qed.

(** In terms of [stands]. *)
Lemma stands_tok e l before p rest k dt :
  text (before ++ p ++ rest) -> stands l before (p ++ rest) ->
  l_blanks (p ++ rest) = p ++ rest -> l_switch e (p ++ rest) = OTok (k, dt, [], rest) ->
  exists l', returns e l (mkTok (l_pos l) (l_pos l') k dt) l' /\ stands l' (before ++ p) rest /\ same_but_place l l'.
Proof.
  intros HT S B W. exists (put (base_of l) (before ++ p ++ rest) rest).
  assert (SF: sfx (p ++ rest) (before ++ p ++ rest)) by (exists before; reflexivity).
  split; [|split; [|apply base_of_same; reflexivity]].
  - rewrite (stands_put _ _ _ S) at 1 2. pose proof (returns_tok _ HT e (base_of l) _ _ _ _ _ SF B W) as R. rewrite note_nil in R.
    exact R.
  - rewrite app_assoc. apply put_stands.
Qed.

(** ** Blanks and comments *)
Lemma is_blank_iff c : is_blank c = true <-> blank c.
Proof. unfold is_blank, blank. lia. Qed.

Lemma line_drop body rest : ~ In 10 body -> l_line (body ++ 10 :: rest) = 10 :: rest.
Proof.
  intros H. unfold l_line. induction body as [|c body IH]; cbn [app drop_while].
  - reflexivity.
  - destruct (c =? 10) eqn:E; [exfalso; apply H; left; lia|]. cbn [negb]. apply IH. intros X. apply H. right; auto.
Qed.

Lemma line_drop_end body : ~ In 10 body -> l_line body = [].
Proof.
  intros H. unfold l_line. induction body as [|c body IH]; cbn [app drop_while]; auto.
  destruct (c =? 10) eqn:E; [exfalso; apply H; left; lia|]. cbn [negb]. apply IH. intros X. apply H. right; auto.
Qed.

Lemma block_stars k rest : l_block (repeat 42 (2 * k) ++ 42 :: 47 :: rest) = (true, rest).
Proof.
  induction k as [|k IH]; [reflexivity|]. replace (2 * S k)%nat with (S (S (2 * k))) by lia. cbn [repeat app l_block]. exact IH.
Qed.

Lemma contains_tail p c s : ~ contains p (c :: s) -> ~ contains p s.
Proof. intros H (a & b & ->). apply H. exists (c :: a), b. reflexivity. Qed.

(** From a place that is not after a star read for itself. *)
Lemma block_body : forall n b c k rest, (List.length b <= n)%nat -> c <> 42 -> ~ contains [42; 47] (b ++ [c]) ->
  l_block ((b ++ [c]) ++ repeat 42 (2 * k) ++ 42 :: 47 :: rest) = (true, rest).
Proof.
  induction n as [|n IH]; intros b c k rest L C N.
  - destruct b; [|cbn in L; lia]. cbn [app l_block]. replace (c =? 42) with false by lia. apply block_stars.
  - destruct b as [|x b]; [cbn [app l_block]; replace (c =? 42) with false by lia; apply block_stars|].
    cbn in L. cbn [app l_block]. destruct (x =? 42) eqn:X.
    + destruct b as [|y b]; cbn [app].
      * destruct (c =? 47) eqn:D; [exfalso; apply N; exists [], []; cbn; f_equal; [lia|f_equal; lia]|]. apply block_stars.
      * destruct (y =? 47) eqn:D; [exfalso; apply N; exists [], (b ++ [c]); cbn; f_equal; [lia|f_equal; lia]|].
        apply IH; auto; [cbn in L; lia|]. apply contains_tail in N. apply contains_tail in N. exact N.
    + apply IH; auto; [lia|]. apply contains_tail in N. exact N.
Qed.

Lemma block_whole b c k rest : c <> 42 -> hd 0 (b ++ [c]) <> 47 -> ~ contains [42; 47] (b ++ [c]) ->
  l_block (42 :: (b ++ [c]) ++ repeat 42 (2 * k) ++ 42 :: 47 :: rest) = (true, rest).
Proof.
  intros C H N. destruct b as [|x b]; cbn [app hd] in *.
  - cbn [l_block]. change (42 =? 42) with true. cbv iota. replace (c =? 47) with false by lia. apply block_stars.
  - cbn [l_block]. change (42 =? 42) with true. cbv iota. replace (x =? 47) with false by lia.
    apply (block_body (List.length b)); auto. apply contains_tail in N. exact N.
Qed.

Lemma gap_alike T e g : Forall code_point T -> gap g -> forall b rest, sfx (g ++ rest) T -> alike e (put b T (g ++ rest)) (put b T rest).
Proof.
  intros HT G. induction G as [|c s B G IH|s s' (body & -> & N) G IH|s s' (bb & c & k & -> & C & H & N) G IH]; intros b rest S.
  - apply alike_refl.
  - cbn [app] in *. apply is_blank_iff in B.
    eapply alike_trans; [apply (alike_blanks T HT e b (c :: s ++ rest) S)|].
    unfold l_blanks. cbn [drop_while]. rewrite B.
    assert (X := alike_blanks T HT e b (s ++ rest) (sfx_cons _ _ _ S)). specialize (IH b rest (sfx_cons _ _ _ S)).
    destruct X as (X1 & X2), IH as (I1 & I2). unfold l_blanks in X1, X2. split; [intros t l1; rewrite <- X1; apply I1|rewrite <- X2; apply I2].
  - rewrite <- app_assoc in S |- *. cbn [app] in S |- *. change (str "//") with [47; 47] in *. cbn [app] in S |- *.
    assert (W: l_switch e (47 :: 47 :: body ++ 10 :: s' ++ rest) = OSkip [] (10 :: s' ++ rest)).
    { unfold l_switch. change (l_line (47 :: 47 :: body ++ 10 :: s' ++ rest)) with (l_line (body ++ 10 :: s' ++ rest)). rewrite line_drop by auto. reflexivity. }
    eapply alike_trans; [apply (alike_skip T HT e b _ _ _ S (not_blank_head 47 _ eq_refl) W)|]. rewrite note_nil.
    assert (S1: sfx (10 :: s' ++ rest) T) by (eapply sfx_trans; [|exact S]; exists (47 :: 47 :: body); reflexivity).
    eapply alike_trans; [apply (alike_blanks T HT e b (10 :: s' ++ rest) S1)|].
    unfold l_blanks. cbn [drop_while]. change (is_blank 10) with true. cbv iota.
    assert (X := alike_blanks T HT e b (s' ++ rest) (sfx_cons _ _ _ S1)). specialize (IH b rest (sfx_cons _ _ _ S1)).
    destruct X as (X1 & X2), IH as (I1 & I2). unfold l_blanks in X1, X2. split; [intros t l1; rewrite <- X1; apply I1|rewrite <- X2; apply I2].
  - change (str "/*") with [47; 42] in *. change (str "*/") with [42; 47] in *.
    assert (EQ: (([47; 42] ++ (bb ++ [c]) ++ repeat 42 (2 * k) ++ [42; 47]) ++ s') ++ rest
                = 47 :: 42 :: (bb ++ [c]) ++ repeat 42 (2 * k) ++ 42 :: 47 :: s' ++ rest).
    { rewrite <- !app_assoc. reflexivity. }
    rewrite EQ in S |- *.
    assert (W: l_switch e (47 :: 42 :: (bb ++ [c]) ++ repeat 42 (2 * k) ++ 42 :: 47 :: s' ++ rest) = OSkip [] (s' ++ rest)).
    { assert (BW := block_whole bb c k (s' ++ rest) C H N). unfold l_switch.
      set (z := (bb ++ [c]) ++ repeat 42 (2 * k) ++ 42 :: 47 :: s' ++ rest) in *. clearbody z.
      change (utf8_is_digit 47 || (47 =? 46) && starts utf8_is_digit (42 :: z)) with false.
      change (47 =? 39) with false. change (47 =? 34) with false.
      change (is_prefix [47; 47] (47 :: 42 :: z)) with false. change (is_prefix [47; 42] (47 :: 42 :: z)) with true. cbv iota.
      rewrite BW. reflexivity. }
    eapply alike_trans; [apply (alike_skip T HT e b _ _ _ S (not_blank_head 47 _ eq_refl) W)|]. rewrite note_nil.
    apply IH. eapply sfx_trans; [|exact S]. exists (47 :: 42 :: (bb ++ [c]) ++ repeat 42 (2 * k) ++ [42; 47]). cbn [app]. rewrite <- !app_assoc. reflexivity.
Qed.

Lemma gap_ok e l before g rest : text (before ++ g ++ rest) -> stands l before (g ++ rest) -> gap g ->
  exists l', stands l' (before ++ g) rest /\ same_but_place l l' /\
    (forall t l1, returns e l t l1 <-> returns e l' t l1) /\ (never_returns e l <-> never_returns e l').
Proof.
  intros HT S G. exists (put (base_of l) (before ++ g ++ rest) rest). split; [rewrite app_assoc; apply put_stands|].
  split; [apply base_of_same; reflexivity|]. 
  assert (SF: sfx (g ++ rest) (before ++ g ++ rest)) by (exists before; reflexivity).
  pose proof (gap_alike _ e g HT G (base_of l) rest SF) as A. rewrite <- (stands_put _ _ _ S) in A. exact A.
Qed.

Lemma last_line_ok e l before s : text (before ++ s) -> stands l before s -> line_comment s ->
  exists l', returns e l token_eof l' /\ stands l' (before ++ s) [] /\ same_but_place l l'.
Proof.
  intros HT S (body & -> & N). exists (put (base_of l) (before ++ str "//" ++ body) []).
  change (str "//") with [47; 47] in *. cbn [app] in *.
  assert (SF: sfx (47 :: 47 :: body) (before ++ 47 :: 47 :: body)) by (exists before; reflexivity).
  split; [|split; [|apply base_of_same; reflexivity]].
  - rewrite (stands_put _ _ _ S) at 1.
    assert (W: l_switch e (47 :: 47 :: body) = OSkip [] []).
    { unfold l_switch. change (l_line (47 :: 47 :: body)) with (l_line body). rewrite line_drop_end by auto. reflexivity. }
    apply (alike_skip _ HT e (base_of l) _ _ _ SF (not_blank_head 47 _ eq_refl) W). rewrite note_nil.
    apply returns_eof; auto. apply sfx_nil.
  - pose proof (put_stands (base_of l) (before ++ 47 :: 47 :: body) []) as P. rewrite app_nil_r in P. exact P.
Qed.

(** ** Integers *)
Lemma digit_value_ok c d : digit_value c d -> utf8_is_hexa_digit c = true /\ utf8_to_number c = d /\ 0 <= d /\ is_blank c = false
  /\ (d < 10 -> utf8_is_digit c = true).
Proof. unfold digit_value, utf8_is_hexa_digit, utf8_to_number, utf8_is_digit, is_blank. intros H. repeat split; try lia.
  repeat match goal with |- context [if ?b then _ else _] => destruct b eqn:? end; lia.
Qed.

Lemma number_nonneg base s v : 0 <= base -> number_of base s v -> 0 <= v /\ s <> [].
Proof.
  intros B H. induction H as [c d D L|s v c d H IH D L]; destruct (digit_value_ok _ _ D) as (_ & _ & P & _).
  - split; [auto|discriminate].
  - split; [nia|]. intros E. apply app_eq_nil in E. destruct E; discriminate.
Qed.

Lemma digit_step base m v c d : 2 <= base -> (m = false -> base = 10) -> 0 <= v < 2 ^ 60 -> v * base + d < 2 ^ 64 -> digit_value c d -> d < base ->
  forall rest, l_digits base m (mkNum v d_zero true true) (c :: rest) = l_digits base m (mkNum (v * base + d) d_zero true true) rest.
Proof.
  intros B M V W D L rest. destruct (digit_value_ok _ _ D) as (H1 & H2 & H3 & _ & H5). cbn [l_digits]. rewrite H1, H2.
  assert (P: negb m && utf8_is_power c = false).
  { destruct m; auto. cbn [negb andb]. specialize (M eq_refl). assert (DG := H5 ltac:(lia)). unfold utf8_is_digit in DG. unfold utf8_is_power. lia. }
  rewrite P. replace (d >=? base) with false by lia. f_equal. unfold num_digit. cbn [n_int n_integer n_float n_range].
  replace (v >=? 0x8000000000000000) with false by lia. replace (v >=? 0x2000000000000000) with false by lia. replace (v >=? 0x1000000000000000) with false by lia.
  rewrite !andb_false_r. cbn [orb n_integer n_int n_float n_range]. f_equal. unfold u64, two64. rewrite Z.mod_small; nia.
Qed.

Lemma digits_ok base m s v : 2 <= base -> (m = false -> base = 10) -> (base = 2 -> v < 2 ^ 61) -> v < 2 ^ 63 -> base <> 3 -> base <> 4 -> base <> 5 -> base <> 6 -> base <> 7 -> number_of base s v ->
  forall rest, l_digits base m (mkNum 0 d_zero true true) (s ++ rest) = l_digits base m (mkNum v d_zero true true) rest.
Proof.
  intros B M B2 B63 N3 N4 N5 N6 N7 H. induction H as [c d D L|s v c d H IH D L]; intros rest.
  - cbn [app]. rewrite (digit_step base m 0 c d) by (auto; lia). reflexivity.
  - destruct (number_nonneg base s v ltac:(lia) H) as (V & _). destruct (digit_value_ok _ _ D) as (_ & _ & P & _).
    rewrite <- app_assoc. cbn [app]. assert (v * base + d < 2 ^ 63 /\ (base = 2 -> v * base + d < 2 ^ 61)) by (split; auto).
    assert (v < 2 ^ 60 /\ (base = 2 -> v < 2 ^ 61)) by (split; nia).
    rewrite IH by (tauto || lia). apply digit_step; auto; lia.
Qed.

Lemma ends_number_ok rest : ends_number rest ->
  (forall base m n, l_digits base m n rest = (false, n, rest)) /\ starts (fun c => c =? 46) rest = false /\ starts utf8_is_power rest = false.
Proof.
  intros H. destruct rest as [|c rest]; [repeat split; reflexivity|]. destruct H as (H1 & H2). unfold ident_next in H1.
  apply not_true_is_false in H1. apply orb_false_iff in H1. destruct H1 as (H1 & H3).
  assert (HX: utf8_is_hexa_digit c = false) by (unfold utf8_is_hexa_digit; rewrite H3; unfold utf8_is_letter in H1; lia).
  split; [|split].
  - intros. cbn [l_digits]. rewrite HX. reflexivity.
  - cbn [starts]. lia.
  - cbn [starts]. unfold utf8_is_power. unfold utf8_is_letter, utf8_is_russian in H1. lia.
Qed.

Lemma number_tail e base m v rest : 0 <= v -> ends_number rest ->
  (let '(wrong, n, r) := l_digits base m (mkNum v d_zero true true) rest in
   if wrong then Some (TK_INT_LITERAL, DInt (n_int n), [(digit_of_another_base, r)], drop_while utf8_is_hexa_digit r)
   else
    let '(n, r) := l_point m n r in
    if starts utf8_is_power r && negb m then
      do ' (wrong, n, r) <- l_exponent e n (tl r);
      if wrong then Some (TK_FLOAT_LITERAL, DFloat DBL_MAX, [(exponent_has_no_digits, r)], l_skip_exponent r)
      else Some (l_num_token n r)
    else Some (l_num_token n r)) = Some (TK_INT_LITERAL, DInt v, [], rest).
Proof.
  intros V E. destruct (ends_number_ok _ E) as (E1 & E2 & E3). rewrite E1. unfold l_point. rewrite E2. cbn [andb].
  rewrite E3. reflexivity.
Qed.

Lemma first_digit base s v : number_of base s v -> exists c s' d, s = c :: s' /\ digit_value c d /\ d < base.
Proof.
  intros H. induction H as [c d D L|s v c d H IH D L]; [exists c, [], d; auto|]. destruct IH as (c0 & s' & d0 & -> & X). exists c0, (s' ++ [c]), d0. auto.
Qed.

Lemma second_digit base s v : number_of base s v -> forall c x s', s = c :: x :: s' -> exists d, digit_value x d /\ d < base.
Proof.
  intros H. induction H as [c d D L|s v c d H IH D L]; intros c0 x s' E; [discriminate|].
  destruct s as [|a [|b s]]; cbn [app] in E.
  - discriminate.
  - inversion E; subst. eauto.
  - inversion E; subst. eapply IH; eauto.
Qed.

Lemma l_number_ok e p s v base rest : prefix_of p base -> number_of base s v -> v < 2 ^ 63 -> (base = 2 -> v < 2 ^ 61) -> ends_number rest ->
  l_number e (p ++ s ++ rest) = Some (TK_INT_LITERAL, DInt v, [], rest).
Proof.
  intros P N V V2 E. assert (NV: 0 <= v) by (apply (number_nonneg base s v); auto; destruct P; lia).
  assert (MD: forall p, (forall r, l_base (p ++ r) = (base, true, r)) -> 8 <= base \/ base = 2 -> l_number e (p ++ s ++ rest) = Some (TK_INT_LITERAL, DInt v, [], rest)).
  { intros p0 B G. unfold l_number. rewrite B, (digits_ok base true s v) by (auto; lia || discriminate). apply number_tail; auto. }
  destruct P; try (apply MD; [intros r; reflexivity|lia]).
  (* decimal *)
    cbn [app]. unfold l_number.
    destruct (first_digit _ _ _ N) as (c & s' & d & -> & D & L). destruct (digit_value_ok _ _ D) as (H1 & H2 & H3 & _ & H5).
    specialize (H5 ltac:(lia)). cbn [app].
    assert (LB: exists r1, l_base (c :: s' ++ rest) = (10, false, r1) /\
       l_digits 10 false (mkNum 0 d_zero true true) r1 = l_digits 10 false (mkNum v d_zero true true) rest).
    { pose proof (digits_ok 10 false (c :: s') v ltac:(lia) ltac:(auto) ltac:(lia) V ltac:(lia) ltac:(lia) ltac:(lia) ltac:(lia) ltac:(lia) N rest) as DO. cbn [app] in DO.
      unfold l_base. destruct (c =? 48) eqn:C48.
      - apply Z.eqb_eq in C48. subst c.
        assert (D0: l_digits 10 false (mkNum 0 d_zero true true) (48 :: s' ++ rest) = l_digits 10 false (mkNum 0 d_zero true true) (s' ++ rest)).
        { apply (digit_step 10 false 0 48 0); lia || auto. unfold digit_value. lia. }
        rewrite D0 in DO. exists (s' ++ rest). split; [|exact DO].
        destruct (s' ++ rest) as [|x r2] eqn:SR; auto.
        assert (NL: (x =? 120) || (x =? 88) = false /\ (x =? 100) || (x =? 68) = false /\ (x =? 111) || (x =? 79) = false /\ (x =? 98) || (x =? 66) = false).
        { destruct s' as [|y s'].
          - cbn [app] in SR. subst rest. destruct E as (E & _). unfold ident_next in E. apply not_true_is_false in E. apply orb_false_iff in E. destruct E as (E & _). unfold utf8_is_letter in E. lia.
          - cbn [app] in SR. inversion SR; subst. destruct (second_digit _ _ _ N 48 x s' eq_refl) as (dx & DX & LX). unfold digit_value in DX. lia. }
        destruct NL as (-> & -> & -> & ->). reflexivity.
      - exists (c :: s' ++ rest). split; [reflexivity|exact DO]. }
    destruct LB as (r1 & -> & ->). apply number_tail; auto.
Qed.

Lemma number_switch e p s v base rest o : prefix_of p base -> number_of base s v ->
  l_number e (p ++ s ++ rest) = Some o -> l_switch e (p ++ s ++ rest) = OTok o /\ l_blanks (p ++ s ++ rest) = p ++ s ++ rest.
Proof.
  intros P N E. destruct (first_digit _ _ _ N) as (c & s' & d & -> & D & L). destruct (digit_value_ok _ _ D) as (_ & _ & _ & NB & H5).
  assert (X: exists c0 r0, p ++ (c :: s') ++ rest = c0 :: r0 /\ utf8_is_digit c0 = true /\ is_blank c0 = false).
  { destruct P; try (exists 48; eexists; split; [reflexivity|split; reflexivity]). exists c, (s' ++ rest). split; [reflexivity|]. split; [apply H5; lia|auto]. }
  destruct X as (c0 & r0 & EQ & D0 & B0). rewrite EQ in E |- *. split; [|apply not_blank_head; auto].
  unfold l_switch. rewrite D0. cbn [orb]. rewrite E. reflexivity.
Qed.

Lemma integer_ok e l before p s rest v base :
  text (before ++ (p ++ s) ++ rest) -> stands l before ((p ++ s) ++ rest) ->
  prefix_of p base -> number_of base s v -> v < 2 ^ 63 -> (base = 2 -> v < 2 ^ 61) -> ends_number rest ->
  exists l', returns e l (mkTok (l_pos l) (l_pos l') TK_INT_LITERAL (DInt v)) l' /\ stands l' (before ++ p ++ s) rest /\ same_but_place l l'.
Proof.
  intros HT S P N V V2 E. pose proof (l_number_ok e p s v base rest P N V V2 E) as LN.
  destruct (number_switch e p s v base rest _ P N LN) as (W & B). rewrite app_assoc in W, B.
  exact (stands_tok e l before (p ++ s) rest _ _ HT S B W).
Qed.

(** ** Exponents *)
Lemma power_step v c d rest : digit_value c d -> d < 10 -> v * 10 + d < 2 ^ 63 -> l_power v (c :: rest) = l_power (v * 10 + d) rest.
Proof.
  intros D L V. destruct (digit_value_ok _ _ D) as (_ & H2 & _ & _ & H5). cbn [l_power]. rewrite (H5 L), H2.
  replace (v * 10 + d <=? LLONG_MAX64) with true by (unfold LLONG_MAX64; lia). reflexivity.
Qed.

Lemma power_ok t p : number_of 10 t p -> p < 2 ^ 63 -> forall rest, l_power 0 (t ++ rest) = l_power p rest.
Proof.
  intros H. induction H as [c d D L|s v c d H IH D L]; intros V rest.
  - cbn [app]. rewrite (power_step 0 c d) by (auto; lia). reflexivity.
  - destruct (digit_value_ok _ _ D) as (_ & _ & P & _). rewrite <- app_assoc. cbn [app]. rewrite IH by lia. apply power_step; auto.
Qed.

Lemma power_end p rest : no_digit rest -> l_power p rest = Some (p, rest).
Proof.
  intros H. destruct rest as [|c rest]; auto. cbn [l_power]. cbn [no_digit] in H. replace (utf8_is_digit c) with false by (unfold utf8_is_digit; lia). reflexivity.
Qed.

Lemma l_exponent_ok e s v x p rest : number_of 10 s v -> exponent_of x p -> no_digit rest -> v < 2 ^ 63 -> p < 2 ^ 63 ->
  l_number e (s ++ x ++ rest) = Some (TK_INT_LITERAL, DInt (u64 (v * 10 ^ p)), [], rest).
Proof.
  intros N (c & sg & t & -> & IC & SG & NT) E V P.
  destruct (first_digit _ _ _ N) as (c0 & s' & d & -> & D & L). destruct (digit_value_ok _ _ D) as (H1 & H2 & H3 & _ & H5). specialize (H5 L).
  set (tl1 := (c :: sg ++ t) ++ rest).
  assert (LB: exists r1, l_base (c0 :: s' ++ tl1) = (10, false, r1) /\
     l_digits 10 false (mkNum 0 d_zero true true) r1 = l_digits 10 false (mkNum v d_zero true true) tl1).
  { pose proof (digits_ok 10 false (c0 :: s') v ltac:(lia) ltac:(auto) ltac:(lia) V ltac:(lia) ltac:(lia) ltac:(lia) ltac:(lia) ltac:(lia) N tl1) as DO. cbn [app] in DO.
    unfold l_base. destruct (c0 =? 48) eqn:C48.
    - apply Z.eqb_eq in C48. subst c0.
      assert (D0: l_digits 10 false (mkNum 0 d_zero true true) (48 :: s' ++ tl1) = l_digits 10 false (mkNum 0 d_zero true true) (s' ++ tl1)).
      { apply (digit_step 10 false 0 48 0); lia || auto. unfold digit_value. lia. }
      rewrite D0 in DO. exists (s' ++ tl1). split; [|exact DO].
      destruct (s' ++ tl1) as [|x r2] eqn:SR; auto.
      assert (NL: (x =? 120) || (x =? 88) = false /\ (x =? 100) || (x =? 68) = false /\ (x =? 111) || (x =? 79) = false /\ (x =? 98) || (x =? 66) = false).
      { destruct s' as [|y s'].
        - cbn [app] in SR. unfold tl1 in SR. inversion SR; subst. cbn [In] in IC. lia.
        - cbn [app] in SR. inversion SR; subst. destruct (second_digit _ _ _ N 48 x s' eq_refl) as (dx & DX & LX). unfold digit_value in DX. lia. }
      destruct NL as (-> & -> & -> & ->). reflexivity.
    - exists (c0 :: s' ++ tl1). split; [reflexivity|exact DO]. }
  destruct LB as (r1 & B1 & B2). unfold l_number. change ((c0 :: s') ++ tl1) with (c0 :: s' ++ tl1). rewrite B1, B2.
  assert (PC: utf8_is_power c = true /\ (c =? 46) = false) by (unfold utf8_is_power; cbn [In] in IC; lia).
  assert (DG: l_digits 10 false (mkNum v d_zero true true) tl1 = (false, mkNum v d_zero true true, tl1)).
  { unfold tl1. cbn [app l_digits]. destruct (utf8_is_hexa_digit c); [|reflexivity]. rewrite (proj1 PC). reflexivity. }
  rewrite DG. unfold l_point. unfold tl1 at 1 2 3. cbn [app starts]. rewrite (proj2 PC). cbn [andb]. 
  unfold tl1. cbn [app starts tl]. rewrite (proj1 PC). cbn [andb negb].
  destruct (first_digit _ _ _ NT) as (ct & t' & dt & ET & DT & LT). destruct (digit_value_ok _ _ DT) as (_ & _ & _ & _ & H5t). specialize (H5t LT).
  assert (SG2: l_sign (mkNum v d_zero true true) ((sg ++ t) ++ rest) = (1, mkNum v d_zero true true, t ++ rest)).
  { destruct SG as [-> | ->]; cbn [app].
    - rewrite ET. cbn [app l_sign]. replace (ct =? 45) with false by (unfold utf8_is_digit in H5t; lia). replace (ct =? 43) with false by (unfold utf8_is_digit in H5t; lia). reflexivity.
    - reflexivity. }
  unfold l_exponent. rewrite SG2. 
  assert (ST: starts utf8_is_digit (t ++ rest) = true) by (rewrite ET; exact H5t). rewrite ST. cbn [negb].
  rewrite (power_ok t p NT P), (power_end p rest E). reflexivity.
Qed.

Lemma exponent_ok e l before s x rest v p :
  text (before ++ (s ++ x) ++ rest) -> stands l before ((s ++ x) ++ rest) ->
  number_of 10 s v -> exponent_of x p -> no_digit rest -> v < 2 ^ 63 -> p < 2 ^ 63 ->
  exists l', returns e l (mkTok (l_pos l) (l_pos l') TK_INT_LITERAL (DInt (u64 (v * 10 ^ p)))) l' /\ stands l' (before ++ s ++ x) rest /\ same_but_place l l'.
Proof.
  intros HT S N X E V P. pose proof (l_exponent_ok e s v x p rest N X E V P) as LN.
  destruct (number_switch e [] s v 10 (x ++ rest) _ pre_none N LN) as (W & B). cbn [app] in W, B. rewrite app_assoc in W, B.
  exact (stands_tok e l before (s ++ x) rest _ _ HT S B W).
Qed.

(** ** Punctuators *)
Lemma is_prefix_ok p s : is_prefix p s = true <-> begins p s.
Proof.
  revert s. induction p as [|x p IH]; intros s; cbn [is_prefix].
  - split; auto. intros _. exists s. reflexivity.
  - destruct s as [|y s]; [split; [discriminate|intros (s' & E); discriminate]|]. split.
    + intros H. apply andb_prop in H. destruct H as (H1 & H2). apply IH in H2. destruct H2 as (s' & ->). exists s'. cbn [app]. f_equal. lia.
    + intros (s' & E). cbn [app] in E. inversion E; subst. rewrite Z.eqb_refl. cbn [andb]. apply IH. exists s'. reflexivity.
Qed.

Lemma find_longest (tbl : list (list Z * Z)) s p k :
  StronglySorted (fun a b => (List.length (fst b) <= List.length (fst a))%nat) tbl -> NoDup (map fst tbl) ->
  In (p, k) tbl -> is_prefix p s = true ->
  (forall q k', In (q, k') tbl -> is_prefix q s = true -> (List.length q <= List.length p)%nat) ->
  find (fun x => is_prefix (fst x) s) tbl = Some (p, k).
Proof.
  intros S N I P L. induction tbl as [|[q k'] tbl IH]; [destruct I|]. cbn [find fst].
  inversion S; subst. cbn [map fst] in N. inversion N; subst. destruct (is_prefix q s) eqn:Q.
  - destruct I as [I|I]; [congruence|]. exfalso.
    assert (LE: (List.length p <= List.length q)%nat) by (rewrite Forall_forall in H2; apply (H2 (p, k)); auto).
    assert (LE2 := L q k' (or_introl eq_refl) Q).
    apply is_prefix_ok in P. apply is_prefix_ok in Q. destruct P as (s1 & E1), Q as (s2 & E2). rewrite E1 in E2.
    assert (p = q). { apply (f_equal (firstn (List.length p))) in E2. rewrite firstn_app, firstn_all, Nat.sub_diag, firstn_O, app_nil_r in E2.
      replace (List.length p) with (List.length q) in E2 by lia. rewrite firstn_app, firstn_all, Nat.sub_diag, firstn_O, app_nil_r in E2. exact E2. }
    subst q. apply H3. apply (in_map fst) in I. exact I.
  - destruct I as [I|I]; [congruence|]. apply IH; auto. intros q0 k0 I0. apply (L q0 k0). right; auto.
Qed.

Lemma punctuators_sorted : StronglySorted (fun a b => (List.length (fst b) <= List.length (fst a))%nat) punctuators.
Proof. unfold punctuators. repeat (constructor; [|repeat (constructor; [cbn; lia|]); constructor]). constructor. Qed.

Fixpoint nodupb (l : list (list Z)) : bool :=
  match l with [] => true | x :: l => negb (existsb (bytes_eqb x) l) && nodupb l end.
Lemma nodupb_ok l : nodupb l = true -> NoDup l.
Proof.
  induction l as [|x l IH]; cbn [nodupb]; intros H; [constructor|]. apply andb_prop in H. destruct H as (H1 & H2). constructor; auto.
  intros I. apply negb_true_iff in H1. assert (existsb (bytes_eqb x) l = true); [|congruence]. apply existsb_exists. exists x. split; auto. apply bytes_eqb_eq. reflexivity.
Qed.
Lemma punctuators_nodup : NoDup (map fst punctuators). Proof. apply nodupb_ok. reflexivity. Qed.

Definition pair_in (x : list Z * Z) (l : list (list Z * Z)) : bool := existsb (fun y => bytes_eqb (fst x) (fst y) && (snd x =? snd y)) l.
Lemma pair_in_ok x l : pair_in x l = true -> In x l.
Proof.
  intros H. apply existsb_exists in H. destruct H as (y & I & E). apply andb_prop in E. destruct E as (E1 & E2).
  apply bytes_eqb_eq in E1. destruct x, y. cbn [fst snd] in *. replace z with z0 by lia. subst. exact I.
Qed.
Lemma punctuators_same x : In x punctuator <-> In x punctuators.
Proof.
  split; intros H.
  - assert (A: forallb (fun x => pair_in x punctuators) punctuator = true) by (vm_compute; reflexivity).
    rewrite forallb_forall in A. apply pair_in_ok. auto.
  - assert (A: forallb (fun x => pair_in x punctuator) punctuators = true) by (vm_compute; reflexivity).
    rewrite forallb_forall in A. apply pair_in_ok. auto.
Qed.

Definition plain_head (p : list Z) : bool :=
  match p with c :: _ => negb (utf8_is_digit c) && negb (c =? 39) && negb (c =? 34) && negb (is_blank c) && negb (utf8_is_letter c || (c =? 35)) | [] => false end.
Lemma punct_heads p k : In (p, k) punctuators -> plain_head p = true.
Proof.
  intros I. assert (A: forallb (fun x => plain_head (fst x)) punctuators = true) by (vm_compute; reflexivity).
  rewrite forallb_forall in A. exact (A _ I).
Qed.

Lemma punct_ok e l before p rest k :
  text (before ++ p ++ rest) -> stands l before (p ++ rest) ->
  In (p, k) punctuator -> longest p (p ++ rest) ->
  ~ begins (str "//") (p ++ rest) -> ~ begins (str "/*") (p ++ rest) -> (p = str "." -> no_digit rest) ->
  exists l', returns e l (mkTok (l_pos l) (l_pos l') k DNone) l' /\ stands l' (before ++ p) rest /\ same_but_place l l'.
Proof.
  intros HT S I (_ & LG) N1 N2 ND. apply punctuators_same in I.
  assert (F: find (fun x => is_prefix (fst x) (p ++ rest)) punctuators = Some (p, k)).
  { apply find_longest; auto using punctuators_sorted, punctuators_nodup.
    - apply is_prefix_ok. exists rest. reflexivity.
    - intros q k' IQ Q. apply is_prefix_ok in Q. apply punctuators_same in IQ. specialize (LG q k' IQ Q). rewrite !zlen_unf in LG. lia. }
  assert (PH := punct_heads p k I). 
  assert (P2: is_prefix [47; 47] (p ++ rest) = false) by (destruct (is_prefix [47; 47] (p ++ rest)) eqn:X; auto; apply is_prefix_ok in X; tauto).
  assert (P3: is_prefix [47; 42] (p ++ rest) = false) by (destruct (is_prefix [47; 42] (p ++ rest)) eqn:X; auto; apply is_prefix_ok in X; tauto).
  assert (PD: (exists c r, p = c :: r /\ (c = 46 -> r = [])) ).
  { assert (A: forallb (fun x => match fst x with c :: r => negb (c =? 46) || (match r with [] => true | _ => false end) | [] => false end) punctuators = true) by (vm_compute; reflexivity).
    rewrite forallb_forall in A. specialize (A _ I). cbn [fst] in A. destruct p as [|c r]; [discriminate|]. exists c, r. split; auto. intros ->.
    destruct r; [reflexivity|discriminate]. }
  apply stands_tok; auto.
  - destruct PD as (c & r & -> & _). cbn [plain_head] in PH. cbn [app]. apply not_blank_head. destruct (is_blank c); [|auto]. rewrite andb_false_r in PH. discriminate.
  - assert (LP: l_punct (p ++ rest) = Some (k, rest)).
    { unfold l_punct. rewrite F. f_equal. f_equal. rewrite skipn_app, skipn_all, Nat.sub_diag. reflexivity. }
    destruct PD as (c & r & -> & PP). cbn [app] in *. unfold l_switch. rewrite P2, P3, LP. cbn [plain_head] in PH.
    repeat (apply andb_prop in PH; destruct PH as (PH & ?)). 
    assert (Q: utf8_is_digit c || ((c =? 46) && starts utf8_is_digit (r ++ rest)) = false).
    { rewrite orb_false_iff. split; [destruct (utf8_is_digit c); [discriminate|auto]|]. destruct (c =? 46) eqn:C; auto. apply Z.eqb_eq in C. rewrite (PP C) in *. subst c. cbn [app andb].
      specialize (ND eq_refl). destruct rest as [|x rest]; auto. cbn [starts no_digit] in *. unfold utf8_is_digit. lia. }
    rewrite Q. replace (c =? 39) with false by lia. replace (c =? 34) with false by lia. reflexivity.
Qed.

(** More fuel changes no result of the lexer. *)
From Verif Require Import Prelude Utf8Model Utf8Spec Utf8Proofs UniioModel UniioSpec UniioProofs MapModel LexModel LexText LexProofs.

Ltac mono_loop f IH :=
  induction f as [|f IH]; intros.

Lemma line_mono f : forall l l', skip_line_comment f l = Some l' -> skip_line_comment (S f) l = Some l'.
Proof.
  induction f as [|f IH]; intros l l' E; cbn [skip_line_comment] in E |- *;
    destruct (negb (l_char l =? 10) && negb (l_char l =? EOF32)); try discriminate; try exact E. apply IH. exact E.
Qed.

Lemma block_mono f : forall l l', skip_block_comment f l = Some l' -> skip_block_comment (S f) l = Some l'.
Proof.
  induction f as [|f IH]; intros l l' E; cbn [skip_block_comment] in E |- *;
    destruct (if l_char l =? 42 then (l_char (scan l) =? 47, scan l) else (false, l)) as [c l1];
    destruct c; try exact E; destruct (l_char l1 =? EOF32); try exact E; try discriminate. apply IH. exact E.
Qed.

Lemma hexa_mono f : forall l l', skip_hexa f l = Some l' -> skip_hexa (S f) l = Some l'.
Proof.
  induction f as [|f IH]; intros l l' E; cbn [skip_hexa] in E |- *;
    destruct (utf8_is_hexa_digit (l_char l)); try discriminate; try exact E. apply IH. exact E.
Qed.

Lemma exponent_skip_mono f : forall l l', skip_exponent f l = Some l' -> skip_exponent (S f) l = Some l'.
Proof.
  induction f as [|f IH]; intros l l' E; cbn [skip_exponent] in E |- *;
    destruct (utf8_is_letter (l_char l) || utf8_is_digit (l_char l) || (l_char l =? 43) || (l_char l =? 45)); try discriminate; try exact E. apply IH. exact E.
Qed.

Lemma digits_mono f base m : forall n l x, num_digits f base m n l = Some x -> num_digits (S f) base m n l = Some x.
Proof.
  induction f as [|f IH]; intros n l x E; cbn [num_digits] in E |- *;
    destruct (utf8_is_hexa_digit (l_char l)); try exact E; destruct (negb m && utf8_is_power (l_char l)); try exact E;
    destruct (utf8_to_number (l_char l) >=? base); try exact E; try discriminate. apply IH. exact E.
Qed.

Lemma fraction_mono f : forall a m l x, num_fraction f a m l = Some x -> num_fraction (S f) a m l = Some x.
Proof.
  induction f as [|f IH]; intros a m l x E; cbn [num_fraction] in E |- *;
    destruct (utf8_is_digit (l_char (scan l))); try exact E; try discriminate. apply IH. exact E.
Qed.

Lemma power_mono f : forall p l x, num_power f p l = Some x -> num_power (S f) p l = Some x.
Proof.
  induction f as [|f IH]; intros p l x E; cbn [num_power] in E |- *;
    destruct (utf8_is_digit (l_char l)); try exact E; try discriminate. cbv zeta in E |- *.
  destruct (p * 10 + utf8_to_number (l_char l) <=? LLONG_MAX64); [|discriminate]. apply IH. exact E.
Qed.

Lemma exponent_mono f e n l x : num_exponent f e n l = Some x -> num_exponent (S f) e n l = Some x.
Proof.
  unfold num_exponent. cbv zeta.
  destruct (if l_char (scan l) =? 45 then (-1, num_to_float n, scan (scan l))
            else if l_char (scan l) =? 43 then (1, n, scan (scan l)) else (1, n, scan l)) as [[s n1] l1].
  destruct (negb (utf8_is_digit (l_char l1))); [auto|].
  destruct (num_power f 0 l1) as [p|] eqn:P; [|discriminate]. rewrite (power_mono _ _ _ _ P). auto.
Qed.

Lemma number_mono f e l x : lex_numeric_literal f e l = Some x -> lex_numeric_literal (S f) e l = Some x.
Proof.
  unfold lex_numeric_literal. cbv zeta. destruct (lex_base l) as [[base m] l1].
  destruct (num_digits f base m (mkNum 0 d_zero true true) l1) as [[[w n] l2]|] eqn:D; [|discriminate].
  rewrite (digits_mono _ _ _ _ _ _ D). cbn [bind]. destruct w.
  - destruct (skip_hexa f _) as [l3|] eqn:H; [|discriminate]. rewrite (hexa_mono _ _ _ H). auto.
  - assert (P: forall y,
      (if (l_char l2 =? 46) && negb m then
         do y <- num_fraction f (n_float (num_to_float n)) d_tenth l2;
         (let (f0, l) := y in Some (mkNum (n_int (num_to_float n)) f0 (n_range (num_to_float n)) (n_integer (num_to_float n)), l))
       else Some (n, l2)) = Some y ->
      (if (l_char l2 =? 46) && negb m then
         do y <- num_fraction (S f) (n_float (num_to_float n)) d_tenth l2;
         (let (f0, l) := y in Some (mkNum (n_int (num_to_float n)) f0 (n_range (num_to_float n)) (n_integer (num_to_float n)), l))
       else Some (n, l2)) = Some y).
    { intros y. destruct ((l_char l2 =? 46) && negb m); auto.
      destruct (num_fraction f (n_float (num_to_float n)) d_tenth l2) as [z|] eqn:F; [|discriminate]. rewrite (fraction_mono _ _ _ _ _ F). auto. }
    destruct (if (l_char l2 =? 46) && negb m then
         do y <- num_fraction f (n_float (num_to_float n)) d_tenth l2;
         (let (f0, l) := y in Some (mkNum (n_int (num_to_float n)) f0 (n_range (num_to_float n)) (n_integer (num_to_float n)), l))
       else Some (n, l2)) as [[n3 l3]|]; [|discriminate]. rewrite (P _ eq_refl). cbn [bind].
    destruct (utf8_is_power (l_char l3) && negb m); auto.
    destruct (num_exponent f e n3 l3) as [[[w n4] l4]|] eqn:X; [|discriminate]. rewrite (exponent_mono _ _ _ _ _ X). cbn [bind].
    destruct w; auto. destruct (skip_exponent f _) as [l5|] eqn:Y; [|discriminate]. rewrite (exponent_skip_mono _ _ _ Y). auto.
Qed.

Lemma string_mono f l x : lex_string_literal f l = Some x -> lex_string_literal (S f) l = Some x.
Proof.
  unfold lex_string_literal. destruct (string_pieces f [] l) as [[s l1]|] eqn:P; [|discriminate].
  rewrite (pieces_mono _ _ _ _ _ P). auto.
Qed.

Lemma switch_mono f e l x : lex_switch f e l = Some x -> lex_switch (S f) e l = Some x.
Proof.
  unfold lex_switch. cbv zeta. intros E.
  repeat match type of E with
  | (if ?b then _ else _) = _ => destruct b; [try exact E|]
  end; try exact E.
  - destruct (lex_numeric_literal f e l) as [t|] eqn:N; [|discriminate]. rewrite (number_mono _ _ _ _ N). exact E.
  - destruct (lex_string_literal f l) as [t|] eqn:N; [|discriminate]. rewrite (string_mono _ _ _ N). exact E.
  - destruct (lex_numeric_literal f e l) as [t|] eqn:N; [|discriminate]. rewrite (number_mono _ _ _ _ N). exact E.
  - destruct (skip_line_comment f (scan l)) as [t|] eqn:N; [|discriminate]. rewrite (line_mono _ _ _ N). exact E.
  - destruct (skip_block_comment f (scan l)) as [t|] eqn:N; [|discriminate]. rewrite (block_mono _ _ _ N). exact E.
  - destruct (lex_identifier_or_keyword e l) as [[t l1]|]; [|discriminate]. cbn [bind] in E |- *.
    destruct (t_kind t =? TK_LINE); [|exact E].
    destruct (skip_line_comment f l1) as [l2|] eqn:N; [|discriminate]. rewrite (line_mono _ _ _ N). exact E.
Qed.

Lemma lex_S f e l : lex (S f) e l =
  do l <- skip_whitespace (S f) l;
  do r <- lex_switch (S f) e l;
  match r with
  | LToken t l => Some (t, l)
  | LPunct k l1 => Some (token_punctuator (l_pos l) (l_pos l1) k, l1)
  | LAgain l => lex f e l
  end.
Proof. reflexivity. Qed.

Lemma lex_mono f : forall e l x, lex f e l = Some x -> lex (S f) e l = Some x.
Proof.
  induction f as [|f IH]; intros e l x E; [discriminate|].
  rewrite lex_S in E. rewrite lex_S. 
  destruct (skip_whitespace (S f) l) as [l1|] eqn:W; [|discriminate]. rewrite (ws_mono _ _ _ W). cbn [bind] in E |- *.
  destruct (lex_switch (S f) e l1) as [r|] eqn:Q; [|discriminate]. rewrite (switch_mono _ _ _ _ Q). cbn [bind] in E |- *.
  destruct r; auto.
Qed.

Lemma lex_more f g e l x : (f <= g)%nat -> lex f e l = Some x -> lex g e l = Some x.
Proof. intros H E. induction H; auto. apply lex_mono. auto. Qed.

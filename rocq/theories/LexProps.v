(** Properties of the lexer: C18, C19, C20, C21, C22, C23, C54, C55. *)
From Verif Require Import Prelude Utf8Model Utf8Spec Utf8Proofs UniioModel UniioSpec UniioProofs StringsModel StringsSpec StringsRun MapModel MapSpec MapProofs LexModel LexText LexProofs LexSpec LexFacts LexRun LexHistory LexEnd.
From Coq Require String.
Import String.StringSyntax.
Local Open Scope string_scope.
Local Open Scope list_scope.
Local Open Scope Z_scope.

(** A lexer over a text and a table without keywords, for the examples. *)
Definition e_lex : lenv := mkLenv (mkOenv (fun _ => true) (fun i => 65 + i mod 26)) (fun x _ => x).
Definition on (T : list Z) : lexer := lexer_create (mkIn (encs T) 0) (map_create (le_mem e_lex) 0).
Definition show (x : option (token * lexer)) : option (token * (Z * list lex_err) * Z) :=
  option_map (fun x => (fst x, (l_char (snd x), map fst (l_errs (snd x))), in_pos (l_io (snd x)))) x.

Lemma on_stands T : text T -> stands (on T) [] T.
Proof.
  intros H. unfold on. rewrite (create_put T H). apply (put_stands _ [] T).
Qed.
Lemma codes (T : list Z) : forallb (fun c => (0 <=? c) && (c <? 0x200000)) T = true -> text T.
Proof. rewrite forallb_forall. intros H. apply Forall_forall. intros c I. specialize (H c I). unfold code_point. lia. Qed.

(** C18.  What the lexer returns before a stretch of blanks and comments is
    what it returns after it: nothing is added to its tables and messages.
    Full for blanks and line comments; block comments without the spellings of
    [C18_block_comments_refuted]. *)
Theorem C18_comments_are_blanks_partial : forall e l before g rest,
  text (before ++ g ++ rest) -> stands l before (g ++ rest) -> gap g ->
  exists l', stands l' (before ++ g) rest /\ same_but_place l l' /\
    (forall t l1, returns e l t l1 <-> returns e l' t l1) /\ (never_returns e l <-> never_returns e l').
Proof. exact gap_ok. Qed.
Print Assumptions C18_comments_are_blanks_partial.

(** A line comment that ends the text. *)
Theorem C18_last_line_comment : forall e l before s,
  text (before ++ s) -> stands l before s -> line_comment s ->
  exists l', returns e l token_eof l' /\ stands l' (before ++ s) [] /\ same_but_place l l'.
Proof. exact last_line_ok. Qed.
Print Assumptions C18_last_line_comment.

Example C18_example : gap (str " // a */ b
 /* x ** / y***/ ") /\
  show (lex 100 e_lex (on (str " // a */ b
 /* x ** / y***/ +"))) = show (lex 100 e_lex (on (str "                            +"))).
Proof.
  split; [|vm_compute; reflexivity].
  apply (gap_blank 32 (str "// a */ b
 /* x ** / y***/ ")); [unfold blank; lia|].
  apply (gap_line (str "// a */ b") (str " /* x ** / y***/ ")).
  { exists (str " a */ b"). split; [reflexivity|]. vm_compute. intuition discriminate. }
  apply (gap_blank 32 (str "/* x ** / y***/ ")); [unfold blank; lia|]. apply (gap_block (str "/* x ** / y***/") (str " ")).
  - exists (str " x ** / "), 121, 1%nat. split; [reflexivity|]. split; [lia|]. split; [vm_compute; discriminate|].
    intros (a & b & E). vm_compute in E.
    repeat (destruct a as [|? a]; cbn [app] in E; [discriminate|injection E; clear E; intros E _]). destruct a; discriminate.
  - apply (gap_blank 32 []); [unfold blank; lia|constructor].
Qed.

(** Not every block comment: the one without a body never ends. *)
Theorem C18_block_comments_refuted : ~ (forall e l before s rest,
  text (before ++ s ++ rest) -> stands l before (s ++ rest) -> block_comment s ->
  exists l', stands l' (before ++ s) rest /\ same_but_place l l' /\
    (forall t l1, returns e l t l1 <-> returns e l' t l1)).
Proof.
  intros H. assert (HT: text (str "/**/;")) by (apply codes; reflexivity).
  destruct (H e_lex (on (str "/**/;")) [] (str "/**/") (str ";") HT (on_stands _ HT)) as (l' & S & _ & R).
  - exists []. split; [reflexivity|]. intros (a & b & E). vm_compute in E. destruct a as [|? a]; [discriminate|]. destruct a; discriminate.
  - destruct (punct_ok e_lex l' (str "/**/") (str ";") [] TK_SEMICOLON) as (l1 & R1 & _); auto.
    + cbn. auto 12.
    + split; [exists []; reflexivity|]. intros q k I (s' & E). destruct q as [|c q]; [vm_compute; discriminate|]. inversion E. destruct q; [vm_compute; discriminate|discriminate].
    + intros (s' & E). discriminate.
    + intros (s' & E). discriminate.
    + intros X. discriminate.
    + apply R in R1. destruct R1 as (n & R1). specialize (R1 (n + 20)%nat ltac:(lia)). pose proof (eq_refl : option_map (fun x => t_kind (fst x)) (lex 20 e_lex (on (str "/**/;"))) = Some TK_EOF) as X.
      destruct (lex 20 e_lex (on (str "/**/;"))) as [[t2 l2]|] eqn:Y; [|discriminate X].
      rewrite (LexMono.lex_more 20 (n + 20) _ _ _ ltac:(lia) Y) in R1. inversion R1; subst. discriminate.
Qed.
Print Assumptions C18_block_comments_refuted.

(** C19.  A literal of a value below 2^63 (binary: 2^61) is an integer token of
    that value. *)
Theorem C19_integer_literals_partial : forall e l before p s rest v base,
  text (before ++ (p ++ s) ++ rest) -> stands l before ((p ++ s) ++ rest) ->
  prefix_of p base -> number_of base s v -> v < 2 ^ 63 -> (base = 2 -> v < 2 ^ 61) -> ends_number rest ->
  exists l', returns e l (mkTok (l_pos l) (l_pos l') TK_INT_LITERAL (DInt v)) l' /\ stands l' (before ++ p ++ s) rest /\ same_but_place l l'.
Proof. exact integer_ok. Qed.
Print Assumptions C19_integer_literals_partial.

Example C19_example : prefix_of (str "0x") 16 /\ number_of 16 (str "fF0") 4080 /\ ends_number (str "+1") /\
  show (lex 100 e_lex (on (str "0xfF0+1"))) = Some (mkTok 1 6 TK_INT_LITERAL (DInt 4080), (43, []), 6).
Proof.
  split; [constructor|]. split; [|split; [split; vm_compute; discriminate|vm_compute; reflexivity]].
  change 4080 with ((15 * 16 + 15) * 16 + 0).
  apply (num_more 16 (str "fF") (15 * 16 + 15) 48 0); [|vm_compute; intuition discriminate|lia].
  apply (num_more 16 (str "f") 15 70 15); [|right; left; lia|lia]. apply (num_one 16 102); [right; right; lia|lia].
Qed.

(** Not every literal that fits: 2^61 in binary becomes a floating literal. *)
Definition binary_2_61 : list Z := 49 :: repeat 48 61.
Theorem C19_binary_literals_refuted : number_of 2 binary_2_61 (2 ^ 61) /\ 2 ^ 61 < 2 ^ 63 /\
  exists l f l', text (str "0b" ++ binary_2_61) /\ stands l [] (str "0b" ++ binary_2_61) /\
    returns e_lex l (mkTok (l_pos l) (l_pos l') TK_FLOAT_LITERAL (DFloat f)) l' /\
    exists p, l_errs l' = [(too_long_int, p)].
Proof.
  split; [|split; [lia|]].
  - unfold binary_2_61. assert (G: forall n, number_of 2 (49 :: repeat 48 n) (2 ^ Z.of_nat n)).
    { induction n as [|n IH]; [apply (num_one 2 49 1); [left; lia|lia]|].
      replace (49 :: repeat 48 (S n)) with ((49 :: repeat 48 n) ++ [48]) by (cbn [app]; rewrite <- repeat_cons; reflexivity).
      replace (2 ^ Z.of_nat (S n)) with (2 ^ Z.of_nat n * 2 + 0) by (rewrite Nat2Z.inj_succ, Z.pow_succ_r by lia; lia).
      apply num_more; auto; [left; lia|lia]. }
    apply (G 61%nat).
  - assert (HT: text (str "0b" ++ binary_2_61)) by (apply codes; reflexivity). exists (on (str "0b" ++ binary_2_61)).
    assert (X: match lex 100 e_lex (on (str "0b" ++ binary_2_61)) with Some (mkTok b n k (DFloat _), l') => (b =? 1) && (n =? l_pos l') && (k =? TK_FLOAT_LITERAL)
       && match l_errs l' with [(too_long_int, _)] => true | _ => false end | _ => false end = true) by (vm_compute; reflexivity).
    destruct (lex 100 e_lex (on (str "0b" ++ binary_2_61))) as [[[b n k [|i|i|f|i|i]] l']|] eqn:Y; try discriminate X.
    exists i, l'. split; auto. split; [apply on_stands; auto|]. destruct (l_errs l') as [|[[] p] [|? ?]] eqn:Z; try (rewrite andb_false_r in X; discriminate X).
    split.
    + exists 100%nat. intros fuel L. rewrite (LexMono.lex_more 100 fuel _ _ _ L Y). change (l_pos (on (str "0b" ++ binary_2_61))) with 1. repeat f_equal; lia.
    + exists p. reflexivity.
Qed.
Print Assumptions C19_binary_literals_refuted.

(** C55.  A decimal literal with an exponent, no point and no minus is an
    integer token: the value is taken modulo 2^64, without a message. *)
Theorem C55_exponents_wrap : forall e l before s x rest v p,
  text (before ++ (s ++ x) ++ rest) -> stands l before ((s ++ x) ++ rest) ->
  number_of 10 s v -> exponent_of x p -> no_digit rest -> v < 2 ^ 63 -> p < 2 ^ 63 ->
  exists l', returns e l (mkTok (l_pos l) (l_pos l') TK_INT_LITERAL (DInt ((v * 10 ^ p) mod 2 ^ 64))) l' /\ stands l' (before ++ s ++ x) rest /\ same_but_place l l'.
Proof. exact exponent_ok. Qed.
Print Assumptions C55_exponents_wrap.

Example C55_example :
  show (lex 100 e_lex (on (str "12e+3;"))) = Some (mkTok 1 6 TK_INT_LITERAL (DInt 12000), (59, []), 6) /\
  show (lex 100 e_lex (on (str "1e20 "))) = Some (mkTok 1 5 TK_INT_LITERAL (DInt 7766279631452241920), (32, []), 5).
Proof. vm_compute. auto. Qed.

(** C20.  Every punctuator, when it is the longest one there, is returned. *)
Theorem C20_longest_punctuator : forall e l before p rest k,
  text (before ++ p ++ rest) -> stands l before (p ++ rest) ->
  In (p, k) punctuator -> longest p (p ++ rest) ->
  ~ begins (str "//") (p ++ rest) -> ~ begins (str "/*") (p ++ rest) -> (p = str "." -> no_digit rest) ->
  exists l', returns e l (mkTok (l_pos l) (l_pos l') k DNone) l' /\ stands l' (before ++ p) rest /\ same_but_place l l'.
Proof. exact punct_ok. Qed.
Print Assumptions C20_longest_punctuator.

Example C20_example : In (str ">>=", TK_GREATER_GREATER_EQUAL) punctuator /\
  show (lex 100 e_lex (on (str ">>==x"))) = Some (mkTok 1 4 TK_GREATER_GREATER_EQUAL DNone, (61, []), 4) /\
  show (lex 100 e_lex (on (str "+++x"))) = Some (mkTok 1 3 TK_PLUS_PLUS DNone, (43, []), 3).
Proof. split; [cbn; auto 50|vm_compute; auto]. Qed.

(** C21.  After any history of a compilation: a keyword gives its token; the
    keyword of line directives makes the rest of its line a comment; any other
    word gives an identifier whose representation has the word's spelling. *)
Theorem C21_words : forall e, has_memory e -> forall l before w rest,
  text (before ++ w ++ rest) -> working e (before ++ w ++ rest) l -> room (before ++ w ++ rest) l -> stands l before (w ++ rest) ->
  word w -> ends_word rest ->
  (forall k, keyword w k -> k <> TK_LINE ->
     exists l', returns e l (mkTok (l_pos l) (l_pos l') k DNone) l' /\ stands l' (before ++ w) rest) /\
  ((forall k, ~ keyword w k) ->
     exists i l', returns e l (mkTok (l_pos l) (l_pos l') TK_IDENTIFIER (DRepr i)) l' /\ stands l' (before ++ w) rest /\ names l' i w) /\
  (keyword w TK_LINE -> exists line rest' l', rest = line ++ rest' /\ ~ In 10 line /\ (rest' = [] \/ hd 0 rest' = 10) /\
     stands l' (before ++ w ++ line) rest' /\ l_strs l' = l_strs l /\ l_errs l' = l_errs l /\ (forall i x, names l' i x <-> names l i x) /\
     (forall t l1, returns e l t l1 <-> returns e l' t l1) /\ (never_returns e l <-> never_returns e l')).
Proof. exact word_ok. Qed.
Print Assumptions C21_words.

(** One representation for one spelling, all through a compilation. *)
Theorem C21_representations : forall e, has_memory e -> forall T, text T -> forall l l' i j w w',
  working e T l -> later e T l l' -> text w -> text w' -> names l i w -> names l' j w' ->
  names l' i w /\ (i = j <-> w = w').
Proof.
  intros e HM T HT l l' i j w w' W LT TW TW' N N'. pose proof (names_keep e HM T HT l l' i w W LT N) as K. split; auto.
  destruct (later_good T HT e HM l l' W LT) as (W' & _). split.
  - intros <-. eapply names_spelling; eauto.
  - intros <-. exact (names_one e HM T HT l' i j w W' K N').
Qed.
Print Assumptions C21_representations.

(** Such a compilation exists for every text, and the words below are words. *)
Example C21_example : (forall T, text T -> exists l, working e_lex T l /\ stands l [] T) /\
  word (str "abc1") /\ ends_word (str " abc1") /\ keyword (str "WHILE") TK_WHILE /\ keyword [1062; 1045; 1051] TK_INT /\
  match lex 100 e_lex (on (str "abc1 abd abc1")) with
  | Some (t1, l) => match lex 100 e_lex l with
    | Some (t2, l) => match lex 100 e_lex l with
      | Some (t3, l) => t_kind t1 = TK_IDENTIFIER /\ t_data t1 = t_data t3 /\ t_data t1 <> t_data t2 /\ match t_data t1 with DRepr i => map_to_string (l_map l) i = Some (Some (str "abc1")) | _ => False end
      | None => False end
    | None => False end
  | None => False end.
Proof.
  split; [|split; [|split; [|split; [|split]]]].
  - intros T HT. destruct (create_total (le_mem e_lex)) as (m & _ & E & _); [intros ?; reflexivity|].
    exists (lexer_create (mkIn (encs T) 0) m). split; [constructor; auto|]. rewrite (create_put T HT). apply (put_stands _ [] T).
  - exists 97, (str "bc1"). split; [reflexivity|]. split; [left; reflexivity|]. repeat constructor.
  - vm_compute. discriminate.
  - eexists (str "while"), _. split; [cbn; auto 40|]. right. left. reflexivity.
  - eexists (str "int"), _. split; [cbn; auto 40|]. right. right. right. reflexivity.
  - vm_compute. repeat split. discriminate.
Qed.

(** C22.  A string literal of any pieces adds one string, with the characters
    written; a character literal has the value written. *)
Theorem C22_strings : forall e l before q s g rest,
  text (before ++ q ++ g ++ rest) -> stands l before (q ++ g ++ rest) -> quoted q s -> Forall blank g -> not_blank_or_quote rest ->
  exists l', returns e l (mkTok (l_pos l) (l_pos l') TK_STRING_LITERAL (DString (zlen (l_strs l)))) l'
    /\ stands l' (before ++ q ++ g) rest /\ l_strs l' = l_strs l ++ [s] /\ l_errs l' = l_errs l /\ l_map l' = l_map l.
Proof. exact string_ok. Qed.
Print Assumptions C22_strings.
Theorem C22_characters : forall e l before body v rest,
  text (before ++ (39 :: body ++ [39]) ++ rest) -> stands l before ((39 :: body ++ [39]) ++ rest) -> elements 39 body [v] ->
  exists l', returns e l (mkTok (l_pos l) (l_pos l') TK_CHAR_LITERAL (DChar v)) l' /\ stands l' (before ++ 39 :: body ++ [39]) rest /\ same_but_place l l'.
Proof. exact char_ok. Qed.
Print Assumptions C22_characters.

(** Literals not closed: reported; missing is a string that runs to the end of
    the text. *)
Theorem C22_unclosed_string_partial : forall e l before body s g rest,
  text (before ++ (34 :: body) ++ 10 :: g ++ rest) -> stands l before ((34 :: body) ++ 10 :: g ++ rest) ->
  elements 34 body s -> Forall blank g -> not_blank_or_quote rest ->
  exists l' p, returns e l (mkTok (l_pos l) (l_pos l') TK_STRING_LITERAL (DString (zlen (l_strs l)))) l'
    /\ stands l' (before ++ (34 :: body) ++ 10 :: g) rest /\ l_strs l' = l_strs l ++ [s]
    /\ l_errs l' = l_errs l ++ [(missing_terminating_quote_char, p)] /\ l_map l' = l_map l.
Proof. exact string_line_ok. Qed.
Print Assumptions C22_unclosed_string_partial.
Theorem C22_unclosed_character : forall e l before body v rest,
  text (before ++ (39 :: body) ++ rest) -> stands l before ((39 :: body) ++ rest) -> elements 39 body [v] -> hd 0 rest <> 39 ->
  exists l' p, returns e l (mkTok (l_pos l) (l_pos l') TK_CHAR_LITERAL (DChar v)) l' /\ stands l' (before ++ 39 :: body) rest
    /\ l_errs l' = l_errs l ++ [(missing_terminating_apost_char, p)] /\ l_map l' = l_map l /\ l_strs l' = l_strs l.
Proof. exact char_open_ok. Qed.
Print Assumptions C22_unclosed_character.
Theorem C22_empty_character : forall e l before rest,
  text (before ++ [39; 39] ++ rest) -> stands l before ([39; 39] ++ rest) ->
  exists l' p, returns e l (mkTok (l_pos l) (l_pos l') TK_CHAR_LITERAL (DChar 0)) l' /\ stands l' (before ++ [39; 39]) rest
    /\ l_errs l' = l_errs l ++ [(empty_character_literal, p)] /\ l_map l' = l_map l /\ l_strs l' = l_strs l.
Proof. exact char_empty_ok. Qed.
Print Assumptions C22_empty_character.

(** A string that runs to the end of the text: the call does not return. *)
Theorem C22_unclosed_string_refuted : forall e l before body s,
  text (before ++ 34 :: body) -> stands l before (34 :: body) -> elements 34 body s -> never_returns e l.
Proof. exact string_hangs. Qed.
Print Assumptions C22_unclosed_string_refuted.

(** [a\n"  "\"" as written in a program. *)
Example C22_example : let q := [34; 97; 92; 110; 34; 32; 32; 34; 92; 34; 34] in
  quoted q [97; 10; 34] /\ elements 34 [97; 98] [97; 98] /\
  (match lex 100 e_lex (on (q ++ [59])) with Some (t, l) => t = mkTok 1 12 TK_STRING_LITERAL (DString 0) /\ l_strs l = [[97; 10; 34]] /\ l_errs l = [] | None => False end) /\
  lex 100 e_lex (on [34; 97; 98]) = None /\
  show (lex 100 e_lex (on [39; 92; 1085; 39; 32])) = Some (mkTok 1 6 TK_CHAR_LITERAL (DChar 10), (32, []), 6).
Proof.
  cbv zeta. split; [|split; [|vm_compute; auto 10]].
  - apply (quoted_more [97; 92; 110] [97; 10] [32; 32] [34; 92; 34; 34] [34]).
    + apply el_plain; try lia. apply el_escape; constructor.
    + repeat constructor; unfold blank; lia.
    + apply (quoted_one [92; 34]). apply el_escape; constructor.
  - apply el_plain; try lia. apply el_plain; try lia. constructor.
Qed.

(** C23.  After any history of a compilation a call either never returns or
    leaves the lexer further in the text; it returns the end of file only at
    its end. *)
Theorem C23_lexing_advances : forall e, has_memory e -> forall T, text T -> forall l before rest,
  T = before ++ rest -> working e T l -> room T l -> stands l before rest ->
  never_returns e l \/ exists t l' mid rest', rest = mid ++ rest' /\ returns e l t l' /\ stands l' (before ++ mid) rest'
    /\ (t_kind t = TK_EOF -> rest' = []) /\ (t_kind t <> TK_EOF -> mid <> []).
Proof. exact progress_ok. Qed.
Print Assumptions C23_lexing_advances.
Theorem C23_lexer_is_in_the_text : forall e, has_memory e -> forall T, text T -> forall l,
  working e T l -> exists before rest, T = before ++ rest /\ stands l before rest.
Proof. exact working_stands. Qed.
Print Assumptions C23_lexer_is_in_the_text.

(** A whole text that ends with two line feeds, of less than 64 Mb and without
    huge exponents: the calls return until the end of file.  Missing: other
    texts, see [C23_lexing_ends_refuted]. *)
Theorem C23_lexing_ends_partial : forall e, has_memory e -> forall T, text T -> forall a m,
  T = a ++ [10; 10] -> short_exponents T -> zlen (encs T) < 2 ^ 26 -> repr_create (le_mem e) = Some m ->
  exists ts, lexes e (lexer_create (mkIn (encs T) 0) m) ts.
Proof. exact whole_ok. Qed.
Print Assumptions C23_lexing_ends_partial.

Example C23_example : text (str "int x = 1e3; /* a

") /\ short_exponents (str "int x = 1e3; /* a

") /\ has_memory e_lex.
Proof.
  split; [apply codes; reflexivity|]. split; [|intros ?; reflexivity].
  intros a x ds b E _ D. apply (f_equal (fun t => zlen (filter (fun c => (48 <=? c) && (c <=? 57)) t))) in E. rewrite filter_app in E. cbn [filter] in E.
  assert (F: filter (fun c => (48 <=? c) && (c <=? 57)) ds = ds).
  { clear E. induction D as [|c ds C D IH]; auto. cbn [filter]. replace ((48 <=? c) && (c <=? 57)) with true by lia. rewrite IH. reflexivity. }
  rewrite filter_app, F in E. change (zlen (filter _ _)) with 2 in E at 1.
  destruct ((48 <=? x) && (x <=? 57)); rewrite ?zlen_app, ?zlen_cons, ?zlen_app in E;
   pose proof (zlen_nonneg (filter (fun c => (48 <=? c) && (c <=? 57)) a)); pose proof (zlen_nonneg (filter (fun c => (48 <=? c) && (c <=? 57)) b)); lia.
Qed.

Theorem C23_lexing_ends_refuted : exists T, text T /\ never_returns e_lex (on T).
Proof.
  assert (HT: text [34; 97; 98]) by (apply codes; reflexivity). exists [34; 97; 98]. split; auto.
  apply (C22_unclosed_string_refuted e_lex _ [] [97; 98] [97; 98]); auto.
  - exact (on_stands [34; 97; 98] HT).
  - apply el_plain; try lia. apply el_plain; try lia. constructor.
Qed.
Print Assumptions C23_lexing_ends_refuted.

(** C54.  Peeking leaves the place and tells the kind of the next token; the
    call after it returns that token at the same place (a string literal: with
    the same text, stored once more). *)
Theorem C54_peek_partial : forall e, has_memory e -> forall T, text T -> forall l fuel k l',
  working e T l -> room T l -> room T l' -> peek fuel e l = Some (k, l') ->
  exists t l1, returns e l t l1 /\ k = t_kind t /\ l_char l' = l_char l /\ l_io l' = l_io l /\
    exists t2 l2, returns e l' t2 l2 /\ t_begin t2 = t_begin t /\ t_end t2 = t_end t /\ t_kind t2 = t_kind t /\ l_char l2 = l_char l1 /\ l_io l2 = l_io l1 /\
      (t_kind t <> TK_STRING_LITERAL -> t2 = t) /\
      (t_kind t = TK_STRING_LITERAL -> exists i j s, t_data t = DString i /\ znth (l_strs l1) i = Some s /\ t_data t2 = DString j /\ znth (l_strs l2) j = Some s).
Proof. exact peek_ok. Qed.
Print Assumptions C54_peek_partial.
Theorem C54_peek_returns : forall e, has_memory e -> forall T, text T -> forall l, working e T l -> room T l ->
  (forall t l1, returns e l t l1 -> exists fuel k l', peek fuel e l = Some (k, l')) /\ (never_returns e l -> forall fuel, peek fuel e l = None).
Proof. intros e HM T HT. exact (peek_total e T). Qed.
Print Assumptions C54_peek_returns.

(** Not more: a message about the next token is given by both calls. *)
Theorem C54_messages_refuted : exists T l1 t l2, text T /\ peek 100 e_lex (on T) = Some (TK_PLUS, l1) /\ lex 100 e_lex l1 = Some (t, l2) /\
  map fst (l_errs l2) = [bad_character; bad_character].
Proof.
  exists (str "@+").
  assert (X: match peek 100 e_lex (on (str "@+")) with Some (k, l1) => (k =? TK_PLUS) && match lex 100 e_lex l1 with
     | Some (_, l2) => match map fst (l_errs l2) with [bad_character; bad_character] => true | _ => false end | None => false end | None => false end = true) by (vm_compute; reflexivity).
  destruct (peek 100 e_lex (on (str "@+"))) as [[k l1]|]; [|discriminate X]. destruct (lex 100 e_lex l1) as [[t l2]|] eqn:L; [|rewrite andb_false_r in X; discriminate X].
  exists l1, t, l2. split; [apply codes; reflexivity|]. split; [repeat f_equal; lia|]. split; auto. destruct (map fst (l_errs l2)) as [|[] [|[] [|? ?]]]; try (rewrite andb_false_r in X; discriminate X). reflexivity.
Qed.
Print Assumptions C54_messages_refuted.

Example C54_example : match peek 100 e_lex (on (str " x ")) with
  | Some (k, l) => k = TK_IDENTIFIER /\ l_io l = l_io (on (str " x ")) /\ option_map fst (lex 100 e_lex l) = option_map fst (lex 100 e_lex (on (str " x ")))
  | None => False end.
Proof. vm_compute. auto. Qed.

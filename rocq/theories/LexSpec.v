(** What the lexer is meant to do, in terms of the text. *)
From Verif Require Import Prelude Utf8Model Utf8Spec UniioModel StringsModel StringsSpec StringsRun MapModel MapSpec LexModel.
From Coq Require String.
Import String.StringSyntax.
Local Open Scope string_scope.
Local Open Scope list_scope.
Local Open Scope Z_scope.

(** ** Calls *)

(** [l] stands between [before] and [rest] in the text [before ++ rest]: its
    input is the UTF-8 form of the text and the current symbol is the first one
    of [rest]. *)
Definition stands (l : lexer) (before rest : list Z) : Prop :=
  in_data (l_io l) = encs (before ++ rest) /\
  match rest with
  | [] => l_char l = EOF32 /\ in_pos (l_io l) = zlen (encs before)
  | c :: _ => l_char l = c /\ in_pos (l_io l) = zlen (encs (before ++ [c]))
  end.

(** A call of [lex] returns [t]; no call returns. *)
Definition returns (e : lenv) (l : lexer) (t : token) (l' : lexer) : Prop :=
  exists n, forall fuel, (n <= fuel)%nat -> lex fuel e l = Some (t, l').
Definition never_returns (e : lenv) (l : lexer) : Prop := forall fuel, lex fuel e l = None.

(** The same table, strings and messages. *)
Definition same_but_place (l l' : lexer) : Prop := l_map l' = l_map l /\ l_strs l' = l_strs l /\ l_errs l' = l_errs l.

(** The spelling of the representation [i] is [w]. *)
Definition names (l : lexer) (i : Z) (w : list Z) : Prop := 0 <= i /\ map_to_string (l_map l) i = Some (Some (encs w)).

(** The table and the text are far from filling the memory. *)
Definition room (T : list Z) (l : lexer) : Prop := m_ksize (l_map l) + zlen (encs T) + 16 < 2 ^ 56.

(** Lexers of a compilation: made for the text [T], then used by any calls of
    [lex] and [peek]; between them the parser stores references of identifiers. *)
Inductive working (e : lenv) (T : list Z) : lexer -> Prop :=
| w_create m : repr_create (le_mem e) = Some m -> working e T (lexer_create (mkIn (encs T) 0) m)
| w_lex l t l' : working e T l -> room T l -> returns e l t l' -> working e T l'
| w_peek l fuel k l' : working e T l -> room T l -> peek fuel e l = Some (k, l') -> working e T l'
| w_refer l i v v' r m : working e T l -> 0 <= i -> map_get_by_index (l_map l) i = Some v -> 0 <= v -> 0 <= v' ->
    map_set_by_index (l_map l) i v' = Some (r, m) -> working e T (mkLexer (l_char l) (l_io l) m (l_strs l) (l_errs l)).
(** [l'] is [l] after some of these. *)
Inductive later (e : lenv) (T : list Z) (l : lexer) : lexer -> Prop :=
| lt_same : later e T l l
| lt_lex l1 t l' : later e T l l1 -> room T l1 -> returns e l1 t l' -> later e T l l'
| lt_peek l1 fuel k l' : later e T l l1 -> room T l1 -> peek fuel e l1 = Some (k, l') -> later e T l l'
| lt_refer l1 i v v' r m : later e T l l1 -> 0 <= i -> map_get_by_index (l_map l1) i = Some v -> 0 <= v -> 0 <= v' ->
    map_set_by_index (l_map l1) i v' = Some (r, m) -> later e T l (mkLexer (l_char l1) (l_io l1) m (l_strs l1) (l_errs l1)).

(** A text: a list of code points; an environment where memory is never
    refused. *)
Definition text (T : list Z) : Prop := Forall code_point T.
Definition has_memory (e : lenv) : Prop := mem_always (le_mem e).

(** ** Blanks and comments (C18) *)
Definition blank (c : Z) : Prop := c = 10 \/ c = 13 \/ c = 9 \/ c = 32.
Definition contains (p s : list Z) : Prop := exists a b, s = a ++ p ++ b.
(** A comment from its first symbol up to the end of its line, and one in
    brackets: the closing bracket is the first after the opening one. *)
Definition line_comment (s : list Z) : Prop := exists body, s = str "//" ++ body /\ ~ In 10 body.
Definition block_comment (s : list Z) : Prop :=
  exists body, s = str "/*" ++ body ++ str "*/" /\ ~ contains (str "*/") (body ++ str "*").
(** The block comments the lexer reads right: the body does not begin with a
    slash and has, at its end, an even number of stars after something else. *)
Definition plain_block_comment (s : list Z) : Prop :=
  exists b c k, s = str "/*" ++ (b ++ [c]) ++ repeat 42 (2 * k) ++ str "*/" /\ c <> 42 /\
    hd 0 (b ++ [c]) <> 47 /\ ~ contains (str "*/") (b ++ [c]).
Inductive gap : list Z -> Prop :=
| gap_nil : gap []
| gap_blank c s : blank c -> gap s -> gap (c :: s)
| gap_line s s' : line_comment s -> gap s' -> gap (s ++ 10 :: s')
| gap_block s s' : plain_block_comment s -> gap s' -> gap (s ++ s').

(** ** Integers (C19) *)
Definition digit_value (c d : Z) : Prop :=
  (48 <= c <= 57 /\ d = c - 48) \/ (65 <= c <= 70 /\ d = c - 55) \/ (97 <= c <= 102 /\ d = c - 87).
Inductive number_of (base : Z) : list Z -> Z -> Prop :=
| num_one c d : digit_value c d -> d < base -> number_of base [c] d
| num_more s v c d : number_of base s v -> digit_value c d -> d < base -> number_of base (s ++ [c]) (v * base + d).
Inductive prefix_of : list Z -> Z -> Prop :=
| pre_none : prefix_of [] 10
| pre_hex : prefix_of (str "0x") 16
| pre_Hex : prefix_of (str "0X") 16
| pre_dec : prefix_of (str "0d") 10
| pre_Dec : prefix_of (str "0D") 10
| pre_oct : prefix_of (str "0o") 8
| pre_Oct : prefix_of (str "0O") 8
| pre_bin : prefix_of (str "0b") 2
| pre_Bin : prefix_of (str "0B") 2.
(** What follows does not continue the number. *)
Definition ends_number (rest : list Z) : Prop :=
  match rest with [] => True | c :: _ => ~ ident_next c /\ c <> 46 end.

(** An exponent (C55): its letter, perhaps a plus, and the decimal digits. *)
Definition exponent_of (x : list Z) (p : Z) : Prop :=
  exists c sign t, x = c :: sign ++ t /\ In c [101; 69; 1077; 1045] /\ (sign = [] \/ sign = [43]) /\ number_of 10 t p.
Definition no_digit (rest : list Z) : Prop := match rest with [] => True | c :: _ => ~ 48 <= c <= 57 end.

(** ** Punctuators (C20) *)
Definition punctuator : list (list Z * Z) :=
  [(str "[", TK_L_SQUARE); (str "(", TK_L_PAREN); (str "{", TK_L_BRACE); (str "]", TK_R_SQUARE);
   (str ")", TK_R_PAREN); (str "}", TK_R_BRACE); (str ",", TK_COMMA); (str ":", TK_COLON);
   (str ";", TK_SEMICOLON); (str "?", TK_QUESTION); (str "~", TK_TILDE); (str ".", TK_PERIOD);
   (str "+", TK_PLUS); (str "+=", TK_PLUS_EQUAL); (str "++", TK_PLUS_PLUS);
   (str "-", TK_MINUS); (str "-=", TK_MINUS_EQUAL); (str "--", TK_MINUS_MINUS); (str "->", TK_ARROW);
   (str "*", TK_STAR); (str "*=", TK_STAR_EQUAL); (str "/", TK_SLASH); (str "/=", TK_SLASH_EQUAL);
   (str "%", TK_PERCENT); (str "%=", TK_PERCENT_EQUAL); (str "!", TK_EXCLAIM); (str "!=", TK_EXCLAIM_EQUAL);
   (str "^", TK_CARET); (str "^=", TK_CARET_EQUAL);
   (str "|", TK_PIPE); (str "|=", TK_PIPE_EQUAL); (str "||", TK_PIPE_PIPE);
   (str "&", TK_AMP); (str "&=", TK_AMP_EQUAL); (str "&&", TK_AMP_AMP);
   (str "=", TK_EQUAL); (str "==", TK_EQUAL_EQUAL);
   (str "<", TK_LESS); (str "<=", TK_LESS_EQUAL); (str "<<", TK_LESS_LESS); (str "<<=", TK_LESS_LESS_EQUAL);
   (str ">", TK_GREATER); (str ">=", TK_GREATER_EQUAL); (str ">>", TK_GREATER_GREATER);
   (str ">>=", TK_GREATER_GREATER_EQUAL)].
Definition begins (p s : list Z) : Prop := exists s', s = p ++ s'.
(** [p] is the longest punctuator at the beginning of [s]. *)
Definition longest (p s : list Z) : Prop :=
  begins p s /\ forall q k, In (q, k) punctuator -> begins q s -> zlen q <= zlen p.

(** ** Words (C21) *)
Definition word (w : list Z) : Prop := exists c cs, w = c :: cs /\ ident_start c /\ Forall ident_next cs.
Definition ends_word (rest : list Z) : Prop := match rest with [] => True | c :: _ => ~ ident_next c end.
Definition capital (c : Z) : Z :=
  if (97 <=? c) && (c <=? 122) then c - 32
  else if (1072 <=? c) && (c <=? 1103) then c - 32
  else if c =? 1105 then 1025 else c.
Definition keyword_list : list (list Z * list Z * Z) :=
  [
   (str "#line", [35; 1089; 1090; 1088; 1086; 1082; 1072], TK_LINE); (* #строка *)
   (str "char", [1083; 1080; 1090; 1077; 1088; 1072], TK_CHAR); (* литера *)
   (str "double", [1076; 1074; 1086; 1081; 1085; 1086; 1081], TK_DOUBLE); (* двойной *)
   (str "float", [1074; 1077; 1097], TK_FLOAT); (* вещ *)
   (str "int", [1094; 1077; 1083], TK_INT); (* цел *)
   (str "long", [1076; 1083; 1080; 1085], TK_LONG); (* длин *)
   (str "struct", [1089; 1090; 1088; 1091; 1082; 1090; 1091; 1088; 1072], TK_STRUCT); (* структура *)
   (str "enum", [1087; 1077; 1088; 1077; 1095; 1080; 1089; 1083; 1077; 1085; 1080; 1077], TK_ENUM); (* перечисление *)
   (str "void", [1087; 1091; 1089; 1090; 1086], TK_VOID); (* пусто *)
   (str "file", [1092; 1072; 1081; 1083], TK_FILE); (* файл *)
   (str "typedef", [1090; 1080; 1087; 1086; 1087; 1088], TK_TYPEDEF); (* типопр *)
   (str "if", [1077; 1089; 1083; 1080], TK_IF); (* если *)
   (str "else", [1080; 1085; 1072; 1095; 1077], TK_ELSE); (* иначе *)
   (str "do", [1094; 1080; 1082; 1083], TK_DO); (* цикл *)
   (str "while", [1087; 1086; 1082; 1072], TK_WHILE); (* пока *)
   (str "for", [1076; 1083; 1103], TK_FOR); (* для *)
   (str "switch", [1074; 1099; 1073; 1086; 1088], TK_SWITCH); (* выбор *)
   (str "case", [1089; 1083; 1091; 1095; 1072; 1081], TK_CASE); (* случай *)
   (str "default", [1091; 1084; 1086; 1083; 1095; 1072; 1085; 1080; 1077], TK_DEFAULT); (* умолчание *)
   (str "break", [1074; 1099; 1093; 1086; 1076], TK_BREAK); (* выход *)
   (str "continue", [1087; 1088; 1086; 1076; 1086; 1083; 1078; 1080; 1090; 1100], TK_CONTINUE); (* продолжить *)
   (str "return", [1074; 1086; 1079; 1074; 1088; 1072; 1090], TK_RETURN); (* возврат *)
   (str "null", [1085; 1080; 1095; 1090; 1086], TK_NULL); (* ничто *)
   (str "abs", [1072; 1073; 1089], TK_ABS); (* абс *)
   (str "upb", [1082; 1086; 1083; 95; 1074; 1086], TK_UPB); (* кол_во *)
   (str "bool", [1073; 1091; 1083; 1077; 1074; 1086], TK_BOOL); (* булево *)
   (str "true", [1080; 1089; 1090; 1080; 1085; 1072], TK_TRUE); (* истина *)
   (str "false", [1083; 1086; 1078; 1100], TK_FALSE); (* ложь *)
   (str "const", [1082; 1086; 1085; 1089; 1090], TK_CONST)  (* конст *)
  ].
(** [w] is the keyword of kind [k]: in English or Russian, all letters small
    or all capital. *)
Definition keyword (w : list Z) (k : Z) : Prop :=
  exists eng rus, In (eng, rus, k) keyword_list /\
    (w = eng \/ w = map capital eng \/ w = rus \/ w = map capital rus).

(** ** Characters and strings (C22) *)
Inductive escape_of : Z -> Z -> Prop :=
| esc_n : escape_of 110 10        (* n: line feed *)
| esc_n_rus : escape_of 1085 10   (* the Cyrillic letter in its place *)
| esc_t : escape_of 116 9         (* t: tabulation *)
| esc_t_rus : escape_of 1090 9
| esc_0 : escape_of 48 0          (* 0 *)
| esc_slash : escape_of 92 92     (* backslash *)
| esc_apost : escape_of 39 39     (* apostrophe *)
| esc_quote : escape_of 34 34.    (* quotation mark *)
(** [elements q body s]: [body], inside quotes [q], stands for [s]. *)
Inductive elements (q : Z) : list Z -> list Z -> Prop :=
| el_nil : elements q [] []
| el_plain c body s : c <> q -> c <> 10 -> c <> 92 -> elements q body s -> elements q (c :: body) (c :: s)
| el_escape d v body s : escape_of d v -> elements q body s -> elements q (92 :: d :: body) (v :: s).
(** A string literal: pieces in quotes, with only blanks between. *)
Inductive quoted : list Z -> list Z -> Prop :=
| quoted_one body s : elements 34 body s -> quoted (34 :: body ++ [34]) s
| quoted_more body s g q t : elements 34 body s -> Forall blank g -> quoted q t ->
    quoted ((34 :: body ++ [34]) ++ g ++ q) (s ++ t).
Definition not_blank_or_quote (rest : list Z) : Prop := match rest with [] => True | c :: _ => ~ blank c /\ c <> 34 end.

(** ** The whole text (C23) *)
(** [lexes e l ts]: the calls from [l] on return [ts], the end of file last. *)
Inductive lexes (e : lenv) : lexer -> list token -> Prop :=
| lexes_end l t l' : returns e l t l' -> t_kind t = TK_EOF -> lexes e l [t]
| lexes_more l t l' ts : returns e l t l' -> t_kind t <> TK_EOF -> lexes e l' ts -> lexes e l (t :: ts).
(** No run of more than 18 digits follows an exponent letter or a sign. *)
Definition short_exponents (T : list Z) : Prop :=
  forall a x ds b, T = a ++ x :: ds ++ b -> In x [101; 69; 1077; 1045; 43; 45] -> Forall (fun c => 48 <= c <= 57) ds -> zlen ds <= 18.

(** Model of the lexer (libs/compiler/lexer.c) and of the tokens
    (libs/compiler/token.h, libs/compiler/token.c).

    - the text is read through [uni_scan_char] from the input of
      UniioModel.v; identifiers go to the representation table, which is the map
      of MapModel.v;
    - the table of string literals is the list of their texts, and its index
      the number of a literal (the table itself is modelled in StringsModel.v);
    - an error message is recorded as its kind and the position at which it is
      reported; the reporter is modelled elsewhere;
    - [double] is IEEE binary64 as defined by the standard library's SpecFloat;
      [pow] of the C library is a parameter;
    - a [while] loop takes fuel and gives [None] when the fuel runs out, so that
      a loop that never ends gives [None] for every fuel; [None] also stands
      for undefined behaviour (overflow of the [int64_t] exponent). *)
From Verif Require Import Prelude Utf8Model UniioModel MapModel.
From Coq Require Import SpecFloat.

(** ** Tokens *)

(** libs/compiler/token.h:30-120 [token_t].  SHRT_MIN is -32768; keywords,
    identifiers, literals and opening brackets follow in order. *)
Definition TK_MAIN : Z := 0.
Definition TK_EOF : Z := -32768.
Definition TK_LINE : Z := -32767.
Definition TK_ABS : Z := -32766.
Definition TK_BOOL : Z := -32765.
Definition TK_BREAK : Z := -32764.
Definition TK_CASE : Z := -32763.
Definition TK_CHAR : Z := -32762.
Definition TK_CONST : Z := -32761.
Definition TK_CONTINUE : Z := -32760.
Definition TK_DEFAULT : Z := -32759.
Definition TK_DO : Z := -32758.
Definition TK_DOUBLE : Z := -32757.
Definition TK_ELSE : Z := -32756.
Definition TK_ENUM : Z := -32755.
Definition TK_FALSE : Z := -32754.
Definition TK_FILE : Z := -32753.
Definition TK_FLOAT : Z := -32752.
Definition TK_FOR : Z := -32751.
Definition TK_IF : Z := -32750.
Definition TK_INT : Z := -32749.
Definition TK_LONG : Z := -32748.
Definition TK_NULL : Z := -32747.
Definition TK_RETURN : Z := -32746.
Definition TK_STRUCT : Z := -32745.
Definition TK_SWITCH : Z := -32744.
Definition TK_TRUE : Z := -32743.
Definition TK_TYPEDEF : Z := -32742.
Definition TK_UPB : Z := -32741.
Definition TK_VOID : Z := -32740.
Definition TK_WHILE : Z := -32739.
Definition TK_IDENTIFIER : Z := -32738.
Definition TK_INT_LITERAL : Z := -32737.
Definition TK_FLOAT_LITERAL : Z := -32736.
Definition TK_CHAR_LITERAL : Z := -32735.
Definition TK_STRING_LITERAL : Z := -32734.
Definition TK_L_SQUARE : Z := -32733.
Definition TK_L_PAREN : Z := -32732.
Definition TK_L_BRACE : Z := -32731.
Definition TK_R_SQUARE : Z := 1.
Definition TK_R_PAREN : Z := 2.
Definition TK_R_BRACE : Z := 4.
Definition TK_COMMA : Z := 8.
Definition TK_COLON : Z := 16.
Definition TK_SEMICOLON : Z := 32.
Definition TK_QUESTION : Z := -32730.
Definition TK_TILDE : Z := -32729.
Definition TK_PERIOD : Z := -32728.
Definition TK_PLUS : Z := -32727.
Definition TK_MINUS : Z := -32726.
Definition TK_STAR : Z := -32725.
Definition TK_SLASH : Z := -32724.
Definition TK_PERCENT : Z := -32723.
Definition TK_EXCLAIM : Z := -32722.
Definition TK_CARET : Z := -32721.
Definition TK_PIPE : Z := -32720.
Definition TK_AMP : Z := -32719.
Definition TK_EQUAL : Z := -32718.
Definition TK_LESS : Z := -32717.
Definition TK_GREATER : Z := -32716.
Definition TK_ARROW : Z := -32715.
Definition TK_PLUS_EQUAL : Z := -32714.
Definition TK_PLUS_PLUS : Z := -32713.
Definition TK_MINUS_EQUAL : Z := -32712.
Definition TK_MINUS_MINUS : Z := -32711.
Definition TK_STAR_EQUAL : Z := -32710.
Definition TK_SLASH_EQUAL : Z := -32709.
Definition TK_PERCENT_EQUAL : Z := -32708.
Definition TK_EXCLAIM_EQUAL : Z := -32707.
Definition TK_CARET_EQUAL : Z := -32706.
Definition TK_PIPE_EQUAL : Z := -32705.
Definition TK_PIPE_PIPE : Z := -32704.
Definition TK_AMP_EQUAL : Z := -32703.
Definition TK_AMP_AMP : Z := -32702.
Definition TK_EQUAL_EQUAL : Z := -32701.
Definition TK_LESS_EQUAL : Z := -32700.
Definition TK_LESS_LESS : Z := -32699.
Definition TK_GREATER_EQUAL : Z := -32698.
Definition TK_GREATER_GREATER : Z := -32697.
Definition TK_LESS_LESS_EQUAL : Z := -32696.
Definition TK_GREATER_GREATER_EQUAL : Z := -32695.

(** libs/compiler/token.h:122-143 [struct location], [struct token]; the union
    is a sum. *)
Inductive tdata :=
| DNone
| DRepr (r : Z)
| DChar (c : Z)
| DInt (v : Z)
| DFloat (f : spec_float)
| DString (n : Z).
Record token := mkTok { t_begin : Z; t_end : Z; t_kind : Z; t_data : tdata }.

(** libs/compiler/token.c:51-140, the constructors of tokens. *)
Definition token_identifier (b e : Z) (r : Z) : token := mkTok b e TK_IDENTIFIER (DRepr r).
Definition token_char_literal (b e : Z) (c : Z) : token := mkTok b e TK_CHAR_LITERAL (DChar c).
Definition token_int_literal (b e : Z) (v : Z) : token := mkTok b e TK_INT_LITERAL (DInt v).
Definition token_float_literal (b e : Z) (v : spec_float) : token := mkTok b e TK_FLOAT_LITERAL (DFloat v).
Definition token_string_literal (b e : Z) (n : Z) : token := mkTok b e TK_STRING_LITERAL (DString n).
Definition token_eof : token := mkTok SIZE_MAX SIZE_MAX TK_EOF DNone.
Definition token_keyword (b e : Z) (k : Z) : token := mkTok b e k DNone.
Definition token_punctuator (b e : Z) (k : Z) : token := mkTok b e k DNone.

(** ** The lexer *)

(** Messages of the lexer (libs/compiler/errors.h). *)
Inductive lex_err :=
| unterminated_block_comment | digit_of_another_base | exponent_has_no_digits
| unknown_escape_sequence | empty_character_literal | missing_terminating_apost_char
| missing_terminating_quote_char | bad_character
| too_long_int. (* a warning *)

(** libs/compiler/lexer.h [struct lexer] with the parts of [struct syntax] the
    lexer uses: the input, the representation table, the string literals and
    the messages reported.  [lexstr] is empty between calls and is a local
    list of [lex_string_literal] here. *)
Record lexer := mkLexer {
  l_char : Z; l_io : input; l_map : map_t; l_strs : list (list Z); l_errs : list (lex_err * Z) }.

(** What the environment gives: memory for the table, and [pow]. *)
Record lenv := mkLenv { le_mem : oenv; le_pow : spec_float -> spec_float -> spec_float }.

Definition l_pos (l : lexer) : Z := in_pos (l_io l).

(** libs/compiler/lexer.c:29-40 [lexer_error]: the message and the position. *)
Definition lexer_error (l : lexer) (err : lex_err) : lexer :=
  mkLexer (l_char l) (l_io l) (l_map l) (l_strs l) (l_errs l ++ [(err, l_pos l)]).

(** libs/compiler/lexer.c:49-53 [scan]. *)
Definition scan (l : lexer) : lexer :=
  let '(c, io) := uni_scan_char (l_io l) in mkLexer c io (l_map l) (l_strs l) (l_errs l).

(** libs/compiler/lexer.c:62-68 [lookahead]: the position is restored. *)
Definition lookahead (l : lexer) : Z := fst (uni_scan_char (l_io l)).

(** libs/compiler/lexer.c:77-78. *)
Definition is_blank (c : Z) : bool := (c =? 10) || (c =? 13) || (c =? 9) || (c =? 32).

(** libs/compiler/lexer.c:75-82 [skip_whitespace]. *)
Fixpoint skip_whitespace (fuel : nat) (l : lexer) : option lexer :=
  if is_blank (l_char l) then
    match fuel with O => None | S fuel => skip_whitespace fuel (scan l) end
  else Some l.

(** libs/compiler/lexer.c:89-95 [skip_line_comment]. *)
Fixpoint skip_line_comment (fuel : nat) (l : lexer) : option lexer :=
  if negb (l_char l =? 10) && negb (l_char l =? EOF32) then
    match fuel with O => None | S fuel => skip_line_comment fuel (scan l) end
  else Some l.

(** libs/compiler/lexer.c:102-116 [skip_block_comment]; entered with the star
    of the opening bracket as the current character. *)
Fixpoint skip_block_comment (fuel : nat) (l : lexer) : option lexer :=
  let '(closed, l) :=
    if l_char l =? 42 then let l := scan l in (l_char l =? 47, l) else (false, l) in
  if closed then Some (scan l)
  else if l_char l =? EOF32 then Some (lexer_error l unterminated_block_comment)
  else match fuel with O => None | S fuel => skip_block_comment fuel (scan l) end.

(** libs/compiler/lexer.c:125-142 [lex_identifier_or_keyword], with
    libs/compiler/syntax.c:894-897 [repr_reserve] and 904-907
    [repr_get_reference]. *)
Definition lex_identifier_or_keyword (e : lenv) (l : lexer) : option (token * lexer) :=
  let loc_begin := l_pos l in
  let '(_, io) := uni_unscan_char (l_io l) (l_char l) in
  do ' (repr, x, m) <- map_reserve (le_mem e) (l_map l) (KIo io);
  match x with
  | None => None
  | Some (last, io) =>
      let l := mkLexer last io m (l_strs l) (l_errs l) in
      let loc_end := l_pos l in
      do ref <- map_get_by_index m repr;
      Some (if ref >=? 0 then token_identifier loc_begin loc_end repr
            else token_keyword loc_begin loc_end ref, l)
  end.

(** ** Numbers *)

(** [double]: IEEE binary64, rounding to nearest even. *)
Definition d_add := SFadd 53 1024.
Definition d_mul := SFmul 53 1024.
Definition d_of (z : Z) : spec_float := binary_normalize 53 1024 z 0 false.
Definition d_zero : spec_float := S754_zero false.
(** The constants 0.1 (3602879701896397 / 2^55) and DBL_MAX. *)
Definition d_tenth : spec_float := S754_finite false 7205759403792794 (-56).
Definition DBL_MAX : spec_float := S754_finite false 9007199254740991 971.

Definition LLONG_MAX64 : Z := 9223372036854775807.

(** libs/compiler/lexer.c:215-218 and 293-297, loops that skip the rest of a
    wrong number. *)
Fixpoint skip_hexa (fuel : nat) (l : lexer) : option lexer :=
  if utf8_is_hexa_digit (l_char l) then
    match fuel with O => None | S fuel => skip_hexa fuel (scan l) end
  else Some l.
Fixpoint skip_exponent (fuel : nat) (l : lexer) : option lexer :=
  if utf8_is_letter (l_char l) || utf8_is_digit (l_char l) || (l_char l =? 43) || (l_char l =? 45) then
    match fuel with O => None | S fuel => skip_exponent fuel (scan l) end
  else Some l.

(** libs/compiler/lexer.c:195-199, the variables of the value. *)
Record num := mkNum { n_int : Z; n_float : spec_float; n_range : bool; n_integer : bool }.

(** libs/compiler/lexer.c:157-193, the modifier of the base. *)
Definition lex_base (l : lexer) : Z * bool * lexer :=
  if l_char l =? 48 then
    let l := scan l in
    let c := l_char l in
    if (c =? 120) || (c =? 88) then (16, true, scan l)
    else if (c =? 100) || (c =? 68) then (10, true, scan l)
    else if (c =? 111) || (c =? 79) then (8, true, scan l)
    else if (c =? 98) || (c =? 66) then (2, true, scan l)
    else (10, false, l)
  else (10, false, l).

(** libs/compiler/lexer.c:224-241, one digit. *)
Definition num_digit (base : Z) (n : num) (digit : Z) : num :=
  let n :=
    if ((base =? 2) && (n_int n >=? 0x8000000000000000)) || ((base =? 8) && (n_int n >=? 0x2000000000000000))
       || (n_int n >=? 0x1000000000000000)
    then mkNum (n_int n) (d_of (n_int n)) false false else n in
  if n_integer n then mkNum (u64 (n_int n * base + digit)) (n_float n) (n_range n) (n_integer n)
  else mkNum (n_int n) (d_add (d_mul (n_float n) (d_of base)) (d_of digit)) (n_range n) (n_integer n).

(** libs/compiler/lexer.c:201-244, the digits; the boolean tells that a digit
    of another base was met. *)
Fixpoint num_digits (fuel : nat) (base : Z) (was_modifier : bool) (n : num) (l : lexer) : option (bool * num * lexer) :=
  if utf8_is_hexa_digit (l_char l) then
    if negb was_modifier && utf8_is_power (l_char l) then Some (false, n, l)
    else
      let digit := utf8_to_number (l_char l) in
      if digit >=? base then Some (true, n, l)
      else match fuel with
           | O => None
           | S fuel => num_digits fuel base was_modifier (num_digit base n digit) (scan l)
           end
  else Some (false, n, l).

(** libs/compiler/lexer.c:258-262, digits of the fraction; entered with the
    point or the last digit as the current character. *)
Fixpoint num_fraction (fuel : nat) (f mult : spec_float) (l : lexer) : option (spec_float * lexer) :=
  let l := scan l in
  if utf8_is_digit (l_char l) then
    match fuel with
    | O => None
    | S fuel => num_fraction fuel (d_add f (d_mul (d_of (utf8_to_number (l_char l))) mult)) (d_mul mult d_tenth) l
    end
  else Some (f, l).

(** libs/compiler/lexer.c:303-307, digits of the exponent ([int64_t]). *)
Fixpoint num_power (fuel : nat) (power : Z) (l : lexer) : option (Z * lexer) :=
  if utf8_is_digit (l_char l) then
    match fuel with
    | O => None
    | S fuel =>
        let power := power * 10 + utf8_to_number (l_char l) in
        if power <=? LLONG_MAX64 then num_power fuel power (scan l) else None
    end
  else Some (power, l).

(** libs/compiler/lexer.c:249-254 and 274-279: the value becomes a [double]. *)
Definition num_to_float (n : num) : num :=
  mkNum (n_int n) (if n_integer n then d_of (n_int n) else n_float n) (n_range n) false.

(** libs/compiler/lexer.c:265-318, the exponent; the boolean tells that it has
    no digits.  The loop of lines 311-314 multiplies by 10 [power] times. *)
Definition num_exponent (fuel : nat) (e : lenv) (n : num) (l : lexer) : option (bool * num * lexer) :=
  let l := scan l in
  let '(sign, n, l) :=
    if l_char l =? 45 then (-1, num_to_float n, scan l)
    else if l_char l =? 43 then (1, n, scan l) else (1, n, l) in
  if negb (utf8_is_digit (l_char l)) then Some (true, n, l)
  else
    do ' (power, l) <- num_power fuel 0 l;
    Some (false,
          mkNum (if n_integer n then u64 (n_int n * 10 ^ power) else n_int n)
                (d_mul (n_float n) (le_pow e (d_of 10) (d_mul (d_of sign) (d_of power)))) (n_range n) (n_integer n), l).

(** libs/compiler/lexer.c:320-335, the token. *)
Definition num_token (loc_begin : Z) (n : num) (l : lexer) : token * lexer :=
  if n_integer n then (token_int_literal loc_begin (l_pos l) (n_int n), l)
  else (token_float_literal loc_begin (l_pos l) (n_float n), if n_range n then l else lexer_error l too_long_int).

(** libs/compiler/lexer.c:151-336 [lex_numeric_literal]. *)
Definition lex_numeric_literal (fuel : nat) (e : lenv) (l : lexer) : option (token * lexer) :=
  let loc_begin := l_pos l in
  let '(base, was_modifier, l) := lex_base l in
  do ' (wrong, n, l) <- num_digits fuel base was_modifier (mkNum 0 d_zero true true) l;
  if wrong then
    do l <- skip_hexa fuel (lexer_error l digit_of_another_base);
    Some (token_int_literal loc_begin (l_pos l) (n_int n), l)
  else
    do ' (n, l) <-
      (if (l_char l =? 46) && negb was_modifier then
         let n := num_to_float n in
         do ' (f, l) <- num_fraction fuel (n_float n) d_tenth l;
         Some (mkNum (n_int n) f (n_range n) (n_integer n), l)
       else Some (n, l));
    if utf8_is_power (l_char l) && negb was_modifier then
      do ' (wrong, n, l) <- num_exponent fuel e n l;
      if wrong then
        do l <- skip_exponent fuel (lexer_error l exponent_has_no_digits);
        Some (token_float_literal loc_begin (l_pos l) DBL_MAX, l)
      else Some (num_token loc_begin n l)
    else Some (num_token loc_begin n l).

(** ** Characters and strings *)

(** libs/compiler/lexer.c:339-368 [get_next_string_elem]. *)
Definition get_next_string_elem (l : lexer) : Z * lexer :=
  if l_char l =? 92 then
    let l := scan l in
    let c := l_char l in
    if (c =? 110) || (c =? 1085) then (10, l)
    else if (c =? 116) || (c =? 1090) then (9, l)
    else if c =? 48 then (0, l)
    else if (c =? 92) || (c =? 39) || (c =? 34) then (c, l)
    else (c, lexer_error l unknown_escape_sequence)
  else (l_char l, l).

(** libs/compiler/lexer.c:377-404 [lex_char_literal]. *)
Definition lex_char_literal (l : lexer) : token * lexer :=
  let loc_begin := l_pos l in
  let l := scan l in
  if l_char l =? 39 then
    let l := scan (lexer_error l empty_character_literal) in
    (token_char_literal loc_begin (l_pos l) 0, l)
  else
    let '(value, l) := get_next_string_elem l in
    let l := scan l in
    let l := if l_char l =? 39 then scan l else lexer_error l missing_terminating_apost_char in
    (token_char_literal loc_begin (l_pos l) value, l).

(** libs/compiler/lexer.c:421-425, the characters of one piece. *)
Fixpoint string_piece (fuel : nat) (acc : list Z) (l : lexer) : option (list Z * lexer) :=
  if negb (l_char l =? 34) && negb (l_char l =? 10) then
    match fuel with
    | O => None
    | S fuel => let '(c, l) := get_next_string_elem l in string_piece fuel (acc ++ [c]) (scan l)
    end
  else Some (acc, l).

(** libs/compiler/lexer.c:418-436, the pieces. *)
Fixpoint string_pieces (fuel : nat) (acc : list Z) (l : lexer) : option (list Z * lexer) :=
  if l_char l =? 34 then
    match fuel with
    | O => None
    | S fuel' =>
        do ' (acc, l) <- string_piece fuel acc (scan l);
        let l := if l_char l =? 34 then scan l else lexer_error l missing_terminating_quote_char in
        do l <- skip_whitespace fuel l;
        string_pieces fuel' acc l
    end
  else Some (acc, l).

(** libs/compiler/lexer.c:413-443 [lex_string_literal]. *)
Definition lex_string_literal (fuel : nat) (l : lexer) : option (token * lexer) :=
  let loc_begin := l_pos l in
  do ' (s, l) <- string_pieces fuel [] l;
  let loc_end := l_pos l in
  Some (token_string_literal loc_begin loc_end (zlen (l_strs l)),
        mkLexer (l_char l) (l_io l) (l_map l) (l_strs l ++ [s]) (l_errs l)).

(** ** The next token *)

(** libs/compiler/lexer.c:455-465 [lexer_create]. *)
Definition lexer_create (io : input) (m : map_t) : lexer := scan (mkLexer 0 io m [] []).

(** What one round of the loop of [lex] does: a token, a punctuator of the
    given kind, or [continue]. *)
Inductive lround := LToken (t : token) (l : lexer) | LPunct (k : Z) (l : lexer) | LAgain (l : lexer).

(** libs/compiler/lexer.c:591-649, a punctuator that may be followed by '='. *)
Definition with_equal (l : lexer) (eq no : Z) : option lround :=
  let l := scan l in
  Some (if l_char l =? 61 then LPunct eq (scan l) else LPunct no l).

(** libs/compiler/lexer.c:651-706, one that may be followed by '=' or itself. *)
Definition with_equal_or (l : lexer) (c eq twice no : Z) : option lround :=
  let l := scan l in
  Some (if l_char l =? 61 then LPunct eq (scan l) else if l_char l =? c then LPunct twice (scan l) else LPunct no l).

(** libs/compiler/lexer.c:732-782, '<' and '>'. *)
Definition with_shift (l : lexer) (c twice_eq twice eq no : Z) : option lround :=
  let l := scan l in
  Some (if l_char l =? c then
          let l := scan l in if l_char l =? 61 then LPunct twice_eq (scan l) else LPunct twice l
        else if l_char l =? 61 then LPunct eq (scan l) else LPunct no l).

(** libs/compiler/lexer.c:486-805, the switch on the current character. *)
Definition lex_switch (fuel : nat) (e : lenv) (l : lexer) : option lround :=
  let c := l_char l in
  if c =? EOF32 then Some (LToken token_eof l)
  else if utf8_is_digit c then do ' (t, l) <- lex_numeric_literal fuel e l; Some (LToken t l)
  else if c =? 39 then let '(t, l) := lex_char_literal l in Some (LToken t l)
  else if c =? 34 then do ' (t, l) <- lex_string_literal fuel l; Some (LToken t l)
  else if c =? 63 then Some (LPunct TK_QUESTION (scan l))
  else if c =? 91 then Some (LPunct TK_L_SQUARE (scan l))
  else if c =? 93 then Some (LPunct TK_R_SQUARE (scan l))
  else if c =? 40 then Some (LPunct TK_L_PAREN (scan l))
  else if c =? 41 then Some (LPunct TK_R_PAREN (scan l))
  else if c =? 123 then Some (LPunct TK_L_BRACE (scan l))
  else if c =? 125 then Some (LPunct TK_R_BRACE (scan l))
  else if c =? 126 then Some (LPunct TK_TILDE (scan l))
  else if c =? 58 then Some (LPunct TK_COLON (scan l))
  else if c =? 59 then Some (LPunct TK_SEMICOLON (scan l))
  else if c =? 44 then Some (LPunct TK_COMMA (scan l))
  else if c =? 46 then
    if utf8_is_digit (lookahead l) then do ' (t, l) <- lex_numeric_literal fuel e l; Some (LToken t l)
    else Some (LPunct TK_PERIOD (scan l))
  else if c =? 42 then with_equal l TK_STAR_EQUAL TK_STAR
  else if c =? 33 then with_equal l TK_EXCLAIM_EQUAL TK_EXCLAIM
  else if c =? 37 then with_equal l TK_PERCENT_EQUAL TK_PERCENT
  else if c =? 94 then with_equal l TK_CARET_EQUAL TK_CARET
  else if c =? 61 then with_equal l TK_EQUAL_EQUAL TK_EQUAL
  else if c =? 43 then with_equal_or l 43 TK_PLUS_EQUAL TK_PLUS_PLUS TK_PLUS
  else if c =? 124 then with_equal_or l 124 TK_PIPE_EQUAL TK_PIPE_PIPE TK_PIPE
  else if c =? 38 then with_equal_or l 38 TK_AMP_EQUAL TK_AMP_AMP TK_AMP
  else if c =? 45 then
    let l := scan l in
    Some (if l_char l =? 61 then LPunct TK_MINUS_EQUAL (scan l)
          else if l_char l =? 45 then LPunct TK_MINUS_MINUS (scan l)
          else if l_char l =? 62 then LPunct TK_ARROW (scan l) else LPunct TK_MINUS l)
  else if c =? 60 then with_shift l 60 TK_LESS_LESS_EQUAL TK_LESS_LESS TK_LESS_EQUAL TK_LESS
  else if c =? 62 then with_shift l 62 TK_GREATER_GREATER_EQUAL TK_GREATER_GREATER TK_GREATER_EQUAL TK_GREATER
  else if c =? 47 then
    let l := scan l in
    if l_char l =? 61 then Some (LPunct TK_SLASH_EQUAL (scan l))
    else if l_char l =? 47 then do l <- skip_line_comment fuel l; Some (LAgain l)
    else if l_char l =? 42 then do l <- skip_block_comment fuel l; Some (LAgain l)
    else Some (LPunct TK_SLASH l)
  else if utf8_is_letter c || (c =? 35) then
    do ' (t, l) <- lex_identifier_or_keyword e l;
    if t_kind t =? TK_LINE then do l <- skip_line_comment fuel l; Some (LAgain l) else Some (LToken t l)
  else Some (LAgain (scan (lexer_error l bad_character))).

(** libs/compiler/lexer.c:473-810 [lex]. *)
Fixpoint lex (fuel : nat) (e : lenv) (l : lexer) : option (token * lexer) :=
  match fuel with
  | O => None
  | S fuel' =>
      do l <- skip_whitespace fuel l;
      let loc_begin := l_pos l in
      do r <- lex_switch fuel e l;
      match r with
      | LToken t l => Some (t, l)
      | LPunct k l => Some (token_punctuator loc_begin (l_pos l) k, l)
      | LAgain l => lex fuel' e l
      end
  end.

(** libs/compiler/lexer.c:812-820 [peek]. *)
Definition peek (fuel : nat) (e : lenv) (l : lexer) : option (Z * lexer) :=
  let position := l_pos l in
  let character := l_char l in
  do ' (t, l) <- lex fuel e l;
  let '(_, io) := in_set_position (l_io l) position in
  Some (t_kind t, mkLexer character io (l_map l) (l_strs l) (l_errs l)).

(** ** Keywords *)

(** libs/compiler/syntax.c:32-51 [repr_add_keyword]: the four spellings (the
    strings end with a NUL symbol, not written here). *)
Definition repr_add_keyword (e : oenv) (m : map_t) (eng rus : list Z) (tk : Z) : option map_t :=
  do ' (_, _, m) <- map_add e m (KUtf8 eng) tk;
  do ' (_, _, m) <- map_add e m (KUtf8 (map utf8_to_upper eng)) tk;
  do ' (_, _, m) <- map_add e m (KUtf8 rus) tk;
  do ' (_, _, m) <- map_add e m (KUtf8 (map utf8_to_upper rus)) tk;
  Some m.

(** libs/compiler/syntax.c:53-86 [repr_init]. *)
Definition keyword_rows : list (list Z * list Z * Z) :=
  [
   ([35; 108; 105; 110; 101], [35; 1089; 1090; 1088; 1086; 1082; 1072], TK_LINE); (* #line, #строка *)
   ([109; 97; 105; 110], [1075; 1083; 1072; 1074; 1085; 1072; 1103], TK_MAIN); (* main, главная *)
   ([99; 104; 97; 114], [1083; 1080; 1090; 1077; 1088; 1072], TK_CHAR); (* char, литера *)
   ([100; 111; 117; 98; 108; 101], [1076; 1074; 1086; 1081; 1085; 1086; 1081], TK_DOUBLE); (* double, двойной *)
   ([102; 108; 111; 97; 116], [1074; 1077; 1097], TK_FLOAT); (* float, вещ *)
   ([105; 110; 116], [1094; 1077; 1083], TK_INT); (* int, цел *)
   ([108; 111; 110; 103], [1076; 1083; 1080; 1085], TK_LONG); (* long, длин *)
   ([115; 116; 114; 117; 99; 116], [1089; 1090; 1088; 1091; 1082; 1090; 1091; 1088; 1072], TK_STRUCT); (* struct, структура *)
   ([101; 110; 117; 109], [1087; 1077; 1088; 1077; 1095; 1080; 1089; 1083; 1077; 1085; 1080; 1077], TK_ENUM); (* enum, перечисление *)
   ([118; 111; 105; 100], [1087; 1091; 1089; 1090; 1086], TK_VOID); (* void, пусто *)
   ([102; 105; 108; 101], [1092; 1072; 1081; 1083], TK_FILE); (* file, файл *)
   ([116; 121; 112; 101; 100; 101; 102], [1090; 1080; 1087; 1086; 1087; 1088], TK_TYPEDEF); (* typedef, типопр *)
   ([105; 102], [1077; 1089; 1083; 1080], TK_IF); (* if, если *)
   ([101; 108; 115; 101], [1080; 1085; 1072; 1095; 1077], TK_ELSE); (* else, иначе *)
   ([100; 111], [1094; 1080; 1082; 1083], TK_DO); (* do, цикл *)
   ([119; 104; 105; 108; 101], [1087; 1086; 1082; 1072], TK_WHILE); (* while, пока *)
   ([102; 111; 114], [1076; 1083; 1103], TK_FOR); (* for, для *)
   ([115; 119; 105; 116; 99; 104], [1074; 1099; 1073; 1086; 1088], TK_SWITCH); (* switch, выбор *)
   ([99; 97; 115; 101], [1089; 1083; 1091; 1095; 1072; 1081], TK_CASE); (* case, случай *)
   ([100; 101; 102; 97; 117; 108; 116], [1091; 1084; 1086; 1083; 1095; 1072; 1085; 1080; 1077], TK_DEFAULT); (* default, умолчание *)
   ([98; 114; 101; 97; 107], [1074; 1099; 1093; 1086; 1076], TK_BREAK); (* break, выход *)
   ([99; 111; 110; 116; 105; 110; 117; 101], [1087; 1088; 1086; 1076; 1086; 1083; 1078; 1080; 1090; 1100], TK_CONTINUE); (* continue, продолжить *)
   ([114; 101; 116; 117; 114; 110], [1074; 1086; 1079; 1074; 1088; 1072; 1090], TK_RETURN); (* return, возврат *)
   ([110; 117; 108; 108], [1085; 1080; 1095; 1090; 1086], TK_NULL); (* null, ничто *)
   ([97; 98; 115], [1072; 1073; 1089], TK_ABS); (* abs, абс *)
   ([117; 112; 98], [1082; 1086; 1083; 95; 1074; 1086], TK_UPB); (* upb, кол_во *)
   ([98; 111; 111; 108], [1073; 1091; 1083; 1077; 1074; 1086], TK_BOOL); (* bool, булево *)
   ([116; 114; 117; 101], [1080; 1089; 1090; 1080; 1085; 1072], TK_TRUE); (* true, истина *)
   ([102; 97; 108; 115; 101], [1083; 1086; 1078; 1100], TK_FALSE); (* false, ложь *)
   ([99; 111; 110; 115; 116], [1082; 1086; 1085; 1089; 1090], TK_CONST)]. (* const, конст *)
Fixpoint repr_init (e : oenv) (m : map_t) (rows : list (list Z * list Z * Z)) : option map_t :=
  match rows with
  | [] => Some m
  | (eng, rus, tk) :: rows => do m <- repr_add_keyword e m eng rus tk; repr_init e m rows
  end.

(** libs/compiler/syntax.c:24, 267-268: the table a compilation starts with. *)
Definition repr_create (e : oenv) : option map_t := repr_init e (map_create e 10000) keyword_rows.

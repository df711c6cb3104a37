(** What the functions of the lexer do on a text given as a list of code
    points: the same computations with the rest of the text as the only state.
    LexProofs.v shows that the model computes exactly this on the bytes of the
    text.  Nothing here is part of a statement except through LexSpec.v. *)
From Verif Require Import Prelude Utf8Model UniioModel MapModel LexModel.
From Coq Require Import SpecFloat.

Fixpoint drop_while (p : Z -> bool) (r : list Z) : list Z :=
  match r with [] => [] | c :: r' => if p c then drop_while p r' else r end.
Fixpoint take_while (p : Z -> bool) (r : list Z) : list Z :=
  match r with [] => [] | c :: r' => if p c then c :: take_while p r' else [] end.

Definition l_blanks := drop_while is_blank.
Definition l_line := drop_while (fun c => negb (c =? 10)).
Definition ident_char (c : Z) : bool := utf8_is_letter c || utf8_is_digit c.

(** Messages: kind and the rest of the text when it was reported. *)
Definition errs := list (lex_err * list Z).

(** From the star of the opening bracket: whether the comment was closed. *)
Fixpoint l_block (r : list Z) : bool * list Z :=
  match r with
  | [] => (false, [])
  | c :: r1 =>
      if c =? 42 then
        match r1 with
        | [] => (false, [])
        | d :: r2 => if d =? 47 then (true, r2) else l_block r2
        end
      else l_block r1
  end.

(** Numbers. *)
Definition l_base (r : list Z) : Z * bool * list Z :=
  match r with
  | c :: r1 =>
      if c =? 48 then
        match r1 with
        | x :: r2 =>
            if (x =? 120) || (x =? 88) then (16, true, r2)
            else if (x =? 100) || (x =? 68) then (10, true, r2)
            else if (x =? 111) || (x =? 79) then (8, true, r2)
            else if (x =? 98) || (x =? 66) then (2, true, r2)
            else (10, false, r1)
        | [] => (10, false, r1)
        end
      else (10, false, r)
  | [] => (10, false, r)
  end.

Fixpoint l_digits (base : Z) (was_modifier : bool) (n : num) (r : list Z) : bool * num * list Z :=
  match r with
  | [] => (false, n, [])
  | c :: r1 =>
      if utf8_is_hexa_digit c then
        if negb was_modifier && utf8_is_power c then (false, n, r)
        else if utf8_to_number c >=? base then (true, n, r)
        else l_digits base was_modifier (num_digit base n (utf8_to_number c)) r1
      else (false, n, r)
  end.

(** Entered after the point. *)
Fixpoint l_fraction (f mult : spec_float) (r : list Z) : spec_float * list Z :=
  match r with
  | [] => (f, [])
  | c :: r1 =>
      if utf8_is_digit c
      then l_fraction (d_add f (d_mul (d_of (utf8_to_number c)) mult)) (d_mul mult d_tenth) r1
      else (f, r)
  end.

Fixpoint l_power (power : Z) (r : list Z) : option (Z * list Z) :=
  match r with
  | [] => Some (power, [])
  | c :: r1 =>
      if utf8_is_digit c then
        if power * 10 + utf8_to_number c <=? LLONG_MAX64 then l_power (power * 10 + utf8_to_number c) r1 else None
      else Some (power, r)
  end.

Definition l_sign (n : num) (r : list Z) : Z * num * list Z :=
  match r with
  | c :: r1 => if c =? 45 then (-1, num_to_float n, r1) else if c =? 43 then (1, n, r1) else (1, n, r)
  | [] => (1, n, r)
  end.

Definition starts (p : Z -> bool) (r : list Z) : bool := match r with c :: _ => p c | [] => false end.

(** Entered after the letter of the exponent. *)
Definition l_exponent (e : lenv) (n : num) (r : list Z) : option (bool * num * list Z) :=
  let '(sign, n, r) := l_sign n r in
  if negb (starts utf8_is_digit r) then Some (true, n, r)
  else
    do ' (power, r) <- l_power 0 r;
    Some (false,
          mkNum (if n_integer n then u64 (n_int n * 10 ^ power) else n_int n)
                (d_mul (n_float n) (le_pow e (d_of 10) (d_mul (d_of sign) (d_of power)))) (n_range n) (n_integer n), r).

Definition l_skip_exponent : list Z -> list Z :=
  drop_while (fun c => utf8_is_letter c || utf8_is_digit c || (c =? 43) || (c =? 45)).

(** Kind, data, messages, rest. *)
Definition lout := (Z * tdata * errs * list Z)%type.

Definition l_num_token (n : num) (r : list Z) : lout :=
  if n_integer n then (TK_INT_LITERAL, DInt (n_int n), [], r)
  else (TK_FLOAT_LITERAL, DFloat (n_float n), if n_range n then [] else [(too_long_int, r)], r).

Definition l_point (was_modifier : bool) (n : num) (r : list Z) : num * list Z :=
  if starts (fun c => c =? 46) r && negb was_modifier then
    let n := num_to_float n in
    let '(f, r) := l_fraction (n_float n) d_tenth (tl r) in
    (mkNum (n_int n) f (n_range n) (n_integer n), r)
  else (n, r).

Definition l_number (e : lenv) (r : list Z) : option lout :=
  let '(base, was_modifier, r) := l_base r in
  let '(wrong, n, r) := l_digits base was_modifier (mkNum 0 d_zero true true) r in
  if wrong then Some (TK_INT_LITERAL, DInt (n_int n), [(digit_of_another_base, r)], drop_while utf8_is_hexa_digit r)
  else
    let '(n, r) := l_point was_modifier n r in
    if starts utf8_is_power r && negb was_modifier then
      do ' (wrong, n, r) <- l_exponent e n (tl r);
      if wrong then Some (TK_FLOAT_LITERAL, DFloat DBL_MAX, [(exponent_has_no_digits, r)], l_skip_exponent r)
      else Some (l_num_token n r)
    else Some (l_num_token n r).

(** Value of the symbol after a backslash, and whether it is known. *)
Definition escape (c : Z) : Z * bool :=
  if (c =? 110) || (c =? 1085) then (10, true)
  else if (c =? 116) || (c =? 1090) then (9, true)
  else if c =? 48 then (0, true)
  else if (c =? 92) || (c =? 39) || (c =? 34) then (c, true)
  else (c, false).

(** One element of a literal: value, messages, rest after it. *)
Definition l_elem (r : list Z) : Z * errs * list Z :=
  match r with
  | [] => (EOF32, [], [])
  | c :: r1 =>
      if c =? 92 then
        match r1 with
        | [] => (EOF32, [(unknown_escape_sequence, [])], [])
        | d :: r2 => (fst (escape d), if snd (escape d) then [] else [(unknown_escape_sequence, r1)], r2)
        end
      else (c, [], r1)
  end.

Definition l_char_literal (r : list Z) : lout :=
  let r := tl r in
  if starts (fun c => c =? 39) r then (TK_CHAR_LITERAL, DChar 0, [(empty_character_literal, r)], tl r)
  else
    let '(value, es, r) := l_elem r in
    if starts (fun c => c =? 39) r then (TK_CHAR_LITERAL, DChar value, es, tl r)
    else (TK_CHAR_LITERAL, DChar value, es ++ [(missing_terminating_apost_char, r)], r).

(** The characters up to the quote or the end of the line; [None]: the text
    ends before. *)
Fixpoint l_piece (r : list Z) : option (list Z * errs * list Z) :=
  match r with
  | [] => None
  | c :: r1 =>
      if negb (c =? 34) && negb (c =? 10) then
        if c =? 92 then
          match r1 with
          | [] => None
          | d :: r2 =>
              do ' (s, es, r') <- l_piece r2;
              Some (fst (escape d) :: s, (if snd (escape d) then [] else [(unknown_escape_sequence, r1)]) ++ es, r')
          end
        else do ' (s, es, r') <- l_piece r1; Some (c :: s, es, r')
      else Some ([], [], r)
  end.

Fixpoint l_pieces (fuel : nat) (r : list Z) : option (list Z * errs * list Z) :=
  match fuel with
  | O => None
  | S fuel =>
      if starts (fun c => c =? 34) r then
        do ' (s, es, r) <- l_piece (tl r);
        let '(es', r) := if starts (fun c => c =? 34) r then ([], tl r) else ([(missing_terminating_quote_char, r)], r) in
        do ' (s2, es2, r) <- l_pieces fuel (l_blanks r);
        Some (s ++ s2, es ++ es' ++ es2, r)
      else Some ([], [], r)
  end.

(** Spellings of the punctuators, longer ones first. *)
Definition punctuators : list (list Z * Z) :=
  [([60; 60; 61], TK_LESS_LESS_EQUAL); ([62; 62; 61], TK_GREATER_GREATER_EQUAL);
   ([45; 62], TK_ARROW); ([43; 61], TK_PLUS_EQUAL); ([43; 43], TK_PLUS_PLUS); ([45; 61], TK_MINUS_EQUAL);
   ([45; 45], TK_MINUS_MINUS); ([42; 61], TK_STAR_EQUAL); ([47; 61], TK_SLASH_EQUAL); ([37; 61], TK_PERCENT_EQUAL);
   ([33; 61], TK_EXCLAIM_EQUAL); ([94; 61], TK_CARET_EQUAL); ([124; 61], TK_PIPE_EQUAL); ([124; 124], TK_PIPE_PIPE);
   ([38; 61], TK_AMP_EQUAL); ([38; 38], TK_AMP_AMP); ([61; 61], TK_EQUAL_EQUAL); ([60; 61], TK_LESS_EQUAL);
   ([60; 60], TK_LESS_LESS); ([62; 61], TK_GREATER_EQUAL); ([62; 62], TK_GREATER_GREATER);
   ([91], TK_L_SQUARE); ([40], TK_L_PAREN); ([123], TK_L_BRACE); ([93], TK_R_SQUARE); ([41], TK_R_PAREN);
   ([125], TK_R_BRACE); ([44], TK_COMMA); ([58], TK_COLON); ([59], TK_SEMICOLON); ([63], TK_QUESTION);
   ([126], TK_TILDE); ([46], TK_PERIOD); ([43], TK_PLUS); ([45], TK_MINUS); ([42], TK_STAR); ([47], TK_SLASH);
   ([37], TK_PERCENT); ([33], TK_EXCLAIM); ([94], TK_CARET); ([124], TK_PIPE); ([38], TK_AMP); ([61], TK_EQUAL);
   ([60], TK_LESS); ([62], TK_GREATER)].
Fixpoint is_prefix (p r : list Z) : bool :=
  match p, r with
  | [], _ => true
  | x :: p, y :: r => (y =? x) && is_prefix p r
  | _, _ => false
  end.
Definition l_punct (r : list Z) : option (Z * list Z) :=
  match find (fun p => is_prefix (fst p) r) punctuators with
  | Some (p, k) => Some (k, skipn (List.length p) r)
  | None => None
  end.

(** One round of [lex] after the blanks. *)
Inductive lstep :=
| OEof
| OTok (o : lout)
| OStr (s : list Z) (es : errs) (r : list Z)
| OWord (w r : list Z)
| OSkip (es : errs) (r : list Z)
| OHang.

Definition l_switch (e : lenv) (r : list Z) : lstep :=
  match r with
  | [] => OEof
  | c :: r1 =>
      if utf8_is_digit c || ((c =? 46) && starts utf8_is_digit r1) then
        match l_number e r with Some o => OTok o | None => OHang end
      else if c =? 39 then OTok (l_char_literal r)
      else if c =? 34 then
        match l_pieces (S (List.length r)) r with Some (s, es, r) => OStr s es r | None => OHang end
      else if is_prefix [47; 47] r then OSkip [] (l_line r)
      else if is_prefix [47; 42] r then
        let '(ok, r') := l_block r1 in OSkip (if ok then [] else [(unterminated_block_comment, [])]) r'
      else
        match l_punct r with
        | Some (k, r') => OTok (k, DNone, [], r')
        | None =>
            if utf8_is_letter c || (c =? 35) then OWord (c :: take_while ident_char r1) (drop_while ident_char r1)
            else OSkip [(bad_character, r)] r1
        end
  end.

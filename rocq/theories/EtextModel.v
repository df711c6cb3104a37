(** Model of the reading of preprocessor expressions from their text,
    libs/macro/parser.c:100-325 and 1157-1612, over the calculator of ComputerModel.v.

    Simplifications.  A text is the list of its characters (C03, C05: what
    [uni_scan_char] makes of bytes), and places count characters.  [None] is
    undefined behaviour, or one of the following, which are left out: carriage
    returns, comments without an end, a number sign which no word follows, [0x0x] not
    followed by a digit.  Of the messages the first is kept; warnings are left out.
    The replacement of a macro (MacroModel.v, C68) is the parameter [replace]: it is
    given the name and what follows it, and gives [None] if it is no macro,
    [Some None] if the call fails, and the value and what follows the call. *)
From Verif Require Import Prelude Utf8Model ComputerModel.
Local Open Scope Z_scope.

Fixpoint span (f : Z -> bool) (s : list Z) : list Z * list Z :=
  match s with
  | [] => ([], [])
  | c :: s' => if f c then let '(a, b) := span f s' in (c :: a, b) else ([], s)
  end.
Definition peek (s : list Z) : Z := match s with [] => -1 | c :: _ => c end.

(** 105-122 [skip_comment], after the two slashes. *)
Fixpoint skip_comment (slash : bool) (s : list Z) : list Z :=
  match s with
  | [] => []
  | c :: s' => if negb slash && (c =? 10) then s else skip_comment ((c =? 92) || (slash && (c =? 13))) s'
  end.
(** 131-182 [skip_multi_comment], after the slash and the star: both loops look for
    a star and a slash. *)
Fixpoint skip_multi (star : bool) (s : list Z) : option (list Z) :=
  match s with
  | [] => None
  | c :: s' => if star && (c =? 47) then Some s' else skip_multi (c =? 42) s'
  end.
(** 240-305 [skip_until]; every turn reads something. *)
Fixpoint skip_until_n (n : nat) (s : list Z) : option (list Z) :=
  match n with
  | O => None
  | S n =>
      match s with
      | [] => Some []
      | c :: s1 =>
          if c =? 47 then
            match s1 with
            | c2 :: s2 =>
                if c2 =? 42 then do s3 <- skip_multi false s2; skip_until_n n s3
                else if c2 =? 47 then skip_until_n n (skip_comment false s2)
                else Some s
            | [] => Some s
            end
          else if c =? 92 then
            match s1 with
            | c2 :: s2 => if c2 =? 13 then None else if c2 =? 10 then skip_until_n n s2 else Some s
            | [] => Some s
            end
          else if (c =? 32) || (c =? 9) then skip_until_n n s1
          else if c =? 13 then None
          else Some s
      end
  end.
Definition skip_until (s : list Z) : option (list Z) := skip_until_n (S (length s)) s.
(** 316-327 [skip_lines]. *)
Fixpoint skip_lines_n (n : nat) (s : list Z) : option (list Z) :=
  match n with
  | O => None
  | S n => do s <- skip_until s; match s with c :: s' => if c =? 10 then skip_lines_n n s' else Some s | [] => Some [] end
  end.
Definition skip_lines (s : list Z) : option (list Z) := skip_lines_n (S (length s)) s.
(** 195-225 [skip_string], after the opening quote: what follows the closing one,
    or [Some None]: there is none. *)
Fixpoint skip_string (quote : Z) (slash : bool) (s : list Z) : option (option (list Z)) :=
  match s with
  | [] => Some None
  | c :: s' =>
      if negb slash && (c =? quote) then Some (Some s')
      else if c =? 13 then None
      else if negb slash && (c =? 10) then Some None
      else skip_string quote (negb slash && (c =? 92)) s'
  end.
(** libs/utils/map.c:104-136 [map_get_hash_by_io]: a word. *)
Definition in_word (c : Z) : bool := utf8_is_letter c || utf8_is_digit c.
Definition read_word (s : list Z) : list Z * list Z := span in_word s.

(** ** Numbers
    The conversions of [scanf], C11 7.21.6.2: blanks, a sign, for [%llx] also [0x],
    digits.  [Some None]: no conversion, nothing is read (libs/utils/uniio.c:60-85:
    the position is moved by what was converted). *)
Definition is_space (c : Z) : bool := (c =? 32) || ((9 <=? c) && (c <=? 13)).
Definition digit_of (base c : Z) : bool :=
  utf8_is_hexa_digit c && (utf8_to_number c <? base).
Definition number_of (base : Z) (ds : list Z) : Z := fold_left (fun a d => base * a + utf8_to_number d) ds 0.
Definition scan_sign (s : list Z) : bool * list Z :=
  match s with
  | c :: s' => if c =? 45 then (true, s') else if c =? 43 then (false, s') else (false, s)
  | [] => (false, [])
  end.
Definition scan_int (base : Z) (s : list Z) : option (option (Z * list Z)) :=
  let '(_, s) := span is_space s in
  let '(minus, s) := scan_sign s in
  let prefixed := (base =? 16) && (peek s =? 48) && ((peek (tl s) =? 120) || (peek (tl s) =? 88)) in
  let '(ds, r) := span (digit_of base) (if prefixed then tl (tl s) else s) in
  match ds with
  | [] => if prefixed then None else Some None
  | _ =>
      let v := if minus then - number_of base ds else number_of base ds in
      if base =? 10
      then if (LLONG_MIN <=? v) && (v <=? LLONG_MAX) then Some (Some (v, r)) else None
      else if number_of base ds <? two64 then Some (Some (v, r)) else None
  end.
(** [%99[01]]. *)
Fixpoint scan_bits (n : nat) (s : list Z) : list Z * list Z :=
  match n, s with
  | S n, c :: s' => if (c =? 48) || (c =? 49) then let '(a, b) := scan_bits n s' in (c :: a, b) else ([], s)
  | _, _ => ([], s)
  end.
Definition scan_bin (s : list Z) : option (option (Z * list Z)) :=
  match scan_bits 99 s with
  | ([], _) => Some None
  | (ds, r) => Some (Some (number_of 2 ds mod two64, r))
  end.

(** The messages of libs/macro/error.h used here. *)
Inductive terr := EXPR_FLOATING_CONSTANT | EXPR_INVALID_SUFFIX | EXPR_INVALID_TOKEN | STRING_UNTERMINATED | CALL_FAILED.
(** A number or an operator and what follows it, or a message. *)
Inductive lexed := LNumb (n : Z) (s : list Z) | LTok (tk : Z) (s : list Z) | LBad (e : terr).

(** 1157-1184 [parse_suffix]: whether the word is a suffix. *)
Definition is_u (c : Z) : bool := (c =? 85) || (c =? 117).
Definition is_l (c : Z) : bool := (c =? 76) || (c =? 108).
Definition suffix_ok (w : list Z) : bool :=
  match w with
  | [a] => is_u a || is_l a
  | [a; b] => (is_u a && is_l b) || (is_l a && (is_l b || is_u b))
  | [a; b; c] => (is_u a && is_l b && is_l c) || (is_l a && is_l b && is_u c)
  | _ => false
  end.

(** 1196-1265 [parse_number]: [pos] is the place of the number, [here] that of a
    part of the text being read. *)
Definition parse_number (pos : Z) (here : list Z -> Z) (s : list Z) : option lexed :=
  do r <- scan_int 10 s;
  let '(number, s1) := match r with Some (v, s1) => (v, s1) | None => (0, s) end in
  do s2 <- skip_until s1;
  let character := peek s2 in
  do ' (number, position, s3) <-
    (if (number =? 0) && (pos + 1 =? here s2)
     then
       let rest := tl s2 in
       do r <- (if (character =? 120) || (character =? 88) then scan_int 16 rest
                else if (character =? 100) || (character =? 68) then scan_int 10 rest
                else if (character =? 111) || (character =? 79) then scan_int 8 rest
                else if (character =? 98) || (character =? 66) then scan_bin rest
                else Some (Some (number, s2)));
       match r with
       | Some (v, s3) => do s4 <- skip_until s3; Some (v, here s3, s4)
       | None => Some (number, here s1, s2)
       end
     else Some (number, here s1, s2));
  let character := peek s3 in
  if position =? here s3
  then
    if (character =? 46) || (character =? 101) || (character =? 69) then Some (LBad EXPR_FLOATING_CONSTANT)
    else if utf8_is_letter character
    then let '(w, s4) := read_word s3 in
         if suffix_ok w then Some (LNumb (s64 number) s4) else Some (LBad EXPR_INVALID_SUFFIX)
    else Some (LNumb (s64 number) s3)
  else Some (LNumb (s64 number) s3).

(** 1277-1313 [parse_sequence]: the value is the first character after the quote. *)
Definition parse_sequence (s : list Z) : option lexed :=
  let quote := peek s in
  do r <- skip_string quote false (tl s);
  match r with
  | None => Some (LBad STRING_UNTERMINATED)
  | Some s' => if quote =? 34 then Some (LBad EXPR_INVALID_TOKEN) else Some (LNumb (peek (tl s)) s')
  end.

(** 1324-1451 [parse_token]. *)
Definition parse_token (s : list Z) : option lexed :=
  let character := peek s in
  let s1 := tl s in
  do s2 <- skip_until s1;
  let next := if zlen s1 =? zlen s2 then peek s2 else 0 in
  let ok tk := Some (LTok tk s2) in
  let two tk := Some (LTok tk (tl s2)) in
  let bad := Some (LBad EXPR_INVALID_TOKEN) in
  let shift tk :=
    do s3 <- skip_until (tl s2);
    if (peek s3 =? 61) && (zlen (tl s2) =? zlen s3) then bad else Some (LTok tk s3) in
  if character =? 40 then ok TK_L_BOUND
  else if character =? 41 then ok TK_R_BOUND
  else if character =? 126 then ok TK_COMPL
  else if character =? 33 then if next =? 61 then two TK_NOT_EQ else ok TK_NOT
  else if character =? 61 then if next =? 61 then two TK_EQ else bad
  else if character =? 42 then if next =? 61 then bad else ok TK_MULT
  else if character =? 47 then if next =? 61 then bad else ok TK_DIV
  else if character =? 37 then if next =? 61 then bad else ok TK_MOD
  else if character =? 94 then if next =? 61 then bad else ok TK_XOR
  else if character =? 38 then if next =? 61 then bad else if next =? 38 then two TK_AND else ok TK_BIT_AND
  else if character =? 124 then if next =? 61 then bad else if next =? 124 then two TK_OR else ok TK_BIT_OR
  else if character =? 43 then if (next =? 61) || (next =? 43) then bad else ok TK_ADD
  else if character =? 45 then if (next =? 61) || (next =? 45) then bad else ok TK_SUB
  else if character =? 60 then if next =? 60 then shift TK_L_SHIFT else if next =? 61 then two TK_LESS_EQ else ok TK_LESS
  else if character =? 62 then if next =? 62 then shift TK_R_SHIFT else if next =? 61 then two TK_GREATER_EQ else ok TK_GREATER
  else bad.

(** ** 1464-1612 [parse_expression] *)
(** The first message: one of the calculator with its place, or one of the text. *)
Inductive said := SComp (m : cmsg) (pos : Z) | SText (e : terr).
Definition shown (c : computer) : option said := match c_err c with Some (m, p) => Some (SComp m p) | None => None end.
(** 1596-1611. *)
Definition wrong (c : computer) (e : terr) : option (Z * option said) :=
  Some (0, Some (match shown c with Some m => m | None => SText e end)).
(** Whether the directive's text is read or the value of a macro, whose call is at
    [pos] and is followed by [outer]. *)
Inductive mode := MText | MValue (pos len : Z) (outer : list Z).

(** libs/macro/keywords.c:66, after the number sign. *)
Definition eval_words : list (list Z) :=
  [[101; 118; 97; 108]; [69; 86; 65; 76]; [1074; 1099; 1095; 1080; 1089; 1083; 1080; 1090; 1100]; [1042; 1067; 1063; 1048; 1057; 1051; 1048; 1058; 1068]].
Definition is_eval (w : list Z) : bool := existsb (fun x => if list_eq_dec Z.eq_dec w x then true else false) eval_words.

Section Macros.
Variable replace : list Z -> list Z -> option (option (list Z * list Z)).
(** Where the directive's text ends. *)
Variable total : Z.
Definition push_on (c : computer) (pos : Z) (l : lexed) (go : computer -> list Z -> option (Z * option said)) : option (Z * option said) :=
  match l with
  | LBad e => wrong c e
  | LNumb v s => do ' (r, c) <- const_number c pos v; if r =? 0 then go c s else Some (0, shown c)
  | LTok tk s => do ' (r, c) <- push_token c pos tk; if r =? 0 then go c s else Some (0, shown c)
  end.
(** 1491-1594, the loop; [n] bounds its turns. *)
Fixpoint read_loop (n : nat) (c : computer) (m : mode) (s : list Z) : option (Z * option said) :=
  match n with
  | O => None
  | S n =>
      do s <- match m with MText => skip_until s | _ => skip_lines s end;
      let pos := match m with MText => total - zlen s | MValue pos _ _ => pos end in
      let here (r : list Z) := match m with MText => total - zlen r | MValue _ len _ => len - zlen r end in
      match s with
      | [] =>
          match m with
          | MValue _ _ outer => read_loop n c MText outer
          | MText => do ' (v, c) <- pop_result c; Some (v, shown c)
          end
      | character :: s' =>
          if character =? 10 then do ' (v, c) <- pop_result c; Some (v, shown c)
          else if utf8_is_letter character then
            let '(w, r) := read_word s in
            let name := do ' (_, c) <- const_number c pos 0; read_loop n c m r in
            match m with
            | MValue _ _ _ => name
            | MText =>
                match replace w r with
                | None => name
                | Some None => wrong c CALL_FAILED
                | Some (Some (value, r)) => read_loop n c (MValue pos (zlen value) r) value
                end
            end
          else if character =? 35 then
            do s2 <- skip_until s';
            if utf8_is_letter (peek s2)
            then let '(w, r) := read_word s2 in if is_eval w then read_loop n c m r else wrong c EXPR_INVALID_TOKEN
            else None
          else
            do l <- (if utf8_is_digit character || (character =? 46) then parse_number pos here s
                     else if (character =? 39) || (character =? 34) then parse_sequence s
                     else parse_token s);
            push_on c pos l (fun c s => read_loop n c m s)
      end
  end.
(** 1466-1478: nothing to read is reported at once. *)
Definition read_expression (n : nat) (s : list Z) : option (Z * option said) :=
  do s <- skip_until s;
  if (peek s =? 10) || (peek s =? -1) then Some (0, Some (SComp DIRECTIVE_NO_EXPRESSION ITEM_MAX))
  else read_loop n computer_create MText s.
End Macros.
(** The value of a text with these macros; [before] characters of the file or
    line stand before it. *)
Definition evaluate_text (replace : list Z -> list Z -> option (option (list Z * list Z))) (before : Z) (n : nat) (s : list Z) : option (Z * option said) :=
  read_expression replace (before + zlen s) n s.

(** Model of the search for the place of a message: libs/utils/locator.c.

    Positions are unbounded: texts are shorter than [SIZE_MAX], which marks a
    missing position.  The buffers of a path, of a code line and of a tag are
    unbounded (in the code [MAX_PATH] and [MAX_MSG_SIZE] bytes). *)
From Verif Require Import Prelude Utf8Model UniioModel CodeModel.
Import String.StringSyntax.
Local Open Scope Z_scope.
Local Open Scope string_scope.
Local Open Scope list_scope.

(** locator.c:29-35. *)
Definition FIRST_LINE : Z := 1.
Definition FIRST_SYMBOL : Z := 1.
Definition PREFIX : bytes := str "#line".
Definition COMMENT : bytes := str "//".
Definition SEPARATOR : Z := 32.
Definition QUOTE : Z := 34.

(** [uni_scanf(io, "%c", &ch)]: at the end [ch] keeps its value. *)
Definition scan_c (ch : Z) (io : input) : Z * input :=
  match scan_byte io with Some r => r | None => (ch, io) end.
(** [uni_scanf(io, "%zu", &n)]: blanks, then digits; [None] if there is no digit.
    A sign is not accepted here (marks have none). *)
Definition is_blank (b : Z) : bool := (b =? 32) || ((9 <=? b) && (b <=? 13)).
Fixpoint zu_digits (n : nat) (v : Z) (io : input) : Z * input :=
  match n with
  | O => (v, io)
  | S n =>
      match scan_byte io with
      | Some (b, io') => if utf8_is_digit b then zu_digits n (Z.min (10 * v + (b - 48)) SIZE_MAX) io' else (v, io)
      | None => (v, io)
      end
  end.
Fixpoint scan_zu (n : nat) (io : input) : option (Z * input) :=
  match n with
  | O => None
  | S n =>
      match scan_byte io with
      | Some (b, io') =>
          if is_blank b then scan_zu n io'
          else if utf8_is_digit b then Some (zu_digits (S n) 0 io) else None
      | None => None
      end
  end.
Definition fuel (io : input) : nat := S (List.length (in_data io)).

(** 37-67 [line_to_begin]: the loop, [n] being [position]; the symbol, the filler
    and the position left. *)
Fixpoint begin_loop (n : nat) (d : bytes) (symbol filler : Z) : Z * Z * Z :=
  let ch := fst (scan_c 0 (mkIn d (Z.of_nat n))) in
  if ch =? 10 then (symbol, filler, Z.of_nat n + 1)
  else
    let symbol := symbol + (2 - utf8_symbol_size ch) in
    let filler := if (ch =? 32) || (ch =? 9) then filler + 1 else FIRST_SYMBOL in
    match n with
    | O => (symbol, filler, 0)
    | S n => begin_loop n d symbol filler
    end.
Definition line_to_begin (io : input) : Z * Z * input :=
  match Z.to_nat (in_pos io) with
  | O => (FIRST_SYMBOL, FIRST_SYMBOL, io)
  | S n => let '(s, f, p) := begin_loop n (in_data io) FIRST_SYMBOL FIRST_SYMBOL in (s, f, mkIn (in_data io) p)
  end.
(** 69-76 [line_to_end]. *)
Fixpoint end_loop (n : nat) (io : input) : option input :=
  match n with
  | O => None
  | S n => let '(c, io) := uni_scan_char io in if (c =? 10) || (c =? EOF32) then Some io else end_loop n io
  end.
Definition line_to_end (io : input) : option input := end_loop (fuel io) io.

(** 78-92 [mark_compare]. *)
Fixpoint compare_loop (ch : Z) (s : bytes) (io : input) : bool * input :=
  let '(ch, io) := scan_c ch io in
  match s with
  | [] => (ch =? SEPARATOR, io)
  | x :: s => if ch =? x then compare_loop ch s io else (false, io)
  end.
Definition mark_compare (io : input) (s : bytes) : bool * input := compare_loop 0 s io.

(** What a mark says; [SIZE_MAX] for what is missing. *)
Record mark := mkMark { m_line : Z; m_path : Z; m_code : Z }.
(** 114: up to the closing quote. *)
Fixpoint quote_loop (n : nat) (ch : Z) (io : input) : option (Z * input) :=
  match n with
  | O => None
  | S n =>
      match scan_byte io with
      | Some (b, io) => if b =? QUOTE then Some (b, io) else quote_loop n b io
      | None => Some (ch, io)
      end
  end.
(** 94-124 [mark_recognize]: whether there is a mark, what it says (the values
    before if there is none), the input. *)
Definition mark_recognize (io : input) (m : mark) : option (bool * mark * input) :=
  let '(found, io) := mark_compare io PREFIX in
  if negb found then Some (false, m, io)
  else
    let '(line, io) := match scan_zu (fuel io) io with Some r => r | None => (m_line m, io) end in
    let '(ch, io) := scan_c 0 io in
    if negb (ch =? SEPARATOR) then Some (true, mkMark line SIZE_MAX SIZE_MAX, io)
    else
      let '(ch, io) := scan_c ch io in
      let path := in_pos io in
      do ' (ch, io) <- quote_loop (fuel io) ch io;
      let '(ch, io) := scan_c ch io in
      if ch =? SEPARATOR
      then
        let '(found, io) := mark_compare io COMMENT in
        Some (true, mkMark line path (if found then in_pos io else SIZE_MAX), io)
      else Some (true, mkMark line path SIZE_MAX, io).

(** 126-148 [mark_reverse_recognize]: found, what it says, the filler, and the
    position, the beginning of the line before. *)
Definition mark_reverse_recognize (io : input) (m : mark) (filler : Z) : option (bool * mark * Z * input) :=
  if in_pos io =? 0 then Some (false, m, filler, io)
  else
    let '(_, candidate, io) := line_to_begin (mkIn (in_data io) (in_pos io - 1)) in
    let position := in_pos io in
    do ' (found, m, _) <- mark_recognize io m;
    Some (found, m, if found : bool then filler else candidate, mkIn (in_data io) position).

(** locator.h:29-38, without the input. *)
Record location := mkLoc { l_path : Z; l_code : Z; l_line : Z; l_symbol : Z }.

(** 330-331: back to any mark. *)
Fixpoint back_loop (n : nat) (io : input) (m : mark) (filler : Z) : option mark :=
  match n with
  | O => None
  | S n =>
      do ' (found, m, filler, io) <- mark_reverse_recognize io m filler;
      if found || (in_pos io =? 0) then Some m else back_loop n io m filler
  end.
(** 302-338: the loop; [code] is the beginning of the line of the position. *)
Fixpoint search_loop (n : nat) (loc : location) (code begin diff : Z) (io : input) (m : mark) (filler : Z) : option location :=
  match n with
  | O => None
  | S n =>
      if (begin =? 0) || (begin =? l_code loc)
      then
        let '(path, line) := if begin =? 0 then (SIZE_MAX, FIRST_LINE) else (l_path loc, l_line loc) in
        Some (mkLoc path code (line + diff) (l_symbol loc))
      else
        do ' (found, m, filler, io) <- mark_reverse_recognize io m filler;
        if negb found then search_loop n loc code (in_pos io) (diff + 1) io m filler
        else if negb (m_code m =? SIZE_MAX) then Some (mkLoc (m_path m) (m_code m) (m_line m) filler)
        else if negb (m_path m =? SIZE_MAX) then Some (mkLoc (m_path m) code (m_line m + diff) (l_symbol loc))
        else
          let line := m_line m + diff in
          do m <- back_loop (fuel io) io m filler;
          Some (mkLoc (m_path m) (if (line =? m_line m) && negb (m_code m =? SIZE_MAX) then m_code m else code)
                      line (l_symbol loc))
  end.
(** 277-351 [loc_search_from]. *)
Definition loc_search_from (io : input) (loc : location) : option location :=
  let '(symbol, filler, at_begin) := line_to_begin io in
  let code := in_pos at_begin in
  let loc := mkLoc (l_path loc) (l_code loc) (l_line loc) symbol in
  do io1 <- line_to_end at_begin;
  do ' (found, m, _) <- mark_recognize io1 (mkMark FIRST_LINE SIZE_MAX SIZE_MAX);
  if found && negb (m_code m =? SIZE_MAX)
  then Some (mkLoc (m_path m) (m_code m) (m_line m) symbol)
  else search_loop (fuel io) loc code code 0 at_begin m filler.
(** 257-275 [loc_search]. *)
Definition loc_search (io : input) : option location :=
  loc_search_from io (mkLoc SIZE_MAX 0 FIRST_LINE FIRST_SYMBOL).

(** 395-415 [loc_get_code_line]: the characters of the line, printed. *)
Fixpoint line_loop (n : nat) (io : input) : option bytes :=
  match n with
  | O => None
  | S n =>
      let '(c, io) := uni_scan_char io in
      if (c =? 10) || (c =? EOF32) then Some [] else do s <- line_loop n io; Some (utf8_to_string c ++ s)
  end.
Definition loc_get_code_line (d : bytes) (loc : location) : option bytes :=
  let io := mkIn d (l_code loc) in line_loop (fuel io) io.
(** 417-442 [loc_get_path]; [own] is the path of the input itself. *)
Fixpoint path_loop (n : nat) (io : input) : option bytes :=
  match n with
  | O => None
  | S n => let '(c, io) := uni_scan_char io in if c =? QUOTE then Some [] else do s <- path_loop n io; Some (utf8_to_string c ++ s)
  end.
Definition loc_get_path (own : bytes) (d : bytes) (loc : location) : option bytes :=
  if l_path loc =? SIZE_MAX then Some own else let io := mkIn d (l_path loc) in path_loop (fuel io) io.
(** 384-393 [loc_get_tag]. *)
Definition loc_get_tag (own : bytes) (d : bytes) (loc : location) : option bytes :=
  do p <- loc_get_path own d loc;
  Some (match p with [] => [] | _ => p ++ [58] ++ decimal (l_line loc) ++ [58] ++ decimal (l_symbol loc) end).
(** 454-472 [loc_get_index]. *)
Fixpoint index_loop (n : nat) (io : input) : input :=
  match n with O => io | S n => index_loop n (snd (uni_scan_char io)) end.
Definition loc_get_index (d : bytes) (loc : location) : Z :=
  in_pos (index_loop (Z.to_nat (l_symbol loc - FIRST_SYMBOL)) (mkIn d (l_code loc))) - l_code loc.

(** 364-376 [loc_line_break], at the position [pos]. *)
Definition loc_line_break (pos : Z) (loc : location) : location := mkLoc (l_path loc) pos (l_line loc + 1) FIRST_SYMBOL.

(** ** Printing marks *)
(** 193-198: the blanks up to the column. *)
Fixpoint pad_loop (n : nat) (io : input) : bytes :=
  match n with
  | O => []
  | S n => let '(c, io) := uni_scan_char io in (if c =? 9 then 9 else 32) :: pad_loop n io
  end.
Definition pad (d : bytes) (loc : location) : bytes := pad_loop (Z.to_nat (l_symbol loc - FIRST_SYMBOL)) (mkIn d (l_code loc)).
(** 182-202 [loc_update], 204-235 [loc_update_begin], 237-256 [loc_update_end]:
    what is printed (nothing for an empty path, the output being correct). *)
Definition loc_update (own : bytes) (io : input) (loc : location) : option (bytes * location) :=
  do loc <- loc_search_from io loc;
  do path <- loc_get_path own (in_data io) loc;
  Some (match path with
        | [] => []
        | _ => PREFIX ++ [SEPARATOR] ++ decimal (l_line loc) ++ [SEPARATOR; QUOTE] ++ path ++ [QUOTE; 10] ++ pad (in_data io) loc
        end, loc).
Definition loc_update_begin (own : bytes) (io : input) (loc : location) : option (bytes * location) :=
  do loc <- loc_search_from io loc;
  do path <- loc_get_path own (in_data io) loc;
  do source <- loc_get_code_line (in_data io) loc;
  Some (match path with
        | [] => []
        | _ => PREFIX ++ [SEPARATOR] ++ decimal (l_line loc) ++ [SEPARATOR; QUOTE] ++ path ++ [QUOTE; SEPARATOR] ++ COMMENT ++ [SEPARATOR]
               ++ source ++ [10] ++ pad (in_data io) loc
        end, loc).
Definition loc_update_end (own : bytes) (io : input) (loc : location) : option (bytes * location) :=
  do loc <- loc_search_from io loc;
  do path <- loc_get_path own (in_data io) loc;
  Some (match path with [] => [] | _ => PREFIX ++ [SEPARATOR] ++ decimal (l_line loc) ++ [10] ++ pad (in_data io) loc end, loc).

(** ** Copying a file: macro/parser.c

    The lines of a file without directives, comments, continued lines and strings.
    A line is a text to be copied and calls of macros: the text of the call, the
    lines of its replacement (what [parse_replacement] prints), the text after it.
    What is printed is a list of bytes; the first byte of a copied character and of
    a character of a replacement is labelled with the line and the column it comes
    from (for a replacement: of the call), which the code does not do. *)
Record call := mkCall { c_name : list Z; c_lines : list (list Z); c_after : list Z }.
Record sline := mkSline { s_first : list Z; s_calls : list call }.
Notation label := (option (Z * Z)).
Notation out := (list (Z * option (Z * Z))).
Definition bare (bs : bytes) : out := map (fun b => (b, None)) bs.
(** [uni_print_char]. *)
Definition put (t : label) (c : Z) : out :=
  match utf8_to_string c with [] => [] | b :: bs => (b, t) :: bare bs end.
(** Characters copied from column [k] on of line [l]; of a replacement. *)
Fixpoint copy (l k : Z) (cs : list Z) : out :=
  match cs with [] => [] | c :: cs => put (Some (l, k)) c ++ copy l (k + 1) cs end.
Fixpoint replacement (l k : Z) (ls : list (list Z)) : out :=
  match ls with
  | [] => []
  | [r] => flat_map (put (Some (l, k))) r
  | r :: ls => flat_map (put (Some (l, k))) r ++ bare [10] ++ replacement l k ls
  end.
(** [skip_until] (parser.c:240-299) over blanks: what it prints, the rest. *)
Fixpoint skip_blanks (cs : list Z) : list Z * list Z :=
  match cs with
  | c :: cs' => if (c =? 32) || (c =? 9) then let (a, b) := skip_blanks cs' in (c :: a, b) else ([], cs)
  | [] => ([], [])
  end.
(** The number of bytes of characters in the source. *)
Definition size (cs : list Z) : Z := fold_right (fun c n => utf8_size c + n) 0 cs.

(** parser.c:800-849 [parse_identifier] for each call, and what parse_until
    (860-900) prints between; the second result is [is_line_required].
    The position [pos] is that of the call, at line [l] and column [k]. *)
Fixpoint emit_calls (own d : bytes) (loc : location) (pos l k : Z) (calls : list call) : option (out * bool * location) :=
  match calls with
  | [] => Some ([], false, loc)
  | mkCall name lines after :: calls =>
      do ' (mark, loc) <- loc_update_begin own (mkIn d pos) loc;
      let (blanks, after) := skip_blanks after in
      let pos := pos + size name + size blanks in
      let printed := bare [10] ++ bare mark ++ replacement l k lines ++ flat_map (put None) blanks in
      match after, calls with
      | [], [] => Some (printed, true, loc)
      | _, _ =>
          do ' (mark, loc) <- loc_update_end own (mkIn d pos) loc;
          let k := k + zlen name + zlen blanks in
          do ' (rest, required, loc) <- emit_calls own d loc (pos + size after) l (k + zlen after) calls;
          Some (printed ++ bare [10] ++ bare mark ++ copy l k after ++ rest, required, loc)
      end
  end.
Definition is_empty (s : sline) : bool :=
  match skip_blanks (s_first s), s_calls s with (_, []), [] => true | _, _ => false end.
Definition sline_text (s : sline) : list Z := s_first s ++ flat_map (fun c => c_name c ++ c_after c) (s_calls s).
(** parser.c:913-944 [parse_hash] and 860-900 [parse_until] over the lines; [buffer] is the
    buffer of [parse_hash].  Lines are numbered from [l]. *)
Fixpoint emit_lines (own d : bytes) (loc : location) (pos l : Z) (required : bool) (buffer : out) (ls : list sline) : option out :=
  match ls with
  | [] => Some []
  | s :: ls =>
      do ' (mark, loc) <- if required then loc_update own (mkIn d pos) loc else Some ([], loc);
      let buffer := if required then bare mark else buffer in
      let next := pos + size (sline_text s) + 1 in
      if is_empty s
      then emit_lines own d (loc_line_break next loc) next (l + 1) required (buffer ++ copy l 1 (s_first s) ++ bare [10]) ls
      else
        do ' (printed, required, loc) <- emit_calls own d loc (pos + size (s_first s)) l (1 + zlen (s_first s)) (s_calls s);
        do rest <- emit_lines own d (loc_line_break next loc) next (l + 1) required [] ls;
        Some (buffer ++ copy l 1 (s_first s) ++ printed ++ bare [10] ++ rest)
  end.
(** parser.c:2408-2430 [parser_preprocess]. *)
Definition emit_file (own d : bytes) (ls : list sline) : option out :=
  do loc <- loc_search (mkIn d 0);
  emit_lines own d loc 0 1 true [] ls.

(** Model of libs/utils/logger.c: the text of a message and what is printed for it
    (not on Windows, with colours).

    A string is its bytes without the terminating zero.  [None]: a read or write
    outside a string or buffer.  The texts of the logger itself and the names of
    its tags are parameters of [default_log] and [reported]. *)
From Verif Require Import Prelude CodeModel Utf8Model UniioModel LocModel.
Local Open Scope Z_scope.

(** 39. *)
Definition MAX_MSG_SIZE : Z := 4096.
(** A string written to a buffer of that size, with its zero. *)
Definition fit (s : bytes) : option bytes := if zlen s <? MAX_MSG_SIZE then Some s else None.

Definition word (c : Z) : bool := utf8_is_letter c || utf8_is_digit c.

(** 200-219 [literal]: the beginning of the word at [symbol]; [line] with its zero. *)
Fixpoint literal_loop (n : nat) (line : bytes) (i j : Z) : option Z :=
  match n with
  | O => None
  | S n =>
      do ch <- utf8_convert (skipn (Z.to_nat j) line);
      if word ch
      then if j =? 0 then Some j else do k <- utf8_to_first_byte line (Z.to_nat (j - 1)); literal_loop n line j k
      else Some i
  end.
Definition literal (line : bytes) (symbol : Z) : option Z :=
  do i <- utf8_to_first_byte line (Z.to_nat symbol);
  literal_loop (S (List.length line)) line i i.

(** 222-242 [length]. *)
Fixpoint length_loop (n : nat) (line : bytes) (size i j : Z) : option Z :=
  match n with
  | O => None
  | S n =>
      if i <? size
      then
        do ch <- utf8_convert (skipn (Z.to_nat i) line);
        if word ch then do b <- znth line i; length_loop n line size (i + utf8_symbol_size b) (j + 1) else Some j
      else Some j
  end.
Definition length_ (line : bytes) (size symbol : Z) : option Z :=
  do j <- length_loop (S (List.length line)) line size symbol symbol;
  Some (if symbol >=? size then 0 else if j =? symbol then 1 else j - symbol).

(** 264-267: the blanks before the caret. *)
Fixpoint blanks_loop (n : nat) (line : bytes) (ch i : Z) : option bytes :=
  match n with
  | O => None
  | S n =>
      if i <? ch
      then
        do b <- znth line i;
        do rest <- blanks_loop n line ch (i + utf8_symbol_size b);
        Some ((if b =? 9 then 9 else 32) :: rest)
      else Some []
  end.
(** 248-253: the line up to a line feed. *)
Fixpoint first_line (s : bytes) : bytes :=
  match s with [] => [] | b :: s => if b =? 10 then [] else b :: first_line s end.
(** 244-275 [splice]; the last zero is written to the buffer too. *)
Definition splice (msg line : bytes) (symbol : Z) : option bytes :=
  let shown := first_line line in
  let size := zlen shown in
  do ch <- literal (line ++ [0]) symbol;
  do len <- length_ (line ++ [0]) size ch;
  if len =? 0 then fit (msg ++ [10] ++ shown)
  else
    do blanks <- blanks_loop (S (List.length line)) (line ++ [0]) ch 0;
    fit (msg ++ [10] ++ shown ++ [10] ++ blanks ++ [94] ++ repeat 126 (Z.to_nat (len - 1))).

(** What a logging function does: the logger is given a tag and a text; or the
    logger of errors is told that the argument has several lines, or that there is
    no location. *)
Inductive reported := Reported (tag text : bytes) | Multiline | NoLocation.
(** 182-197 [check_arg] of a string. *)
Definition multiline (s : bytes) : bool := existsb (fun b => b =? 10) s.
(** 278-295 [log_main]. *)
Definition log_main (tag msg line : bytes) (symbol : Z) : option reported :=
  if multiline tag || multiline msg then Some Multiline
  else do text <- splice msg line symbol; Some (Reported tag text).
(** 297-316 [log_auto]: the text is [d], its path [own]. *)
Definition log_auto (own d : bytes) (loc : location) (msg : bytes) : option reported :=
  if multiline msg then Some Multiline
  else
    do tag <- loc_get_tag own d loc;
    do tag <- fit tag;
    match tag with
    | [] => Some NoLocation
    | _ =>
        do line <- loc_get_code_line d loc;
        do line <- fit line;
        match line with
        | [] => Some NoLocation
        | _ => do text <- splice msg line (loc_get_index d loc); Some (Reported tag text)
        end
    end.

(** ** Printing *)
Inductive event := Color (c : Z) | Byte (b : Z).
(** 33-37. *)
Definition COLOR_TAG : Z := 39.
Definition COLOR_DEFAULT : Z := 0.
Definition print (s : bytes) : list event := map Byte s.
(** The string up to a line feed, and from it on. *)
Fixpoint cut (s : bytes) : bytes * bytes :=
  match s with [] => ([], []) | b :: s' => if b =? 10 then ([], s) else let (x, y) := cut s' in (b :: x, y) end.
(** 107-110: the bytes of one symbol. *)
Definition take_symbol (i : bytes) : option (bytes * bytes) :=
  match i with
  | [] => None
  | b :: _ =>
      let k := Z.to_nat (utf8_symbol_size b) in
      if (k <=? List.length i)%nat then Some (firstn k i, skipn k i) else None
  end.
(** 101-114: up to the caret; 117-129: up to the end. *)
Fixpoint before_caret (j i : bytes) : option (bytes * bytes * bytes) :=
  match j with
  | [] => None
  | b :: j' =>
      if b =? 94 then Some ([], j, i)
      else do ' (x, i) <- take_symbol i; do ' (y, j, i) <- before_caret j' i; Some (x ++ y, j, i)
  end.
Fixpoint under_caret (j i : bytes) : option (bytes * bytes) :=
  match j with
  | [] => Some ([], i)
  | _ :: j => do ' (x, i) <- take_symbol i; do ' (y, i) <- under_caret j i; Some (x ++ y, i)
  end.
(** 75-141 [print_msg]. *)
Definition print_msg (color : Z) (msg : bytes) : option (list event) :=
  let (first, i) := cut msg in
  match i with
  | [] => Some (Color COLOR_DEFAULT :: print first ++ print [10])
  | nl :: r =>
      let (_, j) := cut r in
      match j with
      | [] => Some (Color COLOR_DEFAULT :: print first ++ print i ++ print [10])
      | _ =>
          do ' (x, j, i) <- before_caret j i;
          do ' (y, i) <- under_caret j i;
          match cut i with
          | (_, []) => None
          | (z, i) =>
              Some (Color COLOR_DEFAULT :: print first ++ print x ++ Color color :: print y
                    ++ Color COLOR_DEFAULT :: print z ++ Color color :: print i ++ print [10] ++ [Color COLOR_DEFAULT])
          end
      end
  end.
(** 144-164 [default_log]. *)
Definition default_log (tag msg : bytes) (color : Z) (tag_log : bytes) : option (list event) :=
  do rest <- print_msg color msg;
  Some (Color COLOR_TAG :: print (tag ++ [58; 32]) ++ Color color :: print (tag_log ++ [58; 32]) ++ rest).

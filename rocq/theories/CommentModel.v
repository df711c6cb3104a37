(** Model of the comments that say where a line comes from, libs/utils/commenter.c. *)
From Verif Require Import Prelude Utf8Model CodeModel.

(** commenter.c:24-25 [PREFIX] and [SEPARATOR]. *)
Definition PREFIX : bytes := [47; 47; 32; 35].
Definition SEPARATOR : Z := 32.

(** commenter.h:28-36 [comment]: pointers into the searched text are offsets,
    [None] is [NULL]. *)
Record comment := mkComment { c_path : option Z; c_line : Z; c_symbol : Z; c_code : option Z }.

(** What [sscanf(s, "%zu", &n)] gives: a number, no match (it returns 0), or the
    end of the text (it returns [EOF], and [n] stays as it was).  Saturating as in
    glibc; a sign before the number is not modelled, no mark has one. *)
Inductive scanned := Number (n : Z) | NoMatch | AtEnd.
Definition is_dec (b : Z) : bool := (48 <=? b) && (b <=? 57).
Fixpoint dec_loop (s : bytes) (v : Z) : Z :=
  match s with
  | [] => v
  | b :: s => if is_dec b then dec_loop s (Z.min SIZE_MAX (10 * v + (b - 48))) else v
  end.
Fixpoint sscanf_zu (s : bytes) : scanned :=
  match s with
  | [] => AtEnd
  | b :: s' =>
      if b =? 0 then AtEnd
      else if (b =? 32) || ((9 <=? b) && (b <=? 13)) then sscanf_zu s'
      else if is_dec b then Number (dec_loop s 0)
      else NoMatch
  end.

(** commenter.c:31-34 and 237-241: the bytes before the first NUL, newline or
    blank, and what follows them; the end of a list is its NUL. *)
Fixpoint path_split (s : bytes) : bytes * bytes :=
  match s with
  | [] => ([], [])
  | b :: s' => if (b =? 0) || (b =? 10) || (b =? SEPARATOR) then ([], s) else let '(p, r) := path_split s' in (b :: p, r)
  end.
(** commenter.c:47-50. *)
Fixpoint skip_digits (s : bytes) : bytes :=
  match s with
  | [] => []
  | b :: s' => if is_dec b then skip_digits s' else s
  end.

(** commenter.c:28-64 [cmt_parse]: the line and the symbol after it; [s] is the
    text from the path on, [line] and [symbol] are those before. *)
Definition cmt_parse (s : bytes) (line symbol : Z) : Z * Z :=
  match snd (path_split s) with
  | b :: s =>
      if negb (b =? SEPARATOR) then (line, symbol)
      else
        match sscanf_zu s with
        | NoMatch => (line, symbol)
        | r =>
            let n := match r with Number n => n | _ => 0 end in
            let relative := (u64 (line + u64 (n - 2)), symbol) in
            match skip_digits s with
            | b :: s =>
                if negb (b =? SEPARATOR) then relative
                else match sscanf_zu s with
                     | NoMatch => (line, symbol)
                     | Number m => (n, m)
                     | AtEnd => (n, 0)
                     end
            | [] => relative
            end
        end
  | [] => (line, symbol)
  end.

(** commenter.c:81-85: the prefix, from its end, against the text, from [code[i]]
    back; [None] is a read before the text. *)
Fixpoint ends_with (p back : bytes) : option bool :=
  match p with
  | [] => Some true
  | x :: p => match back with
              | [] => None
              | b :: back => if x =? b then ends_with p back else Some false
              end
  end.

(** commenter.c:70-94, the loop of [cmt_reverse]: [back] are the bytes [code[i]],
    [code[i - 1]], ..., [code[0]]. *)
Fixpoint reverse_loop (back : bytes) (line : Z) : option (Z * option Z) :=
  match back with
  | [] => Some (line, None)
  | b :: rest =>
      match rest with
      | [] => Some (line, None)
      | _ :: _ =>
          if b =? 10 then reverse_loop rest (line + 1)
          else
            do found <- ends_with (rev PREFIX) back;
            if (found : bool) then Some (line, Some (zlen rest + 2)) else reverse_loop rest line
      end
  end.

(** commenter.c:165-169: the offset of the line of a position. *)
Fixpoint line_start (code : bytes) (i : nat) : option nat :=
  match i with
  | O => Some O
  | S k => do b <- nth_error (code ++ [0]) k; if b =? 10 then Some i else line_start code k
  end.

(** commenter.c:153-177 [cmt_search] (with [cmt_reverse], 66-99); the text is not
    [NULL]. *)
Definition cmt_search (code : bytes) (position : Z) : option comment :=
  do i <- line_start code (Z.to_nat position);
  let symbol := position - Z.of_nat i in
  do '(line, path) <- reverse_loop (rev (firstn (S i) (code ++ [0]))) 1;
  match path with
  | None => Some (mkComment None line symbol (Some (Z.of_nat i)))
  | Some p =>
      let '(line, symbol) := cmt_parse (skipn (Z.to_nat p) code) line symbol in
      Some (mkComment path line symbol (Some (Z.of_nat i)))
  end.

(** commenter.c:136-150 [cmt_to_string] of what [cmt_create] or [cmt_create_macro]
    made (commenter.c:111-133), [SIZE_MAX] being no symbol. *)
Definition cmt_to_string (path : bytes) (line symbol : Z) : bytes :=
  if negb (symbol =? SIZE_MAX)
  then PREFIX ++ SEPARATOR :: path ++ SEPARATOR :: decimal line ++ SEPARATOR :: decimal symbol ++ [10]
  else PREFIX ++ SEPARATOR :: path ++ SEPARATOR :: decimal line ++ [10].

(** commenter.c:180-183 [cmt_is_correct]. *)
Definition cmt_is_correct (cmt : comment) : bool := match c_path cmt with Some _ => true | None => false end.

(** commenter.c:229-245 [cmt_get_path]; the buffer is long enough. *)
Definition cmt_get_path (code : bytes) (cmt : comment) : bytes :=
  match c_path cmt with Some p => fst (path_split (skipn (Z.to_nat p) code)) | None => [] end.

(** commenter.c:217-223. *)
Fixpoint line_of (s : bytes) : bytes :=
  match s with
  | [] => []
  | b :: s => if (b =? 0) || (b =? 10) then [] else b :: line_of s
  end.
(** commenter.c:211-227 [cmt_get_code_line]. *)
Definition cmt_get_code_line (code : bytes) (cmt : comment) : bytes :=
  match c_code cmt with Some i => line_of (skipn (Z.to_nat i) code) | None => [] end.

(** commenter.c:200-205, the loop of [cmt_get_tag]; every turn moves on. *)
Fixpoint tag_loop (fuel : nat) (code : bytes) (first i symbol : Z) : option Z :=
  match fuel with
  | O => None
  | S fuel =>
      if i <? first
      then do b <- znth code i;
           let size := utf8_symbol_size b in
           tag_loop fuel code first (i + size) (symbol - (size - 1))
      else Some symbol
  end.
(** commenter.c:186-209 [cmt_get_tag]; the comment was found, [code] is not [NULL]. *)
Definition cmt_get_tag (code : bytes) (cmt : comment) : option bytes :=
  let path := cmt_get_path code cmt in
  match path, c_code cmt with
  | [], _ => Some []
  | _, None => None
  | _, Some i =>
      let s := skipn (Z.to_nat i) (code ++ [0]) in
      do first <- utf8_to_first_byte s (Z.to_nat (c_symbol cmt));
      do symbol <- tag_loop (S (Z.to_nat first)) s first 0 first;
      Some (path ++ 58 :: decimal (c_line cmt) ++ 58 :: decimal (symbol + 1))
  end.

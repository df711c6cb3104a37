(** Model of buffer and file input (libs/utils/uniio.c, libs/utils/uniscanner.c)
    and buffer output (libs/utils/uniio.c, libs/utils/uniprinter.c).

    - an input is the list of bytes of the buffer or file and the position; the
      two kinds differ only in that a buffer holds no NUL byte; input through a
      user function is not modelled;
    - [sscanf]/[fscanf] with ["%c"] reads one byte and fails at the end. *)
From Verif Require Import Prelude Utf8Model.

(** libs/utils/uniio.h:55-72 [struct universal_io], input half. *)
Record input := mkIn { in_data : bytes; in_pos : Z }.

Definition in_size (io : input) : Z := zlen (in_data io).

(** libs/utils/uniio.c:281-296 [in_set_buffer] ([strlen] is the length since
    the list holds no NUL); 261-279 [in_set_file] for a file. *)
Definition in_set_buffer (b : bytes) : input := mkIn b 0.

(** (char32_t)EOF. *)
Definition EOF32 : Z := 4294967295.

(** libs/utils/uniscanner.c:23-38 [uni_scanf(io, "%c", &c)] through
    libs/utils/uniio.c:60-84 [scan_file_arg], [scan_buffer_arg] and 87-137
    [in_func_position]: [None] when 0 is returned. *)
Definition scan_byte (io : input) : option (Z * input) :=
  match znth (in_data io) (in_pos io) with
  | Some b => Some (b, mkIn (in_data io) (in_pos io + 1))
  | None => None
  end.

(** libs/utils/uniscanner.c:49-55: the loop reading the remaining bytes; the
    boolean tells whether all were read. *)
Fixpoint scan_bytes (n : nat) (io : input) : bytes * bool * input :=
  match n with
  | O => ([], true, io)
  | S n =>
      match scan_byte io with
      | None => ([], false, io)
      | Some (b, io) => let '(bs, ok, io) := scan_bytes n io in (b :: bs, ok, io)
      end
  end.

(** libs/utils/uniscanner.c:40-58 [uni_scan_char].  The buffer always holds
    [utf8_symbol_size] bytes when it is converted, hence the default is never
    used ([scan_char_converts]). *)
Definition uni_scan_char (io : input) : Z * input :=
  match scan_byte io with
  | None => (EOF32, io)
  | Some (b, io) =>
      let '(bs, ok, io) := scan_bytes (Z.to_nat (utf8_symbol_size b - 1)) io in
      if ok then (match utf8_convert (b :: bs) with Some c => c | None => EOF32 end, io)
      else (EOF32, io)
  end.

(** libs/utils/uniio.c:311-338 [in_set_position]: accepted up to the size, both
    for a buffer and for a file (the byte before the position is readable).
    The position is a [size_t]. *)
Definition in_set_position (io : input) (position : Z) : Z * input :=
  if position <=? in_size io then (0, mkIn (in_data io) position) else (-1, io).

(** libs/utils/uniscanner.c:95-98 [uni_unscan_char]. *)
Definition uni_unscan_char (io : input) (c : Z) : Z * input :=
  in_set_position io (u64 (in_pos io - utf8_size c)).

(** libs/utils/uniscanner.c:100-103 [uni_unscan]. *)
Definition uni_unscan (io : input) (s : bytes) : Z * input :=
  in_set_position io (u64 (in_pos io - zlen s)).

(** libs/utils/uniscanner.c:85-89, the loop of [uni_scan_identifier]: text
    gathered, last character, input. *)
Fixpoint ident_loop (fuel : nat) (c : Z) (io : input) : option (bytes * Z * input) :=
  if utf8_is_letter c || utf8_is_digit c then
    match fuel with
    | O => None
    | S fuel =>
        let '(c', io) := uni_scan_char io in
        do ' (rest, last, io) <- ident_loop fuel c' io;
        Some (utf8_to_string c ++ rest, last, io)
    end
  else Some ([], c, io).

(** libs/utils/uniscanner.c:75-93 [uni_scan_identifier]: the text written to the
    caller's buffer (its length is returned). *)
Definition uni_scan_identifier (io : input) : option (bytes * input) :=
  let '(c, io) := uni_scan_char io in
  if negb (utf8_is_letter c) then
    let '(_, io) := uni_unscan_char io c in Some ([], io)
  else
    do ' (text, last, io) <- ident_loop (S (List.length (in_data io))) c io;
    let '(_, io) := uni_unscan_char io last in Some (text, io).

(** ** Output to a buffer *)

(** libs/utils/uniio.h:55-72 [struct universal_io], output half; [out_size] is
    the length of the block. *)
Record output := mkOut { out_buffer : bytes; out_pos : Z }.

Definition out_size (io : output) : Z := zlen (out_buffer io).

(** What the memory allocator answers for a block of the given size, and the
    values found in fresh memory. *)
Record oenv := mkOenv { o_alloc : Z -> bool; o_junk : Z -> Z }.
Fixpoint o_fresh_from (e : oenv) (n : nat) (i : Z) : bytes :=
  match n with O => [] | S n => o_junk e i :: o_fresh_from e n (i + 1) end.
Definition o_fresh (e : oenv) (n : Z) : bytes := o_fresh_from e (Z.to_nat n) 0.

(** libs/utils/uniio.c:478-500 [out_set_buffer]: [Some None] is the failure -1,
    [None] a write outside the block. *)
Definition out_set_buffer (e : oenv) (size : Z) : option (option output) :=
  let n := u64 (size + 1) in
  if o_alloc e n then
    if 0 <? n then Some (Some (mkOut (zupd (o_fresh e n) 0 0) 0)) else None
  else Some None.

(** Bytes [bs] written from position [p] of block [b], [None] outside it. *)
Definition write_at (b : bytes) (p : Z) (bs : bytes) : option bytes :=
  if (0 <=? p) && (p + zlen bs <=? zlen b)
  then Some (firstn (Z.to_nat p) b ++ bs ++ skipn (Z.to_nat (p + zlen bs)) b)
  else None.

(** [vsnprintf(&b[p], n, format, args)] where the formatted text is [text]: at
    most [n - 1] bytes and a NUL are written, the length of [text] is returned. *)
Definition vsnprintf (b : bytes) (p n : Z) (text : bytes) : option (bytes * Z) :=
  if n =? 0 then Some (b, zlen text)
  else do b1 <- write_at b p (firstn (Z.to_nat (n - 1)) text ++ [0]); Some (b1, zlen text).

(** libs/utils/uniio.c:161-185 [out_func_buffer]; [text] is what the format and
    its arguments stand for (shorter than INT_MAX).  [fuel] bounds the number
    of reallocations. *)
Fixpoint out_func_buffer (fuel : nat) (e : oenv) (io : output) (text : bytes) : option (Z * output) :=
  match fuel with
  | O => None
  | S fuel =>
      do ' (b, ret) <- vsnprintf (out_buffer io) (out_pos io) (u64 (out_size io - out_pos io)) text;
      if u64 (ret + out_pos io) <? out_size io
      then Some (ret, mkOut b (out_pos io + ret))
      else
        do b1 <- write_at b (out_pos io) [0];
        if o_alloc e (u64 (2 * out_size io))
        then out_func_buffer fuel e
               (mkOut (firstn (Z.to_nat (u64 (2 * out_size io))) b1
                       ++ o_fresh e (u64 (2 * out_size io) - out_size io)) (out_pos io)) text
        else Some (-1, mkOut b1 (out_pos io))
  end.

(** libs/utils/uniprinter.c:22-37 [uni_printf] to a buffer; 64 rounds are enough
    for the size to exceed every [size_t]. *)
Definition uni_printf (e : oenv) (io : output) (text : bytes) : option (Z * output) :=
  out_func_buffer 64 e io text.

(** libs/utils/uniprinter.c:39-49 [uni_print_char]. *)
Definition uni_print_char (e : oenv) (io : output) (c : Z) : option (Z * output) :=
  match utf8_to_string c with
  | [] => Some (0, io)
  | s => uni_printf e io s
  end.

(** The C string at the start of a block: the bytes before the first NUL. *)
Fixpoint c_string (b : bytes) : option bytes :=
  match b with
  | [] => None
  | x :: b => if x =? 0 then Some [] else do s <- c_string b; Some (x :: s)
  end.

(** libs/utils/uniio.c:587-602 [out_extract_buffer]: the caller receives the
    block and reads it as a C string. *)
Definition out_extract_buffer (io : output) : option bytes := c_string (out_buffer io).

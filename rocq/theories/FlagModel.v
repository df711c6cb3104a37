(** Model of the flags -D of the command line, libs/macro/macro.c. *)
From Verif Require Import Prelude Utf8Model UniioModel StringsModel MapModel HashModel StorageModel.

(** libs/utils/workspace.h:28 [MAX_ARG_SIZE], the size of the array [name],
    macro.c:81. *)
Definition NAME_SIZE : Z := 1024.

(** libs/macro/error.h: the messages of macro.c:28-106; a warning does not make
    the run fail. *)
Inductive report :=
| RNoName                      (* MACRO_NAME_NON *)
| RFirst                       (* MACRO_NAME_FIRST_CHARACTER *)
| RSeparator                   (* MACRO_CONSOLE_SEPARATOR, a warning *)
| RExists (name : list Z).     (* MACRO_NAME_EXISTS *)

(** [utf8_convert(&name[j])]: a flag is a C string; [None] is a read behind its
    terminator. *)
Definition convert_at (name : bytes) (j : Z) : option Z := utf8_convert (skipn (Z.to_nat j) (name ++ [0])).

(** macro.c:43-48, the loop of [ws_parse_name]: [buffer] are the symbols written
    so far, the next one is written behind them ([None] is a write behind the
    array).  The value: the symbols before the last one read, the last one, and
    the offset behind it.  [room] counts the free places of the array, so it
    never stops the loop before the array is full. *)
Fixpoint name_loop (room : nat) (name : bytes) (buffer : list Z) (j : Z) : option (list Z * Z * Z) :=
  match room with
  | O => None
  | S room =>
      do c <- convert_at name j;
      let j := j + utf8_size c in
      if utf8_is_letter c || utf8_is_digit c then name_loop room name (buffer ++ [c]) j
      else Some (buffer, c, j)
  end.

(** macro.c:28-66 [ws_parse_name]: what is reported, and the name with the
    offset of the text unless the value is [SIZE_MAX]. *)
Definition ws_parse_name (name : bytes) : option (list report * option (list Z * Z)) :=
  do c <- convert_at name 0;
  if (c =? 0) || (c =? 61) then Some ([RNoName], None)
  else if negb (utf8_is_letter c) then Some ([RFirst], None)
  else
    do ' (buffer, last, j) <- name_loop (Z.to_nat (NAME_SIZE - 1)) name [c] (utf8_size c);
    if last =? 0 then Some ([], Some (buffer, j - 1))
    else if last =? 61 then Some ([], Some (buffer, j))
    else Some ([RSeparator], Some (buffer, j - utf8_size last)).

(** macro.c:79-102, one flag (45 = '-', 68 = 'D'): what is reported and whether
    the loop goes on. *)
Definition parse_define (e : oenv) (st : storage) (name : bytes) : option (list report * bool * storage) :=
  do ' (r, x) <- ws_parse_name name;
  match x with
  | None => Some (r, false, st)
  | Some (cs, index) =>
      do ' (id, _, st) <- storage_add e st (KUtf8 cs);
      do ' (id, st) <- (match skipn (Z.to_nat index) name with
                        | [] => Some (id, st)
                        | text => storage_set_by_index e st id text
                        end);
      if id =? SIZE_MAX then Some (r ++ [RExists cs], false, st) else Some (r, true, st)
  end.
Definition parse_flag (e : oenv) (st : storage) (flag : bytes) : option (list report * bool * storage) :=
  match flag with
  | a :: b :: name => if (a =? 45) && (b =? 68) then parse_define e st name else Some ([], true, st)
  | _ => Some ([], true, st)
  end.

(** macro.c:68-106 [ws_parse], not on Windows: what is reported, whether the
    value is 0, and the table. *)
Fixpoint ws_flags (e : oenv) (st : storage) (flags : list bytes) : option (list report * bool * storage) :=
  match flags with
  | [] => Some ([], true, st)
  | flag :: flags =>
      do ' (r, ok, st) <- parse_flag e st flag;
      if ok : bool then do ' (rs, ok, st) <- ws_flags e st flags; Some (r ++ rs, ok, st)
      else Some (r, false, st)
  end.

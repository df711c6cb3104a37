(** Model of libs/utils/workspace.c.

    Simplifications.  A text is the list of its bytes without the final zero; a
    null pointer is [None].  The vectors of texts are lists (their model is
    StrModel.v, C09); adding to them does not fail.  Whether a file exists is a
    parameter, [there]; it does not change while arguments are added.  A read or
    a write outside an array of the code gives [None].  Not modelled: a null
    workspace. *)
From Verif Require Import Prelude.

(** libs/utils/workspace.h:27-28, workspace.c:29 *)
Definition MAX_ARG_SIZE : Z := 1024.
Definition DOT : Z := 46.
Definition SLASH : Z := 47.
Definition BACKSLASH : Z := 92.

(** ** Paths, workspace.c:61-95 *)

(** [buffer[i]]; only bytes which were written are read. *)
Definition at_ (buffer : bytes) (i : Z) : Z := match znth buffer i with Some b => b | None => 0 end.
(** Lines 82-86: back to the slash before. *)
Fixpoint back (buffer : bytes) (j : nat) : nat :=
  match j with O => O | S k => if at_ buffer (Z.of_nat k) =? SLASH then j else back buffer k end.
Definition is_dots (buffer : bytes) (last : Z) : bool :=
  ((3 <? last) && (at_ buffer (last - 2) =? DOT) && (at_ buffer (last - 3) =? DOT) && (at_ buffer (last - 4) =? SLASH))
  || ((last =? 3) && (at_ buffer (last - 2) =? DOT) && (at_ buffer (last - 3) =? DOT)).
(** Lines 72-91: what becomes of the bytes when the last one is a slash. *)
Definition close (buffer : bytes) (last : Z) : bytes :=
  let j := zlen buffer in
  if (j - last =? 2) && (at_ buffer last =? DOT) then firstn (Z.to_nat last) buffer
  else if negb (last =? 0) && (j - last =? 3) && (at_ buffer last =? DOT) && (at_ buffer (last + 1) =? DOT) && negb (is_dots buffer last)
       then firstn (back buffer (Z.to_nat (last - 1))) buffer
       else buffer.
(** The loop; [buffer] is its part before [j].  [None]: a byte behind the end of
    the buffer is written. *)
Fixpoint unix_loop (path buffer : bytes) (last : Z) : option bytes :=
  match path with
  | [] => Some buffer
  | b :: path =>
      if MAX_ARG_SIZE <=? zlen buffer then None
      else
        let b := if b =? BACKSLASH then SLASH else b in
        let buffer := buffer ++ [b] in
        if b =? SLASH then let buffer := close buffer last in unix_loop path buffer (zlen buffer)
        else unix_loop path buffer last
  end.
(** Line 94: when nothing is left, the byte before the buffer is read. *)
Definition ws_unix_path (path : bytes) : option bytes :=
  do buffer <- unix_loop path [] 0;
  let j := zlen buffer in
  if j =? 0 then None
  else if at_ buffer (j - 1) =? SLASH then Some (firstn (Z.to_nat (j - 1)) buffer)
  else if MAX_ARG_SIZE <=? j then None else Some buffer.

(** ** The workspace, workspace.h:36-44 *)
Record workspace := mkWs {
  files : list bytes;
  dirs : list bytes;
  flags : list bytes;
  output : bytes;
  was_error : bool
}.
(** workspace.c:208-220. *)
Definition ws_create : workspace := mkWs [] [] [] [] false.
(** 35-41. *)
Definition ws_add_error (w : workspace) : workspace := mkWs (files w) (dirs w) (flags w) (output w) true.
(** 275-278. *)
Definition ws_is_correct (w : workspace) : bool := negb (was_error w).

(** 97-119, [strcmp] is [bytes_eqb]: the index of an equal text, or the text at the end. *)
Fixpoint ws_exists (s : bytes) (l : list bytes) (i : Z) : option Z :=
  match l with [] => None | x :: l => if bytes_eqb s x then Some i else ws_exists s l (i + 1) end.
Definition ws_add_string (l : list bytes) (s : bytes) : Z * list bytes :=
  match ws_exists s l 0 with Some i => (i, l) | None => (zlen l, l ++ [s]) end.

Section Ws.
Variable there : bytes -> bool.

(** 121-138: the list after it; the index is [None] for [SIZE_MAX]. *)
Inductive outcome := Added (i : Z) (l : list bytes) | Failed.
Definition ws_add_path (w : workspace) (l : list bytes) (path : option bytes) : option outcome :=
  match path with
  | Some p =>
      if negb (ws_is_correct w) then Some Failed
      else
        do q <- ws_unix_path p;
        if there q then let (i, l) := ws_add_string l q in Some (Added i l) else Some Failed
  | None => Some Failed
  end.
(** 223-226, 234-237. *)
Definition ws_add_file (w : workspace) (path : option bytes) : option (option Z * workspace) :=
  do o <- ws_add_path w (files w) path;
  Some match o with
       | Added i l => (Some i, mkWs l (dirs w) (flags w) (output w) (was_error w))
       | Failed => (None, ws_add_error w)
       end.
Definition ws_add_dir (w : workspace) (path : option bytes) : option (option Z * workspace) :=
  do o <- ws_add_path w (dirs w) path;
  Some match o with
       | Added i l => (Some i, mkWs (files w) l (flags w) (output w) (was_error w))
       | Failed => (None, ws_add_error w)
       end.
(** 140-143, 245-254. *)
Definition ws_add_flag (w : workspace) (flag : option bytes) : option (option Z * workspace) :=
  match flag with
  | Some f =>
      if negb (ws_is_correct w) then Some (None, ws_add_error w)
      else match f with
           | 45 :: 73 :: dir => ws_add_dir w (Some dir)
           | _ => let (i, l) := ws_add_string (flags w) f in
                  Some (Some i, mkWs (files w) (dirs w) l (output w) (was_error w))
           end
  | None => Some (None, ws_add_error w)
  end.
(** 43-59 with 228-231, 239-242, 256-259: [true] for success. *)
Fixpoint ws_add_array (add : workspace -> option bytes -> option (option Z * workspace)) (w : workspace) (l : list (option bytes)) : option (bool * workspace) :=
  match l with
  | [] => Some (true, w)
  | x :: l =>
      do ' (r, w) <- add w x;
      match r with Some _ => ws_add_array add w l | None => Some (false, w) end
  end.
(** 262-272: [strcpy] into an array of [MAX_ARG_SIZE] bytes. *)
Definition ws_set_output (w : workspace) (path : option bytes) : option (bool * workspace) :=
  match path with
  | Some p =>
      if negb (ws_is_correct w) then Some (false, ws_add_error w)
      else if MAX_ARG_SIZE <=? zlen p then None
      else Some (true, mkWs (files w) (dirs w) (flags w) p (was_error w))
  | None => Some (false, ws_add_error w)
  end.

(** 280-336. *)
Definition ws_has_flag (w : workspace) (flag : bytes) : bool := ws_is_correct w && existsb (bytes_eqb flag) (flags w).
Definition ws_get (l : list bytes) (w : workspace) (i : Z) : option bytes := if ws_is_correct w then znth l i else None.
Definition ws_get_file (w : workspace) := ws_get (files w) w.
Definition ws_get_dir (w : workspace) := ws_get (dirs w) w.
Definition ws_get_flag (w : workspace) := ws_get (flags w) w.
Definition ws_num (l : list bytes) (w : workspace) : Z := if ws_is_correct w then zlen l else 0.
Definition ws_get_files_num (w : workspace) := ws_num (files w) w.
Definition ws_get_dirs_num (w : workspace) := ws_num (dirs w) w.
Definition ws_get_flags_num (w : workspace) := ws_num (flags w) w.
Definition ws_get_output (w : workspace) : option bytes :=
  if ws_is_correct w then match output w with [] => None | o => Some o end else None.

(** 161-205, the loop over the arguments behind the program name. *)
Fixpoint ws_parse (w : workspace) (args : list (option bytes)) : option workspace :=
  match args with
  | [] => Some w
  | None :: _ => Some (ws_add_error w)
  | Some a :: args =>
      match a with
      | [45; 111] =>
          match args with
          | [] => Some (ws_add_error w)
          | o :: args =>
              do ' (ok, w) <- ws_set_output w o;
              if ok : bool then ws_parse w args else Some (ws_add_error w)
          end
      | 45 :: _ =>
          do ' (r, w) <- ws_add_flag w (Some a);
          match r with Some _ => ws_parse w args | None => Some w end
      | _ =>
          do ' (r, w) <- ws_add_file w (Some a);
          match r with Some _ => ws_parse w args | None => Some w end
      end
  end.
Definition ws_parse_args (args : list (option bytes)) : option workspace := ws_parse ws_create args.
End Ws.

(** 339-352. *)
Definition ws_clear (w : workspace) : workspace := mkWs [] [] [] (output w) true.

(** A history of calls: the answer of each, and the workspace. *)
From Verif Require Import WsSpec.
Section Run.
Variable there : bytes -> bool.
Definition call (w : workspace) (o : op) : option (option Z * workspace) :=
  match o with
  | OFile p => ws_add_file there w p
  | ODir p => ws_add_dir there w p
  | OFlag f => ws_add_flag there w f
  | OOutput p => do ' (ok, w) <- ws_set_output w p; Some (if ok : bool then Some 0 else None, w)
  end.
Fixpoint run (w : workspace) (l : list op) : option (list (option Z) * workspace) :=
  match l with
  | [] => Some ([], w)
  | o :: l => do ' (a, w) <- call w o; do ' (s, w) <- run w l; Some (a :: s, w)
  end.
End Run.

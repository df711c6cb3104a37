(** Model of libs/macro/linker.c, which finds and opens the files of a program
    and of its include directives, and of the calls which the preprocessor makes
    for a source and for an include directive.

    Simplifications.  The workspace is that of WsModel.v.  The vector [included]
    is a list (LVec.v).  Whether a file exists ([access], F_OK) and whether it can
    be opened ([fopen], "r+b") are parameters, [there] and [opens]; they do not
    change while the program is preprocessed.  A stream is replaced by whether it
    is correct.  [SIZE_MAX] as an index is [None].  A write behind an array of
    [MAX_ARG_SIZE] bytes gives [None].  Not modelled: a null linker, a failed
    allocation. *)
From Verif Require Import Prelude LVec WsModel IncSpec.

(** libs/macro/linker.h:32-40. *)
Record linker := mkLk {
  l_ws : workspace;
  l_included : list Z;
  l_current : option Z
}.

(** linker.c:31-60 [linker_make_path].  Lines 40-45: [strrchr], [strncpy]. *)
Fixpoint upto_slash (path : bytes) : bytes :=
  match path with
  | [] => []
  | b :: path => match upto_slash path with [] => if b =? SLASH then [b] else [] | d => b :: d end
  end.
(** Lines 53-58.  [buffer] is its part before [index]; a byte which is not kept is
    written all the same. *)
Definition next_is_backslash (name : bytes) : bool := match name with b :: _ => b =? BACKSLASH | [] => false end.
Fixpoint copy_name (name buffer : bytes) : option bytes :=
  if MAX_ARG_SIZE <=? zlen buffer then None
  else
    match name with
    | [] => Some buffer
    | b :: name =>
        copy_name name (if (b =? 10) || ((b =? BACKSLASH) && negb (next_is_backslash name)) then buffer
                        else buffer ++ [if b =? BACKSLASH then SLASH else b])
    end.
Definition linker_make_path (name : bytes) (path : option bytes) (is_file : bool) : option bytes :=
  copy_name name (match path with
                  | None => []
                  | Some p => if is_file then upto_slash p else p ++ [SLASH]
                  end).

Section Linker.
Variables (there opens : bytes -> bool).

(** 187-190; the vector is correct. *)
Definition linker_is_correct (lk : linker) : bool := ws_is_correct (l_ws lk).

(** 64-76 and 87-97, the part both functions have in common: the file which was
    found gets its number. *)
Definition number_file (lk : linker) (path : bytes) : option (option Z * linker) :=
  let size := ws_get_files_num (l_ws lk) in
  do ' (index, ws) <- ws_add_file there (l_ws lk) (Some path);
  let new := match index with Some i => i =? size | None => false end in
  Some (index, mkLk ws (if new then lv_add (l_included lk) 0 else l_included lk) (l_current lk)).
(** 62-79. *)
Definition linker_internal_path (lk : linker) (file : bytes) : option (option Z * linker) :=
  do path <- linker_make_path file (match l_current lk with Some c => ws_get_file (l_ws lk) c | None => None end) true;
  if there path then number_file lk path else Some (None, lk).
(** 81-102; [ds] are the directories behind [i]. *)
Fixpoint external_loop (lk : linker) (file : bytes) (ds : list bytes) : option (option Z * linker) :=
  match ds with
  | [] => Some (None, lk)
  | d :: ds =>
      do path <- linker_make_path file (Some d) false;
      if there path then number_file lk path else external_loop lk file ds
  end.
Definition linker_external_path (lk : linker) (file : bytes) : option (option Z * linker) :=
  external_loop lk file (if ws_is_correct (l_ws lk) then dirs (l_ws lk) else []).

(** 114-121. *)
Definition linker_create (ws : workspace) : linker := mkLk ws (lv_increase [] (ws_get_files_num ws)) None.
(** 124-135, uniio.c:261-279: whether the stream is correct. *)
Definition opens_file (ws : workspace) (index : Z) : bool :=
  match ws_get_file ws index with Some p => opens p | None => false end.
Definition linker_add_source (lk : linker) (index : Z) : bool * linker :=
  if linker_is_correct lk && opens_file (l_ws lk) index
  then (true, mkLk (l_ws lk) (lv_set (l_included lk) index 1) (Some index))
  else (false, lk).
(** 137-148. *)
Definition linker_add_header (lk : linker) (index : Z) : bool * linker :=
  if linker_is_correct lk && negb (lv_get (l_included lk) index =? 1) && opens_file (l_ws lk) index
  then (true, mkLk (l_ws lk) (lv_set (l_included lk) index 1) (Some index))
  else (false, lk).
(** 151-160. *)
Definition linker_search_internal (lk : linker) (file : bytes) : option (option Z * linker) :=
  if negb (linker_is_correct lk) then Some (None, lk)
  else
    do ' (index, lk) <- linker_internal_path lk file;
    match index with Some _ => Some (index, lk) | None => linker_external_path lk file end.
(** 162-171. *)
Definition linker_search_external (lk : linker) (file : bytes) : option (option Z * linker) :=
  if negb (linker_is_correct lk) then Some (None, lk)
  else
    do ' (index, lk) <- linker_external_path lk file;
    match index with Some _ => Some (index, lk) | None => linker_internal_path lk file end.
(** 174-177, 191-194 (here the file, with its number). *)
Definition linker_get_index (lk : linker) : option Z := if linker_is_correct lk then l_current lk else None.
Definition linker_current_path (lk : linker) : option bytes :=
  match linker_get_index lk with Some c => ws_get_file (l_ws lk) c | None => None end.
(** 179-189: [true] for success. *)
Definition linker_set_index (lk : linker) (index : Z) : bool * linker :=
  if negb (linker_is_correct lk) && (ws_get_files_num (l_ws lk) <=? index) then (false, lk)
  else (true, mkLk (l_ws lk) (l_included lk) (Some index)).
(** 197-200. *)
Definition linker_size (lk : linker) : option Z := if linker_is_correct lk then Some (ws_get_files_num (l_ws lk)) else None.

(** What the preprocessor asks of the linker.  macro.c:119-131: a source.
    macro/parser.c:1073-1110 [parse_path]: an include directive.  At the end of a
    file [parser_preprocess] (2408-2430) returns, and the linker is not called.
    The answer: the file, and whether it is read. *)
Definition step (lk : linker) (e : event) : option (answer * linker) :=
  match e with
  | Source index =>
      let (ok, lk) := linker_add_source lk index in
      Some ((ws_get_file (l_ws lk) index, ok), lk)
  | Include k name =>
      do ' (index, lk) <- match k with
                          | Quoted => linker_search_internal lk name
                          | Angled => linker_search_external lk name
                          end;
      match index with
      | None => Some ((None, false), lk)
      | Some i => let (ok, lk) := linker_add_header lk i in Some ((ws_get_file (l_ws lk) i, ok), lk)
      end
  | Leave => Some ((None, false), lk)
  end.
Fixpoint run (lk : linker) (l : list event) : option (list answer * linker) :=
  match l with
  | [] => Some ([], lk)
  | e :: l => do ' (a, lk) <- step lk e; do ' (s, lk) <- run lk l; Some (a :: s, lk)
  end.
End Linker.

(** 206-214: the answer for a linker which is not null; nothing is freed. *)
Definition linker_clear (lk : linker) : Z * linker := (-1, lk).

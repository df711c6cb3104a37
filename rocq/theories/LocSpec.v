(** Places in preprocessed text, independently of how they are searched.

    A text is a sequence of lines: lines of code and marks.  Read from the top, a
    mark says where the code after it comes from:
    - [Usual n path]: the next line of code is line [n] of the file;
    - [Begin n path source]: what comes up to the next mark replaces something on
      line [n] of the file, whose text is [source]; what stands on the line before
      comes from line [n] too;
    - [End n]: the replacement is over, the next line of code is line [n] again. *)
From Verif Require Import Prelude Utf8Model Utf8Spec Utf8Proofs CodeModel LocModel.
Import String.StringSyntax.
Local Open Scope Z_scope.
Local Open Scope string_scope.
Local Open Scope list_scope.

Inductive line :=
| Code (cs : list Z)
| Usual (n : Z) (path : list Z)
| Begin (n : Z) (path source : list Z)
| End (n : Z).

(** The text of a line; [decimal] is the decimal notation of a number (C39). *)
Definition head (n : Z) : bytes := str "#line " ++ decimal n.
Definition quoted (path : list Z) : bytes := [32; 34] ++ encs path ++ [34].
Definition line_text (l : line) : bytes :=
  match l with
  | Code cs => encs cs
  | Usual n path => head n ++ quoted path
  | Begin n path source => head n ++ quoted path ++ str " // " ++ encs source
  | End n => head n
  end.
Fixpoint text (ls : list line) : bytes :=
  match ls with
  | [] => []
  | [l] => line_text l
  | l :: ls => line_text l ++ [10] ++ text ls
  end.
(** The lines before some line, each ended. *)
Definition above (ls : list line) : bytes := flat_map (fun l => line_text l ++ [10]) ls.

(** What lines are made of: no line feed in a line, no quote in a path, a line of
    code does not begin as a mark does. *)
(** ([encodable]: the characters which are printed as they are read, C04.) *)
Definition plain_char (c : Z) : Prop := encodable c /\ c <> 10.
Definition proper (l : line) : Prop :=
  match l with
  | Code cs => Forall plain_char cs /\ firstn 6 cs <> str "#line "
  | Usual n path => 0 <= n < SIZE_MAX /\ Forall plain_char path /\ ~ In 34 path
  | Begin n path source => 0 <= n < SIZE_MAX /\ Forall plain_char path /\ ~ In 34 path /\ Forall plain_char source
  | End n => 0 <= n < SIZE_MAX
  end.

(** The blanks a line begins with. *)
Fixpoint indent (cs : list Z) : Z :=
  match cs with [] => 0 | c :: cs => if (c =? 32) || (c =? 9) then 1 + indent cs else 0 end.

(** What is known about the next line of code: which line of which file it is
    ([None]: the text itself, without marks so far); that it belongs to a
    replacement, and in which column it stands if its first line is known; or
    that it follows a replacement of something on line [n0].  The end of a
    replacement not begun, or before its beginning, has no meaning. *)
Inductive state :=
| Plain (file : option (list Z)) (next : Z)
| Inside (file : list Z) (n : Z) (source : list Z) (column : option Z)
| After (file : list Z) (next n0 : Z) (source : list Z).
Definition step (st : state) (l : line) : option state :=
  match l, st with
  | Usual n path, _ => Some (Plain (Some path) n)
  | Begin n path source, _ => Some (Inside path n source None)
  | End n, Inside file n0 source _ => if n0 <=? n then Some (After file n n0 source) else None
  | End _, _ => None
  | Code _, Plain file next => Some (Plain file (next + 1))
  | Code cs, Inside file n source None => Some (Inside file n source (Some (1 + indent cs)))
  | Code _, Inside file n source (Some k) => Some (Inside file n source (Some k))
  | Code _, After file next n0 source => Some (After file (next + 1) n0 source)
  end.
Fixpoint walk (st : state) (ls : list line) : option state :=
  match ls with [] => Some st | l :: ls => do st <- step st l; walk st ls end.
Definition start : state := Plain None 1.

(** The place of a character: the file ([None]: the text itself), the line, the
    column and the source line to be shown. *)
Record place := mkPlace { p_file : option (list Z); p_line : Z; p_column : Z; p_shown : list Z }.
(** The place of what follows the first [j] characters of the line [cur]. *)
Definition place_of (st : state) (cur : list Z) (j : nat) (next : option line) : place :=
  match next with
  | Some (Begin n path source) => mkPlace (Some path) n (1 + Z.of_nat j) source
  | _ =>
      match st with
      | Plain file next => mkPlace file next (1 + Z.of_nat j) cur
      | Inside file n source column =>
          mkPlace (Some file) n (match column with Some k => k | None => 1 + indent (firstn j cur) end) source
      | After file next n0 source =>
          mkPlace (Some file) next (1 + Z.of_nat j) (if next =? n0 then source else cur)
      end
  end.

Definition line_shown (d : bytes) (loc : location) (cs : list Z) : Prop :=
  loc_get_code_line d loc = Some (encs cs)
  /\ (1 <= l_symbol loc <= 1 + zlen cs -> loc_get_index d loc = zlen (encs (firstn (Z.to_nat (l_symbol loc - 1)) cs))).
(** A location shows a place: the path, the line and the column asked for from it
    are those of the place, so is the source line, and the index in the source
    line, counted in bytes, is that of the column. *)
Definition shows (own d : bytes) (loc : location) (p : place) : Prop :=
  loc_get_path own d loc = Some (match p_file p with Some path => encs path | None => own end)
  /\ l_line loc = p_line p /\ l_symbol loc = p_column p
  /\ line_shown d loc (p_shown p).

(** ** Files

    The lines of a file, and what is asked of them: no line of the file and no
    line of a replacement begins with a hash (they would be read as directives and
    marks), a replacement does not begin with a blank. *)
Definition source_line (s : sline) : list Z := s_first s ++ flat_map (fun c => c_name c ++ c_after c) (s_calls s).
Definition source (ss : list sline) : bytes := text (map (fun s => Code (source_line s)) ss).
Definition proper_call (c : call) : Prop :=
  c_name c <> [] /\ Forall plain_char (c_name c) /\ Forall plain_char (c_after c)
  /\ c_lines c <> [] /\ Forall (fun r => Forall plain_char r /\ hd 0 r <> 35) (c_lines c)
  /\ indent (hd [] (c_lines c)) = 0.
Definition proper_sline (s : sline) : Prop :=
  Forall plain_char (s_first s) /\ hd 0 (source_line s) <> 35 /\ Forall proper_call (s_calls s).

(** The characters of the copy with the lines and columns they come from: those of
    the line in their columns, those of a replacement in the column of the call. *)
Fixpoint columns (x k : Z) (cs : list Z) : list (Z * (Z * Z)) :=
  match cs with [] => [] | c :: cs => (c, (x, k)) :: columns x (k + 1) cs end.
Fixpoint of_calls (x k : Z) (calls : list call) : list (Z * (Z * Z)) :=
  match calls with
  | [] => []
  | c :: calls =>
      map (fun ch => (ch, (x, k))) (concat (c_lines c)) ++ columns x (k + zlen (c_name c)) (c_after c)
      ++ of_calls x (k + zlen (c_name c) + zlen (c_after c)) calls
  end.
Fixpoint contents (x : Z) (ss : list sline) : list (Z * (Z * Z)) :=
  match ss with
  | [] => []
  | s :: ss => columns x 1 (s_first s) ++ of_calls x (1 + zlen (s_first s)) (s_calls s) ++ contents (x + 1) ss
  end.
Definition is_space (c : Z) : bool := (c =? 32) || (c =? 9).
(** The labelled characters, by their first bytes, without blanks. *)
Definition visible (o : list (Z * option (Z * Z))) : list (Z * (Z * Z)) :=
  flat_map (fun '(b, t) => match t with Some t => if is_space b then [] else [(b, t)] | None => [] end) o.
Definition shown_contents (l : list (Z * (Z * Z))) : list (Z * (Z * Z)) :=
  flat_map (fun '(c, t) => if is_space c then [] else [(hd 0 (Utf8Spec.enc c), t)]) l.

(** What the flags -D ask for, independently of the code. *)
From Verif Require Import Prelude Utf8Model Utf8Spec FlagModel.
From Verif Require Import MapSpec StorageSpec.

(** A symbol of a flag: the flag itself is the UTF-8 text [encs cs]. *)
Definition flag_symbol (c : Z) : Prop := 0 < c < 0x200000.

(** The letters and digits a text begins with, and the rest. *)
Fixpoint ident_part (cs : list Z) : list Z * list Z :=
  match cs with
  | [] => ([], [])
  | c :: rest => if utf8_is_letter c || utf8_is_digit c then let '(n, t) := ident_part rest in (c :: n, t) else ([], cs)
  end.

(** -DNAME and -DNAME= ask for a macro without a text, -DNAME=TEXT for one with
    this text, and so does -DNAMETEXT where the text does not begin with a letter
    or a digit, which is [odd]. *)
Inductive meaning := Other | NoName | BadName | Define (name : list Z) (text : bytes) (odd : bool).
Definition define_of (cs : list Z) : meaning :=
  match cs with
  | [] => NoName
  | c :: _ =>
      if c =? 61 then NoName
      else if utf8_is_letter c then
        match ident_part cs with
        | (name, []) => Define name [] false
        | (name, d :: text) => if d =? 61 then Define name (encs text) false else Define name (encs (d :: text)) true
        end
      else BadName
  end.
(** 45 = '-', 68 = 'D', 61 = '='. *)
Definition meaning_of (flag : list Z) : meaning :=
  match flag with
  | a :: b :: cs => if (a =? 45) && (b =? 68) then define_of cs else Other
  | _ => Other
  end.

(** The definitions one after another; the first flag which cannot be granted is
    reported and ends the list. *)
Definition defs := list (list Z * bytes).
Fixpoint text_of (d : defs) (name : list Z) : option bytes :=
  match d with [] => None | (n, t) :: d => if key_eqb n name then Some t else text_of d name end.
Fixpoint outcome (d : defs) (flags : list (list Z)) : list report * bool * defs :=
  match flags with
  | [] => ([], true, d)
  | f :: flags =>
      match meaning_of f with
      | Other => outcome d flags
      | NoName => ([RNoName], false, d)
      | BadName => ([RFirst], false, d)
      | Define name text odd =>
          let warned := if odd then [RSeparator] else [] in
          match text_of d name with
          | Some _ => (warned ++ [RExists name], false, d)
          | None => let '(rs, ok, d) := outcome (d ++ [(name, text)]) flags in (warned ++ rs, ok, d)
          end
      end
  end.

(** The table holds exactly these macros: no arguments, and no text where it is
    empty. *)
Definition holds (S : pstate) (d : defs) : Prop :=
  forall name, match S name, text_of d name with
               | Some m, Some t => mc_args m = 0 /\ mc_text m = (match t with [] => None | _ => Some t end)
               | None, None => True
               | _, _ => False
               end.

(** A flag the array for the name can hold. *)
Definition name_fits (flag : list Z) : Prop := match meaning_of flag with Define name _ _ => zlen name < 1024 | _ => True end.
(** Bytes of all flags. *)
Definition flags_size (flags : list (list Z)) : Z := fold_right (fun f n => 8 * zlen (encs f) + 64 + n) 0 flags.

(** Flags which can be granted: each says what to define, and no two define the
    same name. *)
Definition well_formed (flag : list Z) : Prop := match meaning_of flag with NoName | BadName => False | _ => True end.
Definition defined_by (flags : list (list Z)) : defs :=
  flat_map (fun f => match meaning_of f with Define name text _ => [(name, text)] | _ => [] end) flags.
Definition grantable (flags : list (list Z)) : Prop := Forall well_formed flags /\ NoDup (map fst (defined_by flags)).
(** One warning for each odd flag. *)
Definition warnings (flags : list (list Z)) : list report :=
  flat_map (fun f => match meaning_of f with Define _ _ true => [RSeparator] | _ => [] end) flags.
(** The error for a flag at fault; a definition is at fault when its name is
    defined already. *)
Definition fault (flag : list Z) : report :=
  match meaning_of flag with NoName | Other => RNoName | BadName => RFirst | Define name _ _ => RExists name end.

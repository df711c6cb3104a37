(** What reports mean, independently of the code. *)
From Verif Require Import Prelude.

(** What a stage of the compiler may say: an error or a warning at a place of
    the text, or an error of the program itself, without a place. *)
Inductive saying := SError (place num : Z) | SWarning (place num : Z) | SSystem (num : Z).
Definition is_error (s : saying) : bool := match s with SError _ _ => true | _ => false end.
Definition is_warning (s : saying) : bool := match s with SWarning _ _ => true | _ => false end.
Definition is_system (s : saying) : bool := match s with SSystem _ => true | _ => false end.

(** What is shown.  With recovery everything; without it, after the first
    error neither errors nor warnings. *)
Fixpoint shown (quiet : bool) (l : list saying) : list saying :=
  match l with
  | [] => []
  | s :: l => if is_error s && quiet then s :: filter is_system l else s :: shown quiet l
  end.
Definition count (p : saying -> bool) (l : list saying) : Z := zlen (filter p l).

(** A place in the text is kept, any other is taken as the current position. *)
Definition placed (size pos : Z) (s : saying) : saying :=
  match s with
  | SError p n => SError (if p <=? size then p else pos) n
  | SWarning p n => SWarning (if p <=? size then p else pos) n
  | SSystem n => SSystem n
  end.

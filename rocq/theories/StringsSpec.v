(** Specification of the string table: a list of strings. *)
From Verif Require Import Prelude Utf8Spec.

Inductive strop :=
| SAdd (s : bytes)            (* strings_add *)
| SAddUtf8 (cs : list Z)      (* strings_add_by_utf8 *)
| SAddVector (cs : list Z)    (* strings_add_by_vector *)
| SGet (i : Z)                (* strings_get *)
| SLength (i : Z)             (* strings_get_length *)
| SRemove                     (* strings_remove *)
| SSize.                      (* strings_size *)

Inductive strres := RNum (n : Z) | RText (s : option bytes).

Definition add_spec (l : list bytes) (s : bytes) : strres * list bytes := (RNum (zlen l), l ++ [s]).

(** What each call returns and the new table. *)
Definition strspec (l : list bytes) (op : strop) : strres * list bytes :=
  match op with
  | SAdd [] | SAddUtf8 [] => (RNum SIZE_MAX, l)
  | SAdd s => add_spec l s
  | SAddUtf8 cs => add_spec l (encs cs)
  | SAddVector cs => add_spec l (encs cs)
  | SGet i => (RText (znth l i), l)
  | SLength i => (RNum (match znth l i with Some s => zlen s | None => 0 end), l)
  | SRemove => match rev l with [] => (RText None, l) | s :: r => (RText (Some s), rev r) end
  | SSize => (RNum (zlen l), l)
  end.

Fixpoint strspecs (l : list bytes) (ops : list strop) : list strres * list bytes :=
  match ops with
  | [] => ([], l)
  | op :: ops => let '(r, l) := strspec l op in let '(rs, l) := strspecs l ops in (r :: rs, l)
  end.

(** C strings hold no NUL byte; symbols are code points the UTF-8 encoder
    handles (see C04) and not NUL; the text handed over in a vector is not
    empty (see C09_empty_vector_refuted). *)
Definition good_symbol (c : Z) : Prop :=
  0 < c < 0x800 \/ 0x1000 <= c < 0x10000 \/ 0x40000 <= c < 0x200000.
Definition strop_ok (op : strop) : Prop :=
  match op with
  | SAdd s => Forall (fun b => b <> 0) s
  | SAddUtf8 cs => Forall good_symbol cs
  | SAddVector cs => Forall good_symbol cs /\ cs <> []
  | SGet i | SLength i => 0 <= i
  | SRemove | SSize => True
  end.

(** Room a call may need. *)
Definition strop_size (op : strop) : Z :=
  match op with SAdd s => zlen s + 2 | SAddUtf8 cs | SAddVector cs => 4 * zlen cs + 2 | _ => 0 end.
Definition strops_size (ops : list strop) : Z := fold_right (fun op n => strop_size op + n) 0 ops.

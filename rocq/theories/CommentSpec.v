(** What the comments about the origin of a line mean, without the program. *)
From Verif Require Import Prelude CodeModel.
From Coq Require String.
Import String.StringSyntax.
Local Open Scope string_scope.
Local Open Scope list_scope.
Local Open Scope Z_scope.

(** A line saying that the line after it is line [n] of the file [path]. *)
Definition mark (path : bytes) (n : Z) : bytes := str "// # " ++ path ++ str " " ++ decimal n ++ [10].
(** A line saying that what follows is all from symbol [s] of line [n] of [path]. *)
Definition macro_mark (path : bytes) (n s : Z) : bytes := str "// # " ++ path ++ str " " ++ decimal n ++ str " " ++ decimal s ++ [10].

(** File names in marks: no blank, no newline, no NUL. *)
Definition plain (path : bytes) : Prop := Forall (fun b => b <> 0 /\ b <> 10 /\ b <> 32) path.

Definition newlines (w : bytes) : Z := Z.of_nat (count_occ Z.eq_dec w 10).

(** Only whole lines. *)
Definition whole_lines (w : bytes) : Prop := w = [] \/ exists v, w = v ++ [10].
(** A line without its end. *)
Definition one_line (w : bytes) : Prop := Forall (fun b => b <> 0 /\ b <> 10) w.
(** What can follow a line. *)
Definition line_over (w : bytes) : Prop := w = [] \/ exists v, w = 10 :: v.

Definition no_mark (w : bytes) : Prop := forall a b, w <> a ++ str "// #" ++ b.

(** Stringizing of macro arguments, libs/macro/parser.c:600-617.  Characters are
    code points: the argument and the result are UTF-8 texts, read by
    [uni_scan_char] and written by [uni_print_char] ([Utf8Model.v], [UniioModel.v]).
    The end of the input is printed as nothing. *)
From Verif Require Import Prelude.
Local Open Scope Z_scope.

(** 603-613, the loop. *)
Fixpoint strz_loop (a : list Z) : list Z :=
  match a with
  | [] => []
  | c :: a =>
      if c =? 92
      then
        match a with
        | [] => []
        | d :: a => (if d =? 34 then [92; 92] else [92]) ++ (if d =? 34 then [92] else []) ++ d :: strz_loop a
        end
      else (if c =? 34 then [92] else []) ++ c :: strz_loop a
  end.
(** 602-614. *)
Definition stringize (a : list Z) : list Z := 34 :: strz_loop a ++ [34].

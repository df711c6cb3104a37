(** What a stringized argument should be. *)
From Verif Require Import Prelude LexSpec.
Local Open Scope Z_scope.

(** The inside of one literal: a quote is after a back slash, and a back slash
    before a character. *)
Inductive unbroken : list Z -> Prop :=
| u_nil : unbroken []
| u_plain c b : c <> 34 -> c <> 92 -> unbroken b -> unbroken (c :: b)
| u_escape c b : unbroken b -> unbroken (92 :: c :: b).

(** [kept a s]: the characters [s] remain of the argument [a].  The argument's
    escapes other than the quote are taken for what they mean, and a back slash at
    the end is lost. *)
Inductive kept : list Z -> list Z -> Prop :=
| k_nil : kept [] []
| k_plain c a s : c <> 10 -> c <> 92 -> kept a s -> kept (c :: a) (c :: s)
| k_quote a s : kept a s -> kept (92 :: 34 :: a) (92 :: 34 :: s)
| k_escape d v a s : d <> 34 -> escape_of d v -> kept a s -> kept (92 :: d :: a) (v :: s)
| k_last : kept [92] [].

(** Specification of character input and buffered output. *)
From Verif Require Import Prelude.

(** Reading a text symbol by symbol: [reads read s cs] when the symbols read one
    after another are [cs] and the next read reports the end. *)
Inductive reads {S : Type} (read : S -> Z * S) (eof : Z) : S -> list Z -> Prop :=
| reads_end s s' : read s = (eof, s') -> reads read eof s []
| reads_sym s c s' cs : read s = (c, s') -> c <> eof -> reads read eof s' cs -> reads read eof s (c :: cs).

(** One print call: what is printed, whether memory was available. *)
Definition printed (mem_ok : bool) (text : bytes) (r : Z) (before after : bytes) : Prop :=
  (r = zlen text /\ after = before ++ text) \/ (mem_ok = false /\ r = -1 /\ after = before).

Inductive printed_all : list (bool * bytes) -> list Z -> bytes -> bytes -> Prop :=
| pa_nil b : printed_all [] [] b b
| pa_cons m t r h rs a b c : printed m t r a b -> printed_all h rs b c ->
    printed_all ((m, t) :: h) (r :: rs) a c.

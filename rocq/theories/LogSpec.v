(** What a message looks like. *)
From Verif Require Import Prelude Utf8Spec.
Local Open Scope Z_scope.

(** Letters (Latin, Russian and the underscore) and digits. *)
Definition in_word (c : Z) : Prop :=
  48 <= c <= 57 \/ 65 <= c <= 90 \/ 97 <= c <= 122 \/ c = 95 \/ 1040 <= c <= 1103 \/ c = 1025 \/ c = 1105.
(** The word at the [j]-th character of a line: all letters and digits around it,
    the character itself if it is none. *)
Definition word_at (cs : list Z) (j : nat) (before w after : list Z) : Prop :=
  cs = before ++ w ++ after
  /\ (List.length before <= j < List.length before + List.length w)%nat
  /\ ((Forall in_word w
       /\ (forall b c, before = b ++ [c] -> ~ in_word c)
       /\ (forall c a, after = c :: a -> ~ in_word c))
      \/ exists c, w = [c] /\ ~ in_word c).
(** The line below: blanks up to the word (tabs stay tabs), a caret, tildes. *)
Definition underline (before w : list Z) : bytes :=
  map (fun c => if c =? 9 then 9 else 32) before ++ 94 :: repeat 126 (List.length w - 1).
(** The text of a message about the [j]-th character of a line. *)
Definition pointing (msg : bytes) (before w after : list Z) : bytes :=
  msg ++ [10] ++ encs (before ++ w ++ after) ++ [10] ++ underline before w.
(** Characters of a line. *)
Definition line_char (c : Z) : Prop := code_point c /\ c <> 10 /\ c <> 0.

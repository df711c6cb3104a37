(** How the text of exported code is read, independently of how it is written:
    lines end at a line feed, numbers are separated by blanks. *)
From Verif Require Import Prelude.

(** The lines of a text, each ended by a line feed; none when the text goes on
    after the last one. *)
Fixpoint lines (text line : bytes) : option (list bytes) :=
  match text with
  | [] => match line with [] => Some [] | _ => None end
  | b :: text => if b =? 10 then do l <- lines text []; Some (rev line :: l) else lines text (b :: line)
  end.

(** The words of a line: what stands between blanks. *)
Fixpoint words (line word : bytes) : list bytes :=
  let last := match word with [] => [] | _ => [rev word] end in
  match line with
  | [] => last
  | b :: line => if b =? 32 then last ++ words line [] else words line (b :: word)
  end.

(** The number a word stands for in decimal notation. *)
Fixpoint read_digits (w : bytes) (n : Z) : option Z :=
  match w with
  | [] => Some n
  | d :: w => if (48 <=? d) && (d <=? 57) then read_digits w (10 * n + (d - 48)) else None
  end.
Definition read_number (w : bytes) : option Z :=
  match w with
  | [] => None
  | b :: r => if b =? 45 then match r with [] => None | _ => do n <- read_digits r 0; Some (- n) end else read_digits w 0
  end.

Fixpoint all {A B} (f : A -> option B) (l : list A) : option (list B) :=
  match l with [] => Some [] | x :: l => do y <- f x; do ys <- all f l; Some (y :: ys) end.

(** The numbers on every line of a text. *)
Definition read_line (line : bytes) : option (list Z) := all read_number (words line []).
Definition read_lines (text : bytes) : option (list (list Z)) := do ls <- lines text []; all read_line ls.

(** What the parts of a MIPS frame must be, without the generator. *)
From Verif Require Import Prelude.

(** The general temporaries $t0-$t7, and the floating ones that are used in single
    precision, $f4, $f6, $f8, $f10, $f16, $f18, by the numbers of the program. *)
Definition temporary (r : Z) : Prop := 8 <= r <= 15.
Definition float_temporary (r : Z) : Prop := 40 <= r <= 51 /\ r mod 2 = 0.

(** A piece of memory: its address and its size. *)
Definition piece : Type := (Z * Z)%type.
Definition apart (p q : piece) : Prop := fst p + snd p <= fst q \/ fst q + snd q <= fst p.
Definition all_apart (l : list piece) : Prop := ForallOrdPairs apart l.

(** What is declared in the body of a function. *)
Inductive event := Local (size : Z) | Enter | Leave.
Definition event_ok (e : event) : Prop := match e with Local n => 0 <= n | _ => True end.

(** Where the code goes on after a jump. *)
From Verif Require Import Prelude LabelModel.

(** The lines after the label [l]; [None] if it is not there. *)
Fixpoint after (l : label) (code : list line) : option (list line) :=
  match code with
  | [] => None
  | Decl l' :: code => if (fst l' =? fst l) && (snd l' =? snd l) then Some code else after l code
  | Jump _ :: code => after l code
  end.

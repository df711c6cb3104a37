(** What labels must be, without the counters of the generator. *)
From Verif Require Import Prelude LabelModel.

Definition declared (code : list line) : list label := flat_map (fun x => match x with Decl l => [l] | Jump _ => [] end) code.
Definition targets (code : list line) : list label := flat_map (fun x => match x with Jump l => [l] | Decl _ => [] end) code.

(** break stands in a loop or a switch ([b]), continue in a loop ([c]). *)
Fixpoint legal (b c : bool) (s : mstmt) : bool :=
  match s with
  | SExpr _ | SReturn _ => true
  | SSeq s1 s2 => legal b c s1 && legal b c s2
  | SIf _ s => legal b c s
  | SIfElse _ s1 s2 => legal b c s1 && legal b c s2
  | SWhile _ s | SDo s _ => legal true true s
  | SFor i _ s _ => legal b c i && legal true true s
  | SSwitch _ body => legal_sections c body
  | SBreak => b
  | SContinue => c
  end
with legal_sections (c : bool) (body : sections) : bool :=
  match body with
  | NoSection => true
  | Section_ _ s rest => legal true c s && legal_sections c rest
  end.

(** Every switch has one default or none. *)
Fixpoint defaults (body : sections) : Z :=
  match body with
  | NoSection => 0
  | Section_ Default _ rest => 1 + defaults rest
  | Section_ _ _ rest => defaults rest
  end.
Fixpoint one_default (s : mstmt) : bool :=
  match s with
  | SExpr _ | SReturn _ | SBreak | SContinue => true
  | SSeq a b | SIfElse _ a b => one_default a && one_default b
  | SIf _ a | SWhile _ a | SDo a _ => one_default a
  | SFor i _ a _ => one_default i && one_default a
  | SSwitch _ body => (defaults body <=? 1) && one_default_each body
  end
with one_default_each (body : sections) : bool :=
  match body with
  | NoSection => true
  | Section_ _ s rest => one_default s && one_default_each rest
  end.

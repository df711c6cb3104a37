(** What a path means, and what the arguments of the program mean, independently
    of the code. *)
From Verif Require Import Prelude.

(** A path: names between slashes; on the command line a backslash is a slash. *)
Definition slashed (p : bytes) : bytes := map (fun b => if b =? 92 then 47 else b) p.
Fixpoint split (p : bytes) : list bytes :=
  match p with
  | [] => [[]]
  | b :: p => if b =? 47 then [] :: split p
              else match split p with s :: ss => (b :: s) :: ss | [] => [[b]] end
  end.
Definition absolute (p : bytes) : bool := match p with b :: _ => b =? 47 | [] => false end.

(** The file a path names: the way from the root, the last name first. *)
Definition walk (here : list bytes) (name : bytes) : list bytes :=
  if bytes_eqb name [] || bytes_eqb name [46] then here
  else if bytes_eqb name [46; 46] then tl here
  else name :: here.
Definition resolve (here : list bytes) (p : bytes) : list bytes := fold_left walk (split p) (if absolute p then [] else here).

(** All names of a path but the last. *)
Definition inner (p : bytes) : list bytes := removelast (split p).
(** No name is empty; a slash at the end is allowed. *)
Definition no_empty (p : bytes) : Prop := Forall (fun s => s <> []) (inner p).
(** The way never leads above its start. *)
Fixpoint climbs (depth : nat) (names : list bytes) : bool :=
  match names with
  | [] => false
  | s :: ss =>
      if bytes_eqb s [46] then climbs depth ss
      else if bytes_eqb s [46; 46] then match depth with O => true | S d => climbs d ss end
      else climbs (S depth) ss
  end.

(** ** The arguments *)
(** Texts in the order in which they first occur. *)
Fixpoint once (seen : list bytes) (l : list bytes) : list bytes :=
  match l with
  | [] => seen
  | x :: l => once (if existsb (bytes_eqb x) seen then seen else seen ++ [x]) l
  end.

(** A call which changes a workspace. *)
Inductive op := OFile (path : option bytes) | ODir (path : option bytes) | OFlag (flag : option bytes) | OOutput (path : option bytes).
(** What the call asks for.  It does not depend on the workspace. *)
Inductive wish := WFile (path : bytes) | WDir (path : bytes) | WFlag (flag : bytes) | WOutput (path : bytes) | WNothing | WUndefined.
Section Wish.
(** How a path is spelled, if that is defined; whether there is such a file. *)
Variables (spelled : bytes -> option bytes) (there : bytes -> bool).
Definition wish_path (mk : bytes -> wish) (path : option bytes) : wish :=
  match path with
  | None => WNothing
  | Some p => match spelled p with None => WUndefined | Some q => if there q then mk q else WNothing end
  end.
Definition wish_of (o : op) : wish :=
  match o with
  | OFile p => wish_path WFile p
  | ODir p => wish_path WDir p
  | OFlag None => WNothing
  | OFlag (Some f) =>
      if bytes_eqb (firstn 2 f) [45; 73] then wish_path WDir (Some (skipn 2 f)) else WFlag f
  | OOutput None => WNothing
  | OOutput (Some p) => if zlen p <? 1024 then WOutput p else WUndefined
  end.
End Wish.
(** The wishes before the first one which cannot be granted. *)
Definition granted (x : wish) : bool := match x with WNothing | WUndefined => false | _ => true end.
Fixpoint prefix (l : list wish) : list wish :=
  match l with [] => [] | x :: l => if granted x then x :: prefix l else [] end.
Definition file_wishes (l : list wish) : list bytes := flat_map (fun x => match x with WFile p => [p] | _ => [] end) l.
Definition dir_wishes (l : list wish) : list bytes := flat_map (fun x => match x with WDir p => [p] | _ => [] end) l.
Definition flag_wishes (l : list wish) : list bytes := flat_map (fun x => match x with WFlag p => [p] | _ => [] end) l.
Definition output_wishes (l : list wish) : list bytes := flat_map (fun x => match x with WOutput p => [p] | _ => [] end) l.

(** The arguments of the program: -o and a file, a word with a dash, a file. *)
Fixpoint commands (args : list (option bytes)) : list op :=
  match args with
  | [] => []
  | None :: _ => [OFile None]
  | Some a :: rest =>
      if bytes_eqb a [45; 111]
      then match rest with [] => [OOutput None] | o :: rest => OOutput o :: commands rest end
      else if bytes_eqb (firstn 1 a) [45] then OFlag (Some a) :: commands rest
      else OFile (Some a) :: commands rest
  end.

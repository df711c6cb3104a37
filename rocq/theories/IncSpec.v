(** Which file an include directive names, independently of the code. *)
From Verif Require Import Prelude WsSpec.

(** [#include "name"] or [#include <name>]. *)
Inductive kind := Quoted | Angled.
(** A file given on the command line is begun, by its place there; an include
    directive is met; a file which was included ends. *)
Inductive event := Source (i : Z) | Include (k : kind) (name : bytes) | Leave.
(** The file, if there is one, and whether it is read now. *)
Definition answer := (option bytes * bool)%type.

(** The part of a path up to its last slash, with the slash. *)
Definition directory (p : bytes) : bytes := flat_map (fun s => s ++ [47]) (inner p).
(** The paths which are tried, in order.  [here]: the file the name is relative to. *)
Definition beside (here : option bytes) (name : bytes) : bytes :=
  match here with Some p => directory p ++ name | None => name end.
Definition listed (dirs : list bytes) (name : bytes) : list bytes := map (fun d => d ++ [47] ++ name) dirs.
Definition candidates (k : kind) (dirs : list bytes) (here : option bytes) (name : bytes) : list bytes :=
  match k with
  | Quoted => [beside here name] ++ listed dirs name
  | Angled => listed dirs name ++ [beside here name]
  end.
(** A name without backslashes and ends of lines. *)
Definition plain_name (name : bytes) : Prop := ~ In 92 name /\ ~ In 10 name.

(** What the events ask for.  [spelled]: how a path is written when it is noted;
    [there], [opens]: there is such a file, it can be opened.  [files]: the files
    of the command line; [dirs]: the directories given with -I. *)
Section Asked.
Variables (spelled : bytes -> option bytes) (there opens : bytes -> bool) (files dirs : list bytes).
(** The files which were read, and the files being read, the innermost first. *)
Record reading := mkRd { seen : list bytes; stack : list bytes }.
(** Two answers to the question which file a name is relative to: the file the
    directive stands in, and the file which was begun last. *)
Inductive rule := Includer | LastBegun.
Definition here_of (r : rule) (s : reading) : option bytes :=
  match r with Includer => hd_error (stack s) | LastBegun => hd_error (seen s) end.
Definition known (p : bytes) (s : reading) : bool := existsb (bytes_eqb p) (seen s).
Definition begun (p : bytes) (s : reading) : reading := mkRd (p :: seen s) (p :: stack s).
(** [None]: a path is too long, or it cannot be written, or there is no such file
    as it is written. *)
Definition asked (r : rule) (s : reading) (e : event) : option (answer * reading) :=
  match e with
  | Source i =>
      do p <- znth files i;
      if opens p then Some ((Some p, true), mkRd (p :: seen s) [p]) else Some ((Some p, false), s)
  | Include k name =>
      let paths := candidates k dirs (here_of r s) name in
      if negb (forallb (fun c => zlen c <? 1024) paths) then None
      else
        match find there paths with
        | None => Some ((None, false), s)
        | Some c =>
            do p <- spelled c;
            if negb (there p) then None
            else if known p s || negb (opens p) then Some ((Some p, false), s)
            else Some ((Some p, true), begun p s)
        end
  | Leave => Some ((None, false), mkRd (seen s) (tl (stack s)))
  end.
Fixpoint all_asked (r : rule) (s : reading) (l : list event) : option (list answer) :=
  match l with
  | [] => Some []
  | e :: l => do ' (a, s) <- asked r s e; do t <- all_asked r s l; Some (a :: t)
  end.
End Asked.

(** The files which the include directives of a history read. *)
Fixpoint headers (l : list event) (t : list answer) : list bytes :=
  match l, t with
  | Include _ _ :: l, (Some p, true) :: t => p :: headers l t
  | _ :: l, _ :: t => headers l t
  | _, _ => []
  end.
(** The files which are read. *)
Definition read_files (t : list answer) : list bytes :=
  flat_map (fun a => match a with (Some p, true) => [p] | _ => [] end) t.
Definition plain_event (e : event) : Prop := match e with Include _ name => plain_name name | _ => True end.
(** Directives stand in files, and files end where they began: the depth never
    gets below zero, and a source begins where no file is being read. *)
Fixpoint nested (depth : nat) (l : list event) (t : list answer) : Prop :=
  match l, t with
  | [], [] => True
  | Source _ :: l, (_, ok) :: t => depth = O /\ nested (if ok then 1%nat else O) l t
  | Include _ _ :: l, (_, ok) :: t => (0 < depth)%nat /\ nested (if ok : bool then S depth else depth) l t
  | Leave :: l, _ :: t => match depth with O => False | S d => nested d l t end
  | _, _ => False
  end.
(** The headers which the directives of a source read lie in the directory of the
    source; [d]: that directory. *)
Fixpoint flat (d : bytes) (l : list event) (t : list answer) : Prop :=
  match l, t with
  | Source _ :: l, (Some p, true) :: t => flat (directory p) l t
  | Include _ _ :: l, (Some p, true) :: t => directory p = d /\ flat d l t
  | _ :: l, _ :: t => flat d l t
  | _, _ => True
  end.
(** Texts one behind the other, [sep] between them. *)
Fixpoint joined (sep : bytes) (l : list bytes) : bytes :=
  match l with
  | [] => []
  | x :: l => match l with [] => x | _ => x ++ sep ++ joined sep l end
  end.

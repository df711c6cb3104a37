(** Linking of calls, independently of how pending calls are kept: what the code
    should be after any history of words written, calls compiled and functions
    defined. *)
From Verif Require Import Prelude LVec TypesModel TypesSpec LexModel ParseModel InstrModel BuildModel CodeModel.

(** What happens to the code, codegen.c:883-925 (the target of a call), 114-138,
    1576-1604. *)
Inductive action :=
| AWord (v : Z)                   (* a word is written at the end *)
| ASet (a v : Z)                  (* a word is patched *)
| ACall (f : Z)                   (* the target of a call of the function [f] *)
| ADefine (id : Z)                (* the definition of [id] starts here *)
| AParams (p : option (list Z)).  (* a function with these parameters is entered or left *)

Definition act (c : ctx) (e : enc) (x : action) : enc :=
  match x with
  | AWord v => mem_add e v
  | ASet a v => mem_set e a v
  | ACall f => let (displ, e) := functions_get e f in mem_add e displ
  | ADefine id => functions_add c e id (mem_size e)
  | AParams p => set_params e p
  end.

(** The account: the calls whose target was not known, [(address, function)]; the
    prototypes which got a definition, [(prototype, definition)]; the numbers of
    the definitions; the words of the code with an empty word at every such call;
    the table of functions. *)
Record account := mkAccount {
  pending : list (Z * Z); defined : list (Z * Z); numbers : list (Z * Z); text : list Z; table : list Z;
  params : option (list Z)
}.
Fixpoint known (l : list (Z * Z)) (k : Z) : option Z :=
  match l with [] => None | (x, v) :: l => if x =? k then Some v else known l k end.

Definition note (c : ctx) (size : Z) (l : account) (x : action) : account :=
  match x with
  | AWord v => mkAccount (pending l) (defined l) (numbers l) (text l ++ [v]) (table l) (params l)
  | ASet a v => mkAccount (pending l) (defined l) (numbers l) (zupd (text l) a v) (table l) (params l)
  | ACall f =>
      match known (numbers l) f with
      | Some n => mkAccount (pending l) (defined l) (numbers l) (text l ++ [n]) (table l) (params l)
      | None => mkAccount ((zlen (text l), f) :: pending l) (defined l) (numbers l) (text l ++ [0]) (table l) (params l)
      end
  | ADefine id =>
      mkAccount (pending l)
                (if (0 <=? c_prev c id) && (c_prev c id <? size) then (c_prev c id, id) :: defined l else defined l)
                ((id, zlen (table l)) :: numbers l) (text l) (table l ++ [zlen (text l)]) (params l)
  | AParams p => mkAccount (pending l) (defined l) (numbers l) (text l) (table l) p
  end.

(** What the rules of the language and the table of identifiers (C27, C28)
    guarantee: a name refers to the definition after it; a definition has a new
    identifier, and its predecessor is its prototype or not an identifier; only
    the code generator's own jumps are patched. *)
Definition is_none {A} (o : option A) : bool := match o with None => true | Some _ => false end.
Definition proper (c : ctx) (size : Z) (l : account) (x : action) : bool :=
  let inside i := (0 <=? i) && (i <? size) in
  match x with
  | AWord _ | AParams _ => true
  | ASet a _ => is_none (known (pending l) a)
  | ACall f => inside f && is_none (known (defined l) f) && negb (existsb (fun p => p =? f) (dflt (params l) []))
  | ADefine id =>
      let f := c_prev c id in
      inside id && is_none (known (numbers l) id) && is_none (known (defined l) id)
      && negb (existsb (fun p => snd p =? id) (pending l))
      && (negb (inside f) || negb (f =? id) && is_none (known (numbers l) f) && is_none (known (defined l) f))
  end.
Fixpoint proper_all (c : ctx) (size : Z) (l : account) (xs : list action) : bool :=
  match xs with [] => true | x :: xs => proper c size l x && proper_all c size (note c size l x) xs end.

(** The word which belongs at an address; none when the call there is still
    pending. *)
Definition belongs (l : account) (a : Z) : option Z :=
  match known (pending l) a with
  | Some f => do id <- known (defined l) f; known (numbers l) id
  | None => znth (text l) a
  end.

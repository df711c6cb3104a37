(** What the clients of the type table know: type expressions, their sizes, and
    the histories of requests.  Nothing here mentions the cells of the table. *)
From Verif Require Import Prelude TypesModel.

(** A type expression.  Structures are told apart by their members, with their
    names (the representation numbers); each declaration of an enumeration is a
    type of its own, known by its serial number; [first] is the value of its
    first constant. *)
Inductive ty :=
| TSimple (code : Z)
| TPointer (t : ty)
| TArray (t : ty)
| TConst (t : ty)
| TStruct (members : list (ty * Z))
| TFunction (ret : ty) (params : list ty)
| TEnum (serial first : Z).

(** The codes of the simple types: from "any arguments" -9 to "undefined" 0. *)
Definition simple_code (c : Z) : Prop := -9 <= c <= 0.

(** Number of cells a value takes. *)
Fixpoint size_of (t : ty) : Z :=
  match t with
  | TSimple c => if c =? TYPE_FLOATING then 2 else 1
  | TConst t => size_of t
  | TStruct ms =>
      (fix sum (ms : list (ty * Z)) : Z := match ms with [] => 0 | (t, _) :: ms => size_of t + sum ms end) ms
  | _ => 1
  end.

(** No constant of a simple type other than [int] (and of the undefined type),
    and no constant enumeration, anywhere inside. *)
Fixpoint plain (t : ty) : Prop :=
  match t with
  | TSimple _ => True
  | TPointer t | TArray t => plain t
  | TConst t =>
      match t with TSimple c => c = TYPE_INTEGER \/ c = TYPE_UNDEFINED | TEnum _ _ => False | _ => plain t end
  | TStruct ms =>
      (fix all (ms : list (ty * Z)) : Prop := match ms with [] => True | (t, _) :: ms => plain t /\ all ms end) ms
  | TFunction r ps =>
      plain r /\ (fix all (ps : list ty) : Prop := match ps with [] => True | t :: ps => plain t /\ all ps end) ps
  | TEnum _ _ => True
  end.

(** The types the table does not tell apart have the same normal form: below
    [const], all the simple types but [int] and "undefined" are one, and
    enumerations count by half the value of their first constant. *)
Definition collapse (t : ty) : ty :=
  match t with
  | TSimple c => TSimple (if c <? -1 then TYPE_CHARACTER else c)
  | TEnum _ v => TEnum (-1) (Z.quot v 2)
  | _ => t
  end.
Fixpoint norm (t : ty) : ty :=
  match t with
  | TPointer t => TPointer (norm t)
  | TArray t => TArray (norm t)
  | TConst t => TConst (collapse (norm t))
  | TStruct ms => TStruct (map (fun m => (norm (fst m), snd m)) ms)
  | TFunction r ps => TFunction (norm r) (map norm ps)
  | _ => t
  end.

(** The requests a client makes, with the numbers it was given before. *)
Inductive request :=
| RPointer (n : Z)
| RArray (n : Z)
| RConst (n : Z)
| RStruct (members : list (Z * Z))
| RFunction (ret : Z) (params : list Z)
| REnum (fields : list (Z * Z)).

Definition ask (s : types) (r : request) : option (Z * types) :=
  match r with
  | RPointer n => type_pointer s n
  | RArray n => type_array s n
  | RConst n => type_const s n
  | RStruct ms => type_structure s ms
  | RFunction r ps => type_function s r ps
  | REnum fs => type_enum s fs
  end.

(** [named L n t]: the client, who has been given the numbers in [L], may use
    the number [n] for the type [t]. *)
Definition named (L : list (Z * ty)) (n : Z) (t : ty) : Prop :=
  (simple_code n /\ t = TSimple n) \/ In (n, t) L.

(** [legal L r t]: the request [r] is made of numbers in use and asks for [t].
    48 members, 97 parameters and 49 constants are what the arrays of the
    compiler hold. *)
Inductive legal (L : list (Z * ty)) : request -> ty -> Prop :=
| l_pointer n t : named L n t -> legal L (RPointer n) (TPointer t)
| l_array n t : named L n t -> legal L (RArray n) (TArray t)
| l_const n t : named L n t -> legal L (RConst n) (TConst t)
| l_struct ms ts : zlen ms <= 48 ->
    Forall2 (fun m t => named L (fst m) (fst t) /\ snd m = snd t) ms ts -> legal L (RStruct ms) (TStruct ts)
| l_function r ps t ts : zlen ps <= 97 -> named L r t -> Forall2 (named L) ps ts ->
    legal L (RFunction r ps) (TFunction t ts)
| l_enum v name fs : zlen fs <= 48 -> is_int64 v -> legal L (REnum ((v, name) :: fs)) (TEnum (zlen L) v).

(** The histories: the table, and the numbers given out with the types asked
    for, newest first.  The table starts with one structure, number 2. *)
Definition msg_info (num_th data : Z) : ty :=
  TStruct [(TSimple TYPE_INTEGER, num_th); (TSimple TYPE_INTEGER, data)].
Inductive issued (num_th data : Z) : types -> list (Z * ty) -> Prop :=
| issued_init : issued num_th data (type_init num_th data) [(TYPE_MSG_INFO, msg_info num_th data)]
| issued_ask s L r t n s' : issued num_th data s L -> legal L r t -> ask s r = Some (n, s') ->
    issued num_th data s' ((n, t) :: L).

(** Induction over type expressions. *)
Definition ty_rec' (P : ty -> Prop)
  (Hs : forall c, P (TSimple c)) (Hp : forall t, P t -> P (TPointer t)) (Ha : forall t, P t -> P (TArray t))
  (Hc : forall t, P t -> P (TConst t)) (Hst : forall ms, Forall (fun m => P (fst m)) ms -> P (TStruct ms))
  (Hf : forall r ps, P r -> Forall P ps -> P (TFunction r ps)) (He : forall s v, P (TEnum s v)) : forall t, P t :=
  fix F t := match t with
  | TSimple c => Hs c
  | TPointer t => Hp t (F t)
  | TArray t => Ha t (F t)
  | TConst t => Hc t (F t)
  | TStruct ms => Hst ms ((fix G (ms : list (ty * Z)) : Forall (fun m => P (fst m)) ms :=
      match ms with [] => Forall_nil _ | (t, n) :: ms => Forall_cons (t, n) (F t) (G ms) end) ms)
  | TFunction r ps => Hf r ps (F r) ((fix G (ps : list ty) : Forall P ps :=
      match ps with [] => Forall_nil _ | t :: ps => Forall_cons t (F t) (G ps) end) ps)
  | TEnum s v => He s v
  end.

(** The type without its outer qualifiers. *)
Fixpoint core (t : ty) : ty := match t with TConst t => core t | _ => t end.

(** The offset of a member: the sizes of the members before it. *)
Definition offset_of (ms : list (ty * Z)) (i : Z) : Z := size_of (TStruct (firstn (Z.to_nat i) ms)).

Definition is_pointer t := match t with TPointer _ => true | _ => false end.
Definition is_array t := match t with TArray _ => true | _ => false end.
Definition is_structure t := match t with TStruct _ => true | _ => false end.
Definition is_enumeration t := match t with TEnum _ _ => true | _ => false end.
Definition is_function t := match t with TFunction _ _ => true | _ => false end.
Definition is_constant t := match t with TConst _ => true | _ => false end.
Definition is_code (c : Z) (t : ty) : bool := match t with TSimple k => k =? c | _ => false end.

(** A variable of the type must be given a value where it is declared: it is
    constant, or some element or member of it must. *)
Fixpoint must_init (t : ty) : bool :=
  match t with
  | TConst _ => true
  | TArray t => must_init t
  | TStruct ms =>
      (fix some (ms : list (ty * Z)) : bool := match ms with [] => false | (t, _) :: ms => must_init t || some ms end) ms
  | _ => false
  end.
Fixpoint depth (t : ty) : nat :=
  match t with
  | TArray t => S (depth t)
  | TStruct ms =>
      S ((fix most (ms : list (ty * Z)) : nat := match ms with [] => O | (t, _) :: ms => Nat.max (depth t) (most ms) end) ms)
  | _ => 1%nat
  end.

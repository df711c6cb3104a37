(** Specification of the dictionary. *)
From Verif Require Import Prelude Utf8Model Utf8Spec UniioModel StringsSpec StringsRun MapModel.

(** The dictionary: key (as symbols), index, value. *)
Definition dict := list (list Z * Z * Z).

Fixpoint key_eqb (a b : list Z) : bool :=
  match a, b with
  | [], [] => true
  | x :: a, y :: b => (x =? y) && key_eqb a b
  | _, _ => false
  end.

(** Index and value stored under a key; key and value stored at an index. *)
Fixpoint dfind (d : dict) (k : list Z) : option (Z * Z) :=
  match d with
  | [] => None
  | (k', i, v) :: d => if key_eqb k' k then Some (i, v) else dfind d k
  end.
Fixpoint dat (d : dict) (i : Z) : option (list Z * Z) :=
  match d with
  | [] => None
  | (k, i', v) :: d => if i' =? i then Some (k, v) else dat d i
  end.
(** Replace the value at an index. *)
Definition dset (d : dict) (i v : Z) : dict :=
  map (fun '(k, i', v') => (k, i', if i' =? i then v else v')) d.
Definition dindexes (d : dict) : list Z := map (fun '(_, i, _) => i) d.

Inductive mop :=
| MAdd (k : keysrc) (v : Z)     (* map_add, map_add_by_utf8, map_add_by_io *)
| MReserve (k : keysrc)         (* map_reserve... *)
| MSet (k : keysrc) (v : Z)     (* map_set... *)
| MGetIndex (k : keysrc)        (* map_get_index... *)
| MGet (k : keysrc)             (* map_get... *)
| MSetAt (i v : Z)              (* map_set_by_index *)
| MGetAt (i : Z)                (* map_get_by_index *)
| MToString (i : Z).            (* map_to_string *)

Inductive mres := MNum (r : Z) (io : option (Z * input)) | MText (s : option bytes).

(** [key_of k cs x]: source [k] gives the key [cs] (empty if there is none) and
    the call reports [x]. *)
Definition ident_start (c : Z) : Prop := utf8_is_letter c = true \/ c = 35.
Definition ident_next (c : Z) : Prop := (utf8_is_letter c || utf8_is_digit c) = true.
Inductive key_of : keysrc -> list Z -> option (Z * input) -> Prop :=
| key_str cs : Forall good_symbol cs -> key_of (KStr (encs cs)) cs None
| key_utf8 cs : Forall good_symbol cs -> key_of (KUtf8 cs) cs None
| key_io pre c cs d rest :          (* an identifier, then the symbol [d] *)
    ident_start c -> Forall ident_next cs -> ~ ident_next d -> code_point d ->
    key_of (KIo (mkIn (pre ++ encs (c :: cs) ++ enc d ++ rest) (zlen pre))) (c :: cs)
      (Some (d, mkIn (pre ++ encs (c :: cs) ++ enc d ++ rest) (zlen (pre ++ encs (c :: cs) ++ enc d))))
| key_io_end pre c cs :             (* an identifier, then the end of input *)
    ident_start c -> Forall ident_next cs ->
    key_of (KIo (mkIn (pre ++ encs (c :: cs)) (zlen pre))) (c :: cs)
      (Some (EOF32, mkIn (pre ++ encs (c :: cs)) (zlen (pre ++ encs (c :: cs)))))
| key_io_none pre d rest :          (* no identifier *)
    ~ ident_start d -> code_point d ->
    key_of (KIo (mkIn (pre ++ enc d ++ rest) (zlen pre))) []
      (Some (d, mkIn (pre ++ enc d ++ rest) (zlen (pre ++ enc d))))
| key_io_none_end pre :             (* the end of input *)
    key_of (KIo (mkIn pre (zlen pre))) [] (Some (EOF32, mkIn pre (zlen pre))).

(** Adding a key. *)
Definition add_entry (d : dict) (cs : list Z) (v r : Z) (d' : dict) : Prop :=
  match dfind d cs with
  | Some (i, _) => r = (if v =? ITEM_MAX then i else SIZE_MAX) /\ d' = d
  | None =>
      if key_eqb cs [] then r = SIZE_MAX /\ d' = d
      else ~ In r (dindexes d) /\ 0 <= r < SIZE_MAX /\ d' = d ++ [(cs, r, v)]
  end.

(** What each call returns and does. *)
Inductive mspec (d : dict) : mop -> mres -> dict -> Prop :=
| ms_add k v cs x r d' : key_of k cs x -> add_entry d cs v r d' -> mspec d (MAdd k v) (MNum r x) d'
| ms_reserve k cs x r d' : key_of k cs x -> add_entry d cs ITEM_MAX r d' -> mspec d (MReserve k) (MNum r x) d'
| ms_set k v cs x i v0 : key_of k cs x -> dfind d cs = Some (i, v0) -> mspec d (MSet k v) (MNum i x) (dset d i v)
| ms_set_none k v cs x : key_of k cs x -> dfind d cs = None -> mspec d (MSet k v) (MNum SIZE_MAX x) d
| ms_index k cs x : key_of k cs x ->
    mspec d (MGetIndex k) (MNum (match dfind d cs with Some (i, _) => i | None => SIZE_MAX end) x) d
| ms_get k cs x : key_of k cs x ->
    mspec d (MGet k) (MNum (match dfind d cs with Some (_, v) => v | None => ITEM_MAX end) x) d
| ms_set_at i v : mspec d (MSetAt i v) (MNum (match dat d i with Some _ => 0 | None => -1 end) None) (dset d i v)
| ms_get_at i : mspec d (MGetAt i) (MNum (match dat d i with Some (_, v) => v | None => ITEM_MAX end) None) d
| ms_string i : mspec d (MToString i) (MText (match dat d i with Some (k, _) => Some (encs k) | None => None end)) d.

Inductive mtrace : dict -> list mop -> list mres -> dict -> Prop :=
| mt_nil d : mtrace d [] [] d
| mt_cons d op r d1 ops rs d2 : mspec d op r d1 -> mtrace d1 ops rs d2 -> mtrace d (op :: ops) (r :: rs) d2.

(** Calls with a key of one of the forms above and a valid index. *)
Definition mop_ok (op : mop) : Prop :=
  match op with
  | MAdd k _ | MReserve k | MSet k _ | MGetIndex k | MGet k => exists cs x, key_of k cs x
  | MSetAt i _ | MGetAt i | MToString i => 0 <= i
  end.

(** Bytes a call may need. *)
Definition src_size (k : keysrc) : Z :=
  match k with KStr s => zlen s | KUtf8 cs => 4 * zlen cs | KIo io => zlen (in_data io) end.
Definition mop_size (op : mop) : Z :=
  match op with MAdd k _ | MReserve k | MSet k _ | MGetIndex k | MGet k => src_size k + 16 | _ => 0 end.
Definition mops_size (ops : list mop) : Z := fold_right (fun op n => mop_size op + n) 0 ops.

(** Running a history on the model. *)
Definition mexec (e : oenv) (m : map_t) (op : mop) : option (mres * map_t) :=
  match op with
  | MAdd k v => do ' (r, x, m) <- map_add e m k v; Some (MNum r x, m)
  | MReserve k => do ' (r, x, m) <- map_reserve e m k; Some (MNum r x, m)
  | MSet k v => do ' (r, x, m) <- map_set e m k v; Some (MNum r x, m)
  | MGetIndex k => do ' (r, x, m) <- map_get_index e m k; Some (MNum r x, m)
  | MGet k => do ' (r, x, m) <- map_get e m k; Some (MNum r x, m)
  | MSetAt i v => do ' (r, m) <- map_set_by_index m i v; Some (MNum r None, m)
  | MGetAt i => do r <- map_get_by_index m i; Some (MNum r None, m)
  | MToString i => do s <- map_to_string m i; Some (MText s, m)
  end.
Fixpoint mrun (m : map_t) (h : list (oenv * mop)) : option (list mres * map_t) :=
  match h with
  | [] => Some ([], m)
  | (e, op) :: h => do ' (r, m) <- mexec e m op; do ' (rs, m) <- mrun m h; Some (r :: rs, m)
  end.

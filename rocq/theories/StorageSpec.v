(** Specification of the table of macros. *)
From Verif Require Import Prelude Utf8Model Utf8Spec UniioModel StringsModel StringsSpec StringsRun MapModel MapSpec HashModel StorageModel.

(** What is known about a defined macro: its number, its text (none until it is
    given one) and its number of arguments.  [mc_named] turns false when the name
    is added again while defined: from then on the lookup by string misses it
    (see [C42_second_define_hides_the_macro_refuted]). *)
Record macro := mkMacro { mc_id : Z; mc_text : option bytes; mc_args : Z; mc_named : bool }.

(** Macros by name. *)
Definition pstate := list Z -> option macro.
Definition pput (S : pstate) (name : list Z) (m : option macro) : pstate :=
  fun n => if key_eqb n name then m else S n.
Definition psame (S S' : pstate) : Prop := forall n, S' n = S n.

(** Code of a directive. *)
Fixpoint kwfind (l : list (Z * list (list Z))) (name : list Z) : option Z :=
  match l with
  | [] => None
  | (code, spellings) :: l => if existsb (key_eqb name) spellings then Some code else kwfind l name
  end.
Definition kwcode : list Z -> option Z := kwfind keywords.

Definition with_text (m : macro) (v : bytes) : macro := mkMacro (mc_id m) (Some v) (mc_args m) (mc_named m).
Definition with_args (m : macro) (n : Z) : macro := mkMacro (mc_id m) (mc_text m) n (mc_named m).
Definition renamed (m : macro) : macro := mkMacro (mc_id m) (mc_text m) (mc_args m) false.

Inductive pop :=
| PAdd (k : keysrc)              (* storage_add, storage_add_by_utf8, storage_add_by_io *)
| PSearch (k : keysrc)           (* storage_search *)
| PIndex (k : keysrc)            (* storage_get_index, storage_get_index_by_utf8 *)
| PText (id : Z)                 (* storage_get_by_index *)
| PArgs (id : Z)                 (* storage_get_args_by_index *)
| PSetText (id : Z) (v : bytes)  (* storage_set_by_index *)
| PSetArgs (id n : Z)            (* storage_set_args_by_index *)
| PName (id : Z)                 (* storage_to_string *)
| PRemove (id : Z).              (* storage_remove_by_index *)

Inductive pres := PNum (r : Z) (x : option (Z * input)) | PStr (s : option bytes).

(** Names are not empty and not directives when added; numbers are those of
    defined macros, or SIZE_MAX ("not found") where the call copes with it; a
    text is a non-empty C string. *)
Definition defined (S : pstate) (id : Z) : Prop := exists name m, S name = Some m /\ mc_id m = id.
Definition plegal (S : pstate) (op : pop) : Prop :=
  match op with
  | PAdd k => exists name x, key_of k name x /\ name <> [] /\ kwcode name = None
  | PSearch k => exists name x, key_of k name x
  | PIndex k => exists name x, key_of k name x /\ forall m, S name = Some m -> mc_named m = true
  | PText id | PArgs id => defined S id \/ id = SIZE_MAX
  | PSetText id v => (defined S id \/ id = SIZE_MAX) /\ Forall (fun b => b <> 0) v /\ v <> []
  | PSetArgs id n => (defined S id \/ id = SIZE_MAX) /\ 0 <= n < ITEM_MAX
  | PName id | PRemove id => defined S id
  end.

(** Number found for a name. *)
Definition number (S : pstate) (name : list Z) : Z :=
  match kwcode name with
  | Some c => c
  | None => match S name with Some m => mc_id m | None => SIZE_MAX end
  end.

(** What each call returns and does. *)
Inductive pspec (S : pstate) : pop -> pres -> pstate -> Prop :=
| ps_add_new k name x r S' : key_of k name x -> S name = None -> 256 <= r < SIZE_MAX -> ~ defined S r ->
    psame (pput S name (Some (mkMacro r None 0 true))) S' -> pspec S (PAdd k) (PNum r x) S'
| ps_add_old k name x m S' : key_of k name x -> S name = Some m ->
    psame (pput S name (Some (renamed m))) S' -> pspec S (PAdd k) (PNum SIZE_MAX x) S'
| ps_search k name x S' : key_of k name x -> psame S S' -> pspec S (PSearch k) (PNum (number S name) x) S'
| ps_index k name x S' : key_of k name x -> psame S S' -> pspec S (PIndex k) (PNum (number S name) None) S'
| ps_text id name m S' : S name = Some m -> mc_id m = id -> psame S S' -> pspec S (PText id) (PStr (mc_text m)) S'
| ps_text_none S' : psame S S' -> pspec S (PText SIZE_MAX) (PStr None) S'
| ps_args id name m S' : S name = Some m -> mc_id m = id -> psame S S' -> pspec S (PArgs id) (PNum (mc_args m) None) S'
| ps_args_none S' : psame S S' -> pspec S (PArgs SIZE_MAX) (PNum 0 None) S'
| ps_set id v name m S' : S name = Some m -> mc_id m = id -> psame (pput S name (Some (with_text m v))) S' ->
    pspec S (PSetText id v) (PNum id None) S'
| ps_set_none v S' : psame S S' -> pspec S (PSetText SIZE_MAX v) (PNum SIZE_MAX None) S'
| ps_set_args id n name m S' : S name = Some m -> mc_id m = id -> psame (pput S name (Some (with_args m n))) S' ->
    pspec S (PSetArgs id n) (PNum id None) S'
| ps_set_args_none n S' : psame S S' -> pspec S (PSetArgs SIZE_MAX n) (PNum SIZE_MAX None) S'
| ps_name id name m S' : S name = Some m -> mc_id m = id -> psame S S' -> pspec S (PName id) (PStr (Some (encs name))) S'
| ps_remove id name m S' : S name = Some m -> mc_id m = id -> psame (pput S name None) S' ->
    pspec S (PRemove id) (PNum 0 None) S'.

(** Running one call on the model. *)
Definition pexec (e : oenv) (st : storage) (op : pop) : option (pres * storage) :=
  match op with
  | PAdd k => do ' (r, x, st) <- storage_add e st k; Some (PNum r x, st)
  | PSearch k => do ' (r, x, st) <- storage_search e st k; Some (PNum r x, st)
  | PIndex k => do ' (r, st) <- storage_get_index e st k; Some (PNum r None, st)
  | PText id => do s <- storage_get_by_index st id; Some (PStr s, st)
  | PArgs id => Some (PNum (storage_get_args_by_index st id) None, st)
  | PSetText id v => do ' (r, st) <- storage_set_by_index e st id v; Some (PNum r None, st)
  | PSetArgs id n => let '(r, st) := storage_set_args_by_index st id n in Some (PNum r None, st)
  | PName id => do s <- storage_to_string st id; Some (PStr s, st)
  | PRemove id => do ' (r, st) <- storage_remove_by_index st id; Some (PNum r None, st)
  end.

(** Room: the tables stay small enough for the sizes not to wrap round and for
    numbers of macros to fit 31 bits. *)
Definition proom (st : storage) (op : pop) : Prop :=
  let src := match op with PAdd k | PSearch k | PIndex k => src_size k | _ => 0 end in
  let txt := match op with PSetText _ v => zlen v | _ => 0 end in
  m_ksize (st_as st) + src + 16 < 2 ^ 55 /\ zlen (st_hs st) + 5 < 2 ^ 31 /\ s_size (st_vec st) + txt + 2 < 2 ^ 58.

(** Tables and states reached by legal histories, whatever room was reserved. *)
Inductive preach : storage -> pstate -> Prop :=
| pr_create room e st : 0 <= room < 2 ^ 50 -> mem_always e -> storage_create_for room e = Some st -> preach st (fun _ => None)
| pr_step e st S op r st' S' : mem_always e -> preach st S -> plegal S op -> proom st op ->
    pexec e st op = Some (r, st') -> pspec S op r S' -> preach st' S'.

(** Properties of the type table: C29, C30, C56, C57. *)
From Verif Require Import Prelude LVec TypesModel TypesSpec TypesHistory TypesFacts.

(** A history for the examples: pointer to int, structure of a float and that
    pointer, array of the structure, a function, constants, two enumerations. *)
Definition run_asks (s : types) (rs : list request) : option (list Z * types) :=
  fold_left (fun acc r => match acc with Some (ns, s) => match ask s r with Some (n, s) => Some (ns ++ [n], s) | None => None end | None => None end)
    rs (Some ([], s)).
Definition e_init : types := type_init 51 52.
Definition e_asks : list request :=
  [RPointer TYPE_INTEGER; RStruct [(TYPE_FLOATING, 53); (10, 54)]; RArray 13; RFunction TYPE_VOID [13; 21; 10];
   RConst 13; RPointer TYPE_INTEGER; RStruct [(TYPE_FLOATING, 53); (10, 54)]; REnum [(6, 55); (7, 56)]; REnum [(6, 57)]].
Example e_numbers : option_map fst (run_asks e_init e_asks) = Some [10; 13; 21; 24; 31; 10; 13; 34; 42].
Proof. vm_compute. reflexivity. Qed.
Definition e_pair : ty := TStruct [(TSimple TYPE_FLOATING, 53); (TPointer (TSimple TYPE_INTEGER), 54)].
Definition e_state : types := match run_asks e_init (firstn 5 e_asks) with Some (_, s) => s | None => e_init end.
Definition e_issued : list (Z * ty) :=
  [(31, TConst e_pair); (24, TFunction (TSimple TYPE_VOID) [e_pair; TArray e_pair; TPointer (TSimple TYPE_INTEGER)]);
   (21, TArray e_pair); (13, e_pair); (10, TPointer (TSimple TYPE_INTEGER)); (TYPE_MSG_INFO, msg_info 51 52)].
Ltac next H r0 t0 leg :=
  let H' := fresh "H" in
  eassert (H' : issued _ _ _ _); [eapply issued_ask with (r := r0) (t := t0); [exact H|leg|vm_compute; reflexivity]|];
  clear H; rename H' into H.
Ltac simple := left; split; [vm_compute; intuition discriminate|reflexivity].
Ltac old := right; cbn; auto 9.
Example e_history : issued 51 52 e_state e_issued.
Proof.
  pose proof (issued_init 51 52) as H.
  next H (RPointer TYPE_INTEGER) (TPointer (TSimple TYPE_INTEGER)) ltac:(apply l_pointer; simple).
  next H (RStruct [(TYPE_FLOATING, 53); (10, 54)]) e_pair ltac:(apply l_struct;
    [vm_compute; discriminate|repeat apply Forall2_cons; try apply Forall2_nil; (split; [|reflexivity]); [simple|old]]).
  next H (RArray 13) (TArray e_pair) ltac:(apply l_array; old).
  next H (RFunction TYPE_VOID [13; 21; 10]) (TFunction (TSimple TYPE_VOID) [e_pair; TArray e_pair; TPointer (TSimple TYPE_INTEGER)])
    ltac:(apply l_function; [vm_compute; discriminate|simple|repeat apply Forall2_cons; try apply Forall2_nil; old]).
  next H (RConst 13) (TConst e_pair) ltac:(apply l_const; old).
  exact H.
Qed.

(** C29: two types get the same number exactly when they are the same type.
    Missing: constants of simple types other than [int], and of enumerations,
    which the table takes for one another (below). *)
Theorem C29_type_numbers_partial a b s L n m t u :
  issued a b s L -> named L n t -> named L m u -> plain t -> plain u -> (n = m <-> t = u).
Proof. intros H N M P Q. rewrite (numbers_norm _ _ _ _ _ _ _ _ H N M), !plain_norm by auto. tauto. Qed.
Print Assumptions C29_type_numbers_partial.
Example C29_case : named e_issued 13 e_pair /\ plain e_pair /\ named e_issued 31 (TConst e_pair) /\ plain (TConst e_pair).
Proof. split; [right; vm_compute; auto 7|]. split; [cbn; auto|]. split; [right; left; reflexivity|cbn; auto]. Qed.

(** Exactly which types are told apart, for all types: those with different
    normal forms. *)
Theorem C29_type_numbers_exact a b s L n m t u :
  issued a b s L -> named L n t -> named L m u -> (n = m <-> norm t = norm u).
Proof. apply numbers_norm. Qed.
Print Assumptions C29_type_numbers_exact.

(** Every request is answered. *)
Theorem C29_requests_succeed a b s L r t : issued a b s L -> legal L r t -> exists n s', ask s r = Some (n, s').
Proof. apply ask_facts. Qed.
Print Assumptions C29_requests_succeed.

(** A constant character and a constant floating number have one number... *)
Theorem C29_constants_refuted : exists a b s L n,
  issued a b s L /\ named L n (TConst (TSimple TYPE_CHARACTER)) /\ named L n (TConst (TSimple TYPE_FLOATING))
  /\ type_size s n = Some 1 /\ type_is_floating s n = Some false.
Proof.
  pose proof (issued_init 51 52) as H.
  next H (RConst TYPE_CHARACTER) (TConst (TSimple TYPE_CHARACTER)) ltac:(apply l_const; simple).
  next H (RConst TYPE_FLOATING) (TConst (TSimple TYPE_FLOATING)) ltac:(apply l_const; simple).
  exists 51, 52. eexists. eexists. exists 10. split; [exact H|]. split; [old|]. split; [old|]. split; reflexivity.
Qed.
Print Assumptions C29_constants_refuted.

Lemma e_enum L v name k : k = zlen L -> is_int64 v -> legal L (REnum [(v, name)]) (TEnum k v).
Proof. intros ->. apply l_enum. vm_compute. discriminate. Qed.
(** ...and so have two constant enumerations whose first values agree but for
    the last bit. *)
Theorem C29_constant_enumerations_refuted : exists a b s L n,
  issued a b s L /\ named L n (TConst (TEnum 1 0)) /\ named L n (TConst (TEnum 2 1)).
Proof.
  pose proof (issued_init 51 52) as H.
  next H (REnum [(0, 60)]) (TEnum 1 0) ltac:(apply e_enum; [reflexivity|vm_compute; intuition discriminate]).
  next H (REnum [(1, 61)]) (TEnum 2 1) ltac:(apply e_enum; [reflexivity|vm_compute; intuition discriminate]).
  next H (RConst 10) (TConst (TEnum 1 0)) ltac:(apply l_const; old).
  next H (RConst 16) (TConst (TEnum 2 1)) ltac:(apply l_const; old).
  exists 51, 52. eexists. eexists. exists 22. split; [exact H|]. split; old.
Qed.
Print Assumptions C29_constant_enumerations_refuted.

(** C30: the size of a type is the number of cells its values take.  Missing:
    types that mention the constants above; [C29_constants_refuted] shows a
    constant floating number of size 1. *)
Theorem C30_type_sizes_partial a b s L n t :
  issued a b s L -> named L n t -> plain t -> type_size s n = Some (size_of t).
Proof. intros H. apply (size_facts _ _ _ _ H). Qed.
Print Assumptions C30_type_sizes_partial.
Example C30_case : type_size e_state 31 = Some 3 /\ size_of (TConst e_pair) = 3 /\ plain (TConst e_pair).
Proof. vm_compute. auto. Qed.

(** The members of a structure (constant or not) are those it was made of: their
    number, names and types. *)
Theorem C30_members a b s L n t ms :
  issued a b s L -> named L n t -> core t = TStruct ms ->
  type_structure_get_member_amount s n = Some (zlen ms) /\
  forall i u x, znth ms i = Some (u, x) ->
    type_structure_get_member_name s n i = Some x /\
    exists m, type_structure_get_member_type s n i = Some m /\ named L m u.
Proof. intros H. apply (member_facts _ _ _ _ H). Qed.
Print Assumptions C30_members.

(** The code generator places a member after those before it, ... *)
Theorem C30_member_offsets_partial a b s L n t ms i :
  issued a b s L -> named L n t -> plain t -> core t = TStruct ms -> 0 <= i <= zlen ms ->
  member_displ s n i = Some (offset_of ms i).
Proof. intros H. apply (displ_facts _ _ _ _ H). Qed.
Print Assumptions C30_member_offsets_partial.
Example C30_offsets_case : member_displ e_state 31 1 = Some 2 /\ member_displ e_state 31 2 = type_size e_state 31.
Proof. vm_compute. auto. Qed.

(** ...so that members do not overlap and stay inside the structure. *)
Theorem C30_members_disjoint_partial a b s L n t ms :
  issued a b s L -> named L n t -> plain t -> core t = TStruct ms ->
  forall i, 0 <= i < zlen ms -> exists m oi si size,
    type_structure_get_member_type s n i = Some m /\ member_displ s n i = Some oi /\ type_size s m = Some si
    /\ type_size s n = Some size /\ 0 <= oi /\ 0 <= si /\ oi + si <= size
    /\ forall j, i < j < zlen ms -> exists oj, member_displ s n j = Some oj /\ oi + si <= oj.
Proof.
  intros H N P K i B. destruct (znth_ex ms i B) as [[u x] Z]. destruct (member_facts _ _ _ _ H n t ms N K) as [_ F].
  destruct (F _ _ _ Z) as (_ & m & E & M). pose proof (plain_core _ P) as Pc. rewrite K in Pc.
  assert (Pu : plain u) by (eapply plain_members; [exact Pc|eapply znth_In; eauto]).
  exists m, (offset_of ms i), (size_of u), (size_of t). split; auto.
  split; [apply (displ_facts _ _ _ _ H n t); auto; lia|]. split; [apply (size_facts _ _ _ _ H); auto|]. split; [apply (size_facts _ _ _ _ H); auto|].
  split; [apply size_nonneg|]. split; [apply size_nonneg|].
  assert (S : size_of t = size_of (core t)) by (clear; induction t using ty_rec'; auto). rewrite S, K, <- offset_end, <- (offset_step ms i u x Z).
  split; [apply offset_mono; lia|]. intros j J. exists (offset_of ms j). split; [apply (displ_facts _ _ _ _ H n t); auto; lia|].
  apply offset_mono. lia.
Qed.
Print Assumptions C30_members_disjoint_partial.

(** C56: a type number can be taken apart into the numbers of what it was made
    of, and has the class of its type. *)
Theorem C56_pointer_element a b s L n t w :
  issued a b s L -> named L n t -> core t = TPointer w ->
  exists m, type_pointer_get_element_type s n = Some m /\ named L m w.
Proof. intros H. apply (pointer_facts _ _ _ _ H). Qed.
Print Assumptions C56_pointer_element.
Theorem C56_array_element a b s L n t w :
  issued a b s L -> named L n t -> core t = TArray w ->
  exists m, type_array_get_element_type s n = Some m /\ named L m w.
Proof. intros H. apply (array_facts _ _ _ _ H). Qed.
Print Assumptions C56_array_element.
Theorem C56_function_parts a b s L n r ps :
  issued a b s L -> named L n (TFunction r ps) ->
  named L (type_function_get_return_type s n) r
  /\ type_function_get_parameter_amount s n = zlen ps
  /\ forall i u, znth ps i = Some u -> named L (type_function_get_parameter_type s n i) u.
Proof. intros H N. apply (function_facts _ _ _ _ H n r ps N). Qed.
Print Assumptions C56_function_parts.
(** Missing: the constants the table confuses. *)
Theorem C56_unqualified_partial a b s L n t :
  issued a b s L -> named L n (TConst t) -> plain (TConst t) -> named L (type_const_get_unqualified_type s n) t.
Proof. intros H. apply (unqualified_facts _ _ _ _ H). Qed.
Print Assumptions C56_unqualified_partial.
Theorem C56_classes a b s L n t : issued a b s L -> named L n t ->
  type_is_pointer s n = Some (is_pointer (core t)) /\ type_is_array s n = Some (is_array (core t))
  /\ type_is_structure s n = Some (is_structure (core t)) /\ type_is_enum s n = Some (is_enumeration (core t))
  /\ type_is_function s n = is_function t /\ type_is_const s n = is_constant t.
Proof.
  intros H N. pose proof (class_facts _ _ _ _ H n t N) as (A & B & C & D & E). repeat (split; auto).
  apply (const_facts _ _ _ _ H); auto.
Qed.
Print Assumptions C56_classes.
(** Missing: as above. *)
Theorem C56_simple_types_partial a b s L n t : issued a b s L -> named L n t -> plain t ->
  type_is_boolean s n = Some (is_code TYPE_BOOLEAN (core t)) /\ type_is_floating s n = Some (is_code TYPE_FLOATING (core t))
  /\ type_is_file s n = Some (is_code TYPE_FILE (core t)).
Proof.
  intros H N P. unfold type_is_boolean, type_is_floating, type_is_file.
  rewrite !(simple_facts _ _ _ _ H n t) by (auto; vm_compute; intuition discriminate). auto.
Qed.
Print Assumptions C56_simple_types_partial.
Example C56_case : type_function_get_parameter_type e_state 24 1 = 21 /\ named e_issued 21 (TArray e_pair)
  /\ type_array_get_element_type e_state 21 = Some 13 /\ type_const_get_unqualified_type e_state 31 = 13.
Proof. split; [reflexivity|]. split; [right; vm_compute; auto 7|]. split; reflexivity. Qed.

(** C57: the variables that must be given a value where they are declared. *)
Theorem C57_must_be_initialized a b s L n t fuel :
  issued a b s L -> named L n t -> (depth t <= fuel)%nat -> type_requires_initialization fuel s n = Some (must_init t).
Proof. intros H. apply (init_facts _ _ _ _ H). Qed.
Print Assumptions C57_must_be_initialized.
Example C57_case : must_init (TArray (TStruct [(TSimple TYPE_INTEGER, 1); (TConst (TSimple TYPE_INTEGER), 2)])) = true
  /\ must_init (TPointer (TConst (TSimple TYPE_INTEGER))) = false
  /\ type_requires_initialization 3 e_state 31 = Some true /\ type_requires_initialization 3 e_state 21 = Some false.
Proof. vm_compute. auto. Qed.

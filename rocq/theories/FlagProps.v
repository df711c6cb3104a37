(** C77: the flags -D define macros before the first source is read. *)
From Verif Require Import Prelude Utf8Model Utf8Spec UniioModel StringsModel StringsSpec StringsRun MapModel MapSpec HashModel
  StorageModel StorageSpec StorageProofs StorageProps FlagModel FlagSpec FlagProofs.
From Coq Require String.
Import String.StringSyntax.
Local Open Scope string_scope.
Local Open Scope list_scope.
Local Open Scope Z_scope.

Definition texts (flags : list (list Z)) : Prop :=
  Forall (Forall flag_symbol) flags /\ Forall name_fits flags /\ flags_size flags < 2 ^ 29.

Lemma from_create room e st flags : mem_always e -> 0 <= room < 2 ^ 50 -> storage_create_for room e = Some st -> texts flags ->
  let '(rs, ok, d) := outcome [] flags in
  exists st' S, ws_flags e st (map encs flags) = Some (rs, ok, st') /\ preach st' S /\ holds S d.
Proof.
  intros M RM E (F & NF & B). apply (flags_ok e flags M st (fun _ => None) [] 200000).
  - apply (pr_create room e); assumption.
  - intros n. exact I.
  - apply (create_small room e); assumption.
  - lia.
  - exact F.
  - exact NF.
  - lia.
Qed.

(** C77.  Flags of which each says what to define, no two the same name: all are
    granted, only the odd ones are warned of, and the table of macros holds
    exactly the definitions asked for. *)
Theorem C77_flags_define_macros : forall room e st flags,
  mem_always e -> 0 <= room < 2 ^ 50 -> storage_create_for room e = Some st -> texts flags -> grantable flags ->
  exists st' S, ws_flags e st (map encs flags) = Some (warnings flags, true, st') /\ preach st' S /\ holds S (defined_by flags).
Proof.
  intros room e st flags M RM E T G. pose proof (from_create room e st flags M RM E T) as X.
  rewrite (outcome_granted flags [] G) in X by (intros n _; reflexivity). exact X.
Qed.
Print Assumptions C77_flags_define_macros.

(** C77.  Other flags make the call fail, with one error, the one for the first
    flag at fault, behind the warnings; what comes behind the flag at fault is not looked at, and what comes before it is
    defined. *)
Theorem C77_other_flags_are_reported : forall room e st flags,
  mem_always e -> 0 <= room < 2 ^ 50 -> storage_create_for room e = Some st -> texts flags -> ~ grantable flags ->
  exists st' S pre f post,
    flags = pre ++ f :: post /\ grantable pre /\ ~ grantable (pre ++ [f])
    /\ ws_flags e st (map encs flags) = Some (warnings (pre ++ [f]) ++ [fault f], false, st')
    /\ preach st' S /\ holds S (defined_by pre).
Proof.
  intros room e st flags M RM E T NG. pose proof (from_create room e st flags M RM E T) as X.
  assert (FA : snd (fst (outcome [] flags)) = false).
  { destruct (snd (fst (outcome [] flags))) eqn:O; [|reflexivity]. exfalso. apply NG. apply (outcome_ok_only flags [] O). }
  destruct (outcome_split flags [] FA) as (pre & f & post & -> & G & NG1 & D & RS).
  destruct (outcome [] (pre ++ f :: post)) as [[rs ok] d] eqn:O. cbn [fst snd] in *. subst. destruct X as (st' & S & E1 & R1 & H1).
  exists st', S, pre, f, post. split; [reflexivity|]. split; [apply G|]. split.
  - intros Q. apply NG1. split; [exact Q|]. intros n _. reflexivity.
  - split; [exact E1|]. split; [exact R1|exact H1].
Qed.
Print Assumptions C77_other_flags_are_reported.

(** Three definitions, one of them odd, and a flag which is not one; the second
    is a Russian letter, and the texts are found by searching for the names. *)
Definition flags_example : list (list Z) := [str "-DA=1"; str "-Wno"; [45; 68; 1041]; str "-DC+2"; str "-DD="].
Definition search_text (st : storage) (name : list Z) : option (Z * option bytes) :=
  do ' (id, _, st) <- storage_search e_stg st (KUtf8 name); do t <- storage_get_by_index st id; Some (id, t).
Example C77_example :
  texts flags_example /\ grantable flags_example /\ defined_by flags_example = [([65], str "1"); ([1041], []); ([67], str "+2"); ([68], [])]
  /\ option_map (fun '(rs, ok, st) => (rs, ok, map (search_text st) [[65]; [1041]; [67]; [68]; [66]])) (ws_flags e_stg new_table (map encs flags_example))
     = Some ([RSeparator], true, [Some (256, Some (str "1")); Some (261, None); Some (266, Some (str "+2")); Some (271, None); Some (SIZE_MAX, None)]).
Proof.
  split; [|split; [|split; vm_compute; reflexivity]].
  - split; [|split].
    + assert (X : forallb (forallb (fun c => (0 <? c) && (c <? 2097152))) flags_example = true) by (vm_compute; reflexivity).
      rewrite forallb_forall in X. apply Forall_forall. intros f Hf. specialize (X f Hf). rewrite forallb_forall in X. apply Forall_forall. intros c Hc. specialize (X c Hc).
      unfold flag_symbol. lia.
    + unfold flags_example. repeat (apply Forall_cons || apply Forall_nil); vm_compute; exact I || reflexivity.
    + vm_compute. reflexivity.
  - split.
    + repeat (apply Forall_cons || apply Forall_nil); exact I.
    + vm_compute. repeat (apply NoDup_cons; [cbn; intuition discriminate|]). apply NoDup_nil.
Qed.
Example C77_example_table : mem_always e_stg /\ storage_create_for 1 e_stg = Some new_table.
Proof. split; [intros n _; reflexivity|exact new_table_ok]. Qed.

(** The same name twice, no name, a digit first: what comes before is defined. *)
Definition answer (flags : list (list Z)) : option (list report * bool * list (option (Z * option bytes))) :=
  option_map (fun '(rs, ok, st) => (rs, ok, map (search_text st) [[65]; [66]])) (ws_flags e_stg new_table (map encs flags)).
Example C77_example_failures :
  map answer [[str "-DA=1"; str "-DA=2"; str "-DB"]; [str "-DA+1"; str "-D=2"]; [str "-DA"; str "-D1"; str "-DB"]]
  = [Some ([RExists [65]], false, [Some (256, Some (str "1")); Some (SIZE_MAX, None)]);
     Some ([RSeparator; RNoName], false, [Some (256, Some (str "+1")); Some (SIZE_MAX, None)]);
     Some ([RFirst], false, [Some (256, None); Some (SIZE_MAX, None)])]
  /\ ~ grantable [str "-DA=1"; str "-DA=2"; str "-DB"].
Proof.
  split; [vm_compute; reflexivity|]. intros [_ N]. vm_compute in N. inversion N as [|? ? X _]; subst. apply X. left. reflexivity.
Qed.

(** C77 is false for names the array of 1024 symbols cannot hold: the array is
    overrun, whatever the table.  A flag of the workspace may be that long (C17). *)
Theorem C77_long_name_overruns_array_refuted : forall e st flags,
  ws_flags e st ((str "-D" ++ repeat 97 1024) :: flags) = None.
Proof. intros e st flags. vm_compute. reflexivity. Qed.
Print Assumptions C77_long_name_overruns_array_refuted.
Example C77_long_name_boundary : name_fits (str "-D" ++ repeat 97 1023) /\ ~ name_fits (str "-D" ++ repeat 97 1024).
Proof. split; vm_compute; [reflexivity|intros H; discriminate H]. Qed.

(** C77 is false for a flag which is not UTF-8: after a symbol cut short the
    terminator is stepped over, and the bytes behind the flag are read. *)
Theorem C77_cut_symbol_reads_past_end_refuted : forall e st flags, ws_flags e st ((str "-D" ++ [209]) :: flags) = None.
Proof. intros e st flags. vm_compute. reflexivity. Qed.
Print Assumptions C77_cut_symbol_reads_past_end_refuted.

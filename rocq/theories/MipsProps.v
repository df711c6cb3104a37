(** C79: the temporary registers of the MIPS generator.  C80: the frames and the
    calls of the MIPS generator. *)
From Verif Require Import Prelude CodeModel MipsModel MipsSpec MipsProofs.
From Coq Require Import Permutation.
From Coq Require String.
Import String.StringSyntax.
Local Open Scope string_scope.
Local Open Scope list_scope.
Local Open Scope Z_scope.

(** ** C79 *)

(** C79.  After every history of taking, freeing and locking registers ([uses],
    MipsProofs.v: [H] are those held), while one of $t0-$t7 is free, asking for a
    register gives a temporary that nobody holds, the first of them, and from then
    on that one is held as well. *)
Theorem C79_free_temporary_is_given : forall t H,
  uses t H -> (exists q, temporary q /\ ~ H q) ->
  exists r t', get_register t = Some (r, t') /\ temporary r /\ ~ H r /\ (forall x, temporary x -> x < r -> H x) /\ uses t' (fun x => x = r \/ H x).
Proof.
  intros t H U Q. destruct (get_ok t H (uses_table t H U) Q) as (r & E & A & B & C). exists r, (zupd t (r - 8) true).
  repeat split; auto; try apply A. apply (u_take t H); assumption.
Qed.
Print Assumptions C79_free_temporary_is_given.

(** C79.  The same for the floating registers; the program stops exactly when all
    six are held. *)
Theorem C79_free_float_temporary_is_given : forall t H,
  uses t H ->
  (exists r t', get_float_register t = Some (r, t') /\ float_temporary r /\ ~ H r /\ uses t' (fun x => x = r \/ H x)) \/
  (get_float_register t = None /\ forall x, float_temporary x -> H x).
Proof.
  intros t H U. destruct (get_float_ok t H (uses_table t H U)) as [(r & E & A & B & C)|N]; [left|right; exact N].
  exists r, (zupd t (r - 30) true). split; [exact E|]. split; [exact A|]. split; [exact B|]. apply (u_take_float t H); assumption.
Qed.
Print Assumptions C79_free_float_temporary_is_given.

(** C79.  No two registers have the same name. *)
Theorem C79_names_differ : forall r r' w, mips_register_to_io r = Some w -> mips_register_to_io r' = Some w -> r = r'.
Proof.
  intros r r' w A B. unfold mips_register_to_io in *. pose proof (znth_Some_lt _ _ _ A) as RA. pose proof (znth_Some_lt _ _ _ B) as RB.
  rewrite znth_unf in A, B. replace (r <? 0) with false in A by lia. replace (r' <? 0) with false in B by lia.
  assert (N : NoDup register_names).
  { apply (NoDup_count_occ' (list_eq_dec Z.eq_dec)). apply Forall_forall.
    assert (F : forallb (fun w => Nat.eqb (count_occ (list_eq_dec Z.eq_dec) register_names w) 1) register_names = true) by (vm_compute; reflexivity).
    apply Forall_forall. intros x X. apply Nat.eqb_eq. exact (proj1 (forallb_forall _ _) F x X). }
  assert (Z.to_nat r = Z.to_nat r'); [|lia]. apply (proj1 (NoDup_nth_error register_names) N); [rewrite zlen_unf in RA; lia|congruence].
Qed.
Print Assumptions C79_names_differ.

(** C79, where the program falls short.  The ten temporaries are counted as if $t8
    and $t9 followed $t7: with $t0-$t7 held the next register given is $s0, then
    $s1; freeing them does nothing, and the third request stops the program though
    $t8 and $t9 were never given. *)
Theorem C79_ninth_register_refuted : exists t H,
  uses t H /\ (forall x, H x <-> temporary x) /\
  exists t1 t2,
    get_register t = Some (R_S0, t1) /\ free_register t1 R_S0 = t1 /\
    get_register t1 = Some (R_S0 + 1, t2) /\ free_register t2 (R_S0 + 1) = t2 /\
    get_register t2 = None.
Proof.
  assert (X : forall t H (n : Z), uses t H -> (forall x, H x <-> 8 <= x < n) -> 8 <= n <= 15 -> exists t', get_register t = Some (n, t') /\ uses t' (fun x => x = n \/ H x)).
  { intros t H n U E N. destruct (C79_free_temporary_is_given t H U) as (r & t' & G & A & B & C & U').
    - exists n. unfold temporary. rewrite E. lia.
    - assert (r = n). { rewrite E in B. unfold temporary in *. specialize (C n). rewrite E in C. lia. }
      subst. exists t'. auto. }
  destruct (X _ _ 8 u_start) as (t1 & G1 & U1); [intros; lia|lia|]. vm_compute in G1. inversion G1; subst.
  destruct (X _ _ 9 U1) as (t2 & G2 & U2); [intros; lia|lia|]. vm_compute in G2. inversion G2; subst.
  destruct (X _ _ 10 U2) as (t3 & G3 & U3); [intros; lia|lia|]. vm_compute in G3. inversion G3; subst.
  destruct (X _ _ 11 U3) as (t4 & G4 & U4); [intros; lia|lia|]. vm_compute in G4. inversion G4; subst.
  destruct (X _ _ 12 U4) as (t5 & G5 & U5); [intros; lia|lia|]. vm_compute in G5. inversion G5; subst.
  destruct (X _ _ 13 U5) as (t6 & G6 & U6); [intros; lia|lia|]. vm_compute in G6. inversion G6; subst.
  destruct (X _ _ 14 U6) as (t7 & G7 & U7); [intros; lia|lia|]. vm_compute in G7. inversion G7; subst.
  destruct (X _ _ 15 U7) as (t8 & G8 & U8); [intros; lia|lia|]. vm_compute in G8. inversion G8; subst.
  eexists _, _. split; [exact U8|]. split; [intros x; unfold temporary; lia|]. eexists _, _. vm_compute. repeat split.
Qed.
Print Assumptions C79_ninth_register_refuted.

(** Three taken, the second freed: the next is the second again; and a floating one. *)
Example C79_example : exists t1 t2 t3 t5 t6,
  get_register no_registers = Some (8, t1) /\ get_register t1 = Some (9, t2) /\ get_register t2 = Some (10, t3) /\
  get_register (free_register t3 9) = Some (9, t5) /\ get_float_register t5 = Some (40, t6) /\
  (do '(r, _) <- get_float_register t6; mips_register_to_io r) = Some (str "$f6").
Proof. do 5 eexists. vm_compute. repeat split. Qed.
Example C79_hypotheses_met : exists t H, uses t H /\ H 8 /\ exists q, temporary q /\ ~ H q.
Proof.
  destruct (C79_free_temporary_is_given _ _ u_start) as (r & t & G & A & _ & _ & U); [exists 8; unfold temporary; split; [lia|tauto]|].
  vm_compute in G. inversion G; subst. eexists _, _. split; [exact U|]. split; [left; reflexivity|]. exists 9. unfold temporary. split; [lia|intros [Q|[]]; discriminate].
Qed.

(** ** C80 *)

(** The pieces of memory of a running function that was entered with [$sp] = [sp]:
    the saved registers, the variables of its open blocks, its parameters (one
    word each), and the words written for a call it makes. *)
Definition frame_parts (sp : Z) (d : displ) (live : list (list piece)) (parameters_amount arguments_amount : nat) : list piece :=
  let fp := frame_pointer sp in
  map (fun s => (sp + snd s, 4)) saved_registers ++
  map (fun p => (fp + fst p, snd p)) (concat live) ++
  map (fun i => (fp + (Z.of_nat i * WORD_LENGTH + FUNC_DISPL_PRESERVED + WORD_LENGTH), 4)) (seq 0 parameters_amount) ++
  map (fun a => (a, 4)) (call_words (body_sp fp d) arguments_amount).

(** C80.  At every point of the body of a function ([done] is what was declared
    and opened and closed until then, [rest] what follows; the frame is made for
    the whole), no two of these pieces overlap. *)
Theorem C80_frame_parts_are_apart : forall sp d0 done rest d1 live d2 live2 n m,
  Forall event_ok (done ++ rest) ->
  body done (start_function d0) [[]] = Some (d1, live) ->
  body (done ++ rest) (start_function d0) [[]] = Some (d2, live2) ->
  all_apart (frame_parts sp d2 live n m).
Proof.
  intros sp d0 done rest d1 live d2 live2 n m K E1 E2. apply Forall_app in K as (K1 & K2).
  assert (S0 : stacked (d_scope (start_function d0)) (d_saved (start_function d0)) [[]]) by (cbn; repeat split; try constructor; lia).
  destruct (body_keeps done _ _ _ _ K1 S0 ltac:(cbn; lia) E1) as (S1 & M1 & _).
  rewrite body_app, E1 in E2. cbn [bind] in E2. destruct (body_keeps rest _ _ _ _ K2 S1 M1 E2) as (_ & _ & G).
  destruct (stacked_ok _ _ _ S1) as (A & F). unfold frame_parts, call_words, call_sp, body_sp, frame_pointer, WORD_LENGTH, FUNC_DISPL_PRESERVED.
  assert (B : all_apart (map (fun p => (sp - 64 + fst p, snd p)) (concat live))).
  { clear -A. unfold all_apart in *. induction A as [|p l P A IH]; cbn [map]; constructor; [|exact IH].
    apply Forall_forall. intros q Q. apply in_map_iff in Q as (r & <- & R). apply (proj1 (Forall_forall _ _) P) in R. unfold apart in *. cbn [fst snd]. lia. }
  change (4 + 4 + 5 * 4 + 8 * 4 + 4) with 64. apply all_apart_app. split; [apply saved_apart|]. split; [apply all_apart_app; split; [exact B|]; split; [apply all_apart_app; split; [|split]|]|].
  - replace (map _ (seq 0 n)) with (map (fun i => (sp + Z.of_nat i * 4, 4)) (seq 0 n)) by (apply map_ext; intros i; f_equal; lia). apply words_apart.
  - rewrite map_map. apply words_apart.
  - intros p q P Q. apply in_map_iff in P as (i & <- & P). apply in_seq in P. rewrite map_map in Q. apply in_map_iff in Q as (j & <- & Q). apply in_seq in Q. right. cbn [fst snd].
    pose proof (stacked_pos _ _ _ S1). lia.
  - intros p q P Q. apply in_map_iff in P as (x & <- & P). apply (proj1 (Forall_forall _ _) F) in P. cbn beta in P. apply in_app_iff in Q as [Q|Q].
    + apply in_map_iff in Q as (j & <- & Q). left. cbn [fst snd]. lia.
    + rewrite map_map in Q. apply in_map_iff in Q as (j & <- & Q). apply in_seq in Q. right. cbn [fst snd]. lia.
  - intros p q P Q. apply in_map_iff in P as (x & <- & P). apply saved_range in P. apply in_app_iff in Q as [Q|Q].
    + apply in_map_iff in Q as (j & <- & Q). apply (proj1 (Forall_forall _ _) F) in Q. cbn beta in Q. right. cbn [fst snd]. lia.
    + apply in_app_iff in Q as [Q|Q].
      * apply in_map_iff in Q as (j & <- & Q). left. cbn [fst snd]. lia.
      * rewrite map_map in Q. apply in_map_iff in Q as (j & <- & Q). apply in_seq in Q. right. cbn [fst snd]. pose proof (stacked_pos _ _ _ S1). lia.
Qed.
Print Assumptions C80_frame_parts_are_apart.

(** C80.  Global variables do not overlap. *)
Theorem C80_globals_are_apart : forall sizes,
  Forall (fun n => 0 <= n) sizes -> let l := fst (globals sizes no_displ) in map snd l = sizes /\ all_apart l.
Proof. intros sizes F. pose proof (globals_ok sizes no_displ F) as Q. destruct (globals sizes no_displ) as [l d]. cbn [fst]. tauto. Qed.
Print Assumptions C80_globals_are_apart.

(** C80.  A function restores exactly the registers it saved, each from where it
    saved it, and leaves [$sp] as it was; $s0-$s7 are among them. *)
Theorem C80_registers_are_restored : forall sp,
  exit_sp (frame_pointer sp) = sp /\ Permutation saved_registers restored_registers /\ NoDup (map fst saved_registers) /\
  (forall r, 16 <= r <= 23 -> In r (map fst saved_registers)).
Proof.
  intros sp. split; [unfold exit_sp, frame_pointer; lia|]. split; [|split].
  - vm_compute saved_registers. vm_compute restored_registers.
    apply (NoDup_Permutation_bis). 
    + repeat (constructor; [cbn; intros Q; repeat (destruct Q as [Q|Q]; [discriminate|]); exact Q|]). constructor.
    + cbn. lia.
    + intros x X. cbn in *. tauto.
  - vm_compute. repeat (constructor; [cbn; intros Q; repeat (destruct Q as [Q|Q]; [discriminate|]); exact Q|]). constructor.
  - intros r R. assert (Q : In r [16; 17; 18; 19; 20; 21; 22; 23]) by (cbn; lia). vm_compute. cbn in Q. tauto.
Qed.
Print Assumptions C80_registers_are_restored.

(** C80.  Every argument is where the function looks for its parameter: in the same
    register, no two in one, or at the same address. *)
Theorem C80_arguments_are_found : forall sp kinds,
  Forall2 (fun a p => match a, p with
                      | InRegister r, InRegister r' => r = r'
                      | OnStack d, OnStack d' => sp + d = frame_pointer sp + d'
                      | _, _ => False
                      end) (arguments kinds) (parameters kinds) /\
  List.length (arguments kinds) = List.length kinds /\ NoDup (in_registers (arguments kinds)).
Proof.
  intros sp kinds. split; [|split].
  - pose proof (places_agree kinds 0 0 0 0 0 ltac:(lia) ltac:(lia) eq_refl eq_refl eq_refl) as F. fold (arguments kinds) in F. fold (parameters kinds) in F.
    revert F. generalize (arguments kinds) (parameters kinds). induction 1 as [|a p la lp H F IH]; constructor; [|exact IH].
    destruct a, p; auto. unfold frame_pointer. lia.
  - unfold arguments. generalize 0 at 1 as i. generalize 0 at 1 as a. generalize 0 as f. induction kinds as [|k kinds IH]; intros f a i; [reflexivity|].
    cbn [arguments_loop List.length]. f_equal. destruct k; apply IH.
  - apply registers_nodup; lia || reflexivity.
Qed.
Print Assumptions C80_arguments_are_found.

(** C80.  A call saves every register it passes an argument in, and loads each of
    them again from the word it was saved in. *)
Theorem C80_argument_registers_are_restored : forall kinds,
  let saved := call_saved 0 0 0 kinds in
  map (fun s => fst (fst s)) saved = in_registers (arguments kinds) /\
  call_restored 0 0 (map (fun s => (snd (fst s), snd s)) saved) = map fst saved /\
  NoDup (map fst (map fst saved)).
Proof.
  intros kinds saved. pose proof (saved_are kinds 0 0 0) as E. split; [exact E|]. split; [apply restored_ok; lia || reflexivity|].
  rewrite map_map. unfold saved. rewrite E. apply registers_nodup; lia || reflexivity.
Qed.
Print Assumptions C80_argument_registers_are_restored.

(** C80, where the program falls short.  A call among the arguments of a call
    writes its last word over the first word of the outer call, where the register
    of the first argument was saved; without arguments it is the return address
    that is written there. *)
Theorem C80_nested_call_overwrites_refuted :
  (forall sp n m, (2 <= n)%nat -> (1 <= m)%nat -> exists w, In w (call_words sp n) /\ In w (call_words (call_sp sp n) m)) /\
  (forall sp n, (2 <= n)%nat -> exists w, In w (call_words sp n) /\ In (R_RA, w - call_sp (call_sp sp n) 0) saved_registers).
Proof.
  split.
  - intros sp n m N M. exists (call_sp sp n). unfold call_words. split; apply in_map_iff.
    + exists 0%nat. split; [lia|apply in_seq; lia].
    + exists (m - 1)%nat. split; [unfold call_sp, WORD_LENGTH; lia|apply in_seq; lia].
  - intros sp n N. exists (call_sp sp n). split.
    + unfold call_words. apply in_map_iff. exists 0%nat. split; [lia|apply in_seq; lia].
    + left. unfold call_sp, WORD_LENGTH, RA_SIZE. f_equal. lia.
Qed.
Print Assumptions C80_nested_call_overwrites_refuted.

(** A body with a variable, a block with two and, after it, one of twelve bytes:
    where they are, and the frame; arguments of six kinds. *)
Example C80_example :
  (do '(d, l) <- body [Local 4; Enter; Local 4; Local 8] (start_function no_displ) [[]]; Some (d_max d, l)) = Some (16, [[(-16, 8); (-8, 4)]; [(-4, 4)]]) /\
  (do '(d, l) <- body ([Local 4; Enter; Local 4; Local 8] ++ [Leave; Local 12]) (start_function no_displ) [[]]; Some (d_max d, l)) = Some (16, [[(-16, 12); (-4, 4)]]) /\
  arguments [false; true; true; true; false; false; false; false] =
    [InRegister 4; InRegister 36; InRegister 38; OnStack 12; InRegister 5; InRegister 6; InRegister 7; OnStack 28] /\
  parameters [false; true; true; true; false; false; false; false] =
    [InRegister 4; InRegister 36; InRegister 38; OnStack 76; InRegister 5; InRegister 6; InRegister 7; OnStack 92].
Proof. vm_compute. repeat split. Qed.
Example C80_hypotheses_met : exists d1 live d2 live2,
  Forall event_ok ([Local 4; Enter; Local 4; Local 8] ++ [Leave; Local 12]) /\
  body [Local 4; Enter; Local 4; Local 8] (start_function no_displ) [[]] = Some (d1, live) /\ concat live <> [] /\
  body ([Local 4; Enter; Local 4; Local 8] ++ [Leave; Local 12]) (start_function no_displ) [[]] = Some (d2, live2).
Proof. do 4 eexists. split; [repeat constructor; discriminate|]. split; [reflexivity|]. split; [discriminate|reflexivity]. Qed.

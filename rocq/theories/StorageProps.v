(** C42, C53: the table of macros. *)
From Verif Require Import Prelude Utf8Model Utf8Spec UniioModel StringsModel StringsSpec StringsRun MapModel MapSpec HashModel StorageModel StorageSpec StorageProofs.
From Coq Require String.
Import String.StringSyntax.
Local Open Scope string_scope.
Local Open Scope list_scope.
Local Open Scope Z_scope.

(** C42.  In every table reached by a history of calls, every further call
    returns and does what the finite map from names to macros says: in
    particular the text of a macro is the one given last, whatever was done to
    the other macros.  Texts are not empty and only defined macros are removed:
    without that the claim is false, see below. *)
Theorem C42_macros_are_independent : forall e st S op,
  mem_always e -> preach st S -> plegal S op -> proom st op ->
  exists r st' S', pexec e st op = Some (r, st') /\ pspec S op r S' /\ preach st' S'.
Proof. exact storage_full. Qed.
Print Assumptions C42_macros_are_independent.

Definition e_stg : oenv := mkOenv (fun _ => true) (fun i => 65 + i mod 26).
Fixpoint prun (st : storage) (ops : list pop) : option (list pres * storage) :=
  match ops with
  | [] => Some ([], st)
  | op :: ops => do ' (r, st) <- pexec e_stg st op; do ' (rs, st) <- prun st ops; Some (r :: rs, st)
  end.
(** Room for one macro is reserved, to keep the evaluations short. *)
Definition from_new (ops : list pop) : option (list pres) := do st <- storage_create_for 1 e_stg; option_map fst (prun st ops).
(** The new table, evaluated once. *)
Definition new_table : storage := Eval vm_compute in match storage_create_for 1 e_stg with Some st => st | None => mkStg (map_create e_stg 1) [] (strings_create e_stg 1) end.
Lemma new_table_ok : storage_create_for 1 e_stg = Some new_table.
Proof. vm_compute. reflexivity. Qed.
Lemma from_new_ok ops : from_new ops = option_map fst (prun new_table ops).
Proof. unfold from_new. rewrite new_table_ok. reflexivity. Qed.
Definition nm (s : String.string) : keysrc := KStr (str s).
Definition num (r : Z) : pres := PNum r None.

Lemma new_sizes : option_map (fun st => (m_ksize (st_as st), zlen (st_hs st), s_size (st_vec st))) (storage_create_for 1 e_stg) = Some (766, 256, 0).
Proof. rewrite new_table_ok. vm_compute. reflexivity. Qed.

(** A new table is reached, and the hypotheses hold for defining "ab". *)
Example C42_example_reach : exists st, storage_create_for 1 e_stg = Some st /\ preach st (fun _ => None)
  /\ plegal (fun _ => None) (PAdd (nm "ab")) /\ proom st (PAdd (nm "ab")).
Proof.
  assert (M: mem_always e_stg) by (intros n _; reflexivity).
  destruct (pcreate_ok 1 e_stg ltac:(lia) M) as (st & E & _). exists st. split; auto.
  split; [apply (pr_create 1 e_stg); auto; lia|]. split.
  - exists [97; 98], None. split; [|split; [discriminate|vm_compute; reflexivity]].
    change (nm "ab") with (KStr (encs [97; 98])). constructor. repeat (apply Forall_cons || apply Forall_nil); unfold good_symbol; lia.
  - pose proof new_sizes as Q. rewrite E in Q. cbn [option_map] in Q. injection Q as Q1 Q2 Q3. unfold proom. rewrite Q1, Q2, Q3.
    change (src_size (nm "ab")) with 2. lia.
Qed.

(** "ab" and "ba" collide in the map; the texts are changed, removed and given
    again in an order that reuses string numbers and records. *)
Example C42_example :
  from_new [PAdd (nm "ab"); PSetText 256 (str "1"); PAdd (nm "ba"); PSetText 261 (str "2"); PSetText 256 (str "one"); PText 256; PText 261;
            PRemove 256; PSearch (nm "ab"); PText 261; PAdd (nm "c"); PSetText 266 (str "3"); PAdd (nm "ab"); PText 256; PSetArgs 261 2;
            PArgs 261; PArgs 256; PName 261; PSearch (nm "#define"); PIndex (nm "ba"); PText SIZE_MAX]
  = Some [num 256; num 256; num 261; num 261; num 256; PStr (Some (str "one")); PStr (Some (str "2"));
          num 0; num SIZE_MAX; PStr (Some (str "2")); num 266; num 266; num 256; PStr None; num 261;
          num 2; num 0; PStr (Some (str "ba")); num 4; num 261; PStr None].
Proof. rewrite from_new_ok. vm_compute. reflexivity. Qed.

(** C42 fails when a text becomes empty: the old text has been dropped but its
    number is kept, so the macro takes the text of the next one set... *)
Theorem C42_empty_text_takes_next_text_refuted :
  from_new [PAdd (nm "a"); PSetText 256 (str "1"); PSetText 256 (str ""); PText 256; PAdd (nm "b"); PSetText 261 (str "2"); PText 256]
  = Some [num 256; num 256; num 256; PStr None; num 261; num 261; PStr (Some (str "2"))].
Proof. rewrite from_new_ok. vm_compute. reflexivity. Qed.
Print Assumptions C42_empty_text_takes_next_text_refuted.

(** ... or keeps the old text, if that was not the last one set. *)
Theorem C42_empty_text_keeps_old_text_refuted :
  from_new [PAdd (nm "a"); PSetText 256 (str "1"); PAdd (nm "b"); PSetText 261 (str "2"); PSetText 256 (str ""); PText 256]
  = Some [num 256; num 256; num 261; num 261; num 256; PStr (Some (str "1"))].
Proof. rewrite from_new_ok. vm_compute. reflexivity. Qed.
Print Assumptions C42_empty_text_keeps_old_text_refuted.

(** C42 fails when a name that is not defined is removed (what [#undef] does,
    libs/macro/parser.c:1992: search, then remove whatever was found).  If the
    first macro defined has a name whose symbols add up to a multiple of 256
    ("AEz"), the entry lost is the directive [#define] itself. *)
Theorem C42_undef_of_undefined_name_loses_directive_refuted :
  from_new [PSearch (nm "#define"); PAdd (nm "AEz"); PSearch (nm "q"); PRemove SIZE_MAX; PSearch (nm "#define")]
  = Some [num 4; num 256; num SIZE_MAX; num (-1); num SIZE_MAX].
Proof. rewrite from_new_ok. vm_compute. reflexivity. Qed.
Print Assumptions C42_undef_of_undefined_name_loses_directive_refuted.

(** Adding a name again while it is defined reports failure, but hides the macro
    from the lookup by string ([storage_search] still finds it). *)
Theorem C42_second_define_hides_the_macro_refuted :
  from_new [PAdd (nm "a"); PIndex (nm "a"); PAdd (nm "a"); PIndex (nm "a"); PSearch (nm "a")]
  = Some [num 256; num 256; num SIZE_MAX; num SIZE_MAX; num 256].
Proof. rewrite from_new_ok. vm_compute. reflexivity. Qed.
Print Assumptions C42_second_define_hides_the_macro_refuted.

(** Adding an empty name succeeds, and from then on every name that is not
    defined is found to be that macro. *)
Theorem C42_empty_name_is_found_for_every_name_refuted :
  from_new [PSearch (nm "zzz"); PAdd (nm ""); PSetText 256 (str "oops"); PSearch (nm "zzz"); PText 256]
  = Some [num SIZE_MAX; num 256; num 256; num 256; PStr (Some (str "oops"))].
Proof. rewrite from_new_ok. vm_compute. reflexivity. Qed.
Print Assumptions C42_empty_name_is_found_for_every_name_refuted.

(** C53.  Every spelling of every directive is found by its own code in every
    table reached, whatever macros were defined. *)
Theorem C53_directives_are_always_found : forall e st S name code k x,
  mem_always e -> preach st S -> kwcode name = Some code -> key_of k name x -> proom st (PSearch k) ->
  exists st', pexec e st (PSearch k) = Some (PNum code x, st').
Proof.
  intros e st S name code k x M R K HK Room.
  destruct (storage_full e st S (PSearch k) M R) as (r & st' & S' & E & Sp & _); [exists name, x; auto|auto|].
  exists st'. rewrite E. inversion Sp; subst. f_equal. f_equal. unfold proom in Room.
  assert (m_ksize (st_as st) >= 0). { destruct (preach_inv _ _ R) as [(L & RR & H & l & IM & _)]. rewrite (MapProofs.mi_ksize _ _ IM). pose proof (zlen_nonneg (StringsProofs.arena (MapProofs.kbytes L))). lia. }
  destruct (key_of_fun e k name x name0 x0 M ltac:(lia) HK H0) as [-> ->]. unfold number. rewrite K. reflexivity.
Qed.
Print Assumptions C53_directives_are_always_found.

Example C53_example : map (fun s => kwcode s) [[35; 101; 110; 100; 109]; [35; 1082; 1086; 1085; 1077; 1094; 1087]; [35; 101; 110; 100]] = [Some 8; Some 17; None].
Proof. vm_compute. reflexivity. Qed.

(** C16, C17: paths and the workspace. *)
From Verif Require Import Prelude WsModel WsSpec WsProofs.
From Coq Require String.
Import String.StringSyntax.
Local Open Scope string_scope.
Local Open Scope list_scope.
Local Open Scope Z_scope.

(** ** C16 *)

(** The file is the same: for a path relative to any directory, and for an
    absolute path which stays below the root.  Missing: paths with two slashes
    side by side, and absolute paths which lead above the root; for them it is
    false, see below. *)
Theorem C16_same_file_partial : forall p q, ws_unix_path p = Some q ->
  (absolute (slashed p) = false -> no_empty (slashed p) -> absolute q = false /\ forall here, resolve here q = resolve here (slashed p))
  /\ (absolute (slashed p) = true -> no_empty (tl (slashed p)) -> climbs 0 (inner (tl (slashed p))) = false -> q <> [] ->
      absolute q = true /\ forall here, resolve here q = resolve here (slashed p)).
Proof. intros p q H. split; intros; [eapply relative_same|eapply absolute_same]; eassumption. Qed.
Print Assumptions C16_same_file_partial.
Example C16_same_file_example :
  ws_unix_path (str "../a\.\b/../../../c/./d.c") = Some (str "../../c/d.c")
  /\ no_empty (slashed (str "../a\.\b/../../../c/./d.c"))
  /\ ws_unix_path (str "/usr/./lib\x/../y.h") = Some (str "/usr/lib/y.h")
  /\ no_empty (tl (slashed (str "/usr/./lib\x/../y.h"))) /\ climbs 0 (inner (tl (slashed (str "/usr/./lib\x/../y.h")))) = false
  /\ resolve [str "home"] (str "../../c/d.c") = [str "d.c"; str "c"].
Proof. split; [vm_compute; reflexivity|]. split; [vm_compute; repeat constructor; discriminate|]. split; [vm_compute; reflexivity|]. split; [vm_compute; repeat constructor; discriminate|]. split; vm_compute; reflexivity. Qed.

(** For every path: the result has no backslash, and of its names but the last
    none is [.], and those which are [..] are the first ones. *)
Theorem C16_normal : forall p q, ws_unix_path p = Some q ->
  ~ In 92 q
  /\ exists ups names, inner q = ups ++ names /\ Forall (fun s => s = str "..") ups /\ Forall (fun s => s <> str "." /\ s <> str "..") names.
Proof. intros p q H. split; [eapply image_no_backslash; exact H|eapply result_normal; exact H]. Qed.
Print Assumptions C16_normal.
Example C16_normal_example : ws_unix_path (str "..\../x/../a/./b/..") = Some (str "../../a/b/..").
Proof. vm_compute. reflexivity. Qed.

(** A path of fewer than 1024 bytes which ends with a name has a result, not longer than it. *)
Theorem C16_defined : forall p, zlen p < 1024 -> last (split (slashed p)) [] <> [] -> exists q, ws_unix_path p = Some q /\ zlen q <= zlen p.
Proof. exact path_defined. Qed.
Print Assumptions C16_defined.
Example C16_defined_example : zlen (str "a/../x") < 1024 /\ last (split (slashed (str "a/../x"))) [] = str "x".
Proof. vm_compute. split; reflexivity. Qed.

(** The rest of the claim is false.  The path [/../x] is the file [/x], its
    result is the file [x] of the working directory; [a//../b] is the file [b],
    its result is [a/b]; the root becomes the empty path; for the empty path, [./]
    and [a/../] a byte before the array is read. *)
Theorem C16_same_file_refuted : ~ (forall p q, ws_unix_path p = Some q -> forall here, resolve here q = resolve here (slashed p)).
Proof. intros H. specialize (H (str "/../x") (str "x") ltac:(vm_compute; reflexivity) [str "home"]). vm_compute in H. discriminate. Qed.
Print Assumptions C16_same_file_refuted.
Theorem C16_corners_refuted :
  ws_unix_path (str "a//../b") = Some (str "a/b") /\ resolve [] (str "a//../b") = [str "b"] /\ resolve [] (str "a/b") = [str "b"; str "a"]
  /\ ws_unix_path (str "/") = Some []
  /\ ws_unix_path [] = None /\ ws_unix_path (str "./") = None /\ ws_unix_path (str "a/../") = None.
Proof. vm_compute. repeat split; reflexivity. Qed.
Print Assumptions C16_corners_refuted.

(** ** C17 *)

(** After every history of calls: if no wish was refused, the lists are the
    wishes in the order in which they were first made, each of them once, and
    the output is the last one asked for.  If a wish was refused, the workspace
    is not correct, answers nothing, and refuses everything. *)
Theorem C17_history : forall there ops answers w, run there ws_create ops = Some (answers, w) ->
  let wishes := map (wish_of ws_unix_path there) ops in
  if forallb granted wishes
  then ws_is_correct w = true
    /\ (forall i, ws_get_file w i = znth (once [] (file_wishes wishes)) i) /\ ws_get_files_num w = zlen (once [] (file_wishes wishes))
    /\ (forall i, ws_get_dir w i = znth (once [] (dir_wishes wishes)) i) /\ ws_get_dirs_num w = zlen (once [] (dir_wishes wishes))
    /\ (forall i, ws_get_flag w i = znth (once [] (flag_wishes wishes)) i) /\ ws_get_flags_num w = zlen (once [] (flag_wishes wishes))
    /\ (forall f, ws_has_flag w f = true <-> In f (flag_wishes wishes))
    /\ ws_get_output w = match last (output_wishes wishes) [] with [] => None | o => Some o end
  else ws_is_correct w = false
    /\ (forall i, ws_get_file w i = None /\ ws_get_dir w i = None /\ ws_get_flag w i = None)
    /\ ws_get_files_num w = 0 /\ ws_get_dirs_num w = 0 /\ ws_get_flags_num w = 0
    /\ (forall f, ws_has_flag w f = false) /\ ws_get_output w = None
    /\ (forall later, run there w later = Some (map (fun _ => None) later, w)).
Proof. exact history. Qed.
Print Assumptions C17_history.
(** Each text once, and exactly those asked for. *)
Theorem C17_once : forall l, NoDup (once [] l) /\ (forall x, In x (once [] l) <-> In x l) /\ (forall m, exists t, once [] (l ++ m) = once [] l ++ t).
Proof. exact once_laws. Qed.
Print Assumptions C17_once.
(** The answer to a call is the place of what was asked for, for ever; there is
    an answer exactly when no wish up to this one was refused. *)
Theorem C17_answers : forall there ops answers w, run there ws_create ops = Some (answers, w) ->
  zlen answers = zlen ops /\ forall k o, znth ops k = Some o ->
  match znth answers k with
  | Some (Some i) =>
      forallb granted (map (wish_of ws_unix_path there) (firstn (Z.to_nat (k + 1)) ops)) = true
      /\ match wish_of ws_unix_path there o with
         | WFile p => znth (files w) i = Some p | WDir p => znth (dirs w) i = Some p | WFlag p => znth (flags w) i = Some p | _ => True
         end
  | Some None => forallb granted (map (wish_of ws_unix_path there) (firstn (Z.to_nat (k + 1)) ops)) = false
  | None => False
  end.
Proof. intros there ops a w H. exact (run_answers there ops ws_create a w eq_refl H). Qed.
Print Assumptions C17_answers.
(** The behaviour is undefined only when a wish has no meaning (a path without
    a result, an output of 1024 bytes or more) and none before was refused. *)
Theorem C17_defined : forall there ops, run there ws_create ops = None ->
  exists before o later, ops = before ++ o :: later /\ forallb granted (map (wish_of ws_unix_path there) before) = true
    /\ wish_of ws_unix_path there o = WUndefined.
Proof. intros there ops H. pose proof (run_after there ops ws_create eq_refl) as R. rewrite H in R. exact R. Qed.
Print Assumptions C17_defined.
(** The arguments of the program, and the calls with an array, are histories. *)
Theorem C17_arguments : forall there args,
  ws_parse_args there args = do ' (_, w) <- run there ws_create (commands args); Some w.
Proof. intros. apply parse_run. reflexivity. Qed.
Print Assumptions C17_arguments.
Theorem C17_arrays : forall there w l, ws_is_correct w = true ->
  ws_add_array (ws_add_file there) w l = (do ' (_, w) <- run there w (map OFile l); Some (ws_is_correct w, w))
  /\ ws_add_array (ws_add_dir there) w l = (do ' (_, w) <- run there w (map ODir l); Some (ws_is_correct w, w))
  /\ ws_add_array (ws_add_flag there) w l = (do ' (_, w) <- run there w (map OFlag l); Some (ws_is_correct w, w)).
Proof.
  intros there w l H. assert (E : was_error w = false) by (unfold ws_is_correct in H; destruct (was_error w); [discriminate|reflexivity]).
  repeat split; apply array_history; auto.
Qed.
Print Assumptions C17_arrays.

Definition all_there (p : bytes) : bool := negb (bytes_eqb p (str "missing")).
Example C17_history_example :
  exists w, ws_parse_args all_there [Some (str "a/../m.c"); Some (str "-Iinclude\"); Some (str "-x"); Some (str "./m.c"); Some (str "-o"); Some (str "out"); Some (str "-x"); Some (str "n.c")] = Some w
  /\ files w = [str "m.c"; str "n.c"] /\ dirs w = [str "include"] /\ flags w = [str "-x"] /\ ws_get_output w = Some (str "out") /\ ws_is_correct w = true.
Proof. eexists. split; [vm_compute; reflexivity|]. vm_compute. repeat split; reflexivity. Qed.
Example C17_failed_example :
  exists w, ws_parse_args all_there [Some (str "m.c"); Some (str "missing"); Some (str "n.c")] = Some w /\ ws_is_correct w = false /\ ws_get_files_num w = 0.
Proof. eexists. split; [vm_compute; reflexivity|]. vm_compute. split; reflexivity. Qed.
(** Not every command line has a defined behaviour: [-I] alone and an empty
    argument read before an array, a long output is written behind one. *)
Theorem C17_arguments_refuted :
  ~ (forall there args, exists w, ws_parse_args there args = Some w).
Proof. intros H. destruct (H (fun _ => true) [Some (str "-I")]) as [w E]. vm_compute in E. discriminate. Qed.
Print Assumptions C17_arguments_refuted.
Example C17_undefined_example : ws_parse_args (fun _ => true) [Some []] = None /\ ws_parse_args (fun _ => true) [Some (str "-o"); Some (repeat 97 1024)] = None.
Proof. vm_compute. split; reflexivity. Qed.

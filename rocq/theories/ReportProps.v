(** C46: errors are counted and make compilation fail. *)
From Verif Require Import Prelude UniioModel WsModel ReportSpec ReportModel ReportProofs.
From Coq Require String.
Import String.StringSyntax.
Local Open Scope string_scope.
Local Open Scope list_scope.
Local Open Scope Z_scope.

(** For every history of reports and every text: what is shown, with the place
    asked for (or the current position when the place is behind the text); the
    numbers of errors and warnings; the input is as it was; more reports never
    lower the number.  [moved] is where printing leaves the input. *)
Theorem C46_reports : forall moved ws text pos l, 0 <= pos <= zlen text ->
  let quiet := ws_has_flag ws (str "-Wno") in
  let w := says moved (mkWorld (reporter_create ws) (mkIn text pos) []) l in
  log w = map (placed (zlen text) pos) (shown quiet l)
  /\ errors (rprt w) = (if quiet then Z.min 1 (count is_error l) else count is_error l)
  /\ warnings (rprt w) = count is_warning (shown quiet l)
  /\ in_data (io w) = text /\ in_pos (io w) = pos
  /\ forall more, errors (rprt w) <= errors (rprt (says moved (mkWorld (reporter_create ws) (mkIn text pos) []) (l ++ more))).
Proof. exact reports. Qed.
Print Assumptions C46_reports.

Definition quiet_ws : workspace := mkWs [str "a.c"] [] [str "-Wno"] [] false.
Example C46_reports_example :
  let l := [SWarning 2 7; SError 5 1; SError 3 2; SWarning 1 8] in
  log (says (fun _ => 0) (mkWorld (reporter_create quiet_ws) (mkIn (str "int a") 4) []) l) = [SWarning 2 7; SError 5 1]
  /\ errors (rprt (says (fun _ => 0) (mkWorld (reporter_create ws_create) (mkIn (str "int a") 4) []) l)) = 2.
Proof. vm_compute. split; reflexivity. Qed.

(** A compilation succeeds exactly when the workspace is correct and has a file,
    the preprocessor succeeds, neither the parser nor the chosen encoder reports
    an error, main is defined and no function is only declared (or the flag -c is
    given), and the code is written; and then no error was reported.  With the
    flag -E: when the preprocessor writes its file. *)
Theorem C46_success : forall moved ok macro macro_file ws, exists sts lg, compile moved ok macro macro_file ws = Some (sts, lg)
  /\ (sts = sts_success -> count is_error lg = 0)
  /\ (sts = sts_success <-> ws_is_correct ws = true /\ files ws <> [] /\
    let enc := chosen ws in
    if ws_has_flag ws (str "-E") then macro_file (output_named ws enc) = true
    else ok = true /\ exists text p, macro (output_named ws enc) = Some (text, p) /\ count is_error (p_says p) = 0 /\ (ws_has_flag ws (str "-c") = true \/ linked p)
      /\ count is_error (said enc p) = 0 /\ (enc = VM -> p_export p = 0)).
Proof. exact compile_is. Qed.
Print Assumptions C46_success.

(** Each stage has its status: an error of the parser is a parse error. *)
Theorem C46_status : forall moved ws text p enc, ws_is_correct ws = true ->
  let (sts, lg) := compile_from_io moved true ws (in_set_buffer text) p enc in
  (sts = sts_parse_error <-> count is_error (p_says p) <> 0)
  /\ (sts = sts_success -> count is_error lg = 0).
Proof.
  intros moved ws text p enc C. assert (P : 0 <= in_pos (in_set_buffer text) <= in_size (in_set_buffer text)) by (unfold in_size; cbn; pose proof (zlen_nonneg text); lia).
  pose proof (from_io moved true ws (in_set_buffer text) p enc C P) as F. destruct (compile_from_io _ _ _ _ _ _) as [sts lg]. destruct F as (_ & F & H). split; [|exact F]. rewrite H. tauto.
Qed.
Print Assumptions C46_status.

Definition good_program : program := mkProgram [SWarning 0 1] 42 [0; 0] [] 0 [SSystem 9] [].
Example C46_success_example :
  compile (fun _ => 0) true (fun _ => Some (str "void main() {}", good_program)) (fun _ => true) (mkWs [str "a.c"] [] [] [] false) = Some (sts_success, [SWarning 0 1])
  /\ compile (fun _ => 0) true (fun _ => Some (str "void main() {}", mkProgram [] 42 [0] [SError 3 5] 0 [] [])) (fun _ => true) (mkWs [str "a.c"] [] [] [] false) = Some (sts_virtul_error, [SError 3 5])
  /\ compile (fun _ => 0) true (fun _ => Some (str "", mkProgram [] 0 [0] [] 0 [] [])) (fun _ => true) (mkWs [str "a.c"] [] [] [] false) = Some (sts_link_error, [SSystem 1]).
Proof. vm_compute. repeat split; reflexivity. Qed.

(** Errors which an encoder prints without the reporter (llvmgen.c:510, an array
    with too many dimensions; mipsgen.c:1052) do not count: the compilation
    succeeds although an error was shown. *)
Theorem C46_success_refuted :
  ~ (forall moved ok macro macro_file ws lg, compile moved ok macro macro_file ws = Some (sts_success, lg) -> count is_error lg = 0 /\ count is_system lg = 0).
Proof.
  intros H. specialize (H (fun _ => 0) true (fun _ => Some (str "void main() {}", good_program)) (fun _ => true) (mkWs [str "a.c"] [] [str "-LLVM"] [] false) [SWarning 0 1; SSystem 9] ltac:(vm_compute; reflexivity)).
  destruct H as [_ H]. vm_compute in H. discriminate.
Qed.
Print Assumptions C46_success_refuted.

(** Model of libs/compiler/reporter.c, libs/compiler/compiler.c and the ends of
    [parse] and of the encoders.

    Simplifications.  A stage of the compiler is the list of what it says in
    order, with the other data which decide the outcome.  The text of a message
    is not modelled: the log is the list of what was printed, with the position
    of the input at that time.  The counters do not reach 2^64.  The
    preprocessor is a parameter: the text, or nothing.  [in_is_correct] and
    [out_is_correct] are parameters. *)
From Verif Require Import Prelude UniioModel WsModel ReportSpec.
From Coq Require String.
Import String.StringSyntax.
Local Open Scope string_scope.
Local Open Scope list_scope.
Local Open Scope Z_scope.

(** reporter.h:29-35, with the input and the log. *)
Record reporter := mkRep { errors : Z; warnings : Z; is_recovery_disabled : bool }.
Record world := mkWorld { rprt : reporter; io : input; log : list saying }.

(** reporter.c:21-29. *)
Definition reporter_create (ws : workspace) : reporter := mkRep 0 0 (ws_has_flag ws (str "-Wno")).

Section Moved.
(** errors.c:520-532: [verror] looks for the line of the position
    (locator.c:259-352); where it leaves the position is a parameter. *)
Variable moved : input -> Z.
Definition print (w : world) (s : saying) : world :=
  mkWorld (rprt w) (mkIn (in_data (io w)) (moved (io w))) (log w ++ [s]).

(** reporter.c:36-50. *)
Definition report_error (w : world) (begin num : Z) : world :=
  if is_recovery_disabled (rprt w) && negb (errors (rprt w) =? 0) then w
  else
    let prev_loc := in_pos (io w) in
    let w := mkWorld (rprt w) (snd (in_set_position (io w) begin)) (log w) in
    let w := print w (SError (in_pos (io w)) num) in
    let w := mkWorld (mkRep (errors (rprt w) + 1) (warnings (rprt w)) (is_recovery_disabled (rprt w))) (io w) (log w) in
    mkWorld (rprt w) (snd (in_set_position (io w) prev_loc)) (log w).
(** 52-66. *)
Definition report_warning (w : world) (begin num : Z) : world :=
  if is_recovery_disabled (rprt w) && negb (errors (rprt w) =? 0) then w
  else
    let prev_loc := in_pos (io w) in
    let w := mkWorld (rprt w) (snd (in_set_position (io w) begin)) (log w) in
    let w := print w (SWarning (in_pos (io w)) num) in
    let w := mkWorld (mkRep (errors (rprt w)) (warnings (rprt w) + 1) (is_recovery_disabled (rprt w))) (io w) (log w) in
    mkWorld (rprt w) (snd (in_set_position (io w) prev_loc)) (log w).
(** errors.c:535-546 [system_error] has no reporter. *)
Definition system_error (w : world) (num : Z) : world := mkWorld (rprt w) (io w) (log w ++ [SSystem num]).
Definition say (w : world) (s : saying) : world :=
  match s with
  | SError place num => report_error w place num
  | SWarning place num => report_warning w place num
  | SSystem num => system_error w num
  end.
Definition says (w : world) (l : list saying) : world := fold_left say l w.

(** ** compiler.c *)
(** compiler.h:30-43. *)
Inductive status := sts_success | sts_system_error | sts_macro_error | sts_parse_error | sts_link_error | sts_codegen_error | sts_virtul_error | sts_llvm_error.

(** What a program text does in the compiler: what the parser (with the lexer
    and the builder) says, the reference to main, the names which were declared
    and not defined; what an encoder says; what [enc_export] returns. *)
Record program := mkProgram {
  p_says : list saying; p_main : Z; p_predef : list Z;
  p_vm : list saying; p_export : Z; p_llvm : list saying; p_mips : list saying
}.
Definition no_main_in_program : Z := 1.
Definition predef_but_notdef : Z := 2.

(** parser.c:2270-2289. *)
Definition parse (w : world) (p : program) : Z * world :=
  let w := says w (p_says p) in ((if errors (rprt w) =? 0 then 0 else -1), w).
(** syntax.c:287-310. *)
Definition sx_is_correct (w : world) (p : program) : bool * world :=
  if negb (errors (rprt w) =? 0) then (true, w)
  else
    let e1 := p_main p =? 0 in
    let w := if e1 then system_error w no_main_in_program else w in
    let undefined := filter (fun r => negb (r =? 0)) (p_predef p) in
    (negb (e1 || negb (zlen undefined =? 0)), fold_left (fun w _ => system_error w predef_but_notdef) undefined w).

(** codegen.c:2044-2068; llvmgen.c:3044, 3222-3266; mipsgen.c:3796, 3937-3970. *)
Inductive encoder := VM | LLVM | MIPS.
Definition encode (enc : encoder) (ws : workspace) (w : world) (p : program) : Z * world :=
  if negb (ws_is_correct ws) then (-1, w)
  else
    let w := says w (match enc with VM => p_vm p | LLVM => p_llvm p | MIPS => p_mips p end) in
    let ret := if negb (errors (rprt w) =? 0) then 1 else 0 in
    match enc with
    | VM => if ret =? 0 then (p_export p, w) else (ret, w)
    | _ => (ret, w)
    end.

(** compiler.c:63-95. *)
Definition compile_from_io (io_is_correct : bool) (ws : workspace) (i : input) (p : program) (enc : encoder) : status * list saying :=
  if negb io_is_correct then (sts_system_error, [SSystem 0])
  else
    let w := mkWorld (reporter_create ws) i [] in
    let (ret, w) := parse w p in
    let sts := sts_parse_error in
    let '(ret, sts, w) :=
      if (ret =? 0) && negb (ws_has_flag ws (str "-c")) then
        let (ok, w) := sx_is_correct w p in ((if ok : bool then 0 else 1), sts_link_error, w)
      else (ret, sts, w) in
    let '(ret, sts, w) :=
      if ret =? 0 then let (ret, w) := encode enc ws w p in (ret, sts_codegen_error, w) else (ret, sts, w) in
    (if ret =? 0 then sts_success else sts, log w).

(** 97-138.  [macro]: the text and what it does, nothing if the preprocessor
    failed; [macro_file]: whether [macro_to_file] succeeded. *)
Section From.
Variables (io_is_correct : bool) (macro : workspace -> option (bytes * program)) (macro_file : workspace -> bool).
Definition compile_from_ws (ws : workspace) (enc : encoder) : status * list saying :=
  if negb (ws_is_correct ws) || (ws_get_files_num ws =? 0) then (sts_system_error, [SSystem 0])
  else if ws_has_flag ws (str "-E") then ((if macro_file ws then sts_success else sts_macro_error), [])
  else
    match macro ws with
    | None => (sts_macro_error, [])
    | Some (text, p) => compile_from_io io_is_correct ws (in_set_buffer text) p enc
    end.
(** 166-203; [ws_set_output] with a constant. *)
Definition with_output (ws : workspace) (name : bytes) : option workspace :=
  match ws_get_output ws with
  | None => do ' (_, ws) <- ws_set_output ws (Some name); Some ws
  | Some _ => Some ws
  end.
Definition compile_to_vm (ws : workspace) : option (status * list saying) :=
  do ws <- with_output ws (str "out.ruc");
  let (sts, l) := compile_from_ws ws VM in
  Some (match sts with sts_codegen_error => sts_virtul_error | s => s end, l).
Definition compile_to_llvm (ws : workspace) : option (status * list saying) :=
  do ws <- with_output ws (str "out.ll");
  let (sts, l) := compile_from_ws ws LLVM in
  Some (match sts with sts_codegen_error => sts_llvm_error | s => s end, l).
Definition compile_to_mips (ws : workspace) : option (status * list saying) :=
  do ws <- with_output ws (str "out.s"); Some (compile_from_ws ws MIPS).
(** 150-164. *)
Definition compile (ws : workspace) : option (status * list saying) :=
  if ws_has_flag ws (str "-LLVM") then compile_to_llvm ws
  else if ws_has_flag ws (str "-MIPS") then compile_to_mips ws
  else compile_to_vm ws.
End From.
End Moved.

(** ** The words of the statements about [compile] *)

(** What the chosen encoder says; nothing is missing for linking; the workspace
    with the name of the output. *)
Definition said (enc : encoder) (p : program) : list saying := match enc with VM => p_vm p | LLVM => p_llvm p | MIPS => p_mips p end.
Definition linked (p : program) : Prop := p_main p <> 0 /\ Forall (fun r => r = 0) (p_predef p).
(** Which encoder the flags choose. *)
Definition chosen (ws : workspace) : encoder :=
  if ws_has_flag ws (str "-LLVM") then LLVM else if ws_has_flag ws (str "-MIPS") then MIPS else VM.
Definition output_named (ws : workspace) (enc : encoder) : workspace :=
  mkWs (files ws) (dirs ws) (flags ws) (match output ws with [] => match enc with VM => str "out.ruc" | LLVM => str "out.ll" | MIPS => str "out.s" end | o => o end) (was_error ws).

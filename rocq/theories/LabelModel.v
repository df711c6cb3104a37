(** Model of the labels and jumps in the code of the MIPS generator,
    libs/compiler/mipsgen.c. *)
From Verif Require Import Prelude.

(** mipsgen.c:236-247 [mips_label_t]: the kinds used inside of functions, by their
    numbers; 249-253 [label]: kind and number. *)
Definition L_NEXT : Z := 2.
Definition L_FUNCEND : Z := 3.
Definition L_ELSE : Z := 5.
Definition L_END : Z := 6.
Definition L_BEGIN_CYCLE : Z := 7.
Definition L_CASE : Z := 8.
Definition label : Type := (Z * Z)%type.

(** The lines that matter here: a label, mipsgen.c:1222-1226, and a jump to one,
    1234-1277.  A conditional jump on a constant may be left out (1254-1260); here
    it is always there. *)
Inductive line := Decl (l : label) | Jump (l : label).

(** Expressions, as far as they have labels: parts that are evaluated one after
    the other, comparisons of two registers or with a constant, && and ||, ?:. *)
Inductive mexpr :=
| EPlain
| EParts (a b : mexpr)
| ECompare (with_constant : bool) (a b : mexpr)
| ELogical (a b : mexpr)
| ETernary (c a b : mexpr).

(** [n] is [enc->label_num]; the result is the code and [enc->label_num] after it.
    Comparison: mipsgen.c:1754-1781 and 1814-1842 after 2558-2561; [ELogical]:
    2536-2554; [ETernary]: 2577-2608. *)
Fixpoint emit_expr (e : mexpr) (n : Z) : list line * Z :=
  match e with
  | EPlain => ([], n)
  | EParts a b => let '(ca, n) := emit_expr a n in let '(cb, n) := emit_expr b n in (ca ++ cb, n)
  | ECompare k a b =>
      let '(ca, n) := emit_expr a n in
      let '(cb, n) := emit_expr b n in
      let l := (if k : bool then L_ELSE else L_END, n) in
      (ca ++ cb ++ [Jump l; Decl l], n + 1)
  | ELogical a b =>
      let '(ca, n) := emit_expr a n in
      let l := (L_END, n) in
      let '(cb, n) := emit_expr b (n + 1) in
      (ca ++ [Jump l] ++ cb ++ [Decl l], n)
  | ETernary c a b =>
      let '(cc, m) := emit_expr c n in
      let '(ca, n) := emit_expr a (m + 1) in
      let '(cb, n) := emit_expr b n in
      (cc ++ [Jump (L_ELSE, m)] ++ ca ++ [Jump (L_END, m); Decl (L_ELSE, m)] ++ cb ++ [Decl (L_END, m)], n)
  end.

(** Statements; blocks are sequences.  The sections of a switch: case, default, or
    a statement without a label.  A case inside of the statement of a case is not
    there: the program fails on it, mipsgen.c:3723-3729. *)
Inductive mark := Case | Default | Plain.
Inductive mstmt :=
| SExpr (e : mexpr)
| SSeq (a b : mstmt)
| SIf (c : mexpr) (a : mstmt)
| SIfElse (c : mexpr) (a b : mstmt)
| SWhile (c : mexpr) (body : mstmt)
| SDo (body : mstmt) (c : mexpr)
| SFor (init : mstmt) (c : mexpr) (body : mstmt) (step : mexpr)
| SSwitch (c : mexpr) (body : sections)
| SBreak
| SContinue
| SReturn (e : mexpr)
with sections :=
| NoSection
| Section_ (m : mark) (s : mstmt) (rest : sections).

(** mipsgen.c:3468-3500, the jumps to the cases: the code, [enc->label_num],
    [enc->case_label_num] and [default_index] after it. *)
Fixpoint emit_jumps (b : sections) (n cn default : Z) : list line * Z * Z * Z :=
  match b with
  | NoSection => ([], n, cn, default)
  | Section_ Case _ rest =>
      let '(c, n', cn', d) := emit_jumps rest (n + 1) (cn + 1) default in
      ([Jump (L_ELSE, n); Decl (L_ELSE, n); Jump (L_CASE, cn)] ++ c, n', cn', d)
  | Section_ Default _ rest => emit_jumps rest n (cn + 1) cn
  | Section_ Plain _ rest => emit_jumps rest n cn default
  end.

(** mipsgen.c:3715-3779 [emit_statement] of a function [f] with [enc->label_num],
    [enc->case_label_num], [enc->label_break] and [enc->label_continue]; the last
    two are restored by every statement that sets them.  [SIf], [SIfElse]:
    3415-3442; [SSwitch]: 3450-3538; [SWhile]: 3546-3575; [SDo]: 3583-3611; [SFor]:
    3619-3664; [SReturn]: 3692-3707.  [emit_sections]: 3515-3533, [cur] is
    [curr_case_label_num]. *)
Fixpoint emit_stmt (f : Z) (s : mstmt) (n cn : Z) (brk cont : label) : list line * Z * Z :=
  match s with
  | SExpr e => let '(c, n) := emit_expr e n in (c, n, cn)
  | SSeq a b =>
      let '(ca, n, cn) := emit_stmt f a n cn brk cont in
      let '(cb, n, cn) := emit_stmt f b n cn brk cont in
      (ca ++ cb, n, cn)
  | SIf c a =>
      let '(cc, m) := emit_expr c n in
      let '(ca, n, cn) := emit_stmt f a (m + 1) cn brk cont in
      (cc ++ [Jump (L_END, m)] ++ ca ++ [Decl (L_END, m)], n, cn)
  | SIfElse c a b =>
      let '(cc, m) := emit_expr c n in
      let '(ca, n, cn) := emit_stmt f a (m + 1) cn brk cont in
      let '(cb, n, cn) := emit_stmt f b n cn brk cont in
      (cc ++ [Jump (L_ELSE, m)] ++ ca ++ [Jump (L_END, m); Decl (L_ELSE, m)] ++ cb ++ [Decl (L_END, m)], n, cn)
  | SWhile c body =>
      let m := n in
      let '(cc, n) := emit_expr c (m + 1) in
      let '(cb, n, cn) := emit_stmt f body n cn (L_END, m) (L_BEGIN_CYCLE, m) in
      ([Decl (L_BEGIN_CYCLE, m)] ++ cc ++ [Jump (L_END, m)] ++ cb ++ [Jump (L_BEGIN_CYCLE, m); Decl (L_END, m)], n, cn)
  | SDo body c =>
      let m := n in
      let '(cb, n, cn) := emit_stmt f body (m + 1) cn (L_END, m) (L_NEXT, m) in
      let '(cc, n) := emit_expr c n in
      ([Decl (L_BEGIN_CYCLE, m)] ++ cb ++ [Decl (L_NEXT, m)] ++ cc ++ [Jump (L_BEGIN_CYCLE, m); Decl (L_END, m)], n, cn)
  | SFor init c body step =>
      let '(ci, m, cn) := emit_stmt f init n cn brk cont in
      let '(cc, n) := emit_expr c (m + 1) in
      let '(cb, n, cn) := emit_stmt f body n cn (L_END, m) (L_BEGIN_CYCLE, m) in
      let '(cs, n) := emit_expr step n in
      (ci ++ [Decl (L_BEGIN_CYCLE, m)] ++ cc ++ [Jump (L_END, m)] ++ cb ++ cs ++ [Jump (L_BEGIN_CYCLE, m); Decl (L_END, m)], n, cn)
  | SSwitch c body =>
      let m := n in
      let cur := cn in
      let '(cc, n) := emit_expr c (m + 1) in
      let '(cj, n, cn, d) := emit_jumps body n cn (-1) in
      let '(cb, n, cn) := emit_sections f body n cn cur (L_END, m) cont in
      (cc ++ cj ++ [Jump (if negb (d =? -1) then (L_CASE, d) else (L_END, m))] ++ cb ++ [Decl (L_END, m)], n, cn)
  | SBreak => ([Jump brk], n, cn)
  | SContinue => ([Jump cont], n, cn)
  | SReturn e => let '(c, n) := emit_expr e n in (c ++ [Jump (L_FUNCEND, f)], n, cn)
  end
with emit_sections (f : Z) (b : sections) (n cn cur : Z) (brk cont : label) : list line * Z * Z :=
  match b with
  | NoSection => ([], n, cn)
  | Section_ m s rest =>
      let '(cs, n, cn) := emit_stmt f s n cn brk cont in
      let '(cr, n, cn) := emit_sections f rest n cn (match m with Plain => cur | _ => cur + 1 end) brk cont in
      (match m with Plain => cs | _ => Decl (L_CASE, cur) :: cs end ++ cr, n, cn)
  end.

(** mipsgen.c:3256-3276, the body of a function and its end; the counters go on
    from function to function (3948-3949). *)
Definition emit_function (f : Z) (s : mstmt) (n cn : Z) (brk cont : label) : list line * Z * Z :=
  let '(c, n, cn) := emit_stmt f s n cn brk cont in (c ++ [Decl (L_FUNCEND, f)], n, cn).
Fixpoint emit_functions (fs : list (Z * mstmt)) (n cn : Z) (brk cont : label) : list line * Z * Z :=
  match fs with
  | [] => ([], n, cn)
  | (f, s) :: fs =>
      let '(c, n, cn) := emit_function f s n cn brk cont in
      let '(cs, n, cn) := emit_functions fs n cn brk cont in
      (c ++ cs, n, cn)
  end.

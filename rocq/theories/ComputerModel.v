(** Model of libs/macro/computer.c: the calculator of preprocessor expressions
    (#if, #elif, #while, #eval).

    Simplifications.  The two stacks are lists, the top first (libs/utils/stack.h
    over libs/utils/vector.c, see VectorModel.v and C02: memory never runs out, and
    an empty stack gives ITEM_MAX and stays empty).  Of the error report only the
    first message is kept with its place: [computer_error] empties [comp->loc]
    after reporting and stays silent from then on.  Spellings inside messages are
    left out.  [None] is undefined behaviour of the C program. *)
From Verif Require Import Prelude.
Local Open Scope Z_scope.

(** libs/macro/computer.h:30-66 [token_t]. *)
Definition TK_L_BOUND := 0.
Definition TK_R_BOUND := 1.
Definition TK_COMPL := 2.
Definition TK_NOT := 3.
Definition TK_U_NEGATION := 4.
Definition TK_U_PLUS := 5.
Definition TK_MULT := 6.
Definition TK_DIV := 7.
Definition TK_MOD := 8.
Definition TK_ADD := 9.
Definition TK_SUB := 10.
Definition TK_L_SHIFT := 11.
Definition TK_R_SHIFT := 12.
Definition TK_LESS := 13.
Definition TK_GREATER := 14.
Definition TK_LESS_EQ := 15.
Definition TK_GREATER_EQ := 16.
Definition TK_EQ := 17.
Definition TK_NOT_EQ := 18.
Definition TK_BIT_AND := 19.
Definition TK_XOR := 20.
Definition TK_BIT_OR := 21.
Definition TK_AND := 22.
Definition TK_OR := 23.

(** The messages of libs/macro/error.h used by the calculator. *)
Inductive cmsg := EXPR_MISSING_BETWEEN | EXPR_MISSING_L_BRACKET | EXPR_MISSING_R_BRACKET
  | EXPR_NO_RIGHT_OPERAND | EXPR_NO_LEFT_OPERAND | EXPR_MISSING_BINARY | DIRECTIVE_NO_EXPRESSION.

(** libs/macro/computer.h:69-79 [computer]; [c_err] is [None] while [loc] has not
    been emptied. *)
Record computer := mkComp { c_num : list Z; c_op : list Z; c_was : bool; c_err : option (cmsg * Z) }.

(** libs/utils/stack.h:51-54, 90-93, 127-130. *)
Definition spush (l : list Z) (x : Z) : list Z := x :: l.
Definition spop (l : list Z) : Z * list Z := match l with [] => (ITEM_MAX, []) | x :: l => (x, l) end.
Definition speek (l : list Z) : Z := fst (spop l).
(** Two pops, the first result kept. *)
Definition spop2 (l : list Z) : Z * Z * list Z := let '(a, l) := spop l in let '(b, l) := spop l in (a, b, l).

(** libs/macro/computer.c:34-54 [computer_error]. *)
Definition cfail (c : computer) (pos : Z) (m : cmsg) : computer :=
  match c_err c with
  | None => mkComp (c_num c) (c_op c) (c_was c) (Some (m, pos))
  | Some _ => c
  end.
Definition set_op (c : computer) (l : list Z) : computer := mkComp (c_num c) l (c_was c) (c_err c).
Definition set_num (c : computer) (l : list Z) : computer := mkComp l (c_op c) (c_was c) (c_err c).
Definition set_was (c : computer) (b : bool) : computer := mkComp (c_num c) (c_op c) b (c_err c).

(** libs/macro/computer.c:112-164 [computer_token_without_number]. *)
Definition token_without_number (c : computer) (pos tk : Z) : Z * computer :=
  let previous := speek (c_op c) in
  let put t := (0, set_op c (spush (spush (c_op c) pos) t)) in
  let default :=
    if negb (previous =? TK_L_BOUND) && negb (previous =? ITEM_MAX)
    then let '(_, p, l) := spop2 (c_op c) in (-1, cfail (set_op c l) p EXPR_NO_RIGHT_OPERAND)
    else (-1, cfail c pos EXPR_NO_LEFT_OPERAND) in
  if tk =? TK_L_BOUND then put tk
  else if tk =? TK_COMPL then put tk
  else if tk =? TK_NOT then put tk
  else if tk =? TK_ADD then put TK_U_PLUS
  else if tk =? TK_SUB then put TK_U_NEGATION
  else if tk =? TK_R_BOUND then
    if previous =? TK_L_BOUND then (-1, cfail c pos EXPR_MISSING_BETWEEN)
    else if previous =? ITEM_MAX then (-1, cfail c pos EXPR_MISSING_L_BRACKET)
    else default
  else default.

(** A result of signed 64-bit arithmetic: undefined when it does not fit. *)
Definition in64 (z : Z) : bool := (LLONG_MIN <=? z) && (z <=? LLONG_MAX).
Definition fits (z : Z) : option Z := if in64 z then Some z else None.
Definition b2z (b : bool) : Z := if b then 1 else 0.

(** libs/macro/computer.c:174-215, the switch of [computer_select_three]: the value
    pushed, [Some None] for the default case. *)
Definition compute (op a b : Z) : option (option Z) :=
  let ret o := do v <- o; Some (Some v) in
  if op =? TK_MULT then ret (fits (a * b))
  else if op =? TK_DIV then ret (if b =? 0 then None else fits (Z.quot a b))
  else if op =? TK_MOD then ret (if b =? 0 then None else if in64 (Z.quot a b) then Some (Z.rem a b) else None)
  else if op =? TK_ADD then ret (fits (a + b))
  else if op =? TK_SUB then ret (fits (a - b))
  else if op =? TK_L_SHIFT then ret (if (0 <=? a) && (0 <=? b) && (b <? 64) then fits (Z.shiftl a b) else None)
  else if op =? TK_R_SHIFT then ret (if (0 <=? b) && (b <? 64) then Some (Z.shiftr a b) else None)
  else if op =? TK_LESS then ret (Some (b2z (a <? b)))
  else if op =? TK_GREATER then ret (Some (b2z (a >? b)))
  else if op =? TK_LESS_EQ then ret (Some (b2z (a <=? b)))
  else if op =? TK_GREATER_EQ then ret (Some (b2z (a >=? b)))
  else if op =? TK_EQ then ret (Some (b2z (a =? b)))
  else if op =? TK_NOT_EQ then ret (Some (b2z (negb (a =? b))))
  else if op =? TK_BIT_AND then ret (Some (Z.land a b))
  else if op =? TK_XOR then ret (Some (Z.lxor a b))
  else if op =? TK_BIT_OR then ret (Some (Z.lor a b))
  else if op =? TK_AND then ret (Some (b2z (negb (a =? 0) && negb (b =? 0))))
  else if op =? TK_OR then ret (Some (b2z (negb (a =? 0) || negb (b =? 0))))
  else Some None.

(** libs/macro/computer.c:166-216 [computer_select_three]; no caller looks at the
    result. *)
Definition select_three (c : computer) : option computer :=
  let '(op, _, ops) := spop2 (c_op c) in
  let '(second, first, nums) := spop2 (c_num c) in
  do r <- compute op first second;
  Some (mkComp (match r with Some v => spush nums v | None => nums end) ops (c_was c) (c_err c)).

(** libs/macro/computer.c:218-257 [computer_compare_priority]. *)
Definition compare_priority (fst snd : Z) : Z :=
  let group lo hi := if hi <? snd then 1 else if lo <=? snd then 0 else -1 in
  if snd =? TK_R_BOUND then 1
  else if (fst =? ITEM_MAX) || (fst =? TK_L_BOUND) then -1
  else if (fst =? TK_MULT) || (fst =? TK_DIV) || (fst =? TK_MOD) then group TK_MULT TK_MOD
  else if (fst =? TK_ADD) || (fst =? TK_SUB) then group TK_ADD TK_SUB
  else if (fst =? TK_L_SHIFT) || (fst =? TK_R_SHIFT) then group TK_L_SHIFT TK_R_SHIFT
  else if (fst =? TK_LESS) || (fst =? TK_GREATER) || (fst =? TK_LESS_EQ) || (fst =? TK_GREATER_EQ) then group TK_LESS TK_GREATER_EQ
  else if (fst =? TK_EQ) || (fst =? TK_NOT_EQ) then group TK_EQ TK_NOT_EQ
  else if fst <? snd then 1 else if fst =? snd then 0 else -1.

(** libs/macro/computer.c:268-295, the loop of [computer_const_number]; every turn
    pops two cells, so the length of the stack bounds the turns. *)
Fixpoint apply_unary (fuel : nat) (ops : list Z) (num : Z) : option (list Z * Z) :=
  match fuel with
  | O => None
  | S fuel =>
    let op := speek ops in
    let '(_, _, rest) := spop2 ops in
    if op =? TK_COMPL then apply_unary fuel rest (Z.lnot num)
    else if op =? TK_NOT then apply_unary fuel rest (b2z (negb (num =? 0)))
    else if op =? TK_U_NEGATION then do n <- fits (- num); apply_unary fuel rest n
    else if op =? TK_U_PLUS then apply_unary fuel rest num
    else Some (ops, num)
  end.

(** libs/macro/computer.c:259-296 [computer_const_number], called through
    [computer_push_number] (369-379) and [computer_push_const] (381-389). *)
Definition const_number (c : computer) (pos num : Z) : option (Z * computer) :=
  if c_was c then Some (-1, cfail c pos EXPR_MISSING_BINARY)
  else
    do ' (ops, num) <- apply_unary (S (length (c_op c))) (c_op c) num;
    Some (0, mkComp (spush (c_num c) num) ops true (c_err c)).

(** libs/macro/computer.c:308-314 [computer_create]. *)
Definition computer_create : computer := mkComp [] [] false None.

(** libs/macro/computer.c:317-367 [computer_push_token]; the recursive call follows
    [select_three], which pops two cells of a stack that is not empty. *)
Fixpoint push_token_n (fuel : nat) (c : computer) (pos tk : Z) : option (Z * computer) :=
  match fuel with
  | O => None
  | S fuel =>
    if negb (c_was c) then Some (token_without_number c pos tk)
    else if (tk =? TK_COMPL) || (tk =? TK_NOT) || (tk =? TK_L_BOUND) then Some (-1, cfail c pos EXPR_MISSING_BINARY)
    else
      let previous := speek (c_op c) in
      if (previous =? ITEM_MAX) && (tk =? TK_R_BOUND) then Some (-1, cfail c pos EXPR_MISSING_L_BRACKET)
      else if (previous =? TK_L_BOUND) && (tk =? TK_R_BOUND) then
        let '(_, _, l) := spop2 (c_op c) in Some (0, set_op c l)
      else
        let priority := compare_priority previous tk in
        if priority >? 0 then do c <- select_three c; push_token_n fuel c pos tk
        else
          do c <- (if priority =? 0 then select_three c else Some c);
          Some (0, set_was (set_op c (spush (spush (c_op c) pos) tk)) false)
  end.
Definition push_token (c : computer) (pos tk : Z) : option (Z * computer) := push_token_n (S (length (c_op c))) c pos tk.

(** libs/macro/computer.c:413-427, the loop of [computer_pop_result]. *)
Fixpoint pop_loop (fuel : nat) (c : computer) : option (Z * computer) :=
  match fuel with
  | O => None
  | S fuel =>
    let op := speek (c_op c) in
    if op =? ITEM_MAX then let '(v, l) := spop (c_num c) in Some (v, set_num c l)
    else if op =? TK_L_BOUND then let '(_, p, l) := spop2 (c_op c) in Some (0, cfail (set_op c l) p EXPR_MISSING_R_BRACKET)
    else do c <- select_three c; pop_loop fuel c
  end.
(** libs/macro/computer.c:392-428 [computer_pop_result]. *)
Definition pop_result (c : computer) : option (Z * computer) :=
  if zlen (c_num c) =? 0 then Some (0, cfail c ITEM_MAX DIRECTIVE_NO_EXPRESSION)
  else if negb (c_was c) then let '(_, p, l) := spop2 (c_op c) in Some (0, cfail (set_op c l) p EXPR_NO_RIGHT_OPERAND)
  else pop_loop (S (length (c_op c))) c.

(** What the directive's parser hands over, with the place of each piece:
    operators and numbers (libs/macro/parser.c:1326-1444, 1258, 1304), and names
    that are not macros, which count as 0 (libs/macro/parser.c:1516-1521). *)
Inductive piece := PTok (tk : Z) | PNumb (n : Z) | PName.
Definition push (c : computer) (pos : Z) (p : piece) : option (Z * computer) :=
  match p with
  | PTok tk => push_token c pos tk
  | PNumb n => const_number c pos n
  | PName => const_number c pos 0
  end.

(** libs/macro/parser.c:1491-1607, the loop of [parse_expression] reduced to its
    dealings with the calculator: it stops at the first piece refused, except
    that a refused name does not stop it.  The result is the value and the
    message shown to the user, if any. *)
Fixpoint feed (c : computer) (l : list (Z * piece)) : option (Z * option (cmsg * Z)) :=
  match l with
  | [] => do ' (v, c) <- pop_result c; Some (v, c_err c)
  | (pos, p) :: l =>
    do ' (r, c) <- push c pos p;
    if (r =? 0) || match p with PName => true | _ => false end then feed c l else Some (0, c_err c)
  end.
Definition evaluate (l : list (Z * piece)) : option (Z * option (cmsg * Z)) := feed computer_create l.

(** C32, C47, C65: constant folding, assignments, format strings. *)
From Coq Require Import Floats.SpecFloat.
From Verif Require Import Prelude TypesModel TypesSpec LexModel ParseModel BuildModel BuildSpec BuildFold BuildAssign.

Definition int (z : Z) : cexp := CLit t_int (LInt z).
Definition bin := CBinary.

(** ** C32 *)

(** The tree built for an accepted constant expression stands for the value the
    expression has by the rules of C, whatever of it was folded. *)
Theorem C32_folding_keeps_value_partial : forall e n,
  literals_ok e -> no_null_logic e -> pure_ops e -> build e = Some (n, 0) -> node_value n = cvalue e.
Proof.
  intros e n L N P B. pose proof (build_fine e L N P) as F. rewrite B in F. cbn [fine] in F.
  destruct F as (_ & C & D). destruct (is_correct n); [exact (proj1 (proj2 (proj2 (C eq_refl))))|]. specialize (D eq_refl). lia.
Qed.
Print Assumptions C32_folding_keeps_value_partial.

(** When every operation in it is defined, folding does nothing undefined. *)
Theorem C32_folding_defined_partial : forall e,
  literals_ok e -> no_null_logic e -> pure_ops e -> defined e -> build e <> None.
Proof.
  intros e L N P D B. pose proof (build_fine e L N P) as F. rewrite B in F. exact (F D).
Qed.
Print Assumptions C32_folding_defined_partial.

(** Accepted constants made of numbers and truth values become one literal, so
    they can be used as labels and bounds. *)
Theorem C32_plain_constants_fold : forall e n,
  literals_ok e -> plain_constants e -> pure_ops e -> build e = Some (n, 0) -> is_correct n = true ->
  exists t l, n = NLit t l /\ lit_ok t l.
Proof.
  intros e n L K P B C. pose proof (plain_folds e L K P) as F. rewrite B in F. destruct (F C) as (t & l & E & O & _). eauto.
Qed.
Print Assumptions C32_plain_constants_fold.

(** An expression is refused exactly with an error. *)
Theorem C32_refusal_is_reported : forall e n k,
  literals_ok e -> no_null_logic e -> pure_ops e -> build e = Some (n, k) -> (is_correct n = false <-> 0 < k).
Proof.
  intros e n k L N P B. pose proof (build_fine e L N P) as F. rewrite B in F. cbn [fine] in F.
  destruct F as (_ & C & D). destruct (is_correct n).
  - destruct (C eq_refl) as [-> _]. split; [discriminate|lia].
  - split; auto.
Qed.
Print Assumptions C32_refusal_is_reported.

(** Without the restrictions both claims fail: a constant the program never
    evaluates makes the compiler divide by zero, and the null pointer counts as
    true when its literal is not at the very beginning of the text. *)
Theorem C32_folding_refuted :
  (exists e, literals_ok e /\ pure_ops e /\ cvalue e = Some (VBool false) /\ build e = None)
  /\ exists e n, literals_ok e /\ pure_ops e /\ cvalue e = Some (VBool false)
       /\ build e = Some (n, 0) /\ node_value n = Some (VBool true).
Proof.
  split.
  - exists (bin BIN_LOG_AND (int 0) (bin BIN_DIV (int 1) (int 0))). cbn. repeat split; auto.
  - exists (bin BIN_LOG_AND (int 1) (CLit t_null (LNull 40))), (NLit t_bool (LBool true)). cbn. repeat split; auto.
Qed.
Print Assumptions C32_folding_refuted.

Example folding_case :
  let e := bin BIN_SUB (bin BIN_MUL (int 7) (int (-3))) (bin BIN_SHL (int 1) (int 4)) in
  literals_ok e /\ no_null_logic e /\ pure_ops e /\ plain_constants e /\ defined e
  /\ build e = Some (NLit t_int (LInt (-37)), 0) /\ cvalue e = Some (VInt (-37)).
Proof. cbn. repeat split; auto; discriminate. Qed.
(** A division truncates, a mixed comparison is done in doubles. *)
Example folding_mixed :
  build (bin BIN_LT (bin BIN_DIV (int (-7)) (int 2)) (CLit t_float (LFloat (d_of 5)))) = Some (NLit t_bool (LBool true), 0)
  /\ cvalue (bin BIN_DIV (int (-7)) (int 2)) = Some (VInt (-3)).
Proof. split; vm_compute; reflexivity. Qed.

(** ** C47 *)

(** An assignment is accepted exactly if the target designates an object that is
    not constant and the value is assignable (and, for compound assignments, the
    operands are of the kinds the operator needs); otherwise an error is
    reported.  What is stored then has the size and the kind of the target. *)
Theorem C47_assignments_checked : forall op l r,
  is_assignment op = true -> is_correct l = true -> tidy (type_of l) -> intact r ->
  let fits := is_lvalue l = true /\ assignable false (type_of l) r /\ assign_ok op l r in
  (fits -> exists r', accepted (build_binary l r op) (NAssign (type_of l) op l r') /\ stored (type_of l) r')
  /\ (~ fits -> refused (build_binary l r op)).
Proof. exact assignment_verdict. Qed.
Print Assumptions C47_assignments_checked.

(** No constant is the target of an accepted assignment. *)
Theorem C47_constants_refused : forall op l r,
  is_assignment op = true -> is_correct l = true -> tidy (type_of l) -> intact r ->
  is_const (type_of l) = true \/ is_lvalue l = false -> refused (build_binary l r op).
Proof.
  intros op l r O C T I H. apply (proj2 (assignment_verdict op l r O C T I)).
  intros (L & A & _). destruct H as [H|H]; [|congruence].
  apply assignable_writable in A. destruct A as [A|A]; congruence.
Qed.
Print Assumptions C47_constants_refused.

(** Initialisations, arguments and returned values. *)
Theorem C47_initializers_checked : forall t e, tidy t -> intact e ->
  (assignable true t e -> exists e', accepted (build_init t e) e' /\ stored t e')
  /\ (~ assignable true t e -> refused (build_init t e)).
Proof. exact init_verdict. Qed.
Print Assumptions C47_initializers_checked.

Theorem C47_arguments_checked : forall text f ret ps es,
  is_correct f = true -> type_of f = TFunction ret ps -> library f = false -> Forall tidy ps -> Forall intact es ->
  (args_ok ps es -> exists es', accepted (build_call text f es) (NCall ret f es') /\ List.length es' = List.length es
      /\ forall i t e', nth_error ps i = Some t -> nth_error es' i = Some e' -> stored t e')
  /\ (~ args_ok ps es -> refused (build_call text f es)).
Proof. exact call_verdict. Qed.
Print Assumptions C47_arguments_checked.

Theorem C47_returns_checked_partial : forall t e, tidy t -> intact e -> t <> TPointer t_void ->
  (t <> t_void /\ assignable true t e -> exists e', accepted (build_return t e) e' /\ stored t e')
  /\ (t = t_void \/ ~ assignable true t e -> refused (build_return t e)).
Proof. exact return_verdict. Qed.
Print Assumptions C47_returns_checked_partial.

Definition x_const := NIdent (TConst t_int) 10.
Definition pair_type := TStruct [(t_int, 1); (TConst t_int, 2)].
Definition box_type := TStruct [(TArray t_int, 1)].
Definition one := NLit t_int (LInt 1).

(** The full claim fails: a constant can be incremented; a structure with a
    constant member can be assigned as a whole; an element of an array inside a
    constant structure can be assigned; a function that returns [void*] can
    return a number. *)
Theorem C47_constants_refuted :
  (exists n, accepted (build_unary x_const UN_PREINC) n /\ is_const (type_of x_const) = true)
  /\ (exists n, has_const pair_type = true
        /\ accepted (build_binary (NIdent pair_type 11) (NIdent pair_type 12) BIN_ASSIGN) n)
  /\ (exists m s n, accepted (build_member (NIdent (TConst box_type) 13) 1 false) m
        /\ accepted (build_subscript m one) s /\ inside_const s = true /\ accepted (build_binary s one BIN_ASSIGN) n)
  /\ exists n, accepted (build_return (TPointer t_void) one) n /\ ~ assignable true (TPointer t_void) one.
Proof.
  split; [|split; [|split]].
  - eexists. split; [split; reflexivity|reflexivity].
  - eexists. split; [reflexivity|split; reflexivity].
  - eexists _, _, _. split; [split; reflexivity|]. split; [split; reflexivity|]. split; [reflexivity|split; reflexivity].
  - eexists. split; [split; reflexivity|]. intros A.
    inversion A as [? ? ? E|? ? ? E|? ? ? E|? ? ? ? E E'|? ? ? ? E E'| |]; subst; try discriminate E; try discriminate E'.
    destruct E as [E|[E|(s & v & E)]]; discriminate E.
Qed.
Print Assumptions C47_constants_refuted.

(** A floating variable of a structure takes an integer: it is converted. *)
Example assign_case :
  let t := TStruct [(t_float, 1); (TPointer (TConst t_char), 2)] in
  let v := NInit t_undefined [one; NLit t_null (LNull 3)] in
  tidy t /\ intact v /\ assignable true t v
  /\ build_init t v = Some (NInit t [NLit t_float (LFloat (d_of 1)); NLit t_null (LNull 3)], 0)
  /\ build_init t (NInit t_undefined [one; one]) = Some (NInit t_undefined [one; one], 1).
Proof.
  cbn zeta. split; [cbn; auto 10|]. split; [cbn; auto 10|]. split.
  - apply (as_struct true _ t_undefined _ [(t_float, 1); (TPointer (TConst t_char), 2)]); [left; reflexivity|reflexivity|reflexivity|].
    intros [|[|[|i]]] m e M E; try discriminate M; cbn in M, E; injection M as <-; injection E as <-.
    + apply as_float; [left; reflexivity|reflexivity|reflexivity|left; reflexivity].
    + apply (as_null true _ _ (TConst t_char)); [left; reflexivity|reflexivity|reflexivity|reflexivity].
  - split; vm_compute; reflexivity.
Qed.
Example assign_refused :
  build_binary x_const one BIN_ASSIGN = err
  /\ build_binary one one BIN_ASSIGN = err
  /\ build_binary (NIdent (TPointer t_int) 14) (NIdent (TPointer (TConst t_int)) 15) BIN_ASSIGN = err.
Proof. repeat split. Qed.

(** ** C65 *)

(** A call of [printf] with a format literal is accepted exactly if the format
    is well formed, takes at most 18 values, and the arguments after it are as
    many as its placeholders and assignable to their types. *)
Theorem C65_format_checked : forall text f es i rest t ps ret,
  f = NIdent (TFunction ret ps) BI_PRINTF -> es = NLit t (LString i) :: rest -> lit_ok t (LString i) -> Forall intact rest ->
  let fits := exists ts, format (text i) ts /\ args_ok ts rest /\ (List.length rest < 19)%nat in
  (fits -> exists rest', accepted (build_call text f es) (NCall t_int f (NLit t (LString i) :: rest')))
  /\ (~ fits -> refused (build_call text f es)).
Proof. exact printf_verdict. Qed.
Print Assumptions C65_format_checked.

(** "%i:%f%%": a number and a double. *)
Definition sample_text (i : Z) : list Z := [37; 105; 58; 37; 102; 37; 37].
Definition printf_name := NIdent (TFunction t_int [t_string]) BI_PRINTF.
Example format_case :
  format (sample_text 0) [t_int; t_float]
  /\ build_call sample_text printf_name [NLit t_string (LString 0); one; one]
     = ok (NCall t_int printf_name [NLit t_string (LString 0); one; NLit t_float (LFloat (d_of 1))])
  /\ build_call sample_text printf_name [NLit t_string (LString 0); one] = err.
Proof.
  split; [|split; vm_compute; reflexivity].
  apply fm_int; [cbn; auto|]. apply fm_char; [discriminate|]. apply fm_float; [cbn; auto|]. apply fm_percent. apply fm_end.
Qed.

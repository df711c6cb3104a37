(** Model of the directives of the preprocessor: libs/macro/parser.c.

    Simplifications.  A text is the list of its tokens; blanks, comments, quoted
    strings and continued lines ([skip_comment], [skip_multi_comment],
    [skip_string], [skip_until]) are below this level, and so are the [#line]
    marks and the places of messages (locator.c).  A name is its number.
    Storages are association lists (C12 is about storages).  Warnings are not
    modelled.  The value of an expression, and whether its tokens are still
    acceptable, are parameters ([calc] and [stuck]; the computer behind them is
    modelled in ComputerModel.v).  The contents of files are a parameter.  What
    is printed and done is kept in two lists: the output and the events. *)
From Verif Require Import Prelude.
Local Open Scope Z_scope.

(** keywords.h:28-60; [TBad] below stands for a directive which is not one. *)
Inductive kw :=
| KInclude | KLine | KDefine | KSet | KUndef | KMacro | KEndm
| KIfdef | KIfndef | KIf | KElif | KElse | KEndif | KEval | KWhile | KEndw.

(** The tokens of a text.  [TOpen] is a bracket with no blank before it,
    [TFile] a quoted path, [THash] and [TPaste] the operators [#] and [##];
    [TArg], [TStr] and [TTkp] are the masks of an argument ([MASK_ARGUMENT],
    [MASK_STRING], [MASK_TOKEN_PASTE], parser.c:29-32); [TNum] and [TString]
    are what [#eval] and [#] print. *)
Inductive token :=
| TNl | TKw (k : kw) | TBad | TName (n : Z) | TOpen | TChar (c : Z) | TFile (f : Z)
| THash | TPaste | TNum (v : Z) | TArg (i : nat) | TStr (i : nat) | TTkp (i : nat)
| TString (l : list token).

(** parser.c:35-37. *)
Definition MAX_INCLUDE_DEPTH : Z := 32.
Definition MAX_CALL_DEPTH : Z := 256.
Definition MAX_ITERATION : Z := 32768.

(** error.h:36-76, those used here. *)
Inductive err :=
| HASH_STRAY | HASH_ON_EDGE | HASH_NOT_FOLLOWED | DIRECTIVE_INVALID | DIRECTIVE_WITHOUT
| DIRECTIVE_AFTER | DIRECTIVE_UNTERMINATED | DIRECTIVE_FORBIDDEN | DIRECTIVE_NO_EXPRESSION
| DIRECTIVE_NAME | INCLUDE_DEPTH | INCLUDE_EXPECTS_FILENAME | INCLUDE_NO_SUCH_FILE | CALL_DEPTH
| ARGS_HEADER | ARGS_NON | ARGS_UNTERMINATED | ARGS_NUMBER | ITERATION_MAX | EXPRESSION.

(** What happens: an error is printed (the mark says whether it was printed while
    a branch was skipped); a macro is called and done with; a file is opened and done
    with; a loop starts, its body is processed, the loop is over; a source is opened
    or cannot be opened. *)
Inductive event :=
| EErr (skipped : bool) (e : err)
| ECall (n : Z) | ERet | EOpen (f : Z) | EClose | ELoop | EBody | EDone
| ESource (f : Z) | ELost (f : Z).

(** parser.h:30-50, with the output and the events; [None] for the output: there
    is none ([out_is_correct] is false). *)
Record pst := mkP {
  p_macros : list (Z * (nat * list token)); p_seen : list Z;
  p_call : Z; p_incl : Z;
  p_quiet : bool; p_mac : bool; p_err : bool;
  p_out : option (list token); p_trace : list event }.

Definition set_macros m st := mkP m (p_seen st) (p_call st) (p_incl st) (p_quiet st) (p_mac st) (p_err st) (p_out st) (p_trace st).
Definition set_seen m st := mkP (p_macros st) m (p_call st) (p_incl st) (p_quiet st) (p_mac st) (p_err st) (p_out st) (p_trace st).
Definition set_call c st := mkP (p_macros st) (p_seen st) c (p_incl st) (p_quiet st) (p_mac st) (p_err st) (p_out st) (p_trace st).
Definition set_incl c st := mkP (p_macros st) (p_seen st) (p_call st) c (p_quiet st) (p_mac st) (p_err st) (p_out st) (p_trace st).
Definition set_mac b st := mkP (p_macros st) (p_seen st) (p_call st) (p_incl st) (p_quiet st) b (p_err st) (p_out st) (p_trace st).
Definition set_err b st := mkP (p_macros st) (p_seen st) (p_call st) (p_incl st) (p_quiet st) (p_mac st) b (p_out st) (p_trace st).
Definition set_out o st := mkP (p_macros st) (p_seen st) (p_call st) (p_incl st) (p_quiet st) (p_mac st) (p_err st) o (p_trace st).
Definition event_ e st := mkP (p_macros st) (p_seen st) (p_call st) (p_incl st) (p_quiet st) (p_mac st) (p_err st) (p_out st) (p_trace st ++ [e]).

(** parser.c:55-71 [parser_error]. *)
Definition error_ (skipped : bool) (e : err) (st : pst) : pst :=
  if p_quiet st && p_err st then st else set_err true (event_ (EErr skipped e) st).
(** [uni_print_char], [uni_printf]. *)
Definition print (t : token) (st : pst) : pst :=
  match p_out st with None => st | Some o => set_out (Some (o ++ [t])) st end.
Definition print_all (l : list token) (st : pst) : pst :=
  match p_out st with None => st | Some o => set_out (Some (o ++ l)) st end.

(** Storages: [storage_search], [storage_set_by_index], [storage_remove_by_index]. *)
Fixpoint find_macro (n : Z) (m : list (Z * (nat * list token))) : option (nat * list token) :=
  match m with
  | [] => None
  | (x, v) :: m => if x =? n then Some v else find_macro n m
  end.
Fixpoint remove_macro (n : Z) (m : list (Z * (nat * list token))) : list (Z * (nat * list token)) :=
  match m with
  | [] => []
  | (x, v) :: m => if x =? n then remove_macro n m else (x, v) :: remove_macro n m
  end.
Definition set_macro (n : Z) (v : nat * list token) (m : list (Z * (nat * list token))) :=
  (n, v) :: remove_macro n m.

Definition is_open (t : token) : bool := match t with TOpen => true | TChar c => c =? 40 | _ => false end.
Definition is_close (t : token) : bool := match t with TChar c => c =? 41 | _ => false end.
Definition is_comma (t : token) : bool := match t with TChar c => c =? 44 | _ => false end.
Definition is_nl (t : token) : bool := match t with TNl => true | _ => false end.
Definition is_hash (t : token) : bool :=
  match t with TKw _ | TBad | THash | TPaste => true | _ => false end.
Definition at_end (s : list token) : bool := match s with [] => true | t :: _ => is_nl t end.

(** 335-358 [skip_expression] and [skip_until]: to the end of the line. *)
Fixpoint line_end (s : list token) : list token :=
  match s with
  | [] => []
  | t :: s' => if is_nl t then s else line_end s'
  end.
(** 369-380 [skip_directive]: what is left, and whether the end was read. *)
Definition skip_directive (s : list token) : list token * bool :=
  match line_end s with
  | [] => ([], true)
  | _ :: s' => (s', false)
  end.
Definition skip_dir (s : list token) : list token := fst (skip_directive s).
(** 316-328 [skip_lines]. *)
Fixpoint skip_lines (s : list token) : list token :=
  match s with
  | TNl :: s' => skip_lines s'
  | _ => s
  end.

(** 2284-2300 [parse_next]: whether [next] may follow [begin]. *)
Definition opens_if (k : kw) : bool := match k with KIfdef | KIfndef | KIf | KElif => true | _ => false end.
Definition goes_on (k : kw) : bool := match k with KElif | KElse | KEndif => true | _ => false end.
Definition parse_next (begin : option kw) (next : kw) : bool :=
  match begin with
  | None => false
  | Some b =>
      (opens_if b && goes_on next)
      || match b, next with
         | KElse, KEndif | KWhile, KEndw | KMacro, KEndm => true
         | _, _ => false
         end
  end.
Definition next_error (begin : option kw) (next : kw) : err :=
  match begin, next with
  | Some KElse, (KElif | KElse) => DIRECTIVE_AFTER
  | _, _ => DIRECTIVE_WITHOUT
  end.
(** 523-524. *)
Definition closes (k : kw) : bool := match k with KElif | KElse | KEndif | KEndw | KEndm => true | _ => false end.
(** 549-550. *)
Definition opens (k : kw) : bool :=
  match k with KIfdef | KIfndef | KIf | KElif | KElse | KWhile | KMacro => true | _ => false end.

(** What [parse_directive] (934-985) makes of a line. *)
Inductive lkind := Kd (k : kw) | Kerr | Knon.
Definition parse_directive (s : list token) : lkind * list token :=
  match s with
  | TKw k :: s' => (Kd k, s')
  | TBad :: s' => (Kerr, s')
  | _ => (Knon, s)
  end.

(** ** The content of [#macro] *)
Fixpoint index_of (n : Z) (l : list Z) : option nat :=
  match l with
  | [] => None
  | x :: l => if x =? n then Some O else match index_of n l with Some i => Some (S i) | None => None end
  end.
(** 441-486, the loop of [skip_macro]: [None] if the line is not accepted. *)
Fixpoint copy_line (params : list Z) (kd : lkind) (s : list token) : option (list token) :=
  match s with
  | [] => Some []
  | t :: s' =>
      if is_nl t then Some []
      else
        let here :=
          match t with
          | TName n =>
              match index_of n params with
              | None => Some t
              | Some i => Some (match kd with Kd KIfdef | Kd KIfndef => TTkp i | _ => TArg i end)
              end
          | _ =>
              if is_hash t
              then match kd with
                   | Kd (KDefine | KSet | KIf | KElif | KWhile | KEval) => Some t
                   | _ => None
                   end
              else Some t
          end in
        match here, copy_line params kd s' with
        | Some x, Some l => Some (x :: l)
        | _, _ => None
        end
  end.
Definition wants_expression (kd : lkind) : bool := match kd with Kd (KIf | KElif | KWhile | KEval) => true | _ => false end.
Definition wants_name (kd : lkind) : bool :=
  match kd with Kd (KMacro | KDefine | KSet | KUndef | KIfdef | KIfndef) => true | _ => false end.
Definition name_next (s : list token) : bool := match s with TName _ :: _ => true | _ => false end.
(** 393-487 [skip_macro]. *)
Definition skip_macro (params : list Z) (kd : lkind) (s : list token) (st : pst) : list token * bool * pst :=
  let '(s', eof) := skip_directive s in
  match kd with
  | Kd KLine => (s', eof, st)
  | Kerr => (s', eof, set_out None st)
  | Kd KInclude => (s', eof, error_ false DIRECTIVE_FORBIDDEN (set_out None st))
  | _ =>
      let st := match kd with Kd k => print (TKw k) st | _ => st end in
      if wants_expression kd && at_end s then (s', eof, error_ false DIRECTIVE_NO_EXPRESSION (set_out None st))
      else if wants_name kd && negb (name_next s) then (s', eof, set_out None (error_ false DIRECTIVE_NAME st))
      else
        match copy_line params kd s with
        | Some l => (s', eof, print_all l st)
        | None => (s', eof, error_ false HASH_STRAY (set_out None st))
        end
  end.

(** ** Skipping: 497-567 [skip_block]
    The number [n] bounds the recursion; [None] is not reached (MacroProofs.v).
    [skip_loop] is the outer loop with [was_error] at the entry as [saved] and
    [character == '\0'] as [first], [skip_inner] the inner one. *)
Definition unroot (root : bool) (st : pst) : pst := if root then set_mac false st else st.
Fixpoint skip_block (n : nat) (params : list Z) (begin : kw) (s : list token) (st : pst) {struct n}
  : option (option kw * list token * pst) :=
  match n with
  | O => None
  | S n =>
      let root := match begin with KMacro => negb (p_mac st) && match p_out st with Some _ => true | None => false end | _ => false end in
      skip_loop n params begin (p_err st) root true s (if root then set_mac true st else st)
  end
with skip_loop (n : nat) (params : list Z) (begin : kw) (saved root first : bool) (s : list token) (st : pst) {struct n}
  : option (option kw * list token * pst) :=
  match n with
  | O => None
  | S n =>
      let '(kd, s1) := parse_directive s in
      let st := if p_mac st then match kd with Kerr => error_ false DIRECTIVE_INVALID st | _ => st end
                else set_err saved st in
      let otherwise :=
        match skip_inner n params (root && first) kd s1 st with
        | None => None
        | Some (s2, eof, st) =>
            if eof then Some (None, s2, unroot root (set_out None st))
            else skip_loop n params begin saved root false s2 st
        end in
      match kd with
      | Kd k =>
          if closes k
          then
            if parse_next (Some begin) k then Some (Some k, s1, unroot root st)
            else
              let st := set_out None (error_ (negb (p_mac st)) (next_error (Some begin) k) st) in
              let '(s2, eof) := skip_directive s1 in
              if eof then Some (None, s2, unroot root (set_out None st))
              else skip_loop n params begin saved root false s2 st
          else otherwise
      | _ => otherwise
      end
  end
with skip_inner (n : nat) (params : list Z) (bare : bool) (kd : lkind) (s : list token) (st : pst) {struct n}
  : option (list token * bool * pst) :=
  match n with
  | O => None
  | S n =>
      let st := if bare then st else print TNl st in
      let '(s1, eof, st) :=
        if p_mac st then skip_macro params kd s st else (skip_directive s, st) in
      match kd with
      | Kd k =>
          if opens k
          then match skip_block n params k s1 st with
               | None => None
               | Some (None, s2, st) => Some (s2, eof, error_ (negb (p_mac st)) DIRECTIVE_UNTERMINATED st)
               | Some (Some k', s2, st) => skip_inner n params false (Kd k') s2 st
               end
          else Some (s1, eof, st)
      | _ => Some (s1, eof, st)
      end
  end.

(** ** Processing
    [Out]: the bound on the recursion was reached, [Hang]: the code does not
    come back. *)
Inductive res (A : Type) := Out (st : pst) | Hang (st : pst) | Ok (a : A).
Arguments Out {A}. Arguments Hang {A}. Arguments Ok {A}.
Definition rbind {A B} (r : res A) (f : A -> res B) : res B :=
  match r with Out st => Out st | Hang st => Hang st | Ok a => f a end.
Notation "'run' ' p <- a ; b" := (rbind a (fun p => b)) (at level 200, p pattern, a at level 100, b at level 200).

Definition skip_fuel (s : list token) : nat := (4 * length s + 6)%nat.
(** Skipping with the output switched off: 2092-2098, 2157-2160, 2169-2172, 2232-2235, 2255-2258. *)
Definition skip_silent (begin : kw) (s : list token) (st : pst) : res (option kw * list token * pst) :=
  match skip_block (skip_fuel s) [] begin s (set_out None st) with
  | None => Out st
  | Some (k, s, st') => Ok (k, s, set_out (p_out st) st')
  end.
(** 2152-2162 and 2247-2259: the branches after the one taken. *)
Fixpoint skip_rest (n : nat) (k : option kw) (s : list token) (st : pst) : res (option kw * list token * pst) :=
  match k with
  | None | Some KEndif => Ok (k, s, st)
  | Some k =>
      match n with
      | O => Out st
      | S n => run ' (k, s, st) <- skip_silent k (skip_dir s) st; skip_rest n k s st
      end
  end.

(** 631-674, the inner loop of [parse_brackets]: the tokens up to a comma, the
    closing bracket or the end; [None]: at the end inside brackets the loop goes
    round without reading anything. *)
Fixpoint read_arg (s : list token) (depth : nat) (acc : list token) : option (list token * list token) :=
  match s with
  | [] => match depth with O => Some (acc, []) | S _ => None end
  | t :: s' =>
      if is_nl t then read_arg s' depth acc
      else
        match depth with
        | O => if is_comma t || is_close t then Some (acc, s)
               else read_arg s' (if is_open t then 1%nat else O) (acc ++ [t])
        | S d => read_arg s' (if is_open t then S depth else if is_close t then d else depth) (acc ++ [t])
        end
  end.
(** 690-731 [parse_observation], the replacement of masks. *)
Definition observe (args : list (list token * list token)) (value : list token) : list token :=
  flat_map (fun t =>
    match t with
    | TArg i => match nth_error args i with Some (_, e) => e | None => [t] end
    | TStr i => match nth_error args i with Some (r, _) => [TString r] | None => [t] end
    | TTkp i => match nth_error args i with Some (r, _) => r | None => [t] end
    | _ => [t]
    end) value.

(** 1678-1736 [parse_args]: the names, [None] on failure. *)
Fixpoint read_params (s : list token) (acc : list Z) : option (list Z) * list token :=
  match s with
  | [] => (None, s)
  | t :: s1 =>
      if is_close t then (Some acc, s1)
      else
        match t with
        | TName p =>
            match index_of p acc with
            | Some _ => (None, s1)
            | None =>
                match s1 with
                | [] => (None, s1)
                | t2 :: s2 =>
                    if is_comma t2 then read_params s2 (acc ++ [p])
                    else if is_close t2 || is_nl t2 then read_params s1 (acc ++ [p])
                    else (None, s1)
                end
            end
        | _ => (None, s)
        end
  end.
Definition parse_args (s : list token) : option (list Z) * list token :=
  match s with
  | TOpen :: s' => read_params s' []
  | _ => (Some [], s)
  end.

Section Oracles.
Variable files : Z -> option (list token).
Variable stuck : list token -> bool.
Variable calc : list token -> option Z.

(** The recursive functions, each a step with [R] for the recursive calls. *)
Record fns := mkF {
  f_block : option kw -> list token -> pst -> res (option kw * list token * pst);
  f_text : list token -> pst -> res (list token * pst);
  f_args : option (list (list token * list token)) -> list token -> pst
           -> res (option (list (list token * list token)) * list token * pst);
  f_expr : list token -> list token -> pst -> res (Z * list token * pst);
  f_elif : list token -> pst -> res (option kw * list token * pst);
  f_while : list token -> list token -> bool -> Z -> pst -> res (list token * pst) }.

Section Step.
Variable R : fns.

(** 2392-2418 [parser_preprocess]. *)
Definition preprocess (text : list token) (st : pst) : res pst :=
  run ' (_, _, st) <- f_block R None text st; Ok st.
(** 583-597 [parse_values]: the text with what it is replaced by. *)
Definition parse_values (arg : list token) (st : pst) : res (list token * pst) :=
  run ' st' <- preprocess arg (set_out (Some []) st);
  Ok (match p_out st' with Some o => o | None => [] end, set_out (p_out st) st').
(** 631-678 [parse_brackets], the outer loop after the bracket or the comma. *)
Definition args_step (vals : option (list (list token * list token))) (s : list token) (st : pst)
  : res (option (list (list token * list token)) * list token * pst) :=
  match read_arg s O [] with
  | None => Hang (error_ false ARGS_UNTERMINATED st)
  | Some (arg, s1) =>
      let bad := match s1, arg with [], _ :: _ => true | _, _ => false end in
      let st := if bad then error_ false ARGS_UNTERMINATED st else st in
      run ' (vals, st) <-
        match (if bad then None else vals) with
        | None => Ok (None, st)
        | Some vs => run ' (e, st) <- parse_values arg st; Ok (Some (vs ++ [(arg, e)]), st)
        end;
      match s1 with
      | [] => Ok (vals, [], st)
      | t :: s2 => if is_close t then Ok (vals, s1, st) else f_args R vals s2 st
      end
  end.
(** 745-791 [parse_replacement]. *)
Definition parse_replacement (m : nat * list token) (s : list token) (st : pst) : res (bool * list token * pst) :=
  let '(expected, value) := m in
  match expected with
  | O =>
      let s' :=
        match skip_lines s with
        | t :: s1 => if is_open t
                     then match skip_lines s1 with
                          | t2 :: s2 => if is_close t2 then s2 else s
                          | [] => s
                          end
                     else s
        | [] => s
        end in
      run ' st <- preprocess value st; Ok (true, s', st)
  | _ =>
      match skip_lines s with
      | t :: s1 =>
          if is_open t
          then
            run ' (vals, s2, st) <- f_args R (Some []) s1 st;
            let s3 := match s2 with _ :: s3 => s3 | [] => [] end in
            match vals with
            | None => Ok (false, s3, st)
            | Some vs =>
                if (length vs =? expected)%nat
                then run ' st <- preprocess (observe vs value) st; Ok (true, s3, st)
                else Ok (false, s3, error_ false ARGS_NUMBER st)
            end
          else Ok (false, s, error_ false ARGS_NON st)
      | [] => Ok (false, s, error_ false ARGS_NON st)
      end
  end.
(** The call around it: 814-816, 846 and 1536-1553. *)
Definition call (n : Z) (m : nat * list token) (s : list token) (st : pst) : res (bool * list token * pst) :=
  run ' (ok, s, st) <- parse_replacement m s (event_ (ECall n) (set_call (p_call st + 1) st));
  Ok (ok, s, event_ ERet (set_call (p_call st - 1) st)).

(** 800-847 [parse_identifier], the name having been read. *)
Definition parse_identifier (n : Z) (s : list token) (st : pst) : res (list token * pst) :=
  match find_macro n (p_macros st) with
  | None => Ok (s, print (TName n) st)
  | Some m =>
      if p_call st >? MAX_CALL_DEPTH
      then Ok (s, print (TName n) (error_ false CALL_DEPTH st))
      else run ' (_, s, st) <- call n m s st; Ok (s, st)
  end.
(** 859-899 [parse_until]. *)
Definition text_step (s : list token) (st : pst) : res (list token * pst) :=
  match s with
  | [] => Ok ([], st)
  | t :: s' =>
      if is_nl t then Ok (s', print t st)
      else
        match t with
        | TName n => run ' (s, st) <- parse_identifier n s' st; f_text R s st
        | _ => f_text R s' (print t (if is_hash t then error_ false HASH_STRAY st else st))
        end
  end.

(** 1464-1612 [parse_expression]: the loop with what was pushed so far; stops
    before the end of the line. *)
Definition expr_step (pushed : list token) (s : list token) (st : pst) : res (Z * list token * pst) :=
  let leave st := Ok (0, line_end s, st) in
  match s with
  | [] => match calc pushed with Some v => Ok (v, s, st) | None => Ok (0, s, error_ false EXPRESSION st) end
  | t :: s' =>
      if is_nl t
      then match calc pushed with Some v => Ok (v, s, st) | None => Ok (0, s, error_ false EXPRESSION st) end
      else
        let push s' l st :=
          if stuck (pushed ++ l) then Ok (0, line_end s', error_ false EXPRESSION st)
          else f_expr R (pushed ++ l) s' st in
        match t with
        | TName n =>
            match find_macro n (p_macros st) with
            | None => push s' [t] st
            | Some m =>
                if p_call st >? MAX_CALL_DEPTH then leave (error_ false CALL_DEPTH st)
                else
                  run ' (ok, s1, st') <- call n m s' (set_out (Some []) st);
                  let l := match p_out st' with Some o => o | None => [] end in
                  let st' := set_out (p_out st) st' in
                  if ok : bool then push s1 l st' else Ok (0, line_end s1, st')
            end
        | TKw KEval => f_expr R pushed s' st
        | _ => if is_hash t then leave (error_ false EXPRESSION st) else push s' [t] st
        end
  end.
Definition parse_expression (s : list token) (st : pst) : res (Z * list token * pst) :=
  if at_end s then Ok (0, s, error_ false DIRECTIVE_NO_EXPRESSION st) else f_expr R [] s st.

(** 2141-2185 [parse_elif]. *)
Definition elif_step (s : list token) (st : pst) : res (option kw * list token * pst) :=
  run ' (v, s, st) <- parse_expression s st;
  if negb (v =? 0)
  then
    run ' (k, s, st) <- f_block R (Some KElif) (skip_dir s) st;
    skip_rest (S (length s)) k s st
  else
    run ' (k, s, st) <- skip_silent KElif (skip_dir s) st;
    match k with
    | Some KElse => f_block R (Some KElse) (skip_dir s) st
    | Some KElif => f_elif R s st
    | _ => Ok (k, s, st)
    end.
(** 2194-2207 [parse_if]. *)
Definition parse_if (s : list token) (st : pst) : res (list token * pst) :=
  run ' (k, s, st) <- f_elif R s st;
  Ok (skip_dir s, match k with Some KEndif => st | _ => error_ false DIRECTIVE_UNTERMINATED st end).
(** 2214-2268 [parse_ifdef_ifndef]. *)
Definition parse_ifdef_ifndef (kw0 : kw) (s : list token) (st : pst) : res (list token * pst) :=
  run ' (k, s, st) <-
    match s with
    | TName n :: s' =>
        let found := match find_macro n (p_macros st) with Some _ => true | None => false end in
        let s := skip_dir s' in
        if (match kw0 with KIfdef => true | _ => false end && found)
           || (match kw0 with KIfndef => true | _ => false end && negb found)
        then f_block R (Some kw0) s st
        else
          run ' (k, s, st) <- skip_silent kw0 s st;
          match k with
          | Some KElif => f_elif R s st
          | Some KElse => f_block R (Some KElse) (skip_dir s) st
          | _ => Ok (k, s, st)
          end
    | _ => Ok (Some kw0, s, error_ false DIRECTIVE_NAME st)
    end;
  run ' (k, s, st) <- skip_rest (S (length s)) k s st;
  Ok (skip_dir s, match k with Some KEndif => st | _ => error_ false DIRECTIVE_UNTERMINATED st end).

(** 2076-2132 [parse_while]; [while_step] is the loop from the body on: [begin]
    is where the expression starts, [s] the end of the expression. *)
Definition while_step (begin s : list token) (was_error : bool) (iteration : Z) (st : pst) : res (list token * pst) :=
  run ' (k, e, st) <- f_block R (Some KWhile) (skip_dir s) (event_ EBody st);
  match k with
  | Some KEndw =>
      let iteration := iteration + 1 in
      if iteration >? MAX_ITERATION then Ok (skip_dir e, event_ EDone (error_ false ITERATION_MAX st))
      else if p_err st then Ok (skip_dir e, event_ EDone st)
      else
        run ' (v, s, st) <- parse_expression begin st;
        if v =? 0 then Ok (skip_dir e, event_ EDone (set_err (p_err st || was_error) st))
        else f_while R begin s was_error iteration st
  | _ => Ok (e, event_ EDone (error_ false DIRECTIVE_UNTERMINATED st))
  end.
Definition parse_while (s : list token) (st : pst) : res (list token * pst) :=
  run ' (v, s1, st) <- parse_expression s st;
  if v =? 0
  then
    run ' (k, s2, st) <- skip_silent KWhile (skip_dir s1) st;
    Ok (skip_dir s2, match k with Some KEndw => st | _ => error_ false DIRECTIVE_UNTERMINATED st end)
  else f_while R s s1 (p_err st) 0 (event_ ELoop (set_err (p_quiet st && p_err st) st)).

(** 1119-1154 [parse_include], 1064-1110 [parse_path] and linker.c:122-136
    [linker_add_header]: a file is read once. *)
Definition parse_include (s : list token) (st : pst) : res (list token * pst) :=
  if p_incl st >=? MAX_INCLUDE_DEPTH then Ok (skip_dir s, error_ false INCLUDE_DEPTH st)
  else
    match s with
    | TFile f :: s' =>
        match files f with
        | None => Ok (skip_dir s', error_ false INCLUDE_NO_SUCH_FILE st)
        | Some text =>
            if existsb (Z.eqb f) (p_seen st) then Ok (skip_dir s', st)
            else
              run ' st <- preprocess text (event_ (EOpen f) (set_incl (p_incl st + 1) (set_seen (f :: p_seen st) st)));
              Ok (skip_dir s', event_ EClose (set_incl (p_incl st - 1) st))
        end
    | _ => Ok (skip_dir s, error_ false INCLUDE_EXPECTS_FILENAME st)
    end.

(** 1825-1879 [parse_content] and 1743-1814 [parse_operator]. *)
Fixpoint parse_content (params : list Z) (s acc : list token) (st : pst) : res (option (list token) * list token * pst) :=
  match s with
  | [] => Ok (Some acc, s, st)
  | t :: s' =>
      if is_nl t then Ok (Some acc, s, st)
      else
        match t with
        | TName n =>
            parse_content params s' (acc ++ [match index_of n params with Some i => TArg i | None => t end]) st
        | TPaste =>
            match s' with
            | TName n :: s2 =>
                match index_of n params with
                | Some i => parse_content params s2 (acc ++ [TTkp i]) st
                | None => Ok (None, s2, error_ false HASH_NOT_FOLLOWED st)
                end
            | _ => Ok (None, s', error_ false (if at_end s' then HASH_ON_EDGE else HASH_NOT_FOLLOWED) st)
            end
        | THash =>
            match s' with
            | TName n :: s2 =>
                match index_of n params with
                | Some i => parse_content params s2 (acc ++ [TStr i]) st
                | None => Ok (None, s2, error_ false HASH_NOT_FOLLOWED st)
                end
            | _ => Ok (None, s', error_ false HASH_NOT_FOLLOWED st)
            end
        | TKw KEval =>
            run ' (v, s2, st) <- parse_expression s' st; Ok (Some (acc ++ [TNum v]), s2, st)
        | _ =>
            if is_hash t then Ok (None, s', error_ false HASH_NOT_FOLLOWED st)
            else parse_content params s' (acc ++ [t]) st
        end
  end.
(** 1888-1926 [parse_context] and 1936-1983 [parse_define], [parse_set]: they
    differ in their warnings only. *)
Definition parse_define (s : list token) (st : pst) : res (list token * pst) :=
  match s with
  | TName n :: s1 =>
      let st := match find_macro n (p_macros st) with
                | Some _ => st
                | None => set_macros (set_macro n (O, []) (p_macros st)) st
                end in
      let drop st := set_macros (remove_macro n (p_macros st)) st in
      let '(params, s2) := parse_args s1 in
      match params with
      | None => Ok (skip_dir s2, drop (error_ false ARGS_HEADER st))
      | Some ps =>
          match s2 with
          | TPaste :: s3 => Ok (skip_dir s3, drop (error_ false HASH_ON_EDGE st))
          | _ =>
              run ' (value, s3, st) <- parse_content ps s2 [] st;
              Ok (skip_dir s3,
                  match value with
                  | Some v => set_macros (set_macro n (length ps, v) (p_macros st)) st
                  | None => drop st
                  end)
          end
      end
  | _ => Ok (skip_dir s, error_ false DIRECTIVE_NAME st)
  end.
(** 1985-2003 [parse_undef]. *)
Definition parse_undef (s : list token) (st : pst) : list token * pst :=
  match s with
  | TName n :: s' => (skip_dir s', set_macros (remove_macro n (p_macros st)) st)
  | _ => (skip_dir s, error_ false DIRECTIVE_NAME st)
  end.
(** 2005-2067 [parse_macro]. *)
Definition parse_macro (s : list token) (st : pst) : res (list token * pst) :=
  let '(name, params, s1, st) :=
    match s with
    | TName n :: s1 =>
        let st := match find_macro n (p_macros st) with
                  | Some _ => st
                  | None => set_macros (set_macro n (O, []) (p_macros st)) st
                  end in
        let '(params, s2) := parse_args s1 in
        (Some n, params, s2, match params with Some _ => st | None => error_ false ARGS_HEADER st end)
    | _ => (None, None, s, error_ false DIRECTIVE_NAME st)
    end in
  let names := match params with Some ps => ps | None => [] end in
  let body := skip_dir s1 in
  match skip_block (skip_fuel body) names KMacro body (set_out (match params with Some _ => Some [] | None => None end) st) with
  | None => Out st
  | Some (k, s2, st') =>
      let st' := match k with Some KEndm => st' | _ => error_ false DIRECTIVE_UNTERMINATED st' end in
      let value := p_out st' in
      let st' := set_out (p_out st) st' in
      Ok (skip_dir s2,
          match name, value with
          | Some n, Some v => set_macros (set_macro n (length names, v) (p_macros st')) st'
          | Some n, None => set_macros (remove_macro n (p_macros st')) st'
          | None, _ => st'
          end)
  end.
(** 1621-1636 [parse_eval]. *)
Definition parse_eval (s : list token) (st : pst) : res (list token * pst) :=
  run ' (v, s, st) <- parse_expression s st; Ok (skip_dir s, print (TNum v) st).

(** 2310-2371 [parse_block]; [line_step] is a turn of its loop for what is not a
    block. *)
Definition line_step (s : list token) (st : pst) : res (list token * pst) :=
  let '(kd, s1) := parse_directive s in
  match kd with
  | Kerr => f_text R s1 (print TBad (error_ false DIRECTIVE_INVALID st))
  | Kd KLine => Ok (skip_dir s1, st)
  | Kd KInclude => parse_include s1 st
  | Kd (KDefine | KSet) => parse_define s1 st
  | Kd KUndef => Ok (parse_undef s1 st)
  | Kd KEval => parse_eval s1 st
  | _ => f_text R s st
  end.
Definition block_step (begin : option kw) (s : list token) (st : pst) : res (option kw * list token * pst) :=
  let go r := run ' (s, st) <- r; f_block R begin s st in
  match s with
  | [] => Ok (None, [], st)
  | _ =>
      let '(kd, s1) := parse_directive s in
      match kd with
      | Kd KMacro => go (parse_macro s1 st)
      | Kd ((KIfdef | KIfndef) as k) => go (parse_ifdef_ifndef k s1 st)
      | Kd KIf => go (parse_if s1 st)
      | Kd KWhile => go (parse_while s1 st)
      | Kd ((KElif | KElse | KEndif | KEndw | KEndm) as k) =>
          if parse_next begin k then Ok (Some k, s1, st)
          else go (Ok (skip_dir s1, error_ false (next_error begin k) st))
      | _ => go (line_step s st)
      end
  end.
Definition step : fns := mkF block_step text_step args_step expr_step elif_step while_step.
End Step.

Definition out_of_fuel : fns :=
  mkF (fun _ _ st => Out st) (fun _ st => Out st) (fun _ _ st => Out st) (fun _ _ st => Out st)
      (fun _ st => Out st) (fun _ _ _ _ st => Out st).
Fixpoint lvl (n : nat) : fns := match n with O => out_of_fuel | S n => step (lvl n) end.

(** macro.c:108-136 [macro_form_io]: the sources one after another, with -Wno
    only until the first that fails; the value is whether there was an error.
    linker.c:109-120 [linker_add_source]: a source is read whether it was
    included before or not. *)
Fixpoint sources (n : nat) (l : list Z) (ret : bool) (st : pst) : res (bool * pst) :=
  match l with
  | [] => Ok (ret, st)
  | f :: l =>
      if ret && p_quiet st then Ok (ret, st)
      else
        match files f with
        | None => sources n l true (event_ (ELost f) st)
        | Some text =>
            run ' st <- preprocess (lvl n) text (event_ (ESource f) (set_seen (f :: p_seen st) st));
            sources n l (ret || p_err st) st
        end
  end.
(** parser.c:2374-2400 [parser_create]. *)
Definition start (quiet : bool) (macros : list (Z * (nat * list token))) : pst :=
  mkP macros [] 0 0 quiet false false (Some []) [].
End Oracles.

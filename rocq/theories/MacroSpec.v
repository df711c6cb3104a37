(** What the directives of the preprocessor mean: blocks, branches and loops,
    and what a run may do. *)
From Verif Require Import Prelude MacroModel.
Local Open Scope Z_scope.

(** ** Texts with well-nested blocks *)
Inductive guard := GIf (e : list token) | GIfdef (n : Z) | GIfndef (n : Z).
Inductive item :=
| Line (l : list token)
| Cond (g : guard) (body : list item) (elifs : list (list token * list item)) (other : option (list item))
| Loop (e : list token) (body : list item)
| Def (header : list token) (body : list item).

(** The text. *)
Definition guard_text (g : guard) : list token :=
  match g with
  | GIf e => TKw KIf :: e
  | GIfdef n => [TKw KIfdef; TName n]
  | GIfndef n => [TKw KIfndef; TName n]
  end.
Fixpoint text_of (i : item) : list token :=
  match i with
  | Line l => l ++ [TNl]
  | Cond g body elifs other =>
      guard_text g ++ [TNl] ++ flat_map text_of body
      ++ flat_map (fun '(e, b) => TKw KElif :: e ++ [TNl] ++ flat_map text_of b) elifs
      ++ match other with None => [] | Some b => [TKw KElse; TNl] ++ flat_map text_of b end
      ++ [TKw KEndif; TNl]
  | Loop e body => TKw KWhile :: e ++ [TNl] ++ flat_map text_of body ++ [TKw KEndw; TNl]
  | Def header body => TKw KMacro :: header ++ [TNl] ++ flat_map text_of body ++ [TKw KEndm; TNl]
  end.
Definition text (p : list item) : list token := flat_map text_of p.

(** A line is one line, starts no block and does not start with a bracket (it
    would be the arguments of a macro at the end of the line before). *)
Definition one_line (l : list token) : Prop := ~ In TNl l.
Definition in_block (k : kw) : bool :=
  match k with
  | KMacro | KEndm | KIfdef | KIfndef | KIf | KElif | KElse | KEndif | KWhile | KEndw => true
  | _ => false
  end.
Definition plain (l : list token) : Prop :=
  one_line l
  /\ match l with
     | TKw k :: _ => in_block k = false
     | t :: _ => is_open t = false
     | [] => True
     end.
Definition all_of {A} (P : A -> Prop) (l : list A) : Prop := fold_right (fun x Q => P x /\ Q) True l.
Fixpoint nested (i : item) : Prop :=
  match i with
  | Line l => plain l
  | Cond g body elifs other =>
      match g with GIf e => one_line e | _ => True end
      /\ all_of nested body
      /\ all_of (fun '(e, b) => one_line e /\ all_of nested b) elifs
      /\ match other with None => True | Some b => all_of nested b end
  | Loop e body => one_line e /\ all_of nested body
  | Def h body => one_line h /\ all_of nested body
  end.

(** ** What a text does *)
Section Effects.
(** One line, the value of an expression and a definition of a macro alone. *)
Variable line_does : list token -> pst -> pst -> Prop.
Variable value_is : list token -> pst -> Z -> pst -> Prop.
Variable def_does : list token -> list item -> pst -> pst -> Prop.

(** Whether a guard holds. *)
Inductive holds : guard -> pst -> bool -> pst -> Prop :=
| h_if e st v st' : value_is e st v st' -> holds (GIf e) st (negb (v =? 0)) st'
| h_ifdef n st : holds (GIfdef n) st (match find_macro n (p_macros st) with Some _ => true | None => false end) st
| h_ifndef n st : holds (GIfndef n) st (match find_macro n (p_macros st) with Some _ => false | None => true end) st.

(** A branch: the first whose condition holds is processed, and nothing else. *)
Inductive does : item -> pst -> pst -> Prop :=
| d_line l st st' : line_does l st st' -> does (Line l) st st'
| d_taken g body elifs other st st1 st' :
    holds g st true st1 -> do_all body st1 st' -> does (Cond g body elifs other) st st'
| d_not_taken g body elifs other st st1 st' :
    holds g st false st1 -> do_branches elifs other st1 st' -> does (Cond g body elifs other) st st'
| d_no_round e body st st' :
    value_is e st 0 st' -> does (Loop e body) st st'
| d_rounds e body st v st1 st' :
    value_is e st v st1 -> v <> 0 ->
    rounds e body (p_err st1) 1 (event_ ELoop (set_err (p_quiet st1 && p_err st1) st1)) st' ->
    does (Loop e body) st st'
| d_def h body st st' : def_does h body st st' -> does (Def h body) st st'
with do_branches : list (list token * list item) -> option (list item) -> pst -> pst -> Prop :=
| b_none st : do_branches [] None st st
| b_other b st st' : do_all b st st' -> do_branches [] (Some b) st st'
| b_taken e b elifs other st v st1 st' :
    value_is e st v st1 -> v <> 0 -> do_all b st1 st' -> do_branches ((e, b) :: elifs) other st st'
| b_not_taken e b elifs other st st1 st' :
    value_is e st 0 st1 -> do_branches elifs other st1 st' -> do_branches ((e, b) :: elifs) other st st'
(** The rounds of a loop from number [k] on: it ends after round 32769, after a
    round with an error, or when the condition is 0. *)
with rounds : list token -> list item -> bool -> Z -> pst -> pst -> Prop :=
| r_too_many e body was k st st1 :
    do_all body (event_ EBody st) st1 -> k > 32768 ->
    rounds e body was k st (event_ EDone (error_ false ITERATION_MAX st1))
| r_error e body was k st st1 :
    do_all body (event_ EBody st) st1 -> k <= 32768 -> p_err st1 = true ->
    rounds e body was k st (event_ EDone st1)
| r_over e body was k st st1 st2 :
    do_all body (event_ EBody st) st1 -> k <= 32768 -> p_err st1 = false ->
    value_is e st1 0 st2 ->
    rounds e body was k st (event_ EDone (set_err (p_err st2 || was) st2))
| r_again e body was k st st1 v st2 st' :
    do_all body (event_ EBody st) st1 -> k <= 32768 -> p_err st1 = false ->
    value_is e st1 v st2 -> v <> 0 -> rounds e body was (k + 1) st2 st' ->
    rounds e body was k st st'
with do_all : list item -> pst -> pst -> Prop :=
| a_nil st : do_all [] st st
| a_cons i p st st1 st' : does i st st1 -> do_all p st1 st' -> do_all (i :: p) st st'.
End Effects.

(** What follows a line does not start with a bracket. *)
Definition calm (s : list token) : Prop :=
  match skip_lines s with
  | t :: _ => is_open t = false
  | [] => True
  end.

(** ** What a run may do *)
(** The depth of calls and of inclusions after the events. *)
Definition sum (weight : event -> Z) (t : list event) : Z := fold_right (fun e d => weight e + d) 0 t.
Definition calls : list event -> Z := sum (fun e => match e with ECall _ => 1 | ERet => -1 | _ => 0 end).
Definition inclusions : list event -> Z := sum (fun e => match e with EOpen _ => 1 | EClose => -1 | _ => 0 end).
(** The rounds of the loops being processed, innermost first; no loop does more
    than [most]. *)
Fixpoint rounds_ok (most : Z) (loops : list Z) (t : list event) : bool :=
  match t with
  | [] => true
  | ELoop :: t => rounds_ok most (0 :: loops) t
  | EBody :: t =>
      match loops with
      | [] => false
      | k :: loops => (k + 1 <=? most) && rounds_ok most (k + 1 :: loops) t
      end
  | EDone :: t => match loops with [] => false | _ :: loops => rounds_ok most loops t end
  | _ :: t => rounds_ok most loops t
  end.
Definition within_bounds (t : list event) : Prop :=
  (forall u v, t = u ++ v -> calls u <= 257 /\ inclusions u <= 32) /\ rounds_ok 32769 [] t = true.
(** The files opened by [#include]. *)
Definition opened (t : list event) : list Z :=
  flat_map (fun e => match e with EOpen f => [f] | _ => [] end) t.
(** The files read, as sources or by [#include]; no file which has been read is
    opened by [#include]. *)
Definition read (t : list event) : list Z :=
  flat_map (fun e => match e with EOpen f | ESource f => [f] | _ => [] end) t.
Definition once (t : list event) : Prop := forall u f v, t = u ++ EOpen f :: v -> ~ In f (read u).
(** An error was printed: while a branch was skipped or not; a source was lost. *)
Definition printed (t : list event) : Prop := (exists m e, In (EErr m e) t) \/ (exists f, In (ELost f) t).
Definition printed_outside (t : list event) : Prop := (exists e, In (EErr false e) t) \/ (exists f, In (ELost f) t).
(** Where a run came to. *)
Definition last_state (r : res (bool * pst)) : pst :=
  match r with Out st | Hang st => st | Ok (_, st) => st end.

(** ** Replacement of macros *)
(** An argument: no line ends, brackets match, no comma outside brackets. *)
Fixpoint level (d : nat) (a : list token) : option nat :=
  match a with
  | [] => Some d
  | t :: a =>
      if is_nl t then None
      else if is_open t then level (S d) a
      else if is_close t then match d with O => None | S d => level d a end
      else if is_comma t && (d =? 0)%nat then None
      else level d a
  end.
Definition argument (a : list token) : Prop := level 0 a = Some O.
Fixpoint listed (l : list (list token)) : list token :=
  match l with
  | [] => []
  | [a] => a
  | a :: l => a ++ TChar 44 :: listed l
  end.
(** The value with the arguments put in: what an argument is replaced by, the
    argument as a string, the argument itself. *)
Definition put_in (args es : list (list token)) (value : list token) : list token :=
  flat_map (fun t =>
    match t with
    | TArg i => nth i es [t]
    | TStr i => match nth_error args i with Some a => [TString a] | None => [t] end
    | TTkp i => nth i args [t]
    | _ => [t]
    end) value.
Section Expansion.
Variable macros : list (Z * (nat * list token)).
(** [expands d l out]: inside [d] calls, [l] is replaced by [out]. *)
Inductive expands : Z -> list token -> list token -> Prop :=
| x_nil d : expands d [] []
| x_token d t l out :
    is_nl t = false -> is_hash t = false -> (forall n, t = TName n -> find_macro n macros = None) ->
    expands d l out -> expands d (t :: l) (t :: out)
| x_name d n v l o out :
    find_macro n macros = Some (O, v) -> d <= 256 -> match l with t :: _ => is_open t = false | [] => True end ->
    expands (d + 1) v o -> expands d l out -> expands d (TName n :: l) (o ++ out)
| x_call d n k v args es op l o out :
    find_macro n macros = Some (S k, v) -> d <= 256 -> is_open op = true ->
    length args = S k -> Forall argument args -> expands_all (d + 1) args es ->
    expands (d + 1) (put_in args es v) o -> expands d l out ->
    expands d (TName n :: op :: listed args ++ TChar 41 :: l) (o ++ out)
with expands_all : Z -> list (list token) -> list (list token) -> Prop :=
| x_none d : expands_all d [] []
| x_some d a e args es : expands d a e -> expands_all d args es -> expands_all d (a :: args) (e :: es).
End Expansion.
(** The state after: [out] is printed and nothing else is changed but the events. *)
Definition after (st : pst) (out : list token) (st' : pst) : Prop :=
  p_macros st' = p_macros st /\ p_seen st' = p_seen st /\ p_call st' = p_call st /\ p_incl st' = p_incl st
  /\ p_quiet st' = p_quiet st /\ p_mac st' = p_mac st /\ p_err st' = p_err st
  /\ p_out st' = match p_out st with None => None | Some o => Some (o ++ out) end.

(** ** Definitions *)
(** A value is written as tokens, [#name] and [##name]; the names are those of
    the parameters. *)
Inductive piece := Tok (t : token) | Quote (n : Z) | Paste (n : Z).
Definition piece_text (p : piece) : list token :=
  match p with Tok t => [t] | Quote n => [THash; TName n] | Paste n => [TPaste; TName n] end.
Definition written (ps : list piece) : list token := flat_map piece_text ps.
(** [stands params p t]: [t] is what is kept of [p]. *)
Definition stands (params : list Z) (p : piece) (t : token) : Prop :=
  match p with
  | Tok (TName n) => (exists i, nth_error params i = Some n /\ t = TArg i) \/ (~ In n params /\ t = TName n)
  | Tok x => is_nl x = false /\ is_hash x = false /\ t = x
  | Quote n => exists i, nth_error params i = Some n /\ t = TStr i
  | Paste n => exists i, nth_error params i = Some n /\ t = TTkp i
  end.
(** The parameters: nothing, or the bracket which follows the name, the names and
    a bracket. *)
Definition header (params : list Z) : list token :=
  match params with
  | [] => []
  | _ => TOpen :: listed (map (fun n => [TName n]) params) ++ [TChar 41]
  end.
Definition starts_well (params : list Z) (ps : list piece) : Prop :=
  match ps with
  | Paste _ :: _ => False
  | Tok TOpen :: _ => params <> []
  | _ => True
  end.
(** The state after a definition: [n] has the value, nothing else is changed. *)
Definition defined (n : Z) (v : nat * list token) (st st' : pst) : Prop :=
  find_macro n (p_macros st') = Some v
  /\ (forall m, m <> n -> find_macro m (p_macros st') = find_macro m (p_macros st))
  /\ (p_seen st', p_call st', p_incl st', p_quiet st', p_mac st', p_err st', p_out st')
     = (p_seen st, p_call st, p_incl st, p_quiet st, p_mac st, p_err st, p_out st).

(** ** The values of [#macro]
    The lines of a text. *)
Fixpoint lines_of (i : item) : list (list token) :=
  match i with
  | Line l => [l]
  | Cond g body elifs other =>
      guard_text g :: flat_map lines_of body
      ++ flat_map (fun '(e, b) => (TKw KElif :: e) :: flat_map lines_of b) elifs
      ++ match other with None => [] | Some b => [TKw KElse] :: flat_map lines_of b end
      ++ [[TKw KEndif]]
  | Loop e body => (TKw KWhile :: e) :: flat_map lines_of body ++ [[TKw KEndw]]
  | Def h body => (TKw KMacro :: h) :: flat_map lines_of body ++ [[TKw KEndm]]
  end.
(** A token is kept as it is, but the names of the parameters are marked. *)
Definition marked (params : list Z) (bare : bool) (t t' : token) : Prop :=
  match t with
  | TName n =>
      (exists i, nth_error params i = Some n /\ t' = if bare then TTkp i else TArg i) \/ (~ In n params /\ t' = t)
  | _ => t' = t
  end.
(** The lines which may stand in [#macro] and what is kept of them: no [#include]
    and no [#line]; a directive has its name or its expression; [#] within a line
    is for values and expressions only. *)
Definition complete (k : kw) (l : list token) : Prop :=
  match k with
  | KInclude | KLine => False
  | KMacro | KDefine | KSet | KUndef | KIfdef | KIfndef => exists n r, l = TName n :: r
  | KIf | KElif | KWhile | KEval => l <> []
  | _ => True
  end.
Definition hash_free (l : list token) : Prop := Forall (fun t => is_hash t = false) l.
Definition kept (params : list Z) (l v : list token) : Prop :=
  match l with
  | TKw k :: r =>
      complete k r
      /\ match k with KDefine | KSet | KIf | KElif | KWhile | KEval => True | _ => hash_free r end
      /\ exists v', v = TKw k :: v'
         /\ Forall2 (marked params match k with KIfdef | KIfndef => true | _ => false end) r v'
  | _ => hash_free l /\ Forall2 (marked params false) l v
  end.
(** Lines one after another. *)
Fixpoint joined (vs : list (list token)) : list token :=
  match vs with
  | [] => []
  | [v] => v
  | v :: vs => v ++ TNl :: joined vs
  end.

(** The preprocessor: C43, C44, C66, C67, C68. *)
From Verif Require Import Prelude MacroModel MacroSpec MacroSkip MacroProofs MacroRun MacroInv MacroEnd MacroTerm MacroHang MacroNest MacroStray MacroBody MacroMain MacroExpand MacroDefine.
Local Open Scope Z_scope.

(** For the examples: two files, expressions which are a number, a sum or a
    comparison. *)
Definition ex_files (f : Z) : option (list token) :=
  if f =? 1 then Some [TKw KInclude; TFile 2; TNl; TKw KInclude; TFile 2; TNl; TKw KInclude; TFile 1; TNl; TChar 7; TNl]
  else if f =? 2 then Some [TChar 8; TNl]
  else if f =? 3 then Some [TKw KIf; TNum 0; TNl; TKw KEndw; TNl; TKw KEndif; TNl]
  else if f =? 4 then Some [TKw KDefine; TName 1; TOpen; TName 2; TChar 41; TNl; TName 1; TOpen; TOpen]
  else if f =? 5 then Some [TKw KDefine; TName 1; TName 1; TNl; TName 1; TNl]
  else if f =? 6 then Some [TKw KEndw; TNl]
  else None.
Definition ex_calc (l : list token) : option Z :=
  match l with
  | [TNum v] => Some v
  | [TNum a; TChar 43; TNum b] => Some (a + b)
  | [TNum a; TChar 60; TNum b] => Some (if a <? b then 1 else 0)
  | _ => None
  end.
Definition ex_stuck (_ : list token) : bool := false.
Definition ex_start : pst := start false [].

(** ** C43: a text of well-nested blocks does what its branches and loops say
    ([does]: the first branch whose condition holds is processed and nothing else
    of the block); the lines, the expressions and the definitions do what they do
    alone. *)
Theorem C43_branches files stuck calc p st st' :
  all_of nested p -> 0 <= p_call st <= 257 -> 0 <= p_incl st <= 32 -> p_mac st = false ->
  do_all (line_does files stuck calc) (value_is files stuck calc) def_does p st st' ->
  exists n, preprocess (lvl files stuck calc n) (text p) st = Ok st'
    /\ forall m st2, preprocess (lvl files stuck calc m) (text p) st = Ok st2 -> st2 = st'.
Proof.
  intros W C I M H. assert (R : ready st) by (split; [split; lia|exact M]).
  destruct (text_processed files stuck calc p st st' W R H) as [n E]. exists n. split; [exact E|].
  intros m st2 E2. apply (preprocess_same files stuck calc m n _ _ _ _ E2 E).
Qed.
Print Assumptions C43_branches.

(** [#if 0 / 1 / #define .. / #endw.. ] is skipped, the first true [#elif] is
    taken with a block inside, the later ones are not looked at. *)
Definition ex_branches : list item :=
  [Cond (GIf [TNum 0]) [Line [TChar 1]; Line [TKw KDefine; TName 1; TNum 5]; Loop [TNum 1] [Line [TChar 1]]]
     [([TNum 2; TChar 60; TNum 1], [Line [TChar 2]]);
      ([TNum 1], [Line [TChar 3]; Cond (GIfdef 1) [Line [TChar 4]] [] (Some [Line [TChar 5]])]);
      ([TChar 33], [Line [TChar 6]])]
     (Some [Line [TChar 7]]);
   Line [TChar 9]].
Example C43_example :
  all_of nested ex_branches /\
  exists st', do_all (line_does ex_files ex_stuck ex_calc) (value_is ex_files ex_stuck ex_calc) def_does ex_branches ex_start st'
    /\ p_out st' = Some [TChar 3; TNl; TChar 5; TNl; TChar 9; TNl] /\ p_err st' = false.
Proof.
  split.
  { cbn. unfold one_line, plain. cbn. repeat split; try reflexivity; try exact Logic.I; intros X; cbn in X; repeat (destruct X as [X|X]; [discriminate X|]); destruct X. }
  assert (L : forall c st, line_does ex_files ex_stuck ex_calc [TChar c] st (print TNl (print (TChar c) st))).
  { intros c st. exists 3%nat. intros rest _. reflexivity. }
  assert (V : forall v st, value_is ex_files ex_stuck ex_calc [TNum v] st v st).
  { intros v st. exists 3%nat. intros rest _. reflexivity. }
  eexists. split; [|split].
  - eapply a_cons; [|eapply a_cons; [apply d_line; apply L|apply a_nil]].
    eapply d_not_taken; [apply (h_if _ _ _ _ _ (V 0 _))|].
    eapply b_not_taken. { exists 5%nat. intros rest _. reflexivity. }
    eapply b_taken; [apply V|discriminate|].
    eapply a_cons; [apply d_line; apply L|]. eapply a_cons; [|apply a_nil].
    eapply d_not_taken; [exact (h_ifdef _ 1 _)|]. apply b_other. eapply a_cons; [apply d_line; apply L|apply a_nil].
  - reflexivity.
  - reflexivity.
Qed.

(** A directive which ends a part of a block, where none of its kind may stand, is
    an error and is left out: what follows it is processed as if it were not there.
    Outside of blocks all five; in the part behind [#if] those of other blocks; in
    the part behind [#else] all but [#endif]. *)
Definition ends_part (k : kw) : bool := match k with KElif | KElse | KEndif | KEndw | KEndm => true | _ => false end.
Theorem C43_misplaced files stuck calc p k l q st st1 st2 :
  all_of nested p -> all_of nested q -> one_line l -> ends_part k = true ->
  0 <= p_call st <= 257 -> 0 <= p_incl st <= 32 -> p_mac st = false ->
  let does := do_all (line_does files stuck calc) (value_is files stuck calc) def_does in
  let gives text st st' := exists n, preprocess (lvl files stuck calc n) text st = Ok st' in
  (does p st st1 -> does q (error_ false DIRECTIVE_WITHOUT st1) st2 ->
   gives (text p ++ TKw k :: l ++ TNl :: text q) st st2)
  /\ (forall e v r st0 st3, one_line e -> all_of nested r -> value_is files stuck calc e st v st0 -> does r st2 st3 ->
     (v <> 0 -> k = KEndw \/ k = KEndm -> does p st0 st1 -> does q (error_ false DIRECTIVE_WITHOUT st1) st2 ->
      gives (TKw KIf :: e ++ TNl :: text p ++ TKw k :: l ++ TNl :: text q ++ TKw KEndif :: TNl :: text r) st st3)
     /\ (forall body, all_of nested body -> v = 0 -> k <> KEndif -> does p st0 st1 ->
        does q (error_ false (match k with KElif | KElse => DIRECTIVE_AFTER | _ => DIRECTIVE_WITHOUT end) st1) st2 ->
        gives (TKw KIf :: e ++ TNl :: text body ++ TKw KElse :: TNl :: text p ++ TKw k :: l ++ TNl :: text q ++ TKw KEndif :: TNl :: text r) st st3)).
Proof.
  intros NP NQ O K C I M does gives. assert (R : ready st) by (split; [split; lia|exact M]).
  assert (CK : closes k = true) by (destruct k; try discriminate K; reflexivity). split; [|intros e v r st0 st3 OE NR V DR; split].
  - intros DP DQ. eapply outside; eassumption.
  - intros NZ KK DP DQ. eapply in_if with (v := v); try eassumption. destruct KK as [-> | ->]; reflexivity.
  - intros body NB -> NK DP DQ. eapply in_else; eassumption.
Qed.
Print Assumptions C43_misplaced.
Example C43_misplaced_example :
  match preprocess (lvl ex_files ex_stuck ex_calc 20)
    [TKw KIf; TNum 0; TNl; TKw KElse; TNl; TChar 1; TNl; TKw KElif; TNum 1; TNl; TChar 2; TNl; TKw KEndif; TNl; TChar 3; TNl] ex_start with
  | Ok st => p_out st = Some [TChar 1; TNl; TChar 2; TNl; TChar 3; TNl] /\ p_err st = true
  | _ => False
  end.
Proof. vm_compute. split; reflexivity. Qed.

(** ** C44: no run, however far it got, has nested more than 257 calls of macros or
    32 inclusions or gone round a loop more than 32769 times. *)
Theorem C44_bounds files stuck calc n l quiet macros :
  within_bounds (p_trace (last_state (sources files stuck calc n l false (start quiet macros)))).
Proof. apply sources_within. apply inv_start. Qed.
Print Assumptions C44_bounds.

(** Every run settles: from some bound on the recursion on nothing changes, and then
    either it is over or it hangs in a call of a macro whose brackets are not closed
    before the end of the text, an error having been reported.
    Partial: the full statement is that every run is over. *)
Theorem C44_settles_partial files stuck calc l quiet macros :
  exists n0 r, (forall n, (n0 <= n)%nat -> sources files stuck calc n l false (start quiet macros) = r)
    /\ ((exists v st, r = Ok (v, st)) \/ (exists st, r = Hang st /\ p_err st = true)).
Proof.
  destruct (sources_settle files stuck calc l false (start quiet macros)) as (n0 & r & E & N); [unfold sane; cbn; lia|].
  exists n0, r. split; [exact E|]. pose proof (hung_sources files stuck calc n0 l false (start quiet macros)) as H.
  rewrite (E n0 (le_n _)) in H. destruct r as [st|st|[v st]]; [contradiction|right; exists st; split; [reflexivity|exact H]|left; eauto].
Qed.
Print Assumptions C44_settles_partial.
(** A macro called with two opening brackets at the end of the text. *)
Theorem C44_over_refuted :
  exists files stuck calc l, forall n, exists st,
    sources files stuck calc n l false (start false []) = Out st \/ sources files stuck calc n l false (start false []) = Hang st.
Proof.
  exists ex_files, ex_stuck, ex_calc, [4]. intros n.
  destruct (C44_settles_partial ex_files ex_stuck ex_calc [4] false []) as (n0 & r & E & _).
  assert (X : exists st, sources ex_files ex_stuck ex_calc 20 [4] false (start false []) = Hang st) by (vm_compute; eauto).
  destruct (sources ex_files ex_stuck ex_calc n [4] false (start false [])) as [st|st|[v st]] eqn:Q; [eauto|eauto|].
  exfalso. destruct X as [st2 X]. cbn [sources] in Q, X. change (false && p_quiet (start false [])) with false in Q, X. cbv iota in Q, X.
  destruct (ex_files 4) as [text|] eqn:F; [|discriminate F].
  set (s0 := event_ (ESource 4) (set_seen (4 :: p_seen (start false [])) (start false []))) in Q, X.
  destruct (preprocess (lvl ex_files ex_stuck ex_calc n) text s0) as [a|a|a] eqn:P1; try discriminate Q.
  destruct (preprocess (lvl ex_files ex_stuck ex_calc 20) text s0) as [b|b|b] eqn:P2; try discriminate X.
  destruct (Nat.le_ge_cases n 20) as [L|L].
  - rewrite (preprocess_more ex_files ex_stuck ex_calc n 20 _ _ _ P1 L) in P2. discriminate.
  - assert (H : preprocess (lvl ex_files ex_stuck ex_calc n) text s0 = Hang b); [|congruence].
    clear -P2 L F. vm_compute in F. injection F as <-.
    replace n with (20 + (n - 20))%nat by lia. set (m := (n - 20)%nat). clearbody m.
    assert (B : b = match preprocess (lvl ex_files ex_stuck ex_calc 20) [TKw KDefine; TName 1; TOpen; TName 2; TChar 41; TNl; TName 1; TOpen; TOpen] s0 with Hang b => b | _ => s0 end) by (rewrite P2; reflexivity).
    rewrite B. vm_compute. reflexivity.
Qed.
Print Assumptions C44_over_refuted.
(** A macro which is its own value: 257 calls, an error. *)
Example C44_example :
  match sources ex_files ex_stuck ex_calc 2000 [5] false (start false []) with
  | Ok (v, st) => v = true /\ p_err st = true
      /\ calls (filter (fun e => match e with ECall _ => true | _ => false end) (p_trace st)) = 257
  | _ => False
  end.
Proof. vm_compute. repeat split. Qed.

(** ** C66: a file which was read, as a source or by [#include], is not read by
    [#include] again. *)
Theorem C66_once files stuck calc n l quiet macros :
  once (p_trace (last_state (sources files stuck calc n l false (start quiet macros)))).
Proof. apply sources_within. apply inv_start. Qed.
Print Assumptions C66_once.
(** File 1 includes 2 twice and itself once: both are read once. *)
Example C66_example :
  match sources ex_files ex_stuck ex_calc 50 [1] false (start false []) with
  | Ok (v, st) => v = false /\ read (p_trace st) = [1; 2] /\ p_out st = Some [TChar 8; TNl; TChar 7; TNl]
  | _ => False
  end.
Proof. vm_compute. repeat split. Qed.
(** Whether every file is read once at all: a source included by a source before it
    is read twice. *)
Theorem C66_sources_refuted :
  exists files stuck calc n l v st, NoDup l /\ sources files stuck calc n l false (start false []) = Ok (v, st) /\ ~ NoDup (read (p_trace st)).
Proof.
  exists ex_files, ex_stuck, ex_calc, 50%nat, [1; 2]. eexists _, _. split; [|split; [vm_compute; reflexivity|]].
  - constructor; [intros [X|[]]; discriminate|]. constructor; [intros []|constructor].
  - vm_compute. intros D. inversion D as [|? ? _ D2]; subst. inversion D2 as [|? ? D3 _]; subst. apply D3. left. reflexivity.
Qed.
Print Assumptions C66_sources_refuted.

(** ** C67: if the preprocessor says it failed, an error was printed; if one was
    printed other than about a skipped branch, it says it failed. *)
Theorem C67_failure_partial files stuck calc n l quiet macros v st :
  sources files stuck calc n l false (start quiet macros) = Ok (v, st) ->
  (v = true -> printed (p_trace st)) /\ (printed_outside (p_trace st) -> v = true).
Proof.
  intros H. destruct (sources_value files stuck calc n l false (start quiet macros) v st) as [A B];
    [unfold sane; cbn; lia|discriminate| |discriminate|exact H|split; assumption].
  intros [[e []]|[f []]].
Qed.
Print Assumptions C67_failure_partial.
(** Whether it says it failed whenever an error was printed. *)
Theorem C67_printed_refuted :
  exists files stuck calc n l st, sources files stuck calc n l false (start false []) = Ok (false, st) /\ printed (p_trace st).
Proof.
  exists ex_files, ex_stuck, ex_calc, 50%nat, [3]. eexists. split; [vm_compute; reflexivity|].
  left. exists true, DIRECTIVE_WITHOUT. vm_compute. tauto.
Qed.
Print Assumptions C67_printed_refuted.
(** A stray [#endw], a missing file. *)
Example C67_example :
  match sources ex_files ex_stuck ex_calc 50 [1; 6; 9] false (start false []) with
  | Ok (v, st) => v = true /\ In (EErr false DIRECTIVE_WITHOUT) (p_trace st) /\ In (ELost 9) (p_trace st)
  | _ => False
  end.
Proof. vm_compute. tauto. Qed.

(** ** C68: names of macros are replaced by their values with the arguments put in.
    Partial: arguments on one line, values without directives. *)
Theorem C68_lines_partial files stuck calc macros lines outs st :
  Forall plain lines -> Forall2 (expands macros (p_call st)) lines outs -> p_macros st = macros ->
  0 <= p_call st <= 257 -> 0 <= p_incl st <= 32 -> p_mac st = false ->
  exists n st', preprocess (lvl files stuck calc n) (text (map Line lines)) st = Ok st'
    /\ after st (flat_map (fun o => o ++ [TNl]) outs) st'.
Proof.
  intros W X M C I Q.
  assert (D : exists st', after st (flat_map (fun o => o ++ [TNl]) outs) st'
    /\ do_all (line_does files stuck calc) (value_is files stuck calc) def_does (map Line lines) st st').
  { clear W C I Q. remember (p_call st) as d eqn:Hd. revert st M Hd. induction X as [|l o lines outs X _ IH]; intros st M Hd.
    - exists st. split; [apply after_refl|apply a_nil].
    - subst d. destruct (line_replaced files stuck calc macros l o st X M) as (st1 & A & L).
      destruct (IH st1) as (st2 & A2 & L2); [rewrite (proj1 A); exact M|destruct A as (_ & _ & A & _); congruence|].
      exists st2. split; [cbn [flat_map]; apply (after_trans _ _ _ _ _ A A2)|]. cbn [map]. eapply a_cons; [apply d_line; exact L|exact L2]. }
  destruct D as (st' & A & D). destruct (C43_branches files stuck calc (map Line lines) st st') as (n & E & _); try assumption.
  { clear -W. induction W as [|l lines W _ IH]; [exact Logic.I|]. split; [exact W|exact IH]. }
  exists n, st'. split; assumption.
Qed.
Print Assumptions C68_lines_partial.
(** The value of a condition is that of what the expression is replaced by. *)
Theorem C68_conditions_partial files stuck calc macros e out v st :
  expands macros (p_call st) e out -> e <> [] -> p_macros st = macros ->
  (forall u w, out = u ++ w -> stuck u = false) -> calc out = Some v ->
  exists st', after st [] st' /\ value_is files stuck calc e st v st'.
Proof. apply value_replaced. Qed.
Print Assumptions C68_conditions_partial.
(** A definition gives the name its value, with the parameters marked. *)
Theorem C68_definitions files stuck calc k n params ps v st :
  k = KDefine \/ k = KSet -> NoDup params -> starts_well params ps -> Forall2 (stands params) ps v ->
  exists st', defined n (length params, v) st st' /\ line_does files stuck calc (TKw k :: TName n :: header params ++ written ps) st st'.
Proof. apply define_line. Qed.
Print Assumptions C68_definitions.
Theorem C68_undefinitions files stuck calc n l st : one_line l ->
  exists st', (find_macro n (p_macros st') = None /\ (forall m, m <> n -> find_macro m (p_macros st') = find_macro m (p_macros st))
     /\ p_out st' = p_out st /\ p_err st' = p_err st)
  /\ line_does files stuck calc (TKw KUndef :: TName n :: l) st st'.
Proof. apply undef_line. Qed.
Print Assumptions C68_undefinitions.
(** [#macro] gives the name the lines up to its [#endm], with the parameters marked;
    blocks in them are kept as they are, and the output is left alone. *)
Theorem C68_macro_values n params body vs st :
  NoDup params -> all_of nested body -> p_mac st = false -> Forall2 (kept params) (flat_map lines_of body) vs ->
  exists st', defined n (length params, joined vs) st st' /\ def_does (TName n :: header params) body st st'.
Proof. intros D W M K. exact (macro_defines params D n body vs st W M K). Qed.
Print Assumptions C68_macro_values.
(** [#macro F(x)], [#ifdef x], [x 7], [#else], [#set y x #], [#endif], [#endm]. *)
Definition ex_body : list item := [Cond (GIfdef 3) [Line [TName 3; TNum 7]] [] (Some [Line [TKw KSet; TName 4; TName 3; THash]])].
Example C68_example_macro :
  NoDup [3] /\ all_of nested ex_body
  /\ Forall2 (kept [3]) (flat_map lines_of ex_body)
      [[TKw KIfdef; TTkp 0]; [TArg 0; TNum 7]; [TKw KElse]; [TKw KSet; TName 4; TArg 0; THash]; [TKw KEndif]]
  /\ joined [[TKw KIfdef; TTkp 0]; [TArg 0; TNum 7]; [TKw KElse]; [TKw KSet; TName 4; TArg 0; THash]; [TKw KEndif]]
     = [TKw KIfdef; TTkp 0; TNl; TArg 0; TNum 7; TNl; TKw KElse; TNl; TKw KSet; TName 4; TArg 0; THash; TNl; TKw KEndif].
Proof.
  split; [constructor; [intros []|constructor]|]. split.
  - assert (Y : forall l, forallb (fun t => negb (is_nl t)) l = true -> one_line l).
    { intros l H X. rewrite forallb_forall in H. specialize (H _ X). discriminate H. }
    cbn. repeat split; try (apply Y; reflexivity).
  - split; [|reflexivity].
    assert (M3 : forall b, marked [3] b (TName 3) (if b then TTkp 0 else TArg 0)) by (intros b; left; exists 0%nat; split; reflexivity).
    assert (M4 : marked [3] false (TName 4) (TName 4)) by (right; split; [intros [X|[]]; discriminate|reflexivity]).
    repeat apply Forall2_cons; try apply Forall2_nil; cbn [guard_text kept complete].
    + split; [eauto|]. split; [repeat constructor|]. eexists; split; [reflexivity|]. repeat apply Forall2_cons; [apply (M3 true)|apply Forall2_nil].
    + split; [repeat constructor|]. repeat apply Forall2_cons; [apply (M3 false)|reflexivity|apply Forall2_nil].
    + split; [exact Logic.I|]. split; [constructor|]. eexists; split; [reflexivity|constructor].
    + split; [eauto|]. split; [exact Logic.I|]. eexists; split; [reflexivity|]. repeat apply Forall2_cons; [exact M4|apply (M3 false)|reflexivity|apply Forall2_nil].
    + split; [exact Logic.I|]. split; [constructor|]. eexists; split; [reflexivity|constructor].
Qed.
(** [#define F(x, y) x #y ##x] and [#define G 5]; [F(G, (1, 2)) G]. *)
Definition ex_macros : list (Z * (nat * list token)) := [(1, (2%nat, [TArg 0; TStr 1; TTkp 0])); (2, (O, [TNum 5]))].
Example C68_example_definition :
  NoDup [3; 4] /\ starts_well [3; 4] [Tok (TName 3); Quote 4; Paste 3]
  /\ Forall2 (stands [3; 4]) [Tok (TName 3); Quote 4; Paste 3] [TArg 0; TStr 1; TTkp 0].
Proof.
  split; [|split; [exact Logic.I|]].
  - constructor; [intros [X|[]]; discriminate|]. constructor; [intros []|constructor].
  - repeat constructor; [exists 0%nat; split; reflexivity|exists 1%nat; split; reflexivity|exists 0%nat; split; reflexivity].
Qed.
Example C68_example_call :
  expands ex_macros 0
    [TName 1; TOpen; TName 2; TChar 44; TChar 40; TNum 1; TChar 44; TNum 2; TChar 41; TChar 41; TName 2]
    [TNum 5; TString [TChar 40; TNum 1; TChar 44; TNum 2; TChar 41]; TNum 5; TNum 5].
Proof.
  assert (G : forall d, expands ex_macros d [TNum 5] [TNum 5]).
  { intros d. apply x_token; try reflexivity; [discriminate|]. apply x_nil. }
  assert (N : forall d, d <= 256 -> expands ex_macros d [TName 2] [TNum 5]).
  { intros d L. apply (x_name ex_macros d 2 [TNum 5] [] [TNum 5] []); try reflexivity; [exact L|apply G|apply x_nil]. }
  apply (x_call ex_macros 0 1 1 [TArg 0; TStr 1; TTkp 0]
    [[TName 2]; [TChar 40; TNum 1; TChar 44; TNum 2; TChar 41]] [[TNum 5]; [TChar 40; TNum 1; TChar 44; TNum 2; TChar 41]]
    TOpen [TName 2] [TNum 5; TString [TChar 40; TNum 1; TChar 44; TNum 2; TChar 41]; TNum 5] [TNum 5]); try reflexivity; try lia.
  - repeat constructor.
  - repeat constructor; try discriminate. apply N. lia.
  - cbn. apply x_token; try reflexivity; [discriminate|]. apply x_token; try reflexivity; [discriminate|]. apply N. lia.
  - apply N. lia.
Qed.

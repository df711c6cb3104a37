(** Blocks, branches and loops are processed as they are nested. *)
From Verif Require Import Prelude MacroModel MacroSpec MacroSkip MacroProofs MacroRun MacroInv.
Local Open Scope Z_scope.

Lemma calm_kw k s : calm (TKw k :: s). Proof. exact eq_refl. Qed.
Lemma calm_item i rest : nested i -> calm rest -> calm (text_of i ++ rest).
Proof.
  destruct i as [l|g body elifs other|e body|h body]; cbn [nested text_of]; intros W C; try exact eq_refl.
  - rewrite <- app_assoc. destruct W as [W1 W2]. destruct l as [|t l]; [exact C|].
    destruct t; try exact W2; try exact eq_refl. exfalso. apply W1. left. reflexivity.
  - destruct g; exact eq_refl.
Qed.
Lemma calm_text p rest : all_of nested p -> calm rest -> calm (text p ++ rest).
Proof.
  induction p as [|i p IH]; cbn [all_of fold_right text flat_map app]; intros W C; [exact C|].
  rewrite <- app_assoc. apply calm_item; [apply W|]. apply IH; [apply W|exact C].
Qed.
Lemma nested_all_passed params p : all_of nested p -> Forall (passed params) p.
Proof. intros W. apply all_of_Forall in W. eapply Forall_impl; [|exact W]. intros i. apply nested_passed. Qed.

Lemma silent_body b p k rest st : p_mac st = false -> all_of nested p -> closes k = true -> parse_next (Some b) k = true ->
  skip_silent b (text p ++ TKw k :: rest) st = Ok (Some k, rest, st).
Proof.
  intros M W C N. unfold skip_silent.
  destruct (passed_body [] p b k rest (set_out None st) (nested_all_passed [] p W)) as [n E]; [split; [exact M|reflexivity]|exact C|exact N|].
  rewrite (skip_block_fuel _ _ _ _ _ _ E). destruct st; reflexivity.
Qed.
Lemma closes_goes k : goes_on k = true -> closes k = true.
Proof. destruct k; try discriminate; reflexivity. Qed.
Lemma next_goes b k : opens_if b = true -> goes_on k = true -> parse_next (Some b) k = true.
Proof. intros H G. cbn [parse_next]. rewrite H, G. reflexivity. Qed.
Lemma branches_cons e b elifs other rest :
  branches ((e, b) :: elifs) other ++ rest = TKw KElif :: e ++ TNl :: text b ++ branches elifs other ++ rest.
Proof. unfold branches. cbn [flat_map app]. rewrite <- !app_assoc. do 4 (cbn [app]; rewrite <- ?app_assoc). reflexivity. Qed.
Lemma branches_other b rest : branches [] (Some b) ++ rest = TKw KElse :: TNl :: text b ++ TKw KEndif :: TNl :: rest.
Proof. unfold branches. cbn [flat_map app]. rewrite <- !app_assoc. reflexivity. Qed.
Lemma branches_none rest : branches [] None ++ rest = TKw KEndif :: TNl :: rest.
Proof. reflexivity. Qed.
Lemma skip_dir_line l rest : one_line l -> skip_dir (l ++ TNl :: rest) = rest.
Proof. intros H. unfold skip_dir. rewrite skip_directive_line by exact H. reflexivity. Qed.
Lemma skip_dir_nl s : skip_dir (TNl :: s) = s.
Proof. reflexivity. Qed.
Definition nested_elifs (elifs : list (list token * list item)) : Prop := all_of (fun '(e, b) => one_line e /\ all_of nested b) elifs.
Definition nested_other (other : option (list item)) : Prop := match other with None => True | Some b => all_of nested b end.

Lemma rest_branches elifs other rest st : p_mac st = false -> nested_elifs elifs -> nested_other other ->
  exists k s, branches elifs other ++ rest = TKw k :: s /\ goes_on k = true
    /\ forall n, (length s < n)%nat -> skip_rest n (Some k) s st = Ok (Some KEndif, TNl :: rest, st).
Proof.
  intros M W O. induction elifs as [|[e b] elifs IH].
  - destruct other as [b|].
    + rewrite branches_other. eexists KElse, _. split; [reflexivity|]. split; [reflexivity|]. intros n L.
      destruct n as [|n]; [lia|]. cbn [skip_rest].
      rewrite skip_dir_nl.
      rewrite silent_body; [|exact M|exact O|reflexivity|reflexivity]. cbn [rbind]. destruct n; reflexivity.
    + exists KEndif, (TNl :: rest). split; [reflexivity|]. split; [reflexivity|]. intros n _. destruct n; reflexivity.
  - destruct W as [[W1 W2] W3]. destruct (IH W3) as (k & s & E & G & Q). rewrite branches_cons, E.
    eexists KElif, _. split; [reflexivity|]. split; [reflexivity|]. intros n L. destruct n as [|n]; [lia|].
    cbn [skip_rest]. rewrite skip_dir_line by exact W1.
    rewrite silent_body; [|exact M|exact W2|apply closes_goes; exact G|apply next_goes; [reflexivity|exact G]].
    cbn [rbind]. apply Q. rewrite app_length in L. cbn [length] in L. rewrite app_length in L. cbn [length] in L. lia.
Qed.

Section Oracles.
Variable files : Z -> option (list token).
Variable stuck : list token -> bool.
Variable calc : list token -> option Z.
Notation step := (step files stuck calc).
Notation lvl := (lvl files stuck calc).

(** A line, an expression and a definition alone, whatever follows. *)
Definition line_does (l : list token) (st st' : pst) : Prop :=
  exists n, forall rest, calm rest -> line_step files (lvl n) (l ++ TNl :: rest) st = Ok (rest, st').
Definition value_is (e : list token) (st : pst) (v : Z) (st' : pst) : Prop :=
  exists n, forall rest, calm rest -> parse_expression (lvl n) (e ++ TNl :: rest) st = Ok (v, TNl :: rest, st').
Definition def_does (h : list token) (body : list item) (st st' : pst) : Prop :=
  forall rest, parse_macro (h ++ TNl :: text body ++ TKw KEndm :: TNl :: rest) st = Ok (rest, st').

Definition ready (st : pst) : Prop := sane st /\ p_mac st = false.
Lemma ready_ext st st' : ext st st' -> ready st -> ready st'.
Proof.
  intros X [S M]. split; [apply ext_sane with (st := st); assumption|]. destruct X as [u X]. rewrite (e_mac _ _ _ X). exact M.
Qed.
Lemma ready_error m e st : ready st -> ready (error_ m e st).
Proof. intros R. apply ready_ext with (st := st); [apply ext_error; apply R|exact R]. Qed.
Lemma ready_line l st st' : line_does l st st' -> ready st -> ready st'.
Proof.
  intros [n H] R. specialize (H [] Logic.I). apply ready_ext with (st := st); [|exact R].
  pose proof (line_ok files stuck calc (lvl n) (good_lvl files stuck calc n) (l ++ [TNl]) st (proj1 R)) as G. rewrite H in G. exact G.
Qed.
Lemma ready_value e st v st' : value_is e st v st' -> ready st -> ready st'.
Proof.
  intros [n H] R. specialize (H [] Logic.I). apply ready_ext with (st := st); [|exact R].
  pose proof (expression_ok files stuck calc (lvl n) (good_lvl files stuck calc n) (e ++ [TNl]) st (proj1 R)) as G. rewrite H in G. exact G.
Qed.
Lemma ready_def h b st st' : def_does h b st st' -> ready st -> ready st'.
Proof.
  intros H R. specialize (H []). apply ready_ext with (st := st); [|exact R].
  pose proof (macro_ok files stuck calc (lvl O) (good_lvl files stuck calc O) (h ++ TNl :: text b ++ [TKw KEndm; TNl]) st (proj1 R)) as G. rewrite H in G. exact G.
Qed.

(** The loop of the block goes on from there. *)
Definition reach (b : option kw) (s : list token) (st : pst) (s' : list token) (st' : pst) : Prop :=
  forall n r, f_block (lvl n) b s' st' = Ok r -> exists m, f_block (lvl m) b s st = Ok r.
Lemma block_more n m b s st r : f_block (lvl n) b s st = Ok r -> (n <= m)%nat -> f_block (lvl m) b s st = Ok r.
Proof. intros H L. eapply le_ok; [|exact H]. apply le_block. apply le_lvl. exact L. Qed.
Lemma elif_more n m s st r : f_elif (lvl n) s st = Ok r -> (n <= m)%nat -> f_elif (lvl m) s st = Ok r.
Proof. intros H L. eapply le_ok; [|exact H]. apply le_elif. apply le_lvl. exact L. Qed.
Lemma while_more n m b s w i st r : f_while (lvl n) b s w i st = Ok r -> (n <= m)%nat -> f_while (lvl m) b s w i st = Ok r.
Proof. intros H L. eapply le_ok; [|exact H]. apply le_while. apply le_lvl. exact L. Qed.
Lemma expression_more n m s st r : parse_expression (lvl n) s st = Ok r -> (n <= m)%nat -> parse_expression (lvl m) s st = Ok r.
Proof.
  unfold parse_expression. destruct (at_end s); [intros H _; exact H|]. intros H L. eapply le_ok; [|exact H]. apply le_expr. apply le_lvl. exact L.
Qed.

Definition all_reach (p : list item) (st st' : pst) : Prop :=
  forall b rest, calm rest -> reach b (text p ++ rest) st rest st'.
(** A body up to the keyword which ends it. *)
Lemma body_at p b k s st st' : all_reach p st st' -> closes k = true -> parse_next b k = true ->
  exists n, f_block (lvl n) b (text p ++ TKw k :: s) st = Ok (Some k, s, st').
Proof.
  intros H C N. apply (H b (TKw k :: s) (calm_kw k s) 1%nat). cbn [MacroModel.lvl f_block MacroModel.step]. unfold block_step. cbn [parse_directive].
  destruct k; try discriminate C; rewrite N; reflexivity.
Qed.
Lemma elif_taken e v b elifs other rest st st1 st' :
  one_line e -> all_of nested b -> nested_elifs elifs -> nested_other other -> p_mac st' = false ->
  value_is e st v st1 -> v <> 0 -> all_reach b st1 st' ->
  exists n, f_elif (lvl n) (e ++ TNl :: text b ++ branches elifs other ++ rest) st = Ok (Some KEndif, TNl :: rest, st').
Proof.
  intros O1 NB NE NO M [n1 V] NZ H. destruct (rest_branches elifs other rest st' M NE NO) as (k & s & E & G & Q). rewrite E.
  destruct (body_at b (Some KElif) k s st1 st' H (closes_goes _ G) (next_goes KElif k eq_refl G)) as [n2 B].
  exists (S (Nat.max n1 n2)). cbn [MacroModel.lvl f_elif MacroModel.step]. unfold elif_step.
  rewrite (expression_more n1 (Nat.max n1 n2) _ _ _ (V _ (calm_text b _ NB (calm_kw k s)))) by lia. cbn [rbind].
  destruct (v =? 0) eqn:Z; [lia|]. cbn [negb]. rewrite skip_dir_nl.
  rewrite (block_more n2 (Nat.max n1 n2) _ _ _ _ B) by lia. cbn [rbind]. apply Q. lia.
Qed.
Definition goes_after (n : nat) (k : kw) (s : list token) (st : pst) : res (option kw * list token * pst) :=
  match k with
  | KElse => f_block (lvl n) (Some KElse) (skip_dir s) st
  | KElif => f_elif (lvl n) s st
  | _ => Ok (Some k, s, st)
  end.
Lemma after_more n m k s st r : goes_after n k s st = Ok r -> (n <= m)%nat -> goes_after m k s st = Ok r.
Proof. unfold goes_after. destruct k; try (intros H _; exact H); [apply elif_more|apply block_more]. Qed.
Definition branches_reach elifs other (st st' : pst) : Prop :=
  forall rest, calm rest -> exists k s, branches elifs other ++ rest = TKw k :: s /\ goes_on k = true
    /\ exists n, goes_after n k s st = Ok (Some KEndif, TNl :: rest, st').
Lemma elif_not_taken e b elifs other rest st st1 st' :
  one_line e -> all_of nested b -> p_mac st1 = false -> calm rest ->
  value_is e st 0 st1 -> branches_reach elifs other st1 st' ->
  exists n, f_elif (lvl n) (e ++ TNl :: text b ++ branches elifs other ++ rest) st = Ok (Some KEndif, TNl :: rest, st').
Proof.
  intros O1 NB M C [n1 V] H. destruct (H rest C) as (k & s & E & G & n2 & Q). rewrite E.
  exists (S (Nat.max n1 n2)). cbn [MacroModel.lvl f_elif MacroModel.step]. unfold elif_step.
  rewrite (expression_more n1 (Nat.max n1 n2) _ _ _ (V _ (calm_text b _ NB (calm_kw k s)))) by lia. cbn [rbind Z.eqb negb].
  rewrite skip_dir_nl.
  rewrite silent_body; [|exact M|exact NB|apply closes_goes; exact G|apply next_goes; [reflexivity|exact G]]. cbn [rbind].
  apply (after_more n2 (Nat.max n1 n2)) in Q; [|lia]. destruct k; try discriminate G; exact Q.
Qed.
(** What the loop of a block does with one thing. *)
Lemma reach_go b (x : nat -> res (list token * pst)) s s' st st' :
  (forall n, f_block (lvl (S n)) b s st = (run ' (s, st) <- x n; f_block (lvl n) b s st)) ->
  (exists n, forall m, (n <= m)%nat -> x m = Ok (s', st')) -> reach b s st s' st'.
Proof.
  intros H [n X] m r R. exists (S (Nat.max n m)). rewrite H, X by lia. cbn [rbind]. apply (block_more m); [exact R|lia].
Qed.

Definition item_reach (i : item) (st st' : pst) : Prop :=
  forall b rest, calm rest -> reach b (text_of i ++ rest) st rest st'.
Lemma line_more n m s st r : line_step files (lvl n) s st = Ok r -> (n <= m)%nat -> line_step files (lvl m) s st = Ok r.
Proof. intros H L. eapply le_ok; [|exact H]. apply (le_line_step files stuck calc). apply le_lvl. exact L. Qed.
Lemma line_reach l st st' : plain l -> line_does l st st' -> item_reach (Line l) st st'.
Proof.
  intros [W1 W2] [n H] b rest C. cbn [text_of]. rewrite <- app_assoc. cbn [app].
  apply reach_go with (x := fun n => line_step files (lvl n) (l ++ TNl :: rest) st).
  - intros m. cbn [MacroModel.lvl f_block MacroModel.step]. unfold block_step. destruct l as [|t l]; [reflexivity|]. cbn [app].
    destruct t; try reflexivity. cbn [parse_directive]. destruct k; try discriminate W2; reflexivity.
  - exists n. intros m L. apply (line_more n); [apply H; exact C|exact L].
Qed.
Lemma def_reach h body st st' : def_does h body st st' -> item_reach (Def h body) st st'.
Proof.
  intros H b rest C. cbn [text_of]. apply reach_go with (x := fun _ => parse_macro (h ++ TNl :: text body ++ TKw KEndm :: TNl :: rest) st).
  - intros m. cbn [app MacroModel.lvl f_block MacroModel.step]. unfold block_step. cbn [parse_directive].
    rewrite <- !app_assoc. do 4 (cbn [app]; rewrite <- ?app_assoc). reflexivity.
  - exists O. intros m _. apply H.
Qed.
Lemma text_cond g body elifs other rest :
  text_of (Cond g body elifs other) ++ rest = guard_text g ++ TNl :: text body ++ branches elifs other ++ rest.
Proof. cbn [text_of]. unfold branches, text. rewrite <- !app_assoc. do 4 (cbn [app]; rewrite <- ?app_assoc). reflexivity. Qed.
Lemma if_reach e body elifs other st st' :
  (forall rest, calm rest -> exists n, f_elif (lvl n) (e ++ TNl :: text body ++ branches elifs other ++ rest) st = Ok (Some KEndif, TNl :: rest, st')) ->
  item_reach (Cond (GIf e) body elifs other) st st'.
Proof.
  intros H b rest C. rewrite text_cond. cbn [guard_text app].
  apply reach_go with (x := fun n => parse_if (lvl n) (e ++ TNl :: text body ++ branches elifs other ++ rest) st); [reflexivity|].
  destruct (H rest C) as [n E]. exists n. intros m L. unfold parse_if. rewrite (elif_more n m _ _ _ E L). reflexivity.
Qed.
Lemma ifdef_reach g nm body elifs other st st' (k0 := match g with GIfdef _ => KIfdef | _ => KIfndef end) (res_ : bool) :
  (g = GIfdef nm \/ g = GIfndef nm) -> holds value_is g st res_ st ->
  all_of nested body -> nested_elifs elifs -> nested_other other -> ready st -> p_mac st' = false ->
  (if res_ then all_reach body st st' else branches_reach elifs other st st') ->
  item_reach (Cond g body elifs other) st st'.
Proof.
  intros GG HH NB NE NO RD M H b rest C. rewrite text_cond.
  apply reach_go with (x := fun n => parse_ifdef_ifndef (lvl n) k0 (TName nm :: TNl :: text body ++ branches elifs other ++ rest) st).
  { intros n. subst k0. destruct GG as [-> | ->]; reflexivity. }
  assert (OI : opens_if k0 = true) by (subst k0; destruct g; reflexivity).
  set (found := match find_macro nm (p_macros st) with Some _ => true | None => false end).
  assert (CC : ((match k0 with KIfdef => true | _ => false end && found) || (match k0 with KIfndef => true | _ => false end && negb found)) = res_).
  { subst k0 found. destruct GG as [-> | ->]; inversion HH; subst; destruct (find_macro nm (p_macros st)); reflexivity. }
  destruct res_.
  - destruct (rest_branches elifs other rest st' M NE NO) as (k & s & E & G & Q). rewrite E.
    destruct (body_at body (Some k0) k s st st' H (closes_goes _ G) (next_goes _ _ OI G)) as [n B].
    exists n. intros m L. unfold parse_ifdef_ifndef. cbv zeta. fold found. rewrite CC.
    rewrite skip_dir_nl. rewrite (block_more n m _ _ _ _ B L). cbn [rbind]. rewrite Q by lia. reflexivity.
  - destruct (H rest C) as (k & s & E & G & n & Q). rewrite E.
    exists n. intros m L. unfold parse_ifdef_ifndef. cbv zeta. fold found. rewrite CC.
    rewrite skip_dir_nl.
    rewrite silent_body; [|apply RD|exact NB|apply closes_goes; exact G|apply next_goes; [exact OI|exact G]]. cbn [rbind].
    apply (after_more n m) in Q; [|exact L].
    assert (X : (match k with KElif => f_elif (lvl m) s st | KElse => f_block (lvl m) (Some KElse) (skip_dir s) st | _ => Ok (Some k, s, st) end)
                = Ok (Some KEndif, TNl :: rest, st')) by (destruct k; try discriminate G; exact Q).
    destruct k; try discriminate G; rewrite X; reflexivity.
Qed.
Lemma text_loop e body rest : text_of (Loop e body) ++ rest = TKw KWhile :: e ++ TNl :: text body ++ TKw KEndw :: TNl :: rest.
Proof. cbn [text_of]. unfold text. cbn [app]. rewrite <- !app_assoc. do 4 (cbn [app]; rewrite <- ?app_assoc). reflexivity. Qed.
Definition rounds_reach e body was k (st st' : pst) : Prop :=
  forall rest, calm rest -> exists n,
    f_while (lvl n) (e ++ TNl :: text body ++ TKw KEndw :: TNl :: rest) (TNl :: text body ++ TKw KEndw :: TNl :: rest) was (k - 1) st = Ok (rest, st').
Lemma no_round e body st st' : one_line e -> all_of nested body -> ready st' -> value_is e st 0 st' -> item_reach (Loop e body) st st'.
Proof.
  intros O NB RD [n V] b rest C. rewrite text_loop.
  apply reach_go with (x := fun n => parse_while (lvl n) (e ++ TNl :: text body ++ TKw KEndw :: TNl :: rest) st); [reflexivity|].
  exists n. intros m L. unfold parse_while. rewrite (expression_more n m _ _ _ (V _ (calm_text body _ NB (calm_kw _ _))) L). cbn [rbind Z.eqb].
  rewrite skip_dir_nl. rewrite silent_body; [|apply RD|exact NB|reflexivity|reflexivity]. reflexivity.
Qed.
Lemma some_rounds e body v st st1 st' : one_line e -> all_of nested body -> value_is e st v st1 -> v <> 0 ->
  rounds_reach e body (p_err st1) 1 (event_ ELoop (set_err (p_quiet st1 && p_err st1) st1)) st' -> item_reach (Loop e body) st st'.
Proof.
  intros O NB [n1 V] NZ H b rest C. rewrite text_loop.
  apply reach_go with (x := fun n => parse_while (lvl n) (e ++ TNl :: text body ++ TKw KEndw :: TNl :: rest) st); [reflexivity|].
  destruct (H rest C) as [n2 Q]. exists (Nat.max n1 n2). intros m L. unfold parse_while.
  rewrite (expression_more n1 m _ _ _ (V _ (calm_text body _ NB (calm_kw _ _)))) by lia. cbn [rbind].
  destruct (v =? 0) eqn:Z; [lia|]. apply (while_more n2 m) in Q; [|lia]. exact Q.
Qed.
End Oracles.

Scheme does_m := Minimality for does Sort Prop
with branches_m := Minimality for do_branches Sort Prop
with rounds_m := Minimality for rounds Sort Prop
with all_m := Minimality for do_all Sort Prop.
Combined Scheme does_mutual from does_m, branches_m, rounds_m, all_m.

Section Main.
Variable files : Z -> option (list token).
Variable stuck : list token -> bool.
Variable calc : list token -> option Z.
Notation lvl := (lvl files stuck calc).
Notation line_does := (line_does files stuck calc).

Lemma holds_ready g st r st1 : holds (MacroNest.value_is files stuck calc) g st r st1 -> ready st -> ready st1.
Proof. intros H R. inversion H; subst; try exact R. apply (ready_value files stuck calc e st v); assumption. Qed.

Lemma processed :
  (forall i st st', does line_does (MacroNest.value_is files stuck calc) def_does i st st' ->
     nested i -> ready st -> ready st' /\ item_reach files stuck calc i st st')
  /\ (forall elifs other st st', do_branches line_does (MacroNest.value_is files stuck calc) def_does elifs other st st' ->
     nested_elifs elifs -> nested_other other -> ready st -> ready st' /\ branches_reach files stuck calc elifs other st st')
  /\ (forall e body was k st st', rounds line_does (MacroNest.value_is files stuck calc) def_does e body was k st st' ->
     one_line e -> all_of nested body -> ready st -> ready st' /\ rounds_reach files stuck calc e body was k st st')
  /\ (forall p st st', do_all line_does (MacroNest.value_is files stuck calc) def_does p st st' ->
     all_of nested p -> ready st -> ready st' /\ all_reach files stuck calc p st st').
Proof.
  apply does_mutual.
  - intros l st st' H W R. split; [apply (ready_line files stuck calc l st); assumption|apply line_reach; assumption].
  - intros g body elifs other st st1 st' HH _ IH (W1 & W2 & W3 & W4) R.
    assert (R1 : ready st1) by (apply (holds_ready _ _ _ _ HH R)). destruct (IH W2 R1) as [R' B]. split; [exact R'|].
    inversion HH; subst.
    + apply if_reach. intros rest C. apply elif_taken with (v := v) (st1 := st1); try assumption; [apply R'|].
      intros ->. match goal with X : negb _ = true |- _ => discriminate X end.
    + apply ifdef_reach with (nm := n) (res_ := true); try assumption; [left; reflexivity|apply R'].
    + apply ifdef_reach with (nm := n) (res_ := true); try assumption; [right; reflexivity|apply R'].
  - intros g body elifs other st st1 st' HH _ IH (W1 & W2 & W3 & W4) R.
    assert (R1 : ready st1) by (apply (holds_ready _ _ _ _ HH R)). destruct (IH W3 W4 R1) as [R' B]. split; [exact R'|].
    inversion HH; subst.
    + apply if_reach. intros rest C. apply elif_not_taken with (st1 := st1); try assumption; [apply R1|].
      match goal with X : negb _ = false |- _ => apply negb_false_iff in X; apply Z.eqb_eq in X; subst end. assumption.
    + apply ifdef_reach with (nm := n) (res_ := false); try assumption; [left; reflexivity|apply R'].
    + apply ifdef_reach with (nm := n) (res_ := false); try assumption; [right; reflexivity|apply R'].
  - intros e body st st' V [W1 W2] R. assert (R' : ready st') by (apply (ready_value files stuck calc e st 0); assumption).
    split; [exact R'|]. apply no_round; assumption.
  - intros e body st v st1 st' V NZ _ IH [W1 W2] R.
    assert (R1 : ready st1) by (apply (ready_value files stuck calc e st v); assumption).
    destruct (IH W1 W2) as [R' B]; [exact R1|]. split; [exact R'|].
    apply some_rounds with (v := v) (st1 := st1); assumption.
  - intros h body st st' H [W1 W2] R. split; [apply (ready_def files stuck calc h body st); assumption|apply def_reach; assumption].
  - intros st _ _ R. split; [exact R|]. intros rest C. exists KEndif, (TNl :: rest). split; [reflexivity|]. split; [reflexivity|].
    exists O. reflexivity.
  - intros b st st' _ IH _ O R. destruct (IH O R) as [R' B]. split; [exact R'|]. intros rest C.
    rewrite branches_other. eexists KElse, _. split; [reflexivity|]. split; [reflexivity|].
    destruct (body_at files stuck calc b (Some KElse) KEndif (TNl :: rest) st st' B eq_refl eq_refl) as [n E]. exists n. cbn [goes_after].
    rewrite skip_dir_nl. exact E.
  - intros e b elifs other st v st1 st' V NZ _ IH [[W1 W2] W3] O R.
    assert (R1 : ready st1) by (apply (ready_value files stuck calc e st v); assumption).
    destruct (IH W2 R1) as [R' B]. split; [exact R'|]. intros rest C. rewrite branches_cons. eexists KElif, _.
    split; [reflexivity|]. split; [reflexivity|]. cbn [goes_after]. apply elif_taken with (v := v) (st1 := st1); try assumption. apply R'.
  - intros e b elifs other st st1 st' V _ IH [[W1 W2] W3] O R.
    assert (R1 : ready st1) by (apply (ready_value files stuck calc e st 0); assumption).
    destruct (IH W3 O R1) as [R' B]. split; [exact R'|]. intros rest C. rewrite branches_cons. eexists KElif, _.
    split; [reflexivity|]. split; [reflexivity|]. cbn [goes_after]. apply elif_not_taken with (st1 := st1); try assumption. apply R1.
  - intros e body was k st st1 _ IH K W1 W2 R. destruct (IH W2 R) as [R1 B]. split; [exact (ready_error _ _ _ R1)|].
    intros rest C. destruct (body_at files stuck calc body (Some KWhile) KEndw (TNl :: rest) _ _ B eq_refl eq_refl) as [n E].
    exists (S n). cbn [MacroModel.lvl f_while step]. unfold while_step. rewrite skip_dir_nl, E. cbn [rbind].
    replace (k - 1 + 1) with k by lia. destruct (k >? MAX_ITERATION) eqn:Z; [reflexivity|unfold MAX_ITERATION in Z; lia].
  - intros e body was k st st1 _ IH K PE W1 W2 R. destruct (IH W2 R) as [R1 B]. split; [exact R1|].
    intros rest C. destruct (body_at files stuck calc body (Some KWhile) KEndw (TNl :: rest) _ _ B eq_refl eq_refl) as [n E].
    exists (S n). cbn [MacroModel.lvl f_while step]. unfold while_step. rewrite skip_dir_nl, E. cbn [rbind].
    replace (k - 1 + 1) with k by lia. destruct (k >? MAX_ITERATION) eqn:Z; [unfold MAX_ITERATION in Z; lia|]. rewrite PE. reflexivity.
  - intros e body was k st st1 st2 _ IH K PE V W1 W2 R. destruct (IH W2 R) as [R1 B].
    assert (R2 : ready st2) by (apply (ready_value files stuck calc e st1 0); assumption). split; [exact R2|].
    intros rest C. destruct (body_at files stuck calc body (Some KWhile) KEndw (TNl :: rest) _ _ B eq_refl eq_refl) as [n E].
    destruct V as [n1 V]. exists (S (Nat.max n n1)). cbn [MacroModel.lvl f_while step]. unfold while_step.
    rewrite skip_dir_nl, (block_more files stuck calc n (Nat.max n n1) _ _ _ _ E) by lia. cbn [rbind].
    replace (k - 1 + 1) with k by lia. destruct (k >? MAX_ITERATION) eqn:Z; [unfold MAX_ITERATION in Z; lia|]. rewrite PE.
    rewrite (expression_more files stuck calc n1 (Nat.max n n1) _ _ _ (V _ (calm_text body _ W2 (calm_kw _ _)))) by lia. reflexivity.
  - intros e body was k st st1 v st2 st' _ IH K PE V NZ _ IH2 W1 W2 R. destruct (IH W2 R) as [R1 B].
    assert (R2 : ready st2) by (apply (ready_value files stuck calc e st1 v); assumption).
    destruct (IH2 W1 W2 R2) as [R' B2]. split; [exact R'|].
    intros rest C. destruct (body_at files stuck calc body (Some KWhile) KEndw (TNl :: rest) _ _ B eq_refl eq_refl) as [n E].
    destruct V as [n1 V]. destruct (B2 rest C) as [n2 E2]. set (m := Nat.max n (Nat.max n1 n2)).
    exists (S m). cbn [MacroModel.lvl f_while step]. unfold while_step.
    rewrite skip_dir_nl, (block_more files stuck calc n m _ _ _ _ E) by lia. cbn [rbind].
    replace (k - 1 + 1) with k by lia. destruct (k >? MAX_ITERATION) eqn:Z; [unfold MAX_ITERATION in Z; lia|]. rewrite PE.
    rewrite (expression_more files stuck calc n1 m _ _ _ (V _ (calm_text body _ W2 (calm_kw _ _)))) by lia. cbn [rbind].
    destruct (v =? 0) eqn:Y; [lia|]. apply (while_more files stuck calc n2 m) in E2; [|lia].
    replace (k + 1 - 1) with k in E2 by lia. exact E2.
  - intros st W R. split; [exact R|]. intros b rest C n r H. exists n. exact H.
  - intros i p st st1 st' _ IH1 _ IH2 [W1 W2] R. destruct (IH1 W1 R) as [R1 B1]. destruct (IH2 W2 R1) as [R' B2]. split; [exact R'|].
    intros b rest C n r H. cbn [text flat_map]. rewrite <- app_assoc.
    destruct (B2 b rest C n r H) as [m G]. apply (B1 b _ (calm_text p rest W2 C) m r G).
Qed.

Lemma text_processed p st st' : all_of nested p -> ready st ->
  do_all line_does (MacroNest.value_is files stuck calc) def_does p st st' ->
  exists n, preprocess (lvl n) (text p) st = Ok st'.
Proof.
  intros W R H. destruct (proj2 (proj2 (proj2 processed)) p st st' H W R) as [_ B].
  destruct (B None [] Logic.I 1%nat (None, [], st')) as [m E]; [reflexivity|]. exists m. unfold preprocess.
  rewrite app_nil_r in E. rewrite E. reflexivity.
Qed.
Lemma preprocess_same n m text st a b :
  preprocess (lvl n) text st = Ok a -> preprocess (lvl m) text st = Ok b -> a = b.
Proof.
  unfold preprocess. intros H G.
  destruct (f_block (lvl n) None text st) as [x|x|[[k s] st1]] eqn:E; try discriminate. cbn in H.
  destruct (f_block (lvl m) None text st) as [x|x|[[k2 s2] st2]] eqn:F; try discriminate. cbn in G.
  apply (block_more files stuck calc n (Nat.max n m)) in E; [|lia]. apply (block_more files stuck calc m (Nat.max n m)) in F; [|lia]. congruence.
Qed.
End Main.

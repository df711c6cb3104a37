(** Directives which end a part of a block and stand where they do not belong. *)
From Verif Require Import Prelude MacroModel MacroSpec MacroSkip MacroProofs MacroRun MacroInv MacroNest.
Local Open Scope Z_scope.

Section Stray.
Variable files : Z -> option (list token).
Variable stuck : list token -> bool.
Variable calc : list token -> option Z.
Notation lvl := (lvl files stuck calc).
Notation line_does := (line_does files stuck calc).
Notation value_is := (MacroNest.value_is files stuck calc).
Notation reach := (reach files stuck calc).
Notation do_all := (do_all line_does value_is def_does).

Lemma reach_trans b s st s1 st1 s2 st2 : reach b s st s1 st1 -> reach b s1 st1 s2 st2 -> reach b s st s2 st2.
Proof. intros A B n r H. destruct (B n r H) as [m G]. exact (A m r G). Qed.
Lemma skip_dir_line l rest : one_line l -> skip_dir (l ++ TNl :: rest) = rest.
Proof.
  intros O. unfold skip_dir, skip_directive. induction l as [|t l IH]; [reflexivity|]. cbn [app line_end].
  assert (is_nl t = false) as ->.
  { destruct t; try reflexivity. exfalso. apply O. left. reflexivity. }
  apply IH. intros I. apply O. right. exact I.
Qed.
Lemma stray_reach b k l rest st : closes k = true -> parse_next b k = false -> one_line l ->
  reach b (TKw k :: l ++ TNl :: rest) st rest (error_ false (next_error b k) st).
Proof.
  intros C N O. apply reach_go with (x := fun _ => Ok (rest, error_ false (next_error b k) st)).
  - intros n. cbn [MacroModel.lvl f_block MacroModel.step]. unfold block_step. cbn [parse_directive].
    destruct k; try discriminate C; rewrite N, skip_dir_line by exact O; reflexivity.
  - exists 0%nat. intros m _. reflexivity.
Qed.
(** A part with a stray directive in it. *)
Lemma part_reach b p k l q rest st st1 st2 : ready st -> all_of nested p -> all_of nested q -> calm rest ->
  closes k = true -> parse_next b k = false -> one_line l ->
  do_all p st st1 -> do_all q (error_ false (next_error b k) st1) st2 ->
  ready st2 /\ reach b (text p ++ TKw k :: l ++ TNl :: text q ++ rest) st rest st2.
Proof.
  intros R NP NQ CR C N O DP DQ.
  destruct (proj2 (proj2 (proj2 (processed files stuck calc))) p st st1 DP NP R) as [R1 A1].
  destruct (proj2 (proj2 (proj2 (processed files stuck calc))) q _ st2 DQ NQ (ready_error _ _ _ R1)) as [R2 A2].
  split; [exact R2|].
  eapply reach_trans; [apply A1; apply calm_kw|]. eapply reach_trans; [apply stray_reach; eassumption|]. apply A2. exact CR.
Qed.
Lemma block_ends b k rest st : closes k = true -> parse_next b k = true -> f_block (lvl 1) b (TKw k :: rest) st = Ok (Some k, rest, st).
Proof.
  intros C N. cbn [MacroModel.lvl f_block MacroModel.step]. unfold block_step. cbn [parse_directive]. destruct k; try discriminate C; rewrite N; reflexivity.
Qed.
(** The whole text from what the loop does. *)
Lemma finish s st r st2 st3 : ready st2 -> all_of nested r -> reach None s st (text r) st2 -> do_all r st2 st3 ->
  exists n, preprocess (lvl n) s st = Ok st3.
Proof.
  intros R NR H D. destruct (proj2 (proj2 (proj2 (processed files stuck calc))) r st2 st3 D NR R) as [_ A].
  specialize (A None [] Logic.I). rewrite app_nil_r in A.
  destruct (reach_trans None _ _ _ _ _ _ H A 1%nat (None, [], st3)) as [m E]; [reflexivity|]. exists m. unfold preprocess. rewrite E. reflexivity.
Qed.

Lemma outside p k l q st st1 st2 : ready st -> all_of nested p -> all_of nested q -> closes k = true -> one_line l ->
  do_all p st st1 -> do_all q (error_ false DIRECTIVE_WITHOUT st1) st2 ->
  exists n, preprocess (lvl n) (text p ++ TKw k :: l ++ TNl :: text q) st = Ok st2.
Proof.
  intros R NP NQ C O DP DQ.
  destruct (part_reach None p k l q [] st st1 st2 R NP NQ Logic.I C eq_refl O DP DQ) as [R2 A]. rewrite app_nil_r in A.
  apply (finish _ _ [] st2 st2 R2 Logic.I A). constructor.
Qed.
Lemma in_if e v p k l q r st st0 st1 st2 st3 : ready st -> one_line e -> all_of nested p -> all_of nested q -> all_of nested r ->
  closes k = true -> goes_on k = false -> one_line l ->
  value_is e st v st0 -> v <> 0 -> do_all p st0 st1 -> do_all q (error_ false DIRECTIVE_WITHOUT st1) st2 -> do_all r st2 st3 ->
  exists n, preprocess (lvl n) (TKw KIf :: e ++ TNl :: text p ++ TKw k :: l ++ TNl :: text q ++ TKw KEndif :: TNl :: text r) st = Ok st3.
Proof.
  intros R OE NP NQ NR C G O V NZ DP DQ DR.
  assert (R0 : ready st0) by (apply (ready_value files stuck calc e st v); assumption).
  assert (N : parse_next (Some KElif) k = false) by (destruct k; try discriminate C; try discriminate G; reflexivity).
  assert (E : next_error (Some KElif) k = DIRECTIVE_WITHOUT) by (destruct k; try discriminate C; try discriminate G; reflexivity).
  destruct (part_reach (Some KElif) p k l q (TKw KEndif :: TNl :: text r) st0 st1 st2 R0 NP NQ (calm_kw _ _) C N O DP ltac:(rewrite E; exact DQ)) as [R2 A].
  destruct (A 1%nat _ (block_ends (Some KElif) KEndif (TNl :: text r) st2 eq_refl eq_refl)) as [n1 B]. destruct V as [n2 V].
  apply (finish _ _ r st2 st3 R2 NR); [|exact DR].
  apply reach_go with (x := fun n => parse_if (lvl n) (e ++ TNl :: text p ++ TKw k :: l ++ TNl :: text q ++ TKw KEndif :: TNl :: text r) st); [reflexivity|].
  exists (S (Nat.max n1 n2)). intros m L. unfold parse_if.
  assert (Q : f_elif (lvl (S (Nat.max n1 n2))) (e ++ TNl :: text p ++ TKw k :: l ++ TNl :: text q ++ TKw KEndif :: TNl :: text r) st = Ok (Some KEndif, TNl :: text r, st2)).
  { cbn [MacroModel.lvl f_elif MacroModel.step]. unfold elif_step.
    rewrite (expression_more files stuck calc n2 (Nat.max n1 n2) _ _ _ (V _ (calm_text p _ NP (calm_kw k _)))) by lia. cbn [rbind].
    destruct (v =? 0) eqn:Z; [lia|]. cbn [negb]. rewrite skip_dir_nl.
    rewrite (block_more files stuck calc n1 (Nat.max n1 n2) _ _ _ _ B) by lia. cbn [rbind]. reflexivity. }
  rewrite (elif_more files stuck calc _ m _ _ _ Q L). reflexivity.
Qed.
Lemma in_else e body p k l q r st st0 st1 st2 st3 : ready st -> one_line e -> all_of nested body -> all_of nested p -> all_of nested q -> all_of nested r ->
  closes k = true -> k <> KEndif -> one_line l ->
  value_is e st 0 st0 -> do_all p st0 st1 -> do_all q (error_ false (next_error (Some KElse) k) st1) st2 -> do_all r st2 st3 ->
  exists n, preprocess (lvl n) (TKw KIf :: e ++ TNl :: text body ++ TKw KElse :: TNl :: text p ++ TKw k :: l ++ TNl :: text q ++ TKw KEndif :: TNl :: text r) st = Ok st3.
Proof.
  intros R OE NB NP NQ NR C G O V DP DQ DR.
  assert (R0 : ready st0) by (apply (ready_value files stuck calc e st 0); assumption).
  assert (N : parse_next (Some KElse) k = false) by (destruct k; try discriminate C; try reflexivity; congruence).
  destruct (part_reach (Some KElse) p k l q (TKw KEndif :: TNl :: text r) st0 st1 st2 R0 NP NQ (calm_kw _ _) C N O DP DQ) as [R2 A].
  destruct (A 1%nat _ (block_ends (Some KElse) KEndif (TNl :: text r) st2 eq_refl eq_refl)) as [n1 B]. destruct V as [n2 V].
  apply (finish _ _ r st2 st3 R2 NR); [|exact DR].
  set (tail := TNl :: text p ++ TKw k :: l ++ TNl :: text q ++ TKw KEndif :: TNl :: text r).
  apply reach_go with (x := fun n => parse_if (lvl n) (e ++ TNl :: text body ++ TKw KElse :: tail) st); [reflexivity|].
  exists (S (Nat.max n1 n2)). intros m L. unfold parse_if.
  assert (Q : f_elif (lvl (S (Nat.max n1 n2))) (e ++ TNl :: text body ++ TKw KElse :: tail) st = Ok (Some KEndif, TNl :: text r, st2)).
  { cbn [MacroModel.lvl f_elif MacroModel.step]. unfold elif_step.
    rewrite (expression_more files stuck calc n2 (Nat.max n1 n2) _ _ _ (V _ (calm_text body _ NB (calm_kw _ _)))) by lia. cbn [rbind Z.eqb negb].
    rewrite skip_dir_nl. rewrite silent_body; [|apply R0|exact NB|reflexivity|reflexivity]. cbn [rbind]. unfold tail. rewrite skip_dir_nl.
    rewrite (block_more files stuck calc n1 (Nat.max n1 n2) _ _ _ _ B) by lia. reflexivity. }
  rewrite (elif_more files stuck calc _ m _ _ _ Q L). reflexivity.
Qed.
End Stray.

(** Proofs for C78. *)
From Verif Require Import Prelude Utf8Model CodeModel ExportSpec ExportProofs CommentModel CommentSpec Utf8Spec Utf8Proofs.
From Verif Require LocProofs.

(** ** Numbers *)
Lemma decimal_shape n : 0 <= n <= SIZE_MAX -> read_digits (decimal n) 0 = Some n /\ Forall is_digit (decimal n) /\ decimal n <> [].
Proof.
  intros N. destruct (digits_read 20 n) as [R F]; [unfold SIZE_MAX, two64 in *; change (10 ^ Z.of_nat 20) with 100000000000000000000; lia|].
  assert (E : decimal n = digits 20 n []) by (unfold decimal; replace (n <? 0) with false by lia; reflexivity).
  rewrite E. repeat split; auto. apply digits_some. discriminate.
Qed.
Definition no_digit (rest : bytes) : Prop := match rest with [] => True | b :: _ => is_dec b = false end.
Lemma dec_digit d : is_digit d -> is_dec d = true.
Proof. unfold is_digit, is_dec. lia. Qed.
Lemma dec_loop_ok w : forall v r rest, read_digits w v = Some r -> Forall is_digit w -> 0 <= v -> r <= SIZE_MAX -> no_digit rest -> dec_loop (w ++ rest) v = r.
Proof.
  induction w as [|d w IH]; intros v r rest R F V M D; cbn [app].
  - cbn in R. inversion R; subst. destruct rest as [|b rest]; [reflexivity|]. cbn in D. cbn [dec_loop]. rewrite D. reflexivity.
  - inversion F as [|? ? Fd F']; subst. cbn [dec_loop]. rewrite dec_digit by exact Fd. cbn [read_digits] in R. unfold is_digit in Fd.
    replace ((48 <=? d) && (d <=? 57)) with true in R by lia. pose proof (LocProofs.read_grows w (10 * v + (d - 48)) r ltac:(lia) R). rewrite Z.min_r by lia.
    apply IH; auto; lia.
Qed.
Lemma sscanf_ok n rest : 0 <= n <= SIZE_MAX -> no_digit rest -> sscanf_zu (decimal n ++ rest) = Number n.
Proof.
  intros N D. destruct (decimal_shape n N) as (R & F & NE). destruct (decimal n) as [|d w] eqn:W; [congruence|].
  pose proof (dec_loop_ok (d :: w) 0 n rest R F ltac:(lia) ltac:(lia) D) as L. cbn [app] in *. cbn [sscanf_zu].
  pose proof (Forall_inv F) as Fd. rewrite dec_digit by exact Fd. unfold is_digit in Fd.
  replace (d =? 0) with false by lia. replace ((d =? 32) || _) with false by lia. rewrite L. reflexivity.
Qed.
Lemma skip_ok w rest : Forall is_digit w -> no_digit rest -> skip_digits (w ++ rest) = rest.
Proof.
  intros F D. induction w as [|d w IH]; cbn [app].
  - destruct rest as [|b rest]; [reflexivity|]. cbn in *. rewrite D. reflexivity.
  - inversion F; subst. cbn [skip_digits]. rewrite dec_digit by assumption. auto.
Qed.

(** ** Paths *)
Lemma path_ok p rest : plain p -> path_split (p ++ 32 :: rest) = (p, 32 :: rest).
Proof.
  intros P. induction p as [|b p IH]; [reflexivity|]. inversion P as [|? ? (A & B & C) P']; subst. cbn [app path_split].
  replace ((b =? 0) || (b =? 10) || (b =? SEPARATOR)) with false by (unfold SEPARATOR; lia). rewrite IH by exact P'. reflexivity.
Qed.

Lemma parse_mark p n line symbol rest : plain p -> 0 <= n <= SIZE_MAX ->
  cmt_parse (p ++ 32 :: decimal n ++ 10 :: rest) line symbol = (u64 (line + u64 (n - 2)), symbol).
Proof.
  intros P N. unfold cmt_parse. rewrite path_ok by exact P. cbn [snd]. replace (negb (32 =? SEPARATOR)) with false by reflexivity.
  rewrite sscanf_ok by (auto; reflexivity). destruct (decimal_shape n N) as (_ & F & _).
  rewrite skip_ok by (auto; reflexivity). reflexivity.
Qed.
Lemma parse_macro p n m line symbol rest : plain p -> 0 <= n <= SIZE_MAX -> 0 <= m <= SIZE_MAX ->
  cmt_parse (p ++ 32 :: decimal n ++ 32 :: decimal m ++ 10 :: rest) line symbol = (n, m).
Proof.
  intros P N M. unfold cmt_parse. rewrite path_ok by exact P. cbn [snd]. replace (negb (32 =? SEPARATOR)) with false by reflexivity.
  rewrite sscanf_ok by (auto; reflexivity). destruct (decimal_shape n N) as (_ & F & _).
  rewrite skip_ok by (auto; reflexivity). replace (negb (32 =? SEPARATOR)) with false by reflexivity.
  rewrite sscanf_ok by (auto; reflexivity). reflexivity.
Qed.

(** ** Going back *)
Lemma step b r line : r <> [] -> b <> 10 -> ends_with (rev PREFIX) (b :: r) = Some false -> reverse_loop (b :: r) line = reverse_loop r line.
Proof. intros R B E. cbn [reverse_loop]. destruct r as [|x r]; [congruence|]. replace (b =? 10) with false by lia. rewrite E. reflexivity. Qed.
Lemma step_nl r line : r <> [] -> reverse_loop (10 :: r) line = reverse_loop r (line + 1).
Proof. intros R. cbn [reverse_loop]. destruct r; [congruence|reflexivity]. Qed.
Lemma not_hash b r : b <> 35 -> ends_with (rev PREFIX) (b :: r) = Some false.
Proof. intros B. change (rev PREFIX) with [35; 32; 47; 47]. cbn [ends_with]. replace (35 =? b) with false by lia. reflexivity. Qed.

Lemma ends_false w t : (forall a, w ++ 10 :: t <> 35 :: 32 :: 47 :: 47 :: a) -> ends_with [35; 32; 47; 47] (w ++ 10 :: t) = Some false.
Proof.
  intros H. cbn [ends_with].
  destruct w as [|a w]; cbn [app]; [reflexivity|]. destruct (35 =? a) eqn:E1; [|reflexivity].
  destruct w as [|b w]; cbn [app]; [reflexivity|]. destruct (32 =? b) eqn:E2; [|reflexivity].
  destruct w as [|c w]; cbn [app]; [reflexivity|]. destruct (47 =? c) eqn:E3; [|reflexivity].
  destruct w as [|d w]; cbn [app]; [reflexivity|]. destruct (47 =? d) eqn:E4; [|reflexivity].
  exfalso. apply (H (w ++ 10 :: t)). cbn [app]. repeat f_equal; lia.
Qed.

Lemma newlines_cons b w : newlines (b :: w) = (if b =? 10 then 1 else 0) + newlines w.
Proof. unfold newlines. cbn [count_occ]. destruct (Z.eq_dec b 10); [replace (b =? 10) with true by lia | replace (b =? 10) with false by lia]; lia. Qed.
Lemma newlines_app v w : newlines (v ++ w) = newlines v + newlines w.
Proof. unfold newlines. rewrite count_occ_app. lia. Qed.
Lemma newlines_rev w : newlines (rev w) = newlines w.
Proof. induction w as [|b w IH]; [reflexivity|]. cbn [rev]. rewrite newlines_app, IH, !newlines_cons. unfold newlines at 2. cbn. lia. Qed.
Lemma newlines_pos w : 0 <= newlines w.
Proof. unfold newlines. lia. Qed.

(** Back over text without a mark that follows a newline. *)
Lemma back_quiet w : forall t line, (forall a b, w <> a ++ 35 :: 32 :: 47 :: 47 :: b) -> reverse_loop (w ++ 10 :: t) line = reverse_loop (10 :: t) (line + newlines w).
Proof.
  induction w as [|b w IH]; intros t line H; [cbn [app]; f_equal; unfold newlines; cbn; lia|].
  rewrite newlines_cons. cbn [app]. assert (NE : w ++ 10 :: t <> []) by (destruct w; discriminate).
  assert (H' : forall a c, w <> a ++ 35 :: 32 :: 47 :: 47 :: c) by (intros a c E; apply (H (b :: a) c); rewrite E; reflexivity).
  destruct (Z.eq_dec b 10) as [->|B].
  - rewrite step_nl by exact NE. rewrite IH by exact H'. replace (10 =? 10) with true by reflexivity. f_equal. lia.
  - replace (b =? 10) with false by lia. rewrite step; [rewrite IH by exact H'; f_equal; lia|exact NE|exact B|].
    change (rev PREFIX) with [35; 32; 47; 47]. change (b :: w ++ 10 :: t) with ((b :: w) ++ 10 :: t).
    apply ends_false. intros a E. destruct w as [|x1 [|x2 [|x3 w]]]; cbn [app] in E; inversion E; subst; try discriminate.
    apply (H [] w). reflexivity.
Qed.
Lemma back_skip w : forall t line, t <> [] -> Forall (fun b => b <> 10 /\ b <> 35) w -> reverse_loop (w ++ t) line = reverse_loop t line.
Proof.
  induction w as [|b w IH]; intros t line T F; [reflexivity|]. inversion F as [|? ? (A & B) F']; subst. cbn [app].
  rewrite step; [auto|destruct w; [exact T|discriminate]|exact A|apply not_hash; exact B].
Qed.
Lemma back_path w : forall t line, Forall (fun b => b <> 10 /\ b <> 32) w -> reverse_loop (w ++ 32 :: 35 :: t) line = reverse_loop (32 :: 35 :: t) line.
Proof.
  induction w as [|b w IH]; intros t line F; [reflexivity|]. inversion F as [|? ? (A & B) F']; subst. cbn [app].
  rewrite step; [auto|destruct w; discriminate|exact A|]. destruct (Z.eq_dec b 35) as [->|N]; [|apply not_hash; exact N].
  change (rev PREFIX) with [35; 32; 47; 47]. cbn [ends_with]. replace (35 =? 35) with true by reflexivity.
  destruct w as [|c w]; cbn [app]; [reflexivity|]. inversion F' as [|? ? (C & D) F'']; subst. replace (32 =? c) with false by lia. reflexivity.
Qed.

(** Back over a mark, up to its prefix. *)
Lemma back_mark p ds line above : plain p -> Forall (fun b => b <> 10 /\ b <> 35) ds ->
  reverse_loop (10 :: rev ds ++ 32 :: rev p ++ 32 :: 35 :: 32 :: 47 :: 47 :: above) line = Some (line + 1, Some (zlen above + 5)).
Proof.
  intros P D. rewrite step_nl by (destruct (rev ds); discriminate).
  change (32 :: rev p ++ 32 :: 35 :: 32 :: 47 :: 47 :: above) with ([32] ++ (rev p ++ 32 :: 35 :: 32 :: 47 :: 47 :: above)). rewrite app_assoc.
  rewrite back_skip; [|destruct (rev p); discriminate|apply Forall_app; split; [apply Forall_rev; exact D|repeat constructor; discriminate]].
  rewrite back_path; [|apply Forall_rev; eapply Forall_impl; [|exact P]; intros a (A & B & C); split; assumption].
  rewrite step; [|discriminate|discriminate|reflexivity]. cbn [reverse_loop]. replace (35 =? 10) with false by reflexivity.
  change (rev PREFIX) with [35; 32; 47; 47]. cbn [ends_with Z.eqb Pos.eqb bind]. do 2 f_equal. f_equal. rewrite !zlen_cons. lia.
Qed.

(** ** Where the line starts *)
Lemma start_ok pre cur below : (pre = [] \/ exists v, pre = v ++ [10]) -> one_line cur -> forall k, (k <= List.length cur)%nat ->
  line_start (pre ++ cur ++ below) (List.length pre + k) = Some (List.length pre).
Proof.
  intros W O. induction k as [|k IH]; intros K.
  - rewrite Nat.add_0_r. destruct W as [->|(v & ->)]; [reflexivity|]. rewrite app_length. cbn [List.length]. rewrite Nat.add_1_r. cbn [line_start].
    rewrite <- !app_assoc. rewrite nth_error_app2, Nat.sub_diag by lia. reflexivity.
  - rewrite Nat.add_succ_r. cbn [line_start]. rewrite <- !app_assoc. rewrite nth_error_app2 by lia. replace (_ + k - _)%nat with k by lia.
    rewrite nth_error_app1 by lia. destruct (nth_error cur k) as [b|] eqn:E; [|apply nth_error_None in E; lia]. cbn [bind].
    apply nth_error_In in E. pose proof (proj1 (Forall_forall _ _) O b E) as (Z0 & N).
    replace (b =? 10) with false by lia. rewrite IH by lia. reflexivity.
Qed.

Lemma line_of_ok cur below : one_line cur -> line_over below -> line_of (cur ++ below) = cur.
Proof.
  intros O L. induction cur as [|b cur IH]; cbn [app].
  - destruct L as [->|(v & ->)]; reflexivity.
  - inversion O as [|? ? (A & B) O']; subst. cbn [line_of]. replace ((b =? 0) || (b =? 10)) with false by lia. f_equal. auto.
Qed.
Lemma skip_len {A} (a b : list A) z : z = zlen a -> skipn (Z.to_nat z) (a ++ b) = b.
Proof. intros ->. rewrite zlen_unf, Nat2Z.id, skipn_app, skipn_all, Nat.sub_diag. reflexivity. Qed.

(** The byte the search begins with: the first of the line, or the NUL. *)
Definition head_of (cur : bytes) : Z := match cur with b :: _ => b | [] => 0 end.
Lemma first_back pre cur below : one_line cur -> cur <> [] \/ below = [] ->
  rev (firstn (S (List.length pre)) ((pre ++ cur ++ below) ++ [0])) = head_of cur :: rev pre /\ head_of cur <> 10.
Proof.
  intros O H. replace (S (List.length pre)) with (List.length pre + 1)%nat by lia. rewrite <- !app_assoc, firstn_app_2, rev_app_distr.
  destruct cur as [|b cur].
  - destruct H as [H | ->]; [congruence|]. cbn. split; [reflexivity|discriminate].
  - cbn. split; [reflexivity|]. inversion O as [|? ? (A & B) O']; assumption.
Qed.

Lemma search_back pre cur below k r line : (pre = [] \/ exists v, pre = v ++ [10]) -> one_line cur -> cur <> [] \/ below = [] -> 0 <= k <= zlen cur ->
  reverse_loop (head_of cur :: rev pre) 1 = Some (line, r) ->
  cmt_search (pre ++ cur ++ below) (zlen pre + k) =
  match r with
  | None => Some (mkComment None line k (Some (zlen pre)))
  | Some p => let '(line, symbol) := cmt_parse (skipn (Z.to_nat p) (pre ++ cur ++ below)) line k in Some (mkComment r line symbol (Some (zlen pre)))
  end.
Proof.
  intros W O H K R. unfold cmt_search. rewrite !zlen_unf in *. replace (Z.to_nat (Z.of_nat (List.length pre) + k)) with (List.length pre + Z.to_nat k)%nat by lia.
  rewrite start_ok by (auto; lia). cbn [bind]. destruct (first_back pre cur below O H) as [E _]. rewrite E, R. cbn [bind].
  replace (Z.of_nat (List.length pre) + k - Z.of_nat (List.length pre)) with k by lia. reflexivity.
Qed.

(** ** The search *)
Lemma quiet_rev mid c : no_mark (mid ++ c) -> forall a b, rev (mid ++ c) <> a ++ 35 :: 32 :: 47 :: 47 :: b.
Proof.
  intros N a b E. apply (f_equal (@rev Z)) in E. rewrite rev_involutive in E. apply (N (rev b) (rev a)). rewrite E, rev_app_distr.
  cbn [rev]. rewrite <- !app_assoc. reflexivity.
Qed.

(** From a line back to the mark above it: [ds] is what follows the path. *)
Lemma back_to_mark above p ds mid cur : plain p -> Forall (fun b => b <> 10 /\ b <> 35) ds -> one_line cur -> no_mark (mid ++ firstn 1 cur) ->
  reverse_loop (head_of cur :: rev (above ++ ([47; 47; 32; 35; 32] ++ p ++ 32 :: ds ++ [10]) ++ mid)) 1 = Some (newlines mid + 2, Some (zlen above + 5)).
Proof.
  intros P D O N.
  assert (E : rev (above ++ ([47; 47; 32; 35; 32] ++ p ++ 32 :: ds ++ [10]) ++ mid) = rev mid ++ 10 :: rev ds ++ 32 :: rev p ++ 32 :: 35 :: 32 :: 47 :: 47 :: rev above).
  { rewrite !rev_app_distr. cbn [rev app]. rewrite !rev_app_distr. cbn [rev app]. repeat (rewrite <- !app_assoc; cbn [app]). reflexivity. }
  rewrite E. set (t := rev ds ++ _).
  assert (Q : reverse_loop ((head_of cur :: rev mid) ++ 10 :: t) 1 = reverse_loop (10 :: t) (1 + newlines mid)).
  { destruct cur as [|b cur].
    - cbn [head_of app]. cbn [firstn] in N. rewrite step; [|destruct (rev mid); discriminate|discriminate|apply not_hash; discriminate].
      rewrite back_quiet; [rewrite newlines_rev; reflexivity|]. intros x y Q. apply (quiet_rev mid [] N x y). rewrite app_nil_r. exact Q.
    - cbn [head_of firstn] in *. rewrite back_quiet.
      + inversion O as [|? ? (A & B) O']; subst. rewrite newlines_cons, newlines_rev. replace (b =? 10) with false by lia. reflexivity.
      + intros x y Q. apply (quiet_rev mid [b] N x y). rewrite rev_app_distr. exact Q. }
  cbn [app] in Q. rewrite Q. unfold t. rewrite back_mark by assumption. do 2 f_equal; [lia|]. f_equal. rewrite !zlen_unf, rev_length. reflexivity.
Qed.

Lemma digits_quiet n : 0 <= n <= SIZE_MAX -> Forall (fun b => b <> 10 /\ b <> 35) (decimal n).
Proof. intros N. destruct (decimal_shape n N) as (_ & F & _). eapply Forall_impl; [|exact F]. intros a H. unfold is_digit in H. lia. Qed.

Lemma ends_line above m mid : whole_lines mid -> (exists v, m = v ++ [10]) -> exists v, above ++ m ++ mid = v ++ [10].
Proof.
  intros [->|(w & ->)] (v & ->).
  - exists (above ++ v). rewrite app_nil_r, app_assoc. reflexivity.
  - exists (above ++ (v ++ [10]) ++ w). rewrite <- !app_assoc. reflexivity.
Qed.

Lemma mark_shape p n : mark p n = [47; 47; 32; 35; 32] ++ p ++ 32 :: decimal n ++ [10].
Proof. unfold mark. cbn. reflexivity. Qed.
Lemma macro_shape p n s : macro_mark p n s = [47; 47; 32; 35; 32] ++ p ++ 32 :: (decimal n ++ 32 :: decimal s) ++ [10].
Proof. unfold macro_mark. cbn. rewrite <- app_assoc. reflexivity. Qed.

Lemma search_mark above p n mid cur below k : plain p -> 0 <= n -> n + newlines mid <= SIZE_MAX -> whole_lines mid -> one_line cur -> cur <> [] \/ below = [] ->
  no_mark (mid ++ firstn 1 cur) -> 0 <= k <= zlen cur ->
  cmt_search (above ++ mark p n ++ mid ++ cur ++ below) (zlen (above ++ mark p n ++ mid) + k) =
  Some (mkComment (Some (zlen above + 5)) (n + newlines mid) k (Some (zlen (above ++ mark p n ++ mid)))).
Proof.
  intros P N M W O H Q K. pose proof (newlines_pos mid) as NN.
  assert (N' : 0 <= n <= SIZE_MAX) by lia.
  replace (above ++ mark p n ++ mid ++ cur ++ below) with ((above ++ mark p n ++ mid) ++ cur ++ below) by (rewrite <- !app_assoc; reflexivity).
  rewrite (search_back _ _ _ k (Some (zlen above + 5)) (newlines mid + 2)); auto.
  - replace (skipn _ _) with (p ++ 32 :: decimal n ++ 10 :: mid ++ cur ++ below).
    + rewrite parse_mark by assumption. do 2 f_equal. unfold u64. unfold SIZE_MAX, two64 in *. Z.div_mod_to_equations. lia.
    + symmetry. replace ((above ++ mark p n ++ mid) ++ cur ++ below) with ((above ++ [47; 47; 32; 35; 32]) ++ p ++ 32 :: decimal n ++ 10 :: mid ++ cur ++ below)
        by (rewrite mark_shape; repeat (rewrite <- !app_assoc; cbn [app]); reflexivity).
      apply skip_len. rewrite zlen_app. reflexivity.
  - right. apply ends_line; [exact W|]. rewrite mark_shape. exists ([47; 47; 32; 35; 32] ++ p ++ 32 :: decimal n). rewrite <- !app_assoc. reflexivity.
  - rewrite mark_shape. apply back_to_mark; auto. apply digits_quiet. exact N'.
Qed.

Lemma search_macro above p n s mid cur below k : plain p -> 0 <= n <= SIZE_MAX -> 0 <= s <= SIZE_MAX -> whole_lines mid -> one_line cur -> cur <> [] \/ below = [] ->
  no_mark (mid ++ firstn 1 cur) -> 0 <= k <= zlen cur ->
  cmt_search (above ++ macro_mark p n s ++ mid ++ cur ++ below) (zlen (above ++ macro_mark p n s ++ mid) + k) =
  Some (mkComment (Some (zlen above + 5)) n s (Some (zlen (above ++ macro_mark p n s ++ mid)))).
Proof.
  intros P N S W O H Q K.
  replace (above ++ macro_mark p n s ++ mid ++ cur ++ below) with ((above ++ macro_mark p n s ++ mid) ++ cur ++ below) by (rewrite <- !app_assoc; reflexivity).
  rewrite (search_back _ _ _ k (Some (zlen above + 5)) (newlines mid + 2)); auto.
  - replace (skipn _ _) with (p ++ 32 :: decimal n ++ 32 :: decimal s ++ 10 :: mid ++ cur ++ below).
    + rewrite parse_macro by assumption. reflexivity.
    + symmetry. replace ((above ++ macro_mark p n s ++ mid) ++ cur ++ below)
        with ((above ++ [47; 47; 32; 35; 32]) ++ p ++ 32 :: decimal n ++ 32 :: decimal s ++ 10 :: mid ++ cur ++ below)
        by (rewrite macro_shape; repeat (rewrite <- !app_assoc; cbn [app]); reflexivity).
      apply skip_len. rewrite zlen_app. reflexivity.
  - right. apply ends_line; [exact W|]. rewrite macro_shape. exists ([47; 47; 32; 35; 32] ++ p ++ 32 :: decimal n ++ 32 :: decimal s).
    repeat (rewrite <- !app_assoc; cbn [app]). reflexivity.
  - rewrite macro_shape. apply back_to_mark; auto. apply Forall_app; split; [apply digits_quiet; exact N|].
    constructor; [split; discriminate|apply digits_quiet; exact S].
Qed.

(** The path of a mark found. *)
Lemma path_at above p rest : plain p -> fst (path_split (skipn (Z.to_nat (zlen above + 5)) (above ++ ([47; 47; 32; 35; 32] ++ p ++ 32 :: rest)))) = p.
Proof. intros P. rewrite app_assoc, skip_len by (rewrite zlen_app; reflexivity). rewrite path_ok by exact P. reflexivity. Qed.

(** ** Text without a mark *)
Lemma ends_text w x : (forall a, w ++ [x] <> 35 :: 32 :: 47 :: 47 :: a) -> w ++ [x] <> [35; 32] -> w ++ [x] <> [35; 32; 47] -> w <> [] -> ends_with [35; 32; 47; 47] (w ++ [x]) = Some false.
Proof.
  intros H H2 H3 NE. cbn [ends_with].
  destruct w as [|a w]; [congruence|]; cbn [app]. destruct (35 =? a) eqn:E1; [|reflexivity].
  destruct w as [|b w]; cbn [app].
  { destruct (32 =? x) eqn:E2; [|reflexivity]. exfalso. apply H2. cbn [app]. repeat f_equal; lia. }
  destruct (32 =? b) eqn:E2; [|reflexivity].
  destruct w as [|c w]; cbn [app].
  { destruct (47 =? x) eqn:E3; [|reflexivity]. exfalso. apply H3. cbn [app]. repeat f_equal; lia. }
  destruct (47 =? c) eqn:E3; [|reflexivity].
  destruct w as [|d w]; cbn [app].
  { destruct (47 =? x) eqn:E4; [|reflexivity]. exfalso. apply (H []). cbn [app]. repeat f_equal; lia. }
  destruct (47 =? d) eqn:E4; [|reflexivity]. exfalso. apply (H (w ++ [x])). cbn [app]. repeat f_equal; lia.
Qed.
Lemma back_all w x : forall line, (forall a b, w ++ [x] <> a ++ 35 :: 32 :: 47 :: 47 :: b) -> (forall a, w ++ [x] <> a ++ [35; 32]) -> (forall a, w ++ [x] <> a ++ [35; 32; 47]) ->
  reverse_loop (w ++ [x]) line = Some (line + newlines w, None).
Proof.
  induction w as [|b w IH]; intros line H H2 H3; [cbn; do 2 f_equal; lia|].
  rewrite newlines_cons. cbn [app]. assert (NE : w ++ [x] <> []) by (destruct w; discriminate).
  assert (IH' : forall line, reverse_loop (w ++ [x]) line = Some (line + newlines w, None)).
  { intros l. apply IH.
    - intros a c E. apply (H (b :: a) c). cbn [app]. rewrite E. reflexivity.
    - intros a E. apply (H2 (b :: a)). cbn [app]. rewrite E. reflexivity.
    - intros a E. apply (H3 (b :: a)). cbn [app]. rewrite E. reflexivity. }
  destruct (Z.eq_dec b 10) as [->|B].
  - rewrite step_nl by exact NE. rewrite IH'. replace (10 =? 10) with true by reflexivity. do 2 f_equal. lia.
  - replace (b =? 10) with false by lia. rewrite step; [rewrite IH'; do 2 f_equal; lia|exact NE|exact B|].
    change (rev PREFIX) with [35; 32; 47; 47]. change (b :: w ++ [x]) with ((b :: w) ++ [x]).
    apply ends_text; [intros a; apply (H [])|apply (H2 [])|apply (H3 [])|discriminate].
Qed.

(** ** The column *)
Lemma tag_ok cs rest : forall pre fuel sym, Forall code_point cs -> (List.length (encs cs) < fuel)%nat ->
  tag_loop fuel (pre ++ encs cs ++ rest) (zlen pre + zlen (encs cs)) (zlen pre) sym = Some (sym - zlen (encs cs) + zlen cs).
Proof.
  induction cs as [|c cs IH]; intros pre fuel sym F L; (destruct fuel as [|fuel]; [lia|]); cbn [tag_loop].
  - change (encs []) with (@nil Z). rewrite !(@zlen_nil Z), Z.add_0_r, Z.ltb_irrefl. f_equal. lia.
  - inversion F as [|? ? C F']; subst. change (encs (c :: cs)) with (enc c ++ encs cs) in *. rewrite zlen_app in *. rewrite app_length in L.
    destruct (enc c) as [|b r] eqn:E; [exfalso; destruct (enc_shape c C) as (x & y & E' & _); congruence|].
    pose proof (symbol_size_enc c b r C E) as SZ. rewrite E in SZ. pose proof (zlen_nonneg r). pose proof (zlen_nonneg (encs cs)).
    rewrite !zlen_cons in *. replace (zlen pre <? _) with true by lia.
    replace (znth _ (zlen pre)) with (Some b) by (symmetry; rewrite znth_app2 by lia; rewrite Z.sub_diag; apply znth_cons_0).
    cbn [bind]. rewrite SZ. replace (pre ++ ((b :: r) ++ encs cs) ++ rest) with ((pre ++ b :: r) ++ encs cs ++ rest) by (rewrite <- !app_assoc; reflexivity).
    replace (zlen pre + (1 + zlen r)) with (zlen (pre ++ b :: r)) by (rewrite zlen_app, zlen_cons; lia).
    replace (zlen pre + (1 + zlen r + zlen (encs cs))) with (zlen (pre ++ b :: r) + zlen (encs cs)) by (rewrite zlen_app, zlen_cons; lia).
    rewrite IH; [f_equal; lia|exact F'|cbn [List.length] in L; lia].
Qed.

Lemma tag_at code cmt i path a c rest j : cmt_get_path code cmt = path -> path <> [] -> c_code cmt = Some i ->
  skipn (Z.to_nat i) (code ++ [0]) = encs a ++ enc c ++ rest -> Forall code_point a -> code_point c -> 0 <= j < zlen (enc c) -> c_symbol cmt = zlen (encs a) + j ->
  cmt_get_tag code cmt = Some (path ++ 58 :: decimal (c_line cmt) ++ 58 :: decimal (zlen a + 1)).
Proof.
  intros P NE I SK A C J Y. unfold cmt_get_tag. rewrite P, I, SK, Y. destruct path as [|x path]; [congruence|].
  destruct (enc_shape c C) as (b & conts & E & Hb & Hc). rewrite E in *. rewrite zlen_cons, zlen_unf in J. rewrite (zlen_unf (encs a)).
  replace (Z.to_nat _) with (List.length (encs a) + Z.to_nat j)%nat by lia. rewrite first_byte_at by (auto; lia). cbn [bind].
  pose proof (tag_ok a ((b :: conts) ++ rest) [] (S (Z.to_nat (zlen (encs a)))) (zlen (encs a)) A) as T. cbn [app] in T. rewrite (@zlen_nil Z), Z.add_0_l in T. cbn [app].
  rewrite T by (rewrite zlen_unf; lia). cbn [bind]. replace (zlen (encs a) - zlen (encs a) + zlen a + 1) with (zlen a + 1) by lia. reflexivity.
Qed.

(** C78: the comments in a preprocessed text tell where each of its lines is from. *)
From Verif Require Import Prelude Utf8Model CodeModel CommentModel CommentSpec CommentProofs Utf8Spec Utf8Proofs.
From Coq Require String.
Import String.StringSyntax.
Local Open Scope string_scope.
Local Open Scope list_scope.
Local Open Scope Z_scope.

(** C78.  A mark as [cmt_to_string] writes it, then whole lines, then a line that
    is searched from any of its positions, whatever is above the mark and below
    the line: the search gives the file of the mark, the number of the line in
    that file, the offset in the line, and the line itself. *)
Theorem C78_origin_of_line_found : forall above path n between line below k,
  plain path -> 0 <= n -> n + newlines between <= SIZE_MAX ->
  whole_lines between -> one_line line -> line_over below -> line <> [] \/ below = [] ->
  no_mark (between ++ firstn 1 line) -> 0 <= k <= zlen line ->
  let here := above ++ cmt_to_string path n SIZE_MAX ++ between in
  let text := here ++ line ++ below in
  cmt_to_string path n SIZE_MAX = mark path n /\
  exists cmt, cmt_search text (zlen here + k) = Some cmt /\
    cmt_is_correct cmt = true /\ cmt_get_path text cmt = path /\ c_line cmt = n + newlines between /\ c_symbol cmt = k /\
    cmt_get_code_line text cmt = line.
Proof.
  intros above path n between line below k P N M W O L H Q K here text.
  assert (E : cmt_to_string path n SIZE_MAX = mark path n) by reflexivity. split; [exact E|].
  assert (T : text = above ++ mark path n ++ between ++ line ++ below) by (unfold text, here; rewrite E, <- !app_assoc; reflexivity).
  eexists. split; [rewrite T; unfold here; rewrite E; apply search_mark; assumption|]. repeat split.
  - unfold cmt_get_path. cbn [c_path]. rewrite T, mark_shape. repeat (rewrite <- !app_assoc; cbn [app]). apply (path_at above path _ P).
  - unfold cmt_get_code_line. cbn [c_code]. unfold text, here. rewrite E. rewrite skip_len by reflexivity. apply line_of_ok; assumption.
Qed.
Print Assumptions C78_origin_of_line_found.

(** C78.  The same with a mark for the text of a macro: every position of the
    lines after it is the one symbol of the one line the mark names. *)
Theorem C78_origin_of_macro_found : forall above path n s between line below k,
  plain path -> 0 <= n <= SIZE_MAX -> 0 <= s < SIZE_MAX ->
  whole_lines between -> one_line line -> line_over below -> line <> [] \/ below = [] ->
  no_mark (between ++ firstn 1 line) -> 0 <= k <= zlen line ->
  let here := above ++ cmt_to_string path n s ++ between in
  let text := here ++ line ++ below in
  cmt_to_string path n s = macro_mark path n s /\
  exists cmt, cmt_search text (zlen here + k) = Some cmt /\
    cmt_is_correct cmt = true /\ cmt_get_path text cmt = path /\ c_line cmt = n /\ c_symbol cmt = s /\ cmt_get_code_line text cmt = line.
Proof.
  intros above path n s between line below k P N S W O L H Q K here text.
  assert (E : cmt_to_string path n s = macro_mark path n s).
  { unfold cmt_to_string. replace (s =? SIZE_MAX) with false by lia. reflexivity. }
  split; [exact E|].
  assert (T : text = above ++ macro_mark path n s ++ between ++ line ++ below) by (unfold text, here; rewrite E, <- !app_assoc; reflexivity).
  eexists. split; [rewrite T; unfold here; rewrite E; apply search_macro; auto; lia|]. repeat split.
  - unfold cmt_get_path. cbn [c_path]. rewrite T, macro_shape. repeat (rewrite <- !app_assoc; cbn [app]). apply (path_at above path _ P).
  - unfold cmt_get_code_line. cbn [c_code]. unfold text, here. rewrite E. rewrite skip_len by reflexivity. apply line_of_ok; assumption.
Qed.
Print Assumptions C78_origin_of_macro_found.

(** C78.  The tag printed for a position is the file, the line and the column,
    counted in characters, of the character the position is in: the [a] are
    before it on the line, it is [c], which may be the end of the line. *)
Theorem C78_tag_counts_characters : forall above path n between line below a c rest j,
  plain path -> path <> [] -> 0 <= n -> n + newlines between <= SIZE_MAX ->
  whole_lines between -> one_line line -> line_over below -> line <> [] \/ below = [] ->
  no_mark (between ++ firstn 1 line) ->
  line ++ below ++ [0] = encs a ++ enc c ++ rest -> Forall code_point a -> code_point c -> 0 <= j < zlen (enc c) -> zlen (encs a) + j <= zlen line ->
  let here := above ++ cmt_to_string path n SIZE_MAX ++ between in
  let text := here ++ line ++ below in
  exists cmt, cmt_search text (zlen here + (zlen (encs a) + j)) = Some cmt /\
    cmt_get_tag text cmt = Some (path ++ str ":" ++ decimal (n + newlines between) ++ str ":" ++ decimal (zlen a + 1)).
Proof.
  intros above path n between line below a c rest j P NE N M W O L H Q X A C J Y here text. pose proof (zlen_nonneg (encs a)).
  assert (E : cmt_to_string path n SIZE_MAX = mark path n) by reflexivity.
  assert (T : text = above ++ mark path n ++ between ++ line ++ below) by (unfold text, here; rewrite E, <- !app_assoc; reflexivity).
  eexists. split; [rewrite T; unfold here; rewrite E; apply search_mark; auto; lia|].
  rewrite (tag_at text _ (zlen here) path a c rest j); auto.
  - unfold cmt_get_path. cbn [c_path]. rewrite T, mark_shape. repeat (rewrite <- !app_assoc; cbn [app]). apply (path_at above path _ P).
  - unfold text. rewrite <- !app_assoc. rewrite skip_len by reflexivity. exact X.
Qed.
Print Assumptions C78_tag_counts_characters.

(** C78.  Without any mark above, no file is named, and the line is counted from
    the top of the text.  (The text does not begin with a newline, nor with what
    could be the end of a mark.) *)
Theorem C78_without_mark_counts_from_top : forall before line below k,
  whole_lines before -> one_line line -> line_over below -> line <> [] \/ below = [] -> no_mark (before ++ firstn 1 line) -> 0 <= k <= zlen line ->
  (forall w, before <> 10 :: w) -> (forall w, before ++ firstn 1 line <> str " #" ++ w) -> (forall w, before ++ firstn 1 line <> str "/ #" ++ w) ->
  let text := before ++ line ++ below in
  exists cmt, cmt_search text (zlen before + k) = Some cmt /\
    cmt_is_correct cmt = false /\ c_line cmt = 1 + newlines before /\ c_symbol cmt = k /\ cmt_get_code_line text cmt = line /\ cmt_get_tag text cmt = Some [].
Proof.
  intros before line below k W O L H Q K N1 N2 N3 text.
  assert (R : reverse_loop (head_of line :: rev before) 1 = Some (1 + newlines before, None)).
  { destruct before as [|x before]; [reflexivity|].
    assert (X : x <> 10) by (intros ->; apply (N1 before); reflexivity).
    assert (NX : newlines (x :: before) = newlines (rev before)) by (rewrite newlines_cons, newlines_rev; replace (x =? 10) with false by lia; lia).
    cbn [rev]. rewrite NX. destruct line as [|b line].
    - cbn [head_of firstn] in *. rewrite app_nil_r in *. rewrite step; [|destruct (rev before); discriminate|discriminate|apply not_hash; discriminate].
      apply back_all.
      + intros u v E. apply (quiet_rev (x :: before) [] ltac:(rewrite app_nil_r; exact Q) u v). rewrite app_nil_r. exact E.
      + intros u E. apply (f_equal (@rev Z)) in E. rewrite !rev_app_distr, rev_involutive in E. apply (N2 (rev u)). exact E.
      + intros u E. apply (f_equal (@rev Z)) in E. rewrite !rev_app_distr, rev_involutive in E. apply (N3 (rev u)). exact E.
    - cbn [head_of firstn] in *. change (b :: rev before ++ [x]) with ((b :: rev before) ++ [x]). rewrite back_all.
      + inversion O as [|? ? (B0 & B) O']; subst. rewrite newlines_cons. replace (b =? 10) with false by lia. reflexivity.
      + intros u v E. apply (quiet_rev (x :: before) [b] Q u v). rewrite rev_app_distr. exact E.
      + intros u E. apply (f_equal (@rev Z)) in E. cbn [app rev] in E. rewrite !rev_app_distr, rev_involutive in E. apply (N2 (rev u)). exact E.
      + intros u E. apply (f_equal (@rev Z)) in E. cbn [app rev] in E. rewrite !rev_app_distr, rev_involutive in E. apply (N3 (rev u)). exact E. }
  eexists. split; [unfold text; apply (search_back before line below k None (1 + newlines before)); auto|]. repeat split.
  unfold cmt_get_code_line. cbn [c_code]. unfold text. rewrite skip_len by reflexivity. apply line_of_ok; assumption.
Qed.
Print Assumptions C78_without_mark_counts_from_top.

(** C78, where the program falls short.  A position on an empty line is given the
    number of the line after it. *)
Theorem C78_empty_line_counted_twice_refuted : exists above path n between below,
  plain path /\ whole_lines between /\ no_mark between /\ line_over below /\
  let here := above ++ cmt_to_string path n SIZE_MAX ++ between in
  exists cmt, cmt_search (here ++ below) (zlen here) = Some cmt /\ c_line cmt = n + newlines between + 1.
Proof.
  exists [], (str "a.c"), 7, [], (10 :: str "x"). split; [repeat constructor; discriminate|]. split; [left; reflexivity|].
  split; [intros a b E; destruct a; discriminate|]. split; [right; eexists; reflexivity|].
  eexists. split; vm_compute; reflexivity.
Qed.
Print Assumptions C78_empty_line_counted_twice_refuted.

(** C78, where the program falls short.  Without a mark, an empty line at the top
    of the text is not counted. *)
Theorem C78_empty_first_line_not_counted_refuted : exists before line,
  whole_lines before /\ one_line line /\ line <> [] /\ no_mark (before ++ line) /\
  exists cmt, cmt_search (before ++ line) (zlen before) = Some cmt /\ c_line cmt = newlines before.
Proof.
  exists [10], (str "x"). split; [right; exists []; reflexivity|]. split; [repeat constructor; discriminate|]. split; [discriminate|].
  split; [intros u v E; apply (f_equal (@List.length Z)) in E; rewrite !app_length in E; cbn in E; lia|].
  eexists. split; vm_compute; reflexivity.
Qed.
Print Assumptions C78_empty_first_line_not_counted_refuted.

(** C78, where the program falls short.  A text that begins with the end of a mark
    makes the search read before the text. *)
Theorem C78_search_leaves_text_refuted : exists text position,
  0 <= position <= zlen text /\ cmt_search text position = None.
Proof. exists (str " #" ++ [10] ++ str "x"), 3. split; vm_compute; [split; discriminate|reflexivity]. Qed.
Print Assumptions C78_search_leaves_text_refuted.

(** Two marks; from the line with the letter, then from its end, from a macro and
    from above all marks. *)
Definition sample : bytes :=
  str "int a;" ++ [10] ++ str "// # one.c 3" ++ [10] ++ str "b" ++ [10] ++ str "// # dir/two.h 12" ++ [10] ++ str "x" ++ [10] ++ [208; 175] ++ str "=1;" ++ [10] ++
  str "// # m.h 4 9" ++ [10] ++ str "z" ++ [10].
Definition asked (position : Z) : option (bytes * bytes * bytes) :=
  do cmt <- cmt_search sample position; do tag <- cmt_get_tag sample cmt; Some (tag, cmt_get_path sample cmt, cmt_get_code_line sample cmt).
Example C78_example :
  asked 20 = Some (str "one.c:3:1", str "one.c", str "b") /\
  asked 40 = Some (str "dir/two.h:12:1", str "dir/two.h", str "x") /\
  asked 42 = Some (str "dir/two.h:13:1", str "dir/two.h", [208; 175] ++ str "=1;") /\
  asked 43 = Some (str "dir/two.h:13:1", str "dir/two.h", [208; 175] ++ str "=1;") /\
  asked 44 = Some (str "dir/two.h:13:2", str "dir/two.h", [208; 175] ++ str "=1;") /\
  asked 47 = Some (str "dir/two.h:13:5", str "dir/two.h", [208; 175] ++ str "=1;") /\
  (do cmt <- cmt_search sample 61; Some (cmt_get_path sample cmt, c_line cmt, c_symbol cmt)) = Some (str "m.h", 4, 9) /\
  (do cmt <- cmt_search sample 4; Some (cmt_is_correct cmt, c_line cmt, c_symbol cmt)) = Some (false, 1, 4).
Proof. vm_compute. repeat split. Qed.
(** The second of these as an instance of the theorem. *)
Example C78_hypotheses_met : exists cmt,
  cmt_search sample 44 = Some cmt /\ cmt_get_tag sample cmt = Some (str "dir/two.h:13:2").
Proof.
  pose proof (C78_tag_counts_characters (str "int a;" ++ [10] ++ str "// # one.c 3" ++ [10] ++ str "b" ++ [10]) (str "dir/two.h") 12 (str "x" ++ [10])
    ([208; 175] ++ str "=1;") ([10] ++ str "// # m.h 4 9" ++ [10] ++ str "z" ++ [10]) [1071] 61
    (str "1;" ++ [10] ++ str "// # m.h 4 9" ++ [10] ++ str "z" ++ [10] ++ [0]) 0) as T.
  destruct T as (cmt & A & B).
  - repeat constructor; discriminate.
  - discriminate.
  - lia.
  - vm_compute. discriminate.
  - right. exists (str "x"). reflexivity.
  - repeat constructor; discriminate.
  - right. eexists. reflexivity.
  - left. discriminate.
  - intros u v E. apply (f_equal (@List.length Z)) in E. rewrite !app_length in E. cbn in E. lia.
  - vm_compute. reflexivity.
  - repeat constructor; discriminate.
  - split; [discriminate|reflexivity].
  - split; [discriminate|reflexivity].
  - vm_compute. discriminate.
  - exists cmt. split; [exact A|exact B].
Qed.

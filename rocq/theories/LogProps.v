(** C71: what a message shows. *)
From Verif Require Import Prelude CodeModel Utf8Model Utf8Spec Utf8Proofs UniioModel LocModel LocSpec LocProofs LocProps LogModel LogSpec LogProofs.
Import String.StringSyntax.
Local Open Scope Z_scope.
Local Open Scope string_scope.
Local Open Scope list_scope.

(** A message about a character of a line is the message, the line and the word at
    that character underlined; there is one such word, and it may begin before. *)
Theorem C71_word_is_underlined : forall tag msg cs j,
  ~ In 10 tag -> ~ In 10 msg -> Forall line_char cs -> (j < List.length cs)%nat ->
  exists before w after,
    word_at cs j before w after
    /\ (forall b x a, word_at cs j b x a -> b = before /\ x = w /\ a = after)
    /\ (zlen (pointing msg before w after) < 4096 ->
        log_main tag msg (encs cs) (zlen (encs (firstn j cs))) = Some (Reported tag (pointing msg before w after))).
Proof.
  intros tag msg cs j T M F J. destruct (splice_at msg cs j F J) as (b & w & a & W & S). exists b, w, a. split; [exact W|]. split.
  - intros b' x a' W'. apply (word_one cs j); auto.
  - intros L. unfold log_main. rewrite !multiline_no by auto. cbn [orb]. rewrite S. unfold fit, MAX_MSG_SIZE.
    replace (zlen (pointing msg b w a) <? 4096) with true by lia. reflexivity.
Qed.
Print Assumptions C71_word_is_underlined.
(** Past the end of the line there is nothing to underline. *)
Theorem C71_end_of_line : forall tag msg cs,
  ~ In 10 tag -> ~ In 10 msg -> Forall line_char cs -> zlen msg + 1 + zlen (encs cs) < 4096 ->
  log_main tag msg (encs cs) (zlen (encs cs)) = Some (Reported tag (msg ++ [10] ++ encs cs)).
Proof.
  intros tag msg cs T M F L. unfold log_main. rewrite !multiline_no by auto. cbn [orb]. rewrite splice_end by exact F. unfold fit, MAX_MSG_SIZE.
  rewrite !zlen_app, zlen_cons, zlen_nil. replace (_ <? 4096) with true by lia. reflexivity.
Qed.
Print Assumptions C71_end_of_line.

(** A message at a location: the place is named, its line shown and its word
    underlined ([C70] says which place it is). *)
Theorem C71_message_at_a_location : forall own d loc p path before w after msg,
  shows own d loc p ->
  p_file p = Some path -> path <> [] -> Forall code_point path ->
  Forall line_char (p_shown p) ->
  1 <= p_column p -> word_at (p_shown p) (Z.to_nat (p_column p - 1)) before w after ->
  ~ In 10 msg ->
  let tag := encs path ++ str ":" ++ decimal (p_line p) ++ str ":" ++ decimal (p_column p) in
  zlen tag < 4096 -> zlen (pointing msg before w after) < 4096 ->
  log_auto own d loc msg = Some (Reported tag (pointing msg before w after)).
Proof.
  intros own d loc p path b w a msg S PF NP FP FL CP W M tag LT LP.
  assert (TG := C70_tag own d loc p path S PF FP NP). destruct S as (_ & _ & S3 & SL & SI).
  unfold log_auto. rewrite multiline_no by exact M. rewrite TG. fold tag. cbn [bind]. unfold fit at 1, MAX_MSG_SIZE. replace (zlen tag <? 4096) with true by lia. cbn [bind].
  assert (TN : tag <> []) by (unfold tag; destruct (encs path); discriminate). destruct tag as [|t0 tag]; [congruence|].
  rewrite SL. cbn [bind]. pose proof W as (E & (J1 & J2) & _).
  assert (J : (Z.to_nat (p_column p - 1) < List.length (p_shown p))%nat) by (rewrite E, !app_length; lia).
  assert (LL : zlen (encs (p_shown p)) < 4096).
  { unfold pointing in LP. rewrite <- E, !zlen_app in LP. pose proof (zlen_nonneg msg). pose proof (zlen_nonneg [10]). pose proof (zlen_nonneg (underline b w)). lia. }
  unfold fit, MAX_MSG_SIZE. replace (zlen (encs (p_shown p)) <? 4096) with true by lia. cbn [bind].
  destruct (encs (p_shown p)) as [|x r] eqn:EN; [pose proof (encs_pos (p_shown p)) as Q; rewrite EN, !zlen_unf in Q; cbn in Q; lia|]. rewrite <- EN.
  rewrite SI by (rewrite S3, zlen_unf; lia). rewrite S3. destruct (splice_at msg (p_shown p) _ FL J) as (b' & w' & a' & W' & SP). rewrite SP.
  destruct (word_one _ _ _ _ _ _ _ _ W W') as (<- & <- & <-). unfold fit, MAX_MSG_SIZE. replace (zlen (pointing msg b w a) <? 4096) with true by lia. reflexivity.
Qed.
Print Assumptions C71_message_at_a_location.

(** Printing: nothing is lost, and the colour marks the word and the line below. *)
Theorem C71_printed : forall tag msg before w after color tag_log,
  ~ In 10 msg -> w <> [] -> Forall line_char (before ++ w ++ after) ->
  default_log tag (pointing msg before w after) color tag_log
  = Some (Color COLOR_TAG :: print (tag ++ str ": ") ++ Color color :: print (tag_log ++ str ": ")
          ++ Color COLOR_DEFAULT :: print (msg ++ [10] ++ encs before)
          ++ Color color :: print (encs w)
          ++ Color COLOR_DEFAULT :: print (encs after)
          ++ Color color :: print ([10] ++ underline before w ++ [10]) ++ [Color COLOR_DEFAULT]).
Proof.
  intros tag msg b w a color tl M W F. unfold default_log. rewrite print_pointing by auto. cbn [bind]. f_equal. f_equal. f_equal. f_equal. f_equal. f_equal.
  unfold print. rewrite !map_app. cbn [map app]. rewrite <- !app_assoc. reflexivity.
Qed.
Print Assumptions C71_printed.
Theorem C71_printed_end : forall tag msg cs color tag_log,
  ~ In 10 msg -> Forall line_char cs ->
  default_log tag (msg ++ [10] ++ encs cs) color tag_log
  = Some (Color COLOR_TAG :: print (tag ++ str ": ") ++ Color color :: print (tag_log ++ str ": ")
          ++ Color COLOR_DEFAULT :: print (msg ++ [10] ++ encs cs ++ [10])).
Proof.
  intros tag msg cs color tl M F. unfold default_log. rewrite print_plain by auto. cbn [bind]. unfold print. rewrite !map_app. cbn [map app]. rewrite <- !app_assoc. reflexivity.
Qed.
Print Assumptions C71_printed_end.

Definition ex_line : list Z := [9] ++ str "y = " ++ [1094; 1077; 1083; 49] ++ str "+1;".
Example ex_word : Forall line_char ex_line /\ word_at ex_line 7 ([9] ++ str "y = ") [1094; 1077; 1083; 49] (str "+1;")
  /\ log_main (str "a.c:1:8") (str "error") (encs ex_line) (zlen (encs (firstn 7 ex_line)))
     = Some (Reported (str "a.c:1:8") (str "error" ++ [10] ++ encs ex_line ++ [10] ++ [9] ++ str "    ^~~~")).
Proof.
  split; [repeat constructor; cbn; lia|]. split; [|vm_compute; reflexivity]. split; [reflexivity|]. split; [cbn; lia|]. left. split; [repeat constructor; unfold in_word; lia|].
  split; [intros b c E|intros c a E; injection E as <- _; unfold in_word; lia].
  change ([9] ++ str "y = ") with (([9] ++ str "y =") ++ [32]) in E. apply app_inj_tail in E as [_ <-]. unfold in_word. lia.
Qed.
Example ex_nowhere : ~ In 10 (str "error") /\ ~ In 10 (str "a.c:1:8") /\ zlen (pointing (str "error") ([9] ++ str "y = ") [1094; 1077; 1083; 49] (str "+1;")) < 4096.
Proof. split; [cbn; intuition discriminate|]. split; [cbn; intuition discriminate|]. vm_compute. reflexivity. Qed.

(** The message is lost at an empty line: at the end of a text, for example. *)
Theorem C71_message_is_given_refuted : exists own d loc,
  loc_search (mkIn d (zlen d)) = Some loc
  /\ forall msg, ~ In 10 msg -> log_auto own d loc msg = Some NoLocation.
Proof.
  exists (str "a.c"), (str "int a" ++ [10]). eexists. split; [vm_compute; reflexivity|]. intros msg M. unfold log_auto. rewrite multiline_no by exact M. vm_compute. reflexivity.
Qed.
Print Assumptions C71_message_is_given_refuted.
(** Exactly then, for locations of lines which are short enough. *)
Theorem C71_message_is_given_partial : forall own d loc p path msg,
  shows own d loc p -> p_file p = Some path -> path <> [] -> Forall code_point path ->
  Forall line_char (p_shown p) -> 1 <= p_column p <= 1 + zlen (p_shown p) -> ~ In 10 msg ->
  let tag := encs path ++ str ":" ++ decimal (p_line p) ++ str ":" ++ decimal (p_column p) in
  zlen tag < 4096 -> zlen msg + 2 * zlen (encs (p_shown p)) + 3 < 4096 ->
  if zlen (p_shown p) =? 0 then log_auto own d loc msg = Some NoLocation
  else exists rest, log_auto own d loc msg = Some (Reported tag (msg ++ [10] ++ encs (p_shown p) ++ rest)).
Proof.
  intros own d loc p path msg S PF NP FP FL CP M tag LT LP. pose proof (zlen_nonneg msg). pose proof (zlen_nonneg (encs (p_shown p))).
  destruct (Z.eq_dec (p_column p) (1 + zlen (p_shown p))) as [C|C].
  - assert (TG := C70_tag own d loc p path S PF FP NP). destruct S as (_ & _ & S3 & SL & SI).
    unfold log_auto. rewrite multiline_no by exact M. rewrite TG. fold tag. cbn [bind]. rewrite (fit_ok tag) by exact LT. cbn [bind].
    assert (TN : tag <> []) by (unfold tag; destruct (encs path); discriminate). destruct tag as [|t0 tag]; [congruence|].
    rewrite SL. cbn [bind]. rewrite (fit_ok (encs (p_shown p))) by lia. cbn [bind].
    destruct (zlen (p_shown p) =? 0) eqn:E0.
    + destruct (p_shown p); [reflexivity|rewrite zlen_cons in E0; pose proof (zlen_nonneg l); lia].
    + destruct (encs (p_shown p)) as [|x r] eqn:EN; [pose proof (encs_pos (p_shown p)) as Q; rewrite EN, zlen_nil in Q; pose proof (zlen_nonneg (p_shown p)); lia|]. rewrite <- EN.
      rewrite SI by lia. rewrite S3, C. replace (Z.to_nat (1 + zlen (p_shown p) - 1)) with (List.length (p_shown p)) by (rewrite zlen_unf; lia). rewrite firstn_all, splice_end by exact FL.
      unfold fit, MAX_MSG_SIZE. rewrite EN in *. rewrite !zlen_app, (zlen_cons 10), zlen_nil. replace (_ <? 4096) with true by lia. cbn [bind]. exists []. rewrite app_nil_r. reflexivity.
  - assert (J : (Z.to_nat (p_column p - 1) < List.length (p_shown p))%nat) by (rewrite zlen_unf in *; lia).
    replace (zlen (p_shown p) =? 0) with false by (rewrite zlen_unf; lia).
    destruct (splice_at msg (p_shown p) _ FL J) as (b & w & a & W & _). pose proof W as (E & _).
    assert (U : zlen (pointing msg b w a) < 4096).
    { unfold pointing. rewrite <- E, !zlen_app, (zlen_cons 10), zlen_nil. assert (zlen (underline b w) <= zlen (encs (p_shown p)) + 1); [|lia].
      unfold underline. rewrite zlen_app, zlen_cons, (zlen_unf (map _ _)), (zlen_unf (repeat _ _)), map_length, repeat_length. pose proof (encs_pos (p_shown p)) as Q. rewrite (zlen_unf (p_shown p)), E, !app_length, <- E in Q. lia. }
    exists ([10] ++ underline b w). assert (G := C71_message_at_a_location own d loc p path b w a msg S PF NP FP FL ltac:(lia) W M LT U). unfold pointing in G. rewrite <- E in G. exact G.
Qed.
Print Assumptions C71_message_is_given_partial.
(** A message which is too long for the buffer is written outside it; there are
    such lines, whatever the message. *)
Theorem C71_message_fits_refuted :
  (forall tag msg cs j before w after,
     ~ In 10 tag -> ~ In 10 msg -> Forall line_char cs -> word_at cs j before w after ->
     4096 <= zlen (pointing msg before w after) ->
     log_main tag msg (encs cs) (zlen (encs (firstn j cs))) = None)
  /\ forall msg, exists cs j before w after, Forall line_char cs /\ word_at cs j before w after /\ 4096 <= zlen (pointing msg before w after).
Proof.
  split.
  - intros tag msg cs j b w a T M F W L. pose proof W as (E & (J1 & J2) & _). assert (J : (j < List.length cs)%nat) by (rewrite E, !app_length; lia).
    unfold log_main. rewrite !multiline_no by auto. cbn [orb]. destruct (splice_at msg cs j F J) as (b' & w' & a' & W' & S). destruct (word_one _ _ _ _ _ _ _ _ W W') as (<- & <- & <-).
    rewrite S. unfold fit, MAX_MSG_SIZE. replace (zlen (pointing msg b w a) <? 4096) with false by lia. reflexivity.
  - intros msg. set (n := Z.to_nat 4096). exists (repeat 97 n), 0%nat, [], (repeat 97 n), [].
    assert (R : forall x, In x (repeat 97 n) -> x = 97) by (intros x I; apply (repeat_spec n 97 x I)).
    split; [apply Forall_forall; intros x I; rewrite (R x I); unfold line_char, code_point; lia|]. split.
    + split; [rewrite app_nil_r; reflexivity|]. split; [rewrite repeat_length; cbn [List.length]; unfold n; lia|]. left.
      split; [apply Forall_forall; intros x I; rewrite (R x I); unfold in_word; lia|]. split; [intros [|? ?] ? E; discriminate|intros ? ? E; discriminate].
    + unfold pointing. rewrite !zlen_app, app_nil_r. cbn [app]. pose proof (encs_pos (repeat 97 n)) as Q. rewrite zlen_unf, repeat_length in Q. pose proof (zlen_nonneg msg).
      pose proof (zlen_nonneg [10]). pose proof (zlen_nonneg (underline [] (repeat 97 n))). unfold n in *. lia.
Qed.
Print Assumptions C71_message_fits_refuted.

(** C70: where a message points.

    A location found in preprocessed text is the file, the line, the column and the
    source line the code comes from; the marks the preprocessor prints make it so
    for whatever it copies from a file and for what it replaces. *)
From Verif Require Import Prelude CodeModel Utf8Model Utf8Spec Utf8Proofs UniioModel LocModel LocSpec LocProofs LocEmit.
Import String.StringSyntax.
Local Open Scope Z_scope.
Local Open Scope string_scope.
Local Open Scope list_scope.

(** In any text of lines and marks, from any place of any line of code, the search
    answers what the marks above say. *)
Theorem C70_search_finds_the_place : forall own above_ cur below_ j st,
  Forall proper (above_ ++ Code cur :: below_) ->
  walk start above_ = Some st ->
  (j <= List.length cur)%nat ->
  zlen (text (above_ ++ Code cur :: below_)) < SIZE_MAX ->
  exists loc,
    loc_search (mkIn (text (above_ ++ Code cur :: below_)) (zlen (above above_) + zlen (encs (firstn j cur)))) = Some loc
    /\ shows own (text (above_ ++ Code cur :: below_)) loc (place_of st cur j (hd_error below_)).
Proof.
  intros own ls cur ls2 j st F W J L. unfold loc_search. rewrite <- zlen_app. apply search_from_ok; auto. apply anchored_start.
Qed.
Print Assumptions C70_search_finds_the_place.

(** A location found before does not change the answer, wherever it was found. *)
Theorem C70_search_from_any_location : forall own ls1 cur1 ls1' j1 st1 ls2 cur2 ls2' j2 st2 loc1,
  ls1 ++ Code cur1 :: ls1' = ls2 ++ Code cur2 :: ls2' ->
  Forall proper (ls1 ++ Code cur1 :: ls1') ->
  walk start ls1 = Some st1 -> walk start ls2 = Some st2 ->
  (j1 <= List.length cur1)%nat -> (j2 <= List.length cur2)%nat ->
  let d := text (ls1 ++ Code cur1 :: ls1') in
  zlen d < SIZE_MAX ->
  loc_search (mkIn d (zlen (above ls1) + zlen (encs (firstn j1 cur1)))) = Some loc1 ->
  exists loc2,
    loc_search_from (mkIn d (zlen (above ls2) + zlen (encs (firstn j2 cur2)))) loc1 = Some loc2
    /\ shows own d loc2 (place_of st2 cur2 j2 (hd_error ls2')).
Proof.
  intros own ls1 cur1 ls1' j1 st1 ls2 cur2 ls2' j2 st2 loc1 E F W1 W2 J1 J2 d L S. unfold d in *.
  destruct (search_raw ls1 cur1 ls1' j1 st1 (mkLoc SIZE_MAX 0 FIRST_LINE FIRST_SYMBOL) F W1 J1 L) as (r & R & A); [apply anchored_start|].
  rewrite zlen_app in R. unfold loc_search in S. rewrite R in S. injection S as <-.
  pose proof (answers_anchor ls1 cur1 ls1' j1 st1 r ls2 (Code cur2 :: ls2') W1 A E) as H.
  rewrite E in *. rewrite <- zlen_app. apply search_from_ok; auto.
Qed.
Print Assumptions C70_search_from_any_location.

(** Every character the preprocessor copies from a file, and every character it
    puts instead of a call, is found in the output at the line and column of the
    file it comes from (the call, for a replacement), with that line of the file. *)
Theorem C70_output_is_located : forall own path ss out before b x k after,
  Forall plain_char path -> ~ In 34 path -> path <> [] ->
  Forall proper_sline ss ->
  1 + zlen (source ss) < SIZE_MAX ->
  emit_file (encs path) (source ss) ss = Some out -> zlen out < SIZE_MAX ->
  out = before ++ (b, Some (x, k)) :: after ->
  exists loc,
    loc_search (mkIn (map fst out) (zlen before)) = Some loc
    /\ shows own (map fst out) loc
         (mkPlace (Some path) x k (nth (Z.to_nat (x - 1)) (map source_line ss) [])).
Proof. intros. eapply (emitted_place path ss); eauto. Qed.
Print Assumptions C70_output_is_located.

(** Which characters these are: every one of the file which is not a blank, in its
    order, its line and column, the calls replaced; and the copying comes to an end. *)
Theorem C70_output_is_whole : forall path ss,
  Forall plain_char path -> ~ In 34 path -> path <> [] ->
  Forall proper_sline ss ->
  1 + zlen (source ss) < SIZE_MAX ->
  exists out, emit_file (encs path) (source ss) ss = Some out /\ visible out = shown_contents (contents 1 ss).
Proof.
  intros path ss P Q N F S. destruct (emit_file_ok path ss P Q N F S) as (tls & E & _). exists (whole tls). split; [exact E|].
  unfold emit_file in E. destruct (loc_search (mkIn (source ss) 0)) as [loc|]; [|discriminate]. cbn [bind] in E. eapply lines_visible; [exact F| |exact E]. reflexivity.
Qed.
Print Assumptions C70_output_is_whole.

(** What a message begins with. *)
Theorem C70_tag : forall own d loc p path,
  shows own d loc p -> p_file p = Some path -> Forall code_point path -> path <> [] ->
  loc_get_tag own d loc = Some (encs path ++ str ":" ++ decimal (p_line p) ++ str ":" ++ decimal (p_column p)).
Proof.
  intros own d loc p path (S1 & S2 & S3 & _) E F N. unfold loc_get_tag. rewrite S1, E, S2, S3. cbn [bind].
  destruct (encs path) eqn:Q; [|reflexivity]. destruct F as [|c path C F]; [congruence|]. cbn [encs flat_map] in Q. unfold Utf8Spec.enc in Q.
  destruct (c <? 128); [discriminate|]. destruct (c <? 2048); [discriminate|]. destruct (c <? 65536); discriminate.
Qed.
Print Assumptions C70_tag.

(** A file whose second line calls a macro with two lines of replacement. *)
Definition ex_file : list sline :=
  [ mkSline (str "int a;") [];
    mkSline (str " a = ") [ mkCall (str "MAX") [str "(x"; str "  y)"] (str " + 1;") ];
    mkSline [] [];
    mkSline (str "b") [ mkCall (str "MAX") [str "z"] [] ];
    mkSline (str "c;") [] ].
Definition ex_path : list Z := str "/a.c".
Example ex_proper : Forall plain_char ex_path /\ ~ In 34 ex_path /\ ex_path <> [] /\ Forall proper_sline ex_file /\ 1 + zlen (source ex_file) < SIZE_MAX.
Proof.
  assert (PL : forall cs, forallb (fun c => (0 <=? c) && (c <? 0x800) && negb (c =? 10)) cs = true -> Forall plain_char cs).
  { intros cs H. apply Forall_forall. intros c I. rewrite forallb_forall in H. specialize (H c I). unfold plain_char, encodable. lia. }
  split; [apply PL; reflexivity|]. split; [cbn; intuition discriminate|]. split; [discriminate|]. split; [|vm_compute; reflexivity].
  repeat constructor; try (apply PL; reflexivity); cbn; try discriminate; try lia.
  all: unfold encodable; lia.
Qed.
Example ex_out : option_map (map fst) (emit_file (encs ex_path) (source ex_file) ex_file) = Some
  (str "#line 1 ""/a.c""" ++ [10] ++ str "int a;" ++ [10]
   ++ str " a = " ++ [10] ++ str "#line 2 ""/a.c"" //  a = MAX + 1;" ++ [10] ++ str "     (x" ++ [10] ++ str "  y) " ++ [10]
   ++ str "#line 2" ++ [10] ++ str "         + 1;" ++ [10] ++ [10]
   ++ str "b" ++ [10] ++ str "#line 4 ""/a.c"" // bMAX" ++ [10] ++ str " z" ++ [10]
   ++ str "#line 5 ""/a.c""" ++ [10] ++ str "c;" ++ [10]).
Proof. vm_compute. reflexivity. Qed.

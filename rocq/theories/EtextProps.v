(** Properties of the text of preprocessor expressions. *)
From Verif Require Import Prelude Utf8Model ComputerModel ComputerSpec ComputerProofs ComputerProps EtextSpec EtextModel EtextProofs EtextBad.
From Coq Require String. Import String.StringSyntax.
Local Open Scope string_scope. Local Open Scope list_scope. Local Open Scope Z_scope.

Lemma not_blank replace total s l : reads replace over total s l -> l <> [] -> ~ blank s.
Proof.
  intros R N (g & r & G & O & ->).
  assert (X : exists q, skip_until (g ++ r) = Some q /\ loud q).
  { destruct R as [g1 s1 G1 O1|g1 t w s1 l1 G1 W E R1|g1 w s1 l1 G1 W E N1 R1|g1 w s1 v s1' lv l1 G1 W E N1 V R1|g1 g' w s1 l1 G1 G' W E R1]; [congruence|..];
      rewrite skip_gap by assumption.
    - exists (w ++ s1). split; [apply skip_starts; exact (spells_starts t w s1 W E)|]. destruct W as [k w D|k w D|ch N1|t w S].
      + destruct (decimal_begins k w D) as (a & x & -> & LL). cbn. unfold digit in LL. lia.
      + destruct (prefixed_begins k w D) as (x & ->). cbn. lia.
      + cbn. lia.
      + destruct (simple_first t w S) as (a & x & -> & I1). cbn in I1 |- *. lia.
    - destruct (word_begins w W) as (a & x & -> & LL). exists ((a :: x) ++ s1). split; [apply skip_starts, letter_starts, LL|]. cbn. unfold letter in LL. lia.
    - destruct (word_begins w W) as (a & x & -> & LL). exists ((a :: x) ++ s1). split; [apply skip_starts, letter_starts, LL|]. cbn. unfold letter in LL. lia.
    - eexists. split; [apply skip_starts; split; [cbn; lia|intros Q; discriminate Q]|]. cbn. lia. }
  destruct X as (q & K & L). rewrite skip_gap in K by assumption. destruct (skip_over r O) as (q' & K' & D). rewrite K in K'. injection K' as <-.
  destruct D as [->|(x & ->)]; cbn in L; lia.
Qed.
Lemma phrase_nonempty ts e k : phrase k ts e -> ts <> [].
Proof. induction 1; try discriminate; try assumption; intros X; apply app_eq_nil in X; destruct X; discriminate. Qed.

(** C73: the text of an expression means its tokens: blanks, comments and continued
    lines between them do not matter, the longest operator is meant, numbers are
    decimal or have a prefix, names which are no macros count as 0, a macro counts
    as the tokens of its value.  Missing: see [C40_values_follow_precedence_partial]. *)
Theorem C73_text_has_the_value_of_its_tokens_partial : forall replace before s l e,
  reads replace over (before + zlen s) s l -> phrase 1 (map snd l) e -> unary_fine e -> (forall e', In e' (parts e) -> value e' <> None) ->
  exists v n0, value e = Some v /\ forall n, (n0 <= n)%nat -> evaluate_text replace before n s = Some (v, None).
Proof.
  intros replace before s l e R P U D.
  destruct (C40_values_follow_precedence_partial (placed l) (map snd l) e (placed_hands l) P U D) as (v & V & E).
  destruct (text_evaluates replace before s l R) as [n0 H].
  { apply (not_blank replace (before + zlen s) s l R). pose proof (phrase_nonempty _ _ _ P). destruct l; [contradiction|discriminate]. }
  exists v, n0. split; [exact V|]. intros n L. rewrite (H n L), E. reflexivity.
Qed.
Print Assumptions C73_text_has_the_value_of_its_tokens_partial.

(** A text whose tokens are no expression, or which is blank, is never accepted. *)
Theorem C73_malformed_text_is_never_accepted : forall replace before s l,
  reads replace over (before + zlen s) s l -> ~ (exists e, phrase 1 (map snd l) e) ->
  exists n0, forall n v m, (n0 <= n)%nat -> evaluate_text replace before n s = Some (v, m) -> m <> None.
Proof.
  intros replace before s l R N.
  assert (B : blank s \/ ~ blank s).
  { destruct l as [|x l]; [|right; apply (not_blank _ _ _ _ R); discriminate].
    destruct (reads_loud _ _ _ _ _ R) as [X|(r & K & L)]; [left; exact X|right].
    intros (g & q & G & O & ->). rewrite skip_gap in K by assumption. destruct (skip_over q O) as (q' & K' & D). rewrite K in K'. injection K' as <-.
    destruct D as [->|(x & ->)]; cbn in L; lia. }
  destruct B as [B|B].
  - exists 0%nat. intros n v m _ E. rewrite (blank_is_reported replace before n s B) in E. injection E as <- <-. discriminate.
  - destruct (text_evaluates replace before s l R B) as [n0 H]. exists n0. intros n v m L E. rewrite (H n L) in E.
    unfold told in E. destruct (evaluate (placed l)) as [[v1 m1]|] eqn:Q; [|discriminate]. cbn [bind] in E. injection E as <- <-.
    pose proof (C41_malformed_is_never_accepted (placed l) (map snd l) v1 m1 (placed_hands l) N Q) as X.
    destruct m1 as [[? ?]|]; [discriminate|congruence].
Qed.
Print Assumptions C73_malformed_text_is_never_accepted.

(** Something that is no token is never accepted, whatever stands before it; the
    first thing in the text is reported as what it is. *)
Theorem C73_no_token_is_reported : forall replace before f s l,
  reads replace (bad f) (before + zlen s) s l ->
  exists n0, forall n, (n0 <= n)%nat ->
    (forall v m, evaluate_text replace before n s = Some (v, m) -> v = 0 /\ m <> None)
    /\ ((forall b, In (TBin b) (map snd l) -> In b [Lt; Gt; Le; Ge; Eq; Ne; BAnd; BXor; BOr; LAnd; LOr]) -> evaluate_text replace before n s <> None)
    /\ (l = [] -> evaluate_text replace before n s = Some (0, Some (SText match f with
         NotAToken => EXPR_INVALID_TOKEN | NotWhole => EXPR_FLOATING_CONSTANT | BadSuffix => EXPR_INVALID_SUFFIX | NotClosed => STRING_UNTERMINATED end))).
Proof.
  intros replace before f s l R. destruct (bad_is_reported replace before f s l R) as [n0 H]. destruct (bad_evaluates replace before f s l R) as [n1 H1].
  exists (Nat.max n0 n1). intros n L. destruct (H n) as [A B]; [lia|]. split; [exact A|]. split.
  - intros S. apply B. apply Forall_forall. intros t I. destruct t as [| | | |b| |]; cbn; auto.
    specialize (S b I). destruct b; cbn in S; auto; repeat (destruct S as [S|S]; [discriminate S|]); exact S.
  - intros ->. rewrite (H1 n) by lia. destruct f; reflexivity.
Qed.
Print Assumptions C73_no_token_is_reported.

(** Nothing to evaluate. *)
Theorem C73_blank_is_reported : forall replace before n s, blank s ->
  evaluate_text replace before n s = Some (0, Some (SComp DIRECTIVE_NO_EXPRESSION ITEM_MAX)).
Proof. intros replace before n s B. apply blank_is_reported, B. Qed.
Print Assumptions C73_blank_is_reported.

(** ** Not as in C *)
Definition no_macros (w s : list Z) : option (option (list Z * list Z)) := None.
(** A macro [A]. *)
Definition macro_A (v : list Z) (w s : list Z) : option (option (list Z * list Z)) :=
  if list_eq_dec Z.eq_dec w (chars "A") then Some (Some (v, s)) else None.
(** A number with a prefix in the value of a macro is refused, though it is accepted
    in the text of the directive. *)
Theorem C73_prefix_in_a_macro_refuted :
  evaluate_text no_macros 4 9 (chars "0x10") = Some (16, None)
  /\ evaluate_text (macro_A (chars "0x10")) 4 9 (chars "A") = Some (0, Some (SText EXPR_INVALID_SUFFIX)).
Proof. split; vm_compute; reflexivity. Qed.
Print Assumptions C73_prefix_in_a_macro_refuted.
(** A nought before a number does not make it octal; the sequences of a character
    constant are not read: the first character counts, even a closing quote. *)
Theorem C73_constants_of_C_refuted :
  evaluate_text no_macros 4 9 (chars "010") = Some (10, None)
  /\ evaluate_text no_macros 4 9 [39; 92; 110; 39] = Some (92, None)
  /\ evaluate_text no_macros 4 9 [39; 97; 98; 39] = Some (97, None)
  /\ evaluate_text no_macros 4 9 [39; 39] = Some (39, None).
Proof. repeat split; vm_compute; reflexivity. Qed.
Print Assumptions C73_constants_of_C_refuted.

(** ** Examples *)
Lemma plain_ends (w s : list Z) : (match w with a :: _ => letter a = true \/ digit a = true | [] => False end) ->
  (match s with [] => True | c :: _ => letter c = false /\ digit c = false /\ c <> 46 end) -> ends_here w s.
Proof.
  intros W S. destruct s as [|c s]; [exact Logic.I|]. cbn [ends_here]. split; [|intros; exact S].
  intros I. exfalso. destruct w as [|a w]; [exact W|]. unfold operators in I. cbn in I.
  repeat (destruct I as [I|I]; [injection I as I _; subst a; destruct W as [W|W]; discriminate W|]). exact I.
Qed.
Lemma token_at replace fin total p g t w s l : p = total - zlen (w ++ s) -> gap g -> spells t w -> ends_here w s -> reads replace fin total s l ->
  reads replace fin total (g ++ w ++ s) ((p, t) :: l).
Proof. intros ->. apply r_token. Qed.
Ltac at_place := rewrite !zlen_unf; reflexivity.
(** "2 +/* two */A<<0x1Fu // end": with [A] for 3 the value is 5 << 31. *)
Definition ex_text : list Z := chars "2 +/* two */A<<0x1Fu // end".
Definition ex_tokens : list (Z * tok) := [(10, TNum 2); (12, TBin Add); (22, TNum 3); (23, TBin Shl); (25, TNum 31)].
Lemma ex_reads : reads (macro_A (chars "3")) over (10 + zlen ex_text) ex_text ex_tokens.
Proof.
  unfold ex_text, ex_tokens. vm_compute (chars _).
  match goal with |- reads _ _ ?t _ _ => assert (T : t = 37) by at_place; rewrite T; clear T end.
  apply (token_at _ _ _ 10 [] (TNum 2) [50]); [at_place|constructor|apply sp_decimal, (sn_plain [50] []); [split; [discriminate|repeat constructor]|reflexivity|left; reflexivity]|apply plain_ends; cbn; [right|]; auto; repeat split; lia|].
  apply (token_at _ _ _ 12 [32] (TBin Add) [43]); [at_place|apply g_blank; [left; reflexivity|constructor]|apply sp_simple, (s_bin Add)|split; [|intros a r E0; injection E0 as <- <-; intros [X|X]; discriminate X]|].
  { intros _ [c' I]. unfold operators in I. cbn in I. repeat (destruct I as [I|I]; [discriminate I|]). exact I. }
  apply (r_macro _ _ _ ([47; 42] ++ [32; 116; 119; 111; 32] ++ [42; 47] ++ []) [65] [60; 60; 48; 120; 49; 70; 117; 32; 47; 47; 32; 101; 110; 100] [51] [60; 60; 48; 120; 49; 70; 117; 32; 47; 47; 32; 101; 110; 100] [(22, TNum 3)]).
  - apply (g_comment [32; 116; 119; 111; 32] []); [|constructor]. intros u v E. cbn in E.
    do 5 (destruct u as [|? u]; [discriminate E|cbn in E; injection E as _ E]).
    destruct u as [|? u]; [cbn in E; injection E; intros; subst; reflexivity|cbn in E; injection E as _ E].
    destruct u as [|? u]; [discriminate E|cbn in E; injection E as _ E]. destruct u; discriminate E.
  - split; reflexivity.
  - apply plain_ends; cbn; [left; reflexivity|]. repeat split; lia.
  - reflexivity.
  - match goal with |- value_reads ?p _ _ => assert (T : p = 22) by at_place; rewrite T; clear T end. apply (v_number 22 [] 3 [51] []); [constructor; constructor|apply (sn_plain [51] []); [split; [discriminate|repeat constructor]|reflexivity|left; reflexivity]|exact Logic.I|intros X; discriminate X|].
    apply (v_over 22 []). constructor. constructor.
  - apply (token_at _ _ _ 23 [] (TBin Shl) [60; 60]); [at_place|constructor|apply sp_simple, (s_bin Shl)|split; [|intros a r E0; injection E0 as <- <-; intros [X|X]; discriminate X]|].
    { intros _ [c' I]. unfold operators in I. cbn in I. repeat (destruct I as [I|I]; [discriminate I|]). exact I. }
    apply (token_at _ _ _ 25 [] (TNum 31) [48; 120; 49; 70; 117]); [at_place|constructor|..].
    { apply sp_prefixed, (sn_prefixed 16 [48; 120] [49; 70] [117]); [cbn; tauto|split; [discriminate|repeat constructor]|reflexivity|intros X; discriminate X|right; left; reflexivity]. }
    { apply plain_ends; cbn; [right; reflexivity|]. repeat split; lia. }
    apply (r_fin _ _ _ [32]); [apply g_blank; [left; reflexivity|constructor]|]. apply (o_comment [32; 101; 110; 100] []); [|left; reflexivity].
    split; [cbn; lia|]. split; intros u; [intros v|]; intros X; exfalso; repeat (destruct u as [|? u]; [discriminate X|cbn in X; first [discriminate X|injection X as _ X]]).
Qed.
Example C73_example : exists n0, forall n, (n0 <= n)%nat -> evaluate_text (macro_A (chars "3")) 10 n ex_text = Some (5 * 2 ^ 31, None).
Proof.
  destruct (C73_text_has_the_value_of_its_tokens_partial (macro_A (chars "3")) 10 ex_text ex_tokens
    (EBin Shl (EBin Add (ENum 2) (ENum 3)) (ENum 31)) ex_reads) as (v & n0 & V & H).
  - cbn [map snd ex_tokens].
    apply (phrase_le 8); [lia|]. apply (ph_binary Shl [TNum 2; TBin Add; TNum 3] [TNum 31]); cbn [prec].
    + apply (phrase_le 9); [lia|]. apply (ph_binary Add [TNum 2] [TNum 3]); cbn [prec]; [apply (phrase_le 11); [lia|constructor]|apply (phrase_le 11); [lia|constructor]].
    + apply (phrase_le 11); [lia|constructor].
  - intros u e' I. cbn in I. repeat (destruct I as [I|I]; [discriminate I|]). contradiction.
  - cbn. intros e' I. repeat (destruct I as [<-|I]; [vm_compute; discriminate|]). contradiction.
  - vm_compute in V. injection V as <-. exists n0. exact H.
Qed.
Example C73_example_computes : evaluate_text (macro_A (chars "3")) 10 9 ex_text = Some (5 * 2 ^ 31, None).
Proof. vm_compute. reflexivity. Qed.
(** "1 2": no expression; "1 = 2": no token; "1 +" is reported too. *)
Example C73_example_wrong :
  evaluate_text no_macros 4 9 (chars "1 2") = Some (0, Some (SComp EXPR_MISSING_BINARY 6))
  /\ evaluate_text no_macros 4 9 (chars "1 = 2") = Some (0, Some (SText EXPR_INVALID_TOKEN))
  /\ evaluate_text no_macros 4 9 (chars "1.5") = Some (0, Some (SText EXPR_FLOATING_CONSTANT))
  /\ evaluate_text no_macros 4 9 (chars "5km") = Some (0, Some (SText EXPR_INVALID_SUFFIX))
  /\ evaluate_text no_macros 4 9 (chars " /* nothing */ ") = Some (0, Some (SComp DIRECTIVE_NO_EXPRESSION ITEM_MAX)).
Proof. repeat split; vm_compute; reflexivity. Qed.
Example C73_example_bad : reads no_macros (bad NotAToken) (4 + zlen (chars "1 = 2")) (chars "1 = 2") [(4, TNum 1)].
Proof.
  vm_compute (chars _). apply (token_at _ _ _ 4 [] (TNum 1) [49]); [at_place|constructor|apply sp_decimal, (sn_plain [49] []); [split; [discriminate|repeat constructor]|reflexivity|left; reflexivity]|apply plain_ends; cbn; [right; reflexivity|repeat split; lia]|].
  apply (r_fin _ _ _ [32] [61; 32; 50]); [apply g_blank; [left; reflexivity|constructor]|]. apply b_assign; [discriminate|].
  exists [32], [50]. split; [apply g_blank; [left; reflexivity|constructor]|]. split; [reflexivity|]. right. exists 50, []. split; [reflexivity|]. cbn. split; lia.
Qed.

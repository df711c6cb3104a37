(** C45: stringizing. *)
From Verif Require Import Prelude LexModel LexSpec LexProofs LexProps StrzModel StrzSpec StrzProofs.
Local Open Scope Z_scope.

(** The result is one string literal, whatever the argument. *)
Theorem C45_one_literal : forall a, exists body, stringize a = 34 :: body ++ [34] /\ unbroken body.
Proof. exact strz_one. Qed.
Print Assumptions C45_one_literal.

(** An argument without back slashes and line ends: the lexer reads the literal as
    the argument's characters. *)
Theorem C45_text_partial : forall e l before a g rest,
  Forall (fun c => c <> 10 /\ c <> 92) a ->
  text (before ++ stringize a ++ g ++ rest) -> stands l before (stringize a ++ g ++ rest) -> Forall blank g -> not_blank_or_quote rest ->
  exists l', returns e l (mkTok (l_pos l) (l_pos l') TK_STRING_LITERAL (DString (zlen (l_strs l)))) l'
    /\ stands l' (before ++ stringize a ++ g) rest /\ l_strs l' = l_strs l ++ [a] /\ l_errs l' = l_errs l /\ l_map l' = l_map l.
Proof. intros e l before a g rest P T S G R. apply C22_strings; try assumption. apply strz_quoted. apply plain_kept. exact P. Qed.
Print Assumptions C45_text_partial.

(** With back slashes: which characters are kept. *)
Theorem C45_kept_partial : forall e l before a s g rest,
  kept a s ->
  text (before ++ stringize a ++ g ++ rest) -> stands l before (stringize a ++ g ++ rest) -> Forall blank g -> not_blank_or_quote rest ->
  exists l', returns e l (mkTok (l_pos l) (l_pos l') TK_STRING_LITERAL (DString (zlen (l_strs l)))) l'
    /\ stands l' (before ++ stringize a ++ g) rest /\ l_strs l' = l_strs l ++ [s] /\ l_errs l' = l_errs l /\ l_map l' = l_map l.
Proof. intros e l before a s g rest P T S G R. apply C22_strings; try assumption. apply strz_quoted. exact P. Qed.
Print Assumptions C45_kept_partial.

(** An argument with quotes, one with a quote after a back slash. *)
Example C45_example : let a := [97; 32; 34; 98; 34; 43; 49] in let b := [34; 92; 34; 34] in
  Forall (fun c => c <> 10 /\ c <> 92) a /\ kept b b /\
  stringize a = [34; 97; 32; 92; 34; 98; 92; 34; 43; 49; 34] /\
  match lex 100 e_lex (on (stringize a ++ [59])), lex 100 e_lex (on (stringize b ++ [59])) with
  | Some (_, l), Some (_, l') => l_strs l = [a] /\ l_errs l = [] /\ l_strs l' = [b] /\ l_errs l' = []
  | _, _ => False
  end.
Proof.
  cbv zeta. split; [repeat constructor; lia|]. split; [|vm_compute; auto].
  apply k_plain; try lia. apply k_quote. apply k_plain; try lia. constructor.
Qed.

(** The full statement fails: a back slash and n between quotes become a line end, and a
    back slash at the end is lost. *)
Theorem C45_backslash_refuted :
  (exists l t l', text (stringize [34; 92; 110; 34]) /\ stands l [] (stringize [34; 92; 110; 34])
    /\ returns e_lex l t l' /\ l_strs l = [] /\ l_strs l' = [[34; 10; 34]])
  /\ stringize [97; 92] = stringize [97].
Proof.
  split; [|reflexivity]. set (q := stringize [34; 92; 110; 34]).
  assert (T : text q) by (apply codes; reflexivity).
  assert (K : kept [34; 92; 110; 34] [34; 10; 34]).
  { apply k_plain; try lia. apply k_escape; [lia|constructor|]. apply k_plain; try lia. constructor. }
  destruct (C45_kept_partial e_lex (on q) [] _ _ [] [] K) as (l' & R & _ & S & _).
  - cbn [app]. rewrite app_nil_r. exact T.
  - cbn [app]. rewrite app_nil_r. apply on_stands. exact T.
  - constructor.
  - exact Logic.I.
  - exists (on q). eexists. exists l'. split; [exact T|]. split; [apply on_stands; exact T|]. split; [exact R|]. split; [reflexivity|exact S].
Qed.
Print Assumptions C45_backslash_refuted.

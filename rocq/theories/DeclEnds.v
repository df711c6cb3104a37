(** The parser of whole programs ends, and goes wrong only with cause. *)
From Verif Require Import Prelude LexModel ParseModel ParseSpec ParseFuel ParseProofs ParseBack ParseSkip StmtModel StmtSpec StmtProofs StmtEnds StmtEnv DeclModel DeclSpec DeclProofs.

Section T.
Variable E : Type.
Variable note : E -> entry -> ctype * E * nat.
Variables type_of tag_of : E -> Z -> option ctype.
Variable correct : E -> expr -> bool.
Variable enum_value : E -> ctype -> expr -> option (Z * bool).
Variables enter leave : E -> E.
Variable constant : E -> expr -> bool.
Variable is_main : E -> Z -> bool.
Variable main_parameter : ctype -> bool.
Variable skipped : E -> Z -> ctype -> bool.
Hypothesis broken_seen : forall env, correct env EBroken = false.
Notation V := (denv E).
Notation P := (ps V).
Notation lp p := (length (toks V p)).
Notation isdecl := (is_declaration_specifier V (v_type_name E type_of)).
Notation block_decl := (block_declaration E note type_of tag_of correct enum_value).
Lemma decl_forward env s d s' env' : block_decl env s = Some (d, (s', env')) -> sfx s s'.
Proof.
  unfold block_declaration. set (p := mkPs s env false false false).
  destruct (decl_is E note type_of tag_of correct enum_value (fst s) p) as (d1 & q & -> & [A _] & _); [exists []; reflexivity|]. cbn [bind]. intros [= <- <- <-]. exact A.
Qed.
Lemma decl_total env s : declares V (v_type_name E type_of) env (fst s) = true -> exists d s' env', block_decl env s = Some (d, (s', env')) /\ (length (fst s') < length (fst s))%nat.
Proof.
  intros K. unfold block_declaration. set (p := mkPs s env false false false).
  destruct (decl_is E note type_of tag_of correct enum_value (fst s) p) as (d1 & q & -> & _ & A); [exists []; reflexivity|]. cbn [bind]. do 3 eexists. split; [reflexivity|]. apply A. unfold is_declaration_specifier, toks. unfold declares in K. cbn [p p_s p_env]. destruct (fst s) as [|[] l]; exact K.
Qed.
Section Whole.
Variable L : list tok.
Notation St := (St E L).
Notation RF := (RF E L).
Notation here := (here E L).
Notation T p F := (exists a q, F = Some (a, q) /\ St p q).
Lemma decl_faults env s d s' env' : within L (fst s) -> block_decl env s = Some (d, (s', env')) -> RF env env'.
Proof.
  intros H. unfold block_declaration. set (p := mkPs s env false false false).
  destruct (decl_is E note type_of tag_of correct enum_value L p) as (d1 & q & -> & [_ A] & _); [exact H|]. cbn [bind]. intros [= <- <- <-]. exact A.
Qed.
Notation pstmt := (parse_statement V decl (v_enter E enter) (v_leave E leave) (v_type_name E type_of) block_decl (v_correct E correct) (v_constant E constant)).
Lemma within_suffix t l : within L (t ++ l) -> within L l.
Proof. intros [u ->]. exists (u ++ t). apply app_assoc. Qed.
Lemma body_is p : here p -> pis V p TK_L_BRACE = true -> T p (parse_compound_statement_body V decl (v_type_name E type_of) block_decl (pstmt (lp p)) p).
Proof.
  intros H K.
  assert (X: exists x q, parse_compound_statement_body V decl (v_type_name E type_of) block_decl (pstmt (lp p)) p = Some (x, q) /\ sfx (p_s p) (p_s q)).
  { unfold parse_compound_statement_body. set (p0 := pconsume V p). assert (L0: (lp p0 < lp p)%nat) by (unfold pis in K; apply is_len in K; [exact K|discriminate]).
    destruct (items_ends V decl (v_enter E enter) (v_leave E leave) (v_type_name E type_of) block_decl (v_correct E correct) (v_constant E constant) decl_forward decl_total (fun v => broken_seen (v_env v)) (lp p)
      (statement_ends V decl (v_enter E enter) (v_leave E leave) (v_type_name E type_of) block_decl (v_correct E correct) (v_constant E constant) decl_forward decl_total (fun v => broken_seen (v_env v)) (lp p)) (S (lp p0)) p0) as (xs & q & X); [exact L0|unfold plen, len, toks; lia|].
    rewrite X. cbn [bind]. assert (A: sfx (p_s p) (p_s q)).
    { apply (fine_items V decl (v_type_name E type_of) block_decl decl_forward _ (fine_statement V decl (v_enter E enter) (v_leave E leave) (v_type_name E type_of) block_decl (v_correct E correct) (v_constant E constant) decl_forward _)) in X as [[X _] _]. eapply sfx_trans; [apply sfx_consume|exact X]. }
    destruct (negb _); do 2 eexists; (split; [reflexivity|]); eapply sfx_trans; try exact A; [apply sfx_error|apply sfx_consume]. }
  destruct X as (x & q & X & Y). exists x, q. split; [exact X|]. split; [exact Y|].
  apply (G_body V decl (v_type_name E type_of) block_decl decl_forward (within L) within_suffix RF (RF_refl E L) (RF_trans E L) decl_faults (pstmt (lp p))) in X as [_ X]; [exact (X H)|].
  apply (keeps_statement V decl (v_enter E enter) (v_leave E leave) (v_type_name E type_of) block_decl (v_correct E correct) (v_constant E constant) decl_forward (within L) within_suffix RF (RF_refl E L) (RF_trans E L)).
  - intros e. split; auto.
  - intros e. split; auto.
  - exact decl_faults.
Qed.

Ltac back := first [assumption | apply St_refl
  | match goal with H : DeclProofs.St _ _ ?c ?b |- DeclProofs.St _ _ _ ?b' => apply (St_trans E L _ c b'); [clear H; back | exact H] end
  | match goal with |- DeclProofs.St _ _ _ (pconsume _ ?r) => apply (St_trans E L _ r); [back|apply St_consume] end
  | match goal with |- DeclProofs.St _ _ _ (perror _ ?r) => apply (St_trans E L _ r); [back|apply St_error] end
  | match goal with |- DeclProofs.St _ _ _ (noted _ _ _ ?r) => apply (St_trans E L _ r); [back|apply (St_noted E note type_of tag_of correct enum_value L)] end
  | match goal with |- DeclProofs.St _ _ _ (pexpect _ ?r _) => apply (St_trans E L _ r); [back|apply St_expect] end
  | match goal with |- DeclProofs.St _ _ _ (if ?c then _ else _) => destruct c; back end ].
Lemma skip_body_is p : T p (skip_body E p).
Proof. unfold skip_body. destruct (skip_to_is E type_of tag_of L TK_R_BRACE TK_R_BRACE p) as (q & -> & A). cbn [bind]. do 2 eexists. split; [reflexivity|exact A]. Qed.
Notation fdef := (parse_function_definition E note type_of tag_of correct enum_value enter leave constant skipped).
Lemma definition_is name t result p : here p -> pis V p TK_L_BRACE = true -> T p (fdef name t result p).
Proof.
  intros H K. unfold parse_function_definition. destruct (skipped _ _ _).
  { destruct (skip_body_is (noted E note (NBody name t) p)) as (x & q & X & A). exists x, q. split; [exact X|]. assert (St p (noted E note (NBody name t) p)) by back. back. }
  set (p1 := noted E note (NBody name t) (no_return E p)). assert (A: St p p1) by (apply (St_trans E L _ (no_return E p)); [exact (St_refl E L p)|apply (St_noted E note type_of tag_of correct enum_value L)]).
  assert (Q: toks V p1 = toks V p) by (unfold p1; rewrite noted_toks; reflexivity).
  destruct (body_is p1) as (x & q & -> & B); [exact (St_within E L _ _ A H)|unfold pis, is in *; change (fst (p_s p1)) with (toks V p1); rewrite Q; exact K|].
  cbn [bind]. do 2 eexists. split; [reflexivity|]. destruct (_ && _); back.
Qed.
Lemma main_errors_pos r t d : 0 <= main_errors main_parameter r t d.
Proof.
  unfold main_errors. assert (0 <= match r with CInteger | CVoid => 0 | _ => 1 end) by (destruct r; lia). assert (0 <= (if d =? 1 then 0 else 1)) by (destruct (d =? 1); lia).
  assert (0 <= match t with CFunction _ [] => 0 | CFunction _ [x] => if main_parameter x then 0 else 1 | CFunction _ _ => 1 | _ => 0 end); [|lia].
  destruct t as [| | | | | | | | | |? [|? [|? ?]]|]; try lia. destruct (main_parameter _); lia.
Qed.
Notation fdecl := (parse_function_declaration E note type_of tag_of correct enum_value enter leave constant is_main main_parameter skipped).
Lemma function_is fd t p name l : here p -> toks V p = TIdent name :: l -> T p (fdecl fd t p).
Proof.
  intros H TT. unfold parse_function_declaration. set (p0 := if is_const t then perror V p else p). assert (A0: St p p0) by (unfold p0; destruct (is_const t); back).
  assert (Q0: toks V p0 = TIdent name :: l) by (unfold p0; destruct (is_const t); exact TT). rewrite Q0.
  set (p1 := pconsume V (pconsume V p0)). assert (A1: St p p1) by (unfold p1; back).
  destruct (function_declarator_is E note type_of tag_of correct enum_value L t p1 (St_within E L _ _ A1 H)) as ([t2 d] & p2 & -> & A2). cbn [bind].
  set (fd1 := if _ =? 0 then _ else _). set (p3 := if is_main (table E p2) name then _ else p2).
  assert (A3: St p2 p3). { unfold p3. destruct (is_main _ _); [|back]. split; [|exact (RF_refl E L _)]. split; cbn [with_s p_s fst snd]; [exists []; reflexivity|]. pose proof (main_errors_pos t t2 fd1). lia. }
  set (p4 := noted E note (NFunction name t2 fd1) p3). assert (A4: St p p4) by (unfold p4; back).
  match goal with |- context [bind ?a _] => assert (W: exists b q, a = Some (b, q) /\ St p4 q) end.
  { destruct (pis V p4 TK_L_BRACE) eqn:K.
    - destruct (fd1 =? 1); [exact (definition_is name t2 t p4 (St_within E L _ _ A4 H) K)|]. destruct (skip_body_is (perror V p4)) as (b & q & X & B). exists b, q. split; [exact X|]. assert (St p4 (perror V p4)) by back. back.
    - destruct (fd1 =? 1); [|do 2 eexists; split; [reflexivity|back]]. destruct (ptry V (perror V p4) TK_SEMICOLON) as [b q] eqn:X. apply (St_try E L) in X. do 2 eexists. split; [reflexivity|]. cbn [snd]. assert (St p4 (perror V p4)) by back. back. }
  destruct W as (b & q & -> & B). cbn [bind]. do 2 eexists. split; [reflexivity|]. clear A0 A1 A2 A3. back.
Qed.
Lemma try_false p k q : ptry V p k = (false, q) -> q = p /\ cur (toks V p) <> k.
Proof. unfold ptry, pis, is, toks. destruct (_ =? k) eqn:X; [discriminate|]. intros [= <-]. split; [reflexivity|lia]. Qed.
Notation exts := (parse_externals E note type_of tag_of correct enum_value enter leave constant is_main main_parameter skipped).
Lemma externals_are : forall h fd t p, here p -> (lp p < h)%nat -> exists xs d q, exts h fd t p = Some (xs, d, q) /\ St p q
  /\ (no_ident (toks V p) -> (lp q < lp p)%nat \/ (d = fd /\ (cur (toks V q) = TK_EOF \/ cur (toks V q) = TK_SEMICOLON))).
Proof.
  induction h as [|h IHh]; intros fd t p H Hh; [lia|]. cbn [parse_externals]. destruct (ptry V p TK_STAR) as [star p1] eqn:X. pose proof (St_try E L _ _ _ _ X) as A1.
  set (t1 := if star then CPointer t else t).
  match goal with |- context [bind ?a _] => assert (W: exists x d q, a = Some (x, d, q) /\ St p1 q /\ (no_ident (toks V p1) -> d = fd /\ (cur (toks V q) = TK_EOF \/ cur (toks V q) = TK_COMMA \/ cur (toks V q) = TK_SEMICOLON))) end.
  { assert (S0: exists x d q, (do p0 <- pskip V (Z.lor TK_COMMA TK_SEMICOLON) (perror V p1); Some (XBroken, fd, p0)) = Some (x, d, q) /\ St p1 q /\ (no_ident (toks V p1) -> d = fd /\ (cur (toks V q) = TK_EOF \/ cur (toks V q) = TK_COMMA \/ cur (toks V q) = TK_SEMICOLON))).
    { destruct (skip_is E type_of tag_of L (Z.lor TK_COMMA TK_SEMICOLON) (perror V p1)) as (q & -> & B & C). cbn [bind]. do 3 eexists. split; [reflexivity|]. split; [assert (St p1 (perror V p1)) by back; back|]. intros _. split; [reflexivity|].
      destruct C as [C|[I C]]; [auto|]. cbn [In] in I. destruct I as [I|[I|[I|[I|[I|[]]]]]]; rewrite <- I in *; auto; elim C; reflexivity. }
    destruct (toks V p1) as [|[name| | | | |] l] eqn:TT; try exact S0. destruct (cur l =? TK_L_PAREN).
    { destruct (function_is fd t1 p1 name l) as ([x d] & q & -> & B); [exact (St_within E L _ _ A1 H)|exact TT|]. do 3 eexists. split; [reflexivity|]. split; [exact B|]. intros []. }
    destruct (is_void t). { do 3 eexists. split; [reflexivity|]. split; [back|]. intros []. }
    destruct (init_declarator_is E note type_of tag_of correct enum_value L t1 p1) as (d & q & -> & B). cbn [bind]. do 3 eexists. split; [reflexivity|]. split; [exact B|]. intros []. }
  destruct W as (x & d & p2 & -> & A2 & C). cbn [bind]. destruct (ptry V p2 TK_COMMA) as [more p3] eqn:Y. pose proof (St_try E L _ _ _ _ Y) as A3.
  pose proof (St_len E L _ _ A1) as L1. pose proof (St_len E L _ _ A2) as L2. destruct more.
  - assert (B: St p p3) by back. apply try_strict in Y; [|discriminate]. destruct (IHh d t p3 (St_within E L _ _ B H) ltac:(lia)) as (xs & d2 & q & -> & D & _). cbn [bind]. do 3 eexists. split; [reflexivity|].
    split; [clear A1 A2 A3; back|]. intros _. left. apply St_len in D. lia.
  - apply try_false in Y as [-> Y]. do 3 eexists. split; [reflexivity|]. split; [back|]. intros NI. destruct star; [apply try_strict in X; [|discriminate]; left; lia|]. apply try_false in X as [-> _].
    destruct (C NI) as [-> [D|[D|D]]]; [auto|contradiction|auto].
Qed.
Notation ext := (parse_external_definition E note type_of tag_of correct enum_value enter leave constant is_main main_parameter skipped).
Lemma external_is p : here p -> exists xs q, ext p = Some (xs, q) /\ St p q /\ ((lp q < lp p)%nat \/ cur (toks V q) = TK_EOF).
Proof.
  intros H. unfold parse_external_definition. set (p0 := type_defined E p false). assert (A0: St p p0) by apply St_type_defined.
  destruct (specifier_is E note type_of tag_of correct enum_value L p0 H) as (t & m & p1 & -> & A1 & B). cbn [bind].
  destruct (if v_type_def (p_env p1) then ptry V p1 TK_SEMICOLON else (false, p1)) as [[] q] eqn:X.
  { destruct (v_type_def (p_env p1)); [|discriminate]. pose proof (St_try E L _ _ _ _ X) as A2. apply try_strict in X; [|discriminate]. do 2 eexists. split; [reflexivity|]. split; [back|]. left. apply St_len in A1. change (lp p0) with (lp p) in A1. lia. }
  assert (A: St p p1) by back. clear X q A0 A1.
  destruct (externals_are (S (lp p1)) 3 t p1 (St_within E L _ _ A H) ltac:(lia)) as (xs & d & p2 & -> & A2 & C). cbn [bind]. do 2 eexists. split; [reflexivity|].
  split; [destruct (d =? 1); back|]. set (q := if d =? 1 then p2 else pexpect V p2 TK_SEMICOLON). assert (A3: St p2 q) by (unfold q; destruct (d =? 1); back).
  pose proof (St_len E L _ _ A2) as L2. pose proof (St_len E L _ _ A3) as L3.
  destruct B as [B|[(-> & _ & NI)|B]].
  - left. change (lp p0) with (lp p) in B. lia.
  - change (toks V p0) with (toks V p) in NI. destruct (C NI) as [D|[-> D]]; [left; change (lp (perror V p0)) with (lp p) in *; lia|]. change (cur (fst (p_s p2)) = TK_EOF \/ cur (fst (p_s p2)) = TK_SEMICOLON) in D. change q with (pexpect V p2 TK_SEMICOLON). unfold pexpect, expect_and_consume, is, toks. cbn [with_s p_s].
    destruct D as [D|D]; rewrite D.
    + right. cbn. rewrite andb_false_r. exact D.
    + left. cbn [Z.eqb]. change (TK_SEMICOLON =? TK_SEMICOLON) with true. cbn [consume fst]. unfold toks in L2. change (fst (p_s (perror V p0))) with (fst (p_s p)) in L2. destruct (fst (p_s p2)); [discriminate|]. cbn [tl length] in *. lia.
  - right. change (toks V p0) with (toks V p) in B. apply St_len in A. rewrite B in A. cbn [length] in A. assert (lp q = 0%nat) by lia. destruct (toks V q); [reflexivity|discriminate].
Qed.
Notation unit := (parse_translation_unit E note type_of tag_of correct enum_value enter leave constant is_main main_parameter skipped).
Lemma unit_is : forall h p, here p -> (lp p < h)%nat -> exists xs q, unit h p = Some (xs, q) /\ St p q /\ cur (toks V q) = TK_EOF.
Proof.
  induction h as [|h IHh]; intros p H Hh; [lia|]. cbn [parse_translation_unit]. destruct (external_is p H) as (xs & q & -> & A & B). cbn [bind]. destruct (pis V q TK_EOF) eqn:K.
  - do 2 eexists. split; [reflexivity|]. split; [exact A|]. unfold pis, is, toks in *. lia.
  - destruct B as [B|B]; [|unfold pis, is, toks in *; lia]. destruct (IHh q (St_within E L _ _ A H) ltac:(lia)) as (ys & r & -> & C & D). cbn [bind]. do 2 eexists. split; [reflexivity|]. split; [back|exact D].
Qed.
End Whole.
Lemma program_is p : exists xs q, program E note type_of tag_of correct enum_value enter leave constant is_main main_parameter skipped p = Some (xs, q)
  /\ sfx (p_s p) (p_s q) /\ cur (toks V q) = TK_EOF /\ forall f, v_fault (p_env q) = Some f -> v_fault (p_env p) = Some f \/ cause f (toks V p).
Proof.
  destruct (unit_is (toks V p) (S (lp p)) p) as (xs & q & X & [A [B _]] & C); [exists []; reflexivity|lia|]. exists xs, q. auto.
Qed.
End T.

(** The texts on which the parser of declarations goes wrong. *)
From Verif Require Import Prelude LexModel ParseModel ParseSpec ParseFuel ParseProofs ParseBack ParseSkip StmtModel StmtSpec StmtProofs StmtEnds StmtEnv DeclModel DeclSpec DeclProofs DeclEnds.

Section T.
Variable E : Type.
Variable note : E -> entry -> ctype * E * nat.
Variables type_of tag_of : E -> Z -> option ctype.
Variable correct : E -> expr -> bool.
Variable enum_value : E -> ctype -> expr -> option (Z * bool).
Variables enter leave : E -> E.
Variable constant : E -> expr -> bool.
Variable is_main : E -> Z -> bool.
Variable main_parameter : ctype -> bool.
Variable skipped : E -> Z -> ctype -> bool.
Hypothesis broken_seen : forall env, correct env EBroken = false.
Notation V := (denv E).
Notation P := (ps V).
Notation lp p := (length (toks V p)).
Notation spec := (parse_type_specifier E note type_of tag_of correct enum_value).
Notation program := (program E note type_of tag_of correct enum_value enter leave constant is_main main_parameter skipped).
Notation specifier := (specifier E note type_of tag_of correct enum_value).
Lemma after_specifier p t m p1 : specifier (type_defined E p false) = Some (t, m, p1) -> exists xs q, program p = Some (xs, q) /\ St E (toks V p) p1 q.
Proof.
  intros X. set (L := toks V p). assert (H: here E L p) by (exists []; reflexivity).
  unfold DeclModel.program. cbn [parse_translation_unit].
  assert (W: exists xs q, parse_external_definition E note type_of tag_of correct enum_value enter leave constant is_main main_parameter skipped p = Some (xs, q) /\ St E L p1 q).
  { unfold parse_external_definition. rewrite X. cbn [bind]. destruct (specifier_is E note type_of tag_of correct enum_value L (type_defined E p false) H) as (t' & m' & p1' & X' & A & _). rewrite X in X'. injection X' as <- <- <-.
    destruct (if v_type_def (p_env p1) then ptry V p1 TK_SEMICOLON else (false, p1)) as [[] q] eqn:Y.
    { destruct (v_type_def (p_env p1)); [|discriminate]. apply (St_try E L) in Y. eauto. }
    destruct (externals_are E note type_of tag_of correct enum_value enter leave constant is_main main_parameter skipped broken_seen L (S (lp p1)) 3 t p1) as (xs & d & q2 & -> & B & _); [exact (St_within E L _ _ A H)|lia|]. cbn [bind].
    do 2 eexists. split; [reflexivity|]. destruct (d =? 1); [exact B|]. apply (St_trans E L _ q2 _ B). apply St_expect. }
  destruct (external_is E note type_of tag_of correct enum_value enter leave constant is_main main_parameter skipped broken_seen L p H) as (xs & q & Y & A & B). rewrite Y in W |- *. destruct W as (? & ? & [= <- <-] & C). cbn [bind].
  destruct (pis V q TK_EOF) eqn:K; [eauto|]. destruct B as [B|B]; [|unfold pis, is, toks in *; lia].
  destruct (unit_is E note type_of tag_of correct enum_value enter leave constant is_main main_parameter skipped broken_seen L (lp p) q (St_within E L _ _ A H) ltac:(lia)) as (ys & r & -> & D & _). cbn [bind]. do 2 eexists. split; [reflexivity|]. exact (St_trans E L _ _ _ C D).
Qed.

(** ** Structures *)
Lemma struct_round f (p : P) : toks V p = [] -> exists q, parse_member_declaration E note correct (spec (S f)) p = Some (None, q) /\ toks V q = [] /\ p_env q = p_env p /\ snd (p_s q) = snd (p_s p) + 2.
Proof.
  destruct p as [[l n] e lo sw re]. unfold toks. cbn [p_s fst]. intros ->. eexists. split; [reflexivity|]. cbn. repeat split; lia.
Qed.
Lemma no_brace_St L p q k : St E L p q -> Forall (fun x => kind x <> k) (toks V p) -> Forall (fun x => kind x <> k) (toks V q).
Proof. intros [[[t H] _] _] F. unfold toks in *. rewrite H in F. apply Forall_app in F. tauto. Qed.
Lemma members_fault L g f : (exists x, In x L /\ kind x = TK_STRUCT) -> (forall p, here E L p -> (lp p < g)%nat -> exists a q, spec f p = Some (a, q) /\ St E L p q) -> forall h p ms q, here E L p -> (lp p < g)%nat ->
  parse_members E note correct (spec f) h p = Some (ms, q) -> Forall (fun x => kind x <> TK_R_BRACE) (toks V p) -> v_fault (p_env q) <> None.
Proof.
  intros CA IH. induction h as [|h IHh]; intros p ms q H G X F; [discriminate|]. cbn [parse_members] in X.
  destruct (pis V p TK_R_BRACE) eqn:K1. { exfalso. unfold pis, is in K1. unfold toks in F. destruct (fst (p_s p)) as [|x l]; [discriminate|]. inversion F. cbn [cur] in K1. lia. }
  destruct (pis V p TK_EOF) eqn:K2. { injection X as <- <-. cbn. destruct (v_fault (p_env p)); discriminate. }
  destruct (member_is E note type_of tag_of correct enum_value L g (spec f) IH p H G) as (m & p1 & Y & A & B); [unfold pis, is, toks in *; lia..|]. rewrite Y in X. cbn [bind] in X.
  destruct (parse_members E note correct (spec f) h p1) as [[ms1 q1]|] eqn:Z; cbn [bind] in X; [|discriminate]. injection X as <- <-.
  apply (IHh p1 ms1 q1 (St_within E L _ _ A H) ltac:(lia) Z). exact (no_brace_St _ _ _ _ A F).
Qed.
Lemma unclosed_struct name l n env lo sw re : Forall (fun x => kind x <> TK_R_BRACE) l ->
  exists xs q, program (mkPs (TKey TK_STRUCT :: tag name ++ TKey TK_L_BRACE :: l, n) env lo sw re) = Some (xs, q) /\ v_fault (p_env q) <> None.
Proof.
  intros F. set (p := mkPs _ env lo sw re). set (L := toks V p). set (g := lp p). set (p2 := mkPs (l, n) (mkDenv (v_env env) true (v_fault env)) lo sw re).
  assert (H2: here E L p2) by (destruct name as [name|]; [exists [TKey TK_STRUCT; TIdent name; TKey TK_L_BRACE]|exists [TKey TK_STRUCT; TKey TK_L_BRACE]]; reflexivity).
  assert (G2: (lp p2 < g)%nat) by (unfold g, p, p2, toks; cbn [p_s fst length]; rewrite app_length; cbn [length]; lia).
  assert (IH: forall p, here E L p -> (lp p < g)%nat -> exists a q, spec g p = Some (a, q) /\ St E L p q).
  { intros p0 H0 G0. destruct (specifier_is' E note type_of tag_of correct enum_value L g p0 H0 G0) as (a & q & X & Y). exists a, q. split; [exact X|]. apply St_or. tauto. }
  assert (CA: exists x, In x L /\ kind x = TK_STRUCT) by (exists (TKey TK_STRUCT); split; [left; reflexivity|reflexivity]).
  destruct (members_are E note type_of tag_of correct enum_value L g (spec g) IH CA (S (lp p2)) p2 H2 G2 ltac:(lia)) as (ms & p3 & X & A).
  pose proof (members_fault L g g CA IH _ _ _ _ H2 G2 X F) as FA.
  assert (Y: specifier (type_defined E p false) = Some (let '(t, q) := enters E note (NStruct name ms) p3 in (t, true, q))).
  { unfold DeclModel.specifier. change (lp (type_defined E p false)) with g. cbn [parse_type_specifier].
    transitivity (parse_struct_specifier E note tag_of correct (spec g) (type_defined E p false)); [reflexivity|]. unfold parse_struct_specifier. destruct name as [name|]; cbn [pconsume consume with_s toks p_s fst snd tl tag app p].
    - change (parse_struct_declaration E note correct (spec g) (Some name) (mkPs (TKey TK_L_BRACE :: l, n) (mkDenv (v_env env) false (v_fault env)) lo sw re) = Some (let '(t, q) := enters E note (NStruct (Some name) ms) p3 in (t, true, q))).
      unfold parse_struct_declaration. change (pconsume V (type_defined E _ true)) with p2. rewrite X. cbn [bind]. destruct (enters _ _ _ _). reflexivity.
    - change (parse_struct_declaration E note correct (spec g) None (mkPs (TKey TK_L_BRACE :: l, n) (mkDenv (v_env env) false (v_fault env)) lo sw re) = Some (let '(t, q) := enters E note (NStruct None ms) p3 in (t, true, q))).
      unfold parse_struct_declaration. change (pconsume V (type_defined E _ true)) with p2. rewrite X. cbn [bind]. destruct (enters _ _ _ _). reflexivity. }
  destruct (enters E note (NStruct name ms) p3) as [t q1] eqn:Z. pose proof (St_enters E note type_of tag_of correct enum_value L _ _ _ _ Z) as [_ [_ B]].
  destruct (after_specifier _ _ _ _ Y) as (xs & q & W & [_ [_ C]]). exists xs, q. split; [exact W|]. destruct (v_fault (p_env p3)) as [f|] eqn:FF; [|contradiction]. rewrite (C _ (B _ eq_refl)). discriminate.
Qed.

(** ** Enumerations *)
Lemma enum_spec name l n env lo sw re p : p = mkPs (TKey TK_ENUM :: tag name ++ TKey TK_L_BRACE :: l, n) env lo sw re -> cur l <> TK_R_BRACE ->
  forall fs p3, (let '(type, p) := enters E note NEnumType (mkPs (l, n) (mkDenv (v_env env) false (v_fault env)) lo sw re) in parse_enumerators E note enum_value (S (lp p)) type 2 0 p) = Some (fs, p3) -> v_fault (p_env p3) <> None ->
  exists xs q, program p = Some (xs, q) /\ v_fault (p_env q) = v_fault (p_env p3).
Proof.
  intros -> N fs p3 X FA. set (p := mkPs _ env lo sw re).
  set (p2 := mkPs (l, n) (mkDenv (v_env env) false (v_fault env)) lo sw re) in *. destruct (enters E note NEnumType p2) as [type p2'] eqn:EN.
  assert (Y: exists t p4, parse_enum_declaration_list E note enum_value (mkPs (TKey TK_L_BRACE :: l, n) (mkDenv (v_env env) false (v_fault env)) lo sw re) = Some (t, p4) /\ v_fault (p_env p4) = v_fault (p_env p3)).
  { unfold parse_enum_declaration_list. change (pconsume V _) with p2. unfold ptry. replace (pis V p2 TK_R_BRACE) with false by (symmetry; unfold pis, is, p2; cbn [p_s fst]; lia).
    rewrite EN, X. cbn [bind]. destruct fs; do 2 eexists; (split; [reflexivity|]); [|reflexivity]. unfold noted, enters. destruct (note _ _) as [[? ?] ?]. reflexivity. }
  destruct Y as (t & p4 & Y & FE).
  assert (Z: exists t m p5, specifier (type_defined E p false) = Some (t, m, p5) /\ v_fault (p_env p5) = v_fault (p_env p3)).
  { unfold DeclModel.specifier. cbn [parse_type_specifier].
    assert (Q: exists t m p5, parse_enum_specifier E note tag_of enum_value (mkPs (tag name ++ TKey TK_L_BRACE :: l, n) (mkDenv (v_env env) false (v_fault env)) lo sw re) = Some (t, m, p5) /\ v_fault (p_env p5) = v_fault (p_env p3)); [|exact Q].
    unfold parse_enum_specifier. destruct name as [name|]; cbn [tag app toks p_s fst].
    - change (pis V (pconsume V _) TK_L_BRACE) with true. cbn iota. change (pconsume V _) with (mkPs (TKey TK_L_BRACE :: l, n) (mkDenv (v_env env) false (v_fault env)) lo sw re). rewrite Y. cbn [bind].
      destruct (enters E note (NEnumName name t) p4) as [t5 p5] eqn:Z5. do 3 eexists. split; [reflexivity|]. unfold enters in Z5. destruct (note _ _) as [[? ?] ?]. injection Z5 as <- <-. exact FE.
    - change (pis V (mkPs (TKey TK_L_BRACE :: l, n) (mkDenv (v_env env) false (v_fault env)) lo sw re) TK_L_BRACE) with true. cbn iota. rewrite Y. cbn [bind]. do 3 eexists. split; [reflexivity|exact FE]. }
  destruct Z as (t5 & m & p5 & Z & FE5). destruct (after_specifier _ _ _ _ Z) as (xs & q & W & [_ [_ C]]). exists xs, q. split; [exact W|]. rewrite <- FE5 in *. destruct (v_fault (p_env p5)) as [f|]; [|contradiction]. apply C. reflexivity.
Qed.
Lemma enum_no_name name x l n env lo sw re : v_fault env = None -> kind x <> TK_R_BRACE -> (forall y, x <> TIdent y) ->
  exists xs q, program (mkPs (TKey TK_ENUM :: tag name ++ TKey TK_L_BRACE :: x :: l, n) env lo sw re) = Some (xs, q) /\ v_fault (p_env q) = Some Assertion.
Proof.
  intros F0 N I. set (p2 := mkPs (x :: l, n) (mkDenv (v_env env) false (v_fault env)) lo sw re). destruct (enters E note NEnumType p2) as [type p2'] eqn:EN.
  assert (T2: toks V p2' = x :: l) by (apply enters_len in EN; rewrite EN; reflexivity). assert (FE: v_fault (p_env p2') = None) by (unfold enters in EN; destruct (note _ _) as [[? ?] ?]; injection EN as <- <-; exact F0).
  assert (X: exists fs p3, parse_enumerators E note enum_value (S (lp p2')) type 2 0 p2' = Some (fs, p3) /\ v_fault (p_env p3) = Some Assertion).
  { cbn [parse_enumerators]. rewrite T2. destruct (skip_is E type_of tag_of [] (Z.lor TK_SEMICOLON TK_R_BRACE) (perror V p2')) as (q & Y & _ & _).
    assert (FQ: v_fault (p_env q) = None). { unfold pskip in Y. destruct (recover _ _); cbn [bind] in Y; [|discriminate]. injection Y as <-. exact FE. }
    assert (W: exists fs p3, (do p0 <- pskip V (Z.lor TK_SEMICOLON TK_R_BRACE) (perror V p2'); Some (@None (list (Z * Z)), stop E Assertion p0)) = Some (fs, p3) /\ v_fault (p_env p3) = Some Assertion).
    { rewrite Y. cbn [bind]. do 2 eexists. split; [reflexivity|]. cbn [stop with_s with_env p_env v_fault]. rewrite FQ. reflexivity. }
    destruct x as [y| | | | |]; try exact W. elim (I y). reflexivity. }
  destruct X as (fs & p3 & X & FA). destruct (enum_spec name (x :: l) n env lo sw re _ eq_refl N fs p3) as (xs & q & A & B); [fold p2; rewrite EN; exact X|rewrite FA; discriminate|]. exists xs, q. rewrite B. auto.
Qed.
Lemma noted_fault x p : v_fault (p_env (noted E note x p)) = v_fault (p_env p).
Proof. unfold noted, enters. destruct (note _ _) as [[? ?] ?]. reflexivity. Qed.
Lemma consumed (p : P) x l : toks V p = x :: l -> toks V (pconsume V p) = l.
Proof. unfold toks, pconsume, consume, with_s. cbn [p_s fst]. intros ->. reflexivity. Qed.
Lemma plain_step h type md value p a l : toks V p = TIdent a :: l -> cur l <> TK_EQUAL -> value <> LLONG_MAX -> md + 1 < 100 ->
  parse_enumerators E note enum_value (S h) type md value p =
    (let p1 := noted E note (NEnumerator a type value) (pconsume V p) in
     let p2 := if pis V p1 TK_R_BRACE then p1 else pexpect V p1 TK_COMMA in
     do ' (fs, p4) <- (let '(closed, p) := ptry V p2 TK_R_BRACE in if closed then Some (Some [], p) else parse_enumerators E note enum_value h type (md + 2) (value + 1) p);
     Some (match fs with Some fs0 => Some ((value, a) :: fs0) | None => None end, p4)).
Proof.
  intros TT N V1 M. cbn [parse_enumerators]. rewrite TT. replace (pis V (pconsume V p) TK_EQUAL) with false.
  2:{ symmetry. unfold pis, is. change (fst (p_s (pconsume V p))) with (toks V (pconsume V p)). rewrite (consumed _ _ _ TT). lia. }
  replace (value =? LLONG_MAX) with false by lia. replace (100 <=? md + 1) with false by lia. reflexivity.
Qed.
Lemma over_step h type md value p a l : toks V p = TIdent a :: l -> cur l <> TK_EQUAL -> value <> LLONG_MAX -> 100 <= md + 1 ->
  parse_enumerators E note enum_value (S h) type md value p = Some (None, stop E Overrun (noted E note (NEnumerator a type value) (pconsume V p))).
Proof.
  intros TT N V1 M. cbn [parse_enumerators]. rewrite TT. replace (pis V (pconsume V p) TK_EQUAL) with false.
  2:{ symmetry. unfold pis, is. change (fst (p_s (pconsume V p))) with (toks V (pconsume V p)). rewrite (consumed _ _ _ TT). lia. }
  replace (value =? LLONG_MAX) with false by lia. replace (100 <=? md + 1) with true by lia. reflexivity.
Qed.
Lemma enumerators_overrun type : forall ns k (p : P) h l, toks V p = names ns ++ l -> cur l <> TK_EQUAL -> (lp p < h)%nat -> (k <= 49)%nat -> (49 < k + length ns)%nat -> v_fault (p_env p) = None ->
  exists fs q, parse_enumerators E note enum_value h type (2 + 2 * Z.of_nat k) (Z.of_nat k) p = Some (fs, q) /\ v_fault (p_env q) = Some Overrun.
Proof.
  induction ns as [|a ns IH]; intros k p h l TT N Hh Hk C F0; [cbn [length] in C; lia|]. destruct h as [|h]; [lia|].
  assert (TC: toks V p = TIdent a :: (match ns with [] => [] | _ => TKey TK_COMMA :: names ns end) ++ l) by (rewrite TT; destruct ns; reflexivity).
  assert (N': cur ((match ns with [] => [] | _ => TKey TK_COMMA :: names ns end) ++ l) <> TK_EQUAL) by (destruct ns; [exact N|discriminate]).
  assert (VN: Z.of_nat k <> LLONG_MAX) by (unfold LLONG_MAX, two63; lia).
  destruct (Nat.eq_dec k 49) as [->|K].
  - rewrite (over_step _ _ _ _ _ _ _ TC N' VN); [|lia]. do 2 eexists. split; [reflexivity|]. cbn [stop with_s with_env p_env v_fault]. rewrite noted_fault. change (v_fault (p_env (pconsume V p))) with (v_fault (p_env p)). rewrite F0. reflexivity.
  - rewrite (plain_step _ _ _ _ _ _ _ TC N' VN); [|lia]. cbn zeta. destruct ns as [|b ns]; [cbn [length] in C; lia|]. set (p1 := noted E note (NEnumerator a type (Z.of_nat k)) (pconsume V p)).
    assert (T1: toks V p1 = TKey TK_COMMA :: names (b :: ns) ++ l) by (unfold p1; rewrite noted_toks; exact (consumed _ _ _ TC)).
    replace (pis V p1 TK_R_BRACE) with false by (unfold pis, is; change (fst (p_s p1)) with (toks V p1); rewrite T1; reflexivity).
    assert (PE: pexpect V p1 TK_COMMA = pconsume V p1). { unfold pexpect, pconsume, expect_and_consume, is. change (fst (p_s p1)) with (toks V p1). rewrite T1. reflexivity. } rewrite PE. set (p2 := pconsume V p1).
    assert (T2: toks V p2 = names (b :: ns) ++ l) by exact (consumed _ _ _ T1).
    unfold ptry. replace (pis V p2 TK_R_BRACE) with false by (unfold pis, is; change (fst (p_s p2)) with (toks V p2); rewrite T2; destruct ns; reflexivity).
    replace (2 + 2 * Z.of_nat k + 2) with (2 + 2 * Z.of_nat (S k)) by lia. replace (Z.of_nat k + 1) with (Z.of_nat (S k)) by lia.
    destruct (IH (S k) p2 h l T2 N) as (fs & q & -> & FA); [rewrite T2; rewrite TC in Hh; cbn [length app] in Hh |- *; lia|lia|cbn [length] in C |- *; lia| |].
    { unfold p2, p1. change (v_fault (p_env (noted E note (NEnumerator a type (Z.of_nat k)) (pconsume V p))) = None). rewrite noted_fault. exact F0. }
    cbn [bind]. do 2 eexists. split; [reflexivity|exact FA].
Qed.
Lemma many_enumerators name ns l n env lo sw re : v_fault env = None -> (49 < length ns)%nat -> cur l <> TK_EQUAL ->
  exists xs q, program (mkPs (TKey TK_ENUM :: tag name ++ TKey TK_L_BRACE :: names ns ++ l, n) env lo sw re) = Some (xs, q) /\ v_fault (p_env q) = Some Overrun.
Proof.
  intros F0 C N. set (p2 := mkPs (names ns ++ l, n) (mkDenv (v_env env) false (v_fault env)) lo sw re). destruct (enters E note NEnumType p2) as [type p2'] eqn:EN.
  assert (T2: toks V p2' = names ns ++ l) by (apply enters_len in EN; rewrite EN; reflexivity). assert (FE: v_fault (p_env p2') = None) by (unfold enters in EN; destruct (note _ _) as [[? ?] ?]; injection EN as <- <-; exact F0).
  destruct (enumerators_overrun type ns 0 p2' (S (lp p2')) l T2 N ltac:(lia) ltac:(lia) ltac:(lia) FE) as (fs & p3 & X & FA).
  destruct (enum_spec name (names ns ++ l) n env lo sw re _ eq_refl) with (fs := fs) (p3 := p3) as (xs & q & A & B); [destruct ns as [|a [|b ns]]; [cbn [length] in C; lia|discriminate..]|fold p2; rewrite EN; exact X|rewrite FA; discriminate|]. exists xs, q. rewrite B. auto.
Qed.

(** ** Parameters *)
Lemma int_param inner l p : toks V p = TKey TK_INT :: l -> In (cur l) [TK_COMMA; TK_R_PAREN] -> forall fd, fd = 3 \/ fd = 2 ->
  parse_parameter E note type_of tag_of correct enum_value inner true fd p = Some (Some (CInteger, 2), pconsume V p).
Proof.
  intros TT C fd FD. set (p1 := pconsume V p). assert (T1: toks V p1 = l) by exact (consumed _ _ _ TT).
  assert (NK: forall k, k <> TK_COMMA -> k <> TK_R_PAREN -> pis V p1 k = false). { intros k K1 K2. unfold pis, is. change (fst (p_s p1)) with (toks V p1). rewrite T1. cbn [In] in C. destruct C as [C|[C|[]]]; rewrite <- C; lia. }
  assert (X: specifier p = Some (CInteger, false, p1)).
  { unfold DeclModel.specifier. cbn [parse_type_specifier]. rewrite TT. unfold pis, is. change (fst (p_s p)) with (toks V p). rewrite TT. reflexivity. }
  unfold parse_parameter. rewrite X. cbn [bind]. unfold star_const, ptry. rewrite (NK TK_STAR) by discriminate.
  assert (Y: parse_squares E (S (lp p1)) CInteger p1 = Some (CInteger, p1)) by (cbn [parse_squares]; unfold ptry; rewrite (NK TK_L_SQUARE) by discriminate; reflexivity).
  assert (Z1: forall arg, parse_function_parameter E note inner true arg false CInteger p1 = Some (Some (CInteger, false), p1)) by (intros arg; unfold parse_function_parameter, ptry; rewrite (NK TK_L_PAREN) by discriminate; reflexivity).
  cbn [is_void andb]. rewrite (NK TK_L_SQUARE) by discriminate. cbn [andb]. rewrite Y. cbn [bind]. rewrite Z1. cbn [bind].
  destruct (toks V p1) as [|[y| | | | |] r] eqn:TR; try (destruct FD as [-> | ->]; reflexivity). rewrite <- T1 in C. cbn [In cur kind] in C. destruct C as [C|[C|[]]]; discriminate.
Qed.
Lemma params_overrun inner : forall m k fd (p : P) h l, fd = 3 \/ fd = 2 -> toks V p = ints m ++ l -> cur l = TK_R_PAREN -> (lp p < h)%nat -> (k <= 97)%nat -> (97 < k + m)%nat -> v_fault (p_env p) = None ->
  exists r q, parse_parameters E note type_of tag_of correct enum_value inner h true fd (3 + Z.of_nat k) p = Some (r, q) /\ v_fault (p_env q) = Some Overrun.
Proof.
  induction m as [|m IH]; intros k fd p h l FD TT CL Hh Hk C F0; [lia|]. destruct h as [|h]; [lia|]. cbn [parse_parameters].
  assert (TC: toks V p = TKey TK_INT :: (match m with O => [] | _ => TKey TK_COMMA :: ints m end) ++ l) by (rewrite TT; destruct m; reflexivity).
  rewrite (int_param inner _ p TC); [|destruct m; [rewrite <- CL; right; left; reflexivity|left; reflexivity]|exact FD]. cbn [bind]. set (p1 := pconsume V p).
  destruct (Nat.eq_dec k 97) as [->|K].
  - replace (100 <=? 3 + Z.of_nat 97) with true by lia. do 2 eexists. split; [reflexivity|]. cbn [stop with_s with_env p_env v_fault]. unfold p1. change (v_fault (p_env (pconsume V p))) with (v_fault (p_env p)). rewrite F0. reflexivity.
  - replace (100 <=? 3 + Z.of_nat k) with false by lia. destruct m as [|m]; [lia|]. assert (T1: toks V p1 = TKey TK_COMMA :: ints (S m) ++ l) by exact (consumed _ _ _ TC).
    unfold ptry. replace (pis V p1 TK_COMMA) with true by (unfold pis, is; change (fst (p_s p1)) with (toks V p1); rewrite T1; reflexivity).
    replace (3 + Z.of_nat k + 1) with (3 + Z.of_nat (S k)) by lia. assert (T2: toks V (pconsume V p1) = ints (S m) ++ l) by exact (consumed _ _ _ T1).
    destruct (IH (S k) 2 (pconsume V p1) h l) as (r & q & X & FA); [auto|exact T2|exact CL|rewrite T2; rewrite TC in Hh; cbn [length app] in Hh |- *; lia|lia|lia|exact F0|]. change (Z.of_nat (S k)) with (Z.of_nat (S k)) in X. rewrite X. cbn [bind]. do 2 eexists. split; [reflexivity|exact FA].
Qed.
Lemma many_parameters m result l n env lo sw re : v_fault env = None -> (97 < m)%nat -> cur l = TK_R_PAREN ->
  exists t d q, parse_function_declarator E note type_of tag_of correct enum_value result (mkPs (ints m ++ l, n) env lo sw re) = Some (t, d, q) /\ v_fault (p_env q) = Some Overrun.
Proof.
  intros F0 C CL. unfold parse_function_declarator, declarator_body. set (p := mkPs _ env lo sw re). unfold ptry. replace (pis V p TK_R_PAREN) with false by (destruct m as [|[|m]]; [lia|reflexivity..]).
  destruct (params_overrun (inner_declarator E note type_of tag_of correct enum_value (S (lp p))) m 0 3 p (S (lp p)) l) as (r & q & X & FA); [auto|reflexivity|exact CL|lia|lia|lia|exact F0|]. change (3 + Z.of_nat 0) with 3 in X. rewrite X. cbn [bind].
  destruct r as [[ts d]|]; do 3 eexists; (split; [reflexivity|]); [|exact FA]. unfold pexpect. exact FA.
Qed.
End T.

(** Words in a history; progress; [peek]; whole texts. *)
From Verif Require Import Prelude Utf8Model Utf8Spec Utf8Proofs UniioModel UniioSpec UniioProofs StringsModel StringsSpec StringsRun MapModel MapSpec MapProofs LexModel LexText LexProofs LexMono LexStep LexWord LexSpec LexFacts LexRun LexHistory.

Lemma take_app p a b : Forall (fun c => p c = true) a -> match b with [] => True | c :: _ => p c = false end ->
  take_while p (a ++ b) = a /\ drop_while p (a ++ b) = b.
Proof.
  intros H N. induction H as [|c a C H IH]; cbn [app].
  - destruct b as [|c b]; [split; reflexivity|]. cbn [take_while drop_while]. rewrite N. split; reflexivity.
  - cbn [take_while drop_while]. rewrite C. destruct IH as (-> & ->). split; reflexivity.
Qed.

Lemma word_switch e w rest : word w -> ends_word rest -> exists c cs, w = c :: cs /\ utf8_is_letter c || (c =? 35) = true /\
  l_blanks (w ++ rest) = w ++ rest /\ l_switch e (w ++ rest) = OWord w rest /\ take_while ident_char (cs ++ rest) = cs /\ drop_while ident_char (cs ++ rest) = rest.
Proof.
  intros (c & cs & -> & C & N) E. exists c, cs. split; auto.
  assert (C1: utf8_is_letter c || (c =? 35) = true) by (destruct C as [-> | ->]; [reflexivity|apply orb_true_r]).
  assert (NH: is_blank c = false /\ utf8_is_digit c = false /\ (c =? 46) = false /\ (c =? 39) = false /\ (c =? 34) = false /\ (c =? 47) = false).
  { unfold utf8_is_letter, utf8_is_russian in C1. unfold is_blank, utf8_is_digit. lia. }
  destruct NH as (N1 & N2 & N3 & N4 & N5 & N6).
  assert (TD: take_while ident_char (cs ++ rest) = cs /\ drop_while ident_char (cs ++ rest) = rest).
  { apply take_app; auto. destruct rest as [|x rest]; auto. cbn [ends_word] in E. unfold ident_next in E. apply not_true_is_false in E. exact E. }
  split; auto. split; [cbn [app]; apply not_blank_head; auto|]. split; auto.
  assert (LP: l_punct (c :: cs ++ rest) = None).
  { unfold l_punct. destruct (find _ punctuators) as [[p k]|] eqn:F; auto. exfalso. apply find_some in F. destruct F as (I & P). cbn [fst] in P.
    assert (PH := punct_heads p k I). destruct p as [|x p]; [discriminate|]. cbn [is_prefix] in P. cbn [plain_head] in PH.
    assert (x = c) by lia. subst x. rewrite C1 in PH. cbn [negb] in PH. rewrite andb_false_r in PH. discriminate. }
  cbn [app]. unfold l_switch. rewrite N2, N3, N4, N5, LP. cbn [andb orb is_prefix]. rewrite N6. cbn [andb]. rewrite C1.
  destruct TD as (-> & ->). reflexivity.
Qed.

Lemma app_same_length (a b c d : list Z) : a ++ b = c ++ d -> List.length a = List.length c -> b = d.
Proof. revert c. induction a as [|x a IH]; intros [|y c] E L; cbn in *; try lia; auto. inversion E. eauto. Qed.

Lemma keyword_not_string w k : keyword w k -> k <> TK_STRING_LITERAL.
Proof.
  rewrite keyword_In. intros I.
  assert (A: forallb (fun x => negb (snd x =? TK_STRING_LITERAL)) spec_spelled = true) by (vm_compute; reflexivity).
  rewrite forallb_forall in A. specialize (A _ I). cbn [snd] in A. lia.
Qed.

Lemma znth_snoc (l : list (list Z)) s : znth (l ++ [s]) (zlen l) = Some s.
Proof. rewrite znth_app2 by lia. replace (zlen l - zlen l) with 0 by lia. reflexivity. Qed.

Section End.
Variable e : lenv.
Hypothesis HM : has_memory e.

Lemma table_names m d i w b T r : table m d -> (names (put (with_map b m) T r) i w <-> 0 <= i /\ exists k v, dat d i = Some (k, v) /\ encs k = encs w).
Proof.
  intros (L & I & DL). unfold names. cbn [put l_map with_map b_map]. split; intros (HI & N); split; auto.
  - rewrite (to_string_index_ok m L i I HI), DL in N. destruct (dat d i) as [[k v]|]; [|discriminate]. exists k, v. split; auto. congruence.
  - destruct N as (k & v & DA & E). rewrite (to_string_index_ok m L i I HI), DL, DA, E. reflexivity.
Qed.

Lemma table_dat m d w i v : table m d -> dfind d w = Some (i, v) -> 0 <= i /\ dat d i = Some (w, v).
Proof.
  intros (L & I & DL) F. rewrite <- DL in F. destruct (minv_has m L w i v I F) as (v' & F' & DA). rewrite F in F'. inversion F'; subst v'.
  rewrite DL in DA. split; auto. rewrite <- DL, dat_find in DA. destruct (find (fun en => k_idx en =? i) L) as [en|] eqn:FF; [|discriminate].
  apply find_some in FF. destruct FF as (FI & FJ). pose proof (mi_range _ _ I) as R. rewrite Forall_forall in R. apply Z.eqb_eq in FJ. specialize (R i).
  apply R. unfold idxs. rewrite <- FJ. apply in_map. auto.
Qed.

Lemma added_dat m d w i d' : w <> [] -> table m d' -> add_entry d w ITEM_MAX i d' -> 0 <= i /\ exists v, dat d' i = Some (w, v).
Proof.
  intros NE TB A. assert (F: exists v, dfind d' w = Some (i, v)).
  { unfold add_entry in A. destruct (dfind d w) as [[j u]|] eqn:F.
    - destruct A as (-> & ->). change (ITEM_MAX =? ITEM_MAX) with true. cbv iota. eauto.
    - rewrite key_eqb_neq in A by auto. destruct A as (_ & _ & ->). rewrite dfind_snoc by auto. rewrite F.
      rewrite (proj2 (key_eqb_eq w w) eq_refl). eauto. }
  destruct F as (v & F). destruct (table_dat _ _ _ _ _ TB F) as (H1 & H2). eauto.
Qed.

Lemma word_ok l before w rest :
  text (before ++ w ++ rest) -> working e (before ++ w ++ rest) l -> room (before ++ w ++ rest) l -> stands l before (w ++ rest) ->
  word w -> ends_word rest ->
  (forall k, keyword w k -> k <> TK_LINE ->
     exists l', returns e l (mkTok (l_pos l) (l_pos l') k DNone) l' /\ stands l' (before ++ w) rest) /\
  ((forall k, ~ keyword w k) ->
     exists i l', returns e l (mkTok (l_pos l) (l_pos l') TK_IDENTIFIER (DRepr i)) l' /\ stands l' (before ++ w) rest /\ names l' i w) /\
  (keyword w TK_LINE -> exists line rest' l', rest = line ++ rest' /\ ~ In 10 line /\ (rest' = [] \/ hd 0 rest' = 10) /\
     stands l' (before ++ w ++ line) rest' /\ l_strs l' = l_strs l /\ l_errs l' = l_errs l /\ (forall i x, names l' i x <-> names l i x) /\
     (forall t l1, returns e l t l1 <-> returns e l' t l1) /\ (never_returns e l <-> never_returns e l')).
Proof.
  intros HT W R SA HW E. set (T := before ++ w ++ rest) in *.
  destruct (working_good T HT e HM l W) as (r0 & d & (_ & _ & TB & K)).
  destruct (word_switch e w rest HW E) as (c & cs & EW & C & BL & SW & TK & DR).
  assert (PL := stands_put _ _ _ SA). fold T in PL.
  assert (SF: sfx (w ++ rest) T) by (exists before; reflexivity).
  assert (SF2: sfx (c :: cs ++ rest) T) by (rewrite EW in SF; exact SF).
  destruct (word_put T HT e HM (base_of l) c (cs ++ rest) d SF2 C TB R) as (i & m' & d' & LX & TB' & A & FS & _).
  cbv zeta in LX, A, FS. rewrite TK, DR in LX. rewrite TK in A, FS. rewrite <- EW in *.
  assert (RD: forall f, (List.length (w ++ rest) < S f)%nat -> lex (S f) e l =
     do x <- word_round T e (S f) (base_of l) (w ++ rest);
     match x with LToken t l => Some (t, l) | LPunct k l1 => None | LAgain l => lex f e l end).
  { intros f F. rewrite PL at 1. rewrite (round_lex T HT e) by auto. rewrite BL. unfold l_round. rewrite SW. reflexivity. }
  assert (WR: forall f, word_round T e (S f) (base_of l) (w ++ rest) =
     let t := word_token (value_in d w) (pos_of T (w ++ rest)) (pos_of T rest) i in
     let l := put (with_map (base_of l) m') T rest in
     if t_kind t =? TK_LINE then do l <- skip_line_comment (S f) l; Some (LAgain l) else Some (LToken t l)).
  { intros f. unfold word_round. replace (w ++ rest) with (c :: cs ++ rest) by (rewrite EW; reflexivity). rewrite LX. reflexivity. }
  assert (SP: stands (put (with_map (base_of l) m') T rest) (before ++ w) rest) by (unfold T; rewrite app_assoc; apply put_stands).
  assert (P1: l_pos l = pos_of T (w ++ rest)) by (rewrite PL; reflexivity).
  split; [|split].
  - intros k KW NL. exists (put (with_map (base_of l) m') T rest). split; auto. rewrite P1.
    exists (S (List.length (w ++ rest))). intros f F. destruct f as [|f]; [lia|]. rewrite RD, WR by lia. cbv zeta.
    rewrite (proj1 K w k KW). destruct (rows_keywords w k KW) as (_ & NEG & _). unfold word_token. replace (k >=? 0) with false by lia.
    cbn [token_keyword t_kind]. replace (k =? TK_LINE) with false by lia. reflexivity.
  - intros NK. exists i, (put (with_map (base_of l) m') T rest). split; [|split; auto].
    + rewrite P1. exists (S (List.length (w ++ rest))). intros f F. destruct f as [|f]; [lia|]. rewrite RD, WR by lia. cbv zeta.
      pose proof (proj2 K w NK) as V. unfold word_token. replace (value_in d w >=? 0) with true by lia. reflexivity.
    + apply (table_names m' d'); auto. assert (NE: w <> []) by (rewrite EW; discriminate).
      destruct (added_dat m' d w i d' NE TB' A) as (HI & v & DA). split; auto. exists w, v. auto.
  - intros KW. pose proof (proj1 K w TK_LINE KW) as V.
    exists (take_while (fun c => negb (c =? 10)) rest), (l_line rest), (put (with_map (base_of l) m') T (l_line rest)).
    assert (TD := take_drop (fun c => negb (c =? 10)) rest). fold (l_line rest) in TD.
    split; [symmetry; exact TD|]. split.
    { intros I. pose proof (take_all (fun c => negb (c =? 10)) rest) as TA. rewrite Forall_forall in TA. specialize (TA 10 I). discriminate. }
    split. { pose proof (drop_head (fun c => negb (c =? 10)) rest) as DH. fold (l_line rest) in DH. destruct (l_line rest) as [|x y]; auto. right. cbn [hd]. lia. }
    split. { unfold T. rewrite <- TD at 1. replace (before ++ w ++ take_while (fun c0 => negb (c0 =? 10)) rest ++ l_line rest)
        with ((before ++ w ++ take_while (fun c0 => negb (c0 =? 10)) rest) ++ l_line rest) by (rewrite <- !app_assoc; reflexivity). apply put_stands. }
    split; auto. split; auto. 
    assert (DD: d' = d). { unfold add_entry in A. unfold value_in in V. destruct (dfind d w) as [[? ?]|]; [tauto|]. exfalso. revert V. vm_compute. discriminate. }
    subst d'. split.
    { intros j x. rewrite (table_names m' d) by auto. rewrite PL. replace (base_of l) with (with_map (base_of l) (l_map l)) by reflexivity. rewrite (table_names (l_map l) d) by auto. reflexivity. }
    apply (alike_shift e l _ (S (List.length (w ++ rest))) 1). intros f F. cbn [plus].
    rewrite RD, WR by lia. cbv zeta. rewrite V. change (t_kind (word_token TK_LINE (pos_of T (w ++ rest)) (pos_of T rest) i)) with TK_LINE. rewrite Z.eqb_refl.
    assert (SR: sfx rest T) by (eapply sfx_trans; [|exact SF]; exists w; reflexivity).
    rewrite app_length in F. rewrite (skip_line_put T HT) by (auto; lia). reflexivity.
Qed.

Section OneText.
Variable T : list Z.
Hypothesis HT : text T.

Lemma names_keep l l' i w : working e T l -> later e T l l' -> names l i w -> names l' i w.
Proof.
  intros W LT N. destruct (working_good T HT e HM l W) as (r & d & G). destruct (later_good T HT e HM l l' W LT) as (_ & LG).
  destruct (LG r d G) as (r' & d' & G' & GR). apply (names_dat T l r d i w G) in N. destruct N as (HI & k & v & DA & E).
  apply (names_dat T l' r' d' i w G'). split; auto. destruct (GR i k v DA) as (v' & DA'). eauto.
Qed.

Lemma names_one l i j w : working e T l -> names l i w -> names l j w -> i = j.
Proof.
  intros W N1 N2. destruct (working_good T HT e HM l W) as (r & d & G). apply (names_dat T l r d i w G) in N1. apply (names_dat T l r d j w G) in N2.
  destruct N1 as (_ & k & v & D1 & E1), N2 as (_ & k' & v' & D2 & E2). destruct G as (_ & _ & (L & I & DL) & _). rewrite <- DL in D1, D2.
  destruct (dat_dfind _ _ _ _ _ I D1) as (F1 & C1). destruct (dat_dfind _ _ _ _ _ I D2) as (F2 & C2).
  assert (k = k') by (apply encs_inj; auto; congruence). subst k'. rewrite F1 in F2. congruence.
Qed.

Lemma names_spelling l i w w' : text w -> text w' -> names l i w -> names l i w' -> w = w'.
Proof. intros H1 H2 (_ & N1) (_ & N2). apply encs_inj; auto. congruence. Qed.

(** ** Progress *)
Lemma tok_not_eof r o : l_switch e r = OTok o -> fst (fst (fst o)) <> TK_EOF.
Proof.
  destruct r as [|c r]; [discriminate|]. unfold l_switch.
  destruct (utf8_is_digit c || ((c =? 46) && starts utf8_is_digit r)).
  - destruct (l_number e (c :: r)) as [x|] eqn:N; [|discriminate]. intros E. inversion E; subst x. clear E. unfold l_number in N.
    destruct (l_base (c :: r)) as [[base m] r1]. destruct (l_digits base m _ r1) as [[w n] r2].
    destruct w; [inversion N; subst; discriminate|]. destruct (l_point m n r2) as [n3 r3].
    assert (NT: forall n x, fst (fst (fst (l_num_token n x))) <> TK_EOF) by (intros n0 x; unfold l_num_token; destruct (n_integer n0); discriminate).
    destruct (starts utf8_is_power r3 && negb m).
    + destruct (l_exponent e n3 (tl r3)) as [[[w n4] r4]|]; [|discriminate]. cbn [bind] in N. destruct w; inversion N; subst; [discriminate|apply NT].
    + inversion N; subst. apply NT.
  - destruct (c =? 39).
    + intros E. inversion E; subst. unfold l_char_literal. cbn [tl]. destruct (starts _ r); [discriminate|]. destruct (l_elem r) as [[v es] r1]. destruct (starts _ r1); discriminate.
    + destruct (c =? 34); [destruct (l_pieces _ _) as [[[? ?] ?]|]; discriminate|].
      destruct (is_prefix [47; 47] (c :: r)); [discriminate|].
      destruct (is_prefix [47; 42] (c :: r)); [destruct (l_block r); discriminate|].
      unfold l_punct. destruct (find _ punctuators) as [[p k]|] eqn:F.
      * intros E. inversion E; subst. cbn [fst]. apply find_some in F. destruct F as (I & _).
        assert (A: forallb (fun x => negb (snd x =? TK_EOF)) punctuators = true) by (vm_compute; reflexivity).
        rewrite forallb_forall in A. specialize (A _ I). cbn [snd] in A. lia.
      * destruct (utf8_is_letter c || (c =? 35)); discriminate.
Qed.

Lemma tok_not_string r o : l_switch e r = OTok o -> fst (fst (fst o)) <> TK_STRING_LITERAL.
Proof.
  destruct r as [|c r]; [discriminate|]. unfold l_switch.
  destruct (utf8_is_digit c || ((c =? 46) && starts utf8_is_digit r)).
  - destruct (l_number e (c :: r)) as [x|] eqn:N; [|discriminate]. intros E. inversion E; subst x. clear E. unfold l_number in N.
    destruct (l_base (c :: r)) as [[base m] r1]. destruct (l_digits base m _ r1) as [[w n] r2].
    destruct w; [inversion N; subst; discriminate|]. destruct (l_point m n r2) as [n3 r3].
    assert (NT: forall n x, fst (fst (fst (l_num_token n x))) <> TK_STRING_LITERAL) by (intros n0 x; unfold l_num_token; destruct (n_integer n0); discriminate).
    destruct (starts utf8_is_power r3 && negb m).
    + destruct (l_exponent e n3 (tl r3)) as [[[w n4] r4]|]; [|discriminate]. cbn [bind] in N. destruct w; inversion N; subst; [discriminate|apply NT].
    + inversion N; subst. apply NT.
  - destruct (c =? 39).
    + intros E. inversion E; subst. unfold l_char_literal. cbn [tl]. destruct (starts _ r); [discriminate|]. destruct (l_elem r) as [[v es] r1]. destruct (starts _ r1); discriminate.
    + destruct (c =? 34); [destruct (l_pieces _ _) as [[[? ?] ?]|]; discriminate|].
      destruct (is_prefix [47; 47] (c :: r)); [discriminate|].
      destruct (is_prefix [47; 42] (c :: r)); [destruct (l_block r); discriminate|].
      unfold l_punct. destruct (find _ punctuators) as [[p k]|] eqn:F.
      * intros E. inversion E; subst. cbn [fst]. apply find_some in F. destruct F as (I & _).
        assert (A: forallb (fun x => negb (snd x =? TK_STRING_LITERAL)) punctuators = true) by (vm_compute; reflexivity).
        rewrite forallb_forall in A. specialize (A _ I). cbn [snd] in A. lia.
      * destruct (utf8_is_letter c || (c =? 35)); discriminate.
Qed.

Lemma kind_eof l r d x t l' : good T l r d -> l_lex e (S (List.length r)) d r = Some x -> finish T (base_of l) d x t l' ->
  (t_kind t = TK_EOF <-> snd x = OEof).
Proof.
  intros (_ & _ & _ & K) E F. pose proof (l_lex_progress e d _ r x E) as P. destruct x as [[r1 es] s]. cbn [snd].
  destruct P as (S1 & [(-> & ->)|(NE & W & NR & S2 & L2 & M)]).
  - destruct F as (m' & d' & _ & _ & -> & _). split; reflexivity.
  - split; [|tauto]. intros KE. exfalso. destruct F as (m' & d' & _ & _ & F).
    destruct s as [|[[[k dt] es'] r']|s es' r'|w r'|es' r'|]; try tauto.
    + destruct F as (-> & _). cbn [tok_at t_kind] in KE. apply (tok_not_eof r1 _ (eq_sym W)). exact KE.
    + destruct F as (-> & _). discriminate.
    + destruct F as (_ & i & -> & _). unfold word_token in KE. destruct (value_in d w >=? 0) eqn:V; [discriminate|]. cbn [token_keyword t_kind] in KE.
      assert (NK: ~ (forall k, ~ keyword w k)) by (intros NK; pose proof (proj2 K w NK); lia).
      apply NK. intros k KW. pose proof (proj1 K w k KW) as VK. destruct (rows_keywords w k KW) as (_ & _ & X). lia.
Qed.

Lemma lex_moves l r d : good T l r d -> room T l ->
  never_returns e l \/ exists t l' r' d', returns e l t l' /\ good T l' r' d' /\ sfx r' r /\ (t_kind t = TK_EOF -> r' = []) /\ (t_kind t <> TK_EOF -> (List.length r' < List.length r)%nat)
     /\ m_ksize (l_map l') <= m_ksize (l_map l) + zlen (encs T) + 16.
Proof.
  intros G R. pose proof (lex_cases T HT e HM l r d G R) as C. destruct (l_lex e (S (List.length r)) d r) as [x|] eqn:E; [right|left; auto].
  destruct C as (t & l' & RT & F). exists t, l'. pose proof (kind_eof l r d x t l' G E F) as KE.
  pose proof (facts_side T e r d _ x (proj1 G) E) as FS. pose proof (l_lex_progress e d _ r x E) as P.
  destruct (finish_facts T (base_of l) d x t l' HT (proj2 (proj2 (proj2 G))) F FS) as (d' & G' & _ & _ & SZ).
  exists (rest_of (snd x)), d'. split; auto. split; auto. destruct x as [[r1 es] s]. cbn [snd] in *.
  destruct P as (S1 & [(-> & ->)|(NE & W & NR & S2 & L2 & M)]).
  - cbn [rest_of]. split; [apply sfx_nil|]. split; auto. split; [intros H; exfalso; apply H; apply KE; reflexivity|exact SZ].
  - split; [eapply sfx_trans; eauto|]. split; [intros H; apply KE in H; tauto|]. split; [|exact SZ]. intros _. apply sfx_len in S1. lia.
Qed.

Lemma good_stands l r d : good T l r d -> exists before, T = before ++ r /\ stands l before r.
Proof.
  intros ((dn & ST) & P & _). exists dn. split; auto. rewrite P, ST. apply put_stands.
Qed.

Lemma working_stands l : working e T l -> exists before rest, T = before ++ rest /\ stands l before rest.
Proof. intros W. destruct (working_good T HT e HM l W) as (r & d & G). destruct (good_stands l r d G) as (b & X). exists b, r. exact X. Qed.

Lemma stands_rest l before rest r d : good T l r d -> T = before ++ rest -> stands l before rest -> r = rest.
Proof.
  intros ((dn & ST) & P & _) ET SA. pose proof (stands_put _ _ _ SA) as P2. rewrite <- ET in P2.
  assert (CR: Forall code_point r) by (unfold text in HT; rewrite ST in HT; apply Forall_app in HT; tauto).
  assert (CQ: Forall code_point rest) by (unfold text in HT; rewrite ET in HT; apply Forall_app in HT; tauto).
  assert (Q: last_of r = last_of rest /\ pos_of T r = pos_of T rest).
  { rewrite P2 in P. unfold put in P. inversion P. split; congruence. }
  destruct Q as (Q1 & Q2). apply encs_inj; auto.
  assert (LE: zlen (encs r) = zlen (encs rest)).
  { unfold pos_of in Q2. destruct r as [|c r], rest as [|x rest]; auto.
    - cbn [last_of] in Q1. inversion CQ; subst. unfold code_point, EOF32 in *. lia.
    - cbn [last_of] in Q1. inversion CR; subst. unfold code_point, EOF32 in *. lia.
    - cbn [last_of] in Q1. subst x. lia. }
  assert (EE: encs dn ++ encs r = encs before ++ encs rest) by (rewrite <- !encs_app; congruence).
  assert (LB: zlen (encs dn) = zlen (encs before)).
  { apply (f_equal zlen) in EE. rewrite !zlen_app in EE. lia. }
  rewrite !zlen_unf in LB. apply (app_same_length _ _ _ _ EE). lia.
Qed.

(** ** [peek] *)
Lemma peek_ok l fuel k l' : working e T l -> room T l -> room T l' -> peek fuel e l = Some (k, l') ->
  exists t l1, returns e l t l1 /\ k = t_kind t /\ l_char l' = l_char l /\ l_io l' = l_io l /\
    exists t2 l2, returns e l' t2 l2 /\ t_begin t2 = t_begin t /\ t_end t2 = t_end t /\ t_kind t2 = t_kind t /\ l_char l2 = l_char l1 /\ l_io l2 = l_io l1 /\
      (t_kind t <> TK_STRING_LITERAL -> t2 = t) /\
      (t_kind t = TK_STRING_LITERAL -> exists i j s, t_data t = DString i /\ znth (l_strs l1) i = Some s /\ t_data t2 = DString j /\ znth (l_strs l2) j = Some s).
Proof.
  intros W R R' P. destruct (working_good T HT e HM l W) as (r & d & G).
  destruct (peek_is T HT e HM l r d fuel k l' G R P) as (t & l1 & RT & -> & EL). exists t, l1. split; auto. split; auto.
  split; [rewrite EL; rewrite (proj1 (proj2 G)); reflexivity|]. split; [rewrite EL; rewrite (proj1 (proj2 G)) at 1; reflexivity|].
  pose proof (lex_cases T HT e HM l r d G R) as C. destruct (l_lex e (S (List.length r)) d r) as [x|] eqn:E; [|destruct (never_not _ _ _ _ C RT)].
  destruct C as (t0 & l0 & RT0 & F). destruct (returns_det _ _ _ _ _ _ RT RT0) as (<- & <-).
  pose proof (facts_side T e r d _ x (proj1 G) E) as FS.
  destruct (finish_facts T (base_of l) d x t l1 HT (proj2 (proj2 (proj2 G))) F FS) as (d1 & G1 & _ & V1 & _).
  assert (TBX: exists d', table (l_map l1) d' /\ (forall w, value_in d' w = value_in d w) /\ kwinv d' /\
     match snd x with OWord w _ => exists i, t = word_token (value_in d w) (pos_of T (fst (fst x))) (pos_of T (rest_of (snd x))) i /\ w <> [] /\ exists v, dfind d' w = Some (i, v) | _ => True end).
  { destruct x as [[r1 es] s]. cbn [snd fst] in *. destruct s as [|o|s es' r'|w r'|es' r'|].
    1,2,3,5,6: (exists d1; destruct G1 as (_ & _ & TB1 & K1); auto).
    destruct F as (m' & d' & TB' & _ & NL & i & Et & A & El1).
    destruct FS as (_ & NE). destruct (added_dat m' d w i d' NE TB' A) as (HI & v & DA).
    assert (FD: dfind d' w = Some (i, v)).
    { pose proof TB' as (L & I & DL). rewrite <- DL in DA |- *. apply (dat_dfind _ _ _ _ _ I DA). }
    assert (VE: forall w0, value_in d' w0 = value_in d w0).
    { intros w0. apply (reserve_value d w i d' w0 NE A). }
    exists d'. split; [rewrite El1; exact TB'|]. split; auto. split; [apply (kwinv_ext d d' VE); apply G|].
    exists i. split; auto. split; auto. exists v. auto. }
  destruct TBX as (d' & TB' & VE & K' & WD).
  assert (G': good T l' r d').
  { rewrite EL. split; [apply G|]. split; [reflexivity|]. split; [exact TB'|exact K']. }
  pose proof (lex_cases T HT e HM l' r d' G' R') as C2. rewrite (l_lex_ext e d d' VE), E in C2. destruct C2 as (t2 & l2 & RT2 & F2).
  exists t2, l2. split; auto. destruct x as [[r1 es] s]. cbn [snd fst] in *.
  destruct F as (m1 & dd1 & _ & _ & F). destruct F2 as (m2 & dd2 & _ & _ & F2).
  destruct s as [|[[[kk dt] es'] r']|s es' r'|w r'|es' r'|]; try contradiction.
  - destruct F as (-> & _ & ->), F2 as (-> & _ & ->). repeat split; auto. discriminate.
  - destruct F as (-> & _ & ->), F2 as (-> & _ & ->). repeat split; auto.
    cbn [tok_at t_kind]. intros KK. exfalso. pose proof (l_lex_progress e d _ r _ E) as PR. destruct PR as (_ & [(X & _)|(_ & SW & _)]); [discriminate|].
    apply (tok_not_string r1 _ (eq_sym SW)). exact KK.
  - destruct F as (-> & _ & ->), F2 as (-> & _ & ->). repeat split; auto; [intros X; exfalso; apply X; reflexivity|]. intros _.
    eexists _, _, s. split; [reflexivity|]. split; [cbn [put l_strs b_strs base_of]; apply znth_snoc|]. split; [reflexivity|]. cbn [put l_strs b_strs base_of]. apply znth_snoc.
  - destruct WD as (i & Et & NE & v & FD). destruct F as (_ & i0 & Et0 & _ & ->). destruct F2 as (_ & j & -> & A2 & ->).
    assert (t_kind (word_token (value_in d' w) (pos_of T r1) (pos_of T r') j) <> TK_STRING_LITERAL).
    { unfold word_token. rewrite VE. destruct (value_in d w >=? 0) eqn:VV; [discriminate|]. cbn [token_keyword t_kind].
      assert (NK: ~ (forall k, ~ keyword w k)) by (intros NK; pose proof (proj2 (proj2 (proj2 (proj2 G))) w NK); lia).
      intros KS. apply NK. intros k KW. apply (keyword_not_string w k KW). rewrite <- KS. symmetry. apply (proj1 (proj2 (proj2 (proj2 G))) w k KW). }
    assert (EQ: word_token (value_in d' w) (pos_of T r1) (pos_of T r') j = t).
    { rewrite VE, Et. cbn [rest_of]. unfold add_entry in A2. rewrite FD in A2. destruct A2 as (-> & _). reflexivity. }
    rewrite EQ in *. repeat split; auto. tauto.
Qed.

Lemma peek_total l : working e T l -> room T l -> (forall t l1, returns e l t l1 -> exists fuel k l', peek fuel e l = Some (k, l')) /\ (never_returns e l -> forall fuel, peek fuel e l = None).
Proof.
  intros W R. split.
  - intros t l1 (f & H). exists f. unfold peek. rewrite (H f) by lia. cbn [bind]. destruct (in_set_position (l_io l1) (l_pos l)) as [? io]. eauto.
  - intros N fuel. unfold peek. rewrite N. reflexivity.
Qed.

(** ** Whole texts *)
Definition tailok (r : list Z) : Prop := r = [10] \/ exists a, r = a ++ [10; 10].

Lemma tailok_cons c r : tailok (c :: r) -> c = 10 /\ r = [] \/ tailok r.
Proof.
  intros [E|(a & E)]; [inversion E; auto|]. destruct a as [|x a]; cbn [app] in E; inversion E; subst; right; [left|right; exists a]; reflexivity.
Qed.
Lemma tailok_sfx r r' : tailok r -> sfx r' r -> r' = [] \/ tailok r'.
Proof.
  intros H (dn & E). revert r E H. induction dn as [|c dn IH]; intros r E H; cbn [app] in E; subst r; auto.
  destruct (tailok_cons _ _ H) as [(-> & X)|X]; [|eauto]. destruct dn, r'; auto; discriminate.
Qed.

Lemma piece_total n : forall r, (List.length r <= n)%nat -> tailok r -> exists s es r', l_piece r = Some (s, es, r') /\ tailok r' /\ (List.length r' <= List.length r)%nat.
Proof.
  induction n as [|n IH]; intros r L H.
  - destruct r; [|cbn in L; lia]. destruct H as [H|(a & H)]; [discriminate|destruct a; discriminate].
  - destruct r as [|c r]; [destruct H as [H|(a & H)]; [discriminate|destruct a; discriminate]|]. cbn [l_piece].
    destruct (negb (c =? 34) && negb (c =? 10)) eqn:C; [|exists [], [], (c :: r); auto].
    destruct (tailok_cons _ _ H) as [(-> & _)|H1]; [discriminate|]. cbn [List.length] in L.
    destruct (c =? 92) eqn:C2.
    + destruct r as [|x r]; [destruct H1 as [X|(a & X)]; [discriminate|destruct a; discriminate]|].
      assert (H2: tailok r).
      { destruct (tailok_cons _ _ H1) as [(-> & ->)|]; auto. destruct H as [X|(a & X)]; [discriminate|].
        exfalso. destruct a as [|y a]; cbn [app] in X; inversion X; subst; [lia|]. destruct a as [|z a]; cbn [app] in *; [discriminate|]. destruct a; discriminate. }
      cbn [List.length] in L. destruct (IH r ltac:(lia) H2) as (s & es & r' & -> & T2 & L2). cbn [bind]. eexists _, _, r'. split; [reflexivity|]. split; auto. cbn [List.length]. lia.
    + destruct (IH r ltac:(lia) H1) as (s & es & r' & -> & T2 & L2). cbn [bind]. eexists _, _, r'. split; [reflexivity|]. split; auto. cbn [List.length]. lia.
Qed.

Lemma pieces_total n : forall r, (List.length r < n)%nat -> (r = [] \/ tailok r) -> l_pieces n r <> None.
Proof.
  induction n as [|n IH]; intros r L H; [lia|]. rewrite l_pieces_S. destruct (starts (fun c => c =? 34) r) eqn:S1; [|discriminate].
  destruct r as [|c r]; [discriminate|]. cbn [starts tl] in *. destruct H as [H|H]; [discriminate|].
  destruct (tailok_cons _ _ H) as [(-> & _)|H1]; [discriminate|].
  destruct (piece_total (List.length r) r (le_n _) H1) as (s & es & r' & -> & T2 & L2). cbn [bind]. cbn [List.length] in L.
  assert (X: forall q, sfx q r' -> l_pieces n (l_blanks q) <> None).
  { intros q Q. assert (SQ: sfx (l_blanks q) r') by (eapply sfx_trans; [apply sfx_drop|exact Q]). apply IH; [apply sfx_len in SQ; lia|]. eapply tailok_sfx; eauto. }
  destruct (starts (fun c0 => c0 =? 34) r') eqn:S2.
  - assert (Q: sfx (tl r') r') by (destruct r'; [apply sfx_refl|apply sfx_tail]). specialize (X _ Q). destruct (l_pieces n (l_blanks (tl r'))) as [[[? ?] ?]|]; [discriminate|tauto].
  - specialize (X _ (sfx_refl _)). destruct (l_pieces n (l_blanks r')) as [[[? ?] ?]|]; [discriminate|tauto].
Qed.

Lemma digit_num c : utf8_is_digit c = true -> 48 <= c <= 57 /\ 0 <= utf8_to_number c <= 9.
Proof. unfold utf8_is_digit, utf8_to_number. intros H. assert (48 <= c <= 57) by lia. split; auto. unfold utf8_is_digit. replace ((48 <=? c) && (c <=? 57)) with true by lia. lia. Qed.

Lemma power_total : forall r p k, 0 <= p < 10 ^ k -> 0 <= k -> k + zlen (take_while utf8_is_digit r) <= 18 -> l_power p r <> None.
Proof.
  induction r as [|c r IH]; intros p k P K L; [discriminate|]. cbn [l_power take_while] in *. destruct (utf8_is_digit c) eqn:C; [|discriminate].
  destruct (digit_num c C) as (_ & N). rewrite zlen_cons in L. pose proof (zlen_nonneg (take_while utf8_is_digit r)).
  assert (Q: 0 <= p * 10 + utf8_to_number c < 10 ^ (k + 1)) by (rewrite Z.pow_add_r, Z.pow_1_r by lia; nia).
  assert (10 ^ (k + 1) <= 10 ^ 18) by (apply Z.pow_le_mono_r; lia). assert (10 ^ 18 <= LLONG_MAX64) by (vm_compute; discriminate).
  replace (p * 10 + utf8_to_number c <=? LLONG_MAX64) with true by lia. apply (IH _ (k + 1)); lia.
Qed.

Lemma run_digits r : Forall (fun c => 48 <= c <= 57) (take_while utf8_is_digit r).
Proof. eapply Forall_impl; [|apply take_all]. intros c C. apply digit_num. exact C. Qed.

Lemma exponent_total n x r : short_exponents T -> sfx (x :: r) T -> utf8_is_power x = true -> l_exponent e n r <> None.
Proof.
  intros SE SF PX. unfold l_exponent.
  assert (GO: forall y q, sfx (y :: q) T -> In y [101; 69; 1077; 1045; 43; 45] -> l_power 0 q <> None).
  { intros y q (dn & EQ) I. apply (power_total _ _ 0); [lia|lia|]. specialize (SE dn y (take_while utf8_is_digit q) (drop_while utf8_is_digit q)).
    rewrite take_drop in SE. specialize (SE EQ I (run_digits q)). lia. }
  assert (GX: l_power 0 r <> None).
  { apply (GO x); auto. unfold utf8_is_power in PX. cbn [In]. lia. }
  unfold l_sign. destruct r as [|c r]; [discriminate|].
  destruct (c =? 45) eqn:C1; [|destruct (c =? 43) eqn:C2].
  - destruct (negb (starts utf8_is_digit r)); [discriminate|]. assert (GC: l_power 0 r <> None) by (apply (GO c); [eapply sfx_cons; eauto|cbn [In]; lia]).
    destruct (l_power 0 r) as [[? ?]|]; [discriminate|tauto].
  - destruct (negb (starts utf8_is_digit r)); [discriminate|]. assert (GC: l_power 0 r <> None) by (apply (GO c); [eapply sfx_cons; eauto|cbn [In]; lia]).
    destruct (l_power 0 r) as [[? ?]|]; [discriminate|tauto].
  - destruct (negb (starts utf8_is_digit (c :: r))); [discriminate|]. destruct (l_power 0 (c :: r)) as [[? ?]|]; [discriminate|tauto].
Qed.

Lemma number_total r : short_exponents T -> sfx r T -> l_number e r <> None.
Proof.
  intros SE SF. unfold l_number. pose proof (base_sfx r) as B. destruct (l_base r) as [[base m] r1]. cbn [snd] in B.
  pose proof (digits_sfx base m r1 (mkNum 0 d_zero true true)) as D. destruct (l_digits base m _ r1) as [[w n] r2]. cbn [snd] in D.
  destruct w; [discriminate|]. pose proof (point_sfx m n r2) as PP. destruct (l_point m n r2) as [n3 r3]. cbn [snd] in PP.
  destruct (starts utf8_is_power r3 && negb m) eqn:S1; [|discriminate].
  destruct r3 as [|x r3]; [discriminate|]. cbn [starts tl] in *. apply andb_true_iff in S1. destruct S1 as (PX & _).
  assert (SX: sfx (x :: r3) T) by (eapply sfx_trans; [exact PP|]; eapply sfx_trans; [exact D|]; eapply sfx_trans; [exact B|exact SF]).
  pose proof (exponent_total n3 x r3 SE SX PX) as X. destruct (l_exponent e n3 r3) as [[[w n4] r4]|]; [|tauto]. cbn [bind]. destruct w; discriminate.
Qed.

Lemma switch_total r : short_exponents T -> tailok T -> sfx r T -> l_switch e r <> OHang.
Proof.
  intros SE TT SF. destruct r as [|c r]; [discriminate|]. unfold l_switch.
  destruct (utf8_is_digit c || ((c =? 46) && starts utf8_is_digit r)).
  - pose proof (number_total _ SE SF). destruct (l_number e (c :: r)); [discriminate|tauto].
  - destruct (c =? 39); [discriminate|]. destruct (c =? 34).
    + assert (X := pieces_total (S (List.length (c :: r))) (c :: r) ltac:(lia) (tailok_sfx _ _ TT SF)). destruct (l_pieces _ (c :: r)) as [[[? ?] ?]|]; [discriminate|tauto].
    + destruct (is_prefix [47; 47] (c :: r)); [discriminate|].
      destruct (is_prefix [47; 42] (c :: r)); [destruct (l_block r); discriminate|].
      destruct (l_punct (c :: r)) as [[? ?]|]; [discriminate|].
      destruct (utf8_is_letter c || (c =? 35)); discriminate.
Qed.

Lemma l_lex_total d : short_exponents T -> tailok T -> forall n r, (List.length r < n)%nat -> sfx r T -> l_lex e n d r <> None.
Proof.
  intros SE TT. induction n as [|n IH]; intros r L SF; [lia|]. cbn [l_lex].
  assert (S0 := sfx_drop is_blank r). fold (l_blanks r) in S0. assert (S1 := sfx_trans _ _ _ S0 SF). assert (L0 := sfx_len _ _ S0).
  pose proof (switch_total _ SE TT S1) as NH. destruct (l_blanks r) as [|c r1]; [discriminate|]. cbn [List.length] in L0.
  assert (SM := switch_moves e c r1). assert (SL := sfx_len _ _ SM).
  assert (ST: sfx (rest_of (l_switch e (c :: r1))) T) by (eapply sfx_trans; [exact SM|]; eapply sfx_cons; eauto).
  destruct (l_switch e (c :: r1)) as [|o|s es r'|w r'|es r'|] eqn:W; cbn [rest_of] in *; try discriminate; try tauto.
  - destruct (value_in d w =? TK_LINE); [|discriminate]. assert (SD := sfx_drop (fun c => negb (c =? 10)) r'). fold (l_line r') in SD.
    apply IH; [apply sfx_len in SD; lia|eapply sfx_trans; eauto].
  - assert (X: l_lex e n d r' <> None) by (apply IH; auto; lia). destruct (l_lex e n d r') as [[[? ?] ?]|]; [discriminate|tauto].
Qed.

Lemma lexes_total : short_exponents T -> tailok T -> forall n l r d, (List.length r < n)%nat -> good T l r d ->
  m_ksize (l_map l) + Z.of_nat n * (zlen (encs T) + 16) < 2 ^ 56 -> exists ts, lexes e l ts.
Proof.
  intros SE TT. induction n as [|n IH]; intros l r d L G M; [lia|]. pose proof (zlen_nonneg (encs T)).
  assert (R: room T l) by (unfold room; nia).
  assert (NN: exists t l1, returns e l t l1).
  { pose proof (lex_cases T HT e HM l r d G R) as C. pose proof (l_lex_total d SE TT (S (List.length r)) r ltac:(lia) (proj1 G)) as X.
    destruct (l_lex e (S (List.length r)) d r); [|tauto]. destruct C as (t & l' & RT & _). eauto. }
  destruct NN as (t0 & l0 & RT0).
  destruct (lex_moves l r d G R) as [N|(t & l' & r' & d' & RT & G' & SF & EO & MV & SZ)]; [destruct (never_not _ _ _ _ N RT0)|].
  destruct (Z.eq_dec (t_kind t) TK_EOF) as [K|K].
  - exists [t]. eapply lexes_end; eauto.
  - specialize (MV K). destruct (IH l' r' d') as (ts & X); [lia|auto|nia|]. exists (t :: ts). eapply lexes_more; eauto.
Qed.

Lemma progress_ok l before rest : T = before ++ rest -> working e T l -> room T l -> stands l before rest ->
  never_returns e l \/ exists t l' mid rest', rest = mid ++ rest' /\ returns e l t l' /\ stands l' (before ++ mid) rest'
    /\ (t_kind t = TK_EOF -> rest' = []) /\ (t_kind t <> TK_EOF -> mid <> []).
Proof.
  intros ET W R SA. destruct (working_good T HT e HM l W) as (r & d & G). rewrite (stands_rest l before rest r d G ET SA) in G.
  destruct (lex_moves l rest d G R) as [N|(t & l' & r' & d' & RT & G' & (mid & EM) & EO & MV & _)]; auto.
  right. exists t, l', mid, r'. split; auto. split; auto. split.
  - destruct G' as (_ & P & _). rewrite P, ET, EM, app_assoc. apply put_stands.
  - split; auto. intros K EN. specialize (MV K). subst mid. cbn [app] in EM. subst rest. lia.
Qed.

Lemma encs_length (t : list Z) : text t -> Z.of_nat (List.length t) <= zlen (encs t).
Proof.
  intros H. induction H as [|c t C H IH]; [cbn [encs flat_map]; change (encs []) with (@nil Z); rewrite (@zlen_nil Z); cbn; lia|]. cbn [encs flat_map List.length]. fold (encs t). rewrite zlen_app.
  assert (1 <= zlen (enc c)); [|lia]. unfold code_point in C. unfold enc. repeat match goal with |- context [if ?b then _ else _] => destruct b eqn:? end; rewrite ?zlen_cons; pose proof (zlen_nonneg (@nil Z)); lia.
Qed.

Lemma whole_ok a m : T = a ++ [10; 10] -> short_exponents T -> zlen (encs T) < 2 ^ 26 -> repr_create (le_mem e) = Some m ->
  exists ts, lexes e (lexer_create (mkIn (encs T) 0) m) ts.
Proof.
  intros ET SE LT EM. destruct (create_table (le_mem e) m HM EM) as (d & TB & K & SZ).
  assert (G: good T (lexer_create (mkIn (encs T) 0) m) T d).
  { rewrite (create_put T HT). split; [apply sfx_refl|]. split; [reflexivity|]. split; auto. }
  assert (CM: l_map (lexer_create (mkIn (encs T) 0) m) = m) by (rewrite (create_put T HT); reflexivity).
  apply (lexes_total SE (or_intror (ex_intro _ a ET)) (S (List.length T)) _ T d (le_n _) G).
  rewrite CM. pose proof (encs_length T HT). pose proof (zlen_nonneg (encs T)). nia.
Qed.
End OneText.
End End.

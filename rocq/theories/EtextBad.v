(** Proofs about texts with something that is no token. *)
From Verif Require Import Prelude Utf8Model ComputerModel ComputerSpec ComputerProofs EtextSpec EtextModel EtextProofs.
From Coq Require String. Import String.StringSyntax.
Local Open Scope string_scope. Local Open Scope list_scope. Local Open Scope Z_scope.

Definition message (f : fault) : terr :=
  match f with NotAToken => EXPR_INVALID_TOKEN | NotWhole => EXPR_FLOATING_CONSTANT | BadSuffix => EXPR_INVALID_SUFFIX | NotClosed => STRING_UNTERMINATED end.

Lemma goes_on_skip s : goes_on s -> exists r, skip_until s = Some r.
Proof.
  intros (g & r & G & -> & D). rewrite skip_gap by assumption. destruct D as [O|(c & t & -> & N & C)]; [exact (over_skip r O)|].
  exists (c :: t). apply skip_starts. cbn [starts]. split; [exact N|]. intros Q. specialize (C Q).
  destruct t as [|d t]; [cbn; lia|]. cbn [peek]. specialize (C d t eq_refl). cbn. lia.
Qed.
(** The loop at a text whose token is refused. *)
Lemma refuses replace total f s : (exists a r, s = a :: r /\ starts s /\ a <> 10 /\ letter a = false /\ a <> 35 /\
   (if digit a || (a =? 46) then parse_number (total - zlen s) (where_ total MText) s
    else if (a =? 39) || (a =? 34) then parse_sequence s else parse_token s) = Some (LBad (message f))) ->
  exists r, skip_until s = Some r /\ forall n c s', skip_until s' = Some r -> read_loop replace total (S n) c MText s' = wrong c (message f).
Proof.
  intros (a & r & -> & S & N1 & N2 & N3 & H). exists (a :: r). split; [exact (skip_starts _ S)|]. intros n c s' K.
  rewrite (turn_token replace total n c MText s' a r (LBad (message f)) K N1 N2 N3 H). reflexivity.
Qed.
Lemma skip_string_open q b s : inside q b -> q <> 92 -> skip_string q false (b ++ s) = skip_string q false s.
Proof.
  intros B Q. induction B as [|c b N _ IH|c b N _ IH]; [reflexivity| |]; cbn [app skip_string negb andb].
  - cbn [In] in N. destruct (c =? q) eqn:X1; [lia|]. destruct (c =? 13) eqn:X2; [lia|]. destruct (c =? 10) eqn:X3; [lia|]. destruct (c =? 92) eqn:X4; [lia|]. exact IH.
  - destruct (92 =? q) eqn:X1; [lia|]. cbn [Z.eqb Pos.eqb negb andb]. destruct (c =? 13) eqn:X2; [lia|]. exact IH.
Qed.
Lemma digits_begin ds : in_base 10 ds -> exists d r, ds = d :: r /\ digit d = true.
Proof.
  intros [D1 D2]. destruct ds as [|d r]; [congruence|]. exists d, r. split; [reflexivity|]. inversion D2 as [|? ? D3 D4]; subst.
  revert D3; unfold digit_value, digit; repeat match goal with |- context [if ?b then _ else _] => destruct b eqn:?Q end; lia.
Qed.
(** A number cut short by something else. *)
Lemma number_cut total ds c s : in_base 10 ds -> number 10 ds < 2 ^ 63 -> digit_value c >= 10 -> starts (c :: s) ->
  (ds = [48] -> ~ In c (chars "xXoObBdD")) ->
  parse_number (total - zlen (ds ++ c :: s)) (where_ total MText) (ds ++ c :: s) =
  (if (c =? 46) || (c =? 101) || (c =? 69) then Some (LBad EXPR_FLOATING_CONSTANT)
   else if utf8_is_letter c
   then let '(w, s4) := read_word (c :: s) in
        if suffix_ok w then Some (LNumb (s64 (number 10 ds)) s4) else Some (LBad EXPR_INVALID_SUFFIX)
   else Some (LNumb (s64 (number 10 ds)) (c :: s))).
Proof.
  intros D R V S P. unfold parse_number. rewrite scan_plain; [|lia|exact D|exact R|split; [exact V|intros Q; discriminate Q]].
  cbn [bind]. rewrite (skip_starts _ S). cbn [bind peek tl].
  destruct ((number 10 ds =? 0) && (total - zlen (ds ++ c :: s) + 1 =? where_ total MText (c :: s))) eqn:Q; cbn [bind].
  - assert (ds = [48]).
    { apply andb_true_iff in Q. destruct Q as [Q1 Q2]. cbn [where_] in Q2. rewrite !zlen_unf, app_length in Q2.
      destruct D as [D1 D2]. destruct ds as [|d [|e ds]]; [congruence| |cbn [length] in Q2; lia].
      f_equal. unfold number in Q1. cbn [fold_left] in Q1. inversion D2; subst. revert Q1. unfold digit_value, digit.
      repeat match goal with |- context [if ?b then _ else _] => destruct b eqn:?X end; lia. }
    specialize (P H). cbn in P.
    assert ((c =? 120) || (c =? 88) = false) as -> by lia. assert ((c =? 100) || (c =? 68) = false) as -> by lia.
    assert ((c =? 111) || (c =? 79) = false) as -> by lia. assert ((c =? 98) || (c =? 66) = false) as -> by lia. cbn [bind].
    rewrite (skip_starts _ S). cbn [bind]. rewrite Z.eqb_refl. reflexivity.
  - rewrite Z.eqb_refl. reflexivity.
Qed.

Lemma suffix_not w : suffix_ok w = true -> suffix w.
Proof.
  assert (U : forall c, is_u c = true -> lower c = 117) by (intros c; unfold is_u, lower; destruct ((65 <=? c) && (c <=? 90)) eqn:Q; lia).
  assert (L : forall c, is_l c = true -> lower c = 108) by (intros c; unfold is_l, lower; destruct ((65 <=? c) && (c <=? 90)) eqn:Q; lia).
  unfold suffix_ok, suffix. destruct w as [|a [|b [|c [|d w]]]]; try discriminate; intros H; cbn [map];
    repeat match goal with
    | H : _ || _ = true |- _ => apply orb_true_iff in H; destruct H as [H|H]
    | H : _ && _ = true |- _ => apply andb_true_iff in H; destruct H
    end;
    repeat match goal with
    | H : is_u ?x = true |- _ => rewrite (U x H); clear H
    | H : is_l ?x = true |- _ => rewrite (L x H); clear H
    end; cbn; tauto.
Qed.

Theorem bad_ends replace total f : ends_with replace total (bad f) (fun c => wrong c (message f)).
Proof.
  intros s B. destruct B as [s N G|w s I|c s C0 L D N G|b s A1|q b s I A1 F|g w s G W E N|ds c s D R I|s|ds c w s D R W E N1 N2 N3].
  - apply refuses. exists 61, s. split; [reflexivity|]. split; [split; [cbn; lia|intros Q; discriminate Q]|]. split; [lia|]. split; [reflexivity|]. split; [lia|].
    cbn [digit orb andb]. unfold digit. cbn [Z.leb Z.eqb Pos.eqb andb orb Z.compare Pos.compare Pos.compare_cont].
    unfold parse_token. cbn [peek tl]. destruct (goes_on_skip s G) as [r K]. rewrite K. cbn [bind Z.eqb Pos.eqb].
    assert (X : (if zlen s =? zlen r then peek r else 0) =? 61 = false).
    { destruct (zlen s =? zlen r) eqn:Q; [|reflexivity]. assert (r = s) by (apply skip_adjacent; [exact K|lia]). subst r.
      destruct s as [|c s]; [reflexivity|]. cbn [peek]. destruct (c =? 61) eqn:Y; [|reflexivity]. exfalso. apply (N s). f_equal. lia. }
    rewrite X. reflexivity.
  - apply refuses. cbn in I.
    repeat (destruct I as [<-|I]; [eexists; eexists; split; [reflexivity|]; split; [split; [cbn; lia|intros Q; try discriminate Q; cbn; lia]|];
      split; [lia|]; split; [reflexivity|]; split; [lia|]; cbn [app]; unfold digit; cbn [Z.leb Z.eqb Pos.eqb andb orb Z.compare Pos.compare Pos.compare_cont];
      unfold parse_token; cbn [peek tl];
      match goal with |- context [skip_until (?y :: ?z)] => assert (skip_until (y :: z) = Some (y :: z)) as -> by (apply skip_starts; cbn [starts]; split; [cbn; lia|intros X; discriminate X]) end;
      cbn [bind peek tl]; rewrite ?(Z.eqb_refl (zlen _)); cbn [Z.eqb Pos.eqb orb];
      try match goal with |- context [skip_until (?y :: ?z)] => assert (skip_until (y :: z) = Some (y :: z)) as -> by (apply skip_starts; cbn [starts]; split; [cbn; lia|intros X; discriminate X]) end;
      cbn [bind peek tl]; rewrite ?(Z.eqb_refl (zlen _)); reflexivity|]).
    contradiction.
  - apply refuses. exists c, s. split; [reflexivity|]. split; [split; [intros X; apply N; apply in_or_app; right; cbn in *; lia|intros ->; exfalso; apply N; cbn; tauto]|].
    split; [intros ->; apply N; cbn; tauto|]. split; [exact L|]. split; [intros ->; apply N; cbn; tauto|].
    assert (NN : forall x, In x (chars "()~!*/%+-<>=&^|#.'""" ++ [10; 9; 13; 32; 92]) -> c =? x = false) by (intros x X; destruct (c =? x) eqn:Q; [|reflexivity]; exfalso; apply N; assert (c = x) as -> by lia; exact X).
    rewrite D. rewrite !NN by (cbn; tauto). cbn [orb]. unfold parse_token. cbn [peek tl]. destruct (goes_on_skip s G) as [r K]. rewrite K. cbn [bind].
    rewrite !NN by (cbn; tauto). reflexivity.
  - apply refuses. exists 34, (b ++ 34 :: s). split; [reflexivity|]. split; [split; [cbn; lia|intros Q; discriminate Q]|]. split; [lia|]. split; [reflexivity|]. split; [lia|].
    change (parse_sequence (34 :: b ++ 34 :: s) = Some (LBad EXPR_INVALID_TOKEN)). unfold parse_sequence. cbn [peek tl].
    rewrite skip_string_open by (assumption || lia). reflexivity.
  - apply refuses. exists q, (b ++ s). split; [reflexivity|]. assert (Q : q = 34 \/ q = 39) by (cbn in I; lia).
    split; [split; [cbn; lia|intros X; lia]|]. split; [lia|]. split; [unfold letter; lia|]. split; [lia|].
    assert (digit q || (q =? 46) = false) as -> by (unfold digit; lia). assert ((q =? 39) || (q =? 34) = true) as -> by lia.
    unfold parse_sequence. cbn [peek tl]. rewrite skip_string_open by (assumption || lia).
    assert (skip_string q false s = Some None) as ->.
    { destruct F as [->|(s' & ->)]; [reflexivity|]. cbn [skip_string negb andb]. destruct (10 =? q) eqn:X; [lia|reflexivity]. }
    reflexivity.
  - exists (35 :: g ++ w ++ s). split; [apply skip_starts; split; [cbn; lia|intros Q; discriminate Q]|]. intros n c s' K.
    assert (K2 : skip_until (g ++ w ++ s) = Some (w ++ s)).
    { rewrite skip_gap by assumption. destruct (word_begins w W) as (a & r & -> & LL). apply skip_starts, letter_starts, LL. }
    cbn [read_loop]. rewrite K. cbn [bind Z.eqb Pos.eqb]. change (utf8_is_letter 35) with false. cbv iota. rewrite K2. cbn [bind].
    assert (LP : utf8_is_letter (peek (w ++ s)) = true) by (destruct (word_begins w W) as (a & r & -> & LL); cbn [app peek]; rewrite letter_is; exact LL).
    rewrite LP, (read_word_ok w s W E).
    assert (EV : is_eval w = false).
    { destruct (is_eval w) eqn:Q; [|reflexivity]. exfalso. apply N. unfold is_eval in Q. apply existsb_exists in Q. destruct Q as (x & X1 & X2).
      destruct (list_eq_dec Z.eq_dec w x) as [->|]; [exact X1|discriminate X2]. }
    rewrite EV. reflexivity.
  - apply refuses. destruct (digits_begin ds D) as (d & r & E & L). exists d, (r ++ c :: s). subst ds.
    split; [reflexivity|]. split; [apply digit_starts; exact L|]. split; [unfold digit in L; lia|]. split; [unfold digit in L; unfold letter; lia|]. split; [unfold digit in L; lia|].
    rewrite L. cbn [orb]. rewrite number_cut; [|exact D|exact R| | |].
    + cbn in I. assert ((c =? 46) || (c =? 101) || (c =? 69) = true) as -> by lia. reflexivity.
    + cbn in I. unfold digit_value, digit. repeat match goal with |- context [if ?b then _ else _] => destruct b eqn:?X end; lia.
    + cbn in I. cbn [starts]. split; [cbn; lia|intros ->; lia].
    + intros _. cbn in I |- *. lia.
  - apply refuses. exists 46, s. split; [reflexivity|]. split; [split; [cbn; lia|intros Q; discriminate Q]|]. split; [lia|]. split; [reflexivity|]. split; [lia|].
    change (parse_number (total - zlen (46 :: s)) (where_ total MText) (46 :: s) = Some (LBad EXPR_FLOATING_CONSTANT)).
    unfold parse_number. assert (scan_int 10 (46 :: s) = Some None) as -> by reflexivity. cbn [bind].
    rewrite skip_starts by (split; [cbn; lia|intros Q; discriminate Q]). cbn [bind].
    destruct ((0 =? 0) && (total - zlen (46 :: s) + 1 =? where_ total MText (46 :: s))) eqn:Q; [cbn [where_] in Q; lia|]. cbn [bind peek].
    rewrite Z.eqb_refl. reflexivity.
  - apply refuses. destruct (digits_begin ds D) as (d & r & E0 & L). exists d, (r ++ (c :: w) ++ s). subst ds.
    split; [reflexivity|]. split; [apply digit_starts; exact L|]. split; [unfold digit in L; lia|]. split; [unfold digit in L; unfold letter; lia|]. split; [unfold digit in L; lia|].
    rewrite L. cbn [orb]. assert (LC : letter c = true) by (destruct W; assumption).
    cbn [app]. change (d :: r ++ c :: w ++ s) with ((d :: r) ++ c :: w ++ s). rewrite number_cut; [|exact D|exact R| | |exact N3].
    + cbn in N2. assert ((c =? 46) || (c =? 101) || (c =? 69) = false) as -> by (unfold letter in LC; lia).
      rewrite letter_is, LC. change (c :: w ++ s) with ((c :: w) ++ s). rewrite (read_word_ok (c :: w) s W E).
      destruct (suffix_ok (c :: w)) eqn:Q; [exfalso; apply N1, suffix_not, Q|reflexivity].
    + revert LC. unfold letter, digit_value, digit. repeat match goal with |- context [if ?b then _ else _] => destruct b eqn:?X end; lia.
    + apply letter_starts, LC.
Qed.

Lemma then_fails e ts : forall l c ts0 v m, hands l ts -> shape c ts0 \/ c_err c <> None ->
  feed_then c l (fun c => wrong c e) = Some (v, m) -> v = 0 /\ m <> None.
Proof.
  assert (SH : forall c, c_err c <> None -> shown c <> None) by (intros c; unfold shown; destruct (c_err c) as [[? ?]|]; congruence).
  induction ts as [|t ts IH]; intros l c ts0 v m HL S E.
  - apply hands_nil in HL as ->. cbn [feed_then] in E. unfold wrong in E. injection E as <- <-. split; [reflexivity|discriminate].
  - apply hands_cons in HL as (p & l' & -> & HL). cbn [feed_then] in E. unfold bind in E. destruct (push c p (as_piece t)) as [[r c1]|] eqn:P; [|discriminate].
    destruct (c_err c1) eqn:CE.
    + destruct (_ || _); [eapply (IH l' c1 ts0); [exact HL|right; congruence|exact E]|]. injection E as <- <-. split; [reflexivity|apply SH; congruence].
    + destruct S as [S|S]; [|exfalso; revert CE; eapply push_err; eauto].
      destruct (push_shape _ _ _ _ _ _ S P CE) as (_ & -> & S'). cbn [Z.eqb orb] in E.
      eapply (IH l' c1 (ts0 ++ [t])); [exact HL|left; exact S'|exact E].
Qed.
Lemma then_total k l : (forall c, k c <> None) -> forall c, feed c l <> None -> feed_then c l k <> None.
Proof.
  intros K. induction l as [|[p x] l IH]; intros c F; [apply K|]. cbn [feed feed_then] in *. destruct (push c p x) as [[r c']|]; [|exfalso; apply F; reflexivity]. cbn [bind] in *.
  destruct (_ || _); [apply IH, F|discriminate].
Qed.
Lemma placed_hands l : hands (placed l) (map snd l).
Proof. unfold hands, placed. rewrite !map_map. apply map_ext. intros [p t]. reflexivity. Qed.

Theorem bad_evaluates replace before f s l : reads replace (bad f) (before + zlen s) s l ->
  exists n0, forall n, (n0 <= n)%nat -> evaluate_text replace before n s = feed_then computer_create (placed l) (fun c => wrong c (message f)).
Proof.
  intros R. destruct (text_loop replace (before + zlen s) (bad f) _ s l (bad_ends replace (before + zlen s) f) R) as [n0 H]. exists n0. intros n L.
  unfold evaluate_text, read_expression.
  assert (X : exists r, skip_until s = Some r /\ loud r).
  { destruct (reads_loud _ _ _ _ _ R) as [(g & r & G & B & E)|X]; [|exact X]. subst s. rewrite skip_gap by assumption. clear - B.
    destruct B as [s N G|w s I|c s C0 L D N G|b s A1|q b s I A1 F|g w s G W E N|ds c s D R I|s|ds c w s D R W E N1 N2 N3].
    - eexists. split; [apply skip_starts; split; [cbn; lia|intros Q; discriminate Q]|cbn; lia].
    - cbn in I. repeat (destruct I as [<-|I]; [eexists; split; [apply skip_starts; split; [cbn; lia|intros Q; try discriminate Q; cbn; lia]|cbn; lia]|]). contradiction.
    - exists (c :: s). split; [apply skip_starts; split; [intros X; apply N; apply in_or_app; right; cbn in *; lia|intros ->; exfalso; apply N; cbn; tauto]|].
      cbn [loud]. split; [intros ->; apply N; cbn; tauto|lia].
    - eexists. split; [apply skip_starts; split; [cbn; lia|intros Q; discriminate Q]|cbn; lia].
    - assert (Q : q = 34 \/ q = 39) by (cbn in I; lia). exists (q :: b ++ s). split; [apply skip_starts; split; [cbn; lia|intros X; lia]|cbn; lia].
    - eexists. split; [apply skip_starts; split; [cbn; lia|intros Q; discriminate Q]|cbn; lia].
    - destruct (digits_begin ds D) as (d & r & -> & L). exists ((d :: r) ++ c :: s). split; [apply skip_starts, digit_starts, L|cbn; unfold digit in L; lia].
    - eexists. split; [apply skip_starts; split; [cbn; lia|intros Q; discriminate Q]|cbn; lia].
    - destruct (digits_begin ds D) as (d & r & -> & L). exists ((d :: r) ++ (c :: w) ++ s). split; [apply skip_starts, digit_starts, L|cbn; unfold digit in L; lia]. }
  destruct X as (r & K & LR). rewrite K. cbn [bind]. rewrite (loud_peek r LR), (H n computer_create r L (or_intror K)). reflexivity.
Qed.
Theorem bad_is_reported replace before f s l : reads replace (bad f) (before + zlen s) s l ->
  exists n0, forall n, (n0 <= n)%nat ->
    (forall v m, evaluate_text replace before n s = Some (v, m) -> v = 0 /\ m <> None)
    /\ (Forall safe_tok (map snd l) -> evaluate_text replace before n s <> None).
Proof.
  intros R. destruct (bad_evaluates replace before f s l R) as [n0 H]. exists n0. intros n L. rewrite (H n L). split.
  - intros v m E. eapply (then_fails (message f) (map snd l) (placed l) computer_create []); [apply placed_hands| |exact E].
    left. exists []. repeat split.
  - intros S. apply then_total; [intros c; unfold wrong; discriminate|].
    destruct (feed_total (map snd l) (placed l) computer_create (placed_hands l) S) as (r & E); [exists []; auto|]. rewrite E. discriminate.
Qed.

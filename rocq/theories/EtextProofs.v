(** Proofs about the reading of preprocessor expressions. *)
From Verif Require Import Prelude Utf8Model ComputerModel ComputerSpec EtextSpec EtextModel.
Local Open Scope Z_scope.

(** ** Skipping *)
Lemma skip_multi_le s : forall star r, skip_multi star s = Some r -> (length r < length s)%nat.
Proof.
  induction s as [|c s IH]; intros star r H; [discriminate|]. cbn [skip_multi] in H.
  destruct (star && (c =? 47)); [injection H as <-; cbn; lia|]. apply IH in H. cbn. lia.
Qed.
Lemma skip_comment_le s : forall slash, (length (skip_comment slash s) <= length s)%nat.
Proof.
  induction s as [|c s IH]; intros slash; [cbn; lia|]. cbn [skip_comment].
  destruct (negb slash && (c =? 10)); [lia|]. cbn [length]. specialize (IH ((c =? 92) || slash && (c =? 13))). lia.
Qed.
Lemma skip_until_enough n : forall m s, (length s < n)%nat -> (length s < m)%nat -> skip_until_n n s = skip_until_n m s.
Proof.
  induction n as [|n IH]; intros m s Hn Hm; [lia|]. destruct m as [|m]; [lia|]. cbn [skip_until_n].
  destruct s as [|c s1]; [reflexivity|]. cbn [length] in *.
  destruct (c =? 47).
  - destruct s1 as [|c2 s2]; [reflexivity|]. cbn [length] in *. destruct (c2 =? 42).
    + destruct (skip_multi false s2) as [s3|] eqn:Q; [|reflexivity]. apply skip_multi_le in Q. apply IH; lia.
    + destruct (c2 =? 47); [|reflexivity]. pose proof (skip_comment_le s2 false). apply IH; lia.
  - destruct (c =? 92).
    + destruct s1 as [|c2 s2]; [reflexivity|]. cbn [length] in *. destruct (c2 =? 13); [reflexivity|].
      destruct (c2 =? 10); [apply IH; lia|reflexivity].
    + destruct ((c =? 32) || (c =? 9)); [apply IH; lia|reflexivity].
Qed.
Lemma skip_until_eq s : skip_until s =
  match s with
  | [] => Some []
  | c :: s1 =>
      if c =? 47 then
        match s1 with
        | c2 :: s2 =>
            if c2 =? 42 then do s3 <- skip_multi false s2; skip_until s3
            else if c2 =? 47 then skip_until (skip_comment false s2)
            else Some s
        | [] => Some s
        end
      else if c =? 92 then
        match s1 with
        | c2 :: s2 => if c2 =? 13 then None else if c2 =? 10 then skip_until s2 else Some s
        | [] => Some s
        end
      else if (c =? 32) || (c =? 9) then skip_until s1
      else if c =? 13 then None
      else Some s
  end.
Proof.
  unfold skip_until at 1. cbn [skip_until_n]. destruct s as [|c s1]; [reflexivity|]. cbn [length].
  destruct (c =? 47).
  - destruct s1 as [|c2 s2]; [reflexivity|]. cbn [length]. destruct (c2 =? 42).
    + destruct (skip_multi false s2) as [s3|] eqn:Q; [|reflexivity]. apply skip_multi_le in Q. apply skip_until_enough; lia.
    + destruct (c2 =? 47); [|reflexivity]. pose proof (skip_comment_le s2 false). apply skip_until_enough; lia.
  - destruct (c =? 92).
    + destruct s1 as [|c2 s2]; [reflexivity|]. cbn [length]. destruct (c2 =? 13); [reflexivity|].
      destruct (c2 =? 10); [apply skip_until_enough; lia|reflexivity].
    + destruct ((c =? 32) || (c =? 9)); [apply skip_until_enough; lia|reflexivity].
Qed.
(** What skipping leaves. *)
Lemma skip_result k : forall s r, (length s <= k)%nat -> skip_until s = Some r ->
  (r = s \/ (length r < length s)%nat) /\ skip_until r = Some r.
Proof.
  induction k as [|k IH]; intros s r K H.
  - destruct s; [|cbn in K; lia]. injection H as <-. split; [left|]; reflexivity.
  - pose proof H as H0. rewrite skip_until_eq in H. destruct s as [|c s1]; [injection H as <-; split; [left|]; reflexivity|].
    cbn [length] in K.
    assert (Stay : r = c :: s1 -> (r = c :: s1 \/ (length r < length (c :: s1))%nat) /\ skip_until r = Some r).
    { intros ->. split; [left; reflexivity|exact H0]. }
    assert (Go : forall s2, (length s2 < length (c :: s1))%nat -> skip_until s2 = Some r ->
      (r = c :: s1 \/ (length r < length (c :: s1))%nat) /\ skip_until r = Some r).
    { intros s2 L E. cbn [length] in L. destruct (IH s2 r) as [[X|X] Y]; [lia|exact E| |]; (split; [right|exact Y]); cbn [length]; [subst|]; lia. }
    destruct (c =? 47).
    + destruct s1 as [|c2 s2]; [apply Stay; congruence|]. destruct (c2 =? 42).
      * destruct (skip_multi false s2) as [s3|] eqn:Q; [|discriminate]. apply skip_multi_le in Q. apply (Go s3); [cbn [length]; lia|exact H].
      * destruct (c2 =? 47); [|apply Stay; congruence]. pose proof (skip_comment_le s2 false).
        apply (Go (skip_comment false s2)); [cbn [length]; lia|exact H].
    + destruct (c =? 92).
      * destruct s1 as [|c2 s2]; [apply Stay; congruence|]. destruct (c2 =? 13); [discriminate|].
        destruct (c2 =? 10); [apply (Go s2); [cbn [length]; lia|exact H]|apply Stay; congruence].
      * destruct ((c =? 32) || (c =? 9)); [apply (Go s1); [cbn [length]; lia|exact H]|].
        destruct (c =? 13); [discriminate|apply Stay; congruence].
Qed.
Lemma skip_idem s r : skip_until s = Some r -> skip_until r = Some r.
Proof. intros H. apply (skip_result (length s) s r (le_n _) H). Qed.
Lemma skip_shorter s r : skip_until s = Some r -> r = s \/ zlen r < zlen s.
Proof. intros H. destruct (skip_result (length s) s r (le_n _) H) as [[X|X] _]; [left; exact X|right; rewrite !zlen_unf; lia]. Qed.
Lemma skip_adjacent s r : skip_until s = Some r -> zlen r = zlen s -> r = s.
Proof. intros H E. destruct (skip_shorter s r H) as [X|X]; [exact X|lia]. Qed.

(** Comments. *)
Lemma multi_body b : forall star g, (star = true -> forall r, b <> 47 :: r) ->
  (forall u v, b ++ [42; 47] = u ++ [42; 47] ++ v -> v = []) -> skip_multi star (b ++ [42; 47] ++ g) = Some g.
Proof.
  induction b as [|c b IH]; intros star g S N.
  - cbn. rewrite andb_false_r. reflexivity.
  - cbn [app skip_multi]. destruct (star && (c =? 47)) eqn:E.
    + apply andb_true_iff in E. destruct E as [-> E]. assert (c = 47) by lia. subst. exfalso. exact (S eq_refl b eq_refl).
    + apply IH.
      * intros C r ->. assert (c = 42) by lia. subst. specialize (N [] (r ++ [42; 47]) eq_refl). destruct r; discriminate N.
      * intros u v X. apply (N (c :: u) v). cbn [app] in *. rewrite X. reflexivity.
Qed.
Lemma skip_gap g s : gap g -> skip_until (g ++ s) = skip_until s.
Proof.
  induction 1 as [|c g C G IH|g G IH|b g N G IH]; [reflexivity| | |].
  - cbn [app]. rewrite skip_until_eq. destruct C as [-> | ->]; exact IH.
  - cbn [app]. rewrite skip_until_eq. exact IH.
  - rewrite <- !app_assoc. rewrite skip_until_eq. cbn [app Z.eqb]. change (47 =? 47) with true. change (42 =? 42) with true. cbv iota.
    pose proof (multi_body b false (g ++ s)) as M. cbn [app] in M. rewrite M; [exact IH|discriminate|exact N].
Qed.
Lemma comment_lines b s : forall slash, s = [] \/ (exists s', s = 10 :: s') -> ~ In 13 b ->
  (forall u v, b = u ++ 10 :: v -> (u = [] /\ slash = true) \/ exists u', u = u' ++ [92]) -> (forall u, b <> u ++ [92]) ->
  (b = [] -> slash = false) -> skip_comment slash (b ++ s) = s.
Proof.
  induction b as [|c b IH]; intros slash S N1 N2 N3 N4.
  - cbn [app]. rewrite (N4 eq_refl). destruct S as [->|[s' ->]]; reflexivity.
  - cbn [app skip_comment].
    assert (Q : negb slash && (c =? 10) = false).
    { destruct slash; [reflexivity|]. destruct (c =? 10) eqn:Q; [|reflexivity]. assert (c = 10) as -> by lia.
      destruct (N2 [] b eq_refl) as [[_ X]|[u' X]]; [discriminate X|]. destruct u'; discriminate X. }
    rewrite Q. assert (C : c <> 13) by (intros ->; apply N1; left; reflexivity).
    assert ((c =? 92) || slash && (c =? 13) = (c =? 92)) as -> by (destruct slash; lia).
    apply IH; [exact S|intros X; apply N1; right; exact X| | |].
    + intros u v E. destruct (N2 (c :: u) v) as [[X _]|[u' X]]; [rewrite E; reflexivity|discriminate X|].
      destruct u' as [|d u']; cbn [app] in X; injection X as -> X; [left; split; [exact X|reflexivity]|right; exists u'; exact X].
    + intros u E. apply (N3 (c :: u)). rewrite E. reflexivity.
    + intros ->. destruct (c =? 92) eqn:X; [|reflexivity]. exfalso. apply (N3 []). cbn. f_equal. lia.
Qed.
Lemma skip_over s : over s -> exists r, skip_until s = Some r /\ (r = [] \/ exists r', r = 10 :: r').
Proof.
  destruct 1 as [|s|b s N S].
  - exists []. split; [reflexivity|left; reflexivity].
  - exists (10 :: s). split; [reflexivity|right; eauto].
  - assert (E : skip_comment false (b ++ s) = s).
    { apply (comment_lines b s false S); destruct N as (N1 & N2 & N3); [exact N1|intros u v Q; right; eauto|exact N3|reflexivity]. }
    exists s. split; [|destruct S as [->|[s' ->]]; [left; reflexivity|right; eauto]].
    rewrite skip_until_eq. cbn [app]. change (47 =? 47) with true. change (47 =? 42) with false. cbv iota. rewrite E.
    destruct S as [->|[s' ->]]; reflexivity.
Qed.
(** A token is not skipped. *)
Definition starts (s : list Z) : Prop :=
  match s with
  | [] => False
  | c :: r => ~ In c [32; 9; 13; 92] /\ (c = 47 -> ~ In (peek r) [42; 47])
  end.
Lemma skip_starts s : starts s -> skip_until s = Some s.
Proof.
  destruct s as [|c r]; [contradiction|]. intros [A B]. rewrite skip_until_eq.
  assert (c <> 32 /\ c <> 9 /\ c <> 13 /\ c <> 92) as (A1 & A2 & A3 & A4) by (repeat split; intros ->; apply A; cbn; tauto).
  destruct (c =? 47) eqn:Q.
  - assert (c = 47) by lia. specialize (B H). destruct r as [|c2 r]; [reflexivity|]. cbn [peek] in B.
    destruct (c2 =? 42) eqn:P; [exfalso; apply B; left; lia|]. destruct (c2 =? 47) eqn:R; [exfalso; apply B; right; left; lia|reflexivity].
  - destruct (c =? 92) eqn:E1; [lia|]. destruct ((c =? 32) || (c =? 9)) eqn:E2; [lia|]. destruct (c =? 13) eqn:E3; [lia|reflexivity].
Qed.
Lemma skip_newline s : skip_until (10 :: s) = Some (10 :: s).
Proof. rewrite skip_until_eq. reflexivity. Qed.

(** ** Letters, digits *)
Lemma letter_is c : utf8_is_letter c = letter c.
Proof. unfold utf8_is_letter, utf8_is_russian, letter. lia. Qed.
Lemma digit_is c : utf8_is_digit c = digit c.
Proof. reflexivity. Qed.
Lemma in_word_is c : in_word c = letter c || digit c.
Proof. unfold in_word. rewrite letter_is. reflexivity. Qed.
Lemma digit_of_is base c : base <= 16 -> digit_of base c = (digit_value c <? base).
Proof.
  intros B. unfold digit_of, utf8_is_hexa_digit, utf8_to_number, digit_value, digit, utf8_is_digit.
  destruct ((48 <=? c) && (c <=? 57)) eqn:E1; [cbn [orb]; lia|].
  destruct ((97 <=? c) && (c <=? 102)) eqn:E2, ((65 <=? c) && (c <=? 70)) eqn:E3; cbn [orb andb]; lia.
Qed.
Lemma number_is base ds : base <= 16 -> Forall (fun c => digit_value c < base) ds -> number_of base ds = number base ds.
Proof.
  intros B F. unfold number_of, number. generalize 0. induction F as [|c ds H F IH]; intros a; [reflexivity|]. cbn [fold_left]. rewrite IH. f_equal. f_equal.
  revert H. unfold utf8_to_number, digit_value, digit, utf8_is_digit.
  destruct ((48 <=? c) && (c <=? 57)) eqn:E1; [lia|].
  destruct ((97 <=? c) && (c <=? 102)) eqn:E2, ((65 <=? c) && (c <=? 70)) eqn:E3; lia.
Qed.
Lemma span_all f a s : forallb f a = true -> (match s with [] => True | c :: _ => f c = false end) -> span f (a ++ s) = (a, s).
Proof.
  induction a as [|c a IH]; intros F N.
  - cbn [app]. destruct s as [|c s]; [reflexivity|]. cbn [span]. rewrite N. reflexivity.
  - cbn [forallb] in F. apply andb_true_iff in F. destruct F as [F1 F2]. cbn [app span]. rewrite F1, IH by assumption. reflexivity.
Qed.
Lemma number_nonneg base ds : 0 < base -> 0 <= number base ds.
Proof.
  intros B. unfold number. assert (H : forall a, 0 <= a -> 0 <= fold_left (fun a c => base * a + digit_value c) ds a).
  { induction ds as [|c ds IH]; intros a A; [exact A|]. cbn [fold_left]. apply IH.
    assert (0 <= digit_value c) by (unfold digit_value, digit; repeat match goal with |- context [if ?b then _ else _] => destruct b eqn:?Q end; lia). nia. }
  apply H. lia.
Qed.

Lemma ends_word w s a r : ends_here w s -> w = a :: r -> letter a = true \/ digit a = true ->
  match s with [] => True | c :: _ => letter c = false /\ digit c = false /\ c <> 46 end.
Proof. destruct s as [|c s]; intros H E L; [exact Logic.I|]. destruct H as [_ H]. exact (H a r E L). Qed.
Lemma read_word_ok w s : word w -> ends_here w s -> read_word (w ++ s) = (w, s).
Proof.
  destruct w as [|a r]; [contradiction|]. intros [W1 W2] E. apply span_all.
  - cbn [forallb]. rewrite in_word_is, W1. cbn [orb andb]. rewrite <- W2. clear. induction r as [|c r IH]; [reflexivity|]. cbn [forallb]. rewrite IH, in_word_is. reflexivity.
  - pose proof (ends_word _ _ a r E eq_refl (or_introl W1)) as X. destruct s as [|c s]; [exact Logic.I|].
    rewrite in_word_is. destruct X as (-> & -> & _). reflexivity.
Qed.

(** ** Suffixes *)
Lemma lower_u c : lower c = 117 <-> is_u c = true.
Proof. unfold lower, is_u. destruct ((65 <=? c) && (c <=? 90)) eqn:E; lia. Qed.
Lemma lower_l c : lower c = 108 <-> is_l c = true.
Proof. unfold lower, is_l. destruct ((65 <=? c) && (c <=? 90)) eqn:E; lia. Qed.
Lemma suffix_is w : suffix w -> w = [] \/ suffix_ok w = true.
Proof.
  unfold suffix. cbn [map chars String.list_ascii_of_string In].
  intros H. repeat (destruct H as [H|H]); try contradiction; cbn in H; symmetry in H.
  all: repeat match goal with
       | H : map lower ?w = [] |- _ => apply map_eq_nil in H; subst
       | H : map lower ?w = _ :: _ |- _ => destruct w as [|? ?]; [discriminate H|]; cbn [map] in H; injection H as ? H
       end.
  all: repeat match goal with
       | H : lower _ = 117 |- _ => apply lower_u in H
       | H : lower _ = 108 |- _ => apply lower_l in H
       end.
  all: try (left; reflexivity).
  all: right; cbn [suffix_ok]; repeat match goal with H : _ = true |- _ => rewrite H; clear H end; rewrite ?orb_true_r; cbn [andb orb]; rewrite ?orb_true_r; reflexivity.
Qed.
Lemma suffix_first c w : suffix (c :: w) -> In c [85; 117; 76; 108].
Proof.
  unfold suffix. cbn [map chars String.list_ascii_of_string In].
  intros H. repeat (destruct H as [H|H]); try contradiction; cbn in H; try discriminate H; injection H as H _; revert H; unfold lower; destruct ((65 <=? c) && (c <=? 90)) eqn:E; intros; cbn; lia.
Qed.
Lemma suffix_word w : suffix w -> w = [] \/ word w.
Proof.
  intros H. pose proof H as H0. destruct w as [|c w]; [left; reflexivity|right].
  assert (L : forall c, lower c = 117 \/ lower c = 108 -> letter c = true).
  { intros x [X|X]; revert X; unfold lower, letter; destruct ((65 <=? x) && (x <=? 90)) eqn:E; intros; lia. }
  revert H. unfold suffix. cbn [map chars String.list_ascii_of_string In].
  intros H. repeat (destruct H as [H|H]); try contradiction; cbn in H; symmetry in H.
  all: repeat match goal with
       | H : map lower ?w = [] |- _ => apply map_eq_nil in H; subst
       | H : map lower ?w = _ :: _ |- _ => destruct w as [|? ?]; [discriminate H|]; cbn [map] in H; injection H as ? H
       | H : _ :: map lower ?w = _ |- _ => injection H as ? H
       end.
  all: try discriminate.
  all: cbn [word forallb]; repeat (rewrite L by tauto); split; reflexivity.
Qed.

(** ** Numbers *)
(** Reading goes on at the rest or at the next token. *)
Definition same (s r : list Z) : Prop := r = s \/ skip_until s = Some r.
Definition calm (s : list Z) : Prop := match s with [] => True | c :: _ => letter c = false /\ digit c = false /\ c <> 46 end.
Lemma letter_not c : letter c = false -> ~ In c [120; 88; 100; 68; 111; 79; 98; 66; 101; 69].
Proof. unfold letter. cbn. lia. Qed.
Lemma calm_peek s : calm s -> letter (peek s) = false /\ digit (peek s) = false /\ peek s <> 46.
Proof. destruct s; cbn; [intros _; split; [reflexivity|split; [reflexivity|lia]]|tauto]. Qed.

(** The end of [parse_number]: after the digits. *)
Lemma number_tail here s3 v sfx s s4 : (forall r, here r = here (sfx ++ s) -> zlen r = zlen (sfx ++ s)) ->
  suffix sfx -> calm s -> skip_until (sfx ++ s) = Some s4 -> s3 = sfx ++ s ->
  exists r, same s r /\
  (if here s3 =? here s4
   then
     if (peek s4 =? 46) || (peek s4 =? 101) || (peek s4 =? 69) then Some (LBad EXPR_FLOATING_CONSTANT)
     else if utf8_is_letter (peek s4)
     then let '(w, s5) := read_word s4 in
          if suffix_ok w then Some (LNumb (s64 v) s5) else Some (LBad EXPR_INVALID_SUFFIX)
     else Some (LNumb (s64 v) s4)
   else Some (LNumb (s64 v) s4)) = Some (LNumb (s64 v) r).
Proof.
  intros HH S C K ->. destruct (calm_peek s C) as (C1 & C2 & C3). destruct sfx as [|a sfx].
  - cbn [app] in *. destruct (here s =? here s4) eqn:Q.
    + assert (s4 = s) by (apply skip_adjacent; [exact K|apply HH; lia]). subst s4.
      exists s. split; [left; reflexivity|].
      assert ((peek s =? 46) || (peek s =? 101) || (peek s =? 69) = false) as ->.
      { pose proof (letter_not _ C1) as L. cbn in L. lia. }
      rewrite letter_is, C1. reflexivity.
    + exists s4. split; [right; exact K|reflexivity].
  - pose proof (suffix_first a sfx S) as F.
    assert (ST : skip_until ((a :: sfx) ++ s) = Some ((a :: sfx) ++ s)).
    { apply skip_starts. cbn [app starts]. split; [|intros ->]; cbn in *; lia. }
    rewrite ST in K. injection K as <-. rewrite Z.eqb_refl.
    exists s. split; [left; reflexivity|]. cbn [app peek].
    assert ((a =? 46) || (a =? 101) || (a =? 69) = false) as -> by (cbn in F; lia).
    destruct (suffix_word _ S) as [X|W]; [discriminate X|].
    assert (E : ends_here (a :: sfx) s).
    { destruct s as [|c s]; [exact Logic.I|]. cbn [ends_here calm] in *. split; [|intros ? ? _ _; exact C].
      intros O. exfalso. cbn in F. unfold operators in O. cbn in O.
      repeat (destruct O as [O|O]; [injection O as O1 _; lia|]). exact O. }
    assert (L : letter a = true) by (destruct W; assumption). rewrite letter_is, L.
    change (a :: sfx ++ s) with ((a :: sfx) ++ s).
    rewrite read_word_ok by assumption. destruct (suffix_is _ S) as [X| ->]; [discriminate X|reflexivity].
Qed.

Lemma scan_plain base ds s : 2 <= base <= 16 -> in_base base ds -> number base ds < 2 ^ 63 ->
  (match s with [] => True | c :: _ => digit_value c >= base /\ (base = 16 -> c <> 120 /\ c <> 88) end) ->
  scan_int base (ds ++ s) = Some (Some (number base ds, s)).
Proof.
  intros B [D1 D2] R N. unfold scan_int.
  destruct ds as [|d ds]; [congruence|]. inversion D2 as [|? ? D3 D4]; subst.
  assert (HD : (48 <= d <= 57) \/ (97 <= d <= 102) \/ (65 <= d <= 70)).
  { revert D3. unfold digit_value, digit. repeat match goal with |- context [if ?b then _ else _] => destruct b eqn:?Q end; lia. }
  assert (S0 : span is_space ((d :: ds) ++ s) = ([], (d :: ds) ++ s)).
  { cbn [app span]. assert (is_space d = false) as -> by (unfold is_space; lia). reflexivity. }
  rewrite S0.
  assert (S1 : scan_sign ((d :: ds) ++ s) = (false, (d :: ds) ++ s)).
  { cbn [app scan_sign]. destruct (d =? 45) eqn:Q1; [lia|]. destruct (d =? 43) eqn:Q2; [lia|reflexivity]. }
  rewrite S1.
  assert (P : (base =? 16) && (peek ((d :: ds) ++ s) =? 48) && ((peek (tl ((d :: ds) ++ s)) =? 120) || (peek (tl ((d :: ds) ++ s)) =? 88)) = false).
  { cbn [app peek tl]. destruct ds as [|d2 ds].
    - cbn [app]. destruct s as [|c s]; cbn [peek] in *; lia.
    - cbn [app peek]. inversion D4 as [|? ? D5 D6]; subst. revert D5. unfold digit_value, digit.
      repeat match goal with |- context [if ?b then _ else _] => destruct b eqn:?Q end; lia. }
  rewrite P.
  rewrite (span_all (digit_of base) (d :: ds) s).
  - cbv beta iota. rewrite number_is by (try lia; exact D2).
    pose proof (number_nonneg base (d :: ds)) as NN. change (2 ^ 63) with 9223372036854775808 in R.
    destruct (base =? 10).
    + assert ((LLONG_MIN <=? number base (d :: ds)) && (number base (d :: ds) <=? LLONG_MAX) = true) as -> by (unfold LLONG_MIN, LLONG_MAX, two63; lia). reflexivity.
    + assert (number base (d :: ds) <? two64 = true) as -> by (unfold two64; lia). reflexivity.
  - apply forallb_forall. intros c C. rewrite Forall_forall in D2. specialize (D2 c C). rewrite digit_of_is by lia. lia.
  - destruct s as [|c s]; [exact Logic.I|]. rewrite digit_of_is by lia. lia.
Qed.
Lemma scan_bits_all n ds s : (length ds <= n)%nat -> Forall (fun c => c = 48 \/ c = 49) ds ->
  (match s with [] => True | c :: _ => c <> 48 /\ c <> 49 end) -> scan_bits n (ds ++ s) = (ds, s).
Proof.
  revert n. induction ds as [|d ds IH]; intros n L F N.
  - cbn [app]. destruct n; [reflexivity|]. destruct s as [|c s]; [reflexivity|]. cbn [scan_bits].
    destruct ((c =? 48) || (c =? 49)) eqn:Q; [lia|reflexivity].
  - destruct n; [cbn in L; lia|]. inversion F; subst. cbn [app scan_bits].
    destruct ((d =? 48) || (d =? 49)) eqn:Q; [|lia]. rewrite IH by (try assumption; cbn in L; lia). reflexivity.
Qed.
Lemma scan_bin_plain ds s : in_base 2 ds -> number 2 ds < 2 ^ 63 -> zlen ds <= 99 ->
  (match s with [] => True | c :: _ => digit_value c >= 2 end) -> scan_bin (ds ++ s) = Some (Some (number 2 ds, s)).
Proof.
  intros [D1 D2] R L N. unfold scan_bin. rewrite scan_bits_all.
  - destruct ds as [|d ds]; [congruence|]. rewrite number_is by (try lia; exact D2).
    pose proof (number_nonneg 2 (d :: ds)) as NN. change (2 ^ 63) with 9223372036854775808 in R.
    rewrite Z.mod_small by (unfold two64; lia). reflexivity.
  - rewrite zlen_unf in L. lia.
  - eapply Forall_impl; [|exact D2]. intros c. cbn beta. unfold digit_value, digit.
    repeat match goal with |- context [if ?b then _ else _] => destruct b eqn:?Q end; lia.
  - destruct s as [|c s]; [exact Logic.I|]. revert N. unfold digit_value, digit.
    repeat match goal with |- context [if ?b then _ else _] => destruct b eqn:?Q end; lia.
Qed.
(** What follows the digits of a number is no digit. *)
Lemma after_digits base sfx s : base <= 16 -> suffix sfx -> calm s ->
  match sfx ++ s with [] => True | c :: _ => digit_value c >= base /\ (base = 16 -> c <> 120 /\ c <> 88) end.
Proof.
  intros B S C. destruct sfx as [|a sfx].
  - cbn [app]. destruct s as [|c s]; [exact Logic.I|]. cbn [calm] in C. destruct C as (C1 & C2 & _).
    revert C1 C2. unfold letter, digit, digit_value, digit. repeat match goal with |- context [if ?b then _ else _] => destruct b eqn:?Q end; lia.
  - cbn [app]. pose proof (suffix_first _ _ S) as F. cbn in F. unfold digit_value, digit.
    repeat match goal with |- context [if ?b then _ else _] => destruct b eqn:?Q end; lia.
Qed.
Lemma s64_number base ds : 0 < base -> number base ds < 2 ^ 63 -> s64 (number base ds) = number base ds.
Proof.
  intros B R. apply s64_id. pose proof (number_nonneg base ds B). change (2 ^ 63) with 9223372036854775808 in R.
  unfold is_int64, LLONG_MIN, LLONG_MAX, two63. lia.
Qed.
Lemma decimal_first n w s : decimal n w -> ends_here w s -> calm s /\ exists d r, w = d :: r /\ digit d = true.
Proof.
  intros D E. destruct D as [ds sfx [D1 D2] R S]. destruct ds as [|d ds]; [congruence|]. inversion D2 as [|? ? D3 D4]; subst.
  assert (digit d = true) by (revert D3; unfold digit_value, digit; repeat match goal with |- context [if ?b then _ else _] => destruct b eqn:?Q end; lia).
  split; [|exists d, (ds ++ sfx); split; [reflexivity|assumption]].
  pose proof (ends_word _ _ d (ds ++ sfx) E eq_refl (or_intror H)) as X. exact X.
Qed.

(** [here] tells places apart. *)
Definition faithful (here : list Z -> Z) : Prop := forall a b, here a = here b -> zlen a = zlen b.
(** A decimal number, in a directive or in the value of a macro. *)
Lemma decimal_read here pos n w s s2 : faithful here -> decimal n w -> ends_here w s -> skip_until s = Some s2 ->
  (pos = here (w ++ s) /\ (forall a, here a = here [] - zlen a) \/ (n = 0 -> calm s2)) ->
  exists r, same s r /\ parse_number pos here (w ++ s) = Some (LNumb n r).
Proof.
  intros HF D E K P. destruct (decimal_first n w s D E) as [C _]. destruct D as [ds sfx D R S].
  unfold parse_number. rewrite <- app_assoc.
  rewrite (scan_plain 10 ds (sfx ++ s)); [|lia|exact D|exact R|apply after_digits; [lia|exact S|exact C]].
  cbv beta iota.
  assert (KK : exists s1, skip_until (sfx ++ s) = Some s1 /\ (sfx = [] /\ s1 = s2 \/ sfx <> [] /\ s1 = sfx ++ s)).
  { destruct sfx as [|a sfx]; [exists s2; split; [exact K|left; auto]|]. exists ((a :: sfx) ++ s). split; [|right; split; [discriminate|reflexivity]].
    pose proof (suffix_first a sfx S) as F. apply skip_starts. cbn [app starts]. split; [|intros ->]; cbn in *; lia. }
  destruct KK as (s1 & K1 & K2). cbn [bind]. rewrite K1. cbn [bind].
  assert (Tail : exists r, same s r /\
     (if here (sfx ++ s) =? here s1
      then if (peek s1 =? 46) || (peek s1 =? 101) || (peek s1 =? 69) then Some (LBad EXPR_FLOATING_CONSTANT)
        else if utf8_is_letter (peek s1) then let '(w, s5) := read_word s1 in if suffix_ok w then Some (LNumb (s64 (number 10 ds)) s5) else Some (LBad EXPR_INVALID_SUFFIX)
          else Some (LNumb (s64 (number 10 ds)) s1)
      else Some (LNumb (s64 (number 10 ds)) s1)) = Some (LNumb (s64 (number 10 ds)) r)).
  { apply (number_tail here (sfx ++ s) (number 10 ds) sfx s s1); [intros r; apply HF|exact S|exact C|exact K1|reflexivity]. }
  rewrite s64_number in Tail by (try lia; exact R).
  destruct ((number 10 ds =? 0) && (pos + 1 =? here s1)) eqn:Q; cbn [bind].
  2: { rewrite s64_number by (try lia; exact R). exact Tail. }
  (* the first character after a nought is no letter of a notation *)
  assert (X : letter (peek s1) = false /\ peek s1 <> 46 \/ (s1 = sfx ++ s /\ In (peek s1) [85; 117; 76; 108])).
  { destruct K2 as [[-> ->]|[NE ->]].
    - destruct P as [[-> HL]|P].
      + assert (ZL : zlen s2 = zlen s).
        { apply andb_true_iff in Q. destruct Q as [_ Q]. cbn [app] in *. rewrite app_nil_r in *.
          pose proof (HL (ds ++ s)) as H1. pose proof (HL s2) as H2.
          assert (zlen (ds ++ s) = zlen ds + zlen s) by (rewrite !zlen_unf, app_length; lia).
          assert (1 <= zlen ds) by (destruct D as [D1 _]; destruct ds; [congruence|rewrite zlen_unf; cbn [length]; lia]).
          destruct (skip_shorter s s2 K) as [->|LT]; [reflexivity|lia]. }
        assert (s2 = s) by (apply skip_adjacent; assumption). subst s2. left. destruct (calm_peek s C) as (A & _ & B). split; assumption.
      + left. destruct (calm_peek s2) as (A & _ & B); [apply P; lia|]. split; assumption.
    - right. split; [reflexivity|]. destruct sfx as [|a sfx]; [congruence|]. exact (suffix_first a sfx S). }
  assert (NN : ((peek s1 =? 120) || (peek s1 =? 88)) = false /\ ((peek s1 =? 100) || (peek s1 =? 68)) = false
    /\ ((peek s1 =? 111) || (peek s1 =? 79)) = false /\ ((peek s1 =? 98) || (peek s1 =? 66)) = false).
  { destruct X as [[X _]|[_ X]]; [pose proof (letter_not _ X) as Y|]; cbn in *; lia. }
  destruct NN as (-> & -> & -> & ->). cbn [bind].
  rewrite (skip_idem _ _ K1). cbn [bind]. rewrite Z.eqb_refl. rewrite s64_number by (try lia; exact R).
  destruct X as [[X1 X2]|[-> X2]].
  - assert ((peek s1 =? 46) || (peek s1 =? 101) || (peek s1 =? 69) = false) as -> by (pose proof (letter_not _ X1) as Y; cbn in Y; lia).
    rewrite letter_is, X1. exists s1. split; [|reflexivity].
    destruct K2 as [[-> ->]|[NE ->]]; [right; exact K|]. exfalso. destruct sfx as [|a sfx]; [congruence|].
    pose proof (suffix_first a sfx S) as F. cbn [app peek] in X1. revert X1. unfold letter. cbn in F. lia.
  - rewrite Z.eqb_refl in Tail. exact Tail.
Qed.

Lemma peek_app a b : a <> [] -> peek (a ++ b) = peek a.
Proof. destruct a; [congruence|reflexivity]. Qed.
(** A number with a prefix, in a directive. *)
Lemma prefixed_read here n w s : faithful here -> (forall a, here a = here [] - zlen a) ->
  prefixed n w -> ends_here w s -> (exists s2, skip_until s = Some s2) ->
  exists r, same s r /\ parse_number (here (w ++ s)) here (w ++ s) = Some (LNumb n r).
Proof.
  intros HF HL D E [s2 K]. destruct D as [base pre ds sfx IP D R B2 S].
  assert (PRE : exists x, pre = [48; x] /\ 2 <= base <= 16 /\ ((x = 120 \/ x = 88) /\ base = 16 \/ (x = 100 \/ x = 68) /\ base = 10 \/ (x = 111 \/ x = 79) /\ base = 8 \/ (x = 98 \/ x = 66) /\ base = 2)).
  { unfold prefixes in IP. cbn in IP. repeat (destruct IP as [IP|IP]; [injection IP as <- <-; eexists; split; [reflexivity|]; split; [lia|]; lia|]). contradiction. }
  destruct PRE as (x & -> & BB & XB).
  assert (C : calm s) by exact (ends_word _ _ 48 (x :: ds ++ sfx) E eq_refl (or_intror eq_refl)).
  assert (XV : digit_value x >= 10).
  { unfold digit_value, digit. repeat match goal with |- context [if ?b then _ else _] => destruct b eqn:?Q end; lia. }
  unfold parse_number.
  assert (SC : scan_int 10 (([48; x] ++ ds ++ sfx) ++ s) = Some (Some (0, x :: ds ++ sfx ++ s))).
  { rewrite app_assoc. rewrite <- app_assoc. rewrite <- (app_assoc [48; x]). change ([48; x] ++ ds ++ sfx ++ s) with ([48] ++ x :: ds ++ sfx ++ s).
    change 0 with (number 10 [48]). apply scan_plain; [lia|split; [discriminate|constructor; [reflexivity|constructor]]|reflexivity|].
    split; [exact XV|intros Q; discriminate Q]. }
  rewrite SC. cbn [bind].
  assert (K0 : skip_until (x :: ds ++ sfx ++ s) = Some (x :: ds ++ sfx ++ s)).
  { apply skip_starts. cbn [starts]. split; [|intros ->]; cbn; lia. }
  rewrite K0. cbn [bind]. cbn [peek tl].
  assert (P : (0 =? 0) && (here (([48; x] ++ ds ++ sfx) ++ s) + 1 =? here (x :: ds ++ sfx ++ s)) = true).
  { rewrite HL, (HL (x :: _)). rewrite !zlen_unf, !app_length. cbn [length]. rewrite !app_length. cbn [length]. lia. }
  rewrite P. clear P.
  assert (RD : (if (x =? 120) || (x =? 88) then scan_int 16 (ds ++ sfx ++ s) else if (x =? 100) || (x =? 68) then scan_int 10 (ds ++ sfx ++ s)
      else if (x =? 111) || (x =? 79) then scan_int 8 (ds ++ sfx ++ s) else if (x =? 98) || (x =? 66) then scan_bin (ds ++ sfx ++ s) else Some (Some (0, x :: ds ++ sfx ++ s)))
      = Some (Some (number base ds, sfx ++ s))).
  { assert (AD : match sfx ++ s with [] => True | c :: _ => digit_value c >= base /\ (base = 16 -> c <> 120 /\ c <> 88) end) by (apply after_digits; [lia|exact S|exact C]).
    destruct XB as [[XX ->]|[[XX ->]|[[XX ->]|[XX ->]]]].
    - assert ((x =? 120) || (x =? 88) = true) as -> by lia. apply scan_plain; [lia|assumption..].
    - assert ((x =? 120) || (x =? 88) = false) as -> by lia. assert ((x =? 100) || (x =? 68) = true) as -> by lia. apply scan_plain; [lia|assumption..].
    - assert ((x =? 120) || (x =? 88) = false) as -> by lia. assert ((x =? 100) || (x =? 68) = false) as -> by lia.
      assert ((x =? 111) || (x =? 79) = true) as -> by lia. apply scan_plain; [lia|assumption..].
    - assert ((x =? 120) || (x =? 88) = false) as -> by lia. assert ((x =? 100) || (x =? 68) = false) as -> by lia.
      assert ((x =? 111) || (x =? 79) = false) as -> by lia. assert ((x =? 98) || (x =? 66) = true) as -> by lia.
      apply scan_bin_plain; [exact D|exact R|apply B2; reflexivity|]. destruct (sfx ++ s); [exact Logic.I|]. tauto. }
  rewrite RD. cbn [bind].
  assert (K1 : exists s1, skip_until (sfx ++ s) = Some s1).
  { destruct sfx as [|a sfx]; [exists s2; exact K|]. exists ((a :: sfx) ++ s).
    pose proof (suffix_first a sfx S) as F. apply skip_starts. cbn [app starts]. split; [|intros ->]; cbn in *; lia. }
  destruct K1 as [s1 K1]. rewrite K1. cbn [bind].
  destruct (number_tail here (sfx ++ s) (number base ds) sfx s s1) as (r & R1 & R2); [intros r; apply HF|exact S|exact C|exact K1|reflexivity|].
  exists r. split; [exact R1|]. rewrite s64_number in R2 by (try lia; exact R). rewrite s64_number by (try lia; exact R). exact R2.
Qed.

(** ** Characters, operators *)
Lemma char_read c s : ~ In c [39; 92; 10; 13] -> parse_sequence ([39; c; 39] ++ s) = Some (LNumb c s).
Proof.
  intros N. unfold parse_sequence. cbn [app peek tl skip_string negb andb].
  assert (c =? 39 = false) as -> by (cbn in N; lia). assert (c =? 13 = false) as -> by (cbn in N; lia).
  assert (c =? 10 = false) as -> by (cbn in N; lia). assert (c =? 92 = false) as -> by (cbn in N; lia). reflexivity.
Qed.
Lemma not_longer w c s x : ends_here w (c :: s) -> In w operators -> In (w ++ [x]) operators -> c <> x.
Proof. intros [E _] W X ->. apply (E W). exists []. exact X. Qed.
Definition tok_code (t : tok) : Z :=
  match t with
  | TOpen => TK_L_BOUND | TClose => TK_R_BOUND | TCompl => TK_COMPL | TNot => TK_NOT
  | TBin Mul => TK_MULT | TBin Div => TK_DIV | TBin Rem => TK_MOD | TBin Add => TK_ADD | TBin Sub => TK_SUB
  | TBin Shl => TK_L_SHIFT | TBin Shr => TK_R_SHIFT | TBin Lt => TK_LESS | TBin Gt => TK_GREATER | TBin Le => TK_LESS_EQ | TBin Ge => TK_GREATER_EQ
  | TBin Eq => TK_EQ | TBin Ne => TK_NOT_EQ | TBin BAnd => TK_BIT_AND | TBin BXor => TK_XOR | TBin BOr => TK_BIT_OR | TBin LAnd => TK_AND | TBin LOr => TK_OR
  | _ => -1
  end.
Lemma starts_simple t w s : simple t w -> ends_here w s -> starts (w ++ s).
Proof.
  intros W E. assert (X : exists c r, w = c :: r /\ ~ In c [32; 9; 13; 92] /\ (c = 47 -> w = [47])).
  { destruct W as [| | | |b]; [..|destruct b]; eexists; eexists; (split; [reflexivity|]; split; [cbn; lia|intros Q; try discriminate Q; reflexivity]). }
  destruct X as (c & r & -> & N & Q). cbn [app starts]. split; [exact N|]. intros C. specialize (Q C). injection Q as -> ->. cbn [app].
  destruct s as [|d s]; [cbn; lia|]. cbn [peek]. destruct E as [E _].
  assert (I0 : In [47] operators) by (cbn; tauto). specialize (E I0). intros D. apply E. exists [].
  cbn in D. destruct D as [<-|[<-|[]]]; cbn; tauto.
Qed.
Ltac isop := unfold operators; cbn; tauto.
Ltac literal := match goal with |- context [chars ?x] => let v := eval vm_compute in (chars x) in change (chars x) with v in * end.
Lemma simple_read t w s s2 : simple t w -> ends_here w s -> skip_until s = Some s2 ->
  exists r, same s r /\ parse_token (w ++ s) = Some (LTok (tok_code t) r).
Proof.
  intros W E K.
  assert (NX : forall x, In (w ++ [x]) operators -> In w operators -> x <> 0 /\ x <> -1 -> (if zlen s =? zlen s2 then peek s2 else 0) =? x = false).
  { intros x W2 W1 [N0 N1]. destruct (zlen s =? zlen s2) eqn:Q; [|lia].
    assert (s2 = s) by (apply skip_adjacent; [exact K|lia]). subst.
    destruct s as [|c s]; cbn [peek]; [lia|]. pose proof (not_longer w c s x E W1 W2). lia. }
  Ltac one NX K s2 := exists s2; split; [right; exact K|]; unfold parse_token; cbn [app peek tl]; rewrite K; cbn [bind Z.eqb Pos.eqb];
    repeat match goal with |- context [(if zlen ?a =? zlen ?b then peek ?c else 0) =? ?x] => rewrite (NX x ltac:(isop) ltac:(isop) ltac:(lia)) end; reflexivity.
  Ltac two s := exists s; split; [left; reflexivity|]; unfold parse_token; cbn [app peek tl];
    match goal with |- context [skip_until (?y :: s)] => assert (skip_until (y :: s) = Some (y :: s)) as -> by (apply skip_starts; cbn [starts]; split; [cbn; lia|intros X; discriminate X]) end;
    cbn [bind]; rewrite !Z.eqb_refl; reflexivity.
  Ltac three NX K s s2 := exists s2; split; [right; exact K|]; unfold parse_token; cbn [app peek tl];
    match goal with |- context [skip_until (?y :: s)] => assert (skip_until (y :: s) = Some (y :: s)) as -> by (apply skip_starts; cbn [starts]; split; [cbn; lia|intros X; discriminate X]) end;
    cbn [bind peek tl]; rewrite Z.eqb_refl; cbn [Z.eqb Pos.eqb]; rewrite K; cbn [bind];
    let H := fresh in assert (H := NX 61 ltac:(isop) ltac:(isop) ltac:(lia));
    destruct (zlen s =? zlen s2); [rewrite H|]; rewrite ?andb_false_r; reflexivity.
  destruct W as [| | | |b]; [..|destruct b; unfold bin_text in *; cbv iota in *]; literal.
  all: first [one NX K s2|two s|three NX K s s2].
Qed.

(** ** The loop *)
Definition told (r : option (Z * option (cmsg * Z))) : option (Z * option said) :=
  do ' (v, m) <- r; Some (v, match m with Some (m, p) => Some (SComp m p) | None => None end).
Definition placed (l : list (Z * tok)) : list (Z * piece) := map (fun '(p, t) => (p, as_piece t)) l.
Fixpoint feed_then (c : computer) (l : list (Z * piece)) (k : computer -> option (Z * option said)) : option (Z * option said) :=
  match l with
  | [] => k c
  | (pos, p) :: l =>
      do ' (r, c) <- push c pos p;
      if (r =? 0) || match p with PName => true | _ => false end then feed_then c l k else Some (0, shown c)
  end.
Lemma feed_then_told l1 l2 : forall c, feed_then c l1 (fun c => told (feed c l2)) = told (feed c (l1 ++ l2)).
Proof.
  induction l1 as [|[p x] l1 IH]; intros c; [reflexivity|]. cbn [feed_then feed app].
  destruct (push c p x) as [[r c']|]; [|reflexivity]. cbn [bind].
  destruct (_ || _); [apply IH|]. unfold told, shown. cbn [bind]. destruct (c_err c') as [[m q]|]; reflexivity.
Qed.
Lemma feed_then_app l1 l2 k : forall c, feed_then c l1 (fun c => feed_then c l2 k) = feed_then c (l1 ++ l2) k.
Proof.
  induction l1 as [|[p x] l1 IH]; intros c; [reflexivity|]. cbn [feed_then app].
  destruct (push c p x) as [[r c']|]; [|reflexivity]. cbn [bind]. destruct (_ || _); [apply IH|reflexivity].
Qed.
Lemma code_is b : bincode b = tok_code (TBin b).
Proof. destruct b; reflexivity. Qed.

Lemma same_skip s s' r : same s s' -> skip_until s = Some r -> skip_until s' = Some r.
Proof. intros [->|H] K; [exact K|]. rewrite H in K. injection K as <-. exact (skip_idem _ _ H). Qed.
Lemma skip_lines_more n : forall m s, (length s < n)%nat -> (length s < m)%nat -> skip_lines_n n s = skip_lines_n m s.
Proof.
  induction n as [|n IH]; intros m s N M; [lia|]. destruct m as [|m]; [lia|]. cbn [skip_lines_n].
  destruct (skip_until s) as [r|] eqn:K; [|reflexivity]. cbn [bind]. destruct r as [|c r]; [reflexivity|].
  destruct (c =? 10); [|reflexivity]. apply IH; destruct (skip_shorter _ _ K) as [<-|L]; cbn [length] in *; rewrite ?zlen_unf in *; cbn [length] in *; lia.
Qed.
Lemma skip_lines_eq s : skip_lines s = do s <- skip_until s; match s with c :: s' => if c =? 10 then skip_lines s' else Some s | [] => Some [] end.
Proof.
  unfold skip_lines at 1. cbn [skip_lines_n]. destruct (skip_until s) as [r|] eqn:K; [|reflexivity]. cbn [bind]. destruct r as [|c r]; [reflexivity|].
  destruct (c =? 10); [|reflexivity]. apply skip_lines_more; [|lia]. destruct (skip_shorter _ _ K) as [<-|L]; cbn [length] in *; rewrite ?zlen_unf in *; cbn [length] in *; lia.
Qed.
Lemma same_lines s s' : same s s' -> skip_lines s' = skip_lines s.
Proof. intros [->|H]; [reflexivity|]. rewrite (skip_lines_eq s), (skip_lines_eq s'), H, (skip_idem _ _ H). reflexivity. Qed.
Lemma lines_gap g s : value_gap g -> skip_lines (g ++ s) = skip_lines s.
Proof.
  induction 1 as [g G|g g' G V IH].
  - rewrite (skip_lines_eq (g ++ s)), (skip_lines_eq s), skip_gap by assumption. reflexivity.
  - rewrite <- app_assoc. cbn [app]. rewrite skip_lines_eq, skip_gap, skip_newline by assumption. cbn [bind]. exact IH.
Qed.
Lemma lines_starts s : starts s -> peek s <> 10 -> skip_lines s = Some s.
Proof. intros S N. rewrite skip_lines_eq, skip_starts by assumption. cbn [bind]. destruct s as [|c s]; [reflexivity|]. cbn [peek] in N. destruct (c =? 10) eqn:Q; [lia|reflexivity]. Qed.
Lemma gap_then g s : value_gap g -> skip_until s = Some s -> exists g' s2, gap g' /\ g ++ s = g' ++ s2 /\ skip_until (g ++ s) = Some s2.
Proof.
  intros V K. destruct V as [g G|g g' G V].
  - exists g, s. split; [exact G|]. split; [reflexivity|]. rewrite skip_gap by assumption. exact K.
  - exists g, (10 :: g' ++ s). split; [exact G|]. rewrite <- app_assoc. split; [reflexivity|]. rewrite skip_gap by assumption. apply skip_newline.
Qed.

(** How tokens begin. *)
Lemma letter_starts a r : letter a = true -> starts (a :: r).
Proof. unfold letter, starts. intros L. split; [cbn; lia|intros ->; exfalso; cbn in L; lia]. Qed.
Lemma digit_starts a r : digit a = true -> starts (a :: r).
Proof. unfold digit, starts. intros L. split; [cbn; lia|intros ->; exfalso; cbn in L; lia]. Qed.
Lemma simple_first t w : simple t w -> exists a r, w = a :: r /\ In a [40; 41; 126; 33; 42; 47; 37; 43; 45; 60; 62; 61; 38; 94; 124].
Proof. intros W. destruct W as [| | | |b]; [..|destruct b]; eexists; eexists; (split; [reflexivity|cbn; tauto]). Qed.
Lemma decimal_begins n w : decimal n w -> exists a r, w = a :: r /\ digit a = true.
Proof. intros D. destruct (decimal_first n w [] D) as [_ X]; [exact Logic.I|exact X]. Qed.
Lemma prefixed_begins n w : prefixed n w -> exists r, w = 48 :: r.
Proof. intros D. destruct D as [base pre ds sfx IP _ _ _ _]. cbn in IP. repeat (destruct IP as [IP|IP]; [injection IP as <- <-; eexists; reflexivity|]). contradiction. Qed.
Lemma word_begins w : word w -> exists a r, w = a :: r /\ letter a = true.
Proof. destruct w as [|a r]; [contradiction|]. intros [W _]. eauto. Qed.
Lemma spells_starts t w s : spells t w -> ends_here w s -> starts (w ++ s).
Proof.
  intros W E. destruct W as [n w D|n w D|c N|t w S].
  - destruct (decimal_begins n w D) as (a & r & -> & L). apply (digit_starts a (r ++ s) L).
  - destruct (prefixed_begins n w D) as (r & ->). apply (digit_starts 48 (r ++ s) eq_refl).
  - cbn [app starts]. split; [cbn; lia|intros Q; discriminate Q].
  - exact (starts_simple t w s S E).
Qed.
Lemma over_skip s : over s -> exists r, skip_until s = Some r.
Proof. intros O. destruct (skip_over s O) as (r & R & _). eauto. Qed.

Section Loop.
Variable replace : list Z -> list Z -> option (option (list Z * list Z)).
Variable total : Z.
Notation loop := (read_loop replace total).
Lemma reads_skip (fin : list Z -> Prop) s l : (forall s, fin s -> exists r, skip_until s = Some r) -> reads replace fin total s l -> exists r, skip_until s = Some r.
Proof.
  intros F R. destruct R as [g s G O|g t w s l G W E R|g w s l G W E N R|g w s v s' lv l G W E N V R|g g' w s l G G' W E R]; rewrite skip_gap by assumption.
  - exact (F s O).
  - exists (w ++ s). apply skip_starts. exact (spells_starts t w s W E).
  - exists (w ++ s). destruct (word_begins w W) as (a & r & -> & L). apply skip_starts, letter_starts, L.
  - exists (w ++ s). destruct (word_begins w W) as (a & r & -> & L). apply skip_starts, letter_starts, L.
  - exists (35 :: g' ++ w ++ s). apply skip_starts. split; [cbn; lia|intros Q; discriminate Q].
Qed.
Lemma value_skip p s l : value_reads p s l -> exists g' s2, gap g' /\ s = g' ++ s2 /\ skip_until s = Some s2.
Proof.
  intros R. destruct R as [g G|g w s l G W E R|g n w s l G W E N R|g c s l G N R|g t w s l G W E R].
  - rewrite <- (app_nil_r g). apply gap_then; [exact G|reflexivity].
  - apply gap_then; [exact G|]. destruct (word_begins w W) as (a & r & -> & L). apply skip_starts, letter_starts, L.
  - apply gap_then; [exact G|]. destruct (decimal_begins n w W) as (a & r & -> & L). apply skip_starts, digit_starts, L.
  - apply gap_then; [exact G|]. apply skip_starts. split; [cbn; lia|intros Q; discriminate Q].
  - apply gap_then; [exact G|]. apply skip_starts. exact (starts_simple t w s W E).
Qed.
Definition skips (m : mode) (s : list Z) : option (list Z) := match m with MText => skip_until s | _ => skip_lines s end.
Definition place (m : mode) (s : list Z) : Z := match m with MText => total - zlen s | MValue pos _ _ => pos end.
Definition where_ (m : mode) (r : list Z) : Z := match m with MText => total - zlen r | MValue _ len _ => len - zlen r end.
Lemma where_faithful m : faithful (where_ m).
Proof. intros a b. destruct m; cbn; lia. Qed.
Lemma where_linear m a : where_ m a = where_ m [] - zlen a.
Proof. destruct m; cbn [where_]; rewrite (zlen_unf []); cbn [length]; lia. Qed.
(** One turn: a number, a character or an operator. *)
Lemma turn_token n c m s0 a r l : skips m s0 = Some (a :: r) -> a <> 10 -> letter a = false -> a <> 35 ->
  (if digit a || (a =? 46) then parse_number (place m (a :: r)) (where_ m) (a :: r)
   else if (a =? 39) || (a =? 34) then parse_sequence (a :: r) else parse_token (a :: r)) = Some l ->
  loop (S n) c m s0 = push_on c (place m (a :: r)) l (fun c s => loop n c m s).
Proof.
  intros K N1 N2 N3 H. cbn [read_loop]. unfold skips in K. rewrite K. cbn [bind].
  destruct (a =? 10) eqn:Q1; [lia|]. rewrite letter_is, N2. destruct (a =? 35) eqn:Q2; [lia|].
  rewrite digit_is. unfold place, where_ in H. rewrite H. reflexivity.
Qed.
Lemma turn_name n c m s0 w s : skips m s0 = Some (w ++ s) -> word w -> ends_here w s ->
  (m = MText -> replace w s = None) ->
  loop (S n) c m s0 = do ' (_, c) <- const_number c (place m (w ++ s)) 0; loop n c m s.
Proof.
  intros K W E R. cbn [read_loop]. unfold skips in K. rewrite K. cbn [bind].
  pose proof (read_word_ok w s W E) as RW. destruct (word_begins w W) as (a & r & -> & L). cbn [app] in *.
  destruct (a =? 10) eqn:Q1; [unfold letter in L; lia|]. rewrite letter_is, L, RW.
  destruct m; [rewrite R by reflexivity|]; reflexivity.
Qed.
Lemma turn_macro n c s0 w s v s' : skip_until s0 = Some (w ++ s) -> word w -> ends_here w s ->
  replace w s = Some (Some (v, s')) ->
  loop (S n) c MText s0 = loop n c (MValue (total - zlen (w ++ s)) (zlen v) s') v.
Proof.
  intros K W E R. cbn [read_loop]. rewrite K. cbn [bind].
  pose proof (read_word_ok w s W E) as RW. destruct (word_begins w W) as (a & r & -> & L). cbn [app] in *.
  destruct (a =? 10) eqn:Q1; [unfold letter in L; lia|]. rewrite letter_is, L, RW, R. reflexivity.
Qed.

(** A token is handed to the calculator. *)
Lemma text_token n c s0 t w s : skip_until s0 = Some (w ++ s) -> spells t w -> ends_here w s -> (exists s2, skip_until s = Some s2) ->
  exists r, same s r /\
  loop (S n) c MText s0 = do ' (x, c) <- push c (total - zlen (w ++ s)) (as_piece t);
                          if (x =? 0) || match as_piece t with PName => true | _ => false end then loop n c MText r else Some (0, shown c).
Proof.
  intros K W E [s2 K2]. destruct W as [k w D|k w D|ch N|t w S].
  - destruct (decimal_read (where_ MText) (place MText (w ++ s)) k w s s2) as (r & R1 & R2);
      [apply where_faithful|exact D|exact E|exact K2|left; split; [reflexivity|apply where_linear]|].
    exists r. split; [exact R1|]. destruct (decimal_begins k w D) as (a & x & -> & L). cbn [app] in *.
    rewrite (turn_token n c MText s0 a (x ++ s) (LNumb k r)); [|exact K|unfold digit in L; lia|unfold digit, letter in *; lia|unfold digit in L; lia|rewrite L; exact R2].
    cbn [push_on place as_piece push]. destruct (const_number c _ k) as [[v c']|]; [|reflexivity]. cbn [bind]. rewrite orb_false_r. reflexivity.
  - destruct (prefixed_read (where_ MText) k w s) as (r & R1 & R2);
      [apply where_faithful|apply where_linear|exact D|exact E|eauto|].
    exists r. split; [exact R1|]. destruct (prefixed_begins k w D) as (x & ->). cbn [app] in *.
    rewrite (turn_token n c MText s0 48 (x ++ s) (LNumb k r)); [|exact K|lia|reflexivity|lia|exact R2].
    cbn [push_on place as_piece push]. destruct (const_number c _ k) as [[v c']|]; [|reflexivity]. cbn [bind]. rewrite orb_false_r. reflexivity.
  - exists s. split; [left; reflexivity|].
    rewrite (turn_token n c MText s0 39 (ch :: 39 :: s) (LNumb ch s)); [|exact K|lia|reflexivity|lia|exact (char_read ch s N)].
    cbn [push_on place as_piece push]. destruct (const_number c _ ch) as [[v c']|]; [|reflexivity]. cbn [bind]. rewrite orb_false_r. reflexivity.
  - destruct (simple_read t w s s2 S E K2) as (r & R1 & R2). exists r. split; [exact R1|].
    pose proof S as S'. destruct (simple_first t w S) as (a & x & -> & I1). cbn [app] in *.
    rewrite (turn_token n c MText s0 a (x ++ s) (LTok (tok_code t) r)).
    + cbn [push_on place]. assert (P : as_piece t = PTok (tok_code t)) by (destruct S'; try reflexivity; cbn [as_piece]; rewrite code_is; reflexivity).
      rewrite P. cbn [push]. destruct (push_token c _ _) as [[v c']|]; [|reflexivity]. cbn [bind]. rewrite orb_false_r. reflexivity.
    + exact K.
    + cbn in I1. lia.
    + cbn in I1. unfold letter. lia.
    + cbn in I1. lia.
    + assert (digit a || (a =? 46) = false) as -> by (cbn in I1; unfold digit; lia).
      assert ((a =? 39) || (a =? 34) = false) as -> by (cbn in I1; lia). exact R2.
Qed.
(** In the value of a macro. *)
Lemma value_number n c p len outer s0 k w s : skip_lines s0 = Some (w ++ s) -> decimal k w -> ends_here w s ->
  (exists s2, skip_until s = Some s2 /\ (k = 0 -> calm s2)) ->
  exists r, same s r /\
  loop (S n) c (MValue p len outer) s0 = do ' (x, c) <- push c p (PNumb k);
                          if (x =? 0) || false then loop n c (MValue p len outer) r else Some (0, shown c).
Proof.
  intros K D E (s2 & K2 & C). destruct (decimal_read (where_ (MValue p len outer)) p k w s s2) as (r & R1 & R2);
      [apply where_faithful|exact D|exact E|exact K2|right; exact C|].
  exists r. split; [exact R1|]. destruct (decimal_begins k w D) as (a & x & -> & L). cbn [app] in *.
  rewrite (turn_token n c (MValue p len outer) s0 a (x ++ s) (LNumb k r)); [|exact K|unfold digit in L; lia|unfold digit, letter in *; lia|unfold digit in L; lia|rewrite L; exact R2].
  cbn [push_on place push]. destruct (const_number c _ k) as [[v c']|]; [|reflexivity]. cbn [bind]. rewrite orb_false_r. reflexivity.
Qed.
Lemma value_char n c p len outer s0 ch s : skip_lines s0 = Some ([39; ch; 39] ++ s) -> ~ In ch [39; 92; 10; 13] ->
  loop (S n) c (MValue p len outer) s0 = do ' (x, c) <- push c p (PNumb ch);
                          if (x =? 0) || false then loop n c (MValue p len outer) s else Some (0, shown c).
Proof.
  intros K N. rewrite (turn_token n c (MValue p len outer) s0 39 (ch :: 39 :: s) (LNumb ch s)); [|exact K|lia|reflexivity|lia|exact (char_read ch s N)].
  cbn [push_on place push]. destruct (const_number c _ ch) as [[v c']|]; [|reflexivity]. cbn [bind]. rewrite orb_false_r. reflexivity.
Qed.
Lemma value_simple n c p len outer s0 t w s : skip_lines s0 = Some (w ++ s) -> simple t w -> ends_here w s -> (exists s2, skip_until s = Some s2) ->
  exists r, same s r /\
  loop (S n) c (MValue p len outer) s0 = do ' (x, c) <- push c p (as_piece t);
                          if (x =? 0) || match as_piece t with PName => true | _ => false end then loop n c (MValue p len outer) r else Some (0, shown c).
Proof.
  intros K S E [s2 K2]. destruct (simple_read t w s s2 S E K2) as (r & R1 & R2). exists r. split; [exact R1|].
  pose proof S as S'. destruct (simple_first t w S) as (a & x & -> & I1). cbn [app] in *.
  rewrite (turn_token n c (MValue p len outer) s0 a (x ++ s) (LTok (tok_code t) r)).
  - cbn [push_on place]. assert (P : as_piece t = PTok (tok_code t)) by (destruct S'; try reflexivity; cbn [as_piece]; rewrite code_is; reflexivity).
    rewrite P. cbn [push]. destruct (push_token c _ _) as [[v c']|]; [|reflexivity]. cbn [bind]. rewrite orb_false_r. reflexivity.
  - exact K.
  - cbn in I1. lia.
  - cbn in I1. unfold letter. lia.
  - cbn in I1. lia.
  - assert (digit a || (a =? 46) = false) as -> by (cbn in I1; unfold digit; lia).
    assert ((a =? 39) || (a =? 34) = false) as -> by (cbn in I1; lia). exact R2.
Qed.

Lemma value_loop p len outer k n1 v l : (forall n c, (n1 <= n)%nat -> loop n c MText outer = k c) -> value_reads p v l ->
  exists n0, forall n c v', (n0 <= n)%nat -> same v v' -> loop n c (MValue p len outer) v' = feed_then c (placed l) k.
Proof.
  intros KK R. induction R as [g G|g w s l G W E R IH|g j w s l G W E N R IH|g ch s l G N R IH|g t w s l G W E R IH].
  - exists (S n1). intros n c v' L S. destruct n as [|n]; [lia|].
    assert (K : skip_lines v' = Some []).
    { rewrite (same_lines _ _ S). rewrite <- (app_nil_r g), lines_gap by assumption. reflexivity. }
    cbn [read_loop]. rewrite K. cbn [bind placed map feed_then]. apply KK. lia.
  - destruct IH as [n0 IH]. exists (S n0). intros n c v' L S. destruct n as [|n]; [lia|].
    assert (K : skip_lines v' = Some (w ++ s)).
    { rewrite (same_lines _ _ S), lines_gap by assumption. destruct (word_begins w W) as (a & r & -> & LL).
      apply lines_starts; [apply letter_starts, LL|cbn; unfold letter in LL; lia]. }
    rewrite (turn_name n c (MValue p len outer) v' w s K W E) by discriminate.
    cbn [place placed map as_piece feed_then push]. destruct (const_number c p 0) as [[x c']|]; [|reflexivity]. cbn [bind]. rewrite orb_true_r.
    apply IH; [lia|left; reflexivity].
  - destruct IH as [n0 IH]. exists (S n0). intros n c v' L S. destruct n as [|n]; [lia|].
    assert (K : skip_lines v' = Some (w ++ s)).
    { rewrite (same_lines _ _ S), lines_gap by assumption. destruct (decimal_begins j w W) as (a & r & -> & LL).
      apply lines_starts; [apply digit_starts, LL|cbn; unfold digit in LL; lia]. }
    destruct (value_skip p s l R) as (g' & s2 & G1 & G2 & G3).
    destruct (value_number n c p len outer v' j w s K W E) as (r & R1 & R2).
    { exists s2. split; [exact G3|]. intros J. specialize (N J g' s2 G1 G2). destruct (decimal_begins j w W) as (a & x & -> & LL).
      exact (ends_word _ _ a x N eq_refl (or_intror LL)). }
    rewrite R2. cbn [placed map as_piece feed_then]. destruct (push c p (PNumb j)) as [[x c']|]; [|reflexivity]. cbn [bind].
    destruct ((x =? 0) || false); [|reflexivity]. apply IH; [lia|exact R1].
  - destruct IH as [n0 IH]. exists (S n0). intros n c v' L S. destruct n as [|n]; [lia|].
    assert (K : skip_lines v' = Some ([39; ch; 39] ++ s)).
    { rewrite (same_lines _ _ S), lines_gap by assumption. apply lines_starts; [split; [cbn; lia|intros Q; discriminate Q]|cbn; lia]. }
    rewrite (value_char n c p len outer v' ch s K N). cbn [placed map as_piece feed_then]. destruct (push c p (PNumb ch)) as [[x c']|]; [|reflexivity]. cbn [bind].
    destruct ((x =? 0) || false); [|reflexivity]. apply IH; [lia|left; reflexivity].
  - destruct IH as [n0 IH]. exists (S n0). intros n c v' L S. destruct n as [|n]; [lia|].
    assert (K : skip_lines v' = Some (w ++ s)).
    { rewrite (same_lines _ _ S), lines_gap by assumption. apply lines_starts; [exact (starts_simple t w s W E)|].
      destruct (simple_first t w W) as (a & x & -> & I1). cbn in I1 |- *. lia. }
    destruct (value_skip p s l R) as (g' & s2 & _ & _ & G3).
    destruct (value_simple n c p len outer v' t w s K W E (ex_intro _ s2 G3)) as (r & R1 & R2).
    rewrite R2. cbn [placed map feed_then]. destruct (push c p (as_piece t)) as [[x c']|]; [|reflexivity]. cbn [bind].
    destruct (_ || _); [|reflexivity]. apply IH; [lia|exact R1].
Qed.

Definition ends_with (fin : list Z -> Prop) (k : computer -> option (Z * option said)) : Prop :=
  forall s, fin s -> exists r, skip_until s = Some r /\ forall n c s', skip_until s' = Some r -> loop (S n) c MText s' = k c.
Lemma text_loop (fin : list Z -> Prop) k s l : ends_with fin k -> reads replace fin total s l ->
  exists n0, forall n c s', (n0 <= n)%nat -> same s s' -> loop n c MText s' = feed_then c (placed l) k.
Proof.
  intros F. assert (FS : forall s, fin s -> exists r, skip_until s = Some r) by (intros x X; destruct (F x X) as (r & A & _); eauto).
  induction 1 as [g s G O|g t w s l G W E R IH|g w s l G W E N R IH|g w s v s' lv l G W E N V R IH|g g' w s l G G' W E R IH].
  - exists 1%nat. intros n c s' L S. destruct n as [|n]; [lia|]. destruct (F s O) as (r & K & KK). apply KK.
    eapply same_skip; [exact S|]. rewrite skip_gap by assumption. exact K.
  - destruct IH as [n0 IH]. exists (S n0). intros n c s' L S. destruct n as [|n]; [lia|].
    assert (K : skip_until s' = Some (w ++ s)).
    { eapply same_skip; [exact S|]. rewrite skip_gap by assumption. apply skip_starts. exact (spells_starts t w s W E). }
    destruct (text_token n c s' t w s K W E (reads_skip fin s l FS R)) as (r & R1 & R2). rewrite R2. cbn [placed map feed_then].
    destruct (push c _ (as_piece t)) as [[x c']|]; [|reflexivity]. cbn [bind].
    destruct (_ || _); [apply IH; [lia|exact R1]|reflexivity].
  - destruct IH as [n0 IH]. exists (S n0). intros n c s' L S. destruct n as [|n]; [lia|].
    assert (K : skip_until s' = Some (w ++ s)).
    { eapply same_skip; [exact S|]. rewrite skip_gap by assumption. destruct (word_begins w W) as (a & r & -> & LL). apply skip_starts, letter_starts, LL. }
    rewrite (turn_name n c MText s' w s K W E) by auto. cbn [place placed map feed_then as_piece push].
    destruct (const_number c _ 0) as [[x c']|]; [|reflexivity]. cbn [bind]. rewrite orb_true_r. apply IH; [lia|left; reflexivity].
  - destruct IH as [n1 IH].
    destruct (value_loop (total - zlen (w ++ s)) (zlen v) s' (fun c => feed_then c (placed l) k) n1 v lv) as [n0 VL]; [|exact V|].
    { intros n c L. apply IH; [exact L|left; reflexivity]. }
    exists (S n0). intros n c s0 L S. destruct n as [|n]; [lia|].
    assert (K : skip_until s0 = Some (w ++ s)).
    { eapply same_skip; [exact S|]. rewrite skip_gap by assumption. destruct (word_begins w W) as (a & r & -> & LL). apply skip_starts, letter_starts, LL. }
    rewrite (turn_macro n c s0 w s v s' K W E N). rewrite VL by (try lia; left; reflexivity).
    unfold placed. rewrite map_app. apply feed_then_app.
  - destruct IH as [n0 IH]. exists (S n0). intros n c s0 L S. destruct n as [|n]; [lia|].
    assert (K : skip_until s0 = Some (35 :: g' ++ w ++ s)).
    { eapply same_skip; [exact S|]. rewrite skip_gap by assumption. apply skip_starts. split; [cbn; lia|intros Q; discriminate Q]. }
    assert (WD : word w) by (cbn in W; repeat (destruct W as [<-|W]; [split; reflexivity|]); contradiction).
    assert (K2 : skip_until (g' ++ w ++ s) = Some (w ++ s)).
    { rewrite skip_gap by assumption. destruct (word_begins w WD) as (a & r & -> & LL). apply skip_starts, letter_starts, LL. }
    cbn [read_loop]. rewrite K. cbn [bind Z.eqb Pos.eqb]. change (utf8_is_letter 35) with false. cbv iota. rewrite K2. cbn [bind].
    assert (LP : utf8_is_letter (peek (w ++ s)) = true) by (destruct (word_begins w WD) as (a & r & -> & LL); cbn [app peek]; rewrite letter_is; exact LL).
    rewrite LP, (read_word_ok w s WD E).
    assert (EV : is_eval w = true).
    { unfold is_eval. apply existsb_exists. exists w. split; [exact W|]. destruct (list_eq_dec Z.eq_dec w w); congruence. }
    rewrite EV. apply IH; [lia|left; reflexivity].
Qed.
End Loop.

(** Where the text is over. *)
Lemma over_ends replace total : ends_with replace total over (fun c => told (feed c [])).
Proof.
  intros s O. destruct (skip_over s O) as (r & K & D). exists r. split; [exact K|]. intros n c s' K'.
  cbn [read_loop]. rewrite K'. cbn [bind feed].
  assert (X : (do ' (v, c) <- pop_result c; Some (v, shown c)) = told (do ' (v, c) <- pop_result c; Some (v, c_err c))).
  { destruct (pop_result c) as [[v c']|]; [|reflexivity]. unfold told, shown. cbn [bind]. destruct (c_err c') as [[m q]|]; reflexivity. }
  destruct D as [->|(r' & ->)]; exact X.
Qed.
(** Something is written. *)
Definition loud (s : list Z) : Prop := match s with [] => False | c :: _ => c <> 10 /\ c <> -1 end.
Lemma reads_loud replace fin total s l : reads replace fin total s l ->
  (exists g r, gap g /\ fin r /\ s = g ++ r) \/ exists r, skip_until s = Some r /\ loud r.
Proof.
  intros R.
  destruct R as [g s1 G O|g t w s1 l1 G W E R1|g w s1 l1 G W E N R1|g w s1 v s1' lv l1 G W E N V R1|g g' w s1 l1 G G' W E R1];
    [left; exists g, s1; auto|right; rewrite skip_gap by assumption..].
  - exists (w ++ s1). split; [apply skip_starts; exact (spells_starts t w s1 W E)|].
    destruct W as [k w D|k w D|ch N|t w S].
    + destruct (decimal_begins k w D) as (a & x & -> & LL). cbn. unfold digit in LL. lia.
    + destruct (prefixed_begins k w D) as (x & ->). cbn. lia.
    + cbn. lia.
    + destruct (simple_first t w S) as (a & x & -> & I1). cbn in I1 |- *. lia.
  - destruct (word_begins w W) as (a & x & -> & LL). exists ((a :: x) ++ s1). split; [apply skip_starts, letter_starts, LL|]. cbn. unfold letter in LL. lia.
  - destruct (word_begins w W) as (a & x & -> & LL). exists ((a :: x) ++ s1). split; [apply skip_starts, letter_starts, LL|]. cbn. unfold letter in LL. lia.
  - eexists. split; [apply skip_starts; split; [cbn; lia|intros Q; discriminate Q]|]. cbn. lia.
Qed.
Lemma loud_peek r : loud r -> (peek r =? 10) || (peek r =? -1) = false.
Proof. destruct r as [|c r]; [contradiction|]. cbn. lia. Qed.
Theorem text_evaluates replace before s l : reads replace over (before + zlen s) s l -> ~ blank s ->
  exists n0, forall n, (n0 <= n)%nat -> evaluate_text replace before n s = told (evaluate (placed l)).
Proof.
  intros R B. destruct (text_loop replace (before + zlen s) over _ s l (over_ends replace (before + zlen s)) R) as [n0 H]. exists n0. intros n L.
  unfold evaluate_text, read_expression.
  assert (X : exists r, skip_until s = Some r /\ loud r).
  { destruct (reads_loud _ _ _ _ _ R) as [BB|X]; [contradiction|exact X]. }
  destruct X as (r & K & LR). rewrite K. cbn [bind]. rewrite (loud_peek r LR), (H n computer_create r L (or_intror K)).
  rewrite feed_then_told, app_nil_r. reflexivity.
Qed.
Theorem blank_is_reported replace before n s : blank s -> evaluate_text replace before n s = Some (0, Some (SComp DIRECTIVE_NO_EXPRESSION ITEM_MAX)).
Proof.
  intros (g & r & G & O & ->). unfold evaluate_text, read_expression. rewrite skip_gap by assumption.
  destruct (skip_over r O) as (r' & K & D). rewrite K. cbn [bind]. destruct D as [->|(x & ->)]; reflexivity.
Qed.

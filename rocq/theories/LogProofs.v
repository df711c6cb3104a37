(** Proofs for C71. *)
From Verif Require Import Prelude CodeModel Utf8Model Utf8Spec Utf8Proofs UniioModel UniioProofs LocModel LocSpec LocProofs LogModel LogSpec.
Local Open Scope Z_scope.

Lemma word_iff c : word c = true <-> in_word c.
Proof. unfold word, in_word, utf8_is_letter, utf8_is_russian, utf8_is_digit. lia. Qed.
Lemma word_not c : word c = false <-> ~ in_word c.
Proof. rewrite <- word_iff. destruct (word c); intuition discriminate. Qed.
Lemma encs_app_ a b : encs (a ++ b) = encs a ++ encs b.
Proof. apply flat_map_app. Qed.
Lemma skip_encs a b : skipn (Z.to_nat (zlen (encs a))) (encs (a ++ b)) = encs b.
Proof. rewrite encs_app_, zlen_unf, Nat2Z.id, skipn_app, skipn_all, Nat.sub_diag. reflexivity. Qed.
Lemma conv_at a c b : code_point c -> utf8_convert (skipn (Z.to_nat (zlen (encs a))) (encs (a ++ c :: b))) = Some c.
Proof. intros C. rewrite skip_encs. cbn [encs flat_map]. apply convert_enc, C. Qed.
Lemma enc_pos c : 1 <= zlen (enc c).
Proof. unfold enc. repeat destruct (_ <? _); rewrite !zlen_cons, zlen_nil; lia. Qed.
Lemma encs_pos a : zlen a <= zlen (encs a).
Proof. induction a as [|c a IH]; [reflexivity|]. cbn [encs flat_map]. fold (encs a). rewrite zlen_app, zlen_cons. pose proof (enc_pos c). lia. Qed.
Lemma encs_one c : encs [c] = enc c.
Proof. apply app_nil_r. Qed.
Lemma byte_at a c b : code_point c -> exists x r, enc c = x :: r /\ znth (encs (a ++ c :: b)) (zlen (encs a)) = Some x /\ utf8_symbol_size x = zlen (enc c).
Proof.
  intros C. pose proof (enc_pos c). destruct (enc c) as [|x r] eqn:E; [rewrite zlen_nil in *; lia|]. exists x, r. split; [reflexivity|]. split.
  - rewrite encs_app_. cbn [encs flat_map]. rewrite E. rewrite znth_unf. pose proof (zlen_nonneg (encs a)). destruct (zlen (encs a) <? 0) eqn:Q; [lia|]. rewrite zlen_unf, Nat2Z.id, nth_error_app2, Nat.sub_diag by lia. reflexivity.
  - rewrite <- E. apply (symbol_size_enc c x r C E).
Qed.

(** ** The word *)
Definition no_last (p : list Z) : Prop := forall b c, p = b ++ [c] -> ~ in_word c.
Lemma literal_loop_at a : forall n c b i, Forall code_point (a ++ c :: b) -> (List.length a < n)%nat -> exists p q, a = p ++ q /\ Forall in_word q /\ no_last p /\
  literal_loop n (encs (a ++ c :: b)) i (zlen (encs a)) = Some (if word c then zlen (encs p) else i).
Proof.
  induction a as [|x a IH] using rev_ind; intros n c b i F N; (destruct n as [|n]; [lia|]); cbn [literal_loop].
  - exists [], []. split; [reflexivity|]. split; [constructor|]. split; [intros [|? ?] ? Q; discriminate|]. inversion F; subst. rewrite conv_at by assumption. cbn [bind]. destruct (word c); reflexivity.
  - assert (C : code_point c) by (apply Forall_app in F as [_ F]; inversion F; assumption).
    assert (X : code_point x) by (rewrite <- app_assoc in F; apply Forall_app in F as [_ F]; inversion F; assumption).
    rewrite conv_at by exact C. cbn [bind]. destruct (word c) eqn:W.
    + assert (Z1 : zlen (encs (a ++ [x])) = zlen (encs a) + zlen (enc x)) by (rewrite encs_app_, encs_one, zlen_app; reflexivity).
      pose proof (enc_pos x). pose proof (zlen_nonneg (encs a)). replace (zlen (encs (a ++ [x])) =? 0) with false by lia. rewrite <- app_assoc. cbn [app].
      replace (zlen (encs (a ++ [x])) - 1) with (zlen (encs a) + (zlen (enc x) - 1)) by lia. rewrite first_byte_text by (auto; lia). cbn [bind].
      destruct (IH n x (c :: b) (zlen (encs (a ++ [x])))) as (p & q & E & Q & L & R); [rewrite <- app_assoc in F; exact F|rewrite app_length in N; cbn in N; lia|]. rewrite R. destruct (word x) eqn:WX.
      * exists p, (q ++ [x]). rewrite E, <- app_assoc. repeat split; auto. apply Forall_app. split; [exact Q|]. constructor; [apply word_iff, WX|constructor].
      * exists (a ++ [x]), []. rewrite app_nil_r. repeat split; auto. intros b0 c0 E0. apply app_inj_tail in E0 as [_ <-]. apply word_not, WX.
    + assert (G : exists p q, a ++ [x] = p ++ q /\ Forall in_word q /\ no_last p); [|destruct G as (p & q & G); exists p, q; intuition].
      clear -a. generalize (a ++ [x]). clear. intros l. induction l as [|y l IH] using rev_ind; [exists [], []; repeat split; auto; intros [|? ?] ? Q; discriminate|].
      destruct (word y) eqn:W.
      * destruct IH as (p & q & -> & A & B). exists p, (q ++ [y]). rewrite <- app_assoc. repeat split; auto. apply Forall_app. split; [exact A|]. constructor; [apply word_iff, W|constructor].
      * exists (l ++ [y]), []. rewrite app_nil_r. repeat split; auto. intros b0 c0 E0. apply app_inj_tail in E0 as [_ <-]. apply word_not, W.
Qed.
Definition no_first (r : list Z) : Prop := forall c a, r = c :: a -> ~ in_word c.
Lemma length_loop_at b : forall a n j, Forall code_point b -> (List.length b < n)%nat -> exists q r, b = q ++ r /\ Forall in_word q /\ no_first r /\
  length_loop n (encs (a ++ b ++ [0])) (zlen (encs (a ++ b))) (zlen (encs a)) j = Some (j + zlen q).
Proof.
  induction b as [|c b IH]; intros a n j F N; (destruct n as [|n]; [lia|]); cbn [length_loop].
  - exists [], []. repeat split; auto; [intros ? ? Q; discriminate|]. rewrite app_nil_r, Z.ltb_irrefl, zlen_nil, Z.add_0_r. reflexivity.
  - inversion F as [|? ? C F']; subst. destruct (byte_at a c (b ++ [0]) C) as (x & r & E & B & S). cbn [app]. rewrite conv_at by exact C. cbn [bind].
    assert (ZL : zlen (encs (a ++ c :: b)) = zlen (encs a) + zlen (enc c) + zlen (encs b)) by (rewrite encs_app_, zlen_app; cbn [encs flat_map]; fold (encs b); rewrite zlen_app; lia).
    pose proof (enc_pos c). pose proof (zlen_nonneg (encs b)). replace (zlen (encs a) <? zlen (encs (a ++ c :: b))) with true by lia. destruct (word c) eqn:W.
    + cbn [app] in B. rewrite B. cbn [bind]. rewrite S. destruct (IH (a ++ [c]) n (j + 1) F') as (q & r' & E1 & Q & NF & L); [cbn in N; lia|].
      rewrite <- app_assoc in L. cbn [app] in L. replace ((a ++ [c]) ++ b) with (a ++ c :: b) in L by (rewrite <- app_assoc; reflexivity).
      replace (zlen (encs (a ++ [c]))) with (zlen (encs a) + zlen (enc c)) in L by (rewrite encs_app_, encs_one, zlen_app; reflexivity). rewrite L.
      exists (c :: q), r'. rewrite E1. repeat split; auto; [constructor; [apply word_iff, W|exact Q]|]. rewrite zlen_cons. f_equal. lia.
    + exists [], (c :: b). repeat split; auto; [intros ? ? Q; injection Q as <- _; apply word_not, W|]. rewrite zlen_nil, Z.add_0_r. reflexivity.
Qed.
Lemma blanks_loop_at p2 : forall p1 n b, Forall code_point p2 -> (List.length p2 < n)%nat ->
  blanks_loop n (encs (p1 ++ p2 ++ b)) (zlen (encs (p1 ++ p2))) (zlen (encs p1)) = Some (map (fun c => if c =? 9 then 9 else 32) p2).
Proof.
  induction p2 as [|c p2 IH]; intros p1 n b F N; (destruct n as [|n]; [lia|]); cbn [blanks_loop].
  - rewrite app_nil_r, Z.ltb_irrefl. reflexivity.
  - inversion F as [|? ? C F']; subst. destruct (byte_at p1 c (p2 ++ b) C) as (x & r & E & B & S). cbn [app]. rewrite B. cbn [bind].
    assert (ZL : zlen (encs (p1 ++ c :: p2)) = zlen (encs p1) + zlen (enc c) + zlen (encs p2)) by (rewrite encs_app_, zlen_app; cbn [encs flat_map]; fold (encs p2); rewrite zlen_app; lia).
    pose proof (enc_pos c). pose proof (zlen_nonneg (encs p2)). replace (zlen (encs p1) <? zlen (encs (p1 ++ c :: p2))) with true by lia. rewrite S.
    specialize (IH (p1 ++ [c]) n b F'). rewrite <- app_assoc in IH. cbn [app] in IH. replace ((p1 ++ [c]) ++ p2) with (p1 ++ c :: p2) in IH by (rewrite <- app_assoc; reflexivity).
    replace (zlen (encs (p1 ++ [c]))) with (zlen (encs p1) + zlen (enc c)) in IH by (rewrite encs_app_, encs_one, zlen_app; reflexivity).
    rewrite IH by (cbn in N; lia). cbn [bind map]. f_equal. f_equal. clear -E C. unfold enc in E. unfold code_point in C. destruct (c <? 128) eqn:Q; [injection E as <- _; reflexivity|].
    assert (x <> 9 /\ c <> 9); [|destruct (x =? 9) eqn:?, (c =? 9) eqn:?; lia]. split; [|lia].
    assert (0 <= c / 64 /\ 0 <= c / 4096 /\ 0 <= c / 262144) by (repeat split; apply Z.div_pos; lia).
    destruct (c <? 2048); [assert (x = 192 + c / 64) by congruence; lia|]. destruct (c <? 65536); [assert (x = 224 + c / 4096) by congruence|assert (x = 240 + c / 262144) by congruence]; lia.
Qed.
Lemma line_points cs : Forall line_char cs -> Forall code_point cs.
Proof. intros F. eapply Forall_impl; [|exact F]. intros c H. apply H. Qed.
Lemma first_line_no s : ~ In 10 s -> first_line s = s.
Proof. induction s as [|b s IH]; intros N; [reflexivity|]. cbn [first_line]. destruct (b =? 10) eqn:E; [exfalso; apply N; left; lia|]. rewrite IH; [reflexivity|]. intros I. apply N. right. exact I. Qed.
Lemma line_no cs : Forall line_char cs -> ~ In 10 (encs cs).
Proof.
  intros F. assert (G : Forall (fun b => b <> 10) (encs cs)).
  { apply encs_no; [lia|apply line_points, F|]. intros I. rewrite Forall_forall in F. destruct (F _ I). lia. }
  rewrite Forall_forall in G. intros I. apply (G _ I). reflexivity.
Qed.
Lemma first_byte_here a c b : code_point c -> utf8_to_first_byte (encs (a ++ c :: b)) (Z.to_nat (zlen (encs a))) = Some (zlen (encs a)).
Proof. intros C. pose proof (first_byte_text a c b 0 C) as Q. rewrite Z.add_0_r in Q. apply Q. pose proof (enc_pos c). lia. Qed.
Lemma splice_at msg cs j : Forall line_char cs -> (j < List.length cs)%nat -> exists before w after,
  word_at cs j before w after /\ splice msg (encs cs) (zlen (encs (firstn j cs))) = fit (pointing msg before w after).
Proof.
  intros F J. unfold splice. rewrite first_line_no by (apply line_no, F).
  destruct (nth_error cs j) as [c|] eqn:NJ; [|apply nth_error_None in NJ; lia]. destruct (nth_error_split _ _ NJ) as (a & b & E & LA).
  assert (FA : firstn j cs = a) by (rewrite E, <- LA, firstn_app, Nat.sub_diag, firstn_all, firstn_O, app_nil_r; reflexivity). rewrite FA.
  assert (FP := line_points cs F). assert (C : code_point c) by (rewrite E in FP; apply Forall_app in FP as [_ FP]; inversion FP; assumption).
  assert (ED : encs cs ++ [0] = encs (a ++ c :: b ++ [0])) by (rewrite E, !encs_app_; cbn [encs flat_map]; fold (encs b); fold (encs (b ++ [0])); rewrite encs_app_, <- !app_assoc; reflexivity).
  assert (LL : (List.length cs <= List.length (encs cs))%nat) by (pose proof (encs_pos cs) as Q; rewrite !zlen_unf in Q; lia).
  assert (FP0 : Forall code_point (a ++ c :: b ++ [0])).
  { change (a ++ c :: b ++ [0]) with (a ++ (c :: b) ++ [0]). rewrite app_assoc, <- E. apply Forall_app. split; [exact FP|]. constructor; [unfold code_point; lia|constructor]. }
  destruct (literal_loop_at a (S (List.length (encs cs ++ [0]))) c (b ++ [0]) (zlen (encs a)) FP0) as (p & q & EA & Q & NL & R).
  { rewrite app_length. cbn [List.length]. lia. }
  unfold literal. rewrite ED in *. rewrite first_byte_here by exact C. cbn [bind]. rewrite R. cbn [bind].
  set (p0 := if word c then p else a). set (w0 := if word c then q ++ c :: b else c :: b).
  assert (E0 : cs = p0 ++ w0) by (unfold p0, w0; destruct (word c); [rewrite E, EA, <- app_assoc; reflexivity|exact E]).
  replace (if word c then zlen (encs p) else zlen (encs a)) with (zlen (encs p0)) by (unfold p0; destruct (word c); reflexivity).
  assert (FW : Forall code_point w0 /\ Forall code_point p0) by (rewrite E0 in FP; apply Forall_app in FP; tauto). destruct FW as [FW FP1].
  assert (ED2 : encs (a ++ c :: b ++ [0]) = encs (p0 ++ w0 ++ [0])).
  { change (a ++ c :: b ++ [0]) with (a ++ (c :: b) ++ [0]). rewrite app_assoc, <- E, E0, <- app_assoc. reflexivity. }
  rewrite ED2 in *. destruct (length_loop_at w0 p0 (S (List.length (encs (p0 ++ w0 ++ [0])))) (zlen (encs p0)) FW) as (x & y & EW & X & NF & L).
  { pose proof (encs_pos (p0 ++ w0 ++ [0])) as Q2. rewrite !zlen_unf, !app_length in Q2. cbn in Q2. lia. }
  unfold length_. rewrite <- E0 in L. rewrite L. cbn [bind].
  assert (ZC : zlen (encs cs) = zlen (encs p0) + zlen (encs w0)) by (rewrite E0, encs_app_, zlen_app; reflexivity).
  assert (WP : 1 <= zlen (encs w0)) by (pose proof (encs_pos w0); unfold w0 in *; destruct (word c); rewrite ?zlen_app, ?zlen_cons in *; pose proof (zlen_nonneg q); pose proof (zlen_nonneg b); lia).
  replace (zlen (encs p0) >=? zlen (encs cs)) with false by lia.
  assert (G : exists w after, word_at cs j p0 w after /\ zlen w = (if zlen (encs p0) + zlen x =? zlen (encs p0) then 1 else zlen (encs p0) + zlen x - zlen (encs p0))).
  { pose proof (zlen_nonneg x). unfold p0, w0 in *. destruct (word c) eqn:W.
    - assert (XC : exists q2, x = q ++ c :: q2).
      { clear -EW X Q NF W. revert x EW X. induction Q as [|z q Z Q IH]; intros x EW X.
        - destruct x as [|x0 x]; [cbn in EW; subst y; exfalso; apply (NF c b eq_refl), word_iff, W|]. cbn in EW. injection EW as <- _. exists x. reflexivity.
        - destruct x as [|x0 x]; [cbn in EW; subst y; exfalso; apply (NF z _ eq_refl), Z|]. cbn in EW. injection EW as <- EW. inversion X; subst. destruct (IH x EW H2) as (q2 & ->). exists q2. reflexivity. }
      destruct XC as (q2 & XC). exists x, y. split.
      + split; [rewrite E0, EW; reflexivity|]. split; [rewrite XC, <- LA, EA, !app_length; cbn [List.length]; lia|]. left. auto.
      + assert (1 <= zlen x) by (rewrite XC, zlen_app, zlen_cons; pose proof (zlen_nonneg q); pose proof (zlen_nonneg q2); lia).
        destruct (_ =? _) eqn:T; lia.
    - assert (x = []) as ->.
      { destruct x as [|x0 x]; [reflexivity|]. cbn in EW. injection EW as <- _. inversion X; subst. apply word_not in W. contradiction. }
      exists [c], b. split; [|rewrite zlen_nil, Z.add_0_r, Z.eqb_refl; reflexivity].
      split; [exact E|]. split; [cbn [List.length]; lia|]. right. exists c. split; [reflexivity|apply word_not, W]. }
  destruct G as (w & after & WA & <-). pose proof WA as (EC & (J1 & J2) & _).
  assert (1 <= zlen w) by (rewrite zlen_unf; lia). replace (zlen w =? 0) with false by lia.
  pose proof (blanks_loop_at p0 [] (S (List.length (encs cs))) (w0 ++ [0]) FP1) as B. cbn [app] in B. change (zlen (encs [])) with 0 in B. rewrite B; [|assert (List.length cs = List.length p0 + List.length w0)%nat by (rewrite E0, app_length; reflexivity); lia]. cbn [bind].
  exists p0, w, after. split; [exact WA|]. f_equal. unfold pointing, underline. rewrite <- EC. replace (Z.to_nat (zlen w - 1)) with (List.length w - 1)%nat by (rewrite zlen_unf; lia). reflexivity.
Qed.
Lemma splice_end msg cs : Forall line_char cs -> splice msg (encs cs) (zlen (encs cs)) = fit (msg ++ [10] ++ encs cs).
Proof.
  intros F. unfold splice. rewrite first_line_no by (apply line_no, F). assert (FP := line_points cs F).
  assert (ED : encs cs ++ [0] = encs (cs ++ [0])) by (rewrite encs_app_; reflexivity). rewrite ED.
  assert (C0 : code_point 0) by (unfold code_point; lia).
  assert (FP0 : Forall code_point (cs ++ [0])) by (apply Forall_app; split; [exact FP|constructor; [exact C0|constructor]]).
  destruct (literal_loop_at cs (S (List.length (encs (cs ++ [0])))) 0 [] (zlen (encs cs)) FP0) as (p & q & EA & Q & NL & R).
  { pose proof (encs_pos (cs ++ [0])) as Q2. rewrite !zlen_unf, !app_length in Q2. cbn in Q2. lia. }
  unfold literal. rewrite first_byte_here by exact C0. cbn [bind]. rewrite R. cbn [bind].
  change (word 0) with false. cbn match. unfold length_. cbn [length_loop]. rewrite Z.ltb_irrefl. cbn [bind]. replace (zlen (encs cs) >=? zlen (encs cs)) with true by lia. reflexivity.
Qed.

(** ** Printing *)
Lemma cut_no s r : ~ In 10 s -> cut (s ++ 10 :: r) = (s, 10 :: r).
Proof. induction s as [|b s IH]; intros N; cbn [cut app]; [reflexivity|]. destruct (b =? 10) eqn:E; [exfalso; apply N; left; lia|]. rewrite IH; [reflexivity|]. intros I. apply N. right. exact I. Qed.
Lemma cut_all s : ~ In 10 s -> cut s = (s, []).
Proof. induction s as [|b s IH]; intros N; cbn [cut]; [reflexivity|]. destruct (b =? 10) eqn:E; [exfalso; apply N; left; lia|]. rewrite IH; [reflexivity|]. intros I. apply N. right. exact I. Qed.
Lemma take_symbol_at c r : code_point c -> take_symbol (enc c ++ r) = Some (enc c, r).
Proof.
  intros C. pose proof (enc_pos c). destruct (enc c) as [|b s] eqn:E; [rewrite zlen_nil in *; lia|]. unfold take_symbol. cbn [app].
  rewrite (symbol_size_enc c b s C E), E, zlen_unf, Nat2Z.id. change (b :: s ++ r) with ((b :: s) ++ r).
  replace (_ <=? _)%nat with true by (symmetry; apply Nat.leb_le; rewrite app_length; lia).
  rewrite firstn_app, skipn_app, Nat.sub_diag, firstn_all, skipn_all, firstn_O, app_nil_r. reflexivity.
Qed.
Lemma before_caret_at cs : forall t r, Forall code_point cs ->
  before_caret (map (fun c => if c =? 9 then 9 else 32) cs ++ 94 :: t) (encs cs ++ r) = Some (encs cs, 94 :: t, r).
Proof.
  induction cs as [|c cs IH]; intros t r F; [reflexivity|]. inversion F as [|? ? C F']; subst. cbn [map app before_caret encs flat_map]. fold (encs cs).
  replace ((if c =? 9 then 9 else 32) =? 94) with false by (destruct (c =? 9); reflexivity). rewrite <- app_assoc, take_symbol_at by exact C. cbn [bind]. rewrite IH by exact F'. reflexivity.
Qed.
Lemma under_caret_at cs : forall t r, Forall code_point cs -> List.length t = List.length cs -> under_caret t (encs cs ++ r) = Some (encs cs, r).
Proof.
  induction cs as [|c cs IH]; intros [|b t] r F L; try discriminate; [reflexivity|]. inversion F as [|? ? C F']; subst. cbn [under_caret encs flat_map]. fold (encs cs).
  rewrite <- app_assoc, take_symbol_at by exact C. cbn [bind]. rewrite IH by (auto; cbn in L; lia). reflexivity.
Qed.
Lemma print_pointing color msg before w after : ~ In 10 msg -> w <> [] -> Forall line_char (before ++ w ++ after) ->
  print_msg color (pointing msg before w after)
  = Some (Color COLOR_DEFAULT :: print msg ++ print (10 :: encs before) ++ Color color :: print (encs w)
          ++ Color COLOR_DEFAULT :: print (encs after) ++ Color color :: print (10 :: underline before w) ++ print [10] ++ [Color COLOR_DEFAULT]).
Proof.
  intros M W F. unfold pointing, print_msg. cbn [app]. rewrite cut_no by exact M. rewrite cut_no by (apply line_no, F).
  pose proof (line_points _ F) as FP. apply Forall_app in FP as [FB FP]. apply Forall_app in FP as [FW FA].
  assert (FL : ~ In 10 (encs after)) by (apply line_no; apply Forall_app in F as [_ F]; apply Forall_app in F as [_ F]; exact F).
  cbn [before_caret]. change (10 =? 94) with false. cbn match.
  change (10 :: encs (before ++ w ++ after) ++ 10 :: underline before w) with (enc 10 ++ encs (before ++ w ++ after) ++ 10 :: underline before w).
  rewrite take_symbol_at by (unfold code_point; lia). cbn [bind]. unfold underline at 1. rewrite encs_app_, <- app_assoc, before_caret_at by exact FB. cbn [bind].
  rewrite encs_app_, <- app_assoc, under_caret_at; [|exact FW|cbn [List.length]; rewrite repeat_length; destruct w; [congruence|cbn; lia]]. cbn [bind]. rewrite cut_no by exact FL. reflexivity.
Qed.
Lemma print_plain color msg cs : ~ In 10 msg -> Forall line_char cs ->
  print_msg color (msg ++ [10] ++ encs cs) = Some (Color COLOR_DEFAULT :: print msg ++ print (10 :: encs cs) ++ print [10]).
Proof. intros M F. unfold print_msg. cbn [app]. rewrite cut_no by exact M. rewrite cut_all by (apply line_no, F). reflexivity. Qed.
Lemma multiline_no s : ~ In 10 s -> multiline s = false.
Proof. intros N. unfold multiline. destruct (existsb _ s) eqn:E; [|reflexivity]. apply existsb_exists in E as (b & I & Q). exfalso. apply N. replace 10 with b by lia. exact I. Qed.


(** ** The word is one *)
Lemma app_both {A} (a : list A) : forall b c d, a ++ b = c ++ d -> (List.length a <= List.length c)%nat -> exists e, c = a ++ e /\ b = e ++ d.
Proof.
  induction a as [|x a IH]; intros b c d E L; [exists c; auto|]. destruct c as [|y c]; [cbn in L; lia|]. cbn in E. injection E as <- E. destruct (IH b c d E) as (e & -> & ->); [cbn in L; lia|]. exists e. auto.
Qed.
Lemma word_one cs j : forall b1 w1 a1 b2 w2 a2, word_at cs j b1 w1 a1 -> word_at cs j b2 w2 a2 -> b1 = b2 /\ w1 = w2 /\ a1 = a2.
Proof.
  assert (H : forall b1 w1 a1 b2 w2 a2, word_at cs j b1 w1 a1 -> word_at cs j b2 w2 a2 -> (List.length b1 <= List.length b2)%nat -> b1 = b2 /\ w1 = w2 /\ a1 = a2).
  { intros b1 w1 a1 b2 w2 a2 (E1 & (J1 & J1') & K1) (E2 & (J2 & J2') & K2) L. rewrite E1 in E2.
    destruct (app_both b1 _ b2 _ E2 L) as (e & -> & E). rewrite app_length in *.
    destruct e as [|x e].
    - rewrite app_nil_r in *. cbn [app] in E. split; [reflexivity|]. assert (G : List.length w1 = List.length w2); [|assert (w1 = w2) as -> by (apply (f_equal (firstn (List.length w1))) in E; rewrite firstn_app, Nat.sub_diag, firstn_all, firstn_O, app_nil_r in E; rewrite G, firstn_app, Nat.sub_diag, firstn_all, firstn_O, app_nil_r in E; exact E); split; [reflexivity|apply app_inv_head in E; exact E]].
      destruct K1 as [(F1 & _ & N1)|(c1 & -> & N1)], K2 as [(F2 & _ & N2)|(c2 & -> & N2)].
      + destruct (Nat.lt_trichotomy (List.length w1) (List.length w2)) as [Q|[Q|Q]]; [|exact Q|]; exfalso.
        * destruct (app_both w1 _ w2 _ E ltac:(lia)) as (e & -> & E'). destruct e as [|x e]; [rewrite app_nil_r in Q; lia|]. apply (N1 x (e ++ a2) E'). apply Forall_app in F2 as [_ F2]. inversion F2; assumption.
        * symmetry in E. destruct (app_both w2 _ w1 _ E ltac:(lia)) as (e & -> & E'). destruct e as [|x e]; [rewrite app_nil_r in Q; lia|]. apply (N2 x (e ++ a1) E'). apply Forall_app in F1 as [_ F1]. inversion F1; assumption.
      + exfalso. destruct w1 as [|x w1]; [cbn in J1'; lia|]. cbn in E. injection E as -> _. inversion F1; subst. contradiction.
      + exfalso. destruct w2 as [|x w2]; [cbn in J2'; lia|]. cbn in E. injection E as <- _. inversion F2; subst. contradiction.
      + reflexivity.
    - exfalso. destruct (app_both (x :: e) _ w1 _ (eq_sym E)) as (e2 & -> & E3).
      { cbn [List.length] in *. lia. }
      destruct K1 as [(F1 & _ & _)|(c1 & Q1 & _)].
      + destruct K2 as [(F2 & N2 & _)|(c2 & -> & N2)].
        * destruct (exists_last (l := x :: e) ltac:(discriminate)) as (e' & y & EE). apply (N2 (b1 ++ e') y); [rewrite EE, app_assoc; reflexivity|].
          rewrite EE in F1. apply Forall_app in F1 as [F1 _]. apply Forall_app in F1 as [_ F1]. inversion F1; assumption.
        * destruct e2 as [|y e2]; [rewrite app_length in J1'; cbn [List.length] in *; lia|]. cbn in E3. injection E3 as <- _. apply Forall_app in F1 as [_ F1]. inversion F1; contradiction.
      + destruct e; [|discriminate]. destruct e2; [|discriminate]. cbn [List.length app] in *. lia. }
  intros b1 w1 a1 b2 w2 a2 W1 W2. destruct (Nat.le_ge_cases (List.length b1) (List.length b2)) as [L|L]; [eapply H; eauto|].
  destruct (H _ _ _ _ _ _ W2 W1 L) as (-> & -> & ->). auto.
Qed.
Lemma fit_ok s : zlen s < 4096 -> fit s = Some s.
Proof. intros L. unfold fit, MAX_MSG_SIZE. replace (zlen s <? 4096) with true by lia. reflexivity. Qed.

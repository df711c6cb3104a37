(** Proofs for C39. *)
From Verif Require Import Prelude LVec ItemModel ItemSpec ItemProps TypesModel TypesSpec LexModel ParseModel InstrModel BuildModel CodeModel ExportSpec.

(** ** Decimal notation *)
Definition is_digit (d : Z) : Prop := 48 <= d <= 57.
Lemma read_app a : forall b n, read_digits (a ++ b) n = do m <- read_digits a n; read_digits b m.
Proof. induction a as [|d a IH]; intros b n; cbn [app read_digits bind]; [reflexivity|]. destruct (_ && _); [apply IH|reflexivity]. Qed.

Lemma digits_acc fuel : forall n acc, digits fuel n acc = digits fuel n [] ++ acc.
Proof.
  induction fuel as [|fuel IH]; intros n acc; cbn [digits]; [reflexivity|].
  destruct (n / 10 =? 0); [reflexivity|]. rewrite (IH _ (_ :: acc)), (IH _ [_]), <- app_assoc. reflexivity.
Qed.
Lemma digits_read fuel : forall n, 0 <= n < 10 ^ Z.of_nat fuel -> read_digits (digits fuel n []) 0 = Some n /\ Forall is_digit (digits fuel n []).
Proof.
  induction fuel as [|fuel IH]; intros n H; [cbn in H; assert (n = 0) by lia; subst; split; [reflexivity|constructor]|].
  cbn [digits]. pose proof (Z.mod_pos_bound n 10 ltac:(lia)) as M. pose proof (Z.div_mod n 10 ltac:(lia)) as D.
  assert (I : is_digit (48 + n mod 10)) by (unfold is_digit; lia).
  destruct (n / 10 =? 0) eqn:E.
  - split; [|auto]. cbn [read_digits]. unfold is_digit in I. replace ((48 <=? 48 + n mod 10) && (48 + n mod 10 <=? 57)) with true by lia. f_equal. lia.
  - rewrite digits_acc. assert (H' : 0 <= n / 10 < 10 ^ Z.of_nat fuel).
    { split; [apply Z.div_pos; lia|]. apply Z.div_lt_upper_bound; [lia|]. rewrite Nat2Z.inj_succ, Z.pow_succ_r in H by lia. lia. }
    destruct (IH _ H') as [R F]. split; [|apply Forall_app; auto]. rewrite read_app, R. cbn [bind read_digits].
    unfold is_digit in I. replace ((48 <=? 48 + n mod 10) && (48 + n mod 10 <=? 57)) with true by lia. f_equal. lia.
Qed.
Lemma digits_some fuel n : fuel <> O -> digits fuel n [] <> [].
Proof. destruct fuel as [|fuel]; [congruence|]. intros _. cbn [digits]. destruct (_ =? 0); [discriminate|]. rewrite digits_acc. destruct (digits fuel _ []); discriminate. Qed.

Definition plain (b : Z) : Prop := b <> 10 /\ b <> 32.
Lemma digit_plain d : is_digit d -> plain d.
Proof. unfold is_digit, plain. lia. Qed.

Opaque digits.
Lemma decimal_read z : is_int64 z -> read_number (decimal z) = Some z /\ Forall plain (decimal z) /\ decimal z <> [].
Proof.
  unfold is_int64, LLONG_MIN, LLONG_MAX, two63. intros H. unfold decimal. destruct (z <? 0) eqn:E.
  - destruct (digits_read 20 (- z)) as [R F]; [change (10 ^ Z.of_nat 20) with 100000000000000000000; lia|]. split; [|split; [|discriminate]].
    + cbn [read_number]. change (45 =? 45) with true. cbn iota. rewrite R. pose proof (digits_some 20 (- z) ltac:(discriminate)).
      destruct (digits 20 (- z) []); [congruence|]. cbn [bind]. f_equal. lia.
    + constructor; [unfold plain; lia|]. eapply Forall_impl; [apply digit_plain|exact F].
  - destruct (digits_read 20 z) as [R F]; [change (10 ^ Z.of_nat 20) with 100000000000000000000; lia|]. split; [|split; [eapply Forall_impl; [apply digit_plain|exact F]|apply digits_some; discriminate]].
    unfold read_number. destruct (digits 20 z []) as [|d r] eqn:D; [destruct (digits_some 20 z ltac:(discriminate) D)|].
    inversion F; subst. unfold is_digit in *. replace (d =? 45) with false by lia. exact R.
Qed.

(** ** Lines and words *)
Lemma lines_plain w : Forall plain w -> forall text line, lines (w ++ text) line = lines text (rev w ++ line).
Proof.
  induction 1 as [|b w [B _] F IH]; intros text line; [reflexivity|]. cbn [app lines rev]. replace (b =? 10) with false by lia. rewrite IH, <- app_assoc. reflexivity.
Qed.
Lemma words_plain w : Forall plain w -> forall line word, words (w ++ line) word = words line (rev w ++ word).
Proof.
  induction 1 as [|b w [_ B] F IH]; intros line word; [reflexivity|]. cbn [app words rev]. replace (b =? 32) with false by lia. rewrite IH, <- app_assoc. reflexivity.
Qed.

(** The numbers with a blank after each. *)
Definition spaced (l : list Z) : bytes := flat_map (fun x => decimal x ++ [32]) l.
Lemma lines_spaced l : Forall is_int64 l -> forall text line, lines (spaced l ++ text) line = lines text (rev (spaced l) ++ line).
Proof.
  induction 1 as [|x l X F IH]; intros text line; [reflexivity|]. cbn [spaced flat_map]. fold (spaced l). rewrite <- !app_assoc.
  rewrite lines_plain by (apply decimal_read; exact X). cbn [app lines]. change (32 =? 10) with false. cbn iota. rewrite IH.
  rewrite !rev_app_distr. cbn [rev app]. rewrite <- !app_assoc. reflexivity.
Qed.
Lemma words_spaced l : Forall is_int64 l -> forall line, words (spaced l ++ line) [] = map decimal l ++ words line [].
Proof.
  induction 1 as [|x l X F IH]; intros line; [reflexivity|]. cbn [spaced flat_map map app]. fold (spaced l). rewrite <- !app_assoc.
  destruct (decimal_read x X) as (_ & P & N). rewrite words_plain by exact P. rewrite app_nil_r. cbn [app words]. change (32 =? 32) with true. cbn iota.
  rewrite IH. destruct (rev (decimal x)) as [|b r] eqn:E; [apply (f_equal (@rev Z)) in E; rewrite rev_involutive in E; cbn in E; congruence|].
  rewrite <- E, rev_involutive. reflexivity.
Qed.
Lemma all_app {A B} (f : A -> option B) a : forall b, all f (a ++ b) = do x <- all f a; do y <- all f b; Some (x ++ y).
Proof.
  induction a as [|x a IH]; intros b; cbn [app all bind]; [destruct (all f b); reflexivity|].
  destruct (f x); cbn [bind]; [|reflexivity]. rewrite IH. destruct (all f a); cbn [bind]; [|reflexivity]. destruct (all f b); reflexivity.
Qed.
Lemma all_decimal l : Forall is_int64 l -> all read_number (map decimal l) = Some l.
Proof. induction 1 as [|x l X F IH]; [reflexivity|]. cbn [map all]. rewrite (proj1 (decimal_read x X)), IH. reflexivity. Qed.
Lemma read_spaced l : Forall is_int64 l -> read_line (spaced l) = Some l.
Proof. intros F. unfold read_line. rewrite <- (app_nil_r (spaced l)), words_spaced, app_nil_r by exact F. apply all_decimal, F. Qed.

(** ** Tables *)
Lemma print_items_ok st l : snd (print_items st l) = true <-> Forall (fun x => item_check_var st x = true) l.
Proof.
  induction l as [|x l IH]; cbn [print_items]; [split; auto|]. destruct (item_check_var st x) eqn:E.
  - destruct (print_items st l) as [t ok]. cbn [snd] in *. rewrite IH. split; [auto|]. intros H. inversion H; auto.
  - split; [discriminate|]. intros H. inversion H. congruence.
Qed.
Lemma print_items_text st l : snd (print_items st l) = true -> fst (print_items st l) = spaced l ++ [10].
Proof.
  induction l as [|x l IH]; cbn [print_items]; [reflexivity|]. destruct (item_check_var st x); [|discriminate].
  destruct (print_items st l) as [t ok]. cbn [fst snd] in *. intros H. rewrite (IH H). cbn [spaced flat_map]. rewrite <- !app_assoc. reflexivity.
Qed.
Lemma print_tables_ok st ts : snd (print_tables st ts) = true <-> Forall (Forall (fun x => item_check_var st x = true)) ts.
Proof.
  induction ts as [|t ts IH]; cbn [print_tables]; [split; auto|]. pose proof (print_items_ok st t) as T. destruct (print_items st t) as [s ok]. cbn [snd] in T.
  destruct ok.
  - destruct (print_tables st ts) as [s' ok']. cbn [snd] in *. rewrite IH. split; [intros H; constructor; [apply T; reflexivity|exact H]|]. intros H. inversion H; auto.
  - cbn [snd]. split; [discriminate|]. intros H. inversion H. assert (false = true) by (apply T; assumption). congruence.
Qed.
Lemma print_tables_text st ts : snd (print_tables st ts) = true -> fst (print_tables st ts) = flat_map (fun t => spaced t ++ [10]) ts.
Proof.
  induction ts as [|t ts IH]; cbn [print_tables]; [reflexivity|]. pose proof (print_items_text st t) as T. destruct (print_items st t) as [s ok]. cbn [fst snd] in T.
  destruct ok; [|discriminate]. destruct (print_tables st ts) as [s' ok']. cbn [fst snd] in *. intros H. rewrite (T eq_refl), (IH H). reflexivity.
Qed.
Lemma lines_end t text : Forall is_int64 t -> lines ((spaced t ++ [10]) ++ text) [] = do l <- lines text []; Some (spaced t :: l).
Proof. intros F. rewrite <- app_assoc, lines_spaced by exact F. cbn [app lines]. change (10 =? 10) with true. cbn iota. rewrite app_nil_r, rev_involutive. reflexivity. Qed.
Lemma read_tables ts : Forall (Forall is_int64) ts -> lines (flat_map (fun t => spaced t ++ [10]) ts) [] = Some (map spaced ts) /\ all read_line (map spaced ts) = Some ts.
Proof.
  induction 1 as [|t ts T F [IH IA]]; [split; reflexivity|]. cbn [flat_map map all]. rewrite lines_end by exact T. rewrite IH, (read_spaced t T), IA. split; reflexivity.
Qed.

Lemma header_line e types : export_header e types = (spaced (map zlen (tables e types)) ++ decimal (e_max_global e) ++ [32; 48]) ++ [10].
Proof.
  unfold export_header, spaced. rewrite flat_map_concat_map, flat_map_concat_map, map_map, <- !app_assoc. reflexivity.
Qed.

Lemma export_reads c shebang e types :
  Forall (Forall is_int64) (tables e types) -> Forall (fun t => is_int64 (zlen t)) (tables e types) -> is_int64 (e_max_global e) ->
  snd (enc_export c shebang e types) = true ->
  exists text, fst (enc_export c shebang e types) = shebang ++ text
    /\ read_lines text = Some ((map zlen (tables e types) ++ [e_max_global e; 0]) :: tables e types).
Proof.
  intros I L G. unfold enc_export. pose proof (print_tables_text (c_target c) (tables e types)) as T. destruct (print_tables _ _) as [s ok]. cbn [fst snd] in *.
  intros K. rewrite (T K). eexists. split; [reflexivity|]. clear T K s ok.
  set (h := map zlen (tables e types) ++ [e_max_global e]).
  assert (H : Forall is_int64 h). { unfold h. apply Forall_app. split; [|auto]. apply Forall_map. exact L. }
  assert (E : export_header e types = (spaced h ++ [48]) ++ [10]).
  { rewrite header_line. unfold h, spaced. rewrite flat_map_app. cbn [flat_map]. rewrite app_nil_r, <- !app_assoc. reflexivity. }
  rewrite E, <- !app_assoc. unfold read_lines. rewrite lines_spaced by exact H. cbn [app lines]. change (48 =? 10) with false. change (10 =? 10) with true. cbn iota.
  destruct (read_tables _ I) as [A B]. rewrite A. cbn [bind all]. rewrite B. rewrite app_nil_r. cbn [rev]. rewrite rev_involutive.
  unfold read_line at 1. rewrite words_spaced by exact H. change (words [48] []) with [[48]]. rewrite all_app, all_decimal by exact H. cbn [bind all].
  change (read_number [48]) with (Some 0). cbn [bind]. unfold h. rewrite <- app_assoc. reflexivity.
Qed.
Lemma export_fits c shebang e types : target (c_target c) -> Forall (Forall is_int64) (tables e types) ->
  (snd (enc_export c shebang e types) = true <-> Forall (Forall (word_range (c_target c))) (tables e types)).
Proof.
  intros T I. unfold enc_export. pose proof (print_tables_ok (c_target c) (tables e types)) as P. destruct (print_tables _ _) as [s ok]. cbn [snd] in *. rewrite P. clear P.
  induction I as [|t ts J I IH]; [split; auto|].
  assert (Q : Forall (fun x => item_check_var (c_target c) x = true) t <-> Forall (word_range (c_target c)) t).
  { clear - T J. induction J as [|x l X F IH]; [split; auto|]. split; intros H; inversion H; subst; constructor; try (apply IH; assumption); apply (C03_check_var_is_range _ _ T X); assumption. }
  split; intros H; inversion H; subst; constructor; try (apply Q; assumption); apply IH; assumption.
Qed.

(** Every run keeps within the bounds, whatever the number of steps. *)
From Verif Require Import Prelude MacroModel MacroSpec MacroSkip MacroProofs MacroRun.
Local Open Scope Z_scope.

Definition run_ok {A} (st : pst) (g : A -> pst) (r : res A) : Prop :=
  match r with Out s | Hang s => stops st s | Ok a => ext st (g a) end.
Lemma run_bind {A B} st (g : A -> pst) (h : B -> pst) (r : res A) (f : A -> res B) :
  sane st -> run_ok st g r -> (forall a, sane (g a) -> run_ok (g a) h (f a)) -> run_ok st h (rbind r f).
Proof.
  intros S H G. destruct r as [s|s|a]; cbn in *; [exact H|exact H|].
  specialize (G a (ext_sane _ _ H S)). destruct (f a) as [s|s|x]; cbn in *.
  - apply ext_stops with (b := g a); assumption.
  - apply ext_stops with (b := g a); assumption.
  - apply ext_trans with (b := g a); assumption.
Qed.
Lemma run_after {A} st st1 (g : A -> pst) (r : res A) : ext st st1 -> run_ok st1 g r -> run_ok st g r.
Proof.
  intros H G. destruct r as [s|s|a]; cbn in *;
    [apply ext_stops with (b := st1)|apply ext_stops with (b := st1)|apply ext_trans with (b := st1)]; assumption.
Qed.
Lemma run_core {A} st st1 (g : A -> pst) (r : res A) : core st1 = core st -> run_ok st1 g r -> run_ok st g r.
Proof.
  intros C G. destruct r as [s|s|a]; cbn in *;
    [apply stops_core_l with (a := st1)|apply stops_core_l with (a := st1)|apply ext_core_l with (a := st1)]; assumption.
Qed.
Lemma ext_same st st1 : core st1 = core st -> sane st -> ext st st1.
Proof. intros C S. apply ext_core with (b := st); [symmetry; exact C|]. apply ext_refl. exact S. Qed.
Lemma ext_err_same st st1 m e : core st1 = core st -> sane st -> ext st (error_ m e st1).
Proof.
  intros C S. apply ext_trans with (b := st1); [apply ext_same; assumption|].
  apply ext_error. apply sane_core with (a := st); [symmetry; exact C|exact S].
Qed.
Lemma ext_any st st1 : core st1 = core st -> sane st -> ext st st1 /\ sane st1.
Proof. intros C S. split; [apply ext_same; assumption|apply sane_core with (a := st); [symmetry; exact C|exact S]]. Qed.

(** ** Loops *)
Record wext_by (w : bool) (i : Z) (st st' : pst) (u : list event) : Prop := mkW {
  w_trace : p_trace st' = p_trace st ++ u;
  w_seen : p_seen st' = rev (opened u) ++ p_seen st;
  w_call : p_call st' = p_call st; w_incl : p_incl st' = p_incl st;
  w_quiet : p_quiet st' = p_quiet st; w_mac : p_mac st' = p_mac st;
  w_piece : piece (p_call st) (p_incl st) (p_seen st) u;
  w_rounds : forall loops t, rounds_ok 32769 (i :: loops) (u ++ t) = rounds_ok 32769 loops t;
  w_keep : w = true -> p_err st' = true;
  w_keep2 : p_err st = true -> p_err st' = true;
  w_told : told u -> p_err st' = true;
  w_why : p_err st' = true -> p_err st = true \/ w = true \/ bad u }.
Record wstop_by (i : Z) (st st' : pst) (u : list event) : Prop := mkWS {
  wo_trace : p_trace st' = p_trace st ++ u;
  wo_part : part (p_call st) (p_incl st) (p_seen st) u;
  wo_open : forall loops, rounds_ok 32769 (i :: loops) u = true }.
Definition while_ok (w : bool) (i : Z) (st : pst) (r : res (list token * pst)) : Prop :=
  match r with
  | Out s | Hang s => exists u, wstop_by i st s u
  | Ok (_, st') => exists u, wext_by w i st st' u
  end.
Lemma sane_body st : sane st -> sane (event_ EBody st).
Proof. intros H. exact H. Qed.
Lemma part_quiet c i seen e : c <= 257 -> i <= 32 ->
  match e with EBody | EDone | ELoop => True | _ => False end -> part c i seen [e].
Proof. intros H G E. apply part_one; try assumption; destruct e; try contradiction; cbn; try lia; try discriminate. Qed.
Lemma body_stops i st s : sane st -> 0 <= i <= 32768 -> stops (event_ EBody st) s -> exists u, wstop_by i st s u.
Proof.
  intros [S1 S2] I [u [U1 U2 U3]]. exists (EBody :: u). cbn [event_ p_trace p_call p_incl p_seen] in *. constructor.
  - rewrite U1, <- app_assoc. reflexivity.
  - apply (part_app _ _ _ [EBody] u (p_call st) (p_incl st) (p_seen st)); cbn; try lia; try reflexivity; [|exact U2].
    apply part_quiet; try assumption. exact Logic.I.
  - intros loops. cbn [rounds_ok]. rewrite U3. destruct (i + 1 <=? 32769) eqn:E; [reflexivity|lia].
Qed.
(** The last round. *)
Lemma body_done w i st st1 st2 :
  sane st -> 0 <= i <= 32768 -> ext (event_ EBody st) st1 ->
  p_trace st2 = p_trace st1 ++ [EDone] -> p_seen st2 = p_seen st1 -> p_call st2 = p_call st1 -> p_incl st2 = p_incl st1 ->
  p_quiet st2 = p_quiet st1 -> p_mac st2 = p_mac st1 ->
  (w = true -> p_err st2 = true) -> (p_err st1 = true -> p_err st2 = true) ->
  (p_err st2 = true -> p_err st1 = true \/ w = true) ->
  exists u, wext_by w i st st2 u.
Proof.
  intros [S1 S2] I [u E] T SE C N Q M W1 W2 W3. exists (EBody :: u ++ [EDone]).
  pose proof (e_piece _ _ _ E) as [P1 P2 P3].
  assert (B1 : part (p_call st) (p_incl st) (p_seen st) [EBody]) by (apply part_quiet; [assumption|assumption|exact Logic.I]).
  assert (B2 : part (p_call st) (p_incl st) (rev (opened u) ++ p_seen st) [EDone]) by (apply part_quiet; [assumption|assumption|exact Logic.I]).
  assert (O : opened (EBody :: u ++ [EDone]) = opened u).
  { change (EBody :: u ++ [EDone]) with ([EBody] ++ u ++ [EDone]). rewrite !opened_app. cbn. apply app_nil_r. }
  constructor.
  - rewrite T, (e_trace _ _ _ E). cbn [event_ p_trace]. rewrite <- !app_assoc. reflexivity.
  - rewrite O, SE, (e_seen _ _ _ E). reflexivity.
  - rewrite C. apply (e_call _ _ _ E).
  - rewrite N. apply (e_incl _ _ _ E).
  - rewrite Q. apply (e_quiet _ _ _ E).
  - rewrite M. apply (e_mac _ _ _ E).
  - constructor.
    + apply (part_app _ _ _ [EBody] (u ++ [EDone]) (p_call st) (p_incl st) (p_seen st)); cbn; try lia; try reflexivity; [exact B1|].
      apply (part_app _ _ _ u [EDone] (p_call st) (p_incl st) (rev (opened u) ++ p_seen st)); try lia; try reflexivity; [exact P1|exact B2].
    + unfold calls in *. change (EBody :: u ++ [EDone]) with ([EBody] ++ u ++ [EDone]). rewrite !sum_app. cbn. lia.
    + unfold inclusions in *. change (EBody :: u ++ [EDone]) with ([EBody] ++ u ++ [EDone]). rewrite !sum_app. cbn. lia.
  - intros loops t. cbn [app rounds_ok]. rewrite <- app_assoc. rewrite (e_even _ _ _ E). cbn [app rounds_ok].
    destruct (i + 1 <=? 32769) eqn:X; [reflexivity|lia].
  - exact W1.
  - intros X. apply W2. apply (e_keep _ _ _ E). exact X.
  - intros [e [X|X]]; [discriminate|]. apply in_app_or in X as [X|[X|[]]]; [|discriminate].
    apply W2. apply (e_told _ _ _ E). exists e. exact X.
  - intros X. apply W3 in X as [X|X]; [|tauto]. apply (e_why _ _ _ E) in X as [X|(m & e & X)]; [left; exact X|].
    right. right. exists m, e. right. apply in_or_app. left. exact X.
Qed.
(** A round and the others. *)
Lemma body_again w i st st1 r :
  sane st -> 0 <= i <= 32768 -> ext (event_ EBody st) st1 -> while_ok w (i + 1) st1 r -> while_ok w i st r.
Proof.
  intros [S1 S2] I [u E] H. pose proof (e_piece _ _ _ E) as [P1 P2 P3].
  assert (B1 : part (p_call st) (p_incl st) (p_seen st) [EBody]) by (apply part_quiet; [assumption|assumption|exact Logic.I]).
  assert (RO : forall loops x, rounds_ok 32769 (i :: loops) ((EBody :: u) ++ x) = rounds_ok 32769 (i + 1 :: loops) x).
  { intros loops x. cbn [app rounds_ok]. rewrite (e_even _ _ _ E). destruct (i + 1 <=? 32769) eqn:X; [reflexivity|lia]. }
  assert (PP : forall v, part (p_call st1) (p_incl st1) (p_seen st1) v -> part (p_call st) (p_incl st) (p_seen st) ((EBody :: u) ++ v)).
  { intros v V. cbn [app].
    apply (part_app _ _ _ [EBody] (u ++ v) (p_call st) (p_incl st) (p_seen st)); cbn; try lia; try reflexivity; [exact B1|].
    apply (part_app _ _ _ u v (p_call st1) (p_incl st1) (p_seen st1)); [exact P1| | |apply (e_seen _ _ _ E)|exact V].
    - rewrite (e_call _ _ _ E). cbn in *. lia.
    - rewrite (e_incl _ _ _ E). cbn in *. lia. }
  assert (ST : forall s, (exists v, wstop_by (i + 1) st1 s v) -> exists v, wstop_by i st s v).
  { intros s [v [V1 V2 V3]]. exists ((EBody :: u) ++ v). constructor.
    - rewrite V1, (e_trace _ _ _ E). cbn [event_ p_trace]. rewrite <- !app_assoc. reflexivity.
    - apply PP. exact V2.
    - intros loops. rewrite RO. apply V3. }
  destruct r as [s|s|[s st']]; cbn in *; [apply ST; exact H|apply ST; exact H|].
  destruct H as [v V]. exists ((EBody :: u) ++ v). pose proof (w_piece _ _ _ _ _ V) as [Q1 Q2 Q3]. constructor.
  - rewrite (w_trace _ _ _ _ _ V), (e_trace _ _ _ E). cbn [event_ p_trace]. rewrite <- !app_assoc. reflexivity.
  - rewrite (w_seen _ _ _ _ _ V), (e_seen _ _ _ E), opened_app, rev_app_distr, <- app_assoc. reflexivity.
  - rewrite (w_call _ _ _ _ _ V). apply (e_call _ _ _ E).
  - rewrite (w_incl _ _ _ _ _ V). apply (e_incl _ _ _ E).
  - rewrite (w_quiet _ _ _ _ _ V). apply (e_quiet _ _ _ E).
  - rewrite (w_mac _ _ _ _ _ V). apply (e_mac _ _ _ E).
  - constructor; [apply PP; exact Q1| |].
    + change ((EBody :: u) ++ v) with ([EBody] ++ u ++ v). unfold calls in *. rewrite !sum_app, P2, Q2. reflexivity.
    + change ((EBody :: u) ++ v) with ([EBody] ++ u ++ v). unfold inclusions in *. rewrite !sum_app, P3, Q3. reflexivity.
  - intros loops t. rewrite <- app_assoc. etransitivity; [apply RO|]. apply (w_rounds _ _ _ _ _ V).
  - apply (w_keep _ _ _ _ _ V).
  - intros X. apply (w_keep2 _ _ _ _ _ V). apply (e_keep _ _ _ E). exact X.
  - rewrite told_app. intros [[e [X|X]]|X]; [discriminate| |apply (w_told _ _ _ _ _ V); exact X].
    apply (w_keep2 _ _ _ _ _ V). apply (e_told _ _ _ E). exists e. exact X.
  - rewrite bad_app. intros X. apply (w_why _ _ _ _ _ V) in X as [X|[X|X]]; [|tauto|tauto].
    apply (e_why _ _ _ E) in X as [X|(m & e & X)]; [left; exact X|]. right. right. left. exists m, e. right. exact X.
Qed.

Section Oracles.
Variable files : Z -> option (list token).
Variable stuck : list token -> bool.
Variable calc : list token -> option Z.
Notation step := (step files stuck calc).
Notation lvl := (lvl files stuck calc).
Definition snd3 {A B} (x : A * B * pst) : pst := snd x.
Definition snd2 {A} (x : A * pst) : pst := snd x.

Record good (R : fns) : Prop := mkGood {
  g_block b s st : sane st -> run_ok st snd3 (f_block R b s st);
  g_text s st : sane st -> run_ok st snd2 (f_text R s st);
  g_args v s st : sane st -> run_ok st snd3 (f_args R v s st);
  g_expr p s st : sane st -> run_ok st snd3 (f_expr R p s st);
  g_elif s st : sane st -> run_ok st snd3 (f_elif R s st);
  g_while b s w i st : sane st -> 0 <= i <= 32768 -> while_ok w i st (f_while R b s w i st) }.

(** Skipping from outside. *)
Lemma skip_silent_ok b s st : sane st -> run_ok st snd3 (skip_silent b s st).
Proof.
  intros S. unfold skip_silent. destruct (skip_block (skip_fuel s) [] b s (set_out None st)) as [[[k s'] st']|] eqn:E; cbn.
  - apply (proj1 (skip_run _)) with (sv := p_err st) in E; [|exact S|right; reflexivity|reflexivity].
    destruct E as [E _]. apply (sext_ext (set_out None st)) in E. eapply ext_core; [|eapply ext_core_l; [|exact E]; reflexivity]. reflexivity.
  - apply stops_refl. exact S.
Qed.
Lemma skip_rest_ok n : forall k s st, sane st -> run_ok st snd3 (skip_rest n k s st).
Proof.
  induction n as [|n IH]; intros k s st S; cbn [skip_rest].
  - destruct k as [k|]; [destruct k|]; cbn; try (apply stops_refl; exact S); apply ext_refl; exact S.
  - assert (G : forall k0, run_ok st snd3 (run ' (k, s, st) <- skip_silent k0 (skip_dir s) st; skip_rest n k s st)).
    { intros k0. apply run_bind with (g := snd3); [exact S|apply skip_silent_ok; exact S|].
      intros [[k1 s1] st1] S1. apply IH. exact S1. }
    destruct k as [k|]; [destruct k|]; try apply G; cbn; apply ext_refl; exact S.
Qed.

Section Step.
Variable R : fns.
Hypothesis G : good R.
Set Default Proof Using "All".

Lemma preprocess_ok t st : sane st -> run_ok st (fun x => x) (preprocess R t st).
Proof.
  intros S. unfold preprocess. apply run_bind with (g := snd3); [exact S|apply (g_block _ G); exact S|].
  intros [[k s] st'] S'. cbn. apply ext_refl. exact S'.
Qed.
Lemma values_ok a st : sane st -> run_ok st snd2 (parse_values R a st).
Proof.
  intros S. unfold parse_values. apply run_bind with (g := fun x => x); [exact S| |].
  - apply run_core with (st1 := set_out (Some []) st); [reflexivity|]. apply preprocess_ok. exact S.
  - intros st' S'. cbn. apply ext_same; [reflexivity|exact S'].
Qed.
Lemma args_ok v s st : sane st -> run_ok st snd3 (args_step R v s st).
Proof.
  intros S. unfold args_step. destruct (read_arg s 0 []) as [[arg s1]|].
  - set (b := match s1, arg with [], _ :: _ => true | _, _ => false end).
    set (st1 := if b then error_ false ARGS_UNTERMINATED st else st).
    assert (E1 : ext st st1) by (subst st1; destruct b; [apply ext_error|apply ext_refl]; exact S).
    apply run_after with (st1 := st1); [exact E1|].
    assert (S1 : sane st1) by (apply ext_sane with (st := st); assumption).
    apply run_bind with (g := snd2); [exact S1| |].
    + destruct (if b then None else v); [|apply ext_refl; exact S1].
      apply run_bind with (g := snd2); [exact S1|apply values_ok; exact S1|].
      intros [e st2] S2. cbn. apply ext_refl. exact S2.
    + intros [vals st2] S2. cbn in S2. destruct s1 as [|t s2]; [cbn; apply ext_refl; exact S2|].
      destruct (is_close t); [cbn; apply ext_refl; exact S2|]. apply (g_args _ G). exact S2.
  - cbn. apply ext_is_stops. apply ext_error. exact S.
Qed.
Lemma replacement_ok m s st : sane st -> run_ok st snd3 (parse_replacement R m s st).
Proof.
  intros S. unfold parse_replacement. destruct m as [e v]. destruct e.
  - apply run_bind with (g := fun x => x); [exact S|apply preprocess_ok; exact S|]. intros st' S'. cbn. apply ext_refl. exact S'.
  - destruct (skip_lines s) as [|t s1]; [cbn; apply ext_error; exact S|].
    destruct (is_open t); [|cbn; apply ext_error; exact S].
    apply run_bind with (g := snd3); [exact S|apply (g_args _ G); exact S|].
    intros [[vals s2] st1] S1. cbn in S1. destruct vals as [vs|]; [|cbn; apply ext_refl; exact S1].
    destruct (length vs =? Datatypes.S e)%nat; [|cbn; apply ext_error; exact S1].
    apply run_bind with (g := fun x => x); [exact S1|apply preprocess_ok; exact S1|]. intros st' S'. cbn. apply ext_refl. exact S'.
Qed.
Lemma call_ok n m s st : sane st -> p_call st <= 256 -> run_ok st snd3 (call R n m s st).
Proof.
  intros S C. unfold call. set (st0 := event_ (ECall n) (set_call (p_call st + 1) st)).
  assert (S0 : sane st0) by (destruct S as [S1 S2]; split; cbn; lia).
  pose proof (replacement_ok m s st0 S0) as H.
  assert (B1 : part (p_call st) (p_incl st) (p_seen st) [ECall n]).
  { destruct S. apply part_one; try assumption; cbn; try lia. discriminate. }
  assert (ST : forall x, stops st0 x -> stops st x).
  { intros x [u [U1 U2 U3]]. exists (ECall n :: u). constructor.
    - rewrite U1. cbn [st0 event_ p_trace set_call]. rewrite <- app_assoc. reflexivity.
    - apply (part_app _ _ _ [ECall n] u (p_call st + 1) (p_incl st) (p_seen st)); cbn; try lia; try reflexivity; [exact B1|exact U2].
    - intros loops. cbn [rounds_ok]. apply U3. }
  destruct (parse_replacement R m s st0) as [x|x|[[ok s1] st1]]; cbn in H |- *; [apply ST; exact H|apply ST; exact H|].
  destruct H as [u E]. exists (ECall n :: u ++ [ERet]). pose proof (e_piece _ _ _ E) as [P1 P2 P3].
  assert (O : opened (ECall n :: u ++ [ERet]) = opened u).
  { change (ECall n :: u ++ [ERet]) with ([ECall n] ++ u ++ [ERet]). rewrite !opened_app. cbn. apply app_nil_r. }
  assert (CC : p_call st1 = p_call st + 1) by (rewrite (e_call _ _ _ E); reflexivity).
  constructor.
  - cbn [event_ p_trace set_call]. rewrite (e_trace _ _ _ E). cbn [st0 event_ p_trace set_call]. rewrite <- !app_assoc. reflexivity.
  - rewrite O. apply (e_seen _ _ _ E).
  - cbn. lia.
  - apply (e_incl _ _ _ E).
  - apply (e_quiet _ _ _ E).
  - apply (e_mac _ _ _ E).
  - constructor.
    + apply (part_app _ _ _ [ECall n] (u ++ [ERet]) (p_call st + 1) (p_incl st) (p_seen st)); cbn; try lia; try reflexivity; [exact B1|].
      apply (part_app _ _ _ u [ERet] (p_call st + 1) (p_incl st) (rev (opened u) ++ p_seen st)); try lia; try reflexivity.
      * exact P1.
      * destruct S. apply part_one; cbn; try lia. discriminate.
    + change (ECall n :: u ++ [ERet]) with ([ECall n] ++ u ++ [ERet]). unfold calls in *. rewrite !sum_app, P2. reflexivity.
    + change (ECall n :: u ++ [ERet]) with ([ECall n] ++ u ++ [ERet]). unfold inclusions in *. rewrite !sum_app, P3. reflexivity.
  - apply even_cons; [exact Logic.I|]. apply even_app; [apply (e_even _ _ _ E)|apply even_one; exact Logic.I].
  - intros X. apply (e_keep _ _ _ E). exact X.
  - intros [e [X|X]]; [discriminate|]. apply in_app_or in X as [X|[X|[]]]; [|discriminate].
    apply (e_told _ _ _ E). exists e. exact X.
  - intros X. apply (e_why _ _ _ E) in X as [X|(m0 & e & X)]; [left; exact X|]. right. exists m0, e. right. apply in_or_app. left. exact X.
Qed.
Lemma identifier_ok n s st : sane st -> run_ok st snd2 (parse_identifier R n s st).
Proof.
  intros S. unfold parse_identifier. destruct (find_macro n (p_macros st)); [|cbn; apply ext_same; [apply core_print|exact S]].
  destruct (p_call st >? MAX_CALL_DEPTH) eqn:C.
  - cbn. eapply ext_core; [symmetry; apply core_print|]. apply ext_error. exact S.
  - apply run_bind with (g := snd3); [exact S|apply call_ok; [exact S|unfold MAX_CALL_DEPTH in C; lia]|].
    intros [[ok s1] st1] S1. cbn. apply ext_refl. exact S1.
Qed.
Lemma text_ok s st : sane st -> run_ok st snd2 (text_step R s st).
Proof.
  intros S. unfold text_step. destruct s as [|t s]; [cbn; apply ext_refl; exact S|].
  destruct (is_nl t); [cbn; apply ext_same; [apply core_print|exact S]|].
  assert (N : run_ok st snd2 (f_text R s (print t (if is_hash t then error_ false HASH_STRAY st else st)))).
  { set (st1 := if is_hash t then _ else st). assert (E : ext st (print t st1)).
    { eapply ext_core; [symmetry; apply core_print|]. subst st1. destruct (is_hash t); [apply ext_error|apply ext_refl]; exact S. }
    apply run_after with (st1 := print t st1); [exact E|]. apply (g_text _ G). apply ext_sane with (st := st); assumption. }
  destruct t; try exact N.
  apply run_bind with (g := snd2); [exact S|apply identifier_ok; exact S|]. intros [s1 st1] S1. apply (g_text _ G). exact S1.
Qed.
Lemma push_ok pushed l s st : sane st ->
  run_ok st snd3 (if stuck (pushed ++ l) then Ok (0, line_end s, error_ false EXPRESSION st) else f_expr R (pushed ++ l) s st).
Proof. intros S. destruct (stuck (pushed ++ l)); [cbn; apply ext_error; exact S|apply (g_expr _ G); exact S]. Qed.
Lemma expr_ok p s st : sane st -> run_ok st snd3 (expr_step stuck calc R p s st).
Proof.
  intros S. unfold expr_step.
  assert (F : forall s : list token, run_ok (A := Z * list token * pst) st snd3 (match calc p with Some v => Ok (v, s, st) | None => Ok (0, s, error_ false EXPRESSION st) end)).
  { intros x. destruct (calc p); cbn; [apply ext_refl|apply ext_error]; exact S. }
  destruct s as [|t s]; [apply F|]. destruct (is_nl t); [apply F|].
  destruct t; cbn [is_hash]; try (apply push_ok; exact S); try (cbn; apply ext_error; exact S).
  - destruct k; try (cbn; apply ext_error; exact S). apply (g_expr _ G). exact S.
  - destruct (find_macro n (p_macros st)); [|apply push_ok; exact S].
    destruct (p_call st >? MAX_CALL_DEPTH) eqn:C; [cbn; apply ext_error; exact S|].
    apply run_bind with (g := snd3); [exact S| |].
    + apply run_core with (st1 := set_out (Some []) st); [reflexivity|]. apply call_ok; [exact S|unfold MAX_CALL_DEPTH in C; cbn; lia].
    + intros [[ok s1] st1] S1. cbn in S1.
      apply run_core with (st1 := set_out (p_out st) st1); [reflexivity|]. destruct ok; [apply push_ok; exact S1|].
      cbn. apply ext_refl. exact S1.
Qed.
Lemma expression_ok s st : sane st -> run_ok st snd3 (parse_expression R s st).
Proof. intros S. unfold parse_expression. destruct (at_end s); [cbn; apply ext_error; exact S|apply (g_expr _ G); exact S]. Qed.
Lemma elif_ok s st : sane st -> run_ok st snd3 (elif_step R s st).
Proof.
  intros S. unfold elif_step. apply run_bind with (g := snd3); [exact S|apply expression_ok; exact S|].
  intros [[v s1] st1] S1. cbn in S1. destruct (negb (v =? 0)).
  - apply run_bind with (g := snd3); [exact S1|apply (g_block _ G); exact S1|]. intros [[k s2] st2] S2. apply skip_rest_ok. exact S2.
  - apply run_bind with (g := snd3); [exact S1|apply skip_silent_ok; exact S1|]. intros [[k s2] st2] S2. cbn in S2.
    destruct k as [k|]; [destruct k|]; try (apply (g_block _ G); exact S2); try (apply (g_elif _ G); exact S2); cbn; apply ext_refl; exact S2.
Qed.
Lemma end_ok (k : option kw) (want : kw) st : sane st ->
  ext st (match k with Some KEndif => st | _ => error_ false DIRECTIVE_UNTERMINATED st end).
Proof. intros S. destruct k as [k|]; [destruct k|]; try (apply ext_error; exact S); apply ext_refl; exact S. Qed.
Lemma if_ok s st : sane st -> run_ok st snd2 (parse_if R s st).
Proof.
  intros S. unfold parse_if. apply run_bind with (g := snd3); [exact S|apply (g_elif _ G); exact S|].
  intros [[k s1] st1] S1. cbn. apply end_ok; [exact KEndif|exact S1].
Qed.
Lemma ifdef_ok k s st : sane st -> run_ok st snd2 (parse_ifdef_ifndef R k s st).
Proof.
  intros S. unfold parse_ifdef_ifndef. apply run_bind with (g := snd3); [exact S| |].
  - destruct s as [|t s]; [cbn; apply ext_error; exact S|]. destruct t; try (cbn; apply ext_error; exact S).
    match goal with |- run_ok _ _ (if ?c then _ else _) => destruct c end; [apply (g_block _ G); exact S|].
    apply run_bind with (g := snd3); [exact S|apply skip_silent_ok; exact S|]. intros [[k2 s2] st2] S2. cbn in S2.
    destruct k2 as [k2|]; [destruct k2|]; try (apply (g_block _ G); exact S2); try (apply (g_elif _ G); exact S2); cbn; apply ext_refl; exact S2.
  - intros [[k2 s2] st2] S2. cbn in S2. apply run_bind with (g := snd3); [exact S2|apply skip_rest_ok; exact S2|].
    intros [[k3 s3] st3] S3. cbn. apply end_ok; [exact KEndif|exact S3].
Qed.
Lemma while_step_ok b s w i st : sane st -> 0 <= i <= 32768 -> while_ok w i st (while_step R b s w i st).
Proof.
  intros S I. unfold while_step.
  pose proof (g_block _ G (Some KWhile) (skip_dir s) (event_ EBody st) S) as H.
  destruct (f_block R (Some KWhile) (skip_dir s) (event_ EBody st)) as [x|x|[[k e] st1]]; cbn in H |- *;
    [apply body_stops; assumption|apply body_stops; assumption|].
  assert (S1 : sane st1) by (apply ext_sane with (st := event_ EBody st); assumption).
  assert (U : forall er, exists u, wext_by w i st (event_ EDone (error_ false er st1)) u).
  { intros er. apply body_done with (st1 := error_ false er st1); try reflexivity; try assumption.
    - apply ext_trans with (b := st1); [exact H|apply ext_error; exact S1].
    - intros _. cbn. apply error_sets.
    - cbn. tauto.
    - cbn. tauto. }
  destruct k as [k|]; [|apply U]. destruct k; try apply U.
  destruct (i + 1 >? MAX_ITERATION) eqn:M; [apply U|]. unfold MAX_ITERATION in M.
  destruct (p_err st1) eqn:P.
  - apply body_done with (st1 := st1); try reflexivity; try assumption; cbn; tauto.
  - pose proof (expression_ok b st1 S1) as X.
    destruct (parse_expression R b st1) as [x|x|[[v s2] st2]]; cbn in X |- *.
    + apply body_stops; try assumption. apply ext_stops with (b := st1); assumption.
    + apply body_stops; try assumption. apply ext_stops with (b := st1); assumption.
    + assert (H2 : ext (event_ EBody st) st2) by (apply ext_trans with (b := st1); assumption).
      destruct (v =? 0).
      * apply body_done with (st1 := st2); try reflexivity; try assumption; cbn.
        -- intros ->. apply orb_true_r.
        -- intros ->. reflexivity.
        -- intros Y. apply orb_true_iff in Y. exact Y.
      * apply body_again with (st1 := st2); try assumption. apply (g_while _ G); [|lia].
        apply ext_sane with (st := event_ EBody st); assumption.
Qed.
Lemma while_ok_ext s st : sane st -> run_ok st snd2 (parse_while R s st).
Proof.
  intros S. unfold parse_while. apply run_bind with (g := snd3); [exact S|apply expression_ok; exact S|].
  intros [[v s1] st1] S1. cbn in S1. destruct (v =? 0).
  - apply run_bind with (g := snd3); [exact S1|apply skip_silent_ok; exact S1|]. intros [[k s2] st2] S2. cbn in S2 |- *.
    destruct k as [k|]; [destruct k|]; try (apply ext_error; exact S2); apply ext_refl; exact S2.
  - cbn [snd3 snd].
    set (st2 := event_ ELoop (set_err (p_quiet st1 && p_err st1) st1)).
    pose proof (g_while _ G s s1 (p_err st1) 0 st2 S1 ltac:(lia)) as W.
    assert (B1 : part (p_call st1) (p_incl st1) (p_seen st1) [ELoop]) by (destruct S1; apply part_quiet; try assumption; exact Logic.I).
    assert (ST : forall x, (exists u, wstop_by 0 st2 x u) -> stops st1 x).
    { intros x [u [U1 U2 U3]]. exists (ELoop :: u). constructor.
      - rewrite U1. cbn [st2 event_ p_trace set_err]. rewrite <- app_assoc. reflexivity.
      - apply (part_app _ _ _ [ELoop] u (p_call st1) (p_incl st1) (p_seen st1)); cbn; try lia; try reflexivity; [exact B1|exact U2].
      - intros loops. cbn [rounds_ok]. apply U3. }
    destruct (f_while R s s1 (p_err st1) 0 st2) as [x|x|[s2 st3]]; cbn in W |- *; [apply ST; exact W|apply ST; exact W|].
    destruct W as [u W]. exists (ELoop :: u). pose proof (w_piece _ _ _ _ _ W) as [P1 P2 P3]. constructor.
    + rewrite (w_trace _ _ _ _ _ W). cbn [st2 event_ p_trace set_err]. rewrite <- app_assoc. reflexivity.
    + apply (w_seen _ _ _ _ _ W).
    + apply (w_call _ _ _ _ _ W).
    + apply (w_incl _ _ _ _ _ W).
    + apply (w_quiet _ _ _ _ _ W).
    + apply (w_mac _ _ _ _ _ W).
    + constructor.
      * apply (part_app _ _ _ [ELoop] u (p_call st1) (p_incl st1) (p_seen st1)); cbn; try lia; try reflexivity; [exact B1|exact P1].
      * change (ELoop :: u) with ([ELoop] ++ u). unfold calls in *. rewrite sum_app, P2. reflexivity.
      * change (ELoop :: u) with ([ELoop] ++ u). unfold inclusions in *. rewrite sum_app, P3. reflexivity.
    + intros loops t. cbn [app rounds_ok]. apply (w_rounds _ _ _ _ _ W).
    + apply (w_keep _ _ _ _ _ W).
    + intros [e [X|X]]; [discriminate|]. apply (w_told _ _ _ _ _ W). exists e. exact X.
    + intros X. apply (w_why _ _ _ _ _ W) in X as [X|[X|(m & e & X)]].
      * cbn in X. apply andb_prop in X as [_ X]. left. exact X.
      * left. exact X.
      * right. exists m, e. right. exact X.
Qed.
Lemma include_ok s st : sane st -> run_ok st snd2 (parse_include files R s st).
Proof.
  intros S. unfold parse_include. destruct (p_incl st >=? MAX_INCLUDE_DEPTH) eqn:C; [cbn; apply ext_error; exact S|].
  unfold MAX_INCLUDE_DEPTH in C.
  destruct s as [|t s]; [cbn; apply ext_error; exact S|]. destruct t; try (cbn; apply ext_error; exact S).
  destruct (files f) as [text|]; [|cbn; apply ext_error; exact S].
  destruct (existsb (Z.eqb f) (p_seen st)) eqn:X; [cbn; apply ext_refl; exact S|].
  assert (F : ~ In f (p_seen st)).
  { intros Y. assert (existsb (Z.eqb f) (p_seen st) = true); [|congruence]. apply existsb_exists. exists f. split; [exact Y|apply Z.eqb_refl]. }
  set (st0 := event_ (EOpen f) (set_incl (p_incl st + 1) (set_seen (f :: p_seen st) st))).
  assert (S0 : sane st0) by (destruct S as [S1 S2]; split; cbn; lia).
  pose proof (preprocess_ok text st0 S0) as H.
  assert (B1 : part (p_call st) (p_incl st) (p_seen st) [EOpen f]).
  { destruct S. apply part_one; try assumption; cbn; try lia. intros g Y. injection Y as <-. exact F. }
  assert (ST : forall x, stops st0 x -> stops st x).
  { intros x [u [U1 U2 U3]]. exists (EOpen f :: u). constructor.
    - rewrite U1. cbn [st0 event_ p_trace set_incl set_seen]. rewrite <- app_assoc. reflexivity.
    - apply (part_app _ _ _ [EOpen f] u (p_call st) (p_incl st + 1) (f :: p_seen st)); cbn; try lia; try reflexivity; [exact B1|exact U2].
    - intros loops. cbn [rounds_ok]. apply U3. }
  destruct (preprocess R text st0) as [x|x|st1]; cbn in H |- *; [apply ST; exact H|apply ST; exact H|].
  destruct H as [u E]. exists (EOpen f :: u ++ [EClose]). pose proof (e_piece _ _ _ E) as [P1 P2 P3].
  assert (O : opened (EOpen f :: u ++ [EClose]) = f :: opened u).
  { change (EOpen f :: u ++ [EClose]) with ([EOpen f] ++ u ++ [EClose]). rewrite !opened_app. cbn. rewrite app_nil_r. reflexivity. }
  assert (CC : p_incl st1 = p_incl st + 1) by (rewrite (e_incl _ _ _ E); reflexivity).
  constructor.
  - cbn [event_ p_trace set_incl]. rewrite (e_trace _ _ _ E). cbn [st0 event_ p_trace set_incl set_seen]. rewrite <- !app_assoc. reflexivity.
  - rewrite O. cbn [event_ p_seen set_incl rev]. rewrite (e_seen _ _ _ E). cbn [st0 event_ p_seen set_incl set_seen]. rewrite <- app_assoc. reflexivity.
  - apply (e_call _ _ _ E).
  - cbn. lia.
  - apply (e_quiet _ _ _ E).
  - apply (e_mac _ _ _ E).
  - constructor.
    + apply (part_app _ _ _ [EOpen f] (u ++ [EClose]) (p_call st) (p_incl st + 1) (f :: p_seen st)); cbn; try lia; try reflexivity; [exact B1|].
      apply (part_app _ _ _ u [EClose] (p_call st) (p_incl st + 1) (rev (opened u) ++ f :: p_seen st)); try lia; try reflexivity.
      * exact P1.
      * destruct S. apply part_one; cbn; try lia. discriminate.
    + change (EOpen f :: u ++ [EClose]) with ([EOpen f] ++ u ++ [EClose]). unfold calls in *. rewrite !sum_app, P2. reflexivity.
    + change (EOpen f :: u ++ [EClose]) with ([EOpen f] ++ u ++ [EClose]). unfold inclusions in *. rewrite !sum_app, P3. reflexivity.
  - apply even_cons; [exact Logic.I|]. apply even_app; [apply (e_even _ _ _ E)|apply even_one; exact Logic.I].
  - intros Y. apply (e_keep _ _ _ E). exact Y.
  - intros [e [Y|Y]]; [discriminate|]. apply in_app_or in Y as [Y|[Y|[]]]; [|discriminate].
    apply (e_told _ _ _ E). exists e. exact Y.
  - intros Y. apply (e_why _ _ _ E) in Y as [Y|(m0 & e & Y)]; [left; exact Y|]. right. exists m0, e. right. apply in_or_app. left. exact Y.
Qed.
Lemma content_ok ps s : forall acc st, sane st -> run_ok st snd3 (parse_content R ps s acc st).
Proof.
  assert (X : forall n s acc st, (length s <= n)%nat -> sane st -> run_ok st snd3 (parse_content R ps s acc st)).
  { clear s. induction n as [|n IH]; intros s acc st L S; (destruct s as [|t s]; [cbn; apply ext_refl; exact S|]); cbn [length] in L; [lia|].
    cbn [parse_content]. destruct (is_nl t); [cbn; apply ext_refl; exact S|].
    destruct t; cbn [is_hash]; try (apply IH; [lia|exact S]); try (cbn; apply ext_error; exact S).
    - destruct k; try (cbn; apply ext_error; exact S).
      apply run_bind with (g := snd3); [exact S|apply expression_ok; exact S|]. intros [[v s1] st1] S1. cbn. apply ext_refl. exact S1.
    - destruct s as [|t s]; [cbn; apply ext_error; exact S|]. destruct t; try (cbn; apply ext_error; exact S).
      destruct (index_of n0 ps); [|cbn; apply ext_error; exact S]. apply IH; [cbn in L; lia|exact S].
    - destruct s as [|t s]; [cbn; apply ext_error; exact S|]. destruct t; try (cbn; apply ext_error; exact S).
      destruct (index_of n0 ps); [|cbn; apply ext_error; exact S]. apply IH; [cbn in L; lia|exact S]. }
  intros acc st. apply (X (length s)). lia.
Qed.
Lemma define_ok s st : sane st -> run_ok st snd2 (parse_define R s st).
Proof.
  intros S. unfold parse_define. destruct s as [|t s]; [cbn; apply ext_error; exact S|].
  destruct t; try (cbn; apply ext_error; exact S).
  set (st1 := match find_macro n (p_macros st) with Some _ => st | None => _ end).
  assert (C : core st1 = core st) by (subst st1; destruct (find_macro n (p_macros st)); reflexivity).
  assert (S1 : sane st1) by (apply sane_core with (a := st); [symmetry; exact C|exact S]).
  apply run_core with (st1 := st1); [exact C|]. clearbody st1.
  destruct (parse_args s) as [params s2].
  assert (D : forall e, ext st1 (set_macros (remove_macro n (p_macros (error_ false e st1))) (error_ false e st1))).
  { intros e. eapply ext_core; [|apply ext_error; exact S1]. reflexivity. }
  destruct params as [ps|]; [|cbn; apply D].
  assert (N : run_ok st1 snd2 (run ' (value, s3, st) <- parse_content R ps s2 [] st1;
              Ok (skip_dir s3, match value with
                  | Some v => set_macros (set_macro n (length ps, v) (p_macros st)) st
                  | None => set_macros (remove_macro n (p_macros st)) st end))).
  { apply run_bind with (g := snd3); [exact S1|apply content_ok; exact S1|]. intros [[v s3] st3] S3. cbn.
    apply ext_same; [destruct v; reflexivity|exact S3]. }
  destruct s2 as [|t s2]; [exact N|]. destruct t; try exact N. cbn. apply D.
Qed.
Lemma undef_ok s st : sane st -> ext st (snd (parse_undef s st)).
Proof.
  intros S. unfold parse_undef. destruct s as [|t s]; [cbn; apply ext_error; exact S|].
  destruct t; try (cbn; apply ext_error; exact S). cbn. apply ext_same; [reflexivity|exact S].
Qed.
Lemma macro_ok s st : sane st -> run_ok st snd2 (parse_macro s st).
Proof.
  intros S. unfold parse_macro.
  set (h := match s with TName n :: s1 => _ | _ => (None, None, s, error_ false DIRECTIVE_NAME st) end).
  assert (H : exists name params s1 st1, h = (name, params, s1, st1) /\ ext st st1 /\ sane st1).
  { assert (Q : forall s1, exists name params s2 st1, (@None Z, @None (list Z), s1 : list token, error_ false DIRECTIVE_NAME st) = (name, params, s2, st1) /\ ext st st1 /\ sane st1).
    { intros s1. eexists _, _, _, _. split; [reflexivity|]. assert (ext st (error_ false DIRECTIVE_NAME st)) by (apply ext_error; exact S).
      split; [assumption|]. apply ext_sane with (st := st); assumption. }
    subst h. destruct s as [|t s]; [apply Q|]. destruct t; try apply Q.
    set (st1 := match find_macro n (p_macros st) with Some _ => st | None => _ end).
    assert (C : core st1 = core st) by (subst st1; destruct (find_macro n (p_macros st)); reflexivity).
    destruct (ext_any st st1 C S) as [E1 S1].
    destruct (parse_args s) as [params s2]. eexists _, _, _, _. split; [reflexivity|].
    assert (E2 : ext st (match params with Some _ => st1 | None => error_ false ARGS_HEADER st1 end)).
    { destruct params; [exact E1|]. apply ext_trans with (b := st1); [exact E1|apply ext_error; exact S1]. }
    split; [exact E2|apply ext_sane with (st := st); assumption]. }
  destruct H as (name & params & s1 & st1 & -> & E1 & S1). cbv beta iota zeta.
  set (names := match params with Some ps => ps | None => [] end).
  set (out := match params with Some _ => Some [] | None => None end).
  apply run_after with (st1 := st1); [exact E1|].
  destruct (skip_block (skip_fuel (skip_dir s1)) names KMacro (skip_dir s1) (set_out out st1)) as [[[k s2] st2]|] eqn:B;
    [|cbn; apply stops_refl; exact S1].
  assert (E2 : ext st1 st2).
  { assert (D : skips (set_out out st1) \/ (p_mac st1 = false /\ exists o, out = Some o)).
    { unfold skips. cbn. destruct (p_mac st1); [left; left; reflexivity|]. destruct out as [o|]; [|left; right; reflexivity].
      right. split; [reflexivity|exists o; reflexivity]. }
    destruct D as [D|[D [o O]]].
    - apply (proj1 (skip_run _)) with (sv := p_err st1) in B; [|exact S1|exact D|reflexivity].
      destruct B as [B _]. apply (sext_ext (set_out out st1)) in B. eapply ext_core_l; [|exact B]. reflexivity.
    - unfold skip_fuel in B. replace (4 * length (skip_dir s1) + 6)%nat with (Datatypes.S (4 * length (skip_dir s1) + 5)) in B by lia.
      cbn [skip_block] in B. cbn [p_mac set_out p_out] in B. rewrite D, O in B. cbn [negb andb] in B.
      apply (proj1 (proj2 (skip_run _))) with (sv' := p_err st1) in B; [|exact S1|left; reflexivity|reflexivity|discriminate].
      destruct B as (st3 & [u X] & C & _). cbn [unroot] in C.
      apply ext_core with (b := set_mac false st3); [symmetry; exact C|]. exists u. destruct X. constructor; try assumption.
      + rewrite s_opened. exact s_seen.
      + cbn. symmetry. exact D.
      + intros Y. apply s_keep_mac; [reflexivity|exact Y].
      + cbn in *. tauto. }
  assert (S2 : sane st2) by (apply ext_sane with (st := st1); assumption).
  set (st3 := match k with Some KEndm => st2 | _ => error_ false DIRECTIVE_UNTERMINATED st2 end).
  assert (E3 : ext st1 st3).
  { apply ext_trans with (b := st2); [exact E2|]. subst st3. destruct k as [k|]; [destruct k|]; try (apply ext_error; exact S2); apply ext_refl; exact S2. }
  cbn. eapply ext_core; [|exact E3].
  destruct name; [|reflexivity]. destruct (p_out st3); reflexivity.
Qed.
Lemma eval_ok s st : sane st -> run_ok st snd2 (parse_eval R s st).
Proof.
  intros S. unfold parse_eval. apply run_bind with (g := snd3); [exact S|apply expression_ok; exact S|].
  intros [[v s1] st1] S1. cbn. apply ext_same; [apply core_print|exact S1].
Qed.
Lemma line_ok s st : sane st -> run_ok st snd2 (line_step files R s st).
Proof.
  intros S. unfold line_step. destruct (parse_directive s) as [kd s1]. destruct kd as [k| |].
  - destruct k; try (apply (g_text _ G); exact S).
    + apply include_ok. exact S.
    + cbn. apply ext_refl. exact S.
    + apply define_ok. exact S.
    + apply define_ok. exact S.
    + cbn. apply undef_ok. exact S.
    + apply eval_ok. exact S.
  - set (st1 := print TBad (error_ false DIRECTIVE_INVALID st)).
    assert (E : ext st st1) by (eapply ext_core; [symmetry; apply core_print|apply ext_error; exact S]).
    apply run_after with (st1 := st1); [exact E|]. apply (g_text _ G). apply ext_sane with (st := st); assumption.
  - apply (g_text _ G). exact S.
Qed.
Lemma block_ok b s st : sane st -> run_ok st snd3 (block_step files R b s st).
Proof.
  intros S. unfold block_step. destruct s as [|t s]; [cbn; apply ext_refl; exact S|].
  destruct (parse_directive (t :: s)) as [kd s1].
  assert (Go : forall r, run_ok st snd2 r -> run_ok st snd3 (run ' (s, st) <- r; f_block R b s st)).
  { intros r H. apply run_bind with (g := snd2); [exact S|exact H|]. intros [s2 st2] S2. apply (g_block _ G). exact S2. }
  assert (NX : forall k, run_ok st snd3 (if parse_next b k then Ok (Some k, s1, st)
     else run ' (s, st) <- Ok (skip_dir s1, error_ false (next_error b k) st); f_block R b s st)).
  { intros k. destruct (parse_next b k); [cbn; apply ext_refl; exact S|]. apply Go. cbn. apply ext_error. exact S. }
  destruct kd as [k| |]; try (apply Go; apply line_ok; exact S).
  destruct k; try apply NX; apply Go; try (apply line_ok; exact S); try (apply ifdef_ok; exact S).
  - apply macro_ok. exact S.
  - apply if_ok. exact S.
  - apply while_ok_ext. exact S.
Qed.
Lemma good_step : good (step R).
Proof.
  constructor; cbn [f_block f_text f_args f_expr f_elif f_while MacroModel.step]; intros;
    [apply block_ok|apply text_ok|apply args_ok|apply expr_ok|apply elif_ok|apply while_step_ok]; assumption.
Qed.
End Step.
Unset Default Proof Using.
Lemma good_lvl n : good (lvl n).
Proof.
  induction n as [|n IH]; [|apply good_step; exact IH].
  constructor; cbn; intros; try (apply stops_refl; assumption).
  exists []. destruct H as [H1 H2]. constructor; [rewrite app_nil_r; reflexivity|apply part_nil; assumption|intros; reflexivity].
Qed.
End Oracles.

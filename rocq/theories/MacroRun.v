(** What every run of the preprocessor keeps: the depths, the rounds of loops,
    the files read, the mark of errors. *)
From Verif Require Import Prelude MacroModel MacroSpec MacroSkip MacroProofs.
Local Open Scope Z_scope.

Lemma sum_app w a b : sum w (a ++ b) = sum w a + sum w b.
Proof. induction a as [|x a IH]; [reflexivity|]. cbn [app]. change (w x + sum w (a ++ b) = w x + sum w a + sum w b). rewrite IH. lia. Qed.
Lemma opened_app a b : opened (a ++ b) = opened a ++ opened b.
Proof. unfold opened. apply flat_map_app. Qed.
Lemma app_split {A} (u1 u2 a b : list A) : u1 ++ u2 = a ++ b ->
  (exists c, u1 = a ++ c) \/ (exists c, a = u1 ++ c /\ u2 = c ++ b).
Proof.
  revert a. induction u1 as [|x u1 IH]; intros a H.
  - right. exists a. split; [reflexivity|exact H].
  - destruct a as [|y a].
    + left. exists (x :: u1). reflexivity.
    + cbn in H. injection H as -> H. destruct (IH a H) as [[c ->]|[c [-> ->]]].
      * left. exists c. reflexivity.
      * right. exists c. split; reflexivity.
Qed.

(** The events of a run from a state with depths [c] and [i] and files [seen]:
    so far ... *)
Record part (c i : Z) (seen : list Z) (u : list event) : Prop := mkPart {
  pt_depth : forall a b, u = a ++ b -> c + calls a <= 257 /\ i + inclusions a <= 32;
  pt_src : Forall (fun e => match e with ESource _ | ELost _ => False | _ => True end) u;
  pt_once : NoDup (opened u) /\ forall f, In f (opened u) -> ~ In f seen }.
(** ... and when it is over. *)
Record piece (c i : Z) (seen : list Z) (u : list event) : Prop := mkPiece {
  pc_part : part c i seen u;
  pc_calls : calls u = 0;
  pc_incl : inclusions u = 0 }.

Lemma part_nil c i seen : c <= 257 -> i <= 32 -> part c i seen [].
Proof.
  intros H G. constructor.
  - intros a b E. destruct a; [|discriminate]. cbn. lia.
  - constructor.
  - split; [constructor|intros f []].
Qed.
Lemma part_app c i seen u v c' i' seen' :
  part c i seen u -> c' = c + calls u -> i' = i + inclusions u -> seen' = rev (opened u) ++ seen ->
  part c' i' seen' v -> part c i seen (u ++ v).
Proof.
  intros [D1 F1 [N1 S1]] -> -> -> [D2 F2 [N2 S2]]. constructor.
  - intros a b E. destruct (app_split _ _ _ _ E) as [[x ->]|[x [-> ->]]].
    + apply (D1 a x). reflexivity.
    + unfold calls, inclusions in *. rewrite !sum_app. specialize (D2 x b eq_refl). lia.
  - apply Forall_app. split; assumption.
  - rewrite opened_app. split.
    + clear -N1 N2 S2. induction (opened u) as [|x l IH]; [exact N2|].
      inversion N1; subst. cbn. constructor.
      * intros X. apply in_app_or in X as [X|X]; [contradiction|]. apply (S2 x X). apply in_or_app. left.
        apply -> in_rev. left. reflexivity.
      * apply IH; [assumption|]. intros f X Y. apply (S2 f X). cbn. apply in_app_or in Y as [Y|Y]; apply in_or_app.
        -- left. apply in_or_app. left. exact Y.
        -- right. exact Y.
    + intros f X. apply in_app_or in X as [X|X]; [apply S1; exact X|].
      intros Y. apply (S2 f X). apply in_or_app. right. exact Y.
Qed.
Lemma part_one c i seen e : c <= 257 -> i <= 32 -> c + calls [e] <= 257 -> i + inclusions [e] <= 32 ->
  match e with ESource _ | ELost _ => False | _ => True end -> (forall f, e = EOpen f -> ~ In f seen) -> part c i seen [e].
Proof.
  intros H G H1 G1 Q S. constructor.
  - intros a b E. destruct a as [|x a]; [cbn; lia|]. injection E as <- E. destruct a; [|discriminate]. lia.
  - constructor; [exact Q|constructor].
  - split.
    + destruct e; cbn; repeat constructor. intros [].
    + intros f X. destruct e; cbn in X; try contradiction. destruct X as [->|[]]. apply S. reflexivity.
Qed.

(** The rounds of loops: a run leaves the loops as they were. *)
Definition even (u : list event) : Prop :=
  forall loops t, rounds_ok 32769 loops (u ++ t) = rounds_ok 32769 loops t.
Definition open_ (u : list event) : Prop := forall loops, rounds_ok 32769 loops u = true.
Lemma even_nil : even []. Proof. intros loops t. reflexivity. Qed.
Lemma even_app u v : even u -> even v -> even (u ++ v).
Proof. intros H G loops t. rewrite <- app_assoc, H, G. reflexivity. Qed.
Lemma even_open u v : even u -> open_ v -> open_ (u ++ v).
Proof. intros H G loops. rewrite H. apply G. Qed.
Lemma open_even u : even u -> open_ u.
Proof. intros H loops. rewrite <- (app_nil_r u), H. reflexivity. Qed.
Definition no_loop (e : event) : Prop := match e with ELoop | EBody | EDone => False | _ => True end.
Lemma even_one e : no_loop e -> even [e].
Proof. intros H loops t. destruct e; try contradiction; reflexivity. Qed.
Lemma even_cons e u : no_loop e -> even u -> even (e :: u).
Proof. intros H G. apply (even_app [e] u); [apply even_one; exact H|exact G]. Qed.

(** ** States *)
Definition bad (u : list event) : Prop := exists m e, In (EErr m e) u.
Definition told (u : list event) : Prop := exists e, In (EErr false e) u.
Lemma bad_app u v : bad (u ++ v) <-> bad u \/ bad v.
Proof.
  split.
  - intros (m & e & H). apply in_app_or in H as [H|H]; [left|right]; exists m, e; exact H.
  - intros [(m & e & H)|(m & e & H)]; exists m, e; apply in_or_app; [left|right]; exact H.
Qed.
Lemma told_app u v : told (u ++ v) <-> told u \/ told v.
Proof.
  split.
  - intros (e & H). apply in_app_or in H as [H|H]; [left|right]; exists e; exact H.
  - intros [(e & H)|(e & H)]; exists e; apply in_or_app; [left|right]; exact H.
Qed.

Record ext_by (st st' : pst) (u : list event) : Prop := mkExt {
  e_trace : p_trace st' = p_trace st ++ u;
  e_seen : p_seen st' = rev (opened u) ++ p_seen st;
  e_call : p_call st' = p_call st; e_incl : p_incl st' = p_incl st;
  e_quiet : p_quiet st' = p_quiet st; e_mac : p_mac st' = p_mac st;
  e_piece : piece (p_call st) (p_incl st) (p_seen st) u;
  e_even : even u;
  e_keep : p_err st = true -> p_err st' = true;
  e_told : told u -> p_err st' = true;
  e_why : p_err st' = true -> p_err st = true \/ bad u }.
Definition ext (st st' : pst) : Prop := exists u, ext_by st st' u.
Record stops_by (st st' : pst) (u : list event) : Prop := mkStop {
  o_trace : p_trace st' = p_trace st ++ u;
  o_part : part (p_call st) (p_incl st) (p_seen st) u;
  o_open : open_ u }.
Definition stops (st st' : pst) : Prop := exists u, stops_by st st' u.
Definition sane (st : pst) : Prop := p_call st <= 257 /\ p_incl st <= 32.

Lemma ext_sane st st' : ext st st' -> sane st -> sane st'.
Proof. intros [u E] [H G]. split; [rewrite (e_call _ _ _ E)|rewrite (e_incl _ _ _ E)]; assumption. Qed.
Lemma ext_refl st : sane st -> ext st st.
Proof.
  intros [H G]. exists []. constructor; try reflexivity; try apply even_nil.
  - rewrite app_nil_r. reflexivity.
  - constructor; [apply part_nil; assumption|reflexivity|reflexivity].
  - exact (fun X => X).
  - intros [e []].
  - intros X. left. exact X.
Qed.
Lemma ext_trans a b c : ext a b -> ext b c -> ext a c.
Proof.
  intros [u E] [v F]. exists (u ++ v).
  pose proof (e_piece _ _ _ E) as [P1 P2 P3]. pose proof (e_piece _ _ _ F) as [Q1 Q2 Q3].
  constructor.
  - rewrite (e_trace _ _ _ F), (e_trace _ _ _ E), app_assoc. reflexivity.
  - rewrite (e_seen _ _ _ F), (e_seen _ _ _ E), opened_app, rev_app_distr, app_assoc. reflexivity.
  - rewrite (e_call _ _ _ F). apply (e_call _ _ _ E).
  - rewrite (e_incl _ _ _ F). apply (e_incl _ _ _ E).
  - rewrite (e_quiet _ _ _ F). apply (e_quiet _ _ _ E).
  - rewrite (e_mac _ _ _ F). apply (e_mac _ _ _ E).
  - constructor.
    + eapply part_app; [exact P1|reflexivity|reflexivity|reflexivity|].
      rewrite P2, P3, !Z.add_0_r. rewrite <- (e_call _ _ _ E), <- (e_incl _ _ _ E), <- (e_seen _ _ _ E). exact Q1.
    + unfold calls in *. rewrite sum_app. lia.
    + unfold inclusions in *. rewrite sum_app. lia.
  - apply even_app; [apply (e_even _ _ _ E)|apply (e_even _ _ _ F)].
  - intros X. apply (e_keep _ _ _ F), (e_keep _ _ _ E), X.
  - rewrite told_app. intros [X|X].
    + apply (e_keep _ _ _ F), (e_told _ _ _ E), X.
    + apply (e_told _ _ _ F), X.
  - rewrite bad_app. intros X. apply (e_why _ _ _ F) in X as [X|X]; [|tauto].
    apply (e_why _ _ _ E) in X as [X|X]; tauto.
Qed.
Lemma ext_stops a b c : ext a b -> stops b c -> stops a c.
Proof.
  intros [u E] [v F]. exists (u ++ v). pose proof (e_piece _ _ _ E) as [P1 P2 P3]. constructor.
  - rewrite (o_trace _ _ _ F), (e_trace _ _ _ E), app_assoc. reflexivity.
  - eapply part_app; [exact P1|reflexivity|reflexivity|reflexivity|].
    rewrite P2, P3, !Z.add_0_r. rewrite <- (e_call _ _ _ E), <- (e_incl _ _ _ E), <- (e_seen _ _ _ E). apply (o_part _ _ _ F).
  - apply even_open; [apply (e_even _ _ _ E)|apply (o_open _ _ _ F)].
Qed.
Lemma stops_refl st : sane st -> stops st st.
Proof.
  intros [H G]. exists []. constructor; [rewrite app_nil_r; reflexivity|apply part_nil; assumption|intros loops; reflexivity].
Qed.
Lemma ext_is_stops st st' : ext st st' -> stops st st'.
Proof.
  intros [u E]. exists u. constructor; [apply (e_trace _ _ _ E)|apply (pc_part _ _ _ _ (e_piece _ _ _ E))|].
  apply open_even. apply (e_even _ _ _ E).
Qed.
Lemma ext_error m e st : sane st -> ext st (error_ m e st).
Proof.
  intros S. unfold error_. destruct (p_quiet st && p_err st) eqn:Q; [apply ext_refl; exact S|].
  destruct S as [H G]. exists [EErr m e]. constructor; try reflexivity.
  - constructor; [|reflexivity|reflexivity]. apply part_one; try assumption; try (cbn; lia). discriminate.
  - apply even_one. exact Logic.I.
  - intros _. right. exists m, e. left. reflexivity.
Qed.
Lemma error_sets m e st : p_err (error_ m e st) = true.
Proof. unfold error_. destruct (p_quiet st && p_err st) eqn:Q; [apply andb_prop in Q as [_ Q]; exact Q|reflexivity]. Qed.

(** The same up to what is not looked at. *)
Definition core (st : pst) := (p_seen st, p_call st, p_incl st, p_quiet st, p_mac st, p_err st, p_trace st).
Lemma ext_core a b b' : core b = core b' -> ext a b -> ext a b'.
Proof.
  unfold core. intros H [u E]. injection H as H1 H2 H3 H4 H5 H6 H7. exists u. destruct E.
  constructor; first [assumption | rewrite <- H6; assumption | congruence].
Qed.
Lemma ext_core_l a a' b : core a = core a' -> ext a b -> ext a' b.
Proof.
  unfold core. intros H [u E]. injection H as H1 H2 H3 H4 H5 H6 H7. exists u. destruct E.
  constructor; first [assumption | rewrite <- H6; assumption | rewrite <- H1, <- H2, <- H3; assumption | congruence].
Qed.
Lemma stops_core_l a a' b : core a = core a' -> stops a b -> stops a' b.
Proof.
  unfold core. intros H [u E]. injection H as H1 H2 H3 H4 H5 H6 H7. exists u. destruct E.
  constructor; congruence.
Qed.
Lemma sane_core a a' : core a = core a' -> sane a -> sane a'.
Proof. unfold core. intros H [X Y]. injection H as H1 H2 H3 H4 H5 H6 H7. split; congruence. Qed.
Lemma core_print t st : core (print t st) = core st.
Proof. unfold print. destruct (p_out st); reflexivity. Qed.
Lemma core_print_all l st : core (print_all l st) = core st.
Proof. unfold print_all. destruct (p_out st); reflexivity. Qed.

(** ** Skipping *)
(** While a branch is skipped the mark of errors may be put back to [sv]. *)
Record sext_by (sv : bool) (st st' : pst) (u : list event) : Prop := mkSext {
  s_trace : p_trace st' = p_trace st ++ u;
  s_seen : p_seen st' = p_seen st; s_opened : opened u = [];
  s_call : p_call st' = p_call st; s_incl : p_incl st' = p_incl st;
  s_quiet : p_quiet st' = p_quiet st; s_mac : p_mac st' = p_mac st;
  s_piece : piece (p_call st) (p_incl st) (p_seen st) u;
  s_even : even u;
  s_keep : p_err st = true -> sv = true -> p_err st' = true;
  s_keep_mac : p_mac st = true -> p_err st = true -> p_err st' = true;
  s_told : told u -> p_err st' = true;
  s_plain : p_mac st = false -> ~ told u;
  s_why : p_err st' = true -> p_err st = true \/ sv = true \/ bad u }.
Definition sext sv st st' := exists u, sext_by sv st st' u.
Lemma sext_refl sv st : sane st -> sext sv st st.
Proof.
  intros [H G]. exists []. constructor; try reflexivity; try apply even_nil; try tauto.
  - rewrite app_nil_r. reflexivity.
  - constructor; [apply part_nil; assumption|reflexivity|reflexivity].
  - intros [e []].
  - intros _ [e []].
Qed.
Lemma sext_trans sv a b c : sext sv a b -> sext sv b c -> sext sv a c.
Proof.
  intros [u E] [v F]. exists (u ++ v).
  pose proof (s_piece _ _ _ _ E) as [P1 P2 P3]. pose proof (s_piece _ _ _ _ F) as [Q1 Q2 Q3].
  assert (O : opened (u ++ v) = []) by (rewrite opened_app, (s_opened _ _ _ _ E), (s_opened _ _ _ _ F); reflexivity).
  constructor.
  - rewrite (s_trace _ _ _ _ F), (s_trace _ _ _ _ E), app_assoc. reflexivity.
  - rewrite (s_seen _ _ _ _ F). apply (s_seen _ _ _ _ E).
  - exact O.
  - rewrite (s_call _ _ _ _ F). apply (s_call _ _ _ _ E).
  - rewrite (s_incl _ _ _ _ F). apply (s_incl _ _ _ _ E).
  - rewrite (s_quiet _ _ _ _ F). apply (s_quiet _ _ _ _ E).
  - rewrite (s_mac _ _ _ _ F). apply (s_mac _ _ _ _ E).
  - constructor.
    + eapply part_app; [exact P1|reflexivity|reflexivity|reflexivity|].
      rewrite P2, P3, !Z.add_0_r, (s_opened _ _ _ _ E). cbn.
      rewrite <- (s_call _ _ _ _ E), <- (s_incl _ _ _ _ E), <- (s_seen _ _ _ _ E). exact Q1.
    + unfold calls in *. rewrite sum_app. lia.
    + unfold inclusions in *. rewrite sum_app. lia.
  - apply even_app; [apply (s_even _ _ _ _ E)|apply (s_even _ _ _ _ F)].
  - intros X Y. apply (s_keep _ _ _ _ F); [|exact Y]. apply (s_keep _ _ _ _ E); assumption.
  - intros X Y. apply (s_keep_mac _ _ _ _ F); [rewrite (s_mac _ _ _ _ E); exact X|]. apply (s_keep_mac _ _ _ _ E); assumption.
  - rewrite told_app. intros [X|X]; [|apply (s_told _ _ _ _ F), X].
    destruct (p_mac a) eqn:M.
    + apply (s_keep_mac _ _ _ _ F); [rewrite (s_mac _ _ _ _ E); exact M|]. apply (s_told _ _ _ _ E), X.
    + exfalso. exact (s_plain _ _ _ _ E M X).
  - intros X. rewrite told_app. intros [Y|Y]; [exact (s_plain _ _ _ _ E X Y)|].
    apply (s_plain _ _ _ _ F); [rewrite (s_mac _ _ _ _ E); exact X|exact Y].
  - rewrite bad_app. intros X. apply (s_why _ _ _ _ F) in X as [X|[X|X]]; [|tauto|tauto].
    apply (s_why _ _ _ _ E) in X as [X|[X|X]]; tauto.
Qed.
Lemma sext_core sv a b b' : core b = core b' -> sext sv a b -> sext sv a b'.
Proof.
  unfold core. intros H [u E]. injection H as H1 H2 H3 H4 H5 H6 H7. exists u. destruct E.
  constructor; first [assumption | rewrite <- H6; assumption | congruence].
Qed.
Lemma sext_sane sv st st' : sext sv st st' -> sane st -> sane st'.
Proof. intros [u E] [H G]. split; [rewrite (s_call _ _ _ _ E)|rewrite (s_incl _ _ _ _ E)]; assumption. Qed.
Lemma sext_error sv m e st : sane st -> (p_mac st = false -> m = true) -> sext sv st (error_ m e st).
Proof.
  intros S M. unfold error_. destruct (p_quiet st && p_err st) eqn:Q; [apply sext_refl; exact S|].
  destruct S as [H G]. exists [EErr m e]. constructor; try reflexivity; try apply even_nil; try tauto.
  - constructor; [|reflexivity|reflexivity]. apply part_one; try assumption; try (cbn; lia). discriminate.
  - intros X [y [Y|[]]]. specialize (M X). congruence.
  - intros _. right. right. exists m, e. left. reflexivity.
Qed.
Lemma sext_error_ sv e st : sane st -> sext sv st (error_ (negb (p_mac st)) e st).
Proof. intros S. apply sext_error; [exact S|]. intros ->. reflexivity. Qed.
Lemma sext_restore sv st : sane st -> p_mac st = false -> sext sv st (set_err sv st).
Proof.
  intros [H G] M. exists []. constructor; try reflexivity; try apply even_nil; try tauto.
  - cbn. rewrite app_nil_r. reflexivity.
  - constructor; [apply part_nil; assumption|reflexivity|reflexivity].
  - cbn. congruence.
  - intros [e []].
  - intros _ [e []].
Qed.
Lemma skip_macro_ext params kd s st sv s' eof st' :
  sane st -> p_mac st = true -> skip_macro params kd s st = (s', eof, st') -> sext sv st st'.
Proof.
  intros S M. unfold skip_macro. destruct (skip_directive s) as [s1 e1].
  assert (E : forall m e st1, core st1 = core st -> sext sv st (error_ m e st1)).
  { intros m e st1 C. apply sext_trans with (b := st1).
    - apply sext_core with (b := st); [symmetry; exact C|]. apply sext_refl. exact S.
    - apply sext_error; [apply sane_core with (a := st); [symmetry; exact C|exact S]|].
      intros X. unfold core in C. congruence. }
  assert (N : forall st1, core st1 = core st -> sext sv st st1).
  { intros st1 C. apply sext_core with (b := st); [symmetry; exact C|]. apply sext_refl. exact S. }
  assert (G : forall st0, core st0 = core st ->
    (if wants_expression kd && at_end s then (s1, e1, error_ false DIRECTIVE_NO_EXPRESSION (set_out None st0))
      else if wants_name kd && negb (name_next s) then (s1, e1, set_out None (error_ false DIRECTIVE_NAME st0))
      else match copy_line params kd s with
        | Some l => (s1, e1, print_all l st0)
        | None => (s1, e1, error_ false HASH_STRAY (set_out None st0))
        end) = (s', eof, st') -> sext sv st st').
  { intros st0 C. destruct (wants_expression kd && at_end s); [intros X; injection X as <- <- <-; apply E; exact C|].
    destruct (wants_name kd && negb (name_next s)).
    - intros X; injection X as <- <- <-. eapply sext_core; [|apply (E false DIRECTIVE_NAME st0); exact C]. reflexivity.
    - destruct (copy_line params kd s); intros X; injection X as <- <- <-; [|apply E; exact C].
      apply N. rewrite core_print_all. exact C. }
  destruct kd as [k| |].
  - destruct k; try (apply G; apply core_print); intros X; injection X as <- <- <-.
    + apply E. reflexivity.
    + apply N. reflexivity.
  - intros X; injection X as <- <- <-. apply N. reflexivity.
  - apply G. reflexivity.
Qed.
(** Changing between the two readings. *)
Lemma sext_ext st st' : sext (p_err st) st st' -> ext st st'.
Proof.
  intros [u E]. exists u. destruct E. constructor; try assumption.
  - rewrite s_opened0. exact s_seen0.
  - intros X. apply s_keep0; exact X.
  - tauto.
Qed.
Lemma ext_sext sv st st' u : ext_by st st' u -> opened u = [] -> (p_mac st = false -> ~ told u) -> sext sv st st'.
Proof.
  intros E O P. exists u. destruct E. constructor; try assumption; try tauto.
  - rewrite O in e_seen0. exact e_seen0.
Qed.

(** No output stays no output. *)
Lemma print_none t st : p_out st = None -> p_out (print t st) = None.
Proof. unfold print. intros H. rewrite H. exact H. Qed.
Lemma error_out m e st : p_out (error_ m e st) = p_out st.
Proof. unfold error_. destruct (p_quiet st && p_err st); reflexivity. Qed.
Lemma skip_macro_out params kd s st s' eof st' : p_out st = None -> skip_macro params kd s st = (s', eof, st') -> p_out st' = None.
Proof.
  intros N. unfold skip_macro. destruct (skip_directive s) as [s1 e1].
  assert (G : forall st0, p_out st0 = None ->
    (if wants_expression kd && at_end s then (s1, e1, error_ false DIRECTIVE_NO_EXPRESSION (set_out None st0))
      else if wants_name kd && negb (name_next s) then (s1, e1, set_out None (error_ false DIRECTIVE_NAME st0))
      else match copy_line params kd s with
        | Some l => (s1, e1, print_all l st0)
        | None => (s1, e1, error_ false HASH_STRAY (set_out None st0))
        end) = (s', eof, st') -> p_out st' = None).
  { intros st0 C. repeat match goal with |- context [if ?c then _ else _] => destruct c end; [| |destruct (copy_line params kd s)];
      intros X; injection X as <- <- <-; rewrite ?error_out; try reflexivity.
    unfold print_all. rewrite C. exact C. }
  destruct kd as [k| |].
  - destruct k; try (apply G; apply print_none; exact N); intros X; injection X as <- <- <-; rewrite ?error_out; try reflexivity; exact N.
  - intros X; injection X as <- <- <-. reflexivity.
  - apply G. exact N.
Qed.
Lemma skip_out n :
  (forall params b s st k s' st', p_out st = None -> skip_block n params b s st = Some (k, s', st') -> p_out st' = None)
  /\ (forall params b sv ro fi s st k s' st', p_out st = None ->
      skip_loop n params b sv ro fi s st = Some (k, s', st') -> p_out st' = None)
  /\ (forall params ba kd s st s' eof st', p_out st = None -> skip_inner n params ba kd s st = Some (s', eof, st') -> p_out st' = None).
Proof.
  induction n as [|n [IHb [IHl IHi]]]; [repeat split; intros; discriminate|].
  assert (U : forall ro st, p_out (unroot ro st) = p_out st) by (intros [] st; reflexivity).
  split; [|split].
  - intros params b s st k s' st' N H. cbn [skip_block] in H. apply IHl in H; [exact H|].
    match goal with |- p_out (if ?c then _ else _) = _ => destruct c end; exact N.
  - intros params b sv ro fi s st k s' st' N H. cbn [skip_loop] in H.
    destruct (parse_directive s) as [kd s1].
    set (st1 := if p_mac st then _ else _) in *.
    assert (N1 : p_out st1 = None).
    { subst st1. destruct (p_mac st); [|exact N]. destruct kd; try exact N. rewrite error_out. exact N. }
    clearbody st1.
    assert (O : match skip_inner n params (ro && fi) kd s1 st1 with
        | None => None
        | Some (s2, eof, st0) =>
            if eof then Some (None, s2, unroot ro (set_out None st0))
            else skip_loop n params b sv ro false s2 st0
        end = Some (k, s', st') -> p_out st' = None).
    { destruct (skip_inner n params (ro && fi) kd s1 st1) as [[[s2 eof] st2]|] eqn:E; [|discriminate].
      apply IHi in E; [|exact N1]. destruct eof; intros G; [injection G as <- <- <-; rewrite U; reflexivity|].
      apply IHl in G; [exact G|exact E]. }
    destruct kd as [k0| |]; try (apply O; exact H).
    destruct (closes k0); [|apply O; exact H].
    destruct (parse_next (Some b) k0).
    + injection H as <- <- <-. rewrite U. exact N1.
    + destruct (skip_directive s1) as [s2 eof]. destruct eof.
      * injection H as <- <- <-. rewrite U. reflexivity.
      * apply IHl in H; [exact H|reflexivity].
  - intros params ba kd s st s' eof st' N H. cbn [skip_inner] in H.
    set (st1 := if ba then st else _) in *.
    assert (N1 : p_out st1 = None) by (subst st1; destruct ba; [exact N|apply print_none; exact N]). clearbody st1.
    destruct (if p_mac st1 then skip_macro params kd s st1 else (skip_directive s, st1)) as [[s1 eof1] st2] eqn:E.
    assert (N2 : p_out st2 = None).
    { destruct (p_mac st1); [apply skip_macro_out in E; [exact E|exact N1]|]. injection E as _ <-. exact N1. }
    destruct kd as [k| |]; try (injection H as <- <- <-; exact N2).
    destruct (opens k); [|injection H as <- <- <-; exact N2].
    destruct (skip_block n params k s1 st2) as [[[k' s2] st3]|] eqn:B; [|discriminate].
    apply IHb in B; [|exact N2]. destruct k'.
    + apply IHi in H; [exact H|exact B].
    + injection H as <- <- <-. rewrite error_out. exact B.
Qed.

Definition skips (st : pst) : Prop := p_mac st = true \/ p_out st = None.
Lemma skip_run n :
  (forall params b s st k s' st' sv, sane st -> skips st -> (p_mac st = false -> p_err st = sv) ->
     skip_block n params b s st = Some (k, s', st') ->
     sext sv st st' /\ (k <> None -> p_mac st = false -> p_err st' = sv))
  /\ (forall params b sv ro fi s st k s' st' sv', sane st -> skips st -> (ro = true -> p_mac st = true) ->
     (p_mac st = false -> sv = sv') ->
     skip_loop n params b sv ro fi s st = Some (k, s', st') ->
     exists st1, sext sv' st st1 /\ core st' = core (unroot ro st1)
       /\ (k <> None -> p_mac st = false -> p_err st1 = sv'))
  /\ (forall params ba kd s st s' eof st' sv, sane st -> skips st -> (p_mac st = false -> p_err st = sv) ->
     skip_inner n params ba kd s st = Some (s', eof, st') -> sext sv st st').
Proof.
  induction n as [|n [IHb [IHl IHi]]]; [repeat split; intros; discriminate|].
  split; [|split].
  - intros params b s st k s' st' sv S K V H. cbn [skip_block] in H.
    match type of H with context [skip_loop n params b _ ?r _ _ _] => set (root := r) in *; assert (R : root = false) end.
    { subst root. destruct b; try reflexivity. destruct K as [K|K]; rewrite K; [reflexivity|]. apply andb_false_r. }
    rewrite R in H. apply IHl with (sv' := sv) in H; [|exact S|exact K|discriminate|exact V].
    destruct H as (st1 & H1 & H2 & H3). cbn [unroot] in H2. split.
    + apply sext_core with (b := st1); [symmetry; exact H2|exact H1].
    + intros X Y. assert (E : p_err st' = p_err st1) by (unfold core in H2; congruence). rewrite E. apply H3; assumption.
  - intros params b sv ro fi s st k s' st' sv' S K R V H. cbn [skip_loop] in H.
    destruct (parse_directive s) as [kd s1].
    set (st1 := if p_mac st then _ else _) in *.
    assert (S1 : sext sv' st st1).
    { subst st1. destruct (p_mac st) eqn:M.
      - destruct kd; try (apply sext_refl; exact S). apply sext_error; [exact S|congruence].
      - rewrite (V eq_refl). apply sext_restore; assumption. }
    assert (M1 : p_mac st1 = p_mac st) by (destruct S1 as [u X]; apply (s_mac _ _ _ _ X)).
    assert (K1 : skips st1).
    { destruct K as [K|K]; [left; congruence|]. unfold skips. rewrite M1.
      destruct (p_mac st) eqn:M; [left; reflexivity|]. right. subst st1. exact K. }
    assert (V1 : p_mac st = false -> p_err st1 = sv').
    { intros X. subst st1. rewrite X. cbn. apply V. exact X. }
    assert (U : forall a b, core a = core b -> core (unroot ro a) = core (unroot ro b)).
    { unfold core. intros x y X. injection X as X1 X2 X3 X4 X5 X6 X7. destruct ro; cbn; congruence. }
    clearbody st1.
    assert (O : match skip_inner n params (ro && fi) kd s1 st1 with
        | None => None
        | Some (s2, eof, st0) =>
            if eof then Some (None, s2, unroot ro (set_out None st0))
            else skip_loop n params b sv ro false s2 st0
        end = Some (k, s', st') ->
        exists st2, sext sv' st st2 /\ core st' = core (unroot ro st2) /\ (k <> None -> p_mac st = false -> p_err st2 = sv')).
    { destruct (skip_inner n params (ro && fi) kd s1 st1) as [[[s2 eof] st2]|] eqn:E; [|discriminate].
      assert (N2 : p_out st1 = None -> p_out st2 = None) by (intros X; apply (proj2 (proj2 (skip_out n))) in E; assumption).
      apply IHi with (sv := sv') in E; [|apply sext_sane with (sv := sv') (st := st); assumption|exact K1|rewrite M1; exact V1].
      assert (S2 : sext sv' st st2) by (apply sext_trans with (b := st1); assumption).
      assert (M2 : p_mac st2 = p_mac st) by (destruct S2 as [u X]; apply (s_mac _ _ _ _ X)).
      destruct eof; intros G.
      - injection G as <- <- <-. exists st2. split; [exact S2|]. split; [apply U; reflexivity|]. congruence.
      - apply IHl with (sv' := sv') in G.
        + destruct G as (st3 & G1 & G2 & G3). exists st3. split; [apply sext_trans with (b := st2); assumption|].
          split; [exact G2|]. rewrite M2 in G3. exact G3.
        + apply sext_sane with (sv := sv') (st := st); assumption.
        + destruct K1 as [K1|K1]; [left; congruence|right; apply N2; exact K1].
        + rewrite M2. exact R.
        + rewrite M2. exact V. }
    destruct kd as [k0| |]; try (apply O; exact H).
    destruct (closes k0); [|apply O; exact H].
    destruct (parse_next (Some b) k0).
    + injection H as <- <- <-. exists st1. split; [exact S1|]. split; [reflexivity|]. intros _ X. apply V1. exact X.
    + set (st2 := set_out None (error_ (negb (p_mac st1)) (next_error (Some b) k0) st1)) in *.
      assert (S2 : sext sv' st st2).
      { apply sext_trans with (b := st1); [exact S1|].
        eapply sext_core; [|apply sext_error_; apply sext_sane with (sv := sv') (st := st); assumption]. reflexivity. }
      assert (M2 : p_mac st2 = p_mac st) by (destruct S2 as [u X]; apply (s_mac _ _ _ _ X)).
      destruct (skip_directive s1) as [s2 eof]. destruct eof.
      * injection H as <- <- <-. exists st2. split; [exact S2|]. split; [reflexivity|]. congruence.
      * apply IHl with (sv' := sv') in H.
        -- destruct H as (st3 & G1 & G2 & G3). exists st3. split; [apply sext_trans with (b := st2); assumption|].
           split; [exact G2|]. rewrite M2 in G3. exact G3.
        -- apply sext_sane with (sv := sv') (st := st); assumption.
        -- right. reflexivity.
        -- rewrite M2. exact R.
        -- rewrite M2. exact V.
  - intros params ba kd s st s' eof st' sv S K V H. cbn [skip_inner] in H.
    set (st1 := if ba then st else _) in *.
    assert (C1 : core st1 = core st) by (subst st1; destruct ba; [reflexivity|apply core_print]).
    assert (K1 : skips st1).
    { destruct K as [K|K]; [left; unfold core in C1; congruence|]. right. subst st1. destruct ba; [exact K|apply print_none; exact K]. }
    assert (S1 : sext sv st st1) by (apply sext_core with (b := st); [symmetry; exact C1|apply sext_refl; exact S]).
    assert (M1 : p_mac st1 = p_mac st) by (unfold core in C1; congruence).
    assert (V1 : p_err st1 = p_err st) by (unfold core in C1; congruence).
    clearbody st1.
    destruct (if p_mac st1 then skip_macro params kd s st1 else (skip_directive s, st1)) as [[s1 eof1] st2] eqn:E.
    assert (S2 : sext sv st st2 /\ skips st2 /\ (p_mac st = false -> p_err st2 = sv)).
    { destruct (p_mac st1) eqn:M.
      - assert (X : sext sv st st2).
        { apply sext_trans with (b := st1); [exact S1|].
          apply (skip_macro_ext params kd s st1 sv s1 eof1 st2); [apply sext_sane with (sv := sv) (st := st); assumption|exact M|exact E]. }
        split; [exact X|]. split; [left; destruct X as [u X]; rewrite (s_mac _ _ _ _ X); congruence|congruence].
      - injection E as _ <-. split; [exact S1|]. split; [exact K1|]. rewrite V1. exact V. }
    destruct S2 as (S2 & K2 & V2).
    assert (M2 : p_mac st2 = p_mac st) by (destruct S2 as [u X]; apply (s_mac _ _ _ _ X)).
    destruct kd as [k| |]; try (injection H as <- <- <-; exact S2).
    destruct (opens k); [|injection H as <- <- <-; exact S2].
    destruct (skip_block n params k s1 st2) as [[[k' s2] st3]|] eqn:B; [|discriminate].
    assert (N3 : p_out st2 = None -> p_out st3 = None) by (intros X; apply (proj1 (skip_out n)) in B; assumption).
    apply IHb with (sv := sv) in B; [|apply sext_sane with (sv := sv) (st := st); assumption|exact K2|rewrite M2; exact V2].
    destruct B as [B1 B2].
    assert (S3 : sext sv st st3) by (apply sext_trans with (b := st2); assumption).
    assert (M3 : p_mac st3 = p_mac st) by (destruct S3 as [u X]; apply (s_mac _ _ _ _ X)).
    destruct k'.
    + apply IHi with (sv := sv) in H.
      * apply sext_trans with (b := st3); assumption.
      * apply sext_sane with (sv := sv) (st := st); assumption.
      * destruct K2 as [K2|K2]; [left; congruence|right; apply N3; exact K2].
      * rewrite M3. intros X. apply B2; [discriminate|congruence].
    + injection H as <- <- <-. apply sext_trans with (b := st3); [exact S3|].
      apply sext_error_. apply sext_sane with (sv := sv) (st := st); assumption.
Qed.

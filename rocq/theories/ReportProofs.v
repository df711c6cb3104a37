(** Proofs for C46. *)
From Verif Require Import Prelude UniioModel WsModel ReportSpec ReportModel.
From Coq Require String.
Import String.StringSyntax.
Local Open Scope string_scope.
Local Open Scope list_scope.
Local Open Scope Z_scope.

Section R.
Variable moved : input -> Z.
Definition silent (w : world) : bool := is_recovery_disabled (rprt w) && negb (errors (rprt w) =? 0).
Lemma say_step w s : 0 <= in_pos (io w) <= in_size (io w) ->
  say moved w s =
  if silent w && negb (is_system s) then w
  else mkWorld (mkRep (errors (rprt w) + (if is_error s then 1 else 0)) (warnings (rprt w) + (if is_warning s then 1 else 0)) (is_recovery_disabled (rprt w)))
         (io w) (log w ++ [placed (in_size (io w)) (in_pos (io w)) s]).
Proof.
  intros H. destruct w as [[er wa di] [data pos] lg]. unfold in_size in H. cbn in H. unfold silent. cbn [rprt errors warnings is_recovery_disabled io].
  destruct s as [p n|p n|n]; cbn [say is_error is_warning is_system negb].
  - unfold report_error. cbn [rprt errors is_recovery_disabled]. rewrite andb_true_r. destruct (di && negb (er =? 0)); [reflexivity|].
    unfold in_set_position, in_size, print. cbn [in_data in_pos io log rprt errors warnings is_recovery_disabled snd placed].
    destruct (p <=? zlen data); cbn [snd in_pos in_data]; replace (pos <=? zlen data) with true by lia; cbn [snd]; rewrite Z.add_0_r; reflexivity.
  - unfold report_warning. cbn [rprt errors is_recovery_disabled]. rewrite andb_true_r. destruct (di && negb (er =? 0)); [reflexivity|].
    unfold in_set_position, in_size, print. cbn [in_data in_pos io log rprt errors warnings is_recovery_disabled snd placed].
    destruct (p <=? zlen data); cbn [snd in_pos in_data]; replace (pos <=? zlen data) with true by lia; cbn [snd]; rewrite Z.add_0_r; reflexivity.
  - rewrite andb_false_r. unfold system_error. cbn. rewrite !Z.add_0_r. reflexivity.
Qed.
Lemma count_cons p s l : count p (s :: l) = (if p s then 1 else 0) + count p l.
Proof. unfold count. cbn [filter]. destruct (p s); [rewrite zlen_cons|]; lia. Qed.
Lemma count_nonneg p l : 0 <= count p l.
Proof. apply zlen_nonneg. Qed.
Lemma count_nil p : count p [] = 0.
Proof. reflexivity. Qed.
Lemma filter_system l : count is_error (filter is_system l) = 0 /\ count is_warning (filter is_system l) = 0.
Proof.
  induction l as [|s l [A B]]; cbn [filter]; [split; reflexivity|]. destruct s; cbn [is_system]; auto.
Qed.
Lemma says_steps l : forall w, 0 <= in_pos (io w) <= in_size (io w) -> 0 <= errors (rprt w) ->
  let sh := if silent w then filter is_system l else shown (is_recovery_disabled (rprt w)) l in
  says moved w l = mkWorld (mkRep (errors (rprt w) + count is_error sh) (warnings (rprt w) + count is_warning sh) (is_recovery_disabled (rprt w))) (io w)
                     (log w ++ map (placed (in_size (io w)) (in_pos (io w))) sh).
Proof.
  induction l as [|s l IH]; intros w P E.
  - assert (X : (if silent w then filter is_system [] else shown (is_recovery_disabled (rprt w)) []) = []) by (destruct (silent w); reflexivity).
    cbv zeta. rewrite X. cbn. rewrite !count_nil, app_nil_r, !Z.add_0_r. destruct w as [[? ? ?] ? ?]; reflexivity.
  - cbv zeta. unfold says. cbn [fold_left]. change (fold_left (say moved) l (say moved w s)) with (says moved (say moved w s) l). rewrite say_step by exact P.
    destruct (silent w) eqn:S1.
    + cbn [filter andb]. destruct (is_system s) eqn:Y; cbn [negb].
      * specialize (IH (mkWorld (mkRep (errors (rprt w) + (if is_error s then 1 else 0)) (warnings (rprt w) + (if is_warning s then 1 else 0)) (is_recovery_disabled (rprt w)))
         (io w) (log w ++ [placed (in_size (io w)) (in_pos (io w)) s])) P). destruct s; try discriminate. cbn [is_error is_warning] in IH |- *. rewrite !Z.add_0_r in IH |- *. specialize (IH E).
        unfold silent in S1. cbv zeta in IH. unfold silent in IH. cbn [rprt errors is_recovery_disabled warnings io log] in IH. rewrite S1 in IH. rewrite IH. rewrite !count_cons. cbn [is_error is_warning map]. rewrite <- app_assoc. reflexivity.
      * specialize (IH w P E). cbv zeta in IH. rewrite S1 in IH. exact IH.
    + cbn [andb]. specialize (IH (mkWorld (mkRep (errors (rprt w) + (if is_error s then 1 else 0)) (warnings (rprt w) + (if is_warning s then 1 else 0)) (is_recovery_disabled (rprt w)))
         (io w) (log w ++ [placed (in_size (io w)) (in_pos (io w)) s])) P).
      assert (E' : 0 <= errors (rprt w) + (if is_error s then 1 else 0)) by (destruct (is_error s); lia). specialize (IH E'). cbv zeta in IH. unfold silent in IH. cbn [rprt errors is_recovery_disabled warnings io log] in IH.
      cbn [shown]. unfold silent in S1. rewrite IH. destruct (is_error s) eqn:Y.
      * replace (errors (rprt w) + 1 =? 0) with false by lia. cbn [negb]. rewrite andb_true_r. cbn [andb]. destruct (is_recovery_disabled (rprt w)) eqn:D.
        -- rewrite !count_cons, Y. cbn [map]. rewrite <- app_assoc. f_equal. f_equal; lia.
        -- rewrite !count_cons, Y. cbn [map]. rewrite <- app_assoc. f_equal. f_equal; lia.
      * rewrite Z.add_0_r. rewrite S1. cbn [andb]. rewrite !count_cons, Y. cbn [map]. rewrite <- app_assoc. f_equal. f_equal; lia.
Qed.
Lemma shown_errors q l : count is_error (shown q l) = if q then Z.min 1 (count is_error l) else count is_error l.
Proof.
  induction l as [|s l IH]; cbn [shown]; [destruct q; reflexivity|]. rewrite count_cons. pose proof (count_nonneg is_error l). destruct (is_error s) eqn:E; cbn [andb].
  - destruct q; rewrite count_cons, E.
    + destruct (filter_system l) as [-> _]. lia.
    + rewrite IH. reflexivity.
  - rewrite count_cons, E, IH. destruct q; lia.
Qed.
Lemma count_zero p l : count p l = 0 <-> forall s, In s l -> p s = false.
Proof.
  induction l as [|s l IH]; [split; [intros _ s []|reflexivity]|]. rewrite count_cons. pose proof (count_nonneg p l). split.
  - intros H0 x [<-|I]; [destruct (p s); [lia|reflexivity]|]. apply IH; [destruct (p s); lia|exact I].
  - intros H0. rewrite (H0 s) by (left; reflexivity). rewrite (proj2 IH); [reflexivity|]. intros x I. apply H0. right. exact I.
Qed.
Lemma shown_quiet q l : count is_error l = 0 -> shown q l = l.
Proof.
  induction l as [|s l IH]; [reflexivity|]. rewrite count_cons. pose proof (count_nonneg is_error l). intros H0. cbn [shown]. destruct (is_error s); [lia|]. cbn [andb]. rewrite IH by lia. reflexivity.
Qed.
Lemma count_app p a b : count p (a ++ b) = count p a + count p b.
Proof. unfold count. rewrite filter_app, zlen_app. reflexivity. Qed.
Lemma count_placed z pos l : count is_error (map (placed z pos) l) = count is_error l.
Proof. induction l as [|s l IH]; [reflexivity|]. cbn [map]. rewrite !count_cons, IH. destruct s; reflexivity. Qed.

(** ** The pipeline *)
Lemma linked_dec p : (negb ((p_main p =? 0) || negb (zlen (filter (fun r => negb (r =? 0)) (p_predef p)) =? 0)) = true) <-> linked p.
Proof.
  unfold linked. rewrite negb_true_iff, orb_false_iff. rewrite negb_false_iff. rewrite Z.eqb_neq, Z.eqb_eq. apply and_iff_compat_l.
  induction (p_predef p) as [|r l IH]; [split; [constructor|reflexivity]|]. cbn [filter]. destruct (r =? 0) eqn:E; cbn [negb].
  - rewrite IH. split; [intros H; constructor; [lia|exact H]|]. intros H. inversion H; assumption.
  - rewrite zlen_cons. pose proof (zlen_nonneg (filter (fun r => negb (r =? 0)) l)). split; [lia|]. intros H0. inversion H0. lia.
Qed.
Lemma from_io ok ws i p enc : ws_is_correct ws = true -> 0 <= in_pos i <= in_size i ->
  let (sts, lg) := compile_from_io moved ok ws i p enc in
  (sts = sts_success <-> ok = true /\ count is_error (p_says p) = 0 /\ (ws_has_flag ws (str "-c") = true \/ linked p) /\ count is_error (said enc p) = 0 /\ (enc = VM -> p_export p = 0))
  /\ (sts = sts_success -> count is_error lg = 0)
  /\ (sts = sts_parse_error <-> ok = true /\ count is_error (p_says p) <> 0).
Proof.
  intros C P. unfold compile_from_io. destruct ok; cbn [negb]; [|split; [split; [discriminate|intros (H & _); discriminate]|split; [discriminate|split; [discriminate|intros (H & _); discriminate]]]].
  unfold parse. pose proof (says_steps (p_says p) (mkWorld (reporter_create ws) i []) P ltac:(cbn; lia)) as S1. cbv zeta in S1.
  replace (silent (mkWorld (reporter_create ws) i [])) with false in S1 by (unfold silent, reporter_create; cbn; rewrite andb_false_r; reflexivity).
  rewrite S1. clear S1. unfold reporter_create. cbn [rprt io log errors warnings is_recovery_disabled app]. set (q := ws_has_flag ws (str "-Wno")) in *.
  rewrite shown_errors. pose proof (count_nonneg is_error (p_says p)) as N1. rewrite Z.add_0_l.
  destruct (count is_error (p_says p) =? 0) eqn:Z1.
  2:{ replace ((if q then Z.min 1 (count is_error (p_says p)) else count is_error (p_says p)) =? 0) with false by (destruct q; lia).
      change (-1 =? 0) with false. cbn [andb]. change (-1 =? 0) with false. cbv iota beta. split; [split; [discriminate|intros (_ & H & _); lia]|]. split; [discriminate|]. split; [intros _; split; [reflexivity|lia]|reflexivity]. }
  apply Z.eqb_eq in Z1. rewrite Z1. replace ((if q then Z.min 1 0 else 0) =? 0) with true by (destruct q; reflexivity). change (0 =? 0) with true. cbn [andb]. rewrite (shown_quiet q _ Z1).
  set (c := ws_has_flag ws (str "-c")). replace (if q then Z.min 1 0 else 0) with 0 by (destruct q; reflexivity).
  set (lg0 := map (placed (in_size i) (in_pos i)) (p_says p)). set (r0 := mkRep 0 _ q).
  assert (L0 : count is_error lg0 = 0) by (unfold lg0; rewrite count_placed; exact Z1).
  set (w0 := mkWorld r0 i lg0).
  (* what the encoder does from a world without errors *)
  assert (En : forall w, rprt w = r0 -> io w = i -> count is_error (log w) = 0 ->
     let (ret, w') := encode moved enc ws w p in (ret = 0 <-> count is_error (said enc p) = 0 /\ (enc = VM -> p_export p = 0)) /\ (ret = 0 -> count is_error (log w') = 0)).
  { intros w R I L. unfold encode. rewrite C. cbn [negb]. fold (said enc p).
    pose proof (says_steps (said enc p) w ltac:(rewrite I; exact P) ltac:(rewrite R; cbn; lia)) as S2. cbv zeta in S2.
    replace (silent w) with false in S2 by (unfold silent; rewrite R; cbn; rewrite andb_false_r; reflexivity). rewrite R in S2. cbn [errors warnings is_recovery_disabled r0] in S2. rewrite S2. cbn [rprt errors log].
    rewrite shown_errors. pose proof (count_nonneg is_error (said enc p)) as N2. rewrite Z.add_0_l.
    destruct (count is_error (said enc p) =? 0) eqn:Z2.
    - apply Z.eqb_eq in Z2. rewrite Z2. replace ((if q then Z.min 1 0 else 0) =? 0) with true by (destruct q; reflexivity). cbn [negb]. rewrite (shown_quiet q _ Z2).
      destruct enc; cbn [Z.eqb]; cbn [log]; rewrite count_app, count_placed, L, Z2; (split; [|lia]); (split; [intros; split; [reflexivity|intros; (lia || discriminate)]|]); (intros [_ X]; try reflexivity; try (apply X; reflexivity)).
    - replace ((if q then Z.min 1 (count is_error (said enc p)) else count is_error (said enc p)) =? 0) with false by (destruct q; lia). cbn [negb].
      destruct enc; cbn [Z.eqb]; (split; [split; [discriminate|intros [X _]; lia]|discriminate]). }
  destruct c.
  - cbn [negb]. change (0 =? 0) with true. cbv iota beta.
    specialize (En w0 eq_refl eq_refl L0). destruct (encode moved enc ws w0 p) as [ret w']. destruct En as [E1 E2]. destruct (ret =? 0) eqn:Zr.
    + split; [split; [intros _; repeat split; auto; apply E1; lia|intros; lia || reflexivity]|]. split; [intros _; apply E2; lia|]. split; [discriminate|intros (_ & X); lia].
    + split; [split; [discriminate|intros (_ & _ & _ & X); apply E1 in X; lia]|]. split; [discriminate|]. split; [discriminate|intros (_ & X); lia].
  - cbn [negb]. unfold sx_is_correct. cbn [w0 rprt r0 errors]. change (0 =? 0) with true. cbn [negb].
    set (b := negb _). set (w1 := fold_left _ _ _).
    assert (W1 : rprt w1 = r0 /\ io w1 = i /\ count is_error (log w1) = 0).
    { unfold w1. set (f := fun (w : world) (_ : Z) => system_error w predef_but_notdef).
      assert (G : forall l w, rprt w = r0 /\ io w = i /\ count is_error (log w) = 0 -> rprt (fold_left f l w) = r0 /\ io (fold_left f l w) = i /\ count is_error (log (fold_left f l w)) = 0).
      { induction l as [|x l IH]; intros w (A & B & D); [auto|]. cbn. apply IH. unfold f, system_error. cbn. rewrite count_app, D. auto. }
      apply G. destruct (p_main p =? 0); [|auto]. unfold system_error. cbn. rewrite count_app, L0. auto. }
    destruct W1 as (A & B & D). destruct b eqn:Eb.
    + change (0 =? 0) with true. cbv iota beta. specialize (En w1 A B D). destruct (encode moved enc ws w1 p) as [ret w']. destruct En as [E1 E2].
      assert (Lk : linked p) by (apply linked_dec; exact Eb). destruct (ret =? 0) eqn:Zr.
      * split; [split; [intros _; repeat split; auto; try (apply E1; lia); apply Lk|intros; lia || reflexivity]|]. split; [intros _; apply E2; lia|]. split; [discriminate|intros (_ & X); lia].
      * split; [split; [discriminate|intros (_ & _ & _ & X); apply E1 in X; lia]|]. split; [discriminate|]. split; [discriminate|intros (_ & X); lia].
    + change (1 =? 0) with false. cbv iota beta. split; [split; [discriminate|intros (_ & _ & [X|X] & _); [discriminate|apply linked_dec in X; unfold b in Eb; congruence]]|]. split; [discriminate|]. split; [discriminate|intros (_ & X); lia].
Qed.
End R.

Lemma with_output_spec ws name : zlen name < 1024 -> exists ws', with_output ws name = Some ws' /\
  (ws_is_correct ws = true -> ws' = mkWs (files ws) (dirs ws) (flags ws) (match output ws with [] => name | o => o end) (was_error ws)) /\
  (ws_is_correct ws = false -> ws_is_correct ws' = false).
Proof.
  intros L. unfold with_output, ws_get_output. destruct (ws_is_correct ws) eqn:C.
  - destruct ws as [f d fl o e]. cbn [output files dirs flags was_error] in *. destruct o as [|b o].
    + unfold ws_set_output. rewrite C. cbn [negb]. change MAX_ARG_SIZE with 1024. replace (1024 <=? zlen name) with false by lia. cbn. eexists. split; [reflexivity|]. split; [reflexivity|discriminate].
    + eexists. split; [reflexivity|]. split; [reflexivity|discriminate].
  - unfold ws_set_output. rewrite C. cbn [negb bind]. eexists. split; [reflexivity|]. split; [discriminate|reflexivity].
Qed.
Lemma from_ws moved ok macro mf ws enc : 
  let (sts, lg) := compile_from_ws moved ok macro mf ws enc in
  sts = sts_success <-> ws_is_correct ws = true /\ files ws <> [] /\
    if ws_has_flag ws (str "-E") then mf ws = true
    else ok = true /\ exists text p, macro ws = Some (text, p) /\ count is_error (p_says p) = 0 /\ (ws_has_flag ws (str "-c") = true \/ linked p) /\ count is_error (said enc p) = 0 /\ (enc = VM -> p_export p = 0).
Proof.
  unfold compile_from_ws. unfold ws_get_files_num, ws_num. destruct (ws_is_correct ws) eqn:C; cbn [negb orb]; [|split; [discriminate|intros (H & _); discriminate]].
  assert (Z0 : (zlen (files ws) =? 0) = match files ws with [] => true | _ => false end).
  { destruct (files ws) as [|f fs]; [reflexivity|]. rewrite zlen_cons. pose proof (zlen_nonneg fs). lia. }
  rewrite Z0. destruct (files ws) as [|f fs]; [split; [discriminate|intros (_ & H & _); congruence]|].
  destruct (ws_has_flag ws (str "-E")).
  - destruct (mf ws); split; [intros _; repeat split; congruence|reflexivity|discriminate|intros (_ & _ & H); discriminate].
  - destruct (macro ws) as [[text p]|].
    + pose proof (from_io moved ok ws (in_set_buffer text) p enc C) as F. assert (P : 0 <= in_pos (in_set_buffer text) <= in_size (in_set_buffer text)) by (unfold in_size; cbn; pose proof (zlen_nonneg text); lia).
      specialize (F P). destruct (compile_from_io moved ok ws (in_set_buffer text) p enc) as [sts lg]. destruct F as (F & _ & _). rewrite F. split.
      * intros (A & B). split; [reflexivity|]. split; [congruence|]. split; [exact A|]. exists text, p. split; [reflexivity|exact B].
      * intros (_ & _ & A & t & p' & E & B). injection E as <- <-. split; [exact A|exact B].
    + split; [discriminate|]. intros (_ & _ & _ & t & p' & E & _). discriminate.
Qed.
Lemma from_ws_log moved ok macro mf ws enc sts lg : compile_from_ws moved ok macro mf ws enc = (sts, lg) -> sts = sts_success -> count is_error lg = 0.
Proof.
  unfold compile_from_ws. destruct (ws_is_correct ws) eqn:C; cbn [negb orb]; [|intros H; injection H as <- <-; discriminate].
  destruct (ws_get_files_num ws =? 0); [intros H; injection H as <- <-; discriminate|]. destruct (ws_has_flag ws (str "-E")); [intros H; injection H as <- <-; reflexivity|].
  destruct (macro ws) as [[text p]|]; [|intros H; injection H as <- <-; discriminate]. intros H E.
  pose proof (from_io moved ok ws (in_set_buffer text) p enc C) as F. assert (P : 0 <= in_pos (in_set_buffer text) <= in_size (in_set_buffer text)) by (unfold in_size; cbn; pose proof (zlen_nonneg text); lia).
  specialize (F P). rewrite H in F. apply F. exact E.
Qed.
Lemma compile_is moved ok macro mf ws : exists sts lg, compile moved ok macro mf ws = Some (sts, lg)
  /\ (sts = sts_success -> count is_error lg = 0)
  /\ (sts = sts_success <-> ws_is_correct ws = true /\ files ws <> [] /\
    let enc := chosen ws in
    if ws_has_flag ws (str "-E") then mf (output_named ws enc) = true
    else ok = true /\ exists text p, macro (output_named ws enc) = Some (text, p) /\ count is_error (p_says p) = 0 /\ (ws_has_flag ws (str "-c") = true \/ linked p)
      /\ count is_error (said enc p) = 0 /\ (enc = VM -> p_export p = 0)).
Proof.
  assert (G : forall enc name, zlen name < 1024 -> output_named ws enc = mkWs (files ws) (dirs ws) (flags ws) (match output ws with [] => name | o => o end) (was_error ws) ->
    exists ws', with_output ws name = Some ws' /\ let (sts, lg) := compile_from_ws moved ok macro mf ws' enc in (sts = sts_success -> count is_error lg = 0) /\
    (sts = sts_success <-> ws_is_correct ws = true /\ files ws <> [] /\
    if ws_has_flag ws (str "-E") then mf (output_named ws enc) = true
    else ok = true /\ exists text p, macro (output_named ws enc) = Some (text, p) /\ count is_error (p_says p) = 0 /\ (ws_has_flag ws (str "-c") = true \/ linked p)
      /\ count is_error (said enc p) = 0 /\ (enc = VM -> p_export p = 0))).
  { intros enc name L O. destruct (with_output_spec ws name L) as (ws' & W & A & B). exists ws'. split; [exact W|].
    pose proof (from_ws moved ok macro mf ws' enc) as F. destruct (compile_from_ws moved ok macro mf ws' enc) as [sts lg] eqn:E. split; [eapply from_ws_log; exact E|]. rewrite F.
    destruct (ws_is_correct ws) eqn:C.
    - specialize (A eq_refl). rewrite <- O in A. subst ws'. 
      assert (C' : ws_is_correct (output_named ws enc) = true) by (exact C). rewrite C'.
      assert (Hf : forall f, ws_has_flag (output_named ws enc) f = ws_has_flag ws f) by reflexivity. rewrite !Hf. reflexivity.
    - rewrite (B eq_refl). split; intros (H & _); discriminate. }
  unfold compile, chosen. destruct (ws_has_flag ws (str "-LLVM")); [|destruct (ws_has_flag ws (str "-MIPS"))].
  - destruct (G LLVM (str "out.ll") eq_refl eq_refl) as (ws' & W & F). unfold compile_to_llvm. rewrite W. cbn [bind]. destruct (compile_from_ws moved ok macro mf ws' LLVM) as [sts lg]. destruct F as [F1 F2].
    do 2 eexists. split; [reflexivity|]. cbv zeta. destruct sts; split; try exact F1; try exact F2; try discriminate. rewrite <- F2. split; discriminate.
  - destruct (G MIPS (str "out.s") eq_refl eq_refl) as (ws' & W & F). unfold compile_to_mips. rewrite W. cbn [bind]. destruct (compile_from_ws moved ok macro mf ws' MIPS) as [sts lg]. destruct F as [F1 F2].
    do 2 eexists. split; [reflexivity|]. split; [exact F1|exact F2].
  - destruct (G VM (str "out.ruc") eq_refl eq_refl) as (ws' & W & F). unfold compile_to_vm. rewrite W. cbn [bind]. destruct (compile_from_ws moved ok macro mf ws' VM) as [sts lg]. destruct F as [F1 F2].
    do 2 eexists. split; [reflexivity|]. cbv zeta. destruct sts; split; try exact F1; try exact F2; try discriminate. rewrite <- F2. split; discriminate.
Qed.
Lemma reports moved ws text pos l : 0 <= pos <= zlen text ->
  let quiet := ws_has_flag ws (str "-Wno") in
  let w := says moved (mkWorld (reporter_create ws) (mkIn text pos) []) l in
  log w = map (placed (zlen text) pos) (shown quiet l)
  /\ errors (rprt w) = (if quiet then Z.min 1 (count is_error l) else count is_error l)
  /\ warnings (rprt w) = count is_warning (shown quiet l)
  /\ in_data (io w) = text /\ in_pos (io w) = pos
  /\ forall more, errors (rprt w) <= errors (rprt (says moved (mkWorld (reporter_create ws) (mkIn text pos) []) (l ++ more))).
Proof.
  intros P quiet w. assert (G : forall l, says moved (mkWorld (reporter_create ws) (mkIn text pos) []) l = mkWorld (mkRep (if quiet then Z.min 1 (count is_error l) else count is_error l) (count is_warning (shown quiet l)) quiet) (mkIn text pos) (map (placed (zlen text) pos) (shown quiet l))).
  { clear w l. intros l. rewrite says_steps; [|exact P|cbn; lia]. replace (silent (mkWorld (reporter_create ws) (mkIn text pos) [])) with false by (unfold silent, reporter_create; cbn; rewrite andb_false_r; reflexivity).
    unfold reporter_create. cbn [rprt errors warnings is_recovery_disabled io log app]. fold quiet. rewrite shown_errors, !Z.add_0_l. reflexivity. }
  unfold w. rewrite G. cbn [log rprt errors warnings io in_data in_pos]. do 5 (split; [reflexivity|]). intros more. rewrite G. cbn [rprt errors]. rewrite count_app. pose proof (count_nonneg is_error more). destruct quiet; lia.
Qed.

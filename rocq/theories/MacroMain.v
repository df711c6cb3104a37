(** Whole runs, from the first source on. *)
From Verif Require Import Prelude MacroModel MacroSpec MacroSkip MacroProofs MacroRun MacroInv MacroEnd MacroTerm.
Local Open Scope Z_scope.

Record inv (st : pst) : Prop := mkInv {
  i_call : p_call st = 0; i_incl : p_incl st = 0;
  i_bounds : forall u v, p_trace st = u ++ v -> calls u <= 257 /\ inclusions u <= 32;
  i_calls : calls (p_trace st) = 0; i_incls : inclusions (p_trace st) = 0;
  i_even : forall t, rounds_ok 32769 [] (p_trace st ++ t) = rounds_ok 32769 [] t;
  i_once : once (p_trace st);
  i_seen : forall f, In f (read (p_trace st)) -> In f (p_seen st) }.
Lemma read_app a b : read (a ++ b) = read a ++ read b.
Proof. apply flat_map_app. Qed.
Lemma read_opened u : Forall (fun e => match e with ESource _ | ELost _ => False | _ => True end) u -> read u = opened u.
Proof.
  intros F. induction F as [|e u H F IH]; [reflexivity|]. unfold read, opened in *. cbn [flat_map]. rewrite IH.
  destruct e; try contradiction; reflexivity.
Qed.
Lemma once_app t u seen :
  once t -> (forall f, In f (read t) -> In f seen) -> NoDup (opened u) -> (forall f, In f (opened u) -> ~ In f seen) ->
  Forall (fun e => match e with ESource _ | ELost _ => False | _ => True end) u -> once (t ++ u).
Proof.
  intros O S N D F a f b E. pose proof E as E0. apply app_split in E as [[c E]|[c [E1 E2]]].
  - subst t. rewrite <- app_assoc in E0. apply app_inv_head in E0. destruct c as [|x c]; cbn in E0.
    + rewrite app_nil_r in *. subst u. intros X. apply (D f); [left; reflexivity|apply S; exact X].
    + injection E0 as -> E0. apply (O a f c). reflexivity.
  - subst a u. apply Forall_app in F as [F1 F2]. rewrite read_app. intros X. apply in_app_or in X as [X|X].
    + apply (D f); [rewrite opened_app; apply in_or_app; right; left; reflexivity|apply S; exact X].
    + rewrite (read_opened _ F1) in X. rewrite opened_app in N. change (opened (EOpen f :: b)) with (f :: opened b) in N.
      apply NoDup_remove_2 in N. apply N. apply in_or_app. left. exact X.
Qed.
Lemma bounds_app t u : (forall a b, t = a ++ b -> calls a <= 257 /\ inclusions a <= 32) -> calls t = 0 -> inclusions t = 0 ->
  (forall a b, u = a ++ b -> 0 + calls a <= 257 /\ 0 + inclusions a <= 32) ->
  forall a b, t ++ u = a ++ b -> calls a <= 257 /\ inclusions a <= 32.
Proof.
  intros T C I U a b E. apply app_split in E as [[c E]|[c [E1 E2]]]; [apply (T a c E)|]. subst a.
  unfold calls, inclusions in *. rewrite !sum_app, C, I. apply (U c b E2).
Qed.
(** Where a run from such a state may come to. *)
Lemma stops_within st s : inv st -> stops st s -> within_bounds (p_trace s) /\ once (p_trace s).
Proof.
  intros [I1 I2 I3 I4 I5 I6 I7 I8] [u [U1 [D F [N S]] U3]]. rewrite I1, I2 in D. rewrite U1. split; [split|].
  - apply bounds_app; assumption.
  - rewrite I6. apply U3.
  - apply once_app with (seen := p_seen st); assumption.
Qed.
Lemma inv_within st : inv st -> within_bounds (p_trace st) /\ once (p_trace st).
Proof. intros I. apply (stops_within st st I). apply stops_refl. destruct I. unfold sane. lia. Qed.
Lemma inv_sane st : inv st -> sane st.
Proof. intros [I1 I2 _ _ _ _ _ _]. unfold sane. lia. Qed.
Lemma inv_ext st st' : inv st -> ext st st' -> inv st'.
Proof.
  intros I E. assert (W : within_bounds (p_trace st') /\ once (p_trace st')) by (apply (stops_within st); [exact I|apply ext_is_stops; exact E]).
  destruct I as [I1 I2 I3 I4 I5 I6 I7 I8], E as [u E]. pose proof (e_piece _ _ _ E) as [P1 P2 P3]. constructor.
  - rewrite (e_call _ _ _ E). exact I1.
  - rewrite (e_incl _ _ _ E). exact I2.
  - apply W.
  - rewrite (e_trace _ _ _ E). unfold calls in *. rewrite sum_app, I4, P2. reflexivity.
  - rewrite (e_trace _ _ _ E). unfold inclusions in *. rewrite sum_app, I5, P3. reflexivity.
  - intros t. rewrite (e_trace _ _ _ E), <- app_assoc, I6. apply (e_even _ _ _ E).
  - apply W.
  - intros f. rewrite (e_trace _ _ _ E), (e_seen _ _ _ E), read_app, (read_opened u) by apply (pt_src _ _ _ _ P1). intros X.
    apply in_or_app. apply in_app_or in X as [X|X]; [right; apply I8; exact X|left; apply -> in_rev; exact X].
Qed.
Lemma inv_event e st seen : inv st ->
  match e with ESource f => seen = f :: p_seen st | ELost _ => seen = p_seen st | _ => False end ->
  inv (event_ e (set_seen seen st)).
Proof.
  intros [I1 I2 I3 I4 I5 I6 I7 I8] H. constructor; cbn [event_ set_seen p_call p_incl p_trace p_seen]; try assumption.
  - apply bounds_app; try assumption. intros a b E. destruct a as [|x a]; [cbn; lia|]. injection E as <- E. destruct a; [|discriminate].
    destruct e; try contradiction; cbn; lia.
  - unfold calls in *. rewrite sum_app, I4. destruct e; try contradiction; reflexivity.
  - unfold inclusions in *. rewrite sum_app, I5. destruct e; try contradiction; reflexivity.
  - intros t. rewrite <- app_assoc, I6. destruct e; try contradiction; reflexivity.
  - intros a f b E. apply app_split in E as E1. destruct E1 as [[c E1]|[c [E1 E2]]].
    + rewrite E1 in E. rewrite <- app_assoc in E. apply app_inv_head in E. destruct c as [|x c]; cbn in E.
      * injection E as -> _. contradiction.
      * injection E as -> _. apply (I7 a f c E1).
    + destruct c as [|x c]; cbn in E2; [injection E2 as -> _; contradiction|]. injection E2 as _ E2. destruct c; discriminate.
  - intros f. rewrite read_app. intros X. apply in_app_or in X as [X|X].
    + destruct e; try contradiction; subst seen; [right|]; apply I8; exact X.
    + destruct e; try contradiction; subst seen; cbn in X; destruct X as [->|[]]; left; reflexivity.
Qed.
Lemma inv_start q ms : inv (start q ms).
Proof.
  constructor; cbn; try reflexivity; try tauto.
  - intros u v E. destruct u; [cbn; lia|discriminate].
  - intros u f v E. destruct u; discriminate.
Qed.

Section Oracles.
Variable files : Z -> option (list token).
Variable stuck : list token -> bool.
Variable calc : list token -> option Z.
Notation lvl := (lvl files stuck calc).
Notation sources := (sources files stuck calc).

Lemma sources_within n l : forall ret st, inv st ->
  within_bounds (p_trace (last_state (sources n l ret st))) /\ once (p_trace (last_state (sources n l ret st))).
Proof.
  induction l as [|f l IH]; intros ret st I; cbn [MacroModel.sources]; [apply inv_within; exact I|].
  destruct (ret && p_quiet st); [apply inv_within; exact I|]. destruct (files f) as [text|].
  - set (st1 := event_ (ESource f) (set_seen (f :: p_seen st) st)).
    assert (I1 : inv st1) by (apply inv_event; [exact I|reflexivity]).
    pose proof (preprocess_ok files stuck calc (lvl n) (good_lvl files stuck calc n) text st1 (inv_sane _ I1)) as G.
    destruct (preprocess (lvl n) text st1) as [x|x|st2]; cbn in G |- *; [apply (stops_within st1); assumption|apply (stops_within st1); assumption|].
    apply IH. apply inv_ext with (st := st1); assumption.
  - apply IH. pose proof (inv_event (ELost f) st (p_seen st) I eq_refl) as J. destruct st; exact J.
Qed.

(** The value and the mark of errors. *)
Definition lost (t : list event) : Prop := exists f, In (ELost f) t.
Lemma sources_value n l : forall ret st r st', sane st ->
  (p_err st = true -> ret = true) -> (printed_outside (p_trace st) -> ret = true) -> (ret = true -> printed (p_trace st)) ->
  sources n l ret st = Ok (r, st') ->
  (printed_outside (p_trace st') -> r = true) /\ (r = true -> printed (p_trace st')).
Proof.
  induction l as [|f l IH]; intros ret st r st' S A B C H; cbn [MacroModel.sources] in H; [injection H as <- <-; tauto|].
  destruct (ret && p_quiet st); [injection H as <- <-; tauto|].
  destruct (files f) as [text|].
  - set (st1 := event_ (ESource f) (set_seen (f :: p_seen st) st)) in *.
    destruct (preprocess (lvl n) text st1) as [x|x|st2] eqn:E; try discriminate. cbn [rbind] in H.
    apply preprocess_after in E as [[u E] S2]; [|exact S].
    assert (T : p_trace st2 = (p_trace st ++ [ESource f]) ++ u) by (rewrite (e_trace _ _ _ E); reflexivity).
    apply IH in H; [exact H|exact S2|intros ->; apply orb_true_r| |].
    + rewrite T. intros [[e X]|[g X]]; apply in_app_or in X as [X|X]; try (apply in_app_or in X as [X|[X|[]]]; [|discriminate]).
      * rewrite B; [reflexivity|left; exists e; exact X].
      * rewrite (e_told _ _ _ E); [apply orb_true_r|]. exists e. exact X.
      * rewrite B; [reflexivity|right; exists g; exact X].
      * exfalso. pose proof (pt_src _ _ _ _ (pc_part _ _ _ _ (e_piece _ _ _ E))) as F. rewrite Forall_forall in F. apply (F _ X).
    + rewrite T. intros X. apply orb_prop in X as [X|X].
      * destruct (C X) as [(m & e & Y)|(g & Y)]; [left; exists m, e|right; exists g]; apply in_or_app; left; apply in_or_app; left; exact Y.
      * apply (e_why _ _ _ E) in X as [X|(m & e & X)].
        -- destruct (C (A X)) as [(m & e & Y)|(g & Y)]; [left; exists m, e|right; exists g]; apply in_or_app; left; apply in_or_app; left; exact Y.
        -- left. exists m, e. apply in_or_app. right. exact X.
  - apply IH in H; [exact H|exact S|reflexivity|reflexivity|].
    intros _. right. exists f. cbn. apply in_or_app. right. left. reflexivity.
Qed.
End Oracles.

(** Proofs for C16. *)
From Verif Require Import Prelude WsModel WsSpec.

(** ** The stack of names *)
Definition is_up (s : bytes) : bool := bytes_eqb s [46; 46].
Definition step (st : list bytes) (s : bytes) : list bytes :=
  if bytes_eqb s [46] then st
  else if is_up s then match st with t :: st' => if is_up t then s :: st else st' | [] => [s] end
  else s :: st.
(** The bytes for a stack, last name first. *)
Fixpoint image (st : list bytes) : bytes := match st with [] => [] | s :: st => image st ++ s ++ [47] end.
Definition plain (s : bytes) : Prop := ~ In 47 s.

Lemma at_app1 a b i : i < zlen a -> at_ (a ++ b) i = at_ a i.
Proof. intros H. unfold at_. rewrite znth_app1 by exact H. reflexivity. Qed.
Lemma at_app2 a b i : zlen a <= i -> at_ (a ++ b) i = at_ b (i - zlen a).
Proof. intros H. unfold at_. rewrite znth_app2 by exact H. reflexivity. Qed.
Lemma at_plain s i : plain s -> at_ s i <> 47.
Proof. intros P H. unfold at_ in H. destruct (znth s i) eqn:E; [|discriminate]. apply P. subst. eapply znth_In; eauto. Qed.
Lemma zlen_end (a : bytes) (x : Z) : zlen (a ++ [x]) = zlen a + 1.
Proof. rewrite zlen_app. reflexivity. Qed.
Lemma image_end st : st <> [] -> at_ (image st) (zlen (image st) - 1) = 47.
Proof.
  destruct st as [|s st]; [congruence|]. intros _. cbn [image]. rewrite app_assoc, zlen_end. rewrite at_app2 by lia.
  replace (_ - _) with 0 by lia. reflexivity.
Qed.
Lemma firstn_zlen (a b : bytes) : firstn (Z.to_nat (zlen a)) (a ++ b) = a.
Proof. rewrite zlen_unf, Nat2Z.id. rewrite firstn_app, Nat.sub_diag, firstn_all. cbn. apply app_nil_r. Qed.
Lemma back_over st s tl0 : plain s -> forall n, (n <= length s)%nat ->
  back (image st ++ s ++ tl0) (length (image st) + n) = length (image st).
Proof.
  intros P. induction n as [|n IH]; intros H.
  - rewrite Nat.add_0_r. destruct (length (image st)) as [|k] eqn:E; [reflexivity|]. cbn [back]. rewrite at_app1 by (rewrite zlen_unf; lia).
    pose proof (image_end st) as I. replace (zlen (image st) - 1) with (Z.of_nat k) in I by (rewrite zlen_unf; lia). rewrite I; [reflexivity|]. intros ->. discriminate.
  - rewrite Nat.add_succ_r. cbn [back]. rewrite at_app2 by (rewrite zlen_unf; lia). rewrite at_app1 by (rewrite !zlen_unf; lia).
    replace (_ =? SLASH) with false; [apply IH; lia|]. symmetry. apply Z.eqb_neq. apply at_plain, P.
Qed.

Lemma at_nil i : at_ [] i = 0.
Proof. unfold at_. replace (@znth Z [] i) with (@None Z); [reflexivity|]. symmetry. apply znth_None. change (@zlen Z []) with 0. lia. Qed.
Lemma text_cases (s : bytes) : s = [] \/ (exists a, s = [a]) \/ (exists a b, s = [a; b]) \/ 3 <= zlen s.
Proof. destruct s as [|a [|b [|d s]]]; eauto 6. right. right. right. rewrite !zlen_cons. pose proof (zlen_nonneg s). lia. Qed.
Lemma eqb_long (s t : bytes) : zlen s <> zlen t -> bytes_eqb s t = false.
Proof. intros H. destruct (bytes_eqb s t) eqn:E; [|reflexivity]. apply bytes_eqb_eq in E. subst. congruence. Qed.

Lemma dots_top st tl0 : Forall plain st -> is_dots (image st ++ tl0) (zlen (image st)) = match st with t :: _ => is_up t | [] => false end.
Proof.
  intros F. destruct st as [|t st]; [reflexivity|]. inversion F as [|? ? P F']; subst. unfold is_dots. cbn [image].
  assert (L : zlen (image st ++ t ++ [47]) = zlen (image st) + zlen t + 1) by (rewrite app_assoc, zlen_end, zlen_app; lia). rewrite L.
  pose proof (zlen_nonneg (image st)) as Z1. pose proof (zlen_nonneg t) as Z2.
  assert (A : forall i, 0 <= i < zlen t -> at_ ((image st ++ t ++ [47]) ++ tl0) (zlen (image st) + i) = at_ t i).
  { intros i Hi. rewrite at_app1 by lia. rewrite at_app2 by lia. rewrite at_app1 by lia. f_equal. lia. }
  assert (B : st <> [] -> at_ ((image st ++ t ++ [47]) ++ tl0) (zlen (image st) - 1) = 47).
  { intros N. rewrite at_app1 by lia. rewrite at_app1 by lia. apply image_end, N. }
  assert (E0 : st = [] -> zlen (image st) = 0) by (intros ->; reflexivity).
  assert (E1 : st <> [] -> 0 < zlen (image st)). { intros N. destruct st as [|u st]; [congruence|]. cbn [image]. rewrite app_assoc, zlen_end, zlen_app. pose proof (zlen_nonneg (image st)). pose proof (zlen_nonneg u). lia. }
  unfold is_up, DOT, SLASH. destruct (text_cases t) as [->|[(a & ->)|[(a & b & ->)|H3]]].
  - (* empty *) cbn [bytes_eqb]. change (@zlen Z []) with 0 in *. destruct st as [|u st'].
    + cbn [image]. change (zlen (@nil Z)) with 0. cbn. reflexivity.
    + replace (zlen (image (u :: st')) + 0 + 1 - 2) with (zlen (image (u :: st')) - 1) by lia. rewrite B by discriminate. cbn. rewrite !andb_false_r. reflexivity.
  - cbn [bytes_eqb]. rewrite andb_false_r. change (zlen [a]) with 1 in *. destruct st as [|u st'].
    + change (zlen (image [])) with 0. reflexivity.
    + replace (zlen (image (u :: st')) + 1 + 1 - 3) with (zlen (image (u :: st')) - 1) by lia. rewrite B by discriminate. cbn. rewrite !andb_false_r. reflexivity.
  - change (zlen [a; b]) with 2 in *. replace (zlen (image st) + 2 + 1 - 2) with (zlen (image st) + 1) by lia. replace (zlen (image st) + 2 + 1 - 3) with (zlen (image st) + 0) by lia.
    rewrite !A by lia. replace (zlen (image st) + 2 + 1 - 4) with (zlen (image st) - 1) by lia. change (at_ [a; b] 1) with b. change (at_ [a; b] 0) with a. cbn [bytes_eqb].
    destruct st as [|u st'].
    + rewrite (E0 eq_refl). change (3 <? 0 + 2 + 1) with false. change (0 + 2 + 1 =? 3) with true. cbn. rewrite andb_true_r. apply andb_comm.
    + rewrite B by discriminate. specialize (E1 ltac:(discriminate)). replace (3 <? zlen (image (u :: st')) + 2 + 1) with true by lia. replace (zlen (image (u :: st')) + 2 + 1 =? 3) with false by lia.
      cbn. rewrite orb_false_r, !andb_true_r. apply andb_comm.
  - rewrite (eqb_long t [46; 46]) by (change (zlen [46; 46]) with 2; lia).
    replace (zlen (image st) + zlen t + 1 =? 3) with false by lia. cbn [andb]. rewrite orb_false_r.
    replace (zlen (image st) + zlen t + 1 - 4) with (zlen (image st) + (zlen t - 3)) by lia. rewrite A by lia.
    replace (at_ t (zlen t - 3) =? 47) with false; [rewrite andb_false_r; reflexivity|]. symmetry. apply Z.eqb_neq, at_plain, P.
Qed.

Lemma close_step st s : Forall plain st -> plain s -> close (image st ++ s ++ [47]) (zlen (image st)) = image (step st s).
Proof.
  intros F P. unfold close. set (buf := image st ++ s ++ [47]). pose proof (zlen_nonneg (image st)) as Z1.
  assert (L : zlen buf = zlen (image st) + zlen s + 1) by (unfold buf; rewrite app_assoc, zlen_end, zlen_app; lia).
  assert (A : forall i, 0 <= i < zlen s -> at_ buf (zlen (image st) + i) = at_ s i).
  { intros i Hi. unfold buf. rewrite at_app2 by lia. rewrite at_app1 by lia. f_equal. lia. }
  assert (Keep : image (s :: st) = buf) by reflexivity. unfold DOT, SLASH.
  unfold step. destruct (text_cases s) as [->|[(a & ->)|[(a & b & ->)|H3]]].
  - change (zlen (@nil Z)) with 0 in *. replace (zlen buf - zlen (image st) =? 2) with false by lia. replace (zlen buf - zlen (image st) =? 3) with false by lia.
    cbn [andb bytes_eqb is_up]. rewrite andb_false_r. cbn. reflexivity.
  - change (zlen [a]) with 1 in *. replace (zlen buf - zlen (image st) =? 2) with true by lia. replace (zlen buf - zlen (image st) =? 3) with false by lia.
    specialize (A 0 ltac:(lia)). rewrite Z.add_0_r in A. rewrite A. change (at_ [a] 0) with a. unfold is_up. cbn [bytes_eqb andb]. rewrite !andb_false_r, andb_true_r. cbn [andb].
    destruct (a =? 46); [unfold buf; apply firstn_zlen|reflexivity].
  - change (zlen [a; b]) with 2 in *. replace (zlen buf - zlen (image st) =? 2) with false by lia. replace (zlen buf - zlen (image st) =? 3) with true by lia.
    pose proof (A 0 ltac:(lia)) as A0. pose proof (A 1 ltac:(lia)) as A1. rewrite Z.add_0_r in A0. rewrite A0, A1. change (at_ [a; b] 0) with a. change (at_ [a; b] 1) with b.
    assert (DT : is_dots buf (zlen (image st)) = match st with t :: _ => is_up t | [] => false end) by apply (dots_top st _ F).
    rewrite DT. replace (is_up [a; b]) with ((a =? 46) && (b =? 46)) by (unfold is_up; cbn [bytes_eqb]; rewrite andb_true_r; reflexivity). cbn [bytes_eqb andb]. rewrite !andb_false_r, !andb_true_r. cbn [andb].
    destruct st as [|t st']; [change (zlen (image [])) with 0; destruct ((a =? 46) && (b =? 46)); reflexivity|].
    assert (N : zlen (image (t :: st')) =? 0 = false).
    { cbn [image]. rewrite app_assoc, zlen_end, zlen_app. pose proof (zlen_nonneg (image st')). pose proof (zlen_nonneg t). lia. }
    rewrite N. cbn [negb andb]. destruct ((a =? 46) && (b =? 46)); cbn [andb]; [|reflexivity]. destruct (is_up t); cbn [negb]; [reflexivity|].
    inversion F as [|? ? Pt F']; subst. unfold buf. cbn [image]. rewrite <- !app_assoc.
    assert (E : Z.to_nat (zlen (image st' ++ t ++ [47]) - 1) = (length (image st') + length t)%nat).
    { rewrite app_assoc, zlen_end, zlen_app. rewrite !zlen_unf. lia. }
    rewrite E. rewrite back_over by (auto; lia). pose proof (firstn_zlen (image st') (t ++ [47] ++ [a; b] ++ [47])) as FZ. rewrite zlen_unf, Nat2Z.id in FZ. exact FZ.
  - replace (zlen buf - zlen (image st) =? 2) with false by lia. replace (zlen buf - zlen (image st) =? 3) with false by lia. rewrite andb_false_r. cbn [andb].
    rewrite (eqb_long s [46]) by (change (zlen [46]) with 1; lia). unfold is_up. rewrite (eqb_long s [46; 46]) by (change (zlen [46; 46]) with 2; lia). reflexivity.
Qed.

(** The loop is the stack of names. *)
Fixpoint names (st : list bytes) (ss : list bytes) : list bytes * bytes :=
  match ss with
  | [] => (st, [])
  | [s] => (st, s)
  | s :: ss => names (step st s) ss
  end.
Lemma split_cons p : exists s ss, split p = s :: ss.
Proof. destruct p as [|b p]; cbn; [eauto|]. destruct (b =? 47); [eauto|]. destruct (split p); eauto. Qed.
Lemma split_plain p : Forall plain (split p).
Proof.
  induction p as [|b p IH]; cbn; [repeat constructor; intros []|]. destruct (b =? 47) eqn:E; [constructor; [intros []|exact IH]|].
  destruct (split p) as [|s ss]; inversion IH; subst; constructor; auto; intros [H|H]; [lia|auto|lia|auto].
Qed.
Lemma step_plain st s : Forall plain st -> plain s -> Forall plain (step st s).
Proof.
  intros F P. unfold step. destruct (bytes_eqb s [46]); [exact F|]. destruct (is_up s); [|constructor; assumption].
  destruct st as [|t st]; [repeat constructor; exact P|]. destruct (is_up t); [constructor; assumption|]. inversion F; assumption.
Qed.
Definition glue (cur : bytes) (ss : list bytes) : list bytes := match ss with s :: ss => (cur ++ s) :: ss | [] => [cur] end.
Lemma loop_names p : forall st cur, Forall plain st -> plain cur ->
  forall r, unix_loop p (image st ++ cur) (zlen (image st)) = Some r ->
  let (st', cur') := names st (glue cur (split (slashed p))) in r = image st' ++ cur' /\ Forall plain st' /\ plain cur'.
Proof.
  induction p as [|b p IH]; intros st cur F P r H; cbn in H.
  - injection H as <-. cbn. rewrite app_nil_r. auto.
  - destruct (MAX_ARG_SIZE <=? _); [discriminate|]. cbn [slashed map]. change (map (fun b => if b =? 92 then 47 else b) p) with (slashed p).
    change BACKSLASH with 92 in H. change SLASH with 47 in H. set (b' := if b =? 92 then 47 else b) in *. cbn [split].
    destruct (b' =? 47) eqn:E.
    + replace b' with 47 in H by lia. rewrite <- app_assoc in H. rewrite (close_step st cur F P) in H.
      destruct (split_cons (slashed p)) as (s & ss & Es). cbn [glue]. rewrite app_nil_r, Es. cbn [names].
      specialize (IH (step st cur) [] (step_plain _ _ F P) ltac:(intros [])). rewrite app_nil_r in IH. specialize (IH r H). rewrite Es in IH. exact IH.
    + rewrite <- app_assoc in H. specialize (IH st (cur ++ [b']) F). 
      assert (P' : plain (cur ++ [b'])) by (intros I; apply in_app_or in I; destruct I as [I|[I|[]]]; [auto|lia]).
      specialize (IH P' r H). destruct (split_cons (slashed p)) as (s & ss & Es). rewrite Es in *. cbn [glue] in *. rewrite <- app_assoc in IH. exact IH.
Qed.
Lemma loop_names0 p r : unix_loop p [] 0 = Some r ->
  let (st, cur) := names [] (split (slashed p)) in r = image st ++ cur /\ Forall plain st /\ plain cur.
Proof.
  intros H. pose proof (loop_names p [] [] (Forall_nil _) ltac:(intros []) r) as L. cbn [image app] in L. specialize (L H).
  destruct (split_cons (slashed p)) as (s & ss & Es). rewrite Es in *. exact L.
Qed.

(** ** The result *)
Lemma split_app_plain s q : plain s -> split (s ++ q) = glue s (split q).
Proof.
  induction s as [|b s IH]; intros P; cbn [app].
  - destruct (split_cons q) as (x & xs & ->). reflexivity.
  - cbn [split]. replace (b =? 47) with false by (symmetry; apply Z.eqb_neq; intros ->; apply P; left; reflexivity).
    rewrite IH by (intros I; apply P; right; exact I). destruct (split_cons q) as (x & xs & ->). reflexivity.
Qed.
Lemma split_image st : Forall plain st -> forall q, split (image st ++ q) = rev st ++ split q.
Proof.
  induction st as [|s st IH]; intros F q; cbn [image rev]; [reflexivity|]. inversion F; subst. rewrite <- !app_assoc. rewrite IH by assumption. cbn [app]. f_equal.
  rewrite split_app_plain by assumption. change (split (47 :: q)) with ([] :: split q). cbn [glue]. rewrite app_nil_r. reflexivity.
Qed.
(** The names of a result. *)
Lemma result_names p q : ws_unix_path p = Some q ->
  let (st, cur) := names [] (split (slashed p)) in Forall plain st /\ plain cur
  /\ (cur <> [] /\ split q = rev st ++ [cur] /\ q = image st ++ cur
      \/ cur = [] /\ exists t st', st = t :: st' /\ split q = rev st /\ q = image st' ++ t).
Proof.
  unfold ws_unix_path. intros H. destruct (unix_loop p [] 0) as [r|] eqn:E; [|discriminate]. cbn [bind] in H. apply loop_names0 in E.
  destruct (names [] (split (slashed p))) as [st cur]. destruct E as (-> & F & P). split; [exact F|]. split; [exact P|].
  destruct (zlen (image st ++ cur) =? 0) eqn:Z0; [discriminate|].
  destruct cur as [|b cur].
  - right. split; [reflexivity|]. rewrite app_nil_r in *. destruct st as [|t st]; [discriminate|]. rewrite image_end in H by discriminate. change (47 =? SLASH) with true in H. cbn iota in H.
    injection H as <-. exists t, st. split; [reflexivity|].
    assert (E : firstn (Z.to_nat (zlen (image (t :: st)) - 1)) (image (t :: st)) = image st ++ t).
    { cbn [image]. rewrite app_assoc. rewrite zlen_end, Z.add_simpl_r. apply firstn_zlen. }
    cbn [image] in E |- *. rewrite E. split; [|reflexivity]. inversion F; subst. rewrite split_image by assumption. rewrite <- (app_nil_r t) at 1. rewrite split_app_plain by assumption. change (split []) with [@nil Z]. cbn [glue]. rewrite app_nil_r. reflexivity.
  - left. split; [discriminate|].
    assert (N : at_ (image st ++ b :: cur) (zlen (image st ++ b :: cur) - 1) =? SLASH = false).
    { apply Z.eqb_neq. rewrite zlen_app. rewrite at_app2 by (rewrite zlen_cons; pose proof (zlen_nonneg cur); lia). apply at_plain, P. }
    rewrite N in H. destruct (MAX_ARG_SIZE <=? _); [discriminate|]. injection H as <-. split; [|reflexivity].
    rewrite split_image by exact F. f_equal. rewrite <- (app_nil_r (b :: cur)) at 1. rewrite split_app_plain by exact P. change (split []) with [@nil Z]. cbn [glue]. rewrite app_nil_r. reflexivity.
Qed.

(** Normal form: first the names [..], then no [.] and no [..]. *)
Definition normal (st : list bytes) : Prop :=
  exists ups names, rev st = ups ++ names /\ Forall (fun s => s = [46; 46]) ups /\ Forall (fun s => s <> [46] /\ s <> [46; 46]) names.
Lemma eqb_neq (s t : bytes) : bytes_eqb s t = false <-> s <> t.
Proof. split; [intros H E; apply bytes_eqb_eq in E; congruence|]. intros H. destruct (bytes_eqb s t) eqn:E; [|reflexivity]. apply bytes_eqb_eq in E. contradiction. Qed.
Lemma normal_step st s : normal st -> normal (step st s).
Proof.
  intros (ups & ns & R & U & N). unfold step. destruct (bytes_eqb s [46]) eqn:E1; [exists ups, ns; auto|]. apply eqb_neq in E1. unfold is_up. destruct (bytes_eqb s [46; 46]) eqn:E2.
  - apply bytes_eqb_eq in E2. subst s. destruct st as [|t st].
    + exists [[46; 46]], []. repeat constructor.
    + cbn [rev] in R. destruct (bytes_eqb t [46; 46]) eqn:E3.
      * apply bytes_eqb_eq in E3. subst t. destruct ns as [|n ns] using rev_ind.
        -- rewrite app_nil_r in R. exists (ups ++ [[46; 46]]), []. cbn [rev]. rewrite R, app_nil_r. split; [reflexivity|]. split; [|constructor]. apply Forall_app. split; [exact U|repeat constructor].
        -- clear IHns. rewrite app_assoc in R. apply app_inj_tail in R. destruct R as [_ <-]. apply Forall_app in N. destruct N as [_ N]. inversion N as [|? ? [_ X] _]. congruence.
      * apply eqb_neq in E3. destruct ns as [|n ns] using rev_ind.
        -- rewrite app_nil_r in R. destruct ups as [|u ups] using rev_ind; [destruct (rev st); discriminate|]. clear IHups. apply app_inj_tail in R. destruct R as [_ <-].
           apply Forall_app in U. destruct U as [_ U]. inversion U. congruence.
        -- clear IHns. rewrite app_assoc in R. apply app_inj_tail in R. destruct R as [R _]. apply Forall_app in N. destruct N as [N _]. exists ups, ns. auto.
  - apply eqb_neq in E2. exists ups, (ns ++ [s]). cbn [rev]. rewrite R, app_assoc. split; [reflexivity|]. split; [exact U|]. apply Forall_app. split; [exact N|]. repeat constructor; assumption.
Qed.
Lemma names_normal ss : forall st, normal st -> normal (fst (names st ss)).
Proof.
  induction ss as [|s ss IH]; intros st N; cbn; [exact N|]. destruct ss as [|s' ss]; [exact N|]. apply IH, normal_step, N.
Qed.

(** ** The same file *)
Lemma walk_name here s : s <> [] -> s <> [46] -> s <> [46; 46] -> walk here s = s :: here.
Proof.
  intros A B C. unfold walk. rewrite (proj2 (eqb_neq s []) A), (proj2 (eqb_neq s [46]) B), (proj2 (eqb_neq s [46; 46]) C). reflexivity.
Qed.
(** Walking the stack. *)
Definition walked (here : list bytes) (st : list bytes) : list bytes := fold_left walk (rev st) here.
Lemma walked_cons here s st : walked here (s :: st) = walk (walked here st) s.
Proof. unfold walked. cbn [rev]. rewrite fold_left_app. reflexivity. Qed.
Lemma step_walk here st s : Forall (fun t => t <> [] /\ t <> [46]) st -> s <> [] ->
  walked here (step st s) = walk (walked here st) s /\ Forall (fun t => t <> [] /\ t <> [46]) (step st s).
Proof.
  intros F H. unfold step. destruct (bytes_eqb s [46]) eqn:E1.
  - apply bytes_eqb_eq in E1. subst. split; [reflexivity|exact F].
  - apply eqb_neq in E1. unfold is_up. destruct (bytes_eqb s [46; 46]) eqn:E2.
    + apply bytes_eqb_eq in E2. subst s. destruct st as [|t st]; [rewrite walked_cons; split; [reflexivity|]; repeat constructor; auto|].
      destruct (bytes_eqb t [46; 46]) eqn:E3; [rewrite (walked_cons here [46; 46]); split; [reflexivity|]; constructor; auto|].
      apply eqb_neq in E3. inversion F as [|? ? [A B] F']; subst. rewrite walked_cons, (walk_name (walked here st) t) by assumption. split; [reflexivity|exact F'].
    + rewrite walked_cons. split; [reflexivity|]. constructor; auto.
Qed.
Lemma names_walk here ss : forall st, Forall (fun t => t <> [] /\ t <> [46]) st -> Forall (fun s => s <> []) (removelast ss) ->
  let (st', cur) := names st ss in walk (walked here st') cur = fold_left walk ss (walked here st) /\ Forall (fun t => t <> [] /\ t <> [46]) st'.
Proof.
  induction ss as [|s ss IH]; intros st F N; cbn [names]; [cbn; auto|]. destruct ss as [|s' ss]; [cbn; auto|].
  change (removelast (s :: s' :: ss)) with (s :: removelast (s' :: ss)) in N. inversion N as [|? ? N1 N2]; subst.
  destruct (step_walk here st s F N1) as [W F']. specialize (IH (step st s) F' N2). destruct (names (step st s) (s' :: ss)) as [st' cur]. destruct IH as [I1 I2].
  split; [|exact I2]. rewrite I1. cbn [fold_left]. rewrite W. reflexivity.
Qed.
Lemma absolute_split p : absolute p = match split p with [] :: _ :: _ => true | _ => false end.
Proof. destruct p as [|b p]; [reflexivity|]. cbn. destruct (b =? 47); [destruct (split_cons p) as (s & ss & ->); reflexivity|]. destruct (split_cons p) as (s & ss & ->). destruct ss; reflexivity. Qed.

Lemma relative_same p q : ws_unix_path p = Some q -> no_empty (slashed p) -> absolute (slashed p) = false ->
  absolute q = false /\ forall here, resolve here q = resolve here (slashed p).
Proof.
  intros H N A. pose proof (result_names p q H) as R. unfold resolve. rewrite A. unfold no_empty, inner in N.
  assert (G : forall here, let (st, cur) := names [] (split (slashed p)) in walk (walked here st) cur = fold_left walk (split (slashed p)) here /\ Forall (fun t => t <> [] /\ t <> [46]) st).
  { intros here. apply (names_walk here (split (slashed p)) [] (Forall_nil _) N). }
  destruct (names [] (split (slashed p))) as [st cur]. destruct R as (F & P & R).
  assert (Ab : absolute q = false).
  { rewrite absolute_split. destruct (G []) as [_ G2]. destruct R as [(C1 & C2 & _)|(C1 & t & st' & -> & C2 & _)]; rewrite C2.
    - destruct st as [|t st] using rev_ind; [cbn; destruct cur; [congruence|reflexivity]|]. clear IHst. rewrite rev_app_distr. cbn. apply Forall_app in G2. destruct G2 as [_ G2].
      inversion G2 as [|? ? [G3 _] _]. destruct t; [congruence|]. reflexivity.
    - destruct st' as [|u st'] using rev_ind; [cbn; inversion G2 as [|? ? [G3 _] _]; destruct t; [congruence|reflexivity]|]. clear IHst'. cbn [rev]. rewrite rev_app_distr. cbn.
      inversion G2 as [|? ? _ G4]. apply Forall_app in G4. destruct G4 as [_ G4]. inversion G4 as [|? ? [G3 _] _]. destruct u; [congruence|]. reflexivity. }
  split; [exact Ab|]. intros here. rewrite Ab. destruct (G here) as [G1 G2]. destruct R as [(C1 & C2 & _)|(C1 & t & st' & -> & C2 & _)]; rewrite C2.
  - rewrite fold_left_app. exact G1.
  - rewrite <- G1. subst cur. unfold walk at 2. cbn. reflexivity.
Qed.

(** An absolute path: the empty name before the first slash is at the bottom. *)
Lemma names_bottom ss : forall st, Forall (fun s => s <> [46; 46]) st -> climbs (List.length st) (removelast ss) = false ->
  names (st ++ [[]]) ss = (fst (names st ss) ++ [[]], snd (names st ss)).
Proof.
  induction ss as [|s ss IH]; intros st F C; cbn [names]; [reflexivity|]. destruct ss as [|s' ss]; [reflexivity|].
  change (removelast (s :: s' :: ss)) with (s :: removelast (s' :: ss)) in C. cbn [climbs] in C. unfold step.
  destruct (bytes_eqb s [46]) eqn:E1; [apply IH; assumption|]. unfold is_up. destruct (bytes_eqb s [46; 46]) eqn:E2.
  - destruct st as [|t st]; [discriminate|]. cbn [app List.length] in *. inversion F as [|? ? F1 F2]; subst. rewrite (proj2 (eqb_neq t [46; 46]) F1). apply IH; assumption.
  - apply eqb_neq in E2. change (s :: st ++ [[]]) with ((s :: st) ++ [[]]). apply IH; [constructor; assumption|exact C].
Qed.
Lemma image_bottom st : exists y, image (st ++ [[]]) = 47 :: y.
Proof. induction st as [|t st (y & IH)]; cbn; [eauto|]. rewrite IH. cbn. eauto. Qed.
Lemma image_absolute st cur : absolute (image (st ++ [[]]) ++ cur) = true.
Proof. destruct (image_bottom st) as [y Y]. rewrite Y. reflexivity. Qed.
Lemma absolute_same p q : ws_unix_path p = Some q -> absolute (slashed p) = true -> no_empty (tl (slashed p)) -> climbs 0 (inner (tl (slashed p))) = false -> q <> [] ->
  absolute q = true /\ forall here, resolve here q = resolve here (slashed p).
Proof.
  intros H A N C Q. pose proof (result_names p q H) as R. unfold resolve. rewrite A. destruct (slashed p) as [|b r]; [discriminate|]. cbn [tl] in *. cbn [absolute] in A. cbn [split] in R |- *. rewrite A in R |- *.
  unfold no_empty, inner in *.
  assert (G := names_walk [] (split r) [] (Forall_nil _) N).
  assert (B : names [] ([] :: split r) = (fst (names [] (split r)) ++ [[]], snd (names [] (split r)))).
  { destruct (split_cons r) as (s & ss & Es). rewrite Es in *. change (names [] ([] :: s :: ss)) with (names ([] ++ [[]]) (s :: ss)). apply names_bottom; [constructor|exact C]. }
  rewrite B in R. change (list Z) with bytes in *. destruct (names [] (split r)) as [st cur]. cbn [fst snd] in R. destruct G as [G1 G2]. destruct R as (F & P & R).
  assert (W : fold_left walk (rev (st ++ [[]])) [] = walked [] st) by (rewrite rev_app_distr; reflexivity).
  assert (Ab : absolute q = true).
  { destruct R as [(C1 & C2 & ->)|(C1 & t & st' & E & C2 & ->)].
    - apply image_absolute.
    - destruct st as [|u st]; [cbn in E; injection E as <- <-; contradiction|]. cbn in E. injection E as <- <-. apply image_absolute. }
  split; [exact Ab|]. intros here. rewrite Ab. cbn [fold_left]. change (walk [] []) with (@nil bytes). change (walked [] []) with (@nil bytes) in G1. rewrite <- G1.
  destruct R as [(C1 & C2 & _)|(C1 & t & st' & E & C2 & _)]; rewrite C2.
  - rewrite fold_left_app, rev_app_distr. reflexivity.
  - subst cur. rewrite rev_app_distr. reflexivity.
Qed.

(** ** What the result looks like *)
Lemma image_no_backslash p q : ws_unix_path p = Some q -> ~ In 92 q.
Proof.
  unfold ws_unix_path. intros H. destruct (unix_loop p [] 0) as [r|] eqn:E; [|discriminate]. cbn [bind] in H.
  assert (G : forall p buf last r, ~ In 92 buf -> unix_loop p buf last = Some r -> ~ In 92 r).
  { clear. induction p as [|b p IH]; intros buf last r N H; cbn in H; [congruence|]. destruct (MAX_ARG_SIZE <=? _); [discriminate|]. change BACKSLASH with 92 in H. change SLASH with 47 in H.
    assert (N' : ~ In 92 (buf ++ [if b =? 92 then 47 else b])) by (intros I; apply in_app_or in I; destruct I as [I|[I|[]]]; [auto|]; destruct (b =? 92) eqn:X; lia).
    destruct ((if b =? 92 then 47 else b) =? 47); [|eauto]. eapply IH; [|exact H]. unfold close. clear H. set (buf' := buf ++ _) in *.
    assert (T : forall n, ~ In 92 (firstn n buf')) by (intros n I; apply N'; clear - I; revert n I; induction buf' as [|x y IHy]; intros [|n] I; cbn in *; [easy|easy|easy|]; destruct I as [I|I]; [auto|right; eauto]).
    destruct (_ && _); [apply T|]. destruct (_ && _); [apply T|exact N']. }
  specialize (G p [] 0 r ltac:(intros []) E).
  destruct (zlen r =? 0); [discriminate|]. destruct (_ =? _).
  - injection H as <-. intros I. apply G. clear - I. set (n := Z.to_nat (zlen r - 1)) in *. clearbody n. revert n I. induction r as [|x y IHy]; intros [|n] I; cbn in *; [easy|easy|easy|]; destruct I as [I|I]; [auto|right; eauto].
  - destruct (_ <=? _); [discriminate|]. injection H as <-. exact G.
Qed.
(** The names of the result, all but the last one. *)
Lemma result_normal p q : ws_unix_path p = Some q ->
  exists ups ns, inner q = ups ++ ns /\ Forall (fun s => s = [46; 46]) ups /\ Forall (fun s => s <> [46] /\ s <> [46; 46]) ns.
Proof.
  intros H. pose proof (result_names p q H) as R. pose proof (names_normal (split (slashed p)) [] ltac:(exists [], []; repeat constructor)) as N.
  destruct (names [] (split (slashed p))) as [st cur]. cbn [fst] in N. destruct R as (_ & _ & R). unfold inner. destruct R as [(_ & -> & _)|(_ & t & st' & -> & -> & _)].
  - rewrite removelast_last. exact N.
  - cbn [rev]. rewrite removelast_last. destruct N as (ups & ns & R & U & N). cbn [rev] in R. destruct ns as [|n ns] using rev_ind.
    + rewrite app_nil_r in R. destruct ups as [|u ups] using rev_ind; [destruct (rev st'); discriminate|]. clear IHups. apply app_inj_tail in R. destruct R as [R _]. apply Forall_app in U. destruct U as [U _].
      exists ups, []. rewrite app_nil_r. auto.
    + clear IHns. rewrite app_assoc in R. apply app_inj_tail in R. destruct R as [R _]. apply Forall_app in N. destruct N as [N _]. exists ups, ns. auto.
Qed.

(** ** When the result is defined *)
Lemma zlen_firstn_le n (l : bytes) : zlen (firstn n l) <= zlen l.
Proof. rewrite !zlen_unf, firstn_length. lia. Qed.
Lemma close_le buf last : zlen (close buf last) <= zlen buf.
Proof. unfold close. destruct (_ && _); [apply zlen_firstn_le|]. destruct (_ && _); [apply zlen_firstn_le|lia]. Qed.
Lemma loop_defined p : forall buf last, zlen buf + zlen p <= MAX_ARG_SIZE -> exists r, unix_loop p buf last = Some r /\ zlen r <= zlen buf + zlen p.
Proof.
  induction p as [|b p IH]; intros buf last H; cbn [unix_loop]; [eexists; split; [reflexivity|rewrite zlen_nil; lia]|].
  rewrite zlen_cons in *. pose proof (zlen_nonneg p). replace (MAX_ARG_SIZE <=? zlen buf) with false by lia.
  set (c := if b =? BACKSLASH then SLASH else b). assert (L : zlen (buf ++ [c]) = zlen buf + 1) by apply zlen_end.
  destruct (c =? SLASH).
  - pose proof (close_le (buf ++ [c]) last). destruct (IH (close (buf ++ [c]) last) (zlen (close (buf ++ [c]) last))) as (r & R & B); [lia|]. exists r. split; [exact R|lia].
  - destruct (IH (buf ++ [c]) last) as (r & R & B); [lia|]. exists r. split; [exact R|lia].
Qed.
Lemma names_last ss : forall st, snd (names st ss) = last ss [].
Proof. induction ss as [|s ss IH]; intros st; cbn; [reflexivity|]. destruct ss; [reflexivity|]. apply IH. Qed.
Lemma path_defined p : zlen p < MAX_ARG_SIZE -> last (split (slashed p)) [] <> [] -> exists q, ws_unix_path p = Some q /\ zlen q <= zlen p.
Proof.
  intros L N. destruct (loop_defined p [] 0) as (r & R & B); [rewrite zlen_nil; lia|]. unfold ws_unix_path. rewrite R. cbn [bind]. rewrite zlen_nil in B.
  pose proof (loop_names0 p r R) as X. rewrite <- (names_last _ []) in N. destruct (names [] (split (slashed p))) as [st cur]. cbn [snd] in N. destruct X as (-> & _ & P).
  assert (0 < zlen cur) by (destruct cur; [congruence|rewrite zlen_cons; pose proof (zlen_nonneg cur); lia]).
  rewrite zlen_app in *. pose proof (zlen_nonneg (image st)). replace (zlen (image st) + zlen cur =? 0) with false by lia.
  destruct (at_ _ _ =? SLASH).
  - eexists. split; [reflexivity|]. etransitivity; [apply zlen_firstn_le|]. rewrite zlen_app. lia.
  - replace (MAX_ARG_SIZE <=? zlen (image st) + zlen cur) with false by lia. eexists. split; [reflexivity|]. rewrite zlen_app. lia.
Qed.

(** ** The history of a workspace *)
Lemma once_app l : forall s m, once s (l ++ m) = once (once s l) m.
Proof. induction l as [|x l IH]; intros s m; cbn; [reflexivity|]. apply IH. Qed.
Lemma once_grows l : forall s, exists t, once s l = s ++ t.
Proof.
  induction l as [|x l IH]; intros s; cbn; [exists []; rewrite app_nil_r; reflexivity|]. destruct (existsb (bytes_eqb x) s); [apply IH|].
  destruct (IH (s ++ [x])) as [t ->]. exists (x :: t). rewrite <- app_assoc. reflexivity.
Qed.
Lemma once_keeps l s i x : znth s i = Some x -> znth (once s l) i = Some x.
Proof. intros H. destruct (once_grows l s) as [t ->]. rewrite znth_app1; [exact H|]. apply znth_Some_lt in H. lia. Qed.
Lemma once_nodup l : forall s, NoDup s -> NoDup (once s l).
Proof.
  induction l as [|x l IH]; intros s N; cbn; [exact N|]. apply IH. destruct (existsb (bytes_eqb x) s) eqn:E; [exact N|].
  apply NoDup_rev in N. rewrite <- (rev_involutive (s ++ [x])). apply NoDup_rev. rewrite rev_app_distr. cbn. constructor; [|exact N].
  intros I. apply in_rev in I. assert (existsb (bytes_eqb x) s = true) by (apply existsb_exists; exists x; split; [exact I|apply bytes_eqb_eq; reflexivity]). congruence.
Qed.
Lemma once_in l : forall s x, In x (once s l) <-> In x s \/ In x l.
Proof.
  induction l as [|y l IH]; intros s x; cbn; [tauto|]. rewrite IH. destruct (existsb (bytes_eqb y) s) eqn:E.
  - apply existsb_exists in E. destruct E as (z & I & E). apply bytes_eqb_eq in E. subst z. split; [tauto|]. intros [H|[->|H]]; auto.
  - rewrite in_app_iff. cbn. tauto.
Qed.

Section History.
Variable there : bytes -> bool.
Notation wishes := (map (wish_of ws_unix_path there)).
Notation wish1 := (wish_of ws_unix_path there).

Lemma exists_mem s l : forall i, match ws_exists s l i with Some k => i <= k /\ znth l (k - i) = Some s | None => existsb (bytes_eqb s) l = false end.
Proof.
  induction l as [|x l IH]; intros i; cbn [ws_exists existsb]; [reflexivity|]. destruct (bytes_eqb s x) eqn:E.
  - apply bytes_eqb_eq in E. subst. split; [lia|]. rewrite Z.sub_diag. reflexivity.
  - specialize (IH (i + 1)). destruct (ws_exists s l (i + 1)) as [k|]; [|exact IH]. destruct IH as [A B]. split; [lia|]. rewrite znth_cons_pos by lia. replace (k - i - 1) with (k - (i + 1)) by lia. exact B.
Qed.
Lemma exists_some s l i k : ws_exists s l i = Some k -> existsb (bytes_eqb s) l = true.
Proof.
  intros H. pose proof (exists_mem s l i) as M. rewrite H in M. destruct M as [_ M]. apply znth_In in M. apply existsb_exists. exists s. split; [exact M|]. apply bytes_eqb_eq. reflexivity.
Qed.
Lemma add_string_once l s : let (i, l') := ws_add_string l s in l' = once l [s] /\ znth l' i = Some s.
Proof.
  unfold ws_add_string. pose proof (exists_mem s l 0) as M. destruct (ws_exists s l 0) as [k|] eqn:E.
  - cbn [once]. rewrite (exists_some _ _ _ _ E). destruct M as [_ M]. rewrite Z.sub_0_r in M. auto.
  - cbn [once]. rewrite M. split; [reflexivity|]. rewrite znth_app2 by lia. rewrite Z.sub_diag. reflexivity.
Qed.
(** What a call does to a correct workspace. *)
Definition granting (w : workspace) (x : wish) : workspace :=
  match x with
  | WFile p => mkWs (once (files w) [p]) (dirs w) (flags w) (output w) (was_error w)
  | WDir p => mkWs (files w) (once (dirs w) [p]) (flags w) (output w) (was_error w)
  | WFlag p => mkWs (files w) (dirs w) (once (flags w) [p]) (output w) (was_error w)
  | WOutput p => mkWs (files w) (dirs w) (flags w) p (was_error w)
  | _ => ws_add_error w
  end.
Definition placed_at (w : workspace) (x : wish) (i : Z) : Prop :=
  match x with
  | WFile p => znth (files w) i = Some p
  | WDir p => znth (dirs w) i = Some p
  | WFlag p => znth (flags w) i = Some p
  | _ => True
  end.
Lemma call_wish w o : was_error w = false ->
  match wish1 o with
  | WUndefined => call there w o = None
  | x => if granted x then exists i, call there w o = Some (Some i, granting w x) /\ placed_at (granting w x) x i
         else call there w o = Some (None, ws_add_error w)
  end.
Proof.
  intros H. assert (C : ws_is_correct w = true) by (unfold ws_is_correct; rewrite H; reflexivity).
  assert (D : forall p, match wish_path ws_unix_path there WDir p with
    | WUndefined => ws_add_dir there w p = None
    | x => if granted x then exists i, ws_add_dir there w p = Some (Some i, granting w x) /\ placed_at (granting w x) x i
           else ws_add_dir there w p = Some (None, ws_add_error w) end).
  { intros [p|]; cbn [wish_path]; [|reflexivity]. unfold ws_add_dir, ws_add_path. rewrite C. cbn [negb]. destruct (ws_unix_path p) as [q|]; cbn [bind]; [|reflexivity].
    destruct (there q); cbn; [|reflexivity]. pose proof (add_string_once (dirs w) q) as A. destruct (ws_add_string (dirs w) q) as [i l]. destruct A as [-> A]. exists i. split; [reflexivity|exact A]. }
  destruct o as [p|p|f|p]; cbn [wish_of call].
  - destruct p as [p|]; cbn [wish_path]; [|reflexivity]. unfold ws_add_file, ws_add_path. rewrite C. cbn [negb]. destruct (ws_unix_path p) as [q|]; cbn [bind]; [|reflexivity].
    destruct (there q); cbn; [|reflexivity]. pose proof (add_string_once (files w) q) as A. destruct (ws_add_string (files w) q) as [i l]. destruct A as [-> A]. exists i. split; [reflexivity|exact A].
  - apply D.
  - destruct f as [f|]; [|reflexivity]. unfold ws_add_flag. rewrite C. cbn [negb].
    assert (K : match f with 45 :: 73 :: dir => ws_add_dir there w (Some dir) | _ => let (i, l) := ws_add_string (flags w) f in Some (Some i, mkWs (files w) (dirs w) l (output w) (was_error w)) end
      = if bytes_eqb (firstn 2 f) [45; 73] then ws_add_dir there w (Some (skipn 2 f)) else let (i, l) := ws_add_string (flags w) f in Some (Some i, mkWs (files w) (dirs w) l (output w) (was_error w))).
    { destruct (bytes_eqb (firstn 2 f) [45; 73]) eqn:E.
      - apply bytes_eqb_eq in E. destruct f as [|a [|b f]]; try discriminate. cbn in E. injection E as -> ->. reflexivity.
      - apply eqb_neq in E. destruct f as [|a [|b f]]; [reflexivity|destruct a as [|a|a]; try reflexivity; do 6 (destruct a as [a|a|]; try reflexivity)|].
        destruct (Z.eq_dec a 45) as [->|A]; [|destruct a as [|a|a]; try reflexivity; do 6 (destruct a as [a|a|]; try reflexivity); exfalso; apply A; reflexivity].
        destruct (Z.eq_dec b 73) as [->|B]; [exfalso; apply E; reflexivity|]. destruct b as [|b|b]; try reflexivity; do 7 (destruct b as [b|b|]; try reflexivity); exfalso; apply B; reflexivity. }
    rewrite K. destruct (bytes_eqb (firstn 2 f) [45; 73]); [apply D|]. cbn. pose proof (add_string_once (flags w) f) as A. destruct (ws_add_string (flags w) f) as [i l]. destruct A as [-> A]. exists i. split; [reflexivity|exact A].
  - destruct p as [p|]; [|reflexivity]. unfold ws_set_output. rewrite C. cbn [negb]. change MAX_ARG_SIZE with 1024. destruct (zlen p <? 1024) eqn:E.
    + replace (1024 <=? zlen p) with false by lia. cbn. exists 0. auto.
    + replace (1024 <=? zlen p) with true by lia. reflexivity.
Qed.
Lemma call_error w o : was_error w = true -> call there w o = Some (None, ws_add_error w).
Proof.
  intros H. assert (C : ws_is_correct w = false) by (unfold ws_is_correct; rewrite H; reflexivity).
  destruct o as [[p|]|[p|]|[f|]|[p|]]; cbn; unfold ws_add_file, ws_add_dir, ws_add_path, ws_add_flag, ws_set_output; rewrite ?C; reflexivity.
Qed.
Lemma add_error_same w : was_error w = true -> ws_add_error w = w.
Proof. destruct w; cbn. intros ->. reflexivity. Qed.
Lemma run_error l : forall w, was_error w = true -> run there w l = Some (map (fun _ => None) l, w).
Proof.
  induction l as [|o l IH]; intros w H; cbn [run map]; [reflexivity|]. rewrite call_error by exact H. cbn [bind]. rewrite add_error_same by exact H. rewrite (IH w H). reflexivity.
Qed.
Lemma last_cons (m : list bytes) x d : last m x = last (x :: m) d.
Proof. revert x d. induction m as [|y m IH]; intros x d; [reflexivity|]. change (last (y :: m) x = last (y :: m) d). rewrite <- (IH y x), <- (IH y d). reflexivity. Qed.
(** The workspace after the wishes. *)
Definition after (w : workspace) (l : list wish) : workspace :=
  mkWs (once (files w) (file_wishes (prefix l))) (once (dirs w) (dir_wishes (prefix l))) (once (flags w) (flag_wishes (prefix l)))
    (last (output_wishes (prefix l)) (output w)) (negb (forallb granted l)).
Lemma run_after l : forall w, was_error w = false ->
  match run there w l with
  | Some (a, w') => w' = after w (wishes l)
  | None => exists l1 o l2, l = l1 ++ o :: l2 /\ forallb granted (wishes l1) = true /\ wish1 o = WUndefined
  end.
Proof.
  induction l as [|o l IH]; intros w H; cbn [run map].
  - unfold after. cbn. destruct w; cbn in *; subst; reflexivity.
  - pose proof (call_wish w o H) as K.
    assert (Gr : granted (wish1 o) = true -> exists i, call there w o = Some (Some i, granting w (wish1 o))).
    { intros G. destruct (wish1 o); try discriminate; destruct K as (i & K & _); eauto. }
    destruct (granted (wish1 o)) eqn:G.
    + destruct (Gr eq_refl) as (i & E). rewrite E. cbn [bind].
      assert (H' : was_error (granting w (wish1 o)) = false) by (destruct (wish1 o); try discriminate; exact H).
      specialize (IH _ H'). destruct (run there (granting w (wish1 o)) l) as [[a w']|]; cbn [bind].
      * rewrite IH. unfold after. cbn [prefix forallb map]. rewrite G. cbn [andb].
        destruct (wish1 o); try discriminate; cbn [granting files dirs flags output file_wishes dir_wishes flag_wishes output_wishes flat_map app]; rewrite <- ?once_app; try reflexivity.
        f_equal. apply last_cons.
      * destruct IH as (l1 & o' & l2 & -> & A & B). exists (o :: l1), o', l2. split; [reflexivity|]. split; [|exact B]. cbn. rewrite G. exact A.
    + destruct (wish1 o) eqn:W; try discriminate; cbn [granted] in K.
      * rewrite K. cbn [bind]. rewrite run_error by reflexivity. cbn [bind]. unfold after. cbn [map prefix forallb]. rewrite ?W. reflexivity.
      * rewrite K. cbn [bind]. exists [], o, l. split; [reflexivity|]. split; [reflexivity|exact W].
Qed.
(** The answer to a call says where its wish is; it stays there. *)
Lemma run_answers l : forall w a w', was_error w = false -> run there w l = Some (a, w') ->
  zlen a = zlen l /\ forall k o, znth l k = Some o ->
   match znth a k with
   | Some (Some i) => forallb granted (wishes (firstn (Z.to_nat (k + 1)) l)) = true /\ placed_at w' (wish1 o) i
   | Some None => forallb granted (wishes (firstn (Z.to_nat (k + 1)) l)) = false
   | None => False
   end.
Proof.
  induction l as [|o l IH]; intros w a w' H R; cbn [run] in R.
  - injection R as <- <-. split; [reflexivity|]. intros k o X. apply znth_Some_lt in X. rewrite zlen_unf in X. cbn in X. lia.
  - pose proof (call_wish w o H) as K. destruct (call there w o) as [[r w1]|] eqn:E; [|discriminate]. cbn [bind] in R.
    destruct (run there w1 l) as [[s w2]|] eqn:R1; [|discriminate]. cbn [bind] in R. injection R as <- <-.
    destruct (granted (wish1 o)) eqn:G.
    + assert (exists i, r = Some i /\ w1 = granting w (wish1 o) /\ placed_at w1 (wish1 o) i) as (i & -> & E1 & Pl).
      { destruct (wish1 o); try discriminate; cbn [granted] in K; destruct K as (i & K & P); injection K as -> ->; eauto. }
      assert (H' : was_error w1 = false) by (subst w1; destruct (wish1 o); try discriminate; exact H).
      destruct (IH _ _ _ H' R1) as [L A]. split; [rewrite !zlen_cons; lia|]. intros k o' X.
      pose proof (znth_Some_lt _ _ _ X) as B. rewrite zlen_cons in B. destruct (Z.eq_dec k 0) as [->|N].
      * rewrite znth_cons_0 in X. injection X as <-. rewrite znth_cons_0. cbv iota. split; [change (granted (wish1 o) && true = true); rewrite G; reflexivity|].
        pose proof (run_after l w1 H') as RA. rewrite R1 in RA. subst w2. destruct (wish1 o); try exact Logic.I; apply once_keeps; exact Pl.
      * rewrite znth_cons_pos in X by lia. rewrite znth_cons_pos by lia. specialize (A _ _ X). replace (Z.to_nat (k + 1)) with (S (Z.to_nat (k - 1 + 1))) by lia. cbn [firstn map forallb]. rewrite G. exact A.
    + assert (r = None /\ w1 = ws_add_error w) as [-> ->].
      { destruct (wish1 o); try discriminate; cbn [granted] in K; injection K as -> ->; auto. }
      rewrite run_error in R1 by reflexivity. injection R1 as <- <-.
      split; [rewrite !zlen_cons, !zlen_unf, map_length; lia|]. intros k o' X. pose proof (znth_Some_lt _ _ _ X) as B. replace (Z.to_nat (k + 1)) with (S (Z.to_nat k)) by lia. cbn [firstn map forallb]. rewrite G. cbn [andb].
      assert (N : znth (None :: map (fun _ : op => @None Z) l) k = Some None).
      { change (None :: map (fun _ : op => @None Z) l) with (map (fun _ : op => @None Z) (o :: l)). rewrite znth_map, X. reflexivity. }
      rewrite N. reflexivity.
Qed.
(** The arguments of the program are such a history. *)
Lemma parse_run args : forall w, was_error w = false -> ws_parse there w args = do ' (_, w) <- run there w (commands args); Some w.
Proof.
  assert (F : forall n args, (List.length args <= n)%nat -> forall w, was_error w = false -> ws_parse there w args = do ' (_, w) <- run there w (commands args); Some w).
  { clear args. induction n as [|n IH]; intros args Ln w H; [destruct args; [reflexivity|cbn in Ln; lia]|]. destruct args as [|[a|] args]; [reflexivity| |reflexivity].
    cbn in Ln. assert (IHa := IH args ltac:(lia)). cbn [commands].
    assert (Step : forall o r w1, call there w o = Some (r, w1) -> was_error w1 = match r with Some _ => false | None => true end).
    { intros o r w1 E. pose proof (call_wish w o H) as K. destruct (wish1 o); cbn [granted] in K; try (destruct K as (i & K & _)); rewrite E in K; try discriminate; injection K as -> ->; cbn; auto. }
    assert (Fl : forall o, match call there w o with Some (Some _, w1) => ws_parse there w1 args | Some (None, w1) => Some w1 | None => None end
      = do ' (_, w) <- run there w (o :: commands args); Some w).
    { intros o. cbn [run]. pose proof (Step o) as S1. destruct (call there w o) as [[[r|] w1]|]; cbn [bind]; [| |reflexivity].
      - rewrite IHa by (apply (S1 _ _ eq_refl)). destruct (run there w1 (commands args)) as [[? ?]|]; reflexivity.
      - rewrite run_error by (apply (S1 _ _ eq_refl)). reflexivity. }
    destruct (bytes_eqb a [45; 111]) eqn:E.
    - apply bytes_eqb_eq in E. subst a. cbn [ws_parse]. destruct args as [|o args]; [reflexivity|]. cbn [run call]. cbn in Ln. assert (IHb := IH args ltac:(lia)).
      destruct o as [o|]; unfold ws_set_output; [|cbn [bind]; cbn iota; rewrite run_error by reflexivity; reflexivity].
      assert (C : ws_is_correct w = true) by (unfold ws_is_correct; rewrite H; reflexivity). rewrite C. cbn [negb]. destruct (MAX_ARG_SIZE <=? zlen o); cbn [bind]; [reflexivity|]. rewrite IHb by exact H.
      match goal with |- context [run there ?x ?y] => destruct (run there x y) as [[? ?]|] end; reflexivity.
    - apply eqb_neq in E. destruct (bytes_eqb (firstn 1 a) [45]) eqn:E1.
      + apply bytes_eqb_eq in E1. destruct a as [|b a]; [discriminate|]. cbn in E1. injection E1 as ->. etransitivity; [|apply (Fl (OFlag (Some (45 :: a))))]. cbn [call].
        assert (P : ws_parse there w (Some (45 :: a) :: args) = do ' (r, w) <- ws_add_flag there w (Some (45 :: a)); match r with Some _ => ws_parse there w args | None => Some w end).
        { cbn [ws_parse]. destruct a as [|c [|d a]]; [reflexivity| |destruct c as [|c|c]; try reflexivity; do 7 (destruct c as [c|c|]; try reflexivity)].
          destruct (Z.eq_dec c 111) as [->|Nc]; [congruence|]. destruct c as [|c|c]; try reflexivity; do 7 (destruct c as [c|c|]; try reflexivity). exfalso; apply Nc; reflexivity. }
        etransitivity; [exact P|]. destruct (ws_add_flag there w (Some (45 :: a))) as [[[r|] w1]|]; reflexivity.
      + apply eqb_neq in E1. etransitivity; [|apply (Fl (OFile (Some a)))]. cbn [call].
        assert (P : ws_parse there w (Some a :: args) = do ' (r, w) <- ws_add_file there w (Some a); match r with Some _ => ws_parse there w args | None => Some w end).
        { cbn [ws_parse]. destruct a as [|c a]; [reflexivity|]. destruct (Z.eq_dec c 45) as [->|Nc]; [cbn in E1; congruence|].
          destruct c as [|c|c]; try reflexivity; do 6 (destruct c as [c|c|]; try reflexivity). exfalso; apply Nc; reflexivity. }
        etransitivity; [exact P|]. destruct (ws_add_file there w (Some a)) as [[[r|] w1]|]; reflexivity. }
  intros w H. apply (F (List.length args)); [lia|exact H].
Qed.
(** The calls with arrays are such a history too. *)
Lemma array_history add mk : (forall w x, add w x = call there w (mk x)) -> forall l w, was_error w = false ->
  ws_add_array add w l = do ' (_, w) <- run there w (map mk l); Some (negb (was_error w), w).
Proof.
  intros A. induction l as [|x l IH]; intros w H; cbn [ws_add_array run map bind]; [rewrite H; reflexivity|]. rewrite A. pose proof (call_wish w (mk x) H) as K.
  destruct (call there w (mk x)) as [[r w1]|] eqn:E; cbn [bind]; [|reflexivity].
  assert (H1 : was_error w1 = match r with Some _ => false | None => true end).
  { destruct (wish1 (mk x)); cbn [granted] in K; try (destruct K as (i & K & _)); try discriminate; injection K as -> ->; cbn; auto. }
  destruct r.
  - rewrite IH by exact H1. destruct (run there w1 (map mk l)) as [[? ?]|]; reflexivity.
  - rewrite run_error by exact H1. cbn [bind]. rewrite H1. reflexivity.
Qed.
End History.

Lemma prefix_all l : forallb granted l = true -> prefix l = l.
Proof. induction l as [|x l IH]; cbn; [reflexivity|]. destruct (granted x); [|discriminate]. intros H. rewrite IH by exact H. reflexivity. Qed.
Lemma history there ops answers w : run there ws_create ops = Some (answers, w) ->
  let wishes := map (wish_of ws_unix_path there) ops in
  if forallb granted wishes
  then ws_is_correct w = true
    /\ (forall i, ws_get_file w i = znth (once [] (file_wishes wishes)) i) /\ ws_get_files_num w = zlen (once [] (file_wishes wishes))
    /\ (forall i, ws_get_dir w i = znth (once [] (dir_wishes wishes)) i) /\ ws_get_dirs_num w = zlen (once [] (dir_wishes wishes))
    /\ (forall i, ws_get_flag w i = znth (once [] (flag_wishes wishes)) i) /\ ws_get_flags_num w = zlen (once [] (flag_wishes wishes))
    /\ (forall f, ws_has_flag w f = true <-> In f (flag_wishes wishes))
    /\ ws_get_output w = match last (output_wishes wishes) [] with [] => None | o => Some o end
  else ws_is_correct w = false
    /\ (forall i, ws_get_file w i = None /\ ws_get_dir w i = None /\ ws_get_flag w i = None)
    /\ ws_get_files_num w = 0 /\ ws_get_dirs_num w = 0 /\ ws_get_flags_num w = 0
    /\ (forall f, ws_has_flag w f = false) /\ ws_get_output w = None
    /\ (forall later, run there w later = Some (map (fun _ => None) later, w)).
Proof.
  intros R wishes. pose proof (run_after there ops ws_create eq_refl) as A. rewrite R in A. fold wishes in A.
  destruct (forallb granted wishes) eqn:G.
  - assert (C : ws_is_correct w = true) by (subst w; unfold ws_is_correct, after; cbn [was_error]; rewrite G; reflexivity).
    unfold ws_get_file, ws_get_dir, ws_get_flag, ws_get_files_num, ws_get_dirs_num, ws_get_flags_num, ws_get, ws_num, ws_get_output, ws_has_flag. rewrite C.
    subst w. unfold after. rewrite (prefix_all _ G). cbn [files dirs flags output ws_create andb].
    do 7 (split; [reflexivity|]). split; [|reflexivity]. intros f. pose proof (once_in (flag_wishes wishes) [] f) as O. rewrite existsb_exists.
    split; [intros (x & I & E); apply bytes_eqb_eq in E; subst; apply O in I; destruct I as [[]|I]; exact I|].
    intros I. exists f. split; [apply O; auto|apply bytes_eqb_eq; reflexivity].
  - assert (Er : was_error w = true) by (subst w; unfold after; cbn [was_error]; rewrite G; reflexivity).
    assert (C : ws_is_correct w = false) by (unfold ws_is_correct; rewrite Er; reflexivity).
    unfold ws_get_file, ws_get_dir, ws_get_flag, ws_get_files_num, ws_get_dirs_num, ws_get_flags_num, ws_get, ws_num, ws_get_output, ws_has_flag. rewrite C. cbn [andb].
    repeat (split; [auto|]). intros later. apply run_error. exact Er.
Qed.
Lemma once_laws (l : list bytes) : NoDup (once [] l) /\ (forall x, In x (once [] l) <-> In x l) /\ (forall m, exists t, once [] (l ++ m) = once [] l ++ t).
Proof.
  split; [apply once_nodup; constructor|]. split; [intros x; rewrite once_in; cbn; tauto|]. intros m. rewrite once_app. apply once_grows.
Qed.

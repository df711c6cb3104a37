(** Proofs about the linker. *)
From Verif Require Import Prelude LVec WsModel WsSpec WsProofs IncSpec IncModel.

(** ** Paths *)
Lemma inner_cons b p : inner (b :: p) = if b =? 47 then [] :: inner p
  else match inner p with s :: ss => (b :: s) :: ss | [] => [] end.
Proof.
  unfold inner. cbn [split]. destruct (split_cons p) as (s & ss & E). rewrite E.
  destruct (b =? 47); [reflexivity|]. destruct ss; reflexivity.
Qed.
Lemma upto_directory p : upto_slash p = directory p.
Proof.
  unfold directory. induction p as [|b p IH]; [reflexivity|]. rewrite inner_cons. cbn [upto_slash]. rewrite IH.
  unfold SLASH. destruct (b =? 47) eqn:B.
  - apply Z.eqb_eq in B; subst b. cbn [flat_map]. cbn [app]. destruct (flat_map (fun s : list Z => s ++ [47]) (inner p)); reflexivity.
  - destruct (inner p) as [|s ss]; [reflexivity|]. cbn [flat_map]. rewrite <- !app_assoc. cbn [app].
    destruct (s ++ 47 :: flat_map (fun s => s ++ [47]) ss) eqn:E; [destruct s; discriminate|]. reflexivity.
Qed.
Lemma copy_plain name : forall buf, plain_name name -> zlen (buf ++ name) < 1024 -> copy_name name buf = Some (buf ++ name).
Proof.
  induction name as [|b name IH]; intros buf [P1 P2] L; cbn [copy_name]; unfold MAX_ARG_SIZE.
  - rewrite app_nil_r in *. destruct (1024 <=? zlen buf) eqn:E; [lia|reflexivity].
  - rewrite zlen_app, zlen_cons in L. pose proof (zlen_nonneg name).
    destruct (1024 <=? zlen buf) eqn:E; [lia|].
    assert (b <> 92) by (intros ->; apply P1; left; reflexivity).
    assert (b <> 10) by (intros ->; apply P2; left; reflexivity).
    unfold BACKSLASH, SLASH. replace (b =? 10) with false by lia. replace (b =? 92) with false by lia. cbn [orb andb].
    rewrite IH.
    + rewrite <- app_assoc. reflexivity.
    + split; intros H2; [apply P1|apply P2]; right; exact H2.
    + rewrite <- app_assoc. cbn [app]. rewrite zlen_app, zlen_cons. lia.
Qed.
Lemma make_beside name here : plain_name name -> zlen (beside here name) < 1024 -> linker_make_path name here true = Some (beside here name).
Proof.
  intros P L. unfold linker_make_path. destruct here as [p|]; cbn [beside] in *.
  - rewrite upto_directory. apply copy_plain; assumption.
  - apply (copy_plain name []); assumption.
Qed.
Lemma make_listed name d : plain_name name -> zlen (d ++ [47] ++ name) < 1024 -> linker_make_path name (Some d) false = Some (d ++ [47] ++ name).
Proof.
  intros P L. unfold linker_make_path. rewrite app_assoc in *. apply copy_plain; assumption.
Qed.

(** ** The invariant of a linker: [sn] are the files which were read. *)
Section Linker.
Variables (there opens : bytes -> bool).
Definition inv (lk : linker) (sn : list bytes) : Prop :=
  let fs := files (l_ws lk) in
  NoDup fs /\ zlen (l_included lk) = zlen fs
  /\ (forall i p, znth fs i = Some p -> lv_get (l_included lk) i = if existsb (bytes_eqb p) sn then 1 else 0)
  /\ Forall (fun p => In p fs) sn
  /\ match sn with
     | [] => l_current lk = None
     | p :: _ => exists i, l_current lk = Some i /\ znth fs i = Some p
     end.

Lemma nodup_snoc (l : list bytes) x : NoDup l -> ~ In x l -> NoDup (l ++ [x]).
Proof.
  intros D N. apply NoDup_rev in D. rewrite <- (rev_involutive (l ++ [x])). apply NoDup_rev. rewrite rev_app_distr. cbn.
  constructor; [rewrite <- in_rev; exact N|exact D].
Qed.
Lemma existsb_in p (l : list bytes) : existsb (bytes_eqb p) l = true <-> In p l.
Proof.
  rewrite existsb_exists. split.
  - intros (x & I & E). apply bytes_eqb_eq in E. subst; exact I.
  - intros I. exists p. split; [exact I|]. apply bytes_eqb_eq. reflexivity.
Qed.
Lemma existsb_out p (l : list bytes) : existsb (bytes_eqb p) l = false <-> ~ In p l.
Proof. rewrite <- existsb_in. destruct (existsb _ l); intuition congruence. Qed.
Lemma znth_in {A} (l : list A) i x : znth l i = Some x -> In x l.
Proof. rewrite znth_unf. destruct (i <? 0); [discriminate|]. apply nth_error_In. Qed.
Lemma nodup_znth (l : list bytes) : NoDup l -> forall i j x, znth l i = Some x -> znth l j = Some x -> i = j.
Proof.
  intros N i j x. rewrite !znth_unf. destruct (i <? 0) eqn:I; [discriminate|]. destruct (j <? 0) eqn:J; [discriminate|].
  intros A B. rewrite NoDup_nth_error in N. specialize (N (Z.to_nat i) (Z.to_nat j)).
  assert (Z.to_nat i = Z.to_nat j) by (apply N; [apply nth_error_Some; congruence|congruence]). lia.
Qed.

(** A file gets a number. *)
Lemma add_string_cases l s : let (i, l') := ws_add_string l s in
  (In s l /\ l' = l /\ znth l i = Some s) \/ (~ In s l /\ l' = l ++ [s] /\ i = zlen l).
Proof.
  unfold ws_add_string. pose proof (exists_mem (fun _ => true) s l 0) as M. destruct (ws_exists s l 0) as [k|].
  - left. destruct M as [_ M]. rewrite Z.sub_0_r in M. split; [apply znth_in in M; exact M|]. split; [reflexivity|exact M].
  - right. apply existsb_out in M. split; [exact M|]. split; reflexivity.
Qed.
Lemma number_inv lk sn path r lk' : inv lk sn -> number_file there lk path = Some (r, lk') ->
  inv lk' sn /\ l_current lk' = l_current lk /\ dirs (l_ws lk') = dirs (l_ws lk)
  /\ (exists t, files (l_ws lk') = files (l_ws lk) ++ t)
  /\ match r with
     | Some i => ws_is_correct (l_ws lk') = true /\ exists q, ws_unix_path path = Some q /\ there q = true /\ znth (files (l_ws lk')) i = Some q
     | None => ws_is_correct (l_ws lk') = false
     end.
Proof.
  intros (N & L & M & F & C) H. unfold number_file, ws_add_file, ws_add_path in H.
  assert (same : forall lk2, files (l_ws lk2) = files (l_ws lk) -> l_included lk2 = l_included lk -> l_current lk2 = l_current lk -> inv lk2 sn).
  { intros lk2 E1 E2 E3. unfold inv. rewrite E1, E2, E3. repeat split; assumption. }
  destruct (ws_is_correct (l_ws lk)) eqn:OK; cbn [negb] in H.
  2:{ injection H as <- <-. split; [apply same; reflexivity|]. repeat split.
      - exists []. rewrite app_nil_r. reflexivity. }
  destruct (ws_unix_path path) as [q|] eqn:Q; cbn [bind] in H; [|discriminate H].
  destruct (there q) eqn:T.
  2:{ injection H as <- <-. split; [apply same; reflexivity|]. repeat split.
      - exists []. rewrite app_nil_r. reflexivity. }
  pose proof (add_string_cases (files (l_ws lk)) q) as A. destruct (ws_add_string (files (l_ws lk)) q) as [i l'].
  injection H as <- <-. cbn [l_ws files dirs l_current ws_is_correct was_error l_included].
  assert (SZ : ws_get_files_num (l_ws lk) = zlen (files (l_ws lk))) by (unfold ws_get_files_num, ws_num; rewrite OK; reflexivity).
  destruct A as [(I & -> & Z0)|(I & -> & ->)].
  - rewrite SZ. assert (i =? zlen (files (l_ws lk)) = false) as -> by (apply znth_Some_lt in Z0; lia).
    split; [apply same; reflexivity|]. split; [reflexivity|]. split; [reflexivity|]. split; [exists []; rewrite app_nil_r; reflexivity|].
    split; [exact OK|]. exists q. repeat split; assumption.
  - rewrite SZ, Z.eqb_refl. split.
    + unfold inv. cbn [l_ws files l_included l_current]. split; [|split; [|split; [|split]]].
      * apply nodup_snoc; assumption.
      * rewrite zlen_lv_add, zlen_app, zlen_cons, zlen_nil. lia.
      * intros i p Z1. destruct (Z.lt_ge_cases i (zlen (files (l_ws lk)))) as [LT|GE].
        -- rewrite znth_app1 in Z1 by lia. unfold lv_add. rewrite lv_get_app1 by lia. apply M; exact Z1.
        -- rewrite znth_app2 in Z1 by lia. pose proof (znth_Some_lt _ _ _ Z1) as R. assert (zlen [q] = 1) as Q1 by reflexivity. rewrite Q1 in R.
           assert (i = zlen (files (l_ws lk))) by lia. subst i. rewrite Z.sub_diag, znth_cons_0 in Z1. injection Z1 as <-.
           unfold lv_add. rewrite lv_get_app2 by lia. rewrite L, Z.sub_diag. rewrite (lv_get_in _ _ 0 (znth_cons_0 0 [])).
           assert (existsb (bytes_eqb q) sn = false) as ->; [|reflexivity].
           apply existsb_out. intros Q2. apply I. rewrite Forall_forall in F. exact (F q Q2).
      * eapply Forall_impl; [|exact F]. intros p P. apply in_or_app. left; exact P.
      * destruct sn as [|p sn]; [exact C|]. destruct C as (i & C1 & C2). exists i. split; [exact C1|].
        rewrite znth_app1; [exact C2|]. apply znth_Some_lt in C2. lia.
    + split; [reflexivity|]. split; [reflexivity|]. split; [exists [q]; reflexivity|]. split; [exact OK|].
      exists q. split; [reflexivity|]. split; [exact T|]. rewrite znth_app2 by lia. rewrite Z.sub_diag. apply znth_cons_0.
Qed.

(** A file is read. *)
Lemma begin_inv lk sn i p : inv lk sn -> znth (files (l_ws lk)) i = Some p ->
  inv (mkLk (l_ws lk) (lv_set (l_included lk) i 1) (Some i)) (p :: sn).
Proof.
  intros (N & L & M & F & C) Z0. unfold inv. cbn [l_ws l_included l_current].
  split; [exact N|]. split; [rewrite zlen_lv_set; exact L|]. split; [|split].
  - intros j q Z1. pose proof (znth_Some_lt _ _ _ Z0). destruct (Z.eq_dec i j) as [<-|NE].
    + assert (q = p) as -> by congruence. rewrite lv_get_set_same by lia. cbn [existsb].
      assert (bytes_eqb p p = true) as -> by (apply bytes_eqb_eq; reflexivity). reflexivity.
    + rewrite lv_get_set_other by exact NE. rewrite (M _ _ Z1). cbn [existsb].
      assert (bytes_eqb q p = false) as ->; [|reflexivity].
      apply eqb_neq. intros ->. apply NE. eapply nodup_znth; eassumption.
  - constructor; [apply znth_in in Z0; exact Z0|exact F].
  - exists i. split; [reflexivity|exact Z0].
Qed.
Lemma header_cases lk sn i p : inv lk sn -> ws_is_correct (l_ws lk) = true -> znth (files (l_ws lk)) i = Some p ->
  let fresh := negb (existsb (bytes_eqb p) sn || negb (opens p)) in
  let (ok, lk') := linker_add_header opens lk i in
  ok = fresh /\ l_ws lk' = l_ws lk /\ inv lk' (if fresh then p :: sn else sn).
Proof.
  intros I OK Z0. cbn zeta. unfold linker_add_header, linker_is_correct, opens_file, ws_get_file, ws_get. rewrite OK, Z0.
  pose proof I as (_ & _ & M & _). rewrite (M _ _ Z0). destruct (existsb (bytes_eqb p) sn); cbn [negb orb andb Z.eqb].
  - split; [reflexivity|]. split; [reflexivity|exact I].
  - rewrite negb_involutive. destruct (opens p).
    + split; [reflexivity|]. split; [reflexivity|]. apply begin_inv; assumption.
    + split; [reflexivity|]. split; [reflexivity|exact I].
Qed.

(** ** Any history: no header is read twice. *)
Definition keeps (lk lk' : linker) (sn : list bytes) : Prop :=
  inv lk' sn /\ dirs (l_ws lk') = dirs (l_ws lk) /\ exists t, files (l_ws lk') = files (l_ws lk) ++ t.
Lemma keeps_refl lk sn : inv lk sn -> keeps lk lk sn.
Proof. intros I. split; [exact I|]. split; [reflexivity|]. exists []. rewrite app_nil_r. reflexivity. Qed.
Lemma keeps_trans a b c sn : keeps a b sn -> keeps b c sn -> keeps a c sn.
Proof.
  intros (_ & D1 & t1 & E1) (I & D2 & t2 & E2). split; [exact I|]. split; [congruence|].
  exists (t1 ++ t2). rewrite E2, E1, app_assoc. reflexivity.
Qed.
Definition found (lk : linker) (r : option Z) : Prop :=
  match r with Some i => ws_is_correct (l_ws lk) = true /\ exists q, there q = true /\ znth (files (l_ws lk)) i = Some q | None => True end.
Lemma number_keeps lk sn path r lk' : inv lk sn -> number_file there lk path = Some (r, lk') -> keeps lk lk' sn /\ found lk' r.
Proof.
  intros I H. apply number_inv with (sn := sn) in H; [|exact I]. destruct H as (I' & _ & D & E & R). split; [split; [exact I'|split; assumption]|].
  destruct r; [|exact Logic.I]. destruct R as (OK & q & _ & T & Z0). split; [exact OK|]. exists q. split; assumption.
Qed.
Lemma internal_keeps lk sn name r lk' : inv lk sn -> linker_internal_path there lk name = Some (r, lk') -> keeps lk lk' sn /\ found lk' r.
Proof.
  intros I H. unfold linker_internal_path in H. destruct (linker_make_path _ _ _); cbn [bind] in H; [|discriminate H].
  destruct (there b); [eapply number_keeps; eassumption|]. injection H as <- <-. split; [apply keeps_refl; exact I|exact Logic.I].
Qed.
Lemma loop_keeps name ds : forall lk sn r lk', inv lk sn -> external_loop there lk name ds = Some (r, lk') -> keeps lk lk' sn /\ found lk' r.
Proof.
  induction ds as [|d ds IH]; intros lk sn r lk' I H; cbn [external_loop] in H.
  - injection H as <- <-. split; [apply keeps_refl; exact I|exact Logic.I].
  - destruct (linker_make_path _ _ _); cbn [bind] in H; [|discriminate H].
    destruct (there b); [eapply number_keeps; eassumption|eapply IH; eassumption].
Qed.
Lemma search_keeps lk sn k name r lk' : inv lk sn ->
  match k with Quoted => linker_search_internal there lk name | Angled => linker_search_external there lk name end = Some (r, lk') ->
  keeps lk lk' sn /\ found lk' r.
Proof.
  intros I H. destruct k; unfold linker_search_internal, linker_search_external in H;
    (destruct (linker_is_correct lk); cbn [negb] in H; [|injection H as <- <-; split; [apply keeps_refl; exact I|exact Logic.I]]).
  - destruct (linker_internal_path there lk name) as [[r1 lk1]|] eqn:E1; cbn [bind] in H; [|discriminate H].
    apply internal_keeps with (sn := sn) in E1; [|exact I]. destruct E1 as [K F].
    destruct r1; [injection H as <- <-; split; assumption|].
    unfold linker_external_path in H. apply loop_keeps with (sn := sn) in H; [|apply K]. destruct H as [K2 F2].
    split; [eapply keeps_trans; eassumption|exact F2].
  - destruct (linker_external_path there lk name) as [[r1 lk1]|] eqn:E1; cbn [bind] in H; [|discriminate H].
    unfold linker_external_path in E1. apply loop_keeps with (sn := sn) in E1; [|exact I]. destruct E1 as [K F].
    destruct r1; [injection H as <- <-; split; assumption|].
    apply internal_keeps with (sn := sn) in H; [|apply K]. destruct H as [K2 F2].
    split; [eapply keeps_trans; eassumption|exact F2].
Qed.
(** What a step does to the files which were read. *)
Definition read_now (a : answer) (sn : list bytes) : list bytes := match a with (Some p, true) => p :: sn | _ => sn end.
Lemma step_inv lk sn e a lk' : inv lk sn -> step there opens lk e = Some (a, lk') ->
  inv lk' (read_now a sn)
  /\ match e, a with Include _ _, (Some p, true) => ~ In p sn /\ there p = true /\ opens p = true | Source _, (_, true) => True | _, (_, ok) => ok = false end.
Proof.
  intros I H. destruct e as [i|k name|]; cbn [step] in H.
  - unfold linker_add_source, linker_is_correct, opens_file in H.
    destruct (ws_is_correct (l_ws lk)) eqn:OK; cbn [andb] in H.
    2:{ injection H as <- <-. unfold ws_get_file, ws_get. rewrite OK. split; [exact I|reflexivity]. }
    unfold ws_get_file at 1 in H. unfold ws_get in H. rewrite OK in H. destruct (znth (files (l_ws lk)) i) as [p|] eqn:Z0.
    2:{ injection H as <- <-. unfold ws_get_file, ws_get. rewrite OK, Z0. split; [exact I|reflexivity]. }
    destruct (opens p); injection H as <- <-; cbn [l_ws]; unfold ws_get_file, ws_get; rewrite OK, Z0; cbn [read_now].
    + split; [apply begin_inv; assumption|exact Logic.I].
    + split; [exact I|reflexivity].
  - destruct (match k with Quoted => _ | Angled => _ end) as [[r lk1]|] eqn:S; cbn [bind] in H; [|discriminate H].
    apply search_keeps with (sn := sn) in S; [|exact I]. destruct S as [(I1 & _) F].
    destruct r as [i|].
    2:{ injection H as <- <-. split; [exact I1|reflexivity]. }
    destruct F as (OK & p & T & Z0). pose proof (header_cases lk1 sn i p I1 OK Z0) as HC. cbn zeta in HC.
    destruct (linker_add_header opens lk1 i) as [ok lk2]. destruct HC as (-> & W & I2). injection H as <- <-.
    rewrite W. unfold ws_get_file, ws_get. rewrite OK, Z0. revert I2.
    destruct (existsb (bytes_eqb p) sn) eqn:X; cbn [orb negb]; [cbn [read_now]; intros I2; split; [exact I2|reflexivity]|].
    destruct (opens p) eqn:O; cbn [negb read_now]; intros I2; (split; [exact I2|]).
    + split; [apply existsb_out; exact X|]. split; [exact T|reflexivity].
    + reflexivity.
  - injection H as <- <-. split; [exact I|reflexivity].
Qed.
Lemma run_headers l : forall lk sn t lk', inv lk sn -> run there opens lk l = Some (t, lk') ->
  NoDup (headers l t) /\ (forall p, In p (headers l t) -> ~ In p sn /\ there p = true /\ opens p = true)
  /\ inv lk' (rev (read_files t) ++ sn).
Proof.
  induction l as [|e l IH]; intros lk sn t lk' I H; cbn [run] in H.
  - injection H as <- <-. split; [constructor|]. split; [intros p []|exact I].
  - destruct (step there opens lk e) as [[a lk1]|] eqn:S; cbn [bind] in H; [|discriminate H].
    destruct (run there opens lk1 l) as [[t1 lk2]|] eqn:R; cbn [bind] in H; [|discriminate H]. injection H as <- <-.
    apply step_inv with (sn := sn) in S; [|exact I]. destruct S as [I1 A].
    destruct (IH _ _ _ _ I1 R) as (N & P & I2).
    assert (sub : forall p, In p sn -> In p (read_now a sn)) by (intros p; destruct a as [[q|] [|]]; cbn [read_now]; intros; [right|..]; assumption).
    assert (sub2 : forall p, In p (headers l t1) -> ~ In p sn /\ there p = true /\ opens p = true).
    { intros p Q. destruct (P p Q) as (P1 & P2). split; [intros P3; apply P1, sub, P3|exact P2]. }
    split; [|split].
    + destruct e; cbn [headers]; try exact N. destruct a as [[q|] [|]]; try exact N. constructor; [|exact N].
      intros Q. apply (proj1 (P q Q)). left; reflexivity.
    + destruct e; cbn [headers]; try exact sub2. destruct a as [[q|] [|]]; try exact sub2. intros p [<-|Q]; [exact A|apply sub2; exact Q].
    + change (read_files (a :: t1)) with (match a with (Some p, true) => [p] | _ => [] end ++ read_files t1).
      rewrite rev_app_distr, <- app_assoc. destruct a as [[q|] [|]]; exact I2.
Qed.

(** ** Plain names: the answers are what is asked for. *)
Variables (srcs ds : list bytes).
Definition sim (lk : linker) (s : reading) : Prop :=
  inv lk (seen s) /\ ws_is_correct (l_ws lk) = true /\ dirs (l_ws lk) = ds /\ exists t, files (l_ws lk) = srcs ++ t.
Lemma sim_here lk s : sim lk s -> match l_current lk with Some c => ws_get_file (l_ws lk) c | None => None end = hd_error (seen s).
Proof.
  intros ((_ & _ & _ & _ & C) & OK & _). destruct (seen s) as [|p sn]; cbn [hd_error].
  - rewrite C. reflexivity.
  - destruct C as (i & -> & Z0). unfold ws_get_file, ws_get. rewrite OK. exact Z0.
Qed.
Lemma loop_find lk name dl : plain_name name -> forallb (fun c => zlen c <? 1024) (listed dl name) = true ->
  external_loop there lk name dl = match find there (listed dl name) with Some c => number_file there lk c | None => Some (None, lk) end.
Proof.
  intros P. induction dl as [|d dl IH]; intros L; [reflexivity|]. cbn [listed map forallb] in L. apply andb_prop in L. destruct L as [L1 L2].
  cbn [external_loop listed map find]. rewrite make_listed by (exact P || lia). cbn [bind].
  destruct (there (d ++ [47] ++ name)); [reflexivity|]. apply IH. exact L2.
Qed.
Lemma internal_find lk s name : sim lk s -> plain_name name -> zlen (beside (hd_error (seen s)) name) < 1024 ->
  linker_internal_path there lk name
  = if there (beside (hd_error (seen s)) name) then number_file there lk (beside (hd_error (seen s)) name) else Some (None, lk).
Proof.
  intros S P L. unfold linker_internal_path. rewrite (sim_here lk s S). rewrite make_beside by assumption. reflexivity.
Qed.
Lemma number_sim lk s c p : sim lk s -> ws_unix_path c = Some p -> there p = true ->
  exists i lk', number_file there lk c = Some (Some i, lk') /\ sim lk' s /\ znth (files (l_ws lk')) i = Some p.
Proof.
  intros (I & OK & D & t & E) Q T.
  destruct (number_file there lk c) as [[r lk']|] eqn:N.
  2:{ unfold number_file, ws_add_file, ws_add_path in N. rewrite OK, Q in N. cbn [negb bind] in N. rewrite T in N.
      destruct (ws_add_string (files (l_ws lk)) p); discriminate N. }
  pose proof N as N0. apply number_inv with (sn := seen s) in N; [|exact I]. destruct N as (I' & C & D' & (t2 & E2) & R).
  destruct r as [i|].
  - destruct R as (OK' & q & Q2 & _ & Z0). exists i, lk'. split; [reflexivity|]. split.
    + split; [exact I'|]. split; [exact OK'|]. split; [congruence|]. exists (t ++ t2). rewrite E2, E, app_assoc. reflexivity.
    + congruence.
  - exfalso. unfold number_file, ws_add_file, ws_add_path in N0. rewrite OK, Q in N0. cbn [negb bind] in N0. rewrite T in N0.
    destruct (ws_add_string (files (l_ws lk)) p). discriminate N0.
Qed.
Lemma forallb_app_true {A} (f : A -> bool) l m : forallb f (l ++ m) = true -> forallb f l = true /\ forallb f m = true.
Proof. rewrite forallb_app. apply andb_prop. Qed.
Lemma find_app {A} (f : A -> bool) l m : find f (l ++ m) = match find f l with Some x => Some x | None => find f m end.
Proof. induction l as [|x l IH]; cbn [app find]; [reflexivity|]. destruct (f x); [reflexivity|exact IH]. Qed.
Lemma search_find lk s k name : sim lk s -> plain_name name ->
  forallb (fun c => zlen c <? 1024) (candidates k ds (hd_error (seen s)) name) = true ->
  match find there (candidates k ds (hd_error (seen s)) name) with
  | None => match k with Quoted => linker_search_internal there lk name | Angled => linker_search_external there lk name end = Some (None, lk)
  | Some c => forall p, ws_unix_path c = Some p -> there p = true ->
      exists i lk', match k with Quoted => linker_search_internal there lk name | Angled => linker_search_external there lk name end = Some (Some i, lk')
                    /\ sim lk' s /\ znth (files (l_ws lk')) i = Some p
  end.
Proof.
  intros S P L. pose proof S as (_ & OK & D & _). unfold linker_search_internal, linker_search_external, linker_is_correct. rewrite OK. cbn [negb].
  unfold linker_external_path.
  destruct k; unfold candidates in *; apply forallb_app_true in L; destruct L as [L1 L2]; rewrite find_app.
  - cbn [forallb] in L1. rewrite (internal_find lk s) by (assumption || lia). cbn [find].
    destruct (there (beside (hd_error (seen s)) name)).
    + intros p Q T. destruct (number_sim lk s _ p S Q T) as (i & lk' & -> & S' & Z0). cbn [bind]. exists i, lk'. split; [reflexivity|]. split; assumption.
    + cbn [bind]. rewrite OK, D, loop_find by assumption. destruct (find there (listed ds name)) as [c|]; [|reflexivity].
      intros p Q T. apply number_sim; assumption.
  - rewrite OK, D, loop_find by assumption. destruct (find there (listed ds name)) as [c|].
    + intros p Q T. destruct (number_sim lk s _ p S Q T) as (i & lk' & -> & S' & Z0). cbn [bind]. exists i, lk'. split; [reflexivity|]. split; assumption.
    + cbn [bind]. cbn [forallb] in L2. rewrite (internal_find lk s) by (assumption || lia). cbn [find].
      destruct (there (beside (hd_error (seen s)) name)); [|reflexivity].
      intros p Q T. apply number_sim; assumption.
Qed.
Lemma step_asked lk s e a s' : sim lk s -> plain_event e -> asked ws_unix_path there opens srcs ds LastBegun s e = Some (a, s') ->
  exists lk', step there opens lk e = Some (a, lk') /\ sim lk' s'.
Proof.
  intros S P H. pose proof S as (I & OK & D & t & E). destruct e as [i|k name|]; cbn [asked step] in *.
  - destruct (znth srcs i) as [p|] eqn:Z0; cbn [bind] in H; [|discriminate H].
    assert (Z1 : znth (files (l_ws lk)) i = Some p) by (rewrite E, znth_app1; [exact Z0|apply znth_Some_lt in Z0; lia]).
    unfold linker_add_source, linker_is_correct, opens_file. unfold ws_get_file at 1. unfold ws_get. rewrite OK, Z1. cbn [andb].
    destruct (opens p); injection H as <- <-.
    + eexists. split; [unfold ws_get_file, ws_get; cbn [l_ws]; rewrite OK, Z1; reflexivity|].
      split; [apply begin_inv; assumption|]. cbn [l_ws]. split; [exact OK|]. split; [exact D|]. exists t; exact E.
    + eexists. split; [unfold ws_get_file, ws_get; cbn [l_ws]; rewrite OK, Z1; reflexivity|exact S].
  - destruct (forallb _ _) eqn:L; cbn [negb] in H; [|discriminate H]. cbn [here_of] in *.
    pose proof (search_find lk s k name S P L) as F. destruct (find there _) as [c|].
    2:{ rewrite F. cbn [bind]. injection H as <- <-. exists lk. split; [reflexivity|exact S]. }
    destruct (ws_unix_path c) as [p|] eqn:Q; cbn [bind] in H; [|discriminate H].
    destruct (there p) eqn:T; cbn [negb] in H; [|discriminate H].
    destruct (F p eq_refl T) as (i & lk1 & -> & (I1 & OK1 & D1 & t1 & E1) & Z1). cbn [bind].
    pose proof (header_cases lk1 (seen s) i p I1 OK1 Z1) as HC. cbn zeta in HC.
    destruct (linker_add_header opens lk1 i) as [ok lk2]. destruct HC as (-> & W & I2).
    rewrite W. unfold ws_get_file, ws_get. rewrite OK1, Z1. unfold known in H.
    exists lk2. destruct (existsb (bytes_eqb p) (seen s) || negb (opens p)); cbn [negb] in I2; injection H as <- <-;
      (split; [reflexivity|]); (split; [exact I2|]); rewrite W; (split; [exact OK1|]); (split; [exact D1|]); exists t1; exact E1.
  - injection H as <- <-. exists lk. split; [reflexivity|]. split; [exact I|]. split; [exact OK|]. split; [exact D|]. exists t; exact E.
Qed.
Lemma run_asked l : forall lk s t, sim lk s -> Forall plain_event l -> all_asked ws_unix_path there opens srcs ds LastBegun s l = Some t ->
  exists lk', run there opens lk l = Some (t, lk').
Proof.
  induction l as [|e l IH]; intros lk s t S P H; cbn [all_asked run] in *.
  - injection H as <-. exists lk. reflexivity.
  - inversion P as [|? ? P1 P2]; subst. destruct (asked _ _ _ _ _ _ s e) as [[a s1]|] eqn:A; cbn [bind] in H; [|discriminate H].
    destruct (all_asked _ _ _ _ _ _ s1 l) as [t1|] eqn:B; cbn [bind] in H; [|discriminate H]. injection H as <-.
    destruct (step_asked lk s e a s1 S P1 A) as (lk1 & -> & S1). cbn [bind].
    destruct (IH lk1 s1 t1 S1 P2 B) as (lk2 & ->). exists lk2. reflexivity.
Qed.

(** ** One directory: both rules give the same. *)
Lemma beside_same p q name : directory p = directory q -> beside (Some p) name = beside (Some q) name.
Proof. intros E. cbn [beside]. rewrite E. reflexivity. Qed.
Definition level (d : bytes) (depth : nat) (s : reading) : Prop :=
  length (stack s) = depth /\ Forall (fun p => directory p = d) (stack s)
  /\ ((0 < depth)%nat -> exists p sn, seen s = p :: sn /\ directory p = d).
Lemma rules_agree (sp : bytes -> option bytes) l : forall d depth s t, level d depth s ->
  all_asked sp there opens srcs ds Includer s l = Some t -> nested depth l t -> flat d l t ->
  all_asked sp there opens srcs ds LastBegun s l = Some t.
Proof.
  induction l as [|e l IH]; intros d depth s t V H N F; [exact H|].
  cbn [all_asked] in H |- *.
  destruct (asked sp there opens srcs ds Includer s e) as [[a s1]|] eqn:A; cbn [bind] in H; [|discriminate H].
  destruct (all_asked sp there opens srcs ds Includer s1 l) as [t1|] eqn:B; cbn [bind] in H; [|discriminate H]. injection H as <-.
  destruct V as (V1 & V2 & V3). destruct e as [i|k name|].
  - change (asked sp there opens srcs ds LastBegun s (Source i)) with (asked sp there opens srcs ds Includer s (Source i)).
    rewrite A. cbn [bind]. cbn [asked] in A. destruct (znth srcs i) as [p|]; cbn [bind] in A; [|discriminate A].
    cbn [nested] in N. destruct a as [ap ok]. destruct N as [-> N].
    destruct (opens p); injection A as <- <- <-; cbn [flat] in F.
    + rewrite (IH (directory p) 1%nat _ _) with (2 := B); [reflexivity| |exact N|exact F].
      split; [reflexivity|]. split; [repeat constructor|]. intros _. exists p, (seen s). split; reflexivity.
    + rewrite (IH d O _ _) with (2 := B); [reflexivity| |exact N|exact F].
      split; [exact V1|]. split; [exact V2|]. intros H. lia.
  - cbn [nested] in N. destruct a as [ap ok]. destruct N as [N1 N].
    assert (Eh : candidates k ds (here_of LastBegun s) name = candidates k ds (here_of Includer s) name).
    { destruct (V3 N1) as (p & sn & E1 & E2). cbn [here_of]. rewrite E1. cbn [hd_error].
      destruct (stack s) as [|q st]; [cbn [length] in V1; lia|]. inversion V2 as [|? ? V4 V5]; subst. cbn [hd_error].
      unfold candidates. rewrite (beside_same p q) by congruence. reflexivity. }
    assert (Ea : asked sp there opens srcs ds LastBegun s (Include k name) = asked sp there opens srcs ds Includer s (Include k name)).
    { cbn [asked]. rewrite Eh. reflexivity. }
    rewrite Ea, A. cbn [bind]. clear Ea. cbn [asked] in A. destruct (forallb _ _); cbn [negb] in A; [|discriminate A].
    destruct (find there _) as [c|].
    2:{ injection A as <- <- <-. rewrite (IH d depth _ _) with (2 := B); [reflexivity| |exact N|exact F]. split; [exact V1|]. split; assumption. }
    destruct (sp c) as [p|]; cbn [bind] in A; [|discriminate A]. destruct (there p); cbn [negb] in A; [|discriminate A].
    destruct (known p s || negb (opens p)); injection A as <- <- <-; cbn [flat] in F.
    + rewrite (IH d depth _ _) with (2 := B); [reflexivity| |exact N|exact F]. split; [exact V1|]. split; assumption.
    + destruct F as [F1 F]. rewrite (IH d (S depth) _ _) with (2 := B); [reflexivity| |exact N|exact F].
      unfold begun. split; [cbn [stack length]; lia|]. split; [constructor; assumption|]. intros _. exists p, (seen s). split; [reflexivity|exact F1].
  - cbn [asked] in A |- *. injection A as <- <-. cbn [bind]. cbn [nested] in N. destruct depth as [|depth]; [contradiction|]. cbn [flat] in F.
    rewrite (IH d depth _ _) with (2 := B); [reflexivity| |exact N|exact F].
    split; [cbn [stack]; destruct (stack s); cbn [length tl] in *; lia|]. split.
    + cbn [stack]. destruct (stack s); [constructor|]. inversion V2; assumption.
    + intros _. cbn [seen]. apply V3. lia.
Qed.
End Linker.

(** ** The start *)
Lemma create_inv w : ws_is_correct w = true -> NoDup (files w) -> inv (linker_create w) [].
Proof.
  intros OK N. unfold inv, linker_create. cbn [l_ws l_included l_current]. unfold ws_get_files_num, ws_num. rewrite OK.
  pose proof (zlen_nonneg (files w)). split; [exact N|]. split; [rewrite zlen_lv_increase by lia; apply Z.add_0_l|]. split; [|split].
  - intros i p Z0. apply znth_Some_lt in Z0. cbn [existsb]. apply lv_get_in. unfold lv_increase. cbn [app].
    rewrite znth_unf. destruct (i <? 0) eqn:E; [lia|]. apply nth_error_repeat. lia.
  - constructor.
  - reflexivity.
Qed.
Lemma reachable_nodup there ops a w : WsModel.run there ws_create ops = Some (a, w) -> ws_is_correct w = true -> NoDup (files w).
Proof.
  intros H OK. apply history in H. destruct (forallb granted _); [|destruct H as [H _]; congruence].
  destruct H as (_ & G & L & _). unfold ws_get_file, ws_get in G. unfold ws_get_files_num, ws_num in L. rewrite OK in *.
  replace (files w) with (once [] (file_wishes (map (wish_of ws_unix_path there) ops))).
  - exact (proj1 (once_laws (file_wishes (map (wish_of ws_unix_path there) ops)))).
  - apply zlist_ext; [symmetry; exact L|]. intros i _. symmetry. apply G.
Qed.
Lemma create_sim w : ws_is_correct w = true -> NoDup (files w) -> sim (files w) (dirs w) (linker_create w) (mkRd [] []).
Proof.
  intros OK N. split; [apply create_inv; assumption|]. split; [exact OK|]. split; [reflexivity|]. exists []. rewrite app_nil_r. reflexivity.
Qed.

(** ** Backslashes *)
Lemma copy_doubled s : forall name buf, ~ In 92 s -> ~ In 10 s -> next_is_backslash name = true -> zlen (buf ++ s) < 1024 ->
  copy_name (s ++ name) buf = copy_name name (buf ++ s).
Proof.
  induction s as [|b s IH]; intros name buf P1 P2 H L.
  - rewrite app_nil_r. reflexivity.
  - rewrite zlen_app, zlen_cons in L. pose proof (zlen_nonneg s). cbn [app copy_name]. unfold MAX_ARG_SIZE.
    destruct (1024 <=? zlen buf) eqn:E; [lia|].
    assert (b <> 92) by (intros ->; apply P1; left; reflexivity).
    assert (b <> 10) by (intros ->; apply P2; left; reflexivity).
    unfold BACKSLASH, SLASH. replace (b =? 10) with false by lia. replace (b =? 92) with false by lia. cbn [orb andb].
    rewrite IH; [rewrite <- app_assoc; reflexivity|intros X; apply P1; right; exact X|intros X; apply P2; right; exact X|exact H|].
    rewrite zlen_app, zlen_app, zlen_cons, zlen_nil. lia.
Qed.
Lemma copy_pair name : forall buf, next_is_backslash name = false -> zlen buf + 1 < 1024 -> copy_name (92 :: 92 :: name) buf = copy_name name (buf ++ [47]).
Proof.
  intros buf H L. cbn [copy_name]. unfold MAX_ARG_SIZE. destruct (1024 <=? zlen buf) eqn:E; [lia|]. cbn [next_is_backslash].
  unfold BACKSLASH, SLASH. cbn [Z.eqb Pos.eqb orb andb negb]. rewrite zlen_app, zlen_cons, zlen_nil.
  destruct (1024 <=? zlen buf + (1 + 0)) eqn:E2; [lia|].
  rewrite H. cbn [negb]. reflexivity.
Qed.
Lemma joined_cons sep (x y : bytes) (l : list bytes) : joined sep (x :: y :: l) = x ++ sep ++ joined sep (y :: l).
Proof. reflexivity. Qed.
Lemma joined_start y l : y <> [] -> plain_name y -> next_is_backslash (joined [92; 92] (y :: l)) = false.
Proof.
  intros N [P _]. destruct y as [|b y]; [congruence|]. assert (b <> 92) by (intros ->; apply P; left; reflexivity).
  destruct l; cbn [joined app next_is_backslash]; unfold BACKSLASH; lia.
Qed.
Lemma copy_joined (parts : list bytes) : forall buf : bytes, Forall (fun s => s <> [] /\ plain_name s) parts -> zlen (buf ++ joined [47] parts) < 1024 ->
  copy_name (joined [92; 92] parts) buf = Some (buf ++ joined [47] parts).
Proof.
  induction parts as [|x parts IH]; intros buf F L; [apply (copy_plain [] buf); [split; intros []|exact L]|].
  inversion F as [|? ? [N P] F2]; subst. destruct parts as [|y parts]; [apply copy_plain; assumption|].
  rewrite !joined_cons in *. rewrite !zlen_app, zlen_cons, zlen_nil in L. match type of L with context [zlen (joined ?a ?b)] => pose proof (zlen_nonneg (joined a b)) as NN; change (0 <= zlen (joined a b)) in NN end.
  inversion F2 as [|? ? [N2 P2] F3]; subst.
  rewrite copy_doubled; [|apply P|apply P|reflexivity|rewrite zlen_app; lia]. cbn [app].
  rewrite copy_pair; [|apply joined_start; assumption|rewrite zlen_app; lia].
  rewrite IH; [rewrite <- !app_assoc; reflexivity|exact F2|]. rewrite !zlen_app, zlen_cons, zlen_nil. lia.
Qed.

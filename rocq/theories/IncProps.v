(** C72: which file an include directive reads. *)
From Verif Require Import Prelude LVec WsModel WsSpec WsProofs IncSpec IncModel IncProofs.
From Coq Require String.
Import String.StringSyntax.
Local Open Scope string_scope.
Local Open Scope list_scope.
Local Open Scope Z_scope.

(** A workspace as the arguments of the program leave it. *)
Definition given (there : bytes -> bool) (w : workspace) : Prop :=
  ws_is_correct w = true /\ exists ops answers, WsModel.run there ws_create ops = Some (answers, w).
Definition start : reading := mkRd [] [].

(** The claim: of the files which a directive may mean the first one which exists
    is taken, the name being relative to the file the directive stands in, and
    it is read unless it was read before.

    Proved for every history of plain names in which the headers of a source lie
    in its directory; no array is left, whatever exists.  Missing: headers of
    another directory; for them it is false, see below. *)
Theorem C72_beside_includer_partial : forall there opens w l t, given there w ->
  Forall plain_event l ->
  all_asked ws_unix_path there opens (files w) (dirs w) Includer start l = Some t ->
  nested 0 l t -> flat [] l t ->
  exists lk, run there opens (linker_create w) l = Some (t, lk).
Proof.
  intros there opens w l t [OK (ops & an & R)] P A N F.
  eapply run_asked; [apply create_sim; [exact OK|eapply reachable_nodup; eassumption]|exact P|].
  eapply rules_agree; [|exact A|exact N|exact F].
  split; [reflexivity|]. split; [constructor|]. intros H. inversion H.
Qed.
Print Assumptions C72_beside_includer_partial.

(** What holds for every history of plain names: the name is relative to the file
    which was begun last. *)
Theorem C72_beside_last_begun : forall there opens w l t, given there w ->
  Forall plain_event l ->
  all_asked ws_unix_path there opens (files w) (dirs w) LastBegun start l = Some t ->
  exists lk, run there opens (linker_create w) l = Some (t, lk).
Proof.
  intros there opens w l t [OK (ops & an & R)] P A.
  eapply run_asked; [apply create_sim; [exact OK|eapply reachable_nodup; eassumption]|exact P|exact A].
Qed.
Print Assumptions C72_beside_last_begun.

Definition tree (l : list (list Z)) (p : bytes) : bool := existsb (bytes_eqb p) l.
Definition disk := tree [str "src/m.c"; str "src/a.h"; str "src/b.h"; str "src/./b.h"; str "src/sub/c.h"; str "src/sub/b.h"; str "inc"; str "inc/a.h"; str "inc/d.h"].
Definition w0 : workspace := mkWs [str "src/m.c"] [str "inc"] [] [] false.
Lemma given0 : given disk w0.
Proof. split; [reflexivity|]. exists [OFile (Some (str "src\./m.c")); OFlag (Some (str "-Iinc"))]. eexists. vm_compute. reflexivity. Qed.
(** Quoted names beside the source, names in brackets in [inc], a nested header, a
    header met again, and one which does not exist. *)
Definition events1 : list event :=
  [Source 0; Include Quoted (str "a.h"); Include Quoted (str "./b.h"); Leave; Leave;
   Include Quoted (str "b.h"); Include Quoted (str "none.h"); Leave].
Definition answers1 : list answer :=
  [(Some (str "src/m.c"), true); (Some (str "src/a.h"), true); (Some (str "src/b.h"), true); (None, false); (None, false);
   (Some (str "src/b.h"), false); (None, false); (None, false)].
Example C72_beside_includer_example :
  given disk w0 /\ Forall plain_event events1
  /\ all_asked ws_unix_path disk disk (files w0) (dirs w0) Includer start events1 = Some answers1
  /\ nested 0 events1 answers1 /\ flat [] events1 answers1.
Proof.
  split; [exact given0|]. split.
  - repeat constructor; cbn; intuition discriminate.
  - split; [vm_compute; reflexivity|]. split; [cbn; lia|]. cbn [flat events1 answers1]. vm_compute. repeat split.
Qed.
Example C72_brackets_example :
  all_asked ws_unix_path disk disk (files w0) (dirs w0) LastBegun start [Source 0; Include Angled (str "a.h")]
  = Some [(Some (str "src/m.c"), true); (Some (str "inc/a.h"), true)].
Proof. vm_compute. reflexivity. Qed.

(** The claim is false: when [src/m.c] has included [sub/c.h], its next directive,
    which names [b.h], reads [src/sub/b.h], and not [src/b.h]. *)
Theorem C72_beside_includer_refuted :
  ~ (forall there opens w l t, given there w -> Forall plain_event l ->
       all_asked ws_unix_path there opens (files w) (dirs w) Includer start l = Some t -> nested 0 l t ->
       exists lk, run there opens (linker_create w) l = Some (t, lk)).
Proof.
  intros H.
  destruct (H disk disk w0 [Source 0; Include Quoted (str "sub/c.h"); Leave; Include Quoted (str "b.h")]
              [(Some (str "src/m.c"), true); (Some (str "src/sub/c.h"), true); (None, false); (Some (str "src/b.h"), true)]) as [lk E].
  - exact given0.
  - repeat constructor; cbn; intuition discriminate.
  - vm_compute. reflexivity.
  - cbn. lia.
  - vm_compute in E. discriminate E.
Qed.
Print Assumptions C72_beside_includer_refuted.
Example C72_wrong_file_example :
  exists lk, run disk disk (linker_create w0) [Source 0; Include Quoted (str "sub/c.h"); Leave; Include Quoted (str "b.h")]
  = Some ([(Some (str "src/m.c"), true); (Some (str "src/sub/c.h"), true); (None, false); (Some (str "src/sub/b.h"), true)], lk).
Proof. eexists. vm_compute. reflexivity. Qed.

(** A header is read once, in every history and for every name: no path is read
    by two directives, and none which a source before had. *)
Theorem C72_header_once : forall there opens w l t lk, given there w ->
  run there opens (linker_create w) l = Some (t, lk) ->
  NoDup (headers l t) /\ Forall (fun p => there p = true /\ opens p = true) (headers l t).
Proof.
  intros there opens w l t lk [OK (ops & an & R)] H.
  destruct (run_headers there opens l _ [] t lk (create_inv w OK (reachable_nodup _ _ _ _ R OK)) H) as (N & P & _).
  split; [exact N|]. apply Forall_forall. intros p I. apply P. exact I.
Qed.
Print Assumptions C72_header_once.
Theorem C72_source_not_again : forall there opens w before l t1 t2 lk, given there w ->
  run there opens (linker_create w) (before ++ l) = Some (t1 ++ t2, lk) -> zlen t1 = zlen before ->
  forall p, In p (read_files t1) -> ~ In p (headers l t2).
Proof.
  intros there opens w before l t1 t2 lk [OK (ops & an & R)] H L p I J.
  pose proof (create_inv w OK (reachable_nodup _ _ _ _ R OK)) as V.
  assert (S : forall before t1 lk0, run there opens lk0 (before ++ l) = Some (t1 ++ t2, lk) -> zlen t1 = zlen before ->
            exists lk1, run there opens lk0 before = Some (t1, lk1) /\ run there opens lk1 l = Some (t2, lk)).
  { clear. induction before as [|e before IH]; intros t1 lk0 H L.
    - destruct t1 as [|a t1]; [|rewrite zlen_cons, zlen_nil in L; pose proof (zlen_nonneg t1); lia].
      exists lk0. split; [reflexivity|exact H].
    - cbn [app IncModel.run] in H. destruct (step there opens lk0 e) as [[a lk1]|] eqn:E; cbn [bind] in H; [|discriminate H].
      destruct (run there opens lk1 (before ++ l)) as [[t lk2]|] eqn:E2; cbn [bind] in H; [|discriminate H].
      destruct t1 as [|b t1]; [rewrite zlen_cons, zlen_nil in L; pose proof (zlen_nonneg before); lia|].
      cbn [app] in H. injection H as <- -> ->. rewrite !zlen_cons in L.
      destruct (IH t1 lk1 E2 ltac:(lia)) as (lk3 & E3 & E4). exists lk3. cbn [IncModel.run]. rewrite E. cbn [bind]. rewrite E3. split; [reflexivity|exact E4]. }
  destruct (S _ _ _ H L) as (lk1 & H1 & H2).
  destruct (run_headers there opens before _ [] t1 lk1 V H1) as (_ & _ & V1).
  destruct (run_headers there opens l _ _ t2 lk V1 H2) as (_ & P & _).
  apply (proj1 (P p J)). rewrite app_nil_r, <- in_rev. exact I.
Qed.
Print Assumptions C72_source_not_again.
Example C72_header_once_example :
  exists lk, run disk disk (linker_create w0) events1 = Some (answers1, lk) /\ headers events1 answers1 = [str "src/a.h"; str "src/b.h"]
  /\ read_files answers1 = [str "src/m.c"; str "src/a.h"; str "src/b.h"].
Proof. eexists. split; [vm_compute; reflexivity|]. split; vm_compute; reflexivity. Qed.
(** A file with two spellings is read twice. *)
Theorem C72_file_once_refuted :
  exists there w l t lk p q, given there w /\ Forall plain_event l /\ run there there (linker_create w) l = Some (t, lk)
  /\ headers l t = [p; q] /\ resolve [] p = resolve [] q.
Proof.
  exists (tree [str "m.c"; str "sub"; str "sub/c.h"; str "sub//c.h"]), (mkWs [str "m.c"] [str "sub"] [] [] false).
  exists [Source 0; Include Angled (str "c.h"); Include Angled (str "/c.h")].
  eexists _, _, (str "sub/c.h"), (str "sub//c.h"). split; [|split; [|split; [|split]]].
  - split; [reflexivity|]. exists [OFile (Some (str "m.c")); ODir (Some (str "sub"))]. eexists. vm_compute. reflexivity.
  - repeat constructor; cbn; intuition discriminate.
  - vm_compute. reflexivity.
  - vm_compute. reflexivity.
  - vm_compute. reflexivity.
Qed.
Print Assumptions C72_file_once_refuted.

(** A file which exists and cannot be opened: the directive is neither obeyed nor
    refused (a directive is refused only when no file is found). *)
Theorem C72_unopened_refuted :
  ~ (forall there opens w k name p ok lk, given there w ->
       run there opens (linker_create w) [Source 0; Include k name] = Some ([(Some (str "m.c"), true); (p, ok)], lk) ->
       p = None \/ ok = true \/ p = Some (str "m.c")).
Proof.
  intros H.
  assert (G : given (fun _ => true) (mkWs [str "m.c"] [] [] [] false)).
  { split; [reflexivity|]. exists [OFile (Some (str "m.c"))]. eexists. vm_compute. reflexivity. }
  assert (X : exists lk, run (fun _ => true) (tree [str "m.c"]) (linker_create (mkWs [str "m.c"] [] [] [] false)) [Source 0; Include Quoted (str "a.h")]
              = Some ([(Some (str "m.c"), true); (Some (str "a.h"), false)], lk)) by (eexists; vm_compute; reflexivity).
  destruct X as [lk X]. destruct (H _ _ _ _ _ _ _ _ G X) as [E|[E|E]]; discriminate E.
Qed.
Print Assumptions C72_unopened_refuted.

(** Names with backslashes.  Two of them are a slash. *)
Theorem C72_two_backslashes : forall parts here is_file,
  Forall (fun s => s <> [] /\ plain_name s) parts ->
  zlen (match here with None => [] | Some p => if is_file : bool then directory p else p ++ [47] end ++ joined [47] parts) < 1024 ->
  linker_make_path (joined [92; 92] parts) here is_file
  = Some (match here with None => [] | Some p => if is_file then directory p else p ++ [47] end ++ joined [47] parts).
Proof.
  intros parts here is_file F L. unfold linker_make_path. destruct here as [p|]; [|apply (copy_joined parts []); assumption].
  destruct is_file; [rewrite upto_directory|]; apply copy_joined; assumption.
Qed.
Print Assumptions C72_two_backslashes.
Example C72_two_backslashes_example :
  linker_make_path (str "x\\y\\z.h") (Some (str "src/m.c")) true = Some (str "src/x/y/z.h")
  /\ str "x\\y\\z.h" = joined [92; 92] [str "x"; str "y"; str "z.h"].
Proof. vm_compute. split; reflexivity. Qed.
(** One is nothing: [x\y.h] is neither [x/y.h], which it is on the command line, nor [x\y.h]. *)
Theorem C72_backslash_refuted :
  linker_make_path (str "x\y.h") None true = Some (str "xy.h") /\ ws_unix_path (str "x\y.h") = Some (str "x/y.h").
Proof. vm_compute. split; reflexivity. Qed.
Print Assumptions C72_backslash_refuted.

(** A name of 1024 plain bytes or more is written behind the array. *)
Theorem C72_long_name_refuted : forall there w name, given there w -> plain_name name -> 1024 <= zlen name ->
  linker_search_internal there (linker_create w) name = None.
Proof.
  intros there w name [OK _] [P1 P2] L. unfold linker_search_internal, linker_is_correct. cbn [linker_create l_ws]. rewrite OK. cbn [negb].
  unfold linker_internal_path. cbn [l_current]. unfold linker_make_path.
  assert (C : forall name buf, ~ In 92 name -> ~ In 10 name -> 1024 <= zlen buf + zlen name -> copy_name name buf = None).
  { clear. induction name as [|b name IH]; intros buf P1 P2 L; cbn [copy_name]; unfold MAX_ARG_SIZE.
    - rewrite zlen_nil in L. destruct (1024 <=? zlen buf) eqn:E; [reflexivity|lia].
    - rewrite zlen_cons in L. destruct (1024 <=? zlen buf) eqn:E; [reflexivity|].
      assert (b <> 92) by (intros ->; apply P1; left; reflexivity).
      assert (b <> 10) by (intros ->; apply P2; left; reflexivity).
      unfold BACKSLASH, SLASH. replace (b =? 10) with false by lia. replace (b =? 92) with false by lia. cbn [orb andb].
      apply IH; [intros X; apply P1; right; exact X|intros X; apply P2; right; exact X|]. rewrite zlen_snoc. lia. }
  rewrite C; [reflexivity|exact P1|exact P2|]. match goal with |- _ <= zlen ?b + _ => pose proof (zlen_nonneg b) end. lia.
Qed.
Print Assumptions C72_long_name_refuted.
Example C72_long_name_example : given disk w0 /\ plain_name (repeat 97 1024) /\ zlen (repeat 97 1024) = 1024.
Proof. split; [exact given0|]. split; [split; intros H; apply repeat_spec in H; discriminate H|reflexivity]. Qed.

(** A number without a file is accepted as the current file. *)
Theorem C72_set_index_refuted :
  ~ (forall there w i, given there w -> ws_get_files_num w <= i -> fst (linker_set_index (linker_create w) i) = false).
Proof. intros H. specialize (H disk w0 7 given0 ltac:(vm_compute; discriminate)). vm_compute in H. discriminate H. Qed.
Print Assumptions C72_set_index_refuted.

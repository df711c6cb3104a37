(** The identifier table follows the rules of scopes. *)
From Verif Require Import Prelude VectorSpec LVec TypesModel IdentModel IdentSpec IdentRun IdentTable.

(** [ident_add] on entries. *)
Section Last.
Variables (s : idents) (es : list ent) (p r t d v : Z).
Hypothesis C : id_cells s = cells (es ++ [mkEnt p r t d]).
Hypothesis B : idx (zlen es + 1) < ITEM_MAX.
Lemma last_bound : idx (zlen (es ++ [mkEnt p r t d])) < ITEM_MAX.
Proof. rewrite zlen_app. exact B. Qed.
Lemma last_set_repr : ident_set_repr s (idx (zlen es)) v = with_cells s (cells (es ++ [mkEnt p v t d])).
Proof. rewrite (set_repr _ _ C last_bound _ _ _ _ _ _ (znth_last _ _)). rewrite zupd_last. reflexivity. Qed.
Lemma last_set_type : ident_set_type s (idx (zlen es)) v = with_cells s (cells (es ++ [mkEnt p r v d])).
Proof. rewrite (set_type _ _ C last_bound _ _ _ _ _ _ (znth_last _ _)). rewrite zupd_last. reflexivity. Qed.
Lemma last_set_displ : ident_set_displ s (idx (zlen es)) v = with_cells s (cells (es ++ [mkEnt p r t v])).
Proof. rewrite (set_displ _ _ C last_bound _ _ _ _ _ _ (znth_last _ _)). rewrite zupd_last. reflexivity. Qed.
Lemma last_get_prev : ident_get_prev s (idx (zlen es)) = p.
Proof. rewrite (get_prev _ _ C last_bound _ _ (znth_last _ _)). reflexivity. Qed.
Lemma last_get_repr : ident_get_repr s (idx (zlen es)) = r.
Proof. rewrite (get_repr _ _ C last_bound _ _ (znth_last _ _)). reflexivity. Qed.
Lemma last_get_type : ident_get_type s (idx (zlen es)) = t.
Proof. rewrite (get_type _ _ C last_bound _ _ (znth_last _ _)). reflexivity. Qed.
Lemma last_get_displ : ident_get_displ s (idx (zlen es)) = d.
Proof. rewrite (get_displ _ _ C last_bound _ _ (znth_last _ _)). reflexivity. Qed.
End Last.

Section Fill.
Variables (T : types) (es : list ent) (p cur : Z) (refs : Z -> Z) (main : Z) (predef : list Z) (displ mx mxg lg : Z).
Hypothesis B : idx (zlen es + 1) < ITEM_MAX.
Let s := mkIdents (cells (es ++ [mkEnt p 0 0 0])) cur refs main predef displ mx mxg lg.
Let id := idx (zlen es).

Ltac fill := unfold ident_fill; unfold s, id; rewrite (last_set_repr _ es p 0 0 0) by (auto; reflexivity);
  rewrite (last_set_type _ es p _ 0 0) by (auto; reflexivity); cbn [with_cells id_cells id_cur id_refs id_main id_predef id_displ id_max_displ id_max_displg id_lg].
Ltac fin := cbn [with_cells with_frame with_predef id_cells id_cur id_refs id_main id_predef id_displ id_max_displ id_max_displg id_lg].

Lemma fill_var x ty fd n : type_size T ty = Some n ->
  ident_fill T s id x 0 ty fd = Some (mkIdents (cells (es ++ [mkEnt p x ty displ])) cur refs main predef (displ + lg * n)
    (if lg >? 0 then Z.max (displ + lg * n) mx else mx) (if lg >? 0 then mxg else - (displ + lg * n)) lg).
Proof.
  intros H. fill. cbn [Z.ltb Z.eqb Z.compare]. unfold get_static. rewrite H. cbn [bind]. fin.
  destruct (lg >? 0) eqn:E; fin; (rewrite (last_set_displ _ es p x ty 0) by (auto; reflexivity)).
  - replace (Z.max (displ + lg * n) mx) with (if displ + lg * n >? mx then displ + lg * n else mx) by (destruct (_ >? mx) eqn:F; lia). reflexivity.
  - reflexivity.
Qed.
Lemma fill_funparam x ty fd :
  ident_fill T s id x (-1) ty fd = Some (mkIdents (cells (es ++ [mkEnt p x ty (- displ)])) cur refs main predef (displ + 1) (displ + 1) mxg lg).
Proof.
  fill. cbn [Z.ltb Z.eqb Z.compare]. rewrite (last_set_displ _ es p x ty 0) by (auto; reflexivity). reflexivity.
Qed.
Lemma fill_type x ty fd :
  ident_fill T s id x 1000 ty fd = Some (mkIdents (cells (es ++ [mkEnt p x ty 1000])) cur refs main predef displ mx mxg lg).
Proof.
  fill. change (1000 <? 0) with false. change (1000 =? 0) with false. change (1000 =? 1) with false. change (1000 >=? 1000) with true. cbv iota. rewrite (last_set_displ _ es p x ty 0) by (auto; reflexivity). reflexivity.
Qed.
Lemma fill_function x n ty fd : 1 < n < 1000 -> ty < 1000 -> fd <> 2 ->
  ident_fill T s id x n ty fd = Some (mkIdents (cells (es ++ [mkEnt p x ty n])) cur refs main (predef_clear predef x) displ mx mxg lg).
Proof.
  intros H L F. fill. replace (n <? 0) with false by lia. replace (n =? 0) with false by lia. replace (n =? 1) with false by lia.
  replace (n >=? 1000) with false by lia. replace ((n >? 1) && (ty <? 1000)) with true by lia.
  rewrite (last_set_displ _ es p x ty 0) by (auto; reflexivity). replace (fd =? 2) with false by lia. reflexivity.
Qed.
Lemma fill_prototype x n ty : 1 < n < 1000 -> ty < 1000 ->
  ident_fill T s id x n ty 2 = Some (mkIdents (cells (es ++ [mkEnt p (- x) ty n])) cur refs main (predef ++ [x]) displ mx mxg lg).
Proof.
  intros H L. fill. replace (n <? 0) with false by lia. replace (n =? 0) with false by lia. replace (n =? 1) with false by lia.
  replace (n >=? 1000) with false by lia. replace ((n >? 1) && (ty <? 1000)) with true by lia.
  rewrite (last_set_displ _ es p x ty 0) by (auto; reflexivity). cbn [Z.eqb Pos.eqb].
  rewrite (last_get_repr _ es p x ty n) by (auto; reflexivity).
  rewrite (last_set_repr _ es p x ty n) by (auto; reflexivity). reflexivity.
Qed.
End Fill.

(** The part of [ident_add] before it fills the entry. *)
Section Add.
Variables (T : types) (s : idents) (es : list ent) (x kind ty fd : Z).
Hypothesis C : id_cells s = cells es.
Hypothesis B : idx (zlen es + 1) < ITEM_MAX.
Let id := idx (zlen es).
Definition begun (refs : Z -> Z) (main : Z) : idents :=
  mkIdents (cells (es ++ [mkEnt (enc (id_refs s x)) 0 0 0])) (id_cur s) refs main (id_predef s) (id_displ s) (id_max_displ s) (id_max_displg s) (id_lg s).

Ltac add := unfold ident_add; rewrite C, cells_add; change (zlen (cells es)) with (zlen (cells es)); rewrite zlen_cells; unfold id in *;
  unfold repr_get_reference; cbv zeta; cbn [with_cells id_main].

Lemma add_main2 : id_refs s x = 0 -> id_main s <> 0 ->
  ident_add T s x kind ty fd = Some (SIZE_MAX, begun (id_refs s) (id_main s)).
Proof. intros R M. add. rewrite R. change (0 =? 0) with true. replace (id_main s =? 0) with false by lia. unfold begun. rewrite R. reflexivity. Qed.
Lemma add_main : id_refs s x = 0 -> id_main s = 0 -> 2 <= id_cur s ->
  ident_add T s x kind ty fd = (do s' <- ident_fill T (begun (id_refs s) id) id x kind ty fd; Some (id, s')).
Proof.
  intros R M U. add. rewrite R. change (0 =? 0) with true. rewrite M. change (true && negb (0 =? 0)) with false. cbv iota.
  change (0 =? ITEM_MAX) with false. cbv iota.
  rewrite (last_get_prev (with_main (with_cells s (cells (es ++ [mkEnt 0 0 0 0]))) (idx (zlen es))) es 0 0 0 0) by (auto; reflexivity).
  change (u64 0) with 0. cbn [Z.eqb negb].
  cbn [with_main with_cells id_cur]. replace (0 >=? id_cur s) with false by lia. rewrite andb_false_r, andb_false_l.
  unfold begun. rewrite R. reflexivity.
Qed.
Lemma add_new : id_refs s x = ITEM_MAX -> 0 < x ->
  ident_add T s x kind ty fd = (do s' <- ident_fill T (begun (set_ref (id_refs s) x id) (id_main s)) id x kind ty fd; Some (id, s')).
Proof.
  intros R X. add. rewrite R. change (ITEM_MAX =? 0) with false. change (ITEM_MAX =? ITEM_MAX) with true. cbn [andb]. cbv iota.
  rewrite (last_get_prev (with_cells s (cells (es ++ [mkEnt (ITEM_MAX - 1) 0 0 0]))) es (ITEM_MAX - 1) 0 0 0) by (auto; reflexivity).
  change (u64 (ITEM_MAX - 1) =? 0) with false. cbn [negb].
  rewrite (last_get_prev _ es (ITEM_MAX - 1) 0 0 0) by (auto; reflexivity).
  rewrite Z.eqb_refl. cbn [negb]. rewrite andb_false_r, !andb_false_l. unfold begun. rewrite R. reflexivity.
Qed.
Lemma add_old k e : id_refs s x = idx k -> znth es k = Some e -> 0 < x -> kind <> 1 ->
  ident_add T s x kind ty fd =
  let s1 := begun (set_ref (id_refs s) x id) (id_main s) in
  if (idx k >=? id_cur s) && (negb (fd =? 1) || (e_repr e >? 0)) then Some (SIZE_MAX - 1, s1)
  else do s' <- ident_fill T s1 id x kind ty fd; Some (id, s').
Proof.
  intros R Hk X Kn. pose proof (znth_Some_lt _ _ _ Hk) as Lk.
  assert (Bk: 2 <= idx k < ITEM_MAX - 1) by (unfold idx in *; big; lia).
  add. rewrite R. replace (idx k =? 0) with false by lia. replace (idx k =? ITEM_MAX) with false by lia. cbn [andb]. cbv iota.
  rewrite (last_get_prev (with_cells s (cells (es ++ [mkEnt (idx k) 0 0 0]))) es (idx k) 0 0 0) by (auto; reflexivity).
  assert (U: u64 (idx k) = idx k) by (apply u64_id; unfold is_size; big; lia).
  rewrite U. replace (idx k =? 0) with false by lia. cbn [negb].
  rewrite (last_get_prev _ es (idx k) 0 0 0) by (auto; reflexivity).
  replace (idx k =? ITEM_MAX - 1) with false by lia. replace (kind =? 1) with false by lia. cbn [negb andb].
  set (s1 := repr_set_reference (with_cells s (cells (es ++ [mkEnt (idx k) 0 0 0]))) x (idx (zlen es))).
  assert (Gr: ident_get_repr s1 (idx k) = e_repr e).
  { apply (get_repr s1 (es ++ [mkEnt (idx k) 0 0 0])); [reflexivity|rewrite zlen_app; exact B|]. rewrite znth_app1; auto; lia. }
  rewrite Gr.
  unfold begun. rewrite R. unfold enc. replace (idx k =? ITEM_MAX) with false by lia. reflexivity.
Qed.
End Add.

Section K.
Variable K : Z -> Z.

Definition look (fs : list frame) (x : Z) : Z := match lookup fs x with Some (i, _) => i | None => K x end.
Definition total (l : list slot) : Z := fold_right (fun v n => slot_size v + n) 0 l.
Lemma total_app a b : total (a ++ b) = total a + total b.
Proof. induction a; cbn [app total fold_right]; [reflexivity|]. fold (total (a0 ++ b)) (total a0). lia. Qed.

(** Names of a frame have identifiers in a range. *)
Definition ids_in (lo hi : Z) (f : frame) : Prop := Forall (fun n => lo <= fst (snd n) < hi) (f_names f).

(** The open scopes, and what is on the stack of the parser. *)
Inductive levels (pr : list (Z * Z)) (refs : Z -> Z) : Z -> Z -> Z -> Z -> list frame -> list saved -> Prop :=
| lv_global hi g : ids_in 2 hi g -> levels pr refs 2 hi (-3 - total (f_slots g)) (-1) [g] []
| lv_func a b hi f g : pr = a ++ b -> 1 <= zlen a -> ids_in (idx (zlen a)) hi f -> ids_in 2 (idx (zlen a)) g ->
    (forall x, undo b refs x = look [g] x) ->
    levels pr refs (idx (zlen a)) hi (3 + total (f_slots f)) 1 [f; g] [SFunc (-3 - total (f_slots g))]
| lv_block a b hi f fs cur displ sv : pr = a ++ b -> 1 <= zlen a -> ids_in (idx (zlen a)) hi f ->
    levels pr refs cur (idx (zlen a)) displ 1 fs sv -> cur <= idx (zlen a) -> (2 <= length fs)%nat ->
    (forall x, undo b refs x = look fs x) ->
    levels pr refs (idx (zlen a)) hi (displ + total (f_slots f)) 1 (f :: fs) (SBlock (mkScope displ 1 cur) :: sv).

Lemma ids_in_mono lo hi hi' f : ids_in lo hi f -> hi <= hi' -> ids_in lo hi' f.
Proof. intros H L. eapply Forall_impl; [|exact H]. cbn. lia. Qed.
Lemma levels_hi pr refs cur hi hi' displ lg fs sv : levels pr refs cur hi displ lg fs sv -> hi <= hi' -> levels pr refs cur hi' displ lg fs sv.
Proof.
  intros H L. destruct H; econstructor; eauto using ids_in_mono.
Qed.
Lemma levels_grow pr refs refs' e cur hi displ lg fs sv : levels pr refs cur hi displ lg fs sv ->
  (forall x, undo [e] refs' x = refs x) -> levels (pr ++ [e]) refs' cur hi displ lg fs sv.
Proof.
  intros H E. induction H.
  - constructor; auto.
  - apply (lv_func _ _ a (b ++ [e])); auto; [subst; rewrite app_assoc; auto|].
    intros x. rewrite undo_app. rewrite (undo_ext _ _ _ E). auto.
  - apply (lv_block _ _ a (b ++ [e])); auto; [subst; rewrite app_assoc; auto|].
    intros x. rewrite undo_app. rewrite (undo_ext _ _ _ E). auto.
Qed.
Lemma levels_declare pr refs refs' e cur hi hi' displ lg f f' fs sv names slots : levels pr refs cur hi displ lg (f :: fs) sv ->
  (forall x, undo [e] refs' x = refs x) -> hi <= hi' -> f' = mkFrame (names ++ f_names f) (slots ++ f_slots f) ->
  (forall lo, lo <= hi -> ids_in lo hi' (mkFrame names [])) -> cur <= hi -> 
  levels (pr ++ [e]) refs' cur hi' (displ + lg * total slots) lg (f' :: fs) sv.
Proof.
  intros H E L -> N C.
  assert (J: forall lo, lo <= hi -> ids_in lo hi f -> ids_in lo hi' (mkFrame (names ++ f_names f) (slots ++ f_slots f))).
  { intros lo L' F. unfold ids_in. cbn [f_names]. apply Forall_app. split; [apply (N lo L')|].
    eapply Forall_impl; [|exact F]. cbn. lia. }
  inversion H; subst.
  - replace (-3 - total (f_slots f) + -1 * total slots) with (-3 - total (f_slots (mkFrame (names ++ f_names f) (slots ++ f_slots f)))) by (cbn [f_slots]; rewrite total_app; lia).
    constructor. auto.
  - replace (3 + total (f_slots f) + 1 * total slots) with (3 + total (f_slots (mkFrame (names ++ f_names f) (slots ++ f_slots f)))) by (cbn [f_slots]; rewrite total_app; lia).
    apply (lv_func _ _ a (b ++ [e])); auto; [subst; rewrite app_assoc; auto|].
    intros x. rewrite undo_app. rewrite (undo_ext _ _ _ E). auto.
  - replace (displ0 + total (f_slots f) + 1 * total slots) with (displ0 + total (f_slots (mkFrame (names ++ f_names f) (slots ++ f_slots f)))) by (cbn [f_slots]; rewrite total_app; lia).
    apply (lv_block _ _ a (b ++ [e])); auto; [subst; rewrite app_assoc; auto| |].
    + eapply levels_grow; eauto.
    + intros x. rewrite undo_app. rewrite (undo_ext _ _ _ E). auto.
Qed.
(** Leaving a scope: references change, the outer scopes still come back. *)
Lemma app_prefix {A} (a b a0 b0 : list A) : a ++ b = a0 ++ b0 -> zlen a <= zlen a0 -> exists c, a0 = a ++ c /\ b = c ++ b0.
Proof.
  revert a0. induction a as [|y a IH]; intros [|z a0] E L; cbn [app] in *.
  - exists []. subst. auto.
  - exists (z :: a0). subst. auto.
  - rewrite zlen_cons in L. change (zlen (@nil A)) with 0 in L. pose proof (zlen_nonneg a). lia.
  - injection E as -> E. rewrite !zlen_cons in L. destruct (IH a0 E ltac:(lia)) as (c & -> & ->). exists c. auto.
Qed.
Lemma levels_undo pr refs cur hi displ lg fs sv : levels pr refs cur hi displ lg fs sv -> forall a0 b0, pr = a0 ++ b0 ->
  cur <= idx (zlen a0) -> levels pr (undo b0 refs) cur hi displ lg fs sv.
Proof.
  induction 1 as [hi g I|a b hi f g E La If Ig U|a b hi f fs cur displ sv E La If Hl IH Lc Lf U]; intros a0 b0 E0 L.
  - constructor. auto.
  - destruct (app_prefix a b a0 b0) as (c & -> & ->); [congruence|unfold idx in L; lia|].
    apply (lv_func _ _ a (c ++ b0)); auto.
    intros x. rewrite undo_app. rewrite <- U, undo_app. apply undo_ext. intros y. apply undo_idem.
  - destruct (app_prefix a b a0 b0) as (c & -> & ->); [congruence|unfold idx in L; lia|].
    apply (lv_block _ _ a (c ++ b0)); auto.
    + eapply IH; eauto. lia.
    + intros x. rewrite undo_app. rewrite <- U, undo_app. apply undo_ext. intros y. apply undo_idem.
Qed.

Lemma levels_cur pr refs cur hi displ lg fs sv : levels pr refs cur hi displ lg fs sv -> hi = idx (zlen pr) -> 2 <= cur <= hi.
Proof.
  destruct 1; intros ->; subst; rewrite ?zlen_app; unfold idx; try pose proof (zlen_nonneg pr); try pose proof (zlen_nonneg a); try pose proof (zlen_nonneg b); lia.
Qed.
Definition live (fs : list frame) : list slot := flat_map f_slots (removelast fs).
Lemma live_cons f fs : fs <> [] -> live (f :: fs) = f_slots f ++ live fs.
Proof. intros H. unfold live. destruct fs; [congruence|]. reflexivity. Qed.
Lemma levels_frames pr refs cur hi displ lg fs sv : levels pr refs cur hi displ lg fs sv ->
  fs <> [] /\ (length fs = length sv + 1)%nat
  /\ ((length fs = 1)%nat -> cur = 2 /\ lg = -1 /\ displ = -3 - total (f_slots (last fs (mkFrame [] []))))
  /\ ((2 <= length fs)%nat -> lg = 1 /\ displ = 3 + total (live fs)).
Proof.
  induction 1 as [hi g I|a b hi f g E La If Ig U|a b hi f fs cur displ sv E La If Hl IH Lc Lf U].
  - split; [discriminate|]. split; [reflexivity|]. split; [intros _; cbn; auto|cbn; lia].
  - split; [discriminate|]. split; [reflexivity|]. split; [cbn; lia|]. intros _. split; auto. unfold live. cbn. rewrite app_nil_r. reflexivity.
  - destruct IH as (N & L & _ & I2). destruct (I2 Lf) as [_ D].
    split; [discriminate|]. split; [cbn; lia|]. split; [cbn; lia|]. intros _. split; auto.
    rewrite (live_cons f fs N), total_app. lia.
Qed.
Lemma assoc_In {A} (l : list (Z * A)) x v : assoc l x = Some v -> In (x, v) l.
Proof.
  induction l as [|[y u] l IH]; cbn [assoc]; [discriminate|]. destruct (x =? y) eqn:E.
  - intros [= ->]. left. f_equal. lia.
  - intros H. right. auto.
Qed.
Lemma lookup_In fs x v : lookup fs x = Some v -> exists f, In f fs /\ In (x, v) (f_names f).
Proof.
  induction fs as [|f fs IH]; cbn [lookup]; [discriminate|]. destruct (assoc (f_names f) x) eqn:E.
  - intros [= ->]. exists f. split; [left; auto|]. apply assoc_In. auto.
  - intros H. destruct (IH H) as (f' & I & J). exists f'. split; auto. right. auto.
Qed.
Lemma levels_ids pr refs cur hi displ lg fs sv : levels pr refs cur hi displ lg fs sv -> forall f x i b, In f fs -> In (x, (i, b)) (f_names f) -> i < Z.max cur hi.
Proof.
  assert (A: forall lo hi f x i b, ids_in lo hi f -> In (x, (i, b)) (f_names f) -> lo <= i < hi).
  { intros lo hi' f x i b F I. unfold ids_in in F. rewrite Forall_forall in F. apply (F _ I). }
  induction 1 as [hi g I|a b hi f g E La If Ig U|a b hi f fs cur displ sv E La If Hl IH Lc Lf U]; intros f' x i b' Hf Hn.
  - destruct Hf as [<-|[]]. apply (A _ _ _ _ _ _ I) in Hn. lia.
  - destruct Hf as [<-|[<-|[]]].
    + apply (A _ _ _ _ _ _ If) in Hn. lia.
    + apply (A _ _ _ _ _ _ Ig) in Hn. lia.
  - destruct Hf as [<-|Hf].
    + apply (A _ _ _ _ _ _ If) in Hn. lia.
    + specialize (IH _ _ _ _ Hf Hn). lia.
Qed.
Lemma levels_below pr refs cur hi displ lg f fs sv x i b : levels pr refs cur hi displ lg (f :: fs) sv -> lookup fs x = Some (i, b) -> i < cur.
Proof.
  intros H L. apply lookup_In in L as (f' & Hf & Hn).
  assert (A: forall lo hi f x i b, ids_in lo hi f -> In (x, (i, b)) (f_names f) -> lo <= i < hi).
  { intros lo hi' f0 x0 i0 b0 F I. unfold ids_in in F. rewrite Forall_forall in F. apply (F _ I). }
  inversion H as [hi0 g I|a b0 hi0 f0 g E La If Ig U|a b0 hi0 f0 fs0 cur0 displ0 sv0 E La If Hl Lc Lf U]; subst.
  - destruct Hf.
  - destruct Hf as [<-|[]]. apply (A _ _ _ _ _ _ Ig) in Hn. lia.
  - pose proof (levels_ids _ _ _ _ _ _ _ _ Hl _ _ _ _ Hf Hn). lia.
Qed.
Lemma levels_top pr refs cur hi displ lg f fs sv x i b : levels pr refs cur hi displ lg (f :: fs) sv -> assoc (f_names f) x = Some (i, b) -> cur <= i.
Proof.
  intros H L. apply assoc_In in L.
  assert (A: forall lo hi f x i b, ids_in lo hi f -> In (x, (i, b)) (f_names f) -> lo <= i < hi).
  { intros lo hi' f0 x0 i0 b0 F I. unfold ids_in in F. rewrite Forall_forall in F. apply (F _ I). }
  inversion H as [hi0 g I|a b0 hi0 f0 g E La If Ig U|a b0 hi0 f0 fs0 cur0 displ0 sv0 E La If Hl Lc Lf U]; subst.
  - apply (A _ _ _ _ _ _ I) in L. lia.
  - apply (A _ _ _ _ _ _ If) in L. lia.
  - apply (A _ _ _ _ _ _ If) in L. lia.
Qed.

(** Where things are. *)
Definition dsp (es : list ent) (id a : Z) : Prop := exists k e, id = idx k /\ znth es k = Some e /\ 0 < e_repr e /\ e_displ e = a.
Fixpoint placed (P : slot -> Z -> Prop) (base : Z) (l : list slot) : Prop :=
  match l with [] => True | v :: l => P v (base + total l) /\ placed P base l end.
Definition local (es : list ent) (v : slot) (a : Z) : Prop :=
  match v with Var id _ => dsp es id a | Fun id => dsp es id (- a) | Hole _ => True end.
Definition global (es : list ent) (v : slot) (a : Z) : Prop :=
  match v with Var id _ => dsp es id (- a) | Fun _ => False | Hole _ => True end.
Definition below (es : list ent) (m : Z) (v : slot) : Prop :=
  match v with
  | Hole _ => True
  | _ => exists a, local es v a /\ 3 <= a /\ a + slot_size v <= m
  end.
Definition noted (e : ent) (n : note) : Prop :=
  e_repr e = (if is_prototype (n_decl n) then - n_name n else n_name n) /\ 0 < n_name n /\ e_type e = d_type (n_decl n)
  /\ match d_value (n_decl n) with Some d => e_displ e = d | None => True end.
Definition outer (fs : list frame) : frame := last fs (mkFrame [] []).
Definition nonneg (l : list slot) : Prop := Forall (fun v => 0 <= slot_size v) l.

Record inv (p : program) (w : world) (es : list ent) : Prop := mkInv {
  i_cells : id_cells (w_sx w) = cells es;
  i_bound : idx (zlen es) < ITEM_MAX;
  i_levels : levels (map link es) (id_refs (w_sx w)) (id_cur (w_sx w)) (idx (zlen es)) (id_displ (w_sx w)) (id_lg (w_sx w)) (p_frames p) (w_saved w);
  i_refs : forall x, id_refs (w_sx w) x = look (p_frames p) x;
  i_names : forall f x i b, In f (p_frames p) -> In (x, (i, b)) (f_names f) ->
    0 < x /\ K x = ITEM_MAX /\ exists k e, i = idx k /\ znth es k = Some e /\ (b = true <-> e_repr e <= 0);
  i_protos : forall f x i b, In f (removelast (p_frames p)) -> In (x, (i, b)) (f_names f) -> b = false;
  i_notes : Forall2 noted es (p_notes p);
  i_main : match p_main p with Some i => id_main (w_sx w) = i /\ 2 <= i | None => id_main (w_sx w) = 0 end;
  i_predef0 : forall x, In x (id_predef (w_sx w)) -> 0 <= x;
  i_predef : forall x, 0 < x -> (In x (id_predef (w_sx w)) <-> exists i, assoc (f_names (outer (p_frames p))) x = Some (i, true));
  i_local : placed (local es) 3 (live (p_frames p));
  i_global : placed (global es) 3 (f_slots (outer (p_frames p)));
  i_maxg : id_max_displg (w_sx w) = 3 + total (f_slots (outer (p_frames p)));
  i_ever : (2 <= length (p_frames p))%nat -> Forall (below es (id_max_displ (w_sx w))) (p_ever p)
    /\ id_displ (w_sx w) <= id_max_displ (w_sx w) /\ (length (live (p_frames p)) <= length (p_ever p))%nat
    /\ (length (live (p_frames p)) = length (p_ever p) -> id_max_displ (w_sx w) = id_displ (w_sx w));
  i_pos : Forall (fun f => nonneg (f_slots f)) (p_frames p)
}.

Lemma inv_start : inv start (initial K) [].
Proof.
  constructor; cbn; auto; try reflexivity.
  - apply (lv_global _ _ _ (mkFrame [] [])). constructor.
  - intros f x i b [<-|[]] [].
  - intros f x i b [].
  - intros x [].
  - intros x _. split; [intros []|]. intros [i H]. discriminate.
  - lia.
  - repeat constructor.
Qed.

(** What a name refers to. *)
Section Step.
Variables (p : program) (w : world) (es : list ent) (f : frame) (fs : list frame).
Hypothesis I : inv p w es.
Hypothesis F : p_frames p = f :: fs.
Let s := w_sx w.

Lemma i_cur : 2 <= id_cur s <= idx (zlen es).
Proof. destruct I. eapply levels_cur; eauto. rewrite !zlen_unf, map_length. reflexivity. Qed.
Lemma i_known x i b : lookup (p_frames p) x = Some (i, b) ->
  0 < x /\ K x = ITEM_MAX /\ id_refs s x = i /\ exists k e, i = idx k /\ znth es k = Some e /\ (b = true <-> e_repr e <= 0).
Proof.
  intros L. pose proof (lookup_In _ _ _ L) as (g & Hg & Hn). destruct (i_names _ _ _ I _ _ _ _ Hg Hn) as (X & Kx & H).
  split; auto. split; auto. split; auto. unfold s. rewrite (i_refs _ _ _ I). unfold look. rewrite L. reflexivity.
Qed.
Lemma i_unknown x : lookup (p_frames p) x = None -> id_refs s x = K x.
Proof. intros L. unfold s. rewrite (i_refs _ _ _ I). unfold look. rewrite L. reflexivity. Qed.
Lemma i_main_ref x : K x = 0 -> lookup (p_frames p) x = None.
Proof.
  intros H. destruct (lookup (p_frames p) x) as [[i b]|] eqn:L; auto. apply i_known in L as (_ & E & _). rewrite E in H. discriminate H.
Qed.
Lemma new_id_is : new_id p = idx (zlen es).
Proof.
  unfold new_id, idx. f_equal. f_equal. pose proof (i_notes _ _ _ I) as N. clear - N. rewrite !zlen_unf. f_equal.
  symmetry. induction N; cbn [length]; auto.
Qed.

Section D.
Variables (T : types) (x kind ty fd : Z) (d : decl).
Hypothesis X : 0 < x.
Hypothesis KX : K x = ITEM_MAX \/ K x = 0.
Hypothesis B : new_id p + 4 < ITEM_MAX.
Hypothesis K1 : kind <> 1.
Let id := idx (zlen es).
Definition refs_after : Z -> Z := if K x =? 0 then id_refs s else set_ref (id_refs s) x id.
Definition main_after : Z := if K x =? 0 then id else id_main s.

Lemma B1 : idx (zlen es + 1) < ITEM_MAX.
Proof. rewrite new_id_is in B. unfold idx in *. lia. Qed.

Lemma prelude_accepted : judge K p x d = Accepted -> (is_function d = true -> fd = 1) ->
  ident_add T s x kind ty fd = (do s' <- ident_fill T (begun s es x refs_after main_after) id x kind ty fd; Some (id, s')).
Proof.
  intros J FD. pose proof B1 as B1. pose proof (i_cells _ _ _ I) as C. fold s in C. unfold refs_after, main_after, id. unfold judge in J. rewrite F in J.
  destruct (K x =? 0) eqn:E.
  - assert (R: id_refs s x = 0) by (rewrite i_unknown; [lia|apply i_main_ref; lia]).
    rewrite (add_main T s es x kind ty fd C B1 R); auto; [|apply i_cur].
    pose proof (i_main _ _ _ I) as M. destruct (p_main p); [discriminate|]. exact M.
  - destruct (lookup (p_frames p) x) as [[i b]|] eqn:L.
    + destruct (i_known _ _ _ L) as (_ & Kx & R & k & e & -> & Hk & Hb).
      rewrite (add_old T s es x kind ty fd C B1 k e R Hk X K1). cbv zeta.
      replace ((idx k >=? id_cur s) && (negb (fd =? 1) || (e_repr e >? 0))) with false; auto.
      symmetry. rewrite F in L. cbn [lookup] in L. destruct (assoc (f_names f) x) as [[i' b']|] eqn:A.
      * injection L as -> ->. destruct b; [|discriminate]. destruct (is_function d) eqn:Ed; [|discriminate].
        rewrite (FD eq_refl). assert (e_repr e <= 0) by (apply Hb; auto). lia.
      * pose proof (i_levels _ _ _ I) as Lv. rewrite F in Lv. pose proof (levels_below _ _ _ _ _ _ _ _ _ _ _ _ Lv L). fold s in H. lia.
    + assert (R: id_refs s x = ITEM_MAX) by (rewrite i_unknown; auto; lia).
      rewrite (add_new T s es x kind ty fd C B1 R X). reflexivity.
Qed.
Lemma prelude_second : judge K p x d = SecondMain -> ident_add T s x kind ty fd = Some (SIZE_MAX, begun s es x (id_refs s) (id_main s)).
Proof.
  intros J. pose proof B1 as B1. pose proof (i_cells _ _ _ I) as C. fold s in C. unfold judge in J. rewrite F in J.
  destruct (K x =? 0) eqn:E.
  - assert (R: id_refs s x = 0) by (rewrite i_unknown; [lia|apply i_main_ref; lia]).
    apply (add_main2 T s es x kind ty fd C R).
    pose proof (i_main _ _ _ I) as M. destruct (p_main p); [|discriminate]. unfold s. lia.
  - destruct (assoc (f_names f) x) as [[i b]|]; [|discriminate]. destruct (b && is_function d); discriminate.
Qed.
Lemma prelude_repeated : judge K p x d = Repeated -> (fd = 1 -> is_function d = true \/ 2 <= depth p) ->
  ident_add T s x kind ty fd = Some (SIZE_MAX - 1, begun s es x (set_ref (id_refs s) x id) (id_main s)).
Proof.
  intros J FD. pose proof B1 as B1. pose proof (i_cells _ _ _ I) as C. fold s in C. unfold judge in J. rewrite F in J.
  destruct (K x =? 0) eqn:E; [destruct (p_main p); discriminate|].
  destruct (assoc (f_names f) x) as [[i b]|] eqn:A; [|discriminate].
  assert (L: lookup (p_frames p) x = Some (i, b)) by (rewrite F; cbn [lookup]; rewrite A; auto).
  destruct (i_known _ _ _ L) as (_ & Kx & R & k & e & -> & Hk & Hb).
  rewrite (add_old T s es x kind ty fd C B1 k e R Hk X K1). cbv zeta.
  replace ((idx k >=? id_cur s) && (negb (fd =? 1) || (e_repr e >? 0))) with true; auto. symmetry.
  pose proof (i_levels _ _ _ I) as Lv. rewrite F in Lv. pose proof (levels_top _ _ _ _ _ _ _ _ _ _ _ _ Lv A) as T1. fold s in T1.
  destruct b; [|assert (~ e_repr e <= 0) by (intros Q; apply Hb in Q; discriminate); lia].
  destruct (fd =? 1) eqn:Ef; [|lia]. destruct FD as [D|D]; [lia| |].
  - rewrite D in J. discriminate.
  - exfalso. assert (Hf: In f (removelast (p_frames p))).
    { rewrite F. unfold depth in D. rewrite F, zlen_cons in D. destruct fs; [change (zlen (@nil frame)) with 0 in D; lia|]. left. auto. }
    apply assoc_In in A. pose proof (i_protos _ _ _ I _ _ _ _ Hf A). discriminate.
Qed.
End D.
End Step.
End K.

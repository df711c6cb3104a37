(** Every accepted declaration keeps the invariant. *)
From Verif Require Import Prelude VectorSpec LVec TypesModel IdentModel IdentSpec IdentRun IdentTable IdentProofs.

Lemma F2_znth {A B} (R : A -> B -> Prop) l l' : Forall2 R l l' -> forall k e, znth l k = Some e -> exists m, znth l' k = Some m /\ R e m.
Proof.
  induction 1 as [|a n l l' H HF IH]; intros k e Hk; pose proof (znth_Some_lt _ _ _ Hk) as L.
  - change (zlen (@nil A)) with 0 in L. lia.
  - destruct (Z.eq_dec k 0) as [->|NZ].
    + rewrite znth_cons_0 in Hk. rewrite znth_cons_0. injection Hk as <-. eauto.
    + rewrite znth_cons_pos in Hk by lia. rewrite znth_cons_pos by lia. auto.
Qed.

Lemma total_nonneg l : nonneg l -> 0 <= total l.
Proof. induction 1; cbn; [lia|]. fold (total l). lia. Qed.

Section K.
Variable K : Z -> Z.

Definition place (d : decl) (displ : Z) : Z :=
  match d with
  | DVariable _ | DParameter _ => displ
  | DFunParameter _ => - displ
  | DType _ _ => 1000
  | DConstant _ _ v => v
  | DFunction n _ | DPrototype n _ => n
  end.
Definition newent (s : idents) (x : Z) (d : decl) : ent :=
  mkEnt (enc (id_refs s x)) (if is_prototype d then - x else x) (d_type d) (place d (id_displ s)).
Definition patch (p : program) (x : Z) (d : decl) (es : list ent) : list ent :=
  match d, lookup (p_frames p) x with
  | DFunction n _, Some (i, _) =>
      match znth es ((i - 2) / 4) with
      | Some e => zupd es ((i - 2) / 4) (mkEnt (e_prev e) (e_repr e) (e_type e) n)
      | None => es
      end
  | _, _ => es
  end.
Definition predef_after (s : idents) (x : Z) (d : decl) : list Z :=
  match d with
  | DFunction _ _ => predef_clear (id_predef s) x
  | DPrototype _ _ => id_predef s ++ [x]
  | _ => id_predef s
  end.
Definition mx_after (s : idents) (sl : list slot) : Z :=
  match sl with [] => id_max_displ s | _ => if id_lg s >? 0 then Z.max (id_displ s + total sl) (id_max_displ s) else id_max_displ s end.
Definition mxg_after (s : idents) (sl : list slot) : Z :=
  match sl with [] => id_max_displg s | _ => if id_lg s >? 0 then id_max_displg s else id_max_displg s + total sl end.
Definition declared (p : program) (w : world) (es : list ent) (t : types) (x : Z) (d : decl) : idents :=
  let s := w_sx w in
  let sl := d_slots t d (idx (zlen es)) in
  mkIdents (cells (patch p x d es ++ [newent s x d])) (id_cur s) (refs_after K w es x) (main_after K w es x) (predef_after s x d)
    (id_displ s + id_lg s * total sl) (mx_after s sl) (mxg_after s sl) (id_lg s).

Lemma idx_div k : (idx k - 2) / 4 = k.
Proof. unfold idx. replace (2 + 4 * k - 2) with (k * 4) by lia. apply Z.div_mul. lia. Qed.

Lemma levels_global_inv pr refs cur hi displ lg f sv : levels K pr refs cur hi displ lg [f] sv ->
  sv = [] /\ cur = 2 /\ ids_in 2 hi f /\ displ = -3 - total (f_slots f) /\ lg = -1.
Proof. intros H. inversion H; subst; [repeat split; auto|]. cbn in *. lia. Qed.

Section Step.
Variables (p : program) (w : world) (es : list ent) (f : frame) (fs : list frame).
Hypothesis I : inv K p w es.
Hypothesis F : p_frames p = f :: fs.
Let s := w_sx w.

Lemma i_lg : (fs = [] /\ id_cur s = 2 /\ id_lg s = -1 /\ id_displ s = - id_max_displg s) \/ (2 <= depth p /\ id_lg s = 1).
Proof.
  pose proof (i_levels _ _ _ _ I) as Lv. pose proof (levels_frames _ _ _ _ _ _ _ _ _ Lv) as (_ & _ & L1 & L2).
  rewrite F in L1, L2. destruct fs as [|g fs'].
  - left. destruct (L1 eq_refl) as (A & B & C). fold s in A, B, C. repeat split; auto. rewrite C.
    unfold s. rewrite (i_maxg _ _ _ _ I), F. cbn [last outer]. unfold outer. cbn [last]. lia.
  - right. split.
    + unfold depth. rewrite F, !zlen_cons. pose proof (zlen_nonneg fs'). lia.
    + apply L2. cbn. lia.
Qed.

Lemma declare_accepted t x d : legal K p (Declare t x d) -> judge K p x d = Accepted ->
  declare s t x d = Some (idx (zlen es), declared p w es t x d).
Proof.
  intros (X & KX & LD & B & MP & SAME) J. pose proof (B1 K p w es I B) as B1.
  assert (P: forall kind ty fd, kind <> 1 -> (is_function d = true -> fd = 1) ->
    ident_add t s x kind ty fd = (do s' <- ident_fill t (begun s es x (refs_after K w es x) (main_after K w es x)) (idx (zlen es)) x kind ty fd; Some (idx (zlen es), s'))).
  { intros kind ty fd K1 FD. apply (prelude_accepted K p w es f fs I F t x kind ty fd d); auto. }
  pose proof i_lg as LG. unfold declared. fold s.
  destruct d as [ty|ty|ty|how ty|how ty v|n ty|n ty]; cbn [declare].
  - destruct LD as (n & Hn & Pn). rewrite P by (cbn; lia || discriminate). unfold begun.
    rewrite (fill_var t es) with (n := n) by auto. cbn [bind]. do 3 f_equal.
    + cbn [d_slots d_type]. rewrite Hn. cbn. lia.
    + cbn [d_slots d_type]. rewrite Hn. cbn [mx_after total fold_right slot_size]. destruct (id_lg s >? 0) eqn:E; auto. f_equal. lia.
    + cbn [d_slots d_type]. rewrite Hn. cbn [mxg_after total fold_right slot_size]. destruct (id_lg s >? 0) eqn:E; auto. lia.
  - destruct LD as (_ & n & Hn & Pn). rewrite P by (cbn; lia || discriminate). unfold begun.
    rewrite (fill_var t es) with (n := n) by auto. cbn [bind]. do 3 f_equal.
    + cbn [d_slots d_type]. rewrite Hn. cbn. lia.
    + cbn [d_slots d_type]. rewrite Hn. cbn [mx_after total fold_right slot_size]. destruct (id_lg s >? 0) eqn:E; auto. f_equal. lia.
    + cbn [d_slots d_type]. rewrite Hn. cbn [mxg_after total fold_right slot_size]. destruct (id_lg s >? 0) eqn:E; auto. lia.
  - rewrite P by (cbn; lia || discriminate). unfold begun.
    rewrite fill_funparam by auto. cbn [bind].
    unfold legal_decl, only_parameters in LD. rewrite F in LD. destruct fs as [|g [|? ?]]; try contradiction.
    destruct LG as [(E & _)|[_ LG]]; [discriminate|].
    pose proof (i_ever _ _ _ _ I) as EV. rewrite F in EV. destruct EV as (_ & _ & _ & EV); [cbn; lia|].
    rewrite LD in EV. unfold live in EV. cbn in EV. rewrite app_nil_r in EV. specialize (EV eq_refl). fold s in EV.
    do 3 f_equal.
    + cbn. rewrite LG. lia.
    + cbn [d_slots mx_after total fold_right slot_size]. replace (id_lg s >? 0) with true by lia. lia.
    + cbn [d_slots mxg_after]. replace (id_lg s >? 0) with true by lia. reflexivity.
  - rewrite P by (cbn; lia || discriminate). unfold begun. rewrite fill_type by auto. cbn. repeat f_equal; try lia.
  - destruct LD as (_ & n & Hn & Pn). unfold enum_constant_add. rewrite P by (cbn; lia || discriminate). unfold begun.
    rewrite (fill_var t es) with (n := n) by auto. cbn [bind].
    rewrite (last_set_displ _ es (enc (id_refs s x)) x ty (id_displ s)) by (auto; reflexivity). unfold with_cells. cbn [bind id_cur id_refs id_main id_predef id_displ id_max_displ id_max_displg id_lg].
    do 3 f_equal.
    + cbn [d_slots d_type]. rewrite Hn. cbn. lia.
    + cbn [d_slots d_type]. rewrite Hn. cbn [mx_after total fold_right slot_size]. destruct (id_lg s >? 0) eqn:E; auto. f_equal. lia.
    + cbn [d_slots d_type]. rewrite Hn. cbn [mxg_after total fold_right slot_size]. destruct (id_lg s >? 0) eqn:E; auto. lia.
  - destruct LD as (D1 & N & TY). rewrite P by (cbn; lia || auto). unfold begun. rewrite fill_function by (auto; lia). cbn [bind].
    f_equal. f_equal. cbn [d_slots]. cbn [total fold_right mx_after mxg_after]. rewrite Z.mul_0_r, Z.add_0_r.
    set (s1 := mkIdents _ _ _ _ _ _ _ _ _).
    assert (C1: id_cells s1 = cells (es ++ [mkEnt (enc (id_refs s x)) x ty n])) by reflexivity.
    unfold function_definition. replace (idx (zlen es) =? SIZE_MAX) with false by (unfold idx in *; big; lia).
    rewrite (last_get_prev _ _ _ _ _ _ C1 B1), (last_get_type _ _ _ _ _ _ C1 B1), (last_get_displ _ _ _ _ _ _ C1 B1).
    unfold patch. destruct (lookup (p_frames p) x) as [[i b]|] eqn:L.
    + destruct (i_known _ _ _ _ I _ _ _ L) as (_ & Kx & R & k & e & -> & Hk & Hb). fold s in R. rewrite R.
      pose proof (znth_Some_lt _ _ _ Hk) as Lk.
      assert (Bk: 2 <= idx k < ITEM_MAX - 1) by (unfold idx in *; big; lia).
      unfold enc. replace (idx k =? ITEM_MAX) with false by lia. replace ((idx k >? 1) && negb (idx k =? ITEM_MAX - 1)) with true by lia.
      rewrite idx_div, Hk.
      assert (Hk': znth (es ++ [mkEnt (enc (id_refs s x)) x ty n]) k = Some e) by (rewrite znth_app1; auto; lia).
      rewrite (get_type _ _ C1 (last_bound _ _ _ _ _ B1) _ _ Hk').
      assert (TE: e_type e = ty).
      { pose proof (i_notes _ _ _ _ I) as NT. pose proof (znth_Some_lt _ _ _ Hk) as Lk'.
        assert (exists m, znth (p_notes p) k = Some m /\ noted e m) as (m & Hm & _ & _ & Tm & _).
        { eapply F2_znth; eauto. }
        rewrite Tm. apply (SAME n ty (idx k) b m); auto; [rewrite Kx; discriminate|]. rewrite idx_div. auto. }
      replace (ty =? e_type e) with true by lia. cbn [negb snd].
      destruct e as [pv rp te dl]. rewrite (set_displ _ _ C1 (last_bound _ _ _ _ _ B1) _ _ _ _ _ n Hk').
      unfold s1, with_cells. cbn [id_cur id_refs id_main id_predef id_displ id_max_displ id_max_displg id_lg].
      rewrite zupd_app1 by lia. unfold newent. cbn [is_prototype d_type place]. reflexivity.
    + assert (E: (enc (id_refs s x) >? 1) && negb (enc (id_refs s x) =? ITEM_MAX - 1) = false).
      { unfold s. rewrite (i_unknown _ _ _ _ I _ L). destruct KX as [-> | ->]; reflexivity. }
      rewrite E. reflexivity.
  - destruct LD as (D1 & N & TY). rewrite P by (cbn; lia || discriminate). unfold begun. rewrite fill_prototype by (auto; lia). cbn [bind].
    f_equal. f_equal. cbn [d_slots]. cbn [total fold_right mx_after mxg_after]. rewrite Z.mul_0_r, Z.add_0_r. reflexivity.
Qed.

Lemma zlen_patch x d : zlen (patch p x d es) = zlen es.
Proof.
  unfold patch. destruct d; auto. destruct (lookup (p_frames p) x) as [[i b]|]; auto. destruct (znth es ((i - 2) / 4)); auto. apply zlen_zupd.
Qed.
Lemma global_depth : depth p = 1 -> fs = [].
Proof.
  intros D. unfold depth in D. rewrite F, zlen_cons in D. destruct fs as [|g l]; auto.
  rewrite zlen_cons in D. pose proof (zlen_nonneg l). lia.
Qed.
Section D.
Variables (t : types) (x : Z) (d : decl).
Hypothesis L : legal K p (Declare t x d).
Hypothesis J : judge K p x d = Accepted.
Let es' := patch p x d es ++ [newent s x d].
Let p' := after K p (Declare t x d).
Let sl := d_slots t d (idx (zlen es)).
Let names := if K x =? 0 then [] else [(x, (idx (zlen es), is_prototype d))].
Let f' := mkFrame (names ++ f_names f) (sl ++ f_slots f).

Lemma after_is : p' = mkProgram (f' :: fs) (define p x d (p_notes p ++ [mkNote x d]))
  (if K x =? 0 then Some (idx (zlen es)) else p_main p) (sl ++ p_ever p).
Proof.
  unfold p', after, f', names, sl. rewrite F. rewrite (new_id_is K p w es I). destruct (K x =? 0); reflexivity.
Qed.
Lemma patch_znth k e : znth es k = Some e -> exists e', znth (patch p x d es) k = Some e' /\ e_prev e' = e_prev e
  /\ e_repr e' = e_repr e /\ e_type e' = e_type e /\ (0 < e_repr e -> e' = e).
Proof.
  intros H. pose proof (znth_Some_lt _ _ _ H) as Lk. assert (D: exists e', Some e = Some e' /\ e_prev e' = e_prev e /\ e_repr e' = e_repr e /\ e_type e' = e_type e /\ (0 < e_repr e -> e' = e)) by (exists e; auto).
  unfold patch. destruct d as [| | | | |n ty|]; try (rewrite H; exact D).
  destruct (lookup (p_frames p) x) as [[i b]|] eqn:Lx; [|rewrite H; exact D].
  destruct (i_known _ _ _ _ I _ _ _ Lx) as (_ & Kx & R & k' & e0 & -> & Hk & Hb). rewrite idx_div, Hk.
  destruct (Z.eq_dec k' k) as [->|N].
  - rewrite Hk in H. injection H as ->. rewrite znth_zupd_same by auto. eexists. split; [reflexivity|]. cbn. repeat split; auto.
    intros P. exfalso. unfold judge in J. rewrite Kx, F in J. change (ITEM_MAX =? 0) with false in J. cbv iota in J.
    destruct L as (_ & _ & (D1 & _) & _). rewrite F, (global_depth D1) in Lx. cbn [lookup] in Lx.
    destruct (assoc (f_names f) x) as [[i0 b0]|]; [|discriminate]. injection Lx as -> ->.
    destruct b; [|discriminate]. assert (e_repr e <= 0) by (apply Hb; auto). lia.
  - rewrite znth_zupd_other by auto. rewrite H. exact D.
Qed.
Lemma map_link_patch : map link (patch p x d es) = map link es.
Proof.
  unfold patch. destruct d as [| | | | |n ty|]; auto. destruct (lookup (p_frames p) x) as [[i b]|]; auto.
  destruct (znth es ((i - 2) / 4)) as [e|] eqn:E; auto.
  apply znth_split in E as (a & c & -> & <-). rewrite zupd_app2 by lia. replace (zlen a - zlen a) with 0 by lia.
  change (zupd (e :: c) 0 ?e') with (e' :: c). rewrite !map_app. cbn. reflexivity.
Qed.
Lemma es'_znth k e : znth es k = Some e -> exists e', znth es' k = Some e' /\ e_prev e' = e_prev e
  /\ e_repr e' = e_repr e /\ e_type e' = e_type e /\ (0 < e_repr e -> e' = e).
Proof.
  intros H. pose proof (znth_Some_lt _ _ _ H) as Lk. destruct (patch_znth _ _ H) as (e' & H' & R). exists e'. split; auto.
  unfold es'. rewrite znth_app1 by (rewrite zlen_patch; lia). auto.
Qed.
Lemma es'_new : znth es' (zlen es) = Some (newent s x d).
Proof. unfold es'. rewrite <- (zlen_patch x d). apply znth_last. Qed.
Lemma dsp_mono id a : dsp es id a -> dsp es' id a.
Proof.
  intros (k & e & -> & H & P & D). destruct (es'_znth _ _ H) as (e' & H' & _ & _ & _ & E). specialize (E P). subst e'.
  exists k, e. auto.
Qed.
Lemma local_mono v a : local es v a -> local es' v a.
Proof. destruct v; cbn; auto using dsp_mono. Qed.
Lemma global_mono v a : global es v a -> global es' v a.
Proof. destruct v; cbn; auto using dsp_mono. Qed.
Lemma placed_mono (P Q : slot -> Z -> Prop) b l : (forall v a, P v a -> Q v a) -> placed P b l -> placed Q b l.
Proof. intros H. induction l; cbn; auto. intros [A B]. auto. Qed.
Lemma below_mono m m' v : m <= m' -> below es m v -> below es' m' v.
Proof.
  intros M. destruct v as [i n|i|n]; cbn; auto.
  - intros (a & A & B & C). exists a. split; [apply dsp_mono; auto|lia].
  - intros (a & A & B & C). exists a. split; [apply dsp_mono; auto|lia].
Qed.

Lemma decl_levels : levels K (map link es') (refs_after K w es x) (id_cur s) (idx (zlen es')) (id_displ s + id_lg s * total sl) (id_lg s) (f' :: fs) (w_saved w).
Proof.
  unfold es'. rewrite map_app, map_link_patch. cbn [map].
  pose proof (i_levels _ _ _ _ I) as Lv. rewrite F in Lv. fold s in Lv.
  assert (E: zlen (patch p x d es ++ [newent s x d]) = zlen es + 1) by (rewrite zlen_app, zlen_patch; reflexivity). rewrite E.
  destruct i_lg as [(Efs & Ec & El & Ed)|[D2 Lg]].
  { rewrite Efs in Lv |- *. apply levels_global_inv in Lv as (-> & -> & Ig & Dg & ->).
    replace (id_displ s + -1 * total sl) with (-3 - total (f_slots f')).
    - apply lv_global. unfold ids_in, f', names in *. cbn [f_names]. apply Forall_app. split.
      + destruct (K x =? 0); constructor; [|constructor]. cbn [fst snd]. unfold idx. pose proof (zlen_nonneg es). lia.
      + eapply Forall_impl; [|exact Ig]. cbn beta. unfold idx. lia.
    - unfold f'. cbn [f_slots]. rewrite total_app. lia. }
  eapply (levels_declare K _ _ _ _ _ _ _ _ _ f f' fs _ names sl Lv); auto.
  - intros y. unfold undo. cbn [fold_right link newent e_prev e_repr fst snd]. unfold refs_after. fold s.
    destruct L as (X & KX & _ & _ & MP & _).
    assert (ED: forall r, r <> ITEM_MAX - 1 -> dec (enc r) = r).
    { intros r N. unfold dec, enc. destruct (r =? ITEM_MAX) eqn:Q; [rewrite Z.eqb_refl; lia|]. replace (r =? ITEM_MAX - 1) with false by lia. auto. }
    assert (N: id_refs s x <> ITEM_MAX - 1).
    { destruct (lookup (p_frames p) x) as [[i b]|] eqn:Lx.
      - destruct (i_known _ _ _ _ I _ _ _ Lx) as (_ & _ & R & k & e & -> & Hk & _). fold s in R. rewrite R.
        apply znth_Some_lt in Hk. pose proof (i_bound _ _ _ _ I). unfold idx in *. big. lia.
      - unfold s. rewrite (i_unknown _ _ _ _ I _ Lx). destruct KX as [-> | ->]; discriminate. }
    rewrite (ED _ N). unfold set_ref. destruct (K x =? 0) eqn:K0.
    + rewrite MP by lia. replace (x <? 0) with false by lia. destruct (y =? x) eqn:Y; auto. f_equal. lia.
    + destruct (is_prototype d) eqn:PD.
      * exfalso. destruct d; try discriminate. destruct L as (_ & _ & (D1 & _) & _). lia.
      * replace (x <? 0) with false by lia. destruct (y =? x) eqn:Y; auto. f_equal. lia.
  - unfold idx. lia.
  - intros lo Hlo. unfold ids_in, names. cbn [f_names]. destruct (K x =? 0); constructor; [|constructor]. cbn [fst snd]. unfold idx in *. lia.
  - apply (i_cur K p w es I).
Qed.

Lemma decl_refs y : refs_after K w es x y = look K (f' :: fs) y.
Proof.
  unfold refs_after. pose proof (i_refs _ _ _ _ I y) as R. rewrite F in R. unfold look in *. cbn [lookup] in *.
  unfold f', names. cbn [f_names]. destruct (K x =? 0) eqn:E; [exact R|].
  destruct L as (X & _). unfold set_ref. replace (x <? 0) with false by lia. cbn [app assoc].
  destruct (y =? x) eqn:Y; auto.
Qed.
Lemma newent_repr : (is_prototype d = true <-> e_repr (newent s x d) <= 0) /\ (is_prototype d = false -> e_repr (newent s x d) = x).
Proof. destruct L as (X & _). unfold newent. cbn [e_repr]. destruct (is_prototype d); (split; [split|]); intros Q; auto; try discriminate; lia. Qed.
Lemma decl_names g y i b : In g (f' :: fs) -> In (y, (i, b)) (f_names g) ->
  0 < y /\ K y = ITEM_MAX /\ exists k e, i = idx k /\ znth es' k = Some e /\ (b = true <-> e_repr e <= 0).
Proof.
  intros Hg Hn.
  assert (Old: forall g, In g (f :: fs) -> In (y, (i, b)) (f_names g) -> 0 < y /\ K y = ITEM_MAX /\ exists k e, i = idx k /\ znth es' k = Some e /\ (b = true <-> e_repr e <= 0)).
  { intros h Hh Hi. rewrite <- F in Hh. destruct (i_names _ _ _ _ I _ _ _ _ Hh Hi) as (A & B & k & e & C & D & E).
    split; auto. split; auto. destruct (es'_znth _ _ D) as (e' & D' & _ & R & _). exists k, e'. rewrite R. auto. }
  destruct Hg as [<-|Hg].
  - unfold f' in Hn. cbn [f_names] in Hn. apply in_app_or in Hn as [Hn|Hn].
    + unfold names in Hn. destruct (K x =? 0) eqn:E; [destruct Hn|]. destruct Hn as [[= <- <- <-]|[]].
      destruct L as (X & KX & _). split; auto. split; [lia|]. exists (zlen es), (newent s x d).
      split; auto. split; [apply es'_new|]. apply newent_repr.
    + apply (Old f); auto. left. auto.
  - apply (Old g); auto. right. auto.
Qed.
Lemma decl_protos g y i b : In g (removelast (f' :: fs)) -> In (y, (i, b)) (f_names g) -> b = false.
Proof.
  intros Hg Hn. destruct fs as [|h fs'] eqn:Efs; [destruct Hg|].
  assert (Old: forall g, In g (removelast (f :: h :: fs')) -> In (y, (i, b)) (f_names g) -> b = false).
  { intros g' Hg' Hn'. rewrite <- F in Hg'. apply (i_protos _ _ _ _ I _ _ _ _ Hg' Hn'). }
  change (removelast (f' :: h :: fs')) with (f' :: removelast (h :: fs')) in Hg.
  destruct Hg as [<-|Hg].
  - unfold f' in Hn. cbn [f_names] in Hn. apply in_app_or in Hn as [Hn|Hn].
    + unfold names in Hn. destruct (K x =? 0) eqn:E; [destruct Hn|]. destruct Hn as [[= <- <- <-]|[]].
      destruct (is_prototype d) eqn:PD; auto. exfalso. destruct d; try discriminate.
      destruct L as (_ & _ & (D1 & _) & _). unfold depth in D1. rewrite F, !zlen_cons in D1. pose proof (zlen_nonneg fs'). lia.
    + apply (Old f); auto. left. auto.
  - apply (Old g); auto. right. auto.
Qed.
Lemma F2_zupd {A B} (R : A -> B -> Prop) l l' k a b : Forall2 R l l' -> R a b -> Forall2 R (zupd l k a) (zupd l' k b).
Proof.
  intros H HR. rewrite !zupd_unf. destruct (k <? 0); auto. generalize (Z.to_nat k) as n. induction H; intros [|n]; cbn; auto.
Qed.
Lemma decl_notes : Forall2 noted es' (define p x d (p_notes p ++ [mkNote x d])).
Proof.
  pose proof (i_notes _ _ _ _ I) as N. destruct L as (X & KX & _).
  assert (New: noted (newent s x d) (mkNote x d)).
  { unfold noted, newent. cbn [e_repr n_name n_decl e_type e_displ]. repeat split; auto.
    destruct d; cbn; auto. }
  assert (ZN: zlen es = zlen (p_notes p)) by (rewrite !zlen_unf; f_equal; clear - N; induction N; cbn; auto).
  assert (D: Forall2 noted (es ++ [newent s x d]) (p_notes p ++ [mkNote x d])) by (apply Forall2_app; auto).
  unfold es', define, patch. destruct d as [| | | | |n ty|]; auto.
  destruct (lookup (p_frames p) x) as [[i b]|] eqn:Lx; auto.
  destruct (i_known _ _ _ _ I _ _ _ Lx) as (_ & Kx & R & k & e0 & -> & Hk & Hb). rewrite idx_div, Hk.
  pose proof (znth_Some_lt _ _ _ Hk) as Lk. rewrite znth_app1 by lia.
  destruct (F2_znth _ _ _ N _ _ Hk) as ([y dm] & Hm & Q). rewrite Hm. destruct Q as (Q1 & Q2 & Q3 & Q4). cbn [n_decl n_name] in *.
  assert (R0: e_repr e0 <= 0).
  { unfold judge in J. rewrite Kx, F in J. change (ITEM_MAX =? 0) with false in J. cbv iota in J.
    rewrite F in Lx. cbn [lookup] in Lx. destruct (assoc (f_names f) x) as [[i0 b0]|] eqn:A.
    - injection Lx as -> ->. apply Hb. destruct b; auto. discriminate.
    - destruct L as (_ & _ & (D1 & _) & _). rewrite (global_depth D1) in Lx. discriminate. }
  destruct dm as [| | | | | |n' ty']; cbn [is_prototype] in Q1; try lia. rewrite zupd_app1 by lia.
  apply Forall2_app; auto. apply F2_zupd; auto. unfold noted. cbn. auto.
Qed.
Lemma decl_main : match (if K x =? 0 then Some (idx (zlen es)) else p_main p) with Some i => main_after K w es x = i /\ 2 <= i | None => main_after K w es x = 0 end.
Proof.
  unfold main_after. destruct (K x =? 0); [|apply (i_main _ _ _ _ I)]. split; auto. unfold idx. pose proof (zlen_nonneg es). lia.
Qed.
Lemma outer_cons g l : l <> [] -> outer (g :: l) = outer l.
Proof. intros H. unfold outer. destruct l; [congruence|]. reflexivity. Qed.
Lemma predef_clear_In y l : 0 < y -> (In y (predef_clear l x) <-> In y l /\ y <> x).
Proof.
  intros Y. unfold predef_clear. rewrite in_map_iff. split.
  - intros (z & E & H). destruct (z =? x) eqn:Z; [lia|]. subst z. split; auto. lia.
  - intros [H N]. exists y. replace (y =? x) with false by lia. auto.
Qed.
Lemma decl_predef0 y : In y (predef_after s x d) -> 0 <= y.
Proof.
  intros H. pose proof (i_predef0 _ _ _ _ I) as P. destruct L as (X & _). unfold predef_after in H. destruct d; try (apply P; exact H).
  - unfold predef_clear in H. apply in_map_iff in H as (z & E & H). apply P in H. destruct (z =? x); lia.
  - apply in_app_or in H as [H|[<-|[]]]; [apply P; auto|lia].
Qed.
Lemma decl_predef y : 0 < y -> (In y (predef_after s x d) <-> exists i, assoc (f_names (outer (f' :: fs))) y = Some (i, true)).
Proof.
  intros Y. pose proof (i_predef _ _ _ _ I y Y) as P. rewrite F in P. fold s in P. destruct L as (X & KX & LD & _ & MP & _).
  destruct fs as [|h fs'] eqn:Efs.
  - unfold outer in *. cbn [last] in *.
    assert (G: ~ (exists i, assoc (f_names f) x = Some (i, true)) -> predef_after s x d = id_predef s -> is_prototype d = false -> 
      (In y (predef_after s x d) <-> exists i, assoc (f_names f') y = Some (i, true))).
    { intros NA -> ND. rewrite P. unfold f', names. cbn [f_names]. destruct (K x =? 0); [tauto|]. cbn [app assoc].
      destruct (y =? x) eqn:E; [|tauto]. replace y with x by lia. rewrite ND. split; [intros H; contradiction|]. intros [i H]; discriminate. }
    assert (M0: K x = 0 -> ~ exists i, assoc (f_names f) x = Some (i, true)).
    { intros K0 [i H]. assert (Lx: lookup (p_frames p) x = None) by (apply (i_main_ref K p w es I); auto).
      rewrite F in Lx. cbn [lookup] in Lx. rewrite H in Lx. discriminate. }
    assert (NF: is_function d = false -> ~ exists i, assoc (f_names f) x = Some (i, true)).
    { intros Fd [i H]. unfold judge in J. rewrite F, H, Fd in J. destruct (K x =? 0) eqn:K0; [apply M0; eauto; lia|]. discriminate. }
    destruct d as [| | | | |n ty|n ty]; try (apply G; auto; fail).
    + cbn [predef_after]. rewrite (predef_clear_In _ _ Y), P. unfold f', names. cbn [f_names is_prototype].
      destruct (K x =? 0) eqn:K0; cbn [app assoc].
      * split; [tauto|]. intros H. split; auto. intros ->. apply M0; auto. lia.
      * destruct (y =? x) eqn:E; [|split; [tauto|]; intros H; split; auto; lia].
        split; [lia|]. intros [i H]; discriminate.
    + cbn [predef_after]. unfold f', names. cbn [f_names is_prototype].
      assert (K0: (K x =? 0) = false) by (destruct (K x =? 0) eqn:K0; auto; specialize (MP ltac:(lia)); discriminate). rewrite K0.
      cbn [app assoc]. rewrite in_app_iff, P. destruct (y =? x) eqn:E.
      * split; [intros _; eauto|]. intros _. right. left. lia.
      * split; [|tauto]. intros [H|[<-|[]]]; auto. lia.
  - assert (predef_after s x d = id_predef s).
    { destruct d; auto; destruct LD as (D1 & _); unfold depth in D1; rewrite F, !zlen_cons in D1; pose proof (zlen_nonneg fs'); lia. }
    rewrite H, P. reflexivity.
Qed.
Lemma sl_cases : sl = [] \/ (exists n, sl = [Var (idx (zlen es)) n] /\ 0 <= n /\ place d (id_displ s) = id_displ s /\ is_prototype d = false)
  \/ (exists n, sl = [Hole n] /\ 0 <= n) \/ (sl = [Fun (idx (zlen es))] /\ place d (id_displ s) = - id_displ s /\ is_prototype d = false /\ only_parameters p).
Proof.
  destruct L as (_ & _ & LD & _). unfold sl. destruct d as [ty|ty|ty|how ty|how ty v|n ty|n ty]; cbn [d_slots d_type]; auto.
  - destruct LD as (n & -> & H). right. left. exists n. auto.
  - destruct LD as (_ & n & -> & H). right. left. exists n. auto.
  - right. right. right. auto.
  - destruct LD as (_ & n & -> & H). right. right. left. exists n. auto.
Qed.
Lemma new_dsp : is_prototype d = false -> dsp es' (idx (zlen es)) (place d (id_displ s)).
Proof.
  intros H. exists (zlen es), (newent s x d). split; auto. split; [apply es'_new|]. destruct newent_repr as [_ N]. rewrite (N H).
  destruct L as (X & _). split; auto.
Qed.
Lemma sl_nonneg : nonneg sl.
Proof. unfold nonneg. destruct sl_cases as [->|[(n & -> & H & _)|[(n & -> & H)|(-> & _)]]]; repeat constructor; cbn; lia. Qed.
Lemma live_frames : fs <> [] -> live (f' :: fs) = sl ++ live (p_frames p).
Proof. intros H. rewrite F, !live_cons by auto. unfold f'. cbn [f_slots]. rewrite app_assoc. reflexivity. Qed.
Lemma frames_local : fs <> [] -> id_lg s = 1 /\ id_displ s = 3 + total (live (p_frames p)).
Proof.
  intros H. destruct (levels_frames _ _ _ _ _ _ _ _ _ (i_levels _ _ _ _ I)) as (_ & _ & _ & L2). apply L2. rewrite F. destruct fs; [congruence|]. cbn. lia.
Qed.
Lemma fs_cases : fs = [] \/ fs <> [].
Proof. destruct fs; auto. right. discriminate. Qed.
Lemma decl_local : placed (local es') 3 (live (f' :: fs)).
Proof.
  pose proof (i_local _ _ _ _ I) as P. destruct fs_cases as [E|N]; [rewrite E; exact Logic.I|]. rewrite (live_frames N). destruct (frames_local N) as [_ D].
  apply (placed_mono _ (local es')) in P; [|apply local_mono].
  destruct sl_cases as [Q|[(n & Q & H & Pl & ND)|[(n & Q & H)|(Q & Pl & ND & _)]]]; rewrite Q; cbn [app placed]; auto.
  - split; auto. cbn [local]. rewrite <- D, <- Pl. apply new_dsp. auto.
  - split; auto. cbn [local]. auto.
  - split; auto. cbn [local]. rewrite <- D, <- Pl. apply new_dsp. auto.
Qed.
Lemma frames_global : fs = [] -> id_displ s = - (3 + total (f_slots f)) /\ id_lg s = -1.
Proof.
  intros H. destruct i_lg as [(_ & _ & A & B)|[D _]].
  - split; auto. rewrite B. unfold s. rewrite (i_maxg _ _ _ _ I), F, H. reflexivity.
  - unfold depth in D. rewrite F, H in D. change (zlen [f]) with 1 in D. lia.
Qed.
Lemma decl_global : placed (global es') 3 (f_slots (outer (f' :: fs))).
Proof.
  pose proof (i_global _ _ _ _ I) as P. apply (placed_mono _ (global es')) in P; [|apply global_mono]. rewrite F in P.
  destruct fs_cases as [E|N]; [|rewrite outer_cons in P |- * by auto; exact P].
  destruct (frames_global E) as [D _]. rewrite E in P |- *. unfold outer in *. cbn [last] in *. unfold f'. cbn [f_slots].
  destruct sl_cases as [Q|[(n & Q & H & Pl & ND)|[(n & Q & H)|(Q & Pl & ND & O)]]]; rewrite Q; cbn [app placed]; auto.
  - split; auto. cbn [global]. rewrite <- D, <- Pl. apply new_dsp. auto.
  - split; auto. cbn [global]. auto.
  - unfold only_parameters in O. rewrite F, E in O. destruct O.
Qed.
Lemma decl_maxg : mxg_after s sl = 3 + total (f_slots (outer (f' :: fs))).
Proof.
  pose proof (i_maxg _ _ _ _ I) as M. rewrite F in M. fold s in M.
  destruct fs_cases as [E0|N].
  - destruct (frames_global E0) as [_ D]. rewrite E0 in M |- *. unfold outer in *. cbn [last] in *. unfold f'. cbn [f_slots]. rewrite total_app.
    unfold mxg_after. replace (id_lg s >? 0) with false by lia. destruct sl eqn:E; [cbn [total fold_right]; lia|rewrite <- E; lia].
  - destruct (frames_local N) as [D _].
    unfold mxg_after. replace (id_lg s >? 0) with true by lia. rewrite outer_cons in M |- * by auto. destruct sl; auto.
Qed.
Lemma decl_ever : (2 <= length (f' :: fs))%nat -> Forall (below es' (mx_after s sl)) (sl ++ p_ever p)
    /\ id_displ s + id_lg s * total sl <= mx_after s sl /\ (length (live (f' :: fs)) <= length (sl ++ p_ever p))%nat
    /\ (length (live (f' :: fs)) = length (sl ++ p_ever p) -> mx_after s sl = id_displ s + id_lg s * total sl).
Proof.
  intros N2. assert (N: fs <> []) by (destruct fs; [cbn in N2; lia|discriminate]).
  destruct (frames_local N) as [Lg D]. rewrite (live_frames N), !app_length. rewrite Lg.
  destruct (i_ever _ _ _ _ I) as (E1 & E2 & E3 & E4); [rewrite F; exact N2|]. fold s in E1, E2, E4.
  assert (T0: 0 <= total (live (p_frames p))).
  { pose proof (i_pos _ _ _ _ I) as Pp. clear - Pp. unfold live. induction (p_frames p) as [|g [|g' l] IH]; cbn; [lia|lia|].
    inversion Pp as [|? ? P1 P2]; subst. specialize (IH P2). rewrite total_app. change (removelast (g' :: l)) with (match l with [] => [] | _ :: _ => g' :: removelast l end) in IH.
    assert (0 <= total (f_slots g)); [|lia]. clear - P1. induction P1; cbn; [lia|]. fold (total l). lia. }
  assert (MX: mx_after s sl = Z.max (id_displ s + total sl) (id_max_displ s)).
  { unfold mx_after. replace (id_lg s >? 0) with true by lia. destruct sl; auto. cbn [total fold_right]. lia. }
  rewrite MX. repeat split; try lia.
  apply Forall_app. split.
  - destruct sl_cases as [Q|[(n & Q & H & Pl & ND)|[(n & Q & H)|(Q & Pl & ND & _)]]]; rewrite Q; constructor; try (exact Logic.I); try constructor;
    exists (id_displ s); cbn [local slot_size total fold_right].
    + split; [rewrite <- Pl; apply new_dsp; auto|lia].
    + split; [rewrite <- Pl; apply new_dsp; auto|lia].
  - eapply Forall_impl; [|exact E1]. intros v. apply below_mono. lia.
  - intros Q. specialize (E4 ltac:(lia)). pose proof (total_nonneg _ sl_nonneg). lia.
Qed.
Lemma decl_pos : Forall (fun f => nonneg (f_slots f)) (f' :: fs).
Proof.
  pose proof (i_pos _ _ _ _ I) as P. rewrite F in P. inversion P as [|? ? P1 P2]; subst. constructor; auto.
  unfold f', nonneg. cbn [f_slots]. apply Forall_app. split; auto. apply sl_nonneg.
Qed.
Lemma inv_declare : inv K p' (mkWorld (declared p w es t x d) (w_saved w)) es'.
Proof.
  rewrite after_is. constructor; unfold declared; cbn [w_sx w_saved p_frames p_notes p_main p_ever id_cells id_refs id_cur id_displ id_lg id_main id_predef id_max_displ id_max_displg].
  - reflexivity.
  - unfold es'. rewrite zlen_app, zlen_patch. destruct L as (_ & _ & _ & B & _). apply (B1 K p w es I B).
  - apply decl_levels.
  - apply decl_refs.
  - apply decl_names.
  - apply decl_protos.
  - apply decl_notes.
  - apply decl_main.
  - apply decl_predef0.
  - apply decl_predef.
  - apply decl_local.
  - apply decl_global.
  - apply decl_maxg.
  - apply decl_ever.
  - apply decl_pos.
Qed.
End D.
End Step.
End K.

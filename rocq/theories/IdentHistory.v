(** Every step of a correct program keeps the invariant. *)
From Verif Require Import Prelude VectorSpec LVec TypesModel IdentModel IdentSpec IdentRun IdentTable IdentProofs IdentSteps.

Section K.
Variable K : Z -> Z.
Variables (p : program) (w : world) (es : list ent).
Hypothesis I : inv K p w es.
Let s := w_sx w.

Lemma frames_ex : exists f fs, p_frames p = f :: fs.
Proof. pose proof (levels_frames _ _ _ _ _ _ _ _ _ (i_levels _ _ _ _ I)) as (N & _). destruct (p_frames p); [congruence|eauto]. Qed.
Lemma frames_1 : depth p = 1 -> exists g, p_frames p = [g].
Proof.
  destruct frames_ex as (f & fs & F). unfold depth. rewrite F. destruct fs as [|g l]; [eauto|]. rewrite !zlen_cons. pose proof (zlen_nonneg l). lia.
Qed.
Lemma frames_2 : depth p = 2 -> exists f g, p_frames p = [f; g].
Proof.
  destruct frames_ex as (f & fs & F). unfold depth. rewrite F. destruct fs as [|g [|h l]]; [change (zlen [f]) with 1; lia|eauto|].
  rewrite !zlen_cons. pose proof (zlen_nonneg l). lia.
Qed.

Lemma zlen_link : zlen (map link es) = zlen es.
Proof. apply zlen_map. Qed.

(** Another spelling. *)
Lemma inv_spelling x y : legal K p (Spelling x y) -> exists w', exec w (Spelling x y) = Some (0, w') /\ inv K (after K p (Spelling x y)) w' es.
Proof.
  intros (D & Y & Ky & Ly & i & Lx). destruct (frames_1 D) as [g F].
  destruct (i_known _ _ _ _ I _ _ _ Lx) as (X & Kx & R & k & e & -> & Hk & Hb).
  cbn [exec]. eexists. split; [reflexivity|]. unfold spelling_add, repr_get_reference. rewrite (i_unknown _ _ _ _ I _ Ly), Ky, Z.eqb_refl, R.
  cbn [after]. rewrite Lx, F. pose proof (znth_Some_lt _ _ _ Hk) as Lk.
  rewrite F in Ly. cbn [lookup] in Ly. destruct (assoc (f_names g) y) eqn:Ay; [discriminate|].
  pose proof I as [C B Lv Rf Nm Pt Nt Mn P0 Pd Lo Gl Mg Ev Po]. rewrite F in *. fold s in C, Lv, Rf, Mn, P0, Pd, Mg.
  constructor; cbn [w_sx w_saved p_frames p_notes p_main p_ever repr_set_reference with_refs id_cells id_refs id_cur id_displ id_lg id_main id_predef id_max_displ id_max_displg]; auto.
  - fold s. apply levels_global_inv in Lv as (-> & -> & Ig & -> & ->). apply (lv_global _ _ _ _ (mkFrame ((y, (idx k, false)) :: f_names g) (f_slots g))).
    unfold ids_in. cbn [f_names]. constructor; auto. cbn [fst snd]. unfold idx. lia.
  - intros z. fold s. unfold set_ref. replace (y <? 0) with false by lia. unfold look. cbn [lookup f_names assoc].
    destruct (z =? y) eqn:E; auto. rewrite Rf. unfold look. cbn [lookup]. reflexivity.
  - intros f z i b [<-|[]] [[= <- <- <-]|H]; [|apply (Nm g z i b); auto; left; auto].
    split; auto. split; auto. exists k, e. auto.
  - intros z Z0. fold s. rewrite (Pd z Z0). unfold outer. cbn [last f_names assoc]. destruct (z =? y) eqn:E; [|tauto].
    replace z with y by lia. rewrite Ay. split; intros [i H]; discriminate.
  - inversion Po as [|? ? P1 P2]; subst. constructor; auto.
Qed.

(** Entering. *)
Lemma inv_enter_function : legal K p EnterFunction -> exists w', exec w EnterFunction = Some (0, w') /\ inv K (after K p EnterFunction) w' es.
Proof.
  intros (D & N). destruct (frames_1 D) as [g F].
  cbn [exec scope_func_enter]. eexists. split; [reflexivity|]. cbn [after]. rewrite F.
  pose proof I as [C B Lv Rf Nm Pt Nt Mn P0 Pd Lo Gl Mg Ev Po]. rewrite F in *. fold s in C, Lv, Rf, Mn, P0, Pd, Mg.
  assert (NE: 1 <= zlen es).
  { destruct Nt; [congruence|]. rewrite zlen_cons. pose proof (zlen_nonneg l). lia. }
  constructor; cbn [w_sx w_saved p_frames p_notes p_main p_ever with_frame id_cells id_refs id_cur id_displ id_lg id_main id_predef id_max_displ id_max_displg]; auto.
  - fold s. rewrite C, zlen_cells. apply levels_global_inv in Lv as (-> & _ & Ig & Dg & _). rewrite Dg.
    rewrite <- zlen_link.
    apply (lv_func K (map link es) (id_refs s) (map link es) [] _ (mkFrame [] []) g); rewrite ?app_nil_r; auto.
    + rewrite zlen_link. lia.
    + constructor.
    + rewrite zlen_link. auto.
  - intros f x i b [<-|H] Hn; [destruct Hn|]. apply (Nm f x i b); auto.
  - intros f x i b [<-|[]] [].
  - intros _. split; [constructor|]. cbn. repeat split; lia.
  - constructor; auto. constructor.
Qed.
Lemma inv_enter_block : legal K p EnterBlock -> exists w', exec w EnterBlock = Some (0, w') /\ inv K (after K p EnterBlock) w' es.
Proof.
  intros D. cbn in D. destruct frames_ex as (f & fs & F).
  cbn [exec scope_block_enter]. eexists. split; [reflexivity|]. cbn [after].
  pose proof I as [C B Lv Rf Nm Pt Nt Mn P0 Pd Lo Gl Mg Ev Po]. fold s in C, Lv, Rf, Mn, P0, Pd, Mg, Ev.
  assert (FN: p_frames p <> []) by (rewrite F; discriminate).
  assert (L2: (2 <= length (p_frames p))%nat) by (unfold depth in D; rewrite zlen_unf in D; lia).
  destruct (levels_frames _ _ _ _ _ _ _ _ _ Lv) as (_ & _ & _ & LL). destruct (LL L2) as [Lg Dd].
  assert (NE: 1 <= zlen es).
  { rewrite <- zlen_link. clear - Lv L2. inversion Lv as [| a b hi f0 g E La| a b hi f0 fs0 cur displ sv E La]; subst.
    - match goal with H : [_] = p_frames p |- _ => rewrite <- H in L2 end. cbn in L2. lia.
    - rewrite E, zlen_app. pose proof (zlen_nonneg b). lia.
    - rewrite E, zlen_app. pose proof (zlen_nonneg b). lia. }
  constructor; cbn [w_sx w_saved p_frames p_notes p_main p_ever with_frame id_cells id_refs id_cur id_displ id_lg id_main id_predef id_max_displ id_max_displg]; fold s; auto.
  - rewrite C, zlen_cells, Lg. rewrite <- zlen_link.
    assert (Q: levels K (map link es) (id_refs s) (idx (zlen (map link es))) (idx (zlen (map link es))) (id_displ s + total (f_slots (mkFrame [] []))) 1
      (mkFrame [] [] :: p_frames p) (SBlock (mkScope (id_displ s) 1 (id_cur s)) :: w_saved w)).
    { apply (lv_block K (map link es) (id_refs s) (map link es) []); rewrite ?app_nil_r, ?zlen_link; auto.
      - constructor.
      - rewrite Lg in Lv. exact Lv.
      - apply (i_cur K p w es I). }
    replace (id_displ s + total (f_slots (mkFrame [] []))) with (id_displ s) in Q by (cbn; lia). exact Q.
  - intros g x i b [<-|H] Hn; [destruct Hn|]. apply (Nm g x i b); auto.
  - intros g x i b H Hn. rewrite F in H. change (removelast (mkFrame [] [] :: f :: fs)) with (mkFrame [] [] :: removelast (f :: fs)) in H.
    destruct H as [<-|H]; [destruct Hn|]. rewrite <- F in H. apply (Pt g x i b); auto.
  - intros x X. rewrite outer_cons by auto. apply Pd. auto.
  - rewrite live_cons by auto. exact Lo.
  - rewrite outer_cons by auto. exact Gl.
  - rewrite outer_cons by auto. exact Mg.
  - intros _. rewrite live_cons by auto. apply Ev. auto.
  - constructor; auto. constructor.
Qed.

(** Leaving. *)
Lemma split_links a b : map link es = a ++ b -> exists ea eb, es = ea ++ eb /\ map link eb = b /\ zlen ea = zlen a.
Proof.
  intros E. apply map_eq_app in E as (ea & eb & -> & <- & <-). exists ea, eb. rewrite zlen_map. auto.
Qed.
Lemma inv_leave_function : legal K p LeaveFunction ->
  exists w', exec w LeaveFunction = Some (id_max_displ s, w') /\ inv K (after K p LeaveFunction) w' es.
Proof.
  intros D. cbn in D. destruct (frames_2 D) as (f & g & F).
  pose proof I as [C B Lv Rf Nm Pt Nt Mn P0 Pd Lo Gl Mg Ev Po]. fold s in C, Lv, Rf, Mn, P0, Pd, Mg, Ev. rewrite F in Lv.
  inversion Lv as [| a b hi f0 g0 E La If Ig U E1 E2 E3 E4 E5 E6| a b hi f0 fs0 cur displ sv E La If Hl Lc Lf U E1 E2 E3 E4 E5 E6]; subst; [|cbn in Lf; lia].
  destruct (split_links _ _ E) as (ea & eb & Es & Eb & Ez).
  assert (RA: restore_all s = Some (with_refs s (undo b (id_refs s)))).
  { rewrite <- Eb. apply (restore_all_entries s ea eb); rewrite <- ?Es; auto; [rewrite Ez; auto|lia]. }
  cbn [exec]. rewrite <- E6. unfold scope_func_exit. fold s. rewrite RA. cbn [bind]. eexists. split; [reflexivity|].
  cbn [after]. rewrite F in *. cbn [tl].
  constructor; cbn [w_sx w_saved p_frames p_notes p_main p_ever with_frame with_refs id_cells id_refs id_cur id_displ id_lg id_main id_predef id_max_displ id_max_displg]; fold s; auto.
  - apply lv_global. eapply ids_in_mono; eauto. rewrite Es, zlen_app, Ez. pose proof (zlen_nonneg eb). unfold idx. lia.
  - intros h x i c H Hn. apply (Nm h x i c); auto. right. auto.
  - intros h x i c [].
  - exact Logic.I.
  - cbn. lia.
  - inversion Po; auto.
Qed.
Lemma inv_leave_block : legal K p LeaveBlock -> exists w', exec w LeaveBlock = Some (0, w') /\ inv K (after K p LeaveBlock) w' es.
Proof.
  intros D. cbn in D. destruct frames_ex as (f & fs & F).
  pose proof I as [C B Lv Rf Nm Pt Nt Mn P0 Pd Lo Gl Mg Ev Po]. fold s in C, Lv, Rf, Mn, P0, Pd, Mg, Ev. 
  assert (L3: (3 <= length (p_frames p))%nat) by (unfold depth in D; rewrite zlen_unf in D; lia).
  rewrite F in *. 
  assert (FN: fs <> []) by (destruct fs; [cbn in L3; lia|discriminate]).
  inversion Lv as [| a b hi f0 g0 E La If Ig U E1 E2 E3 E4 E5 E6| a b hi f0 fs0 cur displ sv E La If Hl Lc Lf U E1 E2 E3 E4 E5 E6]; subst; [cbn in L3; lia|cbn in L3; lia|].
  destruct (split_links _ _ E) as (ea & eb & Es & Eb & Ez).
  assert (RA: restore_all s = Some (with_refs s (undo b (id_refs s)))).
  { rewrite <- Eb. apply (restore_all_entries s ea eb); rewrite <- ?Es; auto; [rewrite Ez; auto|lia]. }
  cbn [exec]. rewrite <- E6. unfold scope_block_exit. fold s. rewrite RA. cbn [bind]. eexists. split; [reflexivity|].
  cbn [after]. rewrite F. cbn [tl].
  pose proof (levels_frames _ _ _ _ _ _ _ _ _ Hl) as (_ & _ & _ & LL). destruct (LL Lf) as [_ Dd].
  constructor; cbn [w_sx w_saved p_frames p_notes p_main p_ever with_frame with_refs id_cells id_refs id_cur id_displ id_lg id_main id_predef id_max_displ id_max_displg sc_cur sc_displ sc_lg]; fold s; auto.
  - apply levels_hi with (hi := idx (zlen a)).
    + eapply levels_undo; eauto.
    + rewrite <- zlen_link, E, zlen_app. pose proof (zlen_nonneg b). unfold idx. lia.
  - intros h x i c H Hn. apply (Nm h x i c); auto. right. auto.
  - intros h x i c H Hn. apply (Pt h x i c); auto. destruct fs; [congruence|]. right. auto.
  - intros x X. rewrite (Pd x X). rewrite outer_cons by auto. reflexivity.
  - rewrite live_cons in Lo by auto. clear - Lo. induction (f_slots f); cbn in Lo; auto. apply IHl. apply Lo.
  - rewrite outer_cons in Gl by auto. auto.
  - rewrite outer_cons in Mg by auto. auto.
  - intros _. destruct Ev as (V1 & V2 & V3 & V4); [cbn; lia|]. rewrite live_cons in V3, V4 by auto. rewrite app_length in V3, V4.
    assert (T: 0 <= total (f_slots f)) by (inversion Po as [|? ? P1 P2]; apply total_nonneg; auto).
    split; auto. split; [lia|]. split; [lia|]. intros Q. rewrite V4 by lia.
    assert (f_slots f = []) as Z by (destruct (f_slots f); [auto|cbn in V3; lia]). rewrite Z in E3. cbn in E3. lia.
  - inversion Po; auto.
Qed.

Lemma inv_step o : legal K p o -> accepted K p o -> exists r w' es', exec w o = Some (r, w') /\ inv K (after K p o) w' es'.
Proof.
  intros L A. destruct o as [t x d|x y| | | |].
  - destruct frames_ex as (f & fs & F). exists (idx (zlen es)), (mkWorld (declared K p w es t x d) (w_saved w)). eexists. split.
    + cbn [exec]. rewrite (declare_accepted K p w es f fs I F t x d L A). reflexivity.
    + apply (inv_declare K p w es f fs I F t x d L A).
  - destruct (inv_spelling _ _ L) as (w' & H & H'). eauto.
  - destruct (inv_enter_function L) as (w' & H & H'). eauto.
  - destruct (inv_leave_function L) as (w' & H & H'). eauto.
  - destruct (inv_enter_block L) as (w' & H & H'). eauto.
  - destruct (inv_leave_block L) as (w' & H & H'). eauto.
Qed.
End K.

Lemma story_run K ops : forall p w es q, inv K p w es -> story K p ops q -> exists w' es', run w ops = Some w' /\ inv K q w' es'.
Proof.
  induction ops as [|o ops IH]; intros p w es q I H.
  - inversion H; subst. exists w, es. auto.
  - inversion H as [|p0 o0 ops0 q0 L A H' E1]; subst. destruct (inv_step K p w es I o L A) as (r & w1 & es1 & X & I1).
    cbn [run]. rewrite X. cbn [bind]. eapply IH; eauto.
Qed.

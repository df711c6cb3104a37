(** The invariant of the histories of the type table. *)
From Verif Require Import Prelude LVec TypesModel TypesSpec TypesProofs TypesEqual TypesAdd TypesDenote.

Record inv (t : types) (T : list (Z * shape)) (L : list (Z * ty)) : Prop := {
  i_laid : laid (ty_cells t) (ty_start t) T;
  i_zero : lv_get (ty_cells t) 0 = 0;
  i_some : 0 < zlen (ty_cells t);
  i_uniq : uniq T;
  i_sized : sized t T;
  i_serial : forall n k v r, In (n, SEnm k v r) T -> 0 <= k < zlen L;
  i_den : Forall (fun e => den T (fst e) (norm (snd e))) L
}.

Lemma inv_named t T L n u : inv t T L -> named L n u -> den T n (norm u).
Proof.
  intros I [[C ->]|H]; [split; auto|]. pose proof (i_den _ _ _ I) as F. rewrite Forall_forall in F. apply (F _ H).
Qed.

Lemma sized_ext t t1 T start x : laid (ty_cells t) start T -> ty_cells t1 = ty_cells t ++ x -> sized t T -> sized t1 T.
Proof.
  intros L X S n sz ms I. rewrite (struct_size_ext t t1 start T ms x); eauto.
  destruct (laid_in _ _ _ _ _ L I) as (_ & _ & P & _). cbn [parts] in P. eapply Forall_impl; [|exact P]. cbn. tauto.
Qed.

Lemma wf_parts c start T n s : laid c start T -> In (n, s) T -> Forall (valid T) (parts s).
Proof. intros L I. destruct (laid_in _ _ _ _ _ L I) as (_ & _ & P & _). eapply Forall_impl; [|exact P]. cbn. tauto. Qed.

Lemma uniq_new c start T n s : laid c start ((n, s) :: T) -> uniq T ->
  (forall b s', In (b, s') T -> ~ same ((n, s) :: T) s s') ->
  (forall b s', In (b, s') T -> ~ same ((n, s) :: T) s' s) -> uniq ((n, s) :: T).
Proof.
  intros L U N N' a b s1 s2 [E|I] [E'|I'] S.
  - congruence.
  - injection E as <- <-. destruct (N _ _ I' S).
  - injection E' as <- <-. destruct (N' _ _ I S).
  - eapply (U a b s1 s2 I I').
    assert (Q : seq ((n, s) :: T) s1 s2 -> seq T s1 s2).
    { intros Q. pose proof L as L'. cbn [laid] in L'. destruct L' as (_ & _ & _ & _ & _ & L').
      eapply (seq_strengthen _ _ T ((n, s) :: T)); eauto; [intros e He; right; auto|]. intros n0 s0 I0. eapply wf_parts; eauto. }
    destruct s1, s2; cbn [same] in *; auto.
Qed.

Lemma seq_sym T s s' : seq T s s' -> seq T s' s.
Proof. intros H. induction H; try (constructor; auto; tauto || lia). eapply q_cst; eauto. Qed.

(** The step for a record that is not an enumeration: [P] is what the shape
    must satisfy, and records counted equal share it. *)
Lemma step_ok t T L s u : inv t T L -> is_enm s = false -> wf T s ->
  (forall sz ms, s = SStr sz ms -> struct_size t ms = Some sz) ->
  (forall T1 b, incl T T1 -> In (b, s) T1 -> den T1 b (norm u)) ->
  (forall m w, s = SCst m -> norm u = TConst w -> cden T m w) ->
  (forall m, s = SCst m -> exists w, norm u = TConst w) ->
  exists n t' T', type_add t (enc s) = Some (n, t') /\ inv t' T' ((n, u) :: L).
Proof.
  intros I NE W SZ D CD CE. destruct I as [Ll Lz Ls Lu Lsz Lser Ld].
  destruct (add_ok t T s Ll Lz Ls W) as (L1 & Z1 & [(E & N)|(b & s' & Ib & Sb & E)]).
  - exists (zlen (ty_cells t) + 1). eexists. exists ((zlen (ty_cells t) + 1, s) :: T). split; [exact E|]. split; auto.
    + cbn [ty_cells]. rewrite <- app_assoc, zlen_app. pose proof (zlen_nonneg ([ty_start t] ++ enc s)). lia.
    + eapply uniq_new; eauto.
      * intros b s' Ib S. apply (N _ _ Ib). destruct s, s'; cbn [same] in S; auto; discriminate NE.
      * intros b s' Ib S. apply (N _ _ Ib). apply seq_sym. destruct s, s'; cbn [same] in S; auto; discriminate NE.
    + intros n sz ms [X|I].
      * injection X as <- ->. rewrite (struct_size_ext t _ (ty_start t) T ms ([ty_start t] ++ enc (SStr sz ms))); auto.
        -- cbn [ty_cells]. rewrite app_assoc. auto.
        -- apply W.
      * eapply (sized_ext t); eauto. cbn [ty_cells]. rewrite <- app_assoc. reflexivity.
    + intros n k v r [X|I]; [injection X as <- ->; discriminate NE|]. rewrite zlen_cons. pose proof (Lser _ _ _ _ I). lia.
    + constructor.
      * cbn [fst snd]. apply D; [intros e He; right; auto|left; auto].
      * eapply Forall_impl; [|exact Ld]. intros e. apply den_mono. intros x Hx. right. auto.
  - exists b, t, T. split; auto. split; auto.
    + intros n k v r I. rewrite zlen_cons. pose proof (Lser _ _ _ _ I). lia.
    + constructor; auto. cbn [fst snd].
      destruct s; inversion Sb as [| | | | |? ? HA HB HC HE|? ? ? ? HA HB HC]; subst; try (apply D; [intros e; auto|auto]; fail); try discriminate NE.
      * destruct (CE _ eq_refl) as [w Hw]. rewrite Hw, den_const. exists m'. split; auto.
        eapply (cden_seq t T Ll Lu m m' w); eauto; try (left; auto; fail). apply q_num; auto.
      * destruct (CE _ eq_refl) as [w Hw]. rewrite Hw, den_const. exists m'. split; auto.
        assert (Vm : valid T m) by (destruct W as [W _]; cbn in W; inversion W; auto).
        assert (Vm' : valid T m') by (pose proof (wf_parts _ _ _ _ _ Ll Ib) as W'; cbn in W'; inversion W'; auto).
        destruct Vm as [Vm|[s2 Vm]].
        { exfalso. destruct (laid_in _ _ _ _ _ L1 HA) as (_ & R & _). unfold simple_code in Vm. lia. }
        destruct Vm' as [Vm'|[s2' Vm']].
        { exfalso. destruct (laid_in _ _ _ _ _ L1 HB) as (_ & R & _). unfold simple_code in Vm'. lia. }
        pose proof (laid_key _ _ _ _ _ _ L1 HA (or_intror Vm)) as <-.
        pose proof (laid_key _ _ _ _ _ _ L1 HB (or_intror Vm')) as <-.
        eapply (cden_seq t T Ll Lu m m' w); eauto; try (right; eauto; fail).
        eapply q_cst; eauto. eapply (seq_strengthen _ _ T _ _ _ L1); eauto; [intros e He; right; auto|].
        intros n0 s1 I1. eapply wf_parts; eauto.
Qed.

Lemma forall2_valid T L t ps ts : inv t T L -> Forall2 (named L) ps ts -> Forall (valid T) ps /\ Forall2 (den T) ps (map norm ts).
Proof.
  intros I H. induction H as [|p u ps ts H _ [IH1 IH2]]; [split; constructor|].
  pose proof (inv_named _ _ _ _ _ I H) as D. split; cbn; constructor; auto. eapply den_valid; eauto.
Qed.

Lemma Forall2_imp2 {A B} (P Q : A -> B -> Prop) l l' : (forall a b, P a b -> Q a b) -> Forall2 P l l' -> Forall2 Q l l'.
Proof. intros H F. induction F; constructor; auto. Qed.

Lemma ask_ok t T L r u : inv t T L -> legal L r u -> exists n t' T', ask t r = Some (n, t') /\ inv t' T' ((n, u) :: L).
Proof.
  intros I H. destruct H; cbn [ask].
  - pose proof (inv_named _ _ _ _ _ I H) as D. apply (step_ok t T L (SPtr n)); auto; try discriminate.
    + split; auto. constructor; auto. eapply den_valid; eauto.
    + intros T1 b J K. cbn [norm]. exists n. split; auto. eapply den_mono; eauto.
  - pose proof (inv_named _ _ _ _ _ I H) as D. apply (step_ok t T L (SArr n)); auto; try discriminate.
    + split; auto. constructor; auto. eapply den_valid; eauto.
    + intros T1 b J K. cbn [norm]. exists n. split; auto. eapply den_mono; eauto.
  - pose proof (inv_named _ _ _ _ _ I H) as D.
    assert (CD : forall T1, incl T T1 -> cden T1 n (collapse (norm t0))).
    { intros T1 J. pose proof (den_mono _ _ J _ _ D) as D1. destruct (norm t0); cbn [collapse cden]; auto.
      - destruct D1 as [D1 ->]. split; auto.
      - destruct D1 as (r & R). split; auto. eauto. }
    apply (step_ok t T L (SCst n)); auto; try discriminate.
    + split; auto. constructor; auto. eapply den_valid; eauto.
    + intros T1 b J K. cbn [norm]. rewrite den_const. exists n. split; auto.
    + intros m w E E'. injection E as <-. cbn [norm] in E'. injection E' as <-. apply CD. intros e; auto.
    + intros m E. cbn [norm]. eauto.
  - unfold type_structure. replace (3 + 2 * zlen ms <=? 100) with true by lia. unfold bind.
    assert (V : Forall (valid T) (map fst ms) /\
      Forall2 (fun m u => den T (fst m) (fst u) /\ snd m = snd u) ms (map (fun m => (norm (fst m), snd m)) ts)).
    { clear H. induction H0 as [|p u ps ts [H0 H1] _ [IH1 IH2]]; [split; constructor|].
      pose proof (inv_named _ _ _ _ _ I H0) as D. split; cbn; constructor; auto. eapply den_valid; eauto. }
    destruct V as [V1 V2]. destruct (struct_size_some t _ T ms (i_laid _ _ _ I) V1) as [sz Sz]. rewrite Sz.
    apply (step_ok t T L (SStr sz ms)); auto; try discriminate.
    + split; auto.
    + intros sz0 ms0 E. injection E as <- <-. auto.
    + intros T1 b J K. cbn [norm]. rewrite den_struct. exists sz, ms. split; auto.
      eapply Forall2_imp2; [|exact V2]. cbn. intros a c [A B]. split; auto. eapply den_mono; eauto.
  - unfold type_function. replace (zlen ps <=? 97) with true by lia.
    pose proof (inv_named _ _ _ _ _ I H0) as D. destruct (forall2_valid _ _ _ _ _ I H1) as [V1 V2].
    apply (step_ok t T L (SFun r ps)); auto; try discriminate.
    + split; auto. constructor; auto. eapply den_valid; eauto.
    + intros T1 b J K. cbn [norm]. rewrite den_function. exists r, ps. split; auto. split; [eapply den_mono; eauto|].
      eapply Forall2_imp2; [|exact V2]. intros a c. apply den_mono. auto.
  - unfold type_enum. rewrite zlen_cons. replace (2 + 2 * (1 + zlen fs) <=? 100) with true by lia.
    destruct (enum_new t T v ((1 + zlen fs) * 2 :: flat ((v, name) :: fs)) (zlen L) (i_laid _ _ _ I) (i_zero _ _ _ I) (i_some _ _ _ I) H0)
      as (L1 & Z1 & t' & E & E').
    rewrite E. cbn [bind]. cbv beta iota zeta. change (flat_map (fun m : Z * Z => [fst m; snd m]) ((v, name) :: fs)) with (flat ((v, name) :: fs)).
    rewrite E'. cbn [bind]. destruct I as [Ll Lz Ls Lu Lsz Lser Ld].
    eexists. eexists. exists ((zlen (ty_cells t) + 1, SEnm (zlen L) v ((1 + zlen fs) * 2 :: flat ((v, name) :: fs))) :: T). split; [reflexivity|]. split; auto.
    + cbn [ty_cells]. rewrite <- app_assoc, zlen_app. match goal with |- context [_ + zlen ?l] => pose proof (zlen_nonneg l) end. lia.
    + eapply uniq_new; eauto.
      * intros b s' Ib S. destruct s'; cbn [same] in S; try (inversion S; fail). subst. pose proof (Lser _ _ _ _ Ib). lia.
      * intros b s' Ib S. destruct s'; cbn [same] in S; try (inversion S; fail). subst. pose proof (Lser _ _ _ _ Ib). lia.
    + intros n sz ms [X|J]; [discriminate X|]. eapply (sized_ext t); eauto. cbn [ty_cells]. rewrite <- app_assoc. reflexivity.
    + intros n k v' r [X|J].
      * injection X as _ <- _ _. rewrite zlen_cons. pose proof (zlen_nonneg L). lia.
      * rewrite zlen_cons. pose proof (Lser _ _ _ _ J). lia.
    + constructor.
      * cbn [fst snd norm den]. eexists. left. reflexivity.
      * eapply Forall_impl; [|exact Ld]. intros e. apply den_mono. intros x Hx. right. auto.
Qed.

Lemma init_inv a b : inv (type_init a b) [(2, SStr 2 [(TYPE_INTEGER, a); (TYPE_INTEGER, b)])] [(TYPE_MSG_INFO, msg_info a b)].
Proof.
  assert (L : laid (ty_cells (type_init a b)) (ty_start (type_init a b)) [(2, SStr 2 [(TYPE_INTEGER, a); (TYPE_INTEGER, b)])]).
  { cbn [laid]. split; auto. split; [cbn; lia|]. split; [|split; [constructor|split; [|reflexivity]]].
    - exists [0; 0], []. split; reflexivity.
    - assert (V : valid [] TYPE_INTEGER) by (left; unfold simple_code, TYPE_INTEGER; lia). split; auto. constructor; auto. }
  split; auto.
  - reflexivity.
  - intros n n' s s' [E|[]] [E'|[]]. congruence.
  - intros n sz ms [E|[]]. injection E as <- <- <-. reflexivity.
  - intros n k v r [E|[]]. discriminate E.
  - constructor; [|constructor]. cbn [fst snd]. unfold msg_info. cbn [norm map fst snd]. rewrite den_struct.
    eexists. eexists. split; [left; reflexivity|]. repeat apply Forall2_cons; try apply Forall2_nil; cbn; unfold simple_code, TYPE_INTEGER; lia.
Qed.

Lemma issued_inv a b t L : issued a b t L -> exists T, inv t T L.
Proof.
  induction 1 as [|s L r u n s' _ [T I] H E]; [eexists; apply init_inv|].
  destruct (ask_ok _ _ _ _ _ I H) as (n' & t' & T' & E' & I'). rewrite E in E'. injection E' as <- <-. eauto.
Qed.

(** Numbers and types. *)
Lemma numbers_norm a b t L n m u w : issued a b t L -> named L n u -> named L m w -> (n = m <-> norm u = norm w).
Proof.
  intros H N M. destruct (issued_inv _ _ _ _ H) as [T I].
  pose proof (inv_named _ _ _ _ _ I N) as D. pose proof (inv_named _ _ _ _ _ I M) as D'. destruct I as [Ll Lz Ls Lu Lsz Lser Ld].
  split; [intros <-|intros E; rewrite E in D].
  - eapply den_type; eauto.
  - eapply den_number; eauto.
Qed.

Lemma plain_norm u : plain u -> norm u = u.
Proof.
  induction u using ty_rec'; cbn [norm plain]; auto.
  - intros P. rewrite IHu; auto.
  - intros P. rewrite IHu; auto.
  - intros P. destruct u; try (rewrite IHu by exact P; reflexivity); [|contradiction].
    cbn. f_equal. f_equal. unfold TYPE_INTEGER, TYPE_UNDEFINED in P. destruct (code <? -1) eqn:E; lia.
  - intros P. f_equal. induction H as [|[u x] us V _ IH]; auto. destruct P as [P1 P2]. cbn [map fst snd] in *.
    rewrite V, IH; auto.
  - intros [P1 P2]. rewrite IHu by auto. f_equal. induction H as [|w us V _ IH]; auto. destruct P2 as [P2 P3]. cbn [map].
    rewrite V, IH; auto.
Qed.

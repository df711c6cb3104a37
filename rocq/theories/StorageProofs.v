(** Proofs about the table of macros. *)
From Verif Require Import Prelude VectorSpec LVec Utf8Model Utf8Spec UniioModel StringsModel StringsSpec StringsRun StringsProofs
  MapModel MapSpec MapProofs HashModel HashSpec HashProofs StorageModel StorageSpec.

(** ** Small facts *)
Lemma s64_small x : 0 <= x < 2 ^ 62 -> s64 x = x.
Proof. intros H. unfold s64, u64, two64, two63. rewrite Z.mod_small by lia. destruct (x <? _) eqn:E; lia. Qed.

Lemma s64_max : s64 SIZE_MAX = -1.
Proof. reflexivity. Qed.

Lemma hidx hs R H k i vs : hinv hs R H -> H k = Some (i, vs) -> 256 <= i /\ i + 3 + zlen vs <= zlen hs.
Proof.
  intros I E. apply (h_state _ _ _ I) in E as (_ & r & Hr & _ & <- & <-). apply (h_range _ _ _ I) in Hr. unfold r_end in Hr. lia.
Qed.

Lemma hidx_inj hs R H k k' i vs vs' : hinv hs R H -> H k = Some (i, vs) -> H k' = Some (i, vs') -> k = k'.
Proof.
  intros I E E'. apply (h_state _ _ _ I) in E as (_ & r & Hr & <- & X & _). apply (h_state _ _ _ I) in E' as (_ & r' & Hr' & <- & X' & _).
  destruct (h_disj _ _ _ I r r' Hr Hr') as [->|D]; auto. pose proof (r_end_ge r). pose proof (r_end_ge r'). lia.
Qed.

Lemma hinv_ext hs R H H' : hinv hs R H -> same H' H -> hinv hs R H'.
Proof. intros [] E. split; auto. intros. rewrite <- (E k). auto. Qed.

(** ** The link between the three tables and the macros *)
Definition finder := list Z -> option (Z * Z).
Definition val_ok (l : list bytes) (a : Z) (v : option bytes) : Prop :=
  match v with None => a = ITEM_MAX | Some s => a <> ITEM_MAX /\ znth l a = Some s end.

Record link (F : finder) (H : hstate) (l : list bytes) (S : pstate) : Prop := {
  lk_name : forall cs, match kwcode cs with
    | Some c => S cs = None /\ exists k, F cs = Some (k, c) /\ H k = None
    | None => match S cs with
      | Some m => exists k a, F cs = Some (k, if mc_named m then mc_id m else -1) /\ H k = Some (mc_id m, [a; mc_args m])
                   /\ val_ok l a (mc_text m) /\ 0 <= mc_args m < ITEM_MAX
      | None => forall k v, F cs = Some (k, v) -> v = ITEM_MAX /\ H k = None
      end
    end;
  lk_key : forall k r, H k = Some r -> exists cs v m, F cs = Some (k, v) /\ S cs = Some m;
  lk_uniq : forall k k' i i' a b b', H k = Some (i, [a; b]) -> H k' = Some (i', [a; b']) -> a <> ITEM_MAX -> k = k';
  lk_inj : forall cs cs' k v v', F cs = Some (k, v) -> F cs' = Some (k, v') -> cs = cs';
  lk_range : forall cs k v, F cs = Some (k, v) -> 0 <= k < 2 ^ 58 }.

Definition F_of (L : list mentry) : finder := fun cs => dfind (to_dict L) cs.

Record pinv (st : storage) (S : pstate) : Prop := mkPinv {
  p_ex : exists L R H l, minv (st_as st) L /\ hinv (st_hs st) R H /\ sinv (st_vec st) l /\ link (F_of L) H l S }.

Lemma key_eqb_refl a : key_eqb a a = true. Proof. apply key_eqb_eq. auto. Qed.
Lemma key_eq_dec (a b : list Z) : {a = b} + {a <> b}.
Proof. destruct (key_eqb a b) eqn:E; [left; apply key_eqb_eq; auto|right; intros ->; rewrite key_eqb_refl in E; discriminate]. Qed.

Lemma pput_same S n m : pput S n m n = m. Proof. unfold pput. rewrite key_eqb_refl. auto. Qed.
Lemma pput_other S n m n' : n' <> n -> pput S n m n' = S n'.
Proof. intros. unfold pput. rewrite key_eqb_neq; auto. Qed.

Lemma F_of_inj m L cs cs' k v v' : minv m L -> F_of L cs = Some (k, v) -> F_of L cs' = Some (k, v') -> cs = cs'.
Proof.
  intros I A B. apply (minv_has _ _ _ _ _ I) in A as (x & _ & A). apply (minv_has _ _ _ _ _ I) in B as (y & _ & B). congruence.
Qed.

Lemma F_of_range m L cs k v : minv m L -> m_ksize m < 2 ^ 56 -> F_of L cs = Some (k, v) -> 0 <= k < 2 ^ 58.
Proof.
  intros I B A. unfold F_of in A. rewrite dfind_lookup in A. destruct (lookup_entry L cs) as [en|] eqn:E; [|discriminate].
  cbn [option_map] in A. injection A as <- <-. apply lookup_In in E as [E _].
  pose proof (mi_range _ _ I) as R. rewrite Forall_forall in R. specialize (R (k_idx en) (in_map _ _ _ E)).
  pose proof (vals_bound m L I B). pose proof (mi_vsize _ _ I). lia.
Qed.

Lemma link_S_ext F H l S S' : link F H l S -> psame S S' -> link F H l S'.
Proof.
  intros [] E. split; auto.
  - intros cs. rewrite E. apply lk_name0.
  - intros k r X. destruct (lk_key0 k r X) as (cs & v & m & Y & Z). exists cs, v, m. rewrite E. auto.
Qed.

Lemma link_F_ext F F' H l S : link F H l S -> (forall cs, F' cs = F cs) -> link F' H l S.
Proof.
  intros [] E. split; eauto.
  - intros cs. rewrite E. apply lk_name0.
  - intros k r X. destruct (lk_key0 k r X) as (cs & v & m & Y & Z). exists cs, v, m. rewrite E. auto.
  - intros cs cs' k v v'. rewrite !E. apply lk_inj0.
  - intros cs k v. rewrite !E. apply lk_range0.
Qed.

Lemma link_H_ext F H H' l S : link F H l S -> (forall k, H' k = H k) -> link F H' l S.
Proof.
  intros [] E. split; auto.
  - intros cs. specialize (lk_name0 cs). destruct (kwcode cs).
    + destruct lk_name0 as (A & k & B & C). split; auto. exists k. rewrite E. auto.
    + destruct (S cs).
      * destruct lk_name0 as (k & a & B). exists k, a. rewrite E. auto.
      * intros. rewrite E. auto.
  - intros k r. rewrite E. apply lk_key0.
  - intros k k' i i' a b b'. rewrite !E. apply lk_uniq0.
Qed.

(** A macro and where it is kept. *)
Lemma link_macro F H l S cs m : link F H l S -> S cs = Some m ->
  kwcode cs = None /\ exists k a, F cs = Some (k, if mc_named m then mc_id m else -1) /\ H k = Some (mc_id m, [a; mc_args m])
    /\ val_ok l a (mc_text m) /\ 0 <= mc_args m < ITEM_MAX.
Proof.
  intros I E. pose proof (lk_name _ _ _ _ I cs) as X. rewrite E in X. destruct (kwcode cs).
  - destruct X; discriminate.
  - auto.
Qed.

Lemma link_absent F H l S cs : link F H l S -> S cs = None -> kwcode cs = None -> forall k v, F cs = Some (k, v) -> v = ITEM_MAX /\ H k = None.
Proof. intros I E K. pose proof (lk_name _ _ _ _ I cs) as X. rewrite K, E in X. auto. Qed.

(** Reserving a name that is not a macro. *)
Lemma link_reserve F H l S name r F' : link F H l S -> S name = None -> kwcode name = None -> F name = None ->
  (forall cs k v, F cs = Some (k, v) -> k <> r) -> 0 <= r < 2 ^ 58 ->
  (forall cs, F' cs = if key_eqb cs name then Some (r, ITEM_MAX) else F cs) ->
  link F' H l S /\ H r = None.
Proof.
  intros I N K FN Fr Rr E. pose proof I as I0. destruct I.
  assert (HR: H r = None). { destruct (H r) as [p|] eqn:X; auto. destruct (lk_key0 r p X) as (cs & v & m & Y & _). apply Fr in Y. congruence. }
  split; auto. split; auto.
  - intros cs. specialize (lk_name0 cs). rewrite E. destruct (key_eqb cs name) eqn:Q; auto. apply key_eqb_eq in Q as ->. rewrite K, N in *.
    intros k v X. injection X as <- <-. auto.
  - intros k p X. destruct (lk_key0 k p X) as (cs & v & m & Y & Z). exists cs, v, m. rewrite E. rewrite key_eqb_neq; auto. intros ->. congruence.
  - intros cs cs' k v v'. rewrite !E. destruct (key_eqb cs name) eqn:Q; destruct (key_eqb cs' name) eqn:Q'; try apply key_eqb_eq in Q as ->; try apply key_eqb_eq in Q' as ->; auto.
    + intros X Y. injection X as <- <-. apply Fr in Y. congruence.
    + intros X Y. injection Y as <- <-. apply Fr in X. congruence.
    + apply lk_inj0.
  - intros cs k v. rewrite E. destruct (key_eqb cs name); [|apply lk_range0]. intros X. injection X as <- <-. auto.
Qed.

(** A reserved name becomes a macro. *)
Lemma link_new F H l S name k i F' : link F H l S -> S name = None -> kwcode name = None -> F name = Some (k, ITEM_MAX) ->
  (forall cs, F' cs = match F cs with Some (j, w) => Some (j, if j =? k then i else w) | None => None end) ->
  link F' (hput H k (Some (i, [ITEM_MAX; 0]))) l (pput S name (Some (mkMacro i None 0 true))).
Proof.
  intros I N K FN E. pose proof I as I0. destruct (link_absent _ _ _ _ _ I N K _ _ FN) as [_ HN]. destruct I.
  assert (O: forall cs j w, cs <> name -> F cs = Some (j, w) -> (j =? k) = false).
  { intros cs j w Q X. apply Z.eqb_neq. intros ->. apply Q. eapply lk_inj0; eauto. }
  split.
  - intros cs. destruct (key_eq_dec cs name) as [->|Q].
    + rewrite K, pput_same. exists k, ITEM_MAX. rewrite E, FN, Z.eqb_refl. cbn [mc_named mc_id mc_args mc_text val_ok].
      unfold hput. rewrite Z.eqb_refl. repeat split; auto; unfold ITEM_MAX, LLONG_MAX, two63; lia.
    + rewrite pput_other by auto. specialize (lk_name0 cs). rewrite E. destruct (kwcode cs).
      * destruct lk_name0 as (A & j & B & C). split; auto. exists j. rewrite B. unfold hput. rewrite (O cs j z) by auto. auto.
      * destruct (S cs).
        -- destruct lk_name0 as (j & a & B & C). exists j, a. rewrite B. unfold hput. erewrite O by eauto. auto.
        -- intros j v. destruct (F cs) as [[j' w]|] eqn:X; [|discriminate]. intros Y. injection Y as <- <-. erewrite O by eauto.
           unfold hput. erewrite O by eauto. eauto.
  - intros j p. unfold hput. destruct (j =? k) eqn:J.
    + intros _. exists name, i. eexists. rewrite E, FN, Z.eqb_refl, pput_same. split; [|reflexivity]. f_equal. f_equal. lia.
    + intros X. destruct (lk_key0 j p X) as (cs & v & m & Y & Z). exists cs, v, m.
      assert (cs <> name) by congruence. rewrite E, Y, J, pput_other by auto. auto.
  - intros j j' i1 i2 a b b'. unfold hput. destruct (j =? k) eqn:J; destruct (j' =? k) eqn:J'; try lia.
    + intros X Y. injection X as <- <- <-. intros; congruence.
    + intros X Y. injection Y as <- <- <-. intros; congruence.
    + apply lk_uniq0.
  - intros cs cs' j v v'. rewrite !E. destruct (F cs) as [[x y]|] eqn:X; [|discriminate]. destruct (F cs') as [[x' y']|] eqn:Y; [|discriminate].
    intros A B. injection A as <- <-. injection B as <- <-. eapply lk_inj0; eauto.
  - intros cs j v. rewrite E. destruct (F cs) as [[x y]|] eqn:X; [|discriminate]. intros Y. injection Y as <- <-. eapply lk_range0; eauto.
Qed.

(** Changing one macro, its record and the strings, the others keeping theirs. *)
Lemma link_change F H l S name m k a l' m' a' F' v' : link F H l S -> S name = Some m ->
  F name = Some (k, if mc_named m then mc_id m else -1) -> H k = Some (mc_id m, [a; mc_args m]) ->
  (forall cs, F' cs = match F cs with Some (j, w) => Some (j, if j =? k then v' else w) | None => None end) ->
  v' = (if mc_named m' then mc_id m' else -1) -> mc_id m' = mc_id m -> val_ok l' a' (mc_text m') -> 0 <= mc_args m' < ITEM_MAX ->
  (forall b s, b <> ITEM_MAX -> b <> a -> znth l b = Some s -> znth l' b = Some s) ->
  (forall j i b, j <> k -> H j = Some (i, [a'; b]) -> a' <> ITEM_MAX -> False) ->
  link F' (hput H k (Some (mc_id m', [a'; mc_args m']))) l' (pput S name (Some m')).
Proof.
  intros I N FN HN E V Id VO AR LL U. pose proof I as I0. destruct (link_macro _ _ _ _ _ _ I N) as [K _]. destruct I.
  assert (O: forall cs j w, cs <> name -> F cs = Some (j, w) -> (j =? k) = false).
  { intros cs j w Q X. apply Z.eqb_neq. intros ->. apply Q. eapply lk_inj0; eauto. }
  split.
  - intros cs. destruct (key_eq_dec cs name) as [->|Q].
    + rewrite K, pput_same. exists k, a'. rewrite E, FN, Z.eqb_refl. unfold hput. rewrite Z.eqb_refl. subst v'. auto.
    + rewrite pput_other by auto. specialize (lk_name0 cs). rewrite E. destruct (kwcode cs).
      * destruct lk_name0 as (A & j & B & C). split; auto. exists j. rewrite B. unfold hput. rewrite (O cs j z) by auto. auto.
      * destruct (S cs) as [mm|] eqn:SC.
        -- destruct lk_name0 as (j & b & B & C & D & G). exists j, b. rewrite B. unfold hput. erewrite O by eauto. split; auto. split; auto.
           split; auto. unfold val_ok in *. destruct (mc_text mm); auto.
           destruct D as [Nb D]. split; auto. apply LL; auto. intros ->.
           assert (j = k) by (eapply (lk_uniq0 j k); eauto). subst. assert ((k =? k) = false) by (eapply O; eauto). lia.
        -- intros j v. destruct (F cs) as [[j' w]|] eqn:X; [|discriminate]. intros Y. injection Y as <- <-. erewrite O by eauto.
           unfold hput. erewrite O by eauto. eauto.
  - intros j p. unfold hput. destruct (j =? k) eqn:J.
    + intros _. exists name, v', m'. rewrite E, FN, Z.eqb_refl, pput_same. split; [|reflexivity]. f_equal. f_equal. lia.
    + intros X. destruct (lk_key0 j p X) as (cs & v & mm & Y & Z).
      assert (cs <> name) by (intros ->; rewrite FN in Y; injection Y as <- <-; lia).
      exists cs, v, mm. rewrite E, Y, J, pput_other by auto. auto.
  - intros j j' i1 i2 b c c'. unfold hput. destruct (j =? k) eqn:J; destruct (j' =? k) eqn:J'; try lia.
    + intros X Y Z. injection X as <- <- <-. exfalso. eapply (U j'); eauto. lia.
    + intros X Y Z. injection Y as <- <- <-. exfalso. eapply (U j); eauto. lia.
    + apply lk_uniq0.
  - intros cs cs' j v w. rewrite !E. destruct (F cs) as [[x y]|] eqn:X; [|discriminate]. destruct (F cs') as [[x' y']|] eqn:Y; [|discriminate].
    intros A B. injection A as <- <-. injection B as <- <-. eapply lk_inj0; eauto.
  - intros cs j v. rewrite E. destruct (F cs) as [[x y]|] eqn:X; [|discriminate]. intros Y. injection Y as <- <-. eapply lk_range0; eauto.
Qed.

(** A macro is removed. *)
Lemma link_remove F H l S name m k a l' F' : link F H l S -> S name = Some m ->
  F name = Some (k, if mc_named m then mc_id m else -1) -> H k = Some (mc_id m, [a; mc_args m]) ->
  (forall cs, F' cs = match F cs with Some (j, w) => Some (j, if j =? k then ITEM_MAX else w) | None => None end) ->
  (forall b s, b <> ITEM_MAX -> b <> a -> znth l b = Some s -> znth l' b = Some s) ->
  link F' (hput H k None) l' (pput S name None).
Proof.
  intros I N FN HN E LL. pose proof I as I0. destruct (link_macro _ _ _ _ _ _ I N) as [K _]. destruct I.
  assert (O: forall cs j w, cs <> name -> F cs = Some (j, w) -> (j =? k) = false).
  { intros cs j w Q X. apply Z.eqb_neq. intros ->. apply Q. eapply lk_inj0; eauto. }
  split.
  - intros cs. destruct (key_eq_dec cs name) as [->|Q].
    + rewrite K, pput_same. intros j v. rewrite E, FN, Z.eqb_refl. intros X. injection X as <- <-. unfold hput. rewrite Z.eqb_refl. auto.
    + rewrite pput_other by auto. specialize (lk_name0 cs). rewrite E. destruct (kwcode cs).
      * destruct lk_name0 as (A & j & B & C). split; auto. exists j. rewrite B. unfold hput. rewrite (O cs j z) by auto. auto.
      * destruct (S cs) as [mm|] eqn:SC.
        -- destruct lk_name0 as (j & b & B & C & D & G). exists j, b. rewrite B. unfold hput. erewrite O by eauto. split; auto. split; auto.
           split; auto. unfold val_ok in *. destruct (mc_text mm); auto.
           destruct D as [Nb D]. split; auto. apply LL; auto. intros ->.
           assert (j = k) by (eapply (lk_uniq0 j k); eauto). subst. assert ((k =? k) = false) by (eapply O; eauto). lia.
        -- intros j v. destruct (F cs) as [[j' w]|] eqn:X; [|discriminate]. intros Y. injection Y as <- <-. erewrite O by eauto.
           unfold hput. erewrite O by eauto. eauto.
  - intros j p. unfold hput. destruct (j =? k) eqn:J; [discriminate|].
    intros X. destruct (lk_key0 j p X) as (cs & v & mm & Y & Z).
    assert (cs <> name) by (intros ->; rewrite FN in Y; injection Y as <- <-; lia).
    exists cs, v, mm. rewrite E, Y, J, pput_other by auto. auto.
  - intros j j' i1 i2 b c c'. unfold hput. destruct (j =? k) eqn:J; destruct (j' =? k) eqn:J'; try discriminate. apply lk_uniq0.
  - intros cs cs' j v w. rewrite !E. destruct (F cs) as [[x y]|] eqn:X; [|discriminate]. destruct (F cs') as [[x' y']|] eqn:Y; [|discriminate].
    intros A B. injection A as <- <-. injection B as <- <-. eapply lk_inj0; eauto.
  - intros cs j v. rewrite E. destruct (F cs) as [[x y]|] eqn:X; [|discriminate]. intros Y. injection Y as <- <-. eapply lk_range0; eauto.
Qed.

(** Strings nobody uses may be added. *)
Lemma link_strings F H l S l' : link F H l S -> (forall b s, b <> ITEM_MAX -> znth l b = Some s -> znth l' b = Some s) -> link F H l' S.
Proof.
  intros [] LL. split; auto. intros cs. specialize (lk_name0 cs). destruct (kwcode cs); auto. destruct (S cs) as [m|]; auto.
  destruct lk_name0 as (k & a & A & B & C & D). exists k, a. split; auto. split; auto. split; auto. unfold val_ok in *. destruct (mc_text m); auto.
  destruct C; split; auto.
Qed.

(** ** The calls on one table at a time *)
Lemma h_get hs R H k i vs n : hinv hs R H -> zlen hs < 2 ^ 60 -> H k = Some (i, vs) -> is_size n ->
  hash_get_by_index hs i n = or_else (znth vs n) ITEM_MAX.
Proof.
  intros I B E N. destruct (hexec_ok hs R H (HGetAt i n) I) as (r & hs' & R' & S' & X & _ & Y); [cbn; lia|cbn; eauto|].
  cbn in X. injection X as <- <-. destruct Y as [Y _]. eapply Y; eauto.
Qed.

Lemma h_key hs R H k i vs : hinv hs R H -> zlen hs < 2 ^ 60 -> H k = Some (i, vs) -> hash_get_key hs i = k.
Proof.
  intros I B E. destruct (hexec_ok hs R H (HKeyAt i) I) as (r & hs' & R' & S' & X & _ & Y); [cbn; lia|cbn; eauto|].
  cbn in X. injection X as <- <-. destruct Y as [[vs' Y] _]. eapply hidx_inj; eauto.
Qed.

Lemma h_set hs R H k i vs n v : hinv hs R H -> zlen hs < 2 ^ 60 -> H k = Some (i, vs) -> is_size n -> n < zlen vs ->
  exists R', hinv (snd (hash_set_by_index hs i n v)) R' (hput H k (Some (i, zupd vs n v))).
Proof.
  intros I B E N Ln. destruct (hexec_ok hs R H (HSetAt i n v) I) as (r & hs' & R' & S' & X & I' & Y); [cbn; lia|cbn; eauto|].
  cbn [hexec] in X. injection X as X. specialize (Y k vs E). replace (n <? zlen vs) with true in Y by lia. destruct Y as [_ Y].
  rewrite X. cbn [snd]. exists R'. eapply hinv_ext; eauto.
Qed.

Lemma h_remove hs R H k i vs : hinv hs R H -> zlen hs < 2 ^ 60 -> H k = Some (i, vs) ->
  exists hs' R', hash_remove_by_index hs i = (0, hs') /\ hinv hs' R' (hput H k None).
Proof.
  intros I B E. destruct (hexec_ok hs R H (HRemoveAt i) I) as (r & hs' & R' & S' & X & I' & Y); [cbn; lia|cbn; eauto|].
  cbn [hexec] in X. injection X as X. destruct (Y k vs E) as [-> Y']. exists hs', R'. split; auto. eapply hinv_ext; eauto.
Qed.

Lemma h_index hs R H k : hinv hs R H -> zlen hs < 2 ^ 60 -> is_int64 k -> k <> ITEM_MAX ->
  hash_get_index hs k = Some (match H k with Some (i, _) => i | None => SIZE_MAX end).
Proof.
  intros I B A N. destruct (hexec_ok hs R H (HIndex k) I) as (r & hs' & R' & S' & X & I' & Y); [cbn; lia|cbn; auto|].
  cbn [hexec] in X. destruct (hash_get_index hs k); cbn [bind] in X; [|discriminate]. injection X as <- <-. destruct Y as [-> _]. reflexivity.
Qed.

Lemma clear_loop_len n : forall hs b i, zlen (clear_loop n hs b i) = zlen hs.
Proof. induction n as [|n IH]; intros; cbn [clear_loop]; auto. rewrite IH, zlen_lv_set. auto. Qed.

Lemma hash_add_len hs k r hs' : hash_add hs k 2 = Some (r, hs') -> zlen hs' <= zlen hs + 5.
Proof.
  unfold hash_add. destruct (if negb _ then _ else _) as [[[[p i] rc]|]|]; cbn [bind]; [|intros X; injection X as <- <-; lia|discriminate].
  destruct (negb (negb (rc =? ITEM_MAX)) && (i =? ITEM_MAX)); [intros X; injection X as <- <-; lia|].
  set (h1 := if negb (rc =? ITEM_MAX) then _ else hs). assert (Z1: zlen h1 = zlen hs) by (unfold h1; destruct (negb _); rewrite ?clear_loop_len; auto).
  destruct ((if negb (rc =? ITEM_MAX) then rc else i) =? 0); intros X; injection X as <- <-.
  - rewrite !zlen_lv_set, zlen_lv_increase, zlen_lv_set by (vm_compute; discriminate). change (u64 5) with 5. lia.
  - rewrite zlen_lv_set. lia.
Qed.

Lemma h_add hs R H k : hinv hs R H -> zlen hs + 5 < 2 ^ 60 -> is_int64 k -> k <> ITEM_MAX ->
  match H k with
  | Some _ => exists R' hs', hash_add hs k 2 = Some (SIZE_MAX, hs') /\ hinv hs' R' H
  | None => exists i R' hs', hash_add hs k 2 = Some (i, hs') /\ hinv hs' R' (hput H k (Some (i, [0; 0])))
      /\ 0 <= i < SIZE_MAX /\ (forall k' vs, H k' <> Some (i, vs)) /\ zlen hs' <= zlen hs + 5
  end.
Proof.
  intros I B A N. destruct (hexec_ok hs R H (HAdd k 2) I) as (r & hs' & R' & S' & X & I' & Y); [cbn [hop_size]; lia|cbn [legal]; split; [auto|lia]|].
  cbn [hexec] in X. cbn [hspec] in Y. destruct (H k).
  - destruct Y as [-> Y]. exists R', hs'. split; auto. eapply hinv_ext; eauto.
  - destruct Y as (Y1 & Y2 & Y3). exists r, R', hs'. split; auto. split; [eapply hinv_ext; eauto|]. split; auto. split; auto.
    eapply hash_add_len; eauto.
Qed.

Lemma h_none hs n : hash_get_by_index hs SIZE_MAX n = ITEM_MAX \/ n < 0.
Proof. unfold hash_get_by_index, hash_get_amount_by_index. rewrite Z.eqb_refl. cbn [negb andb]. destruct (n <? 0) eqn:E; [right; lia|left; auto]. Qed.

Lemma h_set_none hs n v : 0 <= n -> snd (hash_set_by_index hs SIZE_MAX n v) = hs.
Proof. intros N. unfold hash_set_by_index, hash_get_amount_by_index. rewrite Z.eqb_refl. cbn [negb andb]. replace (n <? 0) with false by lia. reflexivity. Qed.

Lemma is_size_small n : 0 <= n < 10 -> is_size n.
Proof. unfold is_size, SIZE_MAX, two64. lia. Qed.
Lemma is_int64_small k : 0 <= k < 2 ^ 62 -> is_int64 k /\ k <> ITEM_MAX.
Proof. unfold is_int64, LLONG_MIN, ITEM_MAX, LLONG_MAX, two63. lia. Qed.

(** ** The calls *)
Section Calls.
  Variables (e : oenv) (st : storage) (S : pstate) (L : list mentry) (R : list rec) (H : hstate) (l : list bytes).
  Hypothesis Mem : mem_always e.
  Hypothesis IM : minv (st_as st) L.
  Hypothesis IH : hinv (st_hs st) R H.
  Hypothesis IS : sinv (st_vec st) l.
  Hypothesis LK : link (F_of L) H l S.
  Hypothesis BK : m_ksize (st_as st) + 16 < 2 ^ 55.
  Hypothesis BH : zlen (st_hs st) + 5 < 2 ^ 31.
  Hypothesis BS : s_size (st_vec st) + 2 < 2 ^ 58.

  Lemma BH60 : zlen (st_hs st) < 2 ^ 60. Proof. lia. Qed.

  Lemma l_len : 0 <= zlen l < 2 ^ 58.
  Proof. pose proof (arena_ge l). pose proof (arena_len_lt _ _ IS). pose proof (zlen_nonneg l). lia. Qed.

  Lemma F_dset L' k v : to_dict L' = dset (to_dict L) k v ->
    forall cs, F_of L' cs = match F_of L cs with Some (j, w) => Some (j, if j =? k then v else w) | None => None end.
  Proof. intros E cs. unfold F_of. rewrite E. apply dset_find. Qed.

  (** Text positions are below the number of strings. *)
  Lemma text_pos k i a b : H k = Some (i, [a; b]) -> a = ITEM_MAX \/ 0 <= a < zlen l.
  Proof.
    intros E. destruct (lk_key _ _ _ _ LK k _ E) as (cs & v & m & X & Y). destruct (link_macro _ _ _ _ _ _ LK Y) as (_ & k' & a' & X' & E' & V & _).
    rewrite X in X'. injection X' as <- _. rewrite E in E'. injection E' as -> -> ->. unfold val_ok in V. destruct (mc_text m); auto.
    destruct V as [_ V]. apply znth_Some_lt in V. right. lia.
  Qed.

  Lemma drop_ok k i a b : H k = Some (i, [a; b]) ->
    exists v l', drop_value st i = Some v /\ sinv v l' /\ zlen l' <= zlen l /\ s_size v <= s_size (st_vec st) /\
      (forall j s, j <> ITEM_MAX -> j <> a -> znth l j = Some s -> znth l' j = Some s) /\
      (forall j i' c b', H j = Some (i', [c; b']) -> j <> k -> c <> ITEM_MAX -> c < zlen l').
  Proof.
    intros E. unfold drop_value. rewrite (h_get _ R H k i [a; b] 0) by (auto using BH60, is_size_small; apply is_size_small; lia).
    rewrite znth_cons_0. cbn [or_else]. pose proof l_len as LL.
    unfold strings_size. rewrite (si_n _ _ IS). pose proof (text_pos k i a b E) as TP.
    assert (TP': forall j i' c b', H j = Some (i', [c; b']) -> j <> k -> c <> ITEM_MAX -> c < zlen l /\ c <> a).
    { intros j i' c b' X N1 N2. destruct (text_pos j i' c b' X) as [|Y]; [congruence|]. split; [lia|]. intros ->. apply N1. eapply (lk_uniq _ _ _ _ LK); eauto. }
    destruct (a =? zlen l - 1) eqn:Q.
    - assert (Aa: a = zlen l - 1) by lia. destruct TP as [TP|TP]; [unfold ITEM_MAX, LLONG_MAX, two63 in TP; lia|].
      destruct (exists_last (l := l)) as (l0 & s0 & E0). { intros ->. rewrite (@zlen_nil bytes) in *. lia. }
      destruct (remove_ok _ _ IS) as [_ X]. destruct (X l0 s0 E0) as (v' & X1 & X2). rewrite X1. cbn [bind].
      assert (ZL: zlen l = zlen l0 + 1) by (rewrite E0, zlen_snoc; lia).
      exists v', l0. split; auto. split; auto. split; [lia|]. split; [|split].
      + rewrite E0 in IS. pose proof (size_snoc _ _ _ _ X2 IS). pose proof (zlen_nonneg s0). lia.
      + intros j s N1 N2 Z. assert (0 <= j < zlen l) by (eapply znth_Some_lt; eauto). rewrite E0 in Z. rewrite znth_app1 in Z by lia. auto.
      + intros j i' c b' Y1 Y2 Y3. destruct (TP' j i' c b' Y1 Y2 Y3). lia.
    - exists (st_vec st), l. split; auto. split; auto. split; [lia|]. split; [lia|]. split; auto.
      intros j i' c b' Y1 Y2 Y3. destruct (TP' j i' c b' Y1 Y2 Y3). lia.
  Qed.

  Lemma id_bounds name m : S name = Some m -> 256 <= mc_id m < 2 ^ 31.
  Proof.
    intros E. destruct (link_macro _ _ _ _ _ _ LK E) as (_ & k & a & _ & X & _). apply (hidx _ _ _ _ _ _ IH) in X.
    rewrite !zlen_cons in X. pose proof (zlen_nonneg (@nil Z)). lia.
  Qed.

  (** *** Lookups *)
  Lemma kw_neg1 : kw_is_correct (-1) = false. Proof. reflexivity. Qed.
  Lemma kw_max : kw_is_correct ITEM_MAX = false. Proof. reflexivity. Qed.
  Lemma kw_id i : 256 <= i < 2 ^ 31 -> kw_is_correct i = false.
  Proof. intros B. unfold kw_is_correct, BEGIN_KEYWORD, END_KEYWORD. rewrite Z.mod_small by lia. lia. Qed.

  Lemma kwfind_range l0 cs c : kwfind l0 cs = Some c -> In c (map fst l0).
  Proof. induction l0 as [|[d ss] l0 IHl]; cbn; [discriminate|]. destruct (existsb _ ss); intros X; [injection X as <-; auto|auto]. Qed.
  Lemma kwcode_range cs c : kwcode cs = Some c -> 2 <= c < 18.
  Proof. intros X. apply kwfind_range in X. cbn in X. lia. Qed.
  Lemma kw_code c : 2 <= c < 18 -> kw_is_correct c = true /\ u64 c = c.
  Proof. intros B. unfold kw_is_correct, BEGIN_KEYWORD, END_KEYWORD, u64, two64. rewrite !Z.mod_small by lia. lia. Qed.

  Lemma search_ok k name x : key_of k name x -> m_ksize (st_as st) + src_size k + 16 < 2 ^ 55 ->
    exists m', storage_search e st k = Some (number S name, x, mkStg m' (st_hs st) (st_vec st)) /\ minv m' L.
  Proof.
    intros HK B. destruct (get_index_full e _ L k name x Mem IM HK ltac:(lia)) as (m' & E & I' & SZ & _).
    unfold storage_search. rewrite E. cbn [bind].
    assert (I0: 0 <= match F_of L name with Some (i, _) => i | None => SIZE_MAX end).
    { destruct (F_of L name) as [[i v]|] eqn:X; [apply (lk_range _ _ _ _ LK) in X; lia|unfold SIZE_MAX, two64; lia]. }
    change (dfind (to_dict L) name) with (F_of L name). rewrite (get_by_index_ok m' L) by auto. cbn [bind].
    exists m'. split; auto. unfold number.
    destruct (F_of L name) as [[k0 v]|] eqn:X.
    - pose proof (lk_range _ _ _ _ LK _ _ _ X) as RG. destruct (minv_has _ _ _ _ _ IM X) as (v1 & X1 & X2).
      change (dfind (to_dict L) name) with (F_of L name) in X1. rewrite X in X1. injection X1 as <-. rewrite X2.
      pose proof (lk_name _ _ _ _ LK name) as N. rewrite X in N. rewrite (s64_small k0) by lia.
      assert (HI: hash_get_index (st_hs st) k0 = Some (match H k0 with Some (i, _) => i | None => SIZE_MAX end)).
      { destruct (is_int64_small k0); [lia|]. apply (h_index _ R); auto using BH60. }
      destruct (kwcode name) as [c|] eqn:KC.
      + destruct N as (_ & k1 & Y & _). injection Y as <- ->. destruct (kw_code c (kwcode_range _ _ KC)) as [-> ->]. reflexivity.
      + destruct (S name) as [m|] eqn:SN.
        * destruct N as (k1 & a & Y & Z & _). injection Y as <- ->. pose proof (id_bounds name m SN).
          assert (KW: kw_is_correct (if mc_named m then mc_id m else -1) = false) by (destruct (mc_named m); [apply kw_id; auto|reflexivity]).
          rewrite KW, HI, Z. reflexivity.
        * destruct (N k0 v eq_refl) as [-> N2]. rewrite kw_max, HI, N2. reflexivity.
    - assert (D: dat (to_dict L) SIZE_MAX = None).
      { rewrite dat_find. rewrite (no_index (st_as st)); auto. pose proof (vals_bound _ _ IM ltac:(lia)). pose proof (mi_vsize _ _ IM). unfold SIZE_MAX, two64. lia. }
      rewrite D, kw_max, s64_max. pose proof (lk_name _ _ _ _ LK name) as N. rewrite X in N.
      assert (HI: hash_get_index (st_hs st) (-1) = Some SIZE_MAX).
      { rewrite (h_index _ R H); auto using BH60. 2: unfold is_int64, LLONG_MIN, LLONG_MAX, two63; lia. 2: unfold ITEM_MAX, LLONG_MAX, two63; lia.
        destruct (H (-1)) as [p|] eqn:HP; auto. destruct (lk_key _ _ _ _ LK _ _ HP) as (cs & v & m & Y & _). apply (lk_range _ _ _ _ LK) in Y. lia. }
      rewrite HI. destruct (kwcode name).
      + destruct N as (_ & k1 & Y & _). discriminate.
      + destruct (S name); auto. destruct N as (k1 & a & Y & _). discriminate.
  Qed.

  Lemma index_ok k name x : key_of k name x -> m_ksize (st_as st) + src_size k + 16 < 2 ^ 55 ->
    (forall m, S name = Some m -> mc_named m = true) ->
    exists m', storage_get_index e st k = Some (number S name, mkStg m' (st_hs st) (st_vec st)) /\ minv m' L.
  Proof.
    intros HK B NM. destruct (get_full e _ L k name x Mem IM HK ltac:(lia)) as (m' & E & I' & SZ & _).
    unfold storage_get_index. rewrite E. cbn [bind]. exists m'. split; auto. unfold number. change (dfind (to_dict L) name) with (F_of L name).
    pose proof (lk_name _ _ _ _ LK name) as N. destruct (kwcode name) as [c|] eqn:KC.
    - destruct N as (_ & k1 & -> & _). pose proof (kwcode_range _ _ KC). replace (c =? ITEM_MAX) with false by (unfold ITEM_MAX, LLONG_MAX, two63; lia).
      cbn [negb]. destruct (kw_code c); auto. congruence.
    - destruct (S name) as [m|] eqn:SN.
      + destruct N as (k1 & a & -> & _). rewrite (NM m) by auto. pose proof (id_bounds name m SN).
        replace (mc_id m =? ITEM_MAX) with false by (unfold ITEM_MAX, LLONG_MAX, two63; lia). cbn [negb]. rewrite u64_s by lia. reflexivity.
      + destruct (F_of L name) as [[k1 v]|]; [destruct (N k1 v eq_refl) as [-> _]|]; rewrite Z.eqb_refl; reflexivity.
  Qed.

  (** *** Adding *)
  Lemma add_new_ok k name x : key_of k name x -> m_ksize (st_as st) + src_size k + 16 < 2 ^ 55 ->
    name <> [] -> kwcode name = None -> S name = None ->
    exists r st', storage_add e st k = Some (r, x, st') /\ 256 <= r < SIZE_MAX /\ ~ defined S r /\
      pinv st' (pput S name (Some (mkMacro r None 0 true))).
  Proof.
    intros HK B Ne KC SN. destruct (add_ok e _ L k name x ITEM_MAX Mem IM HK ltac:(lia)) as (key & m1 & L1 & E & I1 & A & SZ).
    assert (P: exists key', key = key' /\ 0 <= key < 2 ^ 58 /\ F_of L1 name = Some (key, ITEM_MAX) /\ H key = None /\ link (F_of L1) H l S).
    { exists key. split; auto. unfold add_entry in A. change (dfind (to_dict L) name) with (F_of L name) in A.
      destruct (F_of L name) as [[i v]|] eqn:X.
      - rewrite Z.eqb_refl in A. destruct A as [-> A]. destruct (link_absent _ _ _ _ _ LK SN KC _ _ X) as [-> HN].
        pose proof (lk_range _ _ _ _ LK _ _ _ X). split; auto.
        assert (FE: forall cs, F_of L1 cs = F_of L cs) by (intros; unfold F_of; rewrite A; auto).
        split; [rewrite FE; auto|]. split; auto. eapply link_F_ext; eauto.
      - rewrite key_eqb_neq in A by auto. destruct A as (N & Rk & D).
        assert (FE: forall cs, F_of L1 cs = if key_eqb cs name then Some (key, ITEM_MAX) else F_of L cs).
        { intros cs. unfold F_of. rewrite D, dfind_app. cbn [dfind]. destruct (key_eq_dec cs name) as [->|Q].
          - rewrite key_eqb_refl. change (dfind (to_dict L) name) with (F_of L name). rewrite X. reflexivity.
          - rewrite (key_eqb_neq cs name) by auto. rewrite (key_eqb_neq name cs) by auto. destruct (dfind (to_dict L) cs); auto. }
        assert (FN: F_of L1 name = Some (key, ITEM_MAX)) by (rewrite FE, key_eqb_refl; auto).
        pose proof (F_of_range m1 L1 _ _ _ I1 ltac:(lia) FN) as RK.
        destruct (link_reserve (F_of L) H l S name key (F_of L1)) as [LK1 HN]; auto.
        intros cs i v Y ->. apply N. destruct (minv_has _ _ _ _ _ IM Y) as (w & _ & Z). clear - Z.
        induction (to_dict L) as [|[[q j] u] d IHd]; cbn in *; [discriminate|]. destruct (j =? key) eqn:J; [left; lia|right; auto]. }
    destruct P as (_ & _ & RK & FN & HN & LK1).
    unfold storage_add. unfold map_reserve. unfold map_add in E. rewrite E. cbn [bind].
    rewrite (s64_small key) by lia. destruct (is_int64_small key ltac:(lia)) as [K1 K2].
    pose proof (h_add _ R H key IH ltac:(lia) K1 K2) as X. rewrite HN in X. destruct X as (i & R1 & hs1 & E1 & IH1 & Ri & Fi & ZL). rewrite E1. cbn [bind].
    assert (HK1: hput H key (Some (i, [0; 0])) key = Some (i, [0; 0])) by (unfold hput; rewrite Z.eqb_refl; auto).
    destruct (hidx _ _ _ _ _ _ IH1 HK1) as [I256 IL]. rewrite !zlen_cons, (@zlen_nil Z) in IL.
    rewrite (s64_small i) by lia.
    destruct (set_by_index_ok m1 L1 key i I1 ltac:(lia)) as (m2 & L2 & E2 & I2 & D2 & S2). rewrite E2. cbn [bind].
    destruct (h_set _ _ _ _ _ _ 0 ITEM_MAX IH1 ltac:(lia) HK1 (is_size_small 0 ltac:(lia)) ltac:(rewrite !zlen_cons, (@zlen_nil Z); lia)) as [R2 IH2].
    set (hs2 := snd (hash_set_by_index hs1 i 0 ITEM_MAX)) in *.
    assert (ZL2: zlen hs2 = zlen hs1). { unfold hs2, hash_set_by_index. destruct (0 <? _); cbn [snd]; rewrite ?zlen_lv_set; auto. }
    assert (HK2: hput (hput H key (Some (i, [0; 0]))) key (Some (i, zupd [0; 0] 0 ITEM_MAX)) key = Some (i, [ITEM_MAX; 0])) by (unfold hput; rewrite Z.eqb_refl; auto).
    destruct (h_set _ _ _ _ _ _ 1 0 IH2 ltac:(lia) HK2 (is_size_small 1 ltac:(lia)) ltac:(rewrite !zlen_cons, (@zlen_nil Z); lia)) as [R3 IH3].
    exists i. eexists. split; [reflexivity|]. split; [unfold SIZE_MAX, two64; lia|]. split.
    - intros (n & m & Y & <-). destruct (link_macro _ _ _ _ _ _ LK Y) as (_ & k2 & a & _ & Z & _). apply (Fi k2 _ Z).
    - constructor. cbn [st_as st_hs st_vec]. exists L2, R3. eexists. exists l. split; [exact I2|]. split; [exact IH3|]. split; [exact IS|].
      eapply link_H_ext.
      + apply (link_new (F_of L1) H l S name key i (F_of L2) LK1 SN KC FN). intros cs. unfold F_of. rewrite D2. apply dset_find.
      + intros j. unfold hput. destruct (j =? key); reflexivity.
  Qed.

  Lemma add_old_ok k name x m : key_of k name x -> m_ksize (st_as st) + src_size k + 16 < 2 ^ 55 -> S name = Some m ->
    exists st', storage_add e st k = Some (SIZE_MAX, x, st') /\ pinv st' (pput S name (Some (renamed m))).
  Proof.
    intros HK B SN. destruct (add_ok e _ L k name x ITEM_MAX Mem IM HK ltac:(lia)) as (key & m1 & L1 & E & I1 & A & SZ).
    destruct (link_macro _ _ _ _ _ _ LK SN) as (KC & k0 & a & FN & HN & VO & AR).
    unfold add_entry in A. change (dfind (to_dict L) name) with (F_of L name) in A. rewrite FN in A. rewrite Z.eqb_refl in A. destruct A as [-> A].
    pose proof (lk_range _ _ _ _ LK _ _ _ FN) as RK.
    unfold storage_add. unfold map_reserve. unfold map_add in E. rewrite E. cbn [bind].
    rewrite (s64_small k0) by lia. destruct (is_int64_small k0 ltac:(lia)) as [K1 K2].
    pose proof (h_add _ R H k0 IH ltac:(lia) K1 K2) as X. rewrite HN in X. destruct X as (R1 & hs1 & E1 & IH1). rewrite E1. cbn [bind].
    rewrite s64_max. destruct (set_by_index_ok m1 L1 k0 (-1) I1 ltac:(lia)) as (m2 & L2 & E2 & I2 & D2 & S2). rewrite E2. cbn [bind].
    rewrite !h_set_none by lia. eexists. split; [reflexivity|]. constructor. cbn [st_as st_hs st_vec]. exists L2, R1, H, l.
    split; auto. split; auto. split; auto.
    eapply link_H_ext; [eapply (link_change (F_of L) H l S name m k0 a l (renamed m) a (F_of L2) (-1)); eauto|].
    - intros cs. unfold F_of. rewrite D2, A. apply dset_find.
    - intros j i b N Q1 Q2. apply N. eapply (lk_uniq _ _ _ _ LK); eauto.
    - intros j. unfold hput. destruct (j =? k0) eqn:J; auto. replace j with k0 by lia. auto.
  Qed.

  (** *** Through the number of a macro *)
  Lemma text_ok name m : S name = Some m -> storage_get_by_index st (mc_id m) = Some (mc_text m).
  Proof.
    intros SN. destruct (link_macro _ _ _ _ _ _ LK SN) as (KC & k0 & a & FN & HN & VO & AR). unfold storage_get_by_index.
    rewrite (h_get _ R H k0 _ _ 0 IH BH60 HN (is_size_small 0 ltac:(lia))). rewrite znth_cons_0. cbn [or_else].
    pose proof (text_pos _ _ _ _ HN) as TP. pose proof l_len as LL. unfold val_ok in VO.
    destruct TP as [->|TP].
    - destruct (mc_text m); [destruct VO; congruence|]. rewrite (get_ok _ _ _ IS) by (vm_compute; discriminate). f_equal. apply znth_None.
      change (u64 ITEM_MAX) with ITEM_MAX. unfold ITEM_MAX, LLONG_MAX, two63. lia.
    - rewrite u64_s by lia. rewrite (get_ok _ _ _ IS) by lia. destruct (mc_text m); [destruct VO; congruence|]. subst a. unfold ITEM_MAX, LLONG_MAX, two63 in TP. lia.
  Qed.

  Lemma text_none_ok : storage_get_by_index st SIZE_MAX = Some None.
  Proof.
    unfold storage_get_by_index. destruct (h_none (st_hs st) 0) as [->|]; [|lia]. rewrite (get_ok _ _ _ IS) by (vm_compute; discriminate).
    f_equal. apply znth_None. pose proof l_len. change (u64 ITEM_MAX) with ITEM_MAX. unfold ITEM_MAX, LLONG_MAX, two63. lia.
  Qed.

  Lemma args_ok name m : S name = Some m -> storage_get_args_by_index st (mc_id m) = mc_args m.
  Proof.
    intros SN. destruct (link_macro _ _ _ _ _ _ LK SN) as (KC & k0 & a & FN & HN & VO & AR). unfold storage_get_args_by_index.
    rewrite (h_get _ R H k0 _ _ 1 IH BH60 HN (is_size_small 1 ltac:(lia))). cbn [or_else]. change (znth [a; mc_args m] 1) with (Some (mc_args m)). cbn [or_else].
    replace (mc_args m =? ITEM_MAX) with false by lia. cbn [negb]. unfold u64, ITEM_MAX, LLONG_MAX, two63, two64 in *. rewrite Z.mod_small by lia. auto.
  Qed.

  Lemma name_ok name m : S name = Some m -> storage_to_string st (mc_id m) = Some (Some (encs name)).
  Proof.
    intros SN. destruct (link_macro _ _ _ _ _ _ LK SN) as (KC & k0 & a & FN & HN & VO & AR). unfold storage_to_string.
    rewrite (h_key _ R H k0 _ _ IH BH60 HN). pose proof (lk_range _ _ _ _ LK _ _ _ FN). rewrite u64_s by lia.
    rewrite (to_string_index_ok _ L) by (auto; lia). destruct (minv_has _ _ _ _ _ IM FN) as (w & _ & ->). reflexivity.
  Qed.

  Lemma F_same k v : (forall cs w, F_of L cs = Some (k, w) -> w = v) ->
    forall cs, F_of L cs = match F_of L cs with Some (j, w) => Some (j, if j =? k then v else w) | None => None end.
  Proof.
    intros E cs. destruct (F_of L cs) as [[j w]|] eqn:X; auto. destruct (j =? k) eqn:J; auto. replace j with k in * by lia. rewrite (E cs w); auto.
  Qed.

  Lemma set_text_ok name m v : S name = Some m -> Forall (fun b => b <> 0) v -> v <> [] -> s_size (st_vec st) + zlen v + 2 < 2 ^ 58 ->
    exists st', storage_set_by_index e st (mc_id m) v = Some (mc_id m, st') /\ pinv st' (pput S name (Some (with_text m v))).
  Proof.
    intros SN NZ Ne B. destruct (link_macro _ _ _ _ _ _ LK SN) as (KC & k0 & a & FN & HN & VO & AR).
    destruct (drop_ok k0 _ _ _ HN) as (v1 & l1 & E1 & IS1 & ZL1 & SZ1 & K1 & K2). pose proof l_len as LL. pose proof (zlen_nonneg l1).
    destruct (StringsProofs.add_ok e v1 l1 v Mem IS1 NZ Ne ltac:(lia) ltac:(lia)) as (v2 & E2 & IS2).
    unfold storage_set_by_index. rewrite E1. cbn [bind]. rewrite E2. cbn [bind].
    replace (zlen l1 =? SIZE_MAX) with false by (unfold SIZE_MAX, two64; lia). cbn [negb]. rewrite s64_small by lia.
    destruct (h_set _ _ _ _ _ _ 0 (zlen l1) IH BH60 HN (is_size_small 0 ltac:(lia)) ltac:(rewrite !zlen_cons, (@zlen_nil Z); lia)) as [R2 IH2].
    eexists. split; [reflexivity|]. constructor. cbn [st_as st_hs st_vec]. exists L, R2. eexists. exists (l1 ++ [v]).
    split; [exact IM|]. split; [exact IH2|]. split; [exact IS2|].
    change (zupd [a; mc_args m] 0 (zlen l1)) with [zlen l1; mc_args m].
    apply (link_change (F_of L) H l S name m k0 a (l1 ++ [v]) (with_text m v) (zlen l1) (F_of L) (if mc_named m then mc_id m else -1)); auto.
    - apply F_same. intros cs w Q. assert (cs = name) by (eapply (lk_inj _ _ _ _ LK); eauto). subst. congruence.
    - cbn [with_text mc_text val_ok]. split; [unfold ITEM_MAX, LLONG_MAX, two63; lia|]. rewrite znth_app2 by lia. rewrite Z.sub_diag. reflexivity.
    - intros b s N1 N2 Q. pose proof (K1 b s N1 N2 Q) as Q'. rewrite znth_app1; auto. apply znth_Some_lt in Q'. lia.
    - intros j i b N Q1 Q2. pose proof (K2 j i _ _ Q1 N Q2). lia.
  Qed.

  Lemma set_text_none_ok v : Forall (fun b => b <> 0) v -> v <> [] -> s_size (st_vec st) + zlen v + 2 < 2 ^ 58 ->
    exists st', storage_set_by_index e st SIZE_MAX v = Some (SIZE_MAX, st') /\ pinv st' S.
  Proof.
    intros NZ Ne B. pose proof l_len as LL. unfold storage_set_by_index, drop_value. destruct (h_none (st_hs st) 0) as [->|]; [|lia].
    unfold strings_size. rewrite (si_n _ _ IS). replace (ITEM_MAX =? zlen l - 1) with false by (unfold ITEM_MAX, LLONG_MAX, two63; lia). cbn [bind].
    destruct (StringsProofs.add_ok e _ l v Mem IS NZ Ne ltac:(lia) ltac:(lia)) as (v2 & E2 & IS2). rewrite E2. cbn [bind].
    rewrite h_set_none by lia. eexists. split; [reflexivity|]. constructor. cbn [st_as st_hs st_vec]. exists L, R, H, (l ++ [v]).
    split; auto. split; [destruct (negb _); auto|]. split; auto. eapply link_strings; eauto.
    intros b s _ Q. rewrite znth_app1; auto. apply znth_Some_lt in Q. lia.
  Qed.

  Lemma set_args_ok name m n : S name = Some m -> 0 <= n < ITEM_MAX ->
    exists st', storage_set_args_by_index st (mc_id m) n = (mc_id m, st') /\ pinv st' (pput S name (Some (with_args m n))).
  Proof.
    intros SN N. destruct (link_macro _ _ _ _ _ _ LK SN) as (KC & k0 & a & FN & HN & VO & AR).
    assert (SN64: s64 n = n). { unfold s64, u64, ITEM_MAX, LLONG_MAX, two64, two63 in *. rewrite Z.mod_small by lia. destruct (n <? _) eqn:Q; lia. }
    unfold storage_set_args_by_index. rewrite SN64.
    destruct (h_set _ _ _ _ _ _ 1 n IH BH60 HN (is_size_small 1 ltac:(lia)) ltac:(rewrite !zlen_cons, (@zlen_nil Z); lia)) as [R2 IH2].
    eexists. split; [reflexivity|]. constructor. cbn [st_as st_hs st_vec]. exists L, R2. eexists. exists l.
    split; [exact IM|]. split; [exact IH2|]. split; [exact IS|].
    change (zupd [a; mc_args m] 1 n) with [a; n].
    apply (link_change (F_of L) H l S name m k0 a l (with_args m n) a (F_of L) (if mc_named m then mc_id m else -1)); auto.
    - apply F_same. intros cs w Q. assert (cs = name) by (eapply (lk_inj _ _ _ _ LK); eauto). subst. congruence.
    - intros j i b Nj Q1 Q2. apply Nj. eapply (lk_uniq _ _ _ _ LK); eauto.
  Qed.

  Lemma remove_macro_ok name m : S name = Some m ->
    exists st', storage_remove_by_index st (mc_id m) = Some (0, st') /\ pinv st' (pput S name None).
  Proof.
    intros SN. destruct (link_macro _ _ _ _ _ _ LK SN) as (KC & k0 & a & FN & HN & VO & AR).
    pose proof (lk_range _ _ _ _ LK _ _ _ FN).
    unfold storage_remove_by_index. rewrite (h_key _ R H k0 _ _ IH BH60 HN). rewrite u64_s by lia.
    destruct (set_by_index_ok _ L k0 ITEM_MAX IM ltac:(lia)) as (m2 & L2 & E2 & I2 & D2 & S2). rewrite E2. cbn [bind].
    destruct (drop_ok k0 _ _ _ HN) as (v1 & l1 & E1 & IS1 & ZL1 & SZ1 & K1 & K2). rewrite E1. cbn [bind].
    destruct (h_remove _ R H k0 _ _ IH BH60 HN) as (hs' & R' & E3 & IH3). rewrite E3.
    eexists. split; [reflexivity|]. constructor. cbn [st_as st_hs st_vec]. exists L2, R'. eexists. exists l1.
    split; [exact I2|]. split; [exact IH3|]. split; [exact IS1|].
    eapply (link_remove (F_of L) H l S name m k0 a l1 (F_of L2)); eauto.
    intros cs. unfold F_of. rewrite D2. apply dset_find.
  Qed.
End Calls.

Lemma pexec_ok e st S op : mem_always e -> pinv st S -> plegal S op -> proom st op ->
  exists r st' S', pexec e st op = Some (r, st') /\ pspec S op r S' /\ pinv st' S'.
Proof.
  intros Mem [(L & R & H & l & IM & IH & IS & LK)] Lg Room. unfold proom in Room.
  assert (SS: forall X : pstate, psame X X) by (intros X n; auto).
  assert (NS: forall k, 0 <= src_size k).
  { intros [s|s|io]; cbn [src_size]; [pose proof (zlen_nonneg s)|pose proof (zlen_nonneg s)|pose proof (zlen_nonneg (in_data io))]; lia. }
  destruct op as [k|k|k|id|id|id v|id n|id|id]; cbn [plegal pexec] in *; destruct Room as (B1 & B2 & B3).
  - destruct Lg as (name & x & HK & Ne & KC). pose proof (NS k). destruct (S name) as [m|] eqn:SN.
    + destruct (add_old_ok e st S L R H l Mem IM IH IS LK ltac:(lia) k name x m HK ltac:(lia) SN) as (st' & E & I). rewrite E.
      do 3 eexists. split; [reflexivity|]. split; [|exact I]. eapply ps_add_old; eauto.
    + destruct (add_new_ok e st S L R H l Mem IM IH IS LK ltac:(lia) k name x HK ltac:(lia) Ne KC SN) as (r & st' & E & Rg & D & I). rewrite E.
      do 3 eexists. split; [reflexivity|]. split; [|exact I]. eapply ps_add_new; eauto.
  - destruct Lg as (name & x & HK). pose proof (NS k).
    destruct (search_ok e st S L R H l Mem IM IH LK ltac:(lia) ltac:(lia) k name x HK ltac:(lia)) as (m' & E & I). rewrite E.
    do 2 eexists. exists S. split; [reflexivity|]. split; [eapply ps_search; eauto|]. constructor. exists L, R, H, l. auto.
  - destruct Lg as (name & x & HK & NM). pose proof (NS k).
    destruct (index_ok e st S L R H l Mem IM IH LK ltac:(lia) k name x HK ltac:(lia) NM) as (m' & E & I). rewrite E.
    do 2 eexists. exists S. split; [reflexivity|]. split; [eapply ps_index; eauto|]. constructor. exists L, R, H, l. auto.
  - destruct Lg as [(name & m & SN & <-)| ->].
    + rewrite (text_ok st S L R H l IH IS LK ltac:(lia) ltac:(lia) name m SN). do 2 eexists. exists S. split; [reflexivity|].
      split; [eapply ps_text; eauto|]. constructor. exists L, R, H, l. auto.
    + rewrite (text_none_ok st l) by (auto; lia). do 2 eexists. exists S. split; [reflexivity|].
      split; [eapply ps_text_none; eauto|]. constructor. exists L, R, H, l. auto.
  - destruct Lg as [(name & m & SN & <-)| ->].
    + rewrite (args_ok st S L R H l IH LK ltac:(lia) name m SN). do 2 eexists. exists S. split; [reflexivity|].
      split; [eapply ps_args; eauto|]. constructor. exists L, R, H, l. auto.
    + unfold storage_get_args_by_index. destruct (h_none (st_hs st) 1) as [->|]; [|lia]. rewrite Z.eqb_refl. do 2 eexists. exists S. split; [reflexivity|].
      split; [eapply ps_args_none; eauto|]. constructor. exists L, R, H, l. auto.
  - destruct Lg as [[(name & m & SN & <-)| ->] [NZ Ne]]; pose proof (zlen_nonneg v).
    + destruct (set_text_ok e st S L R H l Mem IM IH IS LK ltac:(lia) ltac:(lia) name m v SN NZ Ne ltac:(lia)) as (st' & E & I). rewrite E.
      do 3 eexists. split; [reflexivity|]. split; [|exact I]. eapply ps_set; eauto.
    + destruct (set_text_none_ok e st S L R H l Mem IM IH IS LK ltac:(lia) v NZ Ne ltac:(lia)) as (st' & E & I). rewrite E.
      do 3 eexists. split; [reflexivity|]. split; [|exact I]. eapply ps_set_none; eauto.
  - destruct Lg as [[(name & m & SN & <-)| ->] N].
    + destruct (set_args_ok st S L R H l IM IH IS LK ltac:(lia) name m n SN N) as (st' & E & I). rewrite E.
      do 3 eexists. split; [reflexivity|]. split; [|exact I]. eapply ps_set_args; eauto.
    + unfold storage_set_args_by_index. rewrite h_set_none by lia.
      do 2 eexists. exists S. split; [reflexivity|]. split; [eapply ps_set_args_none; eauto|]. constructor. exists L, R, H, l. auto.
  - destruct Lg as (name & m & SN & <-). rewrite (name_ok st S L R H l IM IH LK ltac:(lia) name m SN). do 2 eexists. exists S. split; [reflexivity|].
    split; [eapply ps_name; eauto|]. constructor. exists L, R, H, l. auto.
  - destruct Lg as (name & m & SN & <-).
    destruct (remove_macro_ok st S L R H l IM IH IS LK ltac:(lia) ltac:(lia) name m SN) as (st' & E & I). rewrite E.
    do 3 eexists. split; [reflexivity|]. split; [|exact I]. eapply ps_remove; eauto.
Qed.

(** ** The specification determines the new state *)
Lemma pinv_ext st S S' : pinv st S -> psame S S' -> pinv st S'.
Proof. intros [(L & R & H & l & A & B & C & D)] E. constructor. exists L, R, H, l. split; auto. split; auto. split; auto. eapply link_S_ext; eauto. Qed.

Lemma pinv_id st S n n' m m' : pinv st S -> S n = Some m -> S n' = Some m' -> mc_id m = mc_id m' -> n = n' /\ m = m'.
Proof.
  intros [(L & R & H & l & A & B & C & D)] E E' Q.
  destruct (link_macro _ _ _ _ _ _ D E) as (_ & k & a & F1 & H1 & _). destruct (link_macro _ _ _ _ _ _ D E') as (_ & k' & a' & F2 & H2 & _).
  rewrite <- Q in H2. assert (k = k') by (eapply hidx_inj; eauto). subst k'. assert (n = n') by (eapply (lk_inj _ _ _ _ D); eauto). subst. split; congruence.
Qed.

Lemma pinv_idr st S n m : pinv st S -> S n = Some m -> zlen (st_hs st) < 2 ^ 60 -> mc_id m <> SIZE_MAX.
Proof.
  intros [(L & R & H & l & A & B & C & D)] E ZZ. destruct (link_macro _ _ _ _ _ _ D E) as (_ & k & a & F1 & H1 & _).
  apply (hidx _ _ _ _ _ _ B) in H1. rewrite !zlen_cons in H1. pose proof (zlen_nonneg (@nil Z)). unfold SIZE_MAX, two64. lia.
Qed.

(** The source determines the key: compare what the hash function leaves in the
    arena of a new map. *)
Lemma key_of_fun e k a x b y : mem_always e -> src_size k + 16 < 2 ^ 58 -> key_of k a x -> key_of k b y -> a = b /\ x = y.
Proof.
  intros M B A1 A2. pose proof (create_ok e 0 ltac:(lia)) as I0.
  destruct (get_hash_ok e _ [] k a x M I0 A1) as (m1 & E1 & I1 & _ & P1 & _); [change (m_ksize (map_create e 0)) with 0; lia|].
  destruct (get_hash_ok e _ [] k b y M I0 A2) as (m2 & E2 & I2 & _ & P2 & _); [change (m_ksize (map_create e 0)) with 0; lia|].
  rewrite E1 in E2. injection E2 as Q1 Q2 Q3. subst m2. split; auto.
  destruct (empty_or a) as [->|Na]; destruct (empty_or b) as [->|Nb]; auto.
  - cbn [key_eqb] in Q1. rewrite key_eqb_neq in Q1 by auto. pose proof (khash_not_max b). lia.
  - cbn [key_eqb] in Q1. rewrite key_eqb_neq in Q1 by auto. pose proof (khash_not_max a). lia.
  - pose proof (pending_string _ _ _ I1 (P1 Na) (key_good _ _ _ A1)) as S1. pose proof (pending_string _ _ _ I1 (P2 Nb) (key_good _ _ _ A2)) as S2.
    rewrite S1 in S2. injection S2 as S2. apply encs_inj in S2; auto; apply good_cps; eapply key_good; eauto.
Qed.

Lemma pspec_unique e st S op r S1 S2 : mem_always e -> pinv st S -> proom st op -> pspec S op r S1 -> pspec S op r S2 -> psame S1 S2.
Proof.
  intros M I Room A B. unfold proom in Room. assert (ZH: zlen (st_hs st) < 2 ^ 60) by lia.
  assert (KS: 0 <= m_ksize (st_as st)). { destruct I as [(L & R & H & l & IM & _)]. rewrite (mi_ksize _ _ IM). apply zlen_nonneg. }
  assert (KF: forall k a x b y, key_of k a x -> key_of k b y -> src_size k + 16 < 2 ^ 58 -> a = b).
  { intros k a x b y A1 A2 B1. destruct (key_of_fun e k a x b y); auto. }
  assert (UP: forall (X Y : pstate) n v, psame (pput S n v) X -> psame (pput S n v) Y -> psame X Y).
  { intros X Y n v U V j. rewrite U, V. auto. }
  destruct A; inversion B; subst; clear B;
    try (match goal with H1 : key_of ?k ?a _, H2 : key_of ?k ?b _ |- _ => assert (a = b) by (eapply KF; eauto; lia); subst end);
    try (match goal with H1 : S ?a = Some ?x, H2 : S ?b = Some ?y, H3 : mc_id ?y = mc_id ?x |- _ =>
           destruct (pinv_id st S b a y x I H2 H1 H3); subst end);
    try congruence; eauto; try (intros j; congruence).
  all: match goal with
       | H1 : psame ?s ?x, H2 : psame ?s ?y |- psame ?x ?y => intros j; rewrite H1, H2; reflexivity
       | H1 : ?s ?a = Some ?x, H2 : psame ?s ?y, H3 : SIZE_MAX = mc_id ?x |- _ => pose proof (pinv_idr st s a x I H1 ZH); congruence
       | H1 : ?s ?a = Some ?x, H2 : psame ?s ?y, H3 : mc_id ?x = SIZE_MAX |- _ => pose proof (pinv_idr st s a x I H1 ZH); congruence
       end.
Qed.

(** ** Creation *)
Definition kw_names (l : list (Z * list (list Z))) : list (list Z) := flat_map snd l.

Lemma kw_spellings_ok e code ss : mem_always e -> Forall (fun s => Forall good_symbol s /\ s <> []) ss -> code <> ITEM_MAX ->
  forall m L n, minv m L -> m_ksize m <= n -> 0 <= n -> n + 1000 * zlen ss < 2 ^ 40 -> Forall (fun s => zlen s < 200) ss ->
  NoDup ss -> (forall s, In s ss -> F_of L s = None) ->
  exists m' L', kw_spellings e m code ss = Some (true, m') /\ minv m' L' /\ m_ksize m' <= n + 1000 * zlen ss /\
    forall cs, option_map snd (F_of L' cs) = match F_of L cs with Some p => Some (snd p) | None => if existsb (key_eqb cs) ss then Some code else None end.
Proof.
  intros M G NC. induction ss as [|s ss IH]; intros m L n I B N0 B2 LS ND FR; cbn [kw_spellings existsb].
  - exists m, L. split; auto. split; auto. split; [pose proof (zlen_nonneg (@nil (list Z))); lia|]. intros cs. destruct (F_of L cs) as [[? ?]|]; auto.
  - inversion G as [|? ? [G1 G2] G3]; inversion LS; inversion ND; subst. rewrite zlen_cons in *. pose proof (zlen_nonneg ss).
    assert (HK: key_of (KUtf8 s) s None) by (constructor; auto).
    destruct (add_ok e m L (KUtf8 s) s None code M I HK) as (r & m1 & L1 & E & I1 & A & SZ); [cbn [src_size]; lia|]. cbn [src_size] in SZ.
    rewrite E. cbn [bind]. unfold add_entry in A. change (dfind (to_dict L) s) with (F_of L s) in A. rewrite (FR s) in A by (left; auto).
    rewrite key_eqb_neq in A by auto. destruct A as (Nr & Rr & D). replace (r =? SIZE_MAX) with false by lia.
    assert (FE: forall cs, F_of L1 cs = match F_of L cs with Some p => Some p | None => if key_eqb cs s then Some (r, code) else None end).
    { intros cs. unfold F_of. rewrite D, dfind_app. cbn [dfind]. destruct (key_eq_dec cs s) as [->|Q].
      - rewrite !key_eqb_refl. reflexivity.
      - rewrite (key_eqb_neq cs s) by auto. rewrite (key_eqb_neq s cs) by auto. reflexivity. }
    destruct (IH G3 m1 L1 (n + 1000) I1) as (m2 & L2 & E2 & I2 & S2 & F2); auto; try lia.
    { intros s' Hs'. rewrite FE, (FR s') by (right; auto). rewrite key_eqb_neq; auto. intros ->. contradiction. }
    exists m2, L2. split; auto. split; auto. split; [lia|]. intros cs. rewrite F2, FE. destruct (F_of L cs); auto.
    destruct (key_eqb cs s) eqn:Q; cbn [orb]; auto.
Qed.

Lemma kw_add_ok e l : mem_always e -> Forall (fun p => Forall (fun s => Forall good_symbol s /\ s <> []) (snd p) /\ fst p <> ITEM_MAX /\ Forall (fun s => zlen s < 200) (snd p) /\ zlen (snd p) < 10) l ->
  forall m L n, minv m L -> m_ksize m <= n -> 0 <= n -> n + 10000 * zlen l < 2 ^ 40 ->
  NoDup (kw_names l) -> (forall s, In s (kw_names l) -> F_of L s = None) ->
  exists m' L', kw_add e m l = Some m' /\ minv m' L' /\ m_ksize m' <= n + 10000 * zlen l /\
    forall cs, option_map snd (F_of L' cs) = match F_of L cs with Some p => Some (snd p) | None => kwfind l cs end.
Proof.
  intros M G. induction l as [|[code ss] l IH]; intros m L n I B N0 B2 ND FR; cbn [kw_add kwfind].
  - exists m, L. split; auto. split; auto. split; [pose proof (zlen_nonneg (@nil (Z * list (list Z)))); lia|]. intros cs. destruct (F_of L cs) as [[? ?]|]; auto.
  - inversion G as [|? ? (G1 & G2 & G4 & G5) G3]; subst. cbn [fst snd] in *. rewrite zlen_cons in *. pose proof (zlen_nonneg l). pose proof (zlen_nonneg ss).
    cbn [kw_names flat_map snd] in ND, FR. fold (kw_names l) in ND, FR.
    assert (ND1: NoDup ss /\ NoDup (kw_names l) /\ forall s, In s ss -> ~ In s (kw_names l)).
    { clear - ND. induction ss as [|s ss IHs]; cbn [app] in ND; [split; [constructor|split; auto]|]. inversion ND; subst. destruct IHs as (A & B & C); auto.
      split; [constructor; auto; intros X; apply H1; apply in_or_app; auto|]. split; auto. intros s' [->|X]; auto. intros Y. apply H1. apply in_or_app; auto. }
    destruct ND1 as (ND1 & ND2 & ND3).
    destruct (kw_spellings_ok e code ss M G1 G2 m L n I B N0 ltac:(lia) G4 ND1) as (m1 & L1 & E1 & I1 & S1 & F1). { intros s Hs. apply FR. apply in_or_app; auto. }
    rewrite E1. cbn [bind].
    destruct (IH G3 m1 L1 (n + 1000 * zlen ss) I1) as (m2 & L2 & E2 & I2 & S2 & F2); auto; try lia.
    { intros s Hs. specialize (F1 s). rewrite FR in F1 by (apply in_or_app; auto). destruct (existsb (key_eqb s) ss) eqn:X.
      - apply existsb_exists in X as (s' & X1 & X2). apply key_eqb_eq in X2. subst s'. exfalso. eapply ND3; eauto.
      - destruct (F_of L1 s); [discriminate|auto]. }
    exists m2, L2. split; auto. split; auto. split; [lia|]. intros cs. rewrite F2. specialize (F1 cs). destruct (F_of L1 cs) as [p|]; cbn [option_map] in F1.
    + rewrite F1. destruct (F_of L cs); auto. destruct (existsb (key_eqb cs) ss); [auto|discriminate].
    + destruct (F_of L cs); [discriminate|]. destruct (existsb (key_eqb cs) ss); [discriminate|auto].
Qed.

Definition good_symbolb (c : Z) : bool := (0 <? c) && (c <? 2048).
Definition nodupb (l : list (list Z)) : bool :=
  (fix go l := match l with [] => true | s :: l => negb (existsb (key_eqb s) l) && go l end) l.
Lemma nodupb_ok l : nodupb l = true -> NoDup l.
Proof.
  induction l as [|s l IH]; [constructor|]. cbn. intros X. apply andb_prop in X as [X1 X2]. constructor; auto.
  intros Hs. assert (existsb (key_eqb s) l = true) by (apply existsb_exists; exists s; split; auto; apply key_eqb_refl). rewrite H in X1. discriminate.
Qed.
Lemma keywords_ok : Forall (fun p => Forall (fun s => Forall good_symbol s /\ s <> []) (snd p) /\ fst p <> ITEM_MAX /\ Forall (fun s => zlen s < 200) (snd p) /\ zlen (snd p) < 10) keywords.
Proof.
  assert (X: forallb (fun p => forallb (fun s => forallb good_symbolb s && negb (key_eqb s []) && (zlen s <? 200)) (snd p) && (fst p <? 100) && (zlen (snd p) <? 10)) keywords = true) by (vm_compute; reflexivity).
  rewrite forallb_forall in X. apply Forall_forall. intros p Hp. specialize (X p Hp). apply andb_prop in X as [X X3]. apply andb_prop in X as [X X2].
  rewrite forallb_forall in X. split; [|split; [unfold ITEM_MAX, LLONG_MAX, two63; lia|split; [|lia]]]; apply Forall_forall; intros s Hs; specialize (X s Hs);
    apply andb_prop in X as [X X4]; apply andb_prop in X as [X X5]; [|lia].
  rewrite forallb_forall in X. split; [|intros ->; discriminate]. apply Forall_forall. intros c Hc. specialize (X c Hc). unfold good_symbolb in X. unfold good_symbol. lia.
Qed.

Lemma pcreate_ok room e : 0 <= room < 2 ^ 50 -> mem_always e -> exists st, storage_create_for room e = Some st /\ pinv st (fun _ => None).
Proof.
  intros RM M. unfold storage_create_for.
  destruct (kw_add_ok e keywords M keywords_ok (map_create e room) [] 0 (create_ok e room RM)) as (m & L & E & I & SZ & FE).
  - vm_compute. discriminate.
  - lia.
  - vm_compute. reflexivity.
  - apply nodupb_ok. vm_compute. reflexivity.
  - reflexivity.
  - rewrite E. cbn [bind]. eexists. split; [reflexivity|]. constructor. cbn [st_as st_hs st_vec]. exists L, [], hempty, []. split; auto.
    split; [apply create_inv|]. split; [apply StringsProofs.create_ok; auto|].
    assert (KS: m_ksize m < 2 ^ 56). { change (zlen keywords) with 16 in SZ. lia. }
    cbn [F_of to_dict map dfind] in FE. change (F_of [] ) with (fun _ : list Z => @None (Z * Z)) in FE. cbn beta iota in FE.
    split.
    + intros cs. specialize (FE cs). fold kwcode in FE. destruct (kwcode cs) as [c|].
      * split; auto. destruct (F_of L cs) as [[k v]|]; [|discriminate]. cbn in FE. injection FE as ->. exists k. split; auto.
      * intros k v X. rewrite X in FE. discriminate.
    + intros k r X. unfold hempty in X. discriminate.
    + intros k k' i i' a b b' X. unfold hempty in X. discriminate.
    + intros cs cs' k v v'. apply (F_of_inj m); auto.
    + intros cs k v. apply (F_of_range m); auto.
Qed.

Lemma preach_inv st S : preach st S -> pinv st S.
Proof.
  induction 1 as [room e st RM M E|e st S op r st' S' M RCH IH Lg Room E Sp].
  - destruct (pcreate_ok room e RM M) as (st' & E' & I). rewrite E in E'. injection E' as <-. auto.
  - destruct (pexec_ok e st S op M IH Lg Room) as (r1 & st1 & S1 & E1 & Sp1 & I1). rewrite E in E1. injection E1 as <- <-.
    eapply pinv_ext; [exact I1|]. apply (pspec_unique e st S op r S1 S'); auto.
Qed.

Lemma storage_full e st S op : mem_always e -> preach st S -> plegal S op -> proom st op ->
  exists r st' S', pexec e st op = Some (r, st') /\ pspec S op r S' /\ preach st' S'.
Proof.
  intros M RCH Lg Room. destruct (pexec_ok e st S op M (preach_inv _ _ RCH) Lg Room) as (r & st' & S' & E & Sp & I).
  exists r, st', S'. split; auto. split; auto. eapply pr_step; eauto.
Qed.

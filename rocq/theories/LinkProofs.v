(** Proofs for C36. *)
From Verif Require Import Prelude LVec TypesModel TypesSpec LexModel ParseModel InstrModel BuildModel CodeModel LinkSpec.

Lemma known_in l k v : known l k = Some v -> In (k, v) l.
Proof. induction l as [|[x y] l IH]; cbn; [discriminate|]. destruct (x =? k) eqn:E; [intros [= ->]; left; f_equal; lia|auto]. Qed.
Lemma known_not l k : known l k = None -> forall v, ~ In (k, v) l.
Proof. induction l as [|[x y] l IH]; cbn; [auto|]. destruct (x =? k) eqn:E; [discriminate|]. intros H v [Q|Q]; [injection Q; lia|exact (IH H v Q)]. Qed.
Lemma known_nodup l k v : NoDup (map fst l) -> In (k, v) l -> known l k = Some v.
Proof.
  induction l as [|[x y] l IH]; cbn; [intros _ []|]. intros N. inversion N as [|? ? A B]; subst. intros [Q|Q].
  - injection Q; intros; subst. rewrite Z.eqb_refl. reflexivity.
  - destruct (x =? k) eqn:E; [|auto]. exfalso. apply A. replace x with k by lia. change k with (fst (k, v)). apply in_map, Q.
Qed.

(** The pending calls of a function, newest first, and the chain through them. *)
Definition sites (f : Z) (l : list (Z * Z)) : list Z := map fst (filter (fun p => snd p =? f) l).
Fixpoint path (m : list Z) (a : Z) (ps : list Z) : Prop :=
  match ps with [] => a = 0 | p :: ps => a = p /\ exists w, znth m p = Some w /\ path m w ps end.

Lemma sites_in f l p : In p (sites f l) <-> In (p, f) l.
Proof.
  unfold sites. rewrite in_map_iff. split.
  - intros ([a g] & <- & I). apply filter_In in I. destruct I as [I E]. cbn in *. replace f with g by lia. exact I.
  - intros I. exists (p, f). split; [reflexivity|]. apply filter_In. cbn. rewrite Z.eqb_refl. auto.
Qed.
Lemma sites_nodup f l : NoDup (map fst l) -> NoDup (sites f l).
Proof.
  unfold sites. induction l as [|[a g] l IH]; cbn; [constructor|]. intros N. inversion N as [|? ? A B]; subst. destruct (g =? f); cbn; [|auto].
  constructor; [|auto]. intros I. apply A. apply in_map_iff in I. destruct I as (x & E & I). apply filter_In in I. rewrite <- E. apply in_map, I.
Qed.
Lemma path_same m m' ps : forall a, (forall p, In p ps -> znth m' p = znth m p) -> path m a ps -> path m' a ps.
Proof.
  induction ps as [|p ps IH]; intros a H P; [exact P|]. destruct P as (-> & w & W & P). split; [reflexivity|]. exists w.
  split; [rewrite H by (left; reflexivity); exact W|]. apply IH; [intros q I; apply H; right; exact I|exact P].
Qed.

Lemma znth_set l i x j : 0 <= i < zlen l -> znth (lv_set l i x) j = if j =? i then Some x else znth l j.
Proof.
  intros H. unfold lv_set. destruct (j =? i) eqn:E.
  - replace j with i by lia. apply znth_zupd_same; lia.
  - apply znth_zupd_other; lia.
Qed.

Lemma follow ps : forall fuel m a v, path m a ps -> NoDup ps -> (forall p, In p ps -> 0 < p < zlen m) -> (length ps <= fuel)%nat ->
  exists m', patch_chain fuel m a 0 v = Some m' /\ zlen m' = zlen m
             /\ (forall j, znth m' j = if existsb (fun p => p =? j) ps then Some v else znth m j).
Proof.
  induction ps as [|p ps IH]; intros fuel m a v P N R L.
  - cbn in P. subst a. exists m. split; [destruct fuel; reflexivity|]. split; reflexivity.
  - destruct P as (-> & w & W & P). inversion N as [|? ? A B]; subst. pose proof (R p (or_introl eq_refl)) as Rp.
    destruct fuel as [|fuel]; [cbn in L; lia|]. cbn [patch_chain]. replace (p =? 0) with false by lia. rewrite (lv_get_in _ _ _ W).
    destruct (IH fuel (lv_set m p v) w v) as (m' & F & Z' & H).
    + apply (path_same m); [|exact P]. intros q I. rewrite znth_set by lia. destruct (q =? p) eqn:E; [|reflexivity]. exfalso. apply A. replace p with q by lia. exact I.
    + exact B.
    + intros q I. rewrite zlen_lv_set. apply R. right. exact I.
    + cbn in L. lia.
    + exists m'. split; [exact F|]. split; [rewrite Z', zlen_lv_set; reflexivity|]. intros j. rewrite H. cbn [existsb]. rewrite znth_set by lia.
      destruct (existsb (fun p0 => p0 =? j) ps) eqn:X; [rewrite orb_true_r; reflexivity|]. rewrite orb_false_r, (Z.eqb_sym p j). reflexivity.
Qed.
Lemma bounded_length (n : nat) ps : NoDup ps -> (forall p, In p ps -> 0 < p < Z.of_nat n) -> (length ps <= n)%nat.
Proof.
  intros N H. rewrite <- (seq_length n 0), <- (map_length Z.of_nat (seq 0 n)). apply NoDup_incl_length; [exact N|].
  intros p I. specialize (H p I). apply in_map_iff. exists (Z.to_nat p). split; [lia|]. apply in_seq. lia.
Qed.

Section Link.
Variable c : ctx.
Variable size : Z.

Record good (e : enc) (l : account) : Prop := {
  g_size : zlen (e_displs e) = size;
  g_long : zlen (e_mem e) = zlen (text l);
  g_pos : 0 < zlen (text l);
  g_table : e_funcs e = table l;
  g_first : 0 < zlen (table l);
  g_params : e_params e = params l;
  g_sites : NoDup (map fst (pending l));
  g_inside : forall p f, In (p, f) (pending l) -> 0 < p < zlen (text l);
  g_numbers : forall id n, known (numbers l) id = Some n -> displacements_get e id = n /\ 0 < n < zlen (table l);
  g_pending : forall f, 0 <= f < size -> known (numbers l) f = None -> known (defined l) f = None ->
              displacements_get e f <= 0 /\ path (e_mem e) (- displacements_get e f) (sites f (pending l));
  g_linked : forall f id p, known (defined l) f = Some id -> In (p, f) (pending l) -> exists n, known (numbers l) id = Some n /\ znth (e_mem e) p = Some n;
  g_defined : forall f id, known (defined l) f = Some id -> known (numbers l) id <> None;
  g_exclusive : forall p f, In (p, f) (pending l) -> known (numbers l) f = None;
  g_words : forall a, known (pending l) a = None -> znth (e_mem e) a = znth (text l) a
}.

Lemma zlen_one (v : Z) : zlen [v] = 1.
Proof. reflexivity. Qed.
Lemma znth_snoc (l : list Z) v a : znth (l ++ [v]) a = if a =? zlen l then Some v else znth l a.
Proof.
  destruct (a =? zlen l) eqn:E.
  - rewrite znth_app2 by lia. replace (a - zlen l) with 0 by lia. reflexivity.
  - destruct (Z_lt_le_dec a (zlen l)) as [L|L]; [apply znth_app1; lia|]. rewrite znth_app2 by lia.
    transitivity (@None Z).
    + apply znth_None. rewrite zlen_one. lia.
    + symmetry. apply znth_None. lia.
Qed.
Lemma pending_inside l a : (forall p f, In (p, f) (pending l) -> 0 < p < zlen (text l)) -> known (pending l) a <> None -> 0 < a < zlen (text l).
Proof. intros H N. destruct (known (pending l) a) as [f|] eqn:E; [|congruence]. apply (H a f). apply known_in, E. Qed.

Lemma step_word e l v : good e l -> good (mem_add e v) (note c size l (AWord v)).
Proof.
  intros [A B P T F1 Q S I N G K D X W]. constructor; cbn -[zlen known]; auto; try (rewrite !zlen_app, ?zlen_cons, ?zlen_nil; cbn; lia).
  - unfold lv_add. rewrite !zlen_app, B. reflexivity.
  - rewrite zlen_app. pose proof (zlen_nonneg [v]). lia.
  - intros p f H. rewrite zlen_app. pose proof (zlen_nonneg [v]). specialize (I p f H). lia.
  - intros f Rf H1 H2. destruct (G f Rf H1 H2) as [G1 G2]. split; [exact G1|]. eapply path_same; [|exact G2]. intros p Ip. unfold lv_add. rewrite znth_snoc.
    apply sites_in, I in Ip. replace (p =? zlen (e_mem e)) with false by lia. reflexivity.
  - intros f id p H1 H2. destruct (K f id p H1 H2) as (n & K1 & K2). exists n. split; [exact K1|]. unfold lv_add. rewrite znth_snoc. specialize (I p f H2).
    replace (p =? zlen (e_mem e)) with false by lia. exact K2.
  - intros a H. unfold lv_add. rewrite !znth_snoc, B, (W a H). reflexivity.
Qed.
Lemma step_set e l a v : good e l -> known (pending l) a = None -> good (mem_set e a v) (note c size l (ASet a v)).
Proof.
  intros [A B P T F1 Q S I N G K D X W] O.
  assert (Z1 : forall l : list Z, zlen (zupd l a v) = zlen l) by (intros; apply (zlen_lv_set _ a v)).
  assert (Z2 : forall p f, In (p, f) (pending l) -> znth (lv_set (e_mem e) a v) p = znth (e_mem e) p).
  { intros p f H. apply znth_zupd_other. intros <-. exact (known_not _ _ O f H). }
  constructor; cbn -[zlen known]; auto.
  - rewrite zlen_lv_set, Z1. exact B.
  - rewrite Z1. exact P.
  - intros p f H. rewrite Z1. eauto.
  - intros f Rf H1 H2. destruct (G f Rf H1 H2) as [G1 G2]. split; [exact G1|]. eapply path_same; [|exact G2]. intros p Ip. apply (Z2 p f), sites_in, Ip.
  - intros f id p H1 H2. destruct (K f id p H1 H2) as (n & K1 & K2). exists n. rewrite (Z2 p f H2). auto.
  - intros b H. unfold lv_set. destruct (Z_lt_le_dec a 0) as [L|L]; [unfold zupd; replace (a <? 0) with true by lia; cbn [orb]; auto|].
    destruct (Z_lt_le_dec a (zlen (text l))) as [L'|L'].
    + fold (lv_set (e_mem e) a v). fold (lv_set (text l) a v). rewrite !znth_set by lia. rewrite (W b H). reflexivity.
    + unfold zupd. rewrite B. replace (zlen (text l) <=? a) with true by lia. rewrite orb_true_r. auto.
Qed.
Lemma step_params e l p : good e l -> good (set_params e p) (note c size l (AParams p)).
Proof. intros [A B P T F1 Q S I N G K D X W]. constructor; cbn -[zlen known]; auto. Qed.

Lemma step_call e l f : good e l -> proper c size l (ACall f) = true -> good (act c e (ACall f)) (note c size l (ACall f)).
Proof.
  intros Gd O. cbn [proper] in O. apply andb_prop in O. destruct O as [O Op]. apply andb_prop in O. destruct O as [O Od].
  assert (Rf : 0 <= f < size) by lia. destruct (known (defined l) f) as [?|] eqn:Df; [discriminate|]. clear O Od. apply negb_true_iff in Op.
  cbn [act note]. unfold functions_get. rewrite (g_params _ _ Gd), Op. destruct (known (numbers l) f) as [n|] eqn:Nf.
  - destruct (g_numbers _ _ Gd f n Nf) as [Dn Pn]. rewrite Dn. replace (n <=? 0) with false by lia. rewrite Z.abs_eq by lia. apply (step_word e l n Gd).
  - destruct Gd as [A B P T F1 Q S I N G K D X W]. destruct (G f Rf Nf Df) as [Le Pa]. replace (displacements_get e f <=? 0) with true by lia. rewrite Z.abs_neq by lia.
    set (q := zlen (text l)) in *. assert (Mq : mem_size e = q) by exact B.
    assert (Fresh : known (pending l) q = None). { destruct (known (pending l) q) eqn:E; [|reflexivity]. apply known_in, I in E. lia. }
    assert (Dis : forall g, g <> f -> displacements_get (mem_add (set_displs e (lv_set (e_displs e) f (- mem_size e))) (- displacements_get e f)) g = displacements_get e g).
    { intros g Ng. unfold displacements_get. cbn. apply lv_get_set_other. congruence. }
    assert (Df' : displacements_get (mem_add (set_displs e (lv_set (e_displs e) f (- mem_size e))) (- displacements_get e f)) f = - q).
    { unfold displacements_get. cbn. rewrite lv_get_set_same by lia. lia. }
    assert (Old : forall p, p < q -> znth (e_mem e ++ [- displacements_get e f]) p = znth (e_mem e) p).
    { intros p Hp. rewrite znth_snoc. replace (p =? zlen (e_mem e)) with false by lia. reflexivity. }
    set (e' := mem_add _ _) in *.
    constructor.
    + cbn. rewrite zlen_lv_set. exact A.
    + cbn -[zlen]. unfold lv_add. rewrite !zlen_app, B. reflexivity.
    + cbn -[zlen]. rewrite zlen_app. pose proof (zlen_nonneg [0]). lia.
    + exact T.
    + exact F1.
    + exact Q.
    + cbn. constructor; [|exact S]. intros H. apply in_map_iff in H. destruct H as ([p g] & E & H). cbn in E. subst p. apply I in H. fold q in H. lia.
    + cbn -[zlen In]. intros p g [H|H]; rewrite zlen_app, zlen_one; fold q; [injection H; intros; subst; lia|]. specialize (I p g H). lia.
    + cbn [note numbers table]. intros id n H. rewrite Dis; [auto|]. intros ->. congruence.
    + intros g Rg H1 H2. cbn [pending] in *. change (numbers _) with (numbers l) in H1. change (defined _) with (defined l) in H2. unfold sites. cbn [filter map snd].
      destruct (f =? g) eqn:E.
      * replace g with f by lia. rewrite Df'. split; [lia|]. cbn [map fst]. cbn [path]. split; [lia|]. exists (- displacements_get e f).
        split; [cbn; unfold lv_add; rewrite znth_snoc, B, Z.eqb_refl; reflexivity|].
        eapply path_same; [|exact Pa]. intros p Ip. cbn. unfold lv_add. apply Old. apply sites_in, I in Ip. lia.
      * rewrite Dis by lia. destruct (G g Rg H1 H2) as [G1 G2]. split; [exact G1|]. eapply path_same; [|exact G2]. intros p Ip. cbn. unfold lv_add. apply Old.
        apply sites_in, I in Ip. lia.
    + cbn [pending defined numbers]. intros g id p H1 [H|H]; [injection H; intros; subst; congruence|]. destruct (K g id p H1 H) as (n & K1 & K2). exists n. split; [exact K1|].
      cbn. unfold lv_add. rewrite Old; [exact K2|]. specialize (I p g H). lia.
    + exact D.
    + cbn [pending numbers]. intros p g [H|H]; [injection H; intros; subst; exact Nf|eauto].
    + cbn [pending text known fst snd]. intros a. fold q. destruct (q =? a) eqn:E; [discriminate|]. intros H. cbn. unfold lv_add. rewrite !znth_snoc, B. fold q. rewrite (W a H). replace (a =? q) with false by lia. reflexivity.
Qed.

Lemma step_define e l id : good e l -> proper c size l (ADefine id) = true ->
  good (act c e (ADefine id)) (note c size l (ADefine id)) /\ e_hung (act c e (ADefine id)) = e_hung e.
Proof.
  intros [A B P T F1 Q S I N G K D X W] O. cbn [proper] in O.
  apply andb_prop in O. destruct O as [O O5]. apply andb_prop in O. destruct O as [O O4]. apply andb_prop in O. destruct O as [O O3]. apply andb_prop in O. destruct O as [O1 O2].
  assert (R : 0 <= id < size) by lia. clear O1. destruct (known (numbers l) id) eqn:Ni; [discriminate|]. destruct (known (defined l) id) eqn:Di; [discriminate|]. clear O2 O3.
  apply negb_true_iff in O4. assert (Never : forall p, ~ In (p, id) (pending l)).
  { intros p H. assert (E : existsb (fun p => snd p =? id) (pending l) = true) by (apply existsb_exists; exists (p, id); cbn; split; [exact H|lia]). congruence. }
  set (f := c_prev c id) in *. set (n := zlen (table l)) in *.
  set (e1 := set_displs (set_funcs e (lv_add (e_funcs e) (mem_size e))) (lv_set (e_displs e) id n)).
  assert (D1 : forall g, displacements_get e1 g = if g =? id then n else displacements_get e g).
  { intros g. unfold displacements_get, e1. cbn. destruct (g =? id) eqn:E; [replace g with id by lia; apply lv_get_set_same; lia|apply lv_get_set_other; lia]. }
  assert (U : act c e (ADefine id) = if displacements_get e1 f <? 0 then patched e1 (- displacements_get e1 f) 0 n else e1).
  { cbn [act]. unfold functions_add. rewrite T. fold n. unfold e1, f. rewrite T. reflexivity. }
  assert (KN : forall g, known (numbers (note c size l (ADefine id))) g = if id =? g then Some n else known (numbers l) g) by reflexivity.
  assert (Common : forall m', zlen m' = zlen (e_mem e) ->
    (forall g, 0 <= g < size -> known (defined (note c size l (ADefine id))) g = None -> g <> id -> forall p, In (p, g) (pending l) -> znth m' p = znth (e_mem e) p) ->
    (forall g i p, known (defined l) g = Some i -> In (p, g) (pending l) -> znth m' p = znth (e_mem e) p) ->
    (0 <= f < size -> forall p, In (p, f) (pending l) -> znth m' p = Some n) ->
    (forall a, known (pending l) a = None -> znth m' a = znth (e_mem e) a) ->
    good (set_mem e1 m') (note c size l (ADefine id))).
  { intros m' Lm H1 H2 H3 H4. constructor.
    - cbn. rewrite zlen_lv_set. exact A.
    - cbn -[zlen]. rewrite Lm. exact B.
    - exact P.
    - cbn -[zlen]. unfold lv_add. rewrite T. f_equal. f_equal. exact B.
    - cbn -[zlen]. rewrite zlen_app. pose proof (zlen_nonneg [zlen (text l)]). lia.
    - exact Q.
    - exact S.
    - exact I.
    - intros g k. rewrite KN. change (displacements_get (set_mem e1 m') g) with (displacements_get e1 g). rewrite D1.
      cbn [note table]. rewrite zlen_app, zlen_one. fold n. destruct (id =? g) eqn:E.
      + intros [= <-]. replace (g =? id) with true by lia. split; [reflexivity|]. unfold n in *. lia.
      + intros H. replace (g =? id) with false by lia. destruct (N g k H). unfold n in *. split; [auto|lia].
    - intros g Rg. rewrite KN. change (displacements_get (set_mem e1 m') g) with (displacements_get e1 g). rewrite D1.
      destruct (id =? g) eqn:E; [discriminate|]. intros Hn Hd. replace (g =? id) with false by lia.
      assert (Hd' : known (defined l) g = None). { cbn [note defined] in Hd. destruct (_ && _) in Hd; [|exact Hd]. cbn [known] in Hd. destruct (c_prev c id =? g) in Hd; [discriminate|exact Hd]. }
      destruct (G g Rg Hn Hd') as [G1 G2]. split; [exact G1|]. eapply path_same; [|exact G2]. intros p Ip. apply sites_in in Ip. apply (H1 g Rg Hd ltac:(lia) p Ip).
    - intros g i p Hd Ip. rewrite KN. cbn [note defined pending] in Hd, Ip. fold f in Hd. cbn [e_mem set_mem].
      destruct ((0 <=? f) && (f <? size)) eqn:Rf.
      + cbn [known] in Hd. destruct (f =? g) eqn:E.
        * injection Hd; intros <-. rewrite Z.eqb_refl. exists n. split; [reflexivity|]. apply H3; [lia|]. replace f with g by lia. exact Ip.
        * destruct (K g i p Hd Ip) as (k & K1 & K2). replace (id =? i) with false by (destruct (Z.eqb_spec id i); [subst; congruence|reflexivity]). exists k. rewrite (H2 g i p Hd Ip). auto.
      + destruct (K g i p Hd Ip) as (k & K1 & K2). replace (id =? i) with false by (destruct (Z.eqb_spec id i); [subst; congruence|reflexivity]). exists k. rewrite (H2 g i p Hd Ip). auto.
    - intros g i. rewrite KN. cbn [note defined]. fold f. destruct ((0 <=? f) && (f <? size)); [cbn [known]; destruct (f =? g)|].
      + intros [= <-]. rewrite Z.eqb_refl. discriminate.
      + intros H. destruct (id =? i); [discriminate|eauto].
      + intros H. destruct (id =? i); [discriminate|eauto].
    - intros p g H. rewrite KN. destruct (id =? g) eqn:E; [|eauto]. exfalso. apply (Never p). replace id with g by lia. exact H.
    - intros a H. cbn. rewrite (H4 a H). apply W, H. }
  destruct ((0 <=? f) && (f <? size)) eqn:Rf.
  - cbn [negb orb] in O5. apply andb_prop in O5. destruct O5 as [O5 O7]. apply andb_prop in O5. destruct O5 as [O5 O6].
    assert (Nfi : f <> id) by lia. destruct (known (numbers l) f) eqn:Nf; [discriminate|]. destruct (known (defined l) f) eqn:Df; [discriminate|].
    destruct (G f ltac:(lia) Nf Df) as [G1 G2].
    assert (D1f : displacements_get e1 f = displacements_get e f) by (rewrite D1; replace (f =? id) with false by lia; reflexivity).
    rewrite U, D1f.
    destruct (follow (sites f (pending l)) (length (e_mem e)) (e_mem e) (- displacements_get e f) n G2) as (m' & F & Lm & H).
    + apply sites_nodup, S.
    + intros p Ip. apply sites_in, I in Ip. lia.
    + apply bounded_length; [apply sites_nodup, S|]. intros p Ip. apply sites_in, I in Ip. rewrite <- zlen_unf. lia.
    + assert (Gm : good (set_mem e1 m') (note c size l (ADefine id))).
      { apply Common; [exact Lm| | | |].
        - intros g Rg Hd Ng p Ip. rewrite H. destruct (existsb _ (sites f (pending l))) eqn:E; [|reflexivity]. exfalso. apply existsb_exists in E. destruct E as (x & Ix & Ex).
          replace x with p in Ix by lia. apply sites_in in Ix. assert (g = f).
          { pose proof (known_nodup _ _ _ S Ip). pose proof (known_nodup _ _ _ S Ix). congruence. }
          subst g. cbn [note defined] in Hd. fold f in Hd. rewrite Rf in Hd. cbn [known] in Hd. rewrite Z.eqb_refl in Hd. discriminate.
        - intros g i p Hd Ip. rewrite H. destruct (existsb _ (sites f (pending l))) eqn:E; [|reflexivity]. exfalso. apply existsb_exists in E. destruct E as (x & Ix & Ex).
          replace x with p in Ix by lia. apply sites_in in Ix. assert (g = f).
          { pose proof (known_nodup _ _ _ S Ip). pose proof (known_nodup _ _ _ S Ix). congruence. }
          subst g. congruence.
        - intros _ p Ip. rewrite H. replace (existsb (fun p0 => p0 =? p) (sites f (pending l))) with true; [reflexivity|]. symmetry. apply existsb_exists. exists p. split; [apply sites_in, Ip|lia].
        - intros a Ha. rewrite H. destruct (existsb _ (sites f (pending l))) eqn:E; [|reflexivity]. exfalso. apply existsb_exists in E. destruct E as (x & Ix & Ex).
          replace x with a in Ix by lia. apply sites_in in Ix. exact (known_not _ _ Ha f Ix). }
      destruct (displacements_get e f <? 0) eqn:Neg.
      * unfold patched. change (e_mem e1) with (e_mem e). rewrite F. split; [exact Gm|reflexivity].
      * (* nothing pending *)
        assert (Z0 : displacements_get e f = 0) by lia. rewrite Z0 in F. cbn in F.
        replace (patch_chain (length (e_mem e)) (e_mem e) 0 0 n) with (Some (e_mem e)) in F by (destruct (length (e_mem e)); reflexivity). injection F as <-.
        split; [|reflexivity]. replace e1 with (set_mem e1 (e_mem e)) by reflexivity. exact Gm.
  - assert (Out : displacements_get e1 f = ITEM_MAX).
    { unfold displacements_get. apply lv_get_out. unfold e1. cbn. rewrite zlen_lv_set. lia. }
    rewrite U, Out. change (ITEM_MAX <? 0) with false. cbn iota. split; [|reflexivity]. replace e1 with (set_mem e1 (e_mem e)) by reflexivity. apply Common; auto. lia.
Qed.

Lemma linked xs : forall e l, good e l -> proper_all c size l xs = true ->
  good (fold_left (act c) xs e) (fold_left (note c size) xs l) /\ e_hung (fold_left (act c) xs e) = e_hung e.
Proof.
  induction xs as [|x xs IH]; intros e l G P; cbn [fold_left proper_all] in *; [auto|]. apply andb_prop in P. destruct P as [P Ps].
  assert (G' : good (act c e x) (note c size l x) /\ e_hung (act c e x) = e_hung e).
  { destruct x.
    - split; [apply step_word, G|reflexivity].
    - split; [apply step_set; [exact G|]|reflexivity]. cbn in P. destruct (known (pending l) a); [discriminate|reflexivity].
    - split; [apply step_call; assumption|]. cbn. unfold functions_get. destruct (existsb _ _); [reflexivity|]. destruct (_ <=? 0); reflexivity.
    - apply step_define; assumption.
    - split; [apply step_params, G|reflexivity]. }
  destruct G' as [G' H]. destruct (IH _ _ G' Ps) as [G2 H2]. split; [exact G2|congruence].
Qed.
Lemma good_belongs e l a v : good e l -> belongs l a = Some v -> znth (e_mem e) a = Some v.
Proof.
  intros G. unfold belongs. destruct (known (pending l) a) as [f|] eqn:E.
  - destruct (known (defined l) f) as [id|] eqn:D; cbn [bind]; [|discriminate]. intros H. destruct (g_linked _ _ G f id a D (known_in _ _ _ E)) as (n & K & W). congruence.
  - rewrite (g_words _ _ G a E). auto.
Qed.
End Link.

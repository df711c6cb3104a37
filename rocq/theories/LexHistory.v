(** Histories of calls: the table of words, [peek] and whole texts. *)
From Verif Require Import Prelude Utf8Model Utf8Spec Utf8Proofs UniioModel UniioSpec UniioProofs StringsModel StringsSpec StringsRun MapModel MapSpec MapProofs LexModel LexText LexProofs LexMono LexStep LexWord LexSpec LexFacts LexRun.

(** ** The table of keywords *)
Definition vfind (d : dict) (w : list Z) : option Z := option_map snd (dfind d w).
Lemma value_vfind d w : value_in d w = match vfind d w with Some v => v | None => ITEM_MAX end.
Proof. unfold value_in, vfind. destruct (dfind d w) as [[i v]|]; reflexivity. Qed.

Lemma dfind_snoc d cs r v w : dfind d cs = None -> dfind (d ++ [(cs, r, v)]) w =
  match dfind d w with Some x => Some x | None => if key_eqb cs w then Some (r, v) else None end.
Proof.
  intros N. induction d as [|[[k i] u] d IH]; cbn [app dfind]; auto.
  cbn [dfind] in N. destruct (key_eqb k cs) eqn:K; [discriminate|]. destruct (key_eqb k w); auto.
Qed.

Lemma add_vfind d cs v r d' w : cs <> [] -> add_entry d cs v r d' ->
  vfind d' w = match vfind d w with Some x => Some x | None => if key_eqb cs w then Some v else None end.
Proof.
  intros NE A. unfold add_entry in A. unfold vfind. destruct (dfind d cs) as [[i u]|] eqn:F.
  - destruct A as (_ & ->). destruct (dfind d w) as [[j x]|] eqn:G; auto. cbn [option_map].
    destruct (key_eqb cs w) eqn:K; auto. apply key_eqb_eq in K. subst w. congruence.
  - rewrite key_eqb_neq in A by auto. destruct A as (_ & _ & ->). rewrite dfind_snoc by auto.
    destruct (dfind d w) as [[j x]|]; auto. destruct (key_eqb cs w); reflexivity.
Qed.

Definition spelled (rows : list (list Z * list Z * Z)) : list (list Z * Z) :=
  flat_map (fun '(eng, rus, tk) => [(eng, tk); (map utf8_to_upper eng, tk); (rus, tk); (map utf8_to_upper rus, tk)]) rows.
Fixpoint assoc (l : list (list Z * Z)) (w : list Z) : option Z :=
  match l with [] => None | (k, v) :: l => if key_eqb k w then Some v else assoc l w end.
Definition then_or (a b : option Z) : option Z := match a with Some x => Some x | None => b end.

Definition goodb (c : Z) : bool := ((0 <? c) && (c <? 0x800)) || ((0x1000 <=? c) && (c <? 0x10000)) || ((0x40000 <=? c) && (c <? 0x200000)).
Lemma goodb_ok cs : forallb goodb cs = true -> Forall good_symbol cs.
Proof. intros H. apply Forall_forall. intros c I. rewrite forallb_forall in H. specialize (H c I). unfold goodb, good_symbol in *. lia. Qed.

Definition short_good (x : list Z) : bool := forallb goodb x && negb (zlen x =? 0) && (zlen x <=? 20).

Lemma add_word e m d cs v : mem_always e -> table m d -> short_good cs = true -> m_ksize m < 2 ^ 50 ->
  exists r m' d', map_add e m (KUtf8 cs) v = Some (r, None, m') /\ table m' d' /\ m_ksize m' <= m_ksize m + 96 /\
    forall w, vfind d' w = then_or (vfind d w) (if key_eqb cs w then Some v else None).
Proof.
  intros M (L & I & DL) G B. unfold short_good in G. apply andb_prop in G. destruct G as (G & G3). apply andb_prop in G. destruct G as (G1 & G2).
  assert (K: key_of (KUtf8 cs) cs None) by (constructor; apply goodb_ok; auto).
  destruct (add_ok e m L _ cs None v M I K) as (r & m' & L' & E & I' & A & S). { cbn [src_size]. lia. }
  exists r, m', (to_dict L'). split; auto. split; [exists L'; auto|]. cbn [src_size] in S. split; [lia|].
  intros w. rewrite DL in A. apply (add_vfind d cs v r); auto. intros ->. cbn in G2. rewrite (@zlen_nil Z) in G2. discriminate.
Qed.

Lemma init_ok e rows : forall m d, mem_always e -> table m d -> forallb (fun x => short_good (fst x)) (spelled rows) = true ->
  m_ksize m + 400 * Z.of_nat (List.length rows) < 2 ^ 50 ->
  exists m' d', repr_init e m rows = Some m' /\ table m' d' /\ m_ksize m' <= m_ksize m + 400 * Z.of_nat (List.length rows) /\
    forall w, vfind d' w = then_or (vfind d w) (assoc (spelled rows) w).
Proof.
  induction rows as [|[[eng rus] tk] rows IH]; intros m d M TB G B.
  - exists m, d. split; [reflexivity|]. split; auto. split; [lia|]. intros w. cbn [spelled flat_map assoc]. destruct (vfind d w); reflexivity.
  - cbn [spelled flat_map app forallb fst] in G. fold (spelled rows) in G. cbn [List.length] in B.
    apply andb_prop in G. destruct G as (G1 & G). apply andb_prop in G. destruct G as (G2 & G). apply andb_prop in G. destruct G as (G3 & G). apply andb_prop in G. destruct G as (G4 & G).
    cbn [repr_init]. unfold repr_add_keyword.
    destruct (add_word e m d _ tk M TB G1 ltac:(lia)) as (r1 & m1 & d1 & -> & T1 & S1 & F1). cbn [bind].
    destruct (add_word e m1 d1 _ tk M T1 G2 ltac:(lia)) as (r2 & m2 & d2 & -> & T2 & S2 & F2). cbn [bind].
    destruct (add_word e m2 d2 _ tk M T2 G3 ltac:(lia)) as (r3 & m3 & d3 & -> & T3 & S3 & F3). cbn [bind].
    destruct (add_word e m3 d3 _ tk M T3 G4 ltac:(lia)) as (r4 & m4 & d4 & -> & T4 & S4 & F4). cbn [bind].
    destruct (IH m4 d4 M T4 G ltac:(lia)) as (m' & d' & -> & T' & S' & F').
    exists m', d'. split; auto. split; auto. split; [cbn [List.length]; lia|].
    intros w. rewrite F', F4, F3, F2, F1. cbn [spelled flat_map app assoc]. fold (spelled rows).
    destruct (vfind d w); [reflexivity|]. cbn [then_or]. destruct (key_eqb eng w); [reflexivity|]. cbn [then_or].
    destruct (key_eqb (map utf8_to_upper eng) w); [reflexivity|]. cbn [then_or]. destruct (key_eqb rus w); [reflexivity|]. cbn [then_or].
    destruct (key_eqb (map utf8_to_upper rus) w); reflexivity.
Qed.

(** Keywords of the specification. *)
Definition spec_spelled : list (list Z * Z) :=
  flat_map (fun '(eng, rus, tk) => [(eng, tk); (map capital eng, tk); (rus, tk); (map capital rus, tk)]) keyword_list.
Lemma keyword_In w k : keyword w k <-> In (w, k) spec_spelled.
Proof.
  unfold keyword, spec_spelled. rewrite in_flat_map. split.
  - intros (eng & rus & I & W). exists (eng, rus, k). split; auto. cbn [In].
    destruct W as [-> | [-> | [-> | ->]]]; tauto.
  - intros ([[eng rus] tk] & I & W). cbn [In] in W. exists eng, rus.
    destruct W as [W | [W | [W | [W | []]]]]; inversion W; subst; split; auto.
Qed.

Definition kwinv (d : dict) : Prop :=
  (forall w k, keyword w k -> value_in d w = k) /\ (forall w, (forall k, ~ keyword w k) -> 0 <= value_in d w).

Lemma assoc_In l w v : assoc l w = Some v -> In (w, v) l.
Proof.
  induction l as [|[k x] l IH]; cbn [assoc]; [discriminate|]. destruct (key_eqb k w) eqn:K; [|right; auto].
  intros E. apply key_eqb_eq in K. inversion E; subst. left; auto.
Qed.

Definition is_some (o : option Z) (k : Z) : bool := match o with Some x => x =? k | None => false end.
Lemma rows_keywords w k : keyword w k -> assoc (spelled keyword_rows) w = Some k /\ k < 0 /\ k <> TK_EOF.
Proof.
  rewrite keyword_In. intros I.
  assert (A: forallb (fun x => is_some (assoc (spelled keyword_rows) (fst x)) (snd x) && (snd x <? 0) && negb (snd x =? TK_EOF)) spec_spelled = true) by (vm_compute; reflexivity).
  rewrite forallb_forall in A. specialize (A _ I). cbn [fst snd] in A.
  apply andb_prop in A. destruct A as (A & A3). apply andb_prop in A. destruct A as (A1 & A2).
  destruct (assoc (spelled keyword_rows) w) as [x|]; [|discriminate]. cbn [is_some] in A1. split; [f_equal; lia|lia].
Qed.
Lemma rows_others w v : assoc (spelled keyword_rows) w = Some v -> v = 0 \/ keyword w v.
Proof.
  intros E. apply assoc_In in E.
  assert (A: forallb (fun x => (snd x =? 0) || pair_in x spec_spelled) (spelled keyword_rows) = true) by (vm_compute; reflexivity).
  rewrite forallb_forall in A. specialize (A _ E). cbn [snd] in A. apply orb_prop in A. destruct A as [A|A]; [left; lia|right].
  apply keyword_In. apply pair_in_ok. exact A.
Qed.

Lemma item_max_pos : 0 <= ITEM_MAX. Proof. vm_compute. discriminate. Qed.

Lemma ksize_create e n : m_ksize (map_create e n) = 0. Proof. reflexivity. Qed.
Lemma rows_length : 400 * Z.of_nat (List.length keyword_rows) = 12000. Proof. vm_compute. reflexivity. Qed.
Lemma rows_good : forallb (fun x => short_good (fst x)) (spelled keyword_rows) = true. Proof. vm_compute. reflexivity. Qed.

Lemma start_table e n : mem_always e -> 0 <= n < 2 ^ 50 -> exists m d, repr_init e (map_create e n) keyword_rows = Some m /\ table m d /\ m_ksize m <= 12000 /\
  forall w, vfind d w = assoc (spelled keyword_rows) w.
Proof.
  intros M N. destruct (init_ok e keyword_rows (map_create e n) [] M) as (m & d & E & TB & S & F).
  - exists []. split; [apply create_ok; lia|reflexivity].
  - apply rows_good.
  - rewrite ksize_create, rows_length. lia.
  - rewrite ksize_create, rows_length in S. exists m, d. auto.
Qed.

Lemma assoc_kwinv d : (forall w, vfind d w = assoc (spelled keyword_rows) w) -> kwinv d.
Proof.
  intros F. split.
  - intros w k K. rewrite value_vfind, F. rewrite (proj1 (rows_keywords w k K)). reflexivity.
  - intros w N. rewrite value_vfind, F. destruct (assoc (spelled keyword_rows) w) as [v|] eqn:A; [|apply item_max_pos].
    destruct (rows_others w v A) as [-> |K]; [lia|]. exfalso. eapply N; eauto.
Qed.

Lemma create_total e : mem_always e -> exists m d, repr_create e = Some m /\ table m d /\ kwinv d /\ m_ksize m <= 12000.
Proof.
  intros M. destruct (start_table e 10000 M ltac:(lia)) as (m & d & E & TB & S & F). exists m, d. split; [exact E|]. split; auto. split; auto. apply assoc_kwinv; auto.
Qed.
Lemma create_table e m : mem_always e -> repr_create e = Some m -> exists d, table m d /\ kwinv d /\ m_ksize m <= 12000.
Proof. intros M E. destruct (create_total e M) as (m' & d & E' & Q). rewrite E in E'. inversion E'; subst. exists d. exact Q. Qed.

(** ** The invariant *)
Definition good (T : list Z) (l : lexer) (r : list Z) (d : dict) : Prop :=
  sfx r T /\ l = put (base_of l) T r /\ table (l_map l) d /\ kwinv d.
(** Words keep their places. *)
Definition grows (d d' : dict) : Prop := forall i k v, dat d i = Some (k, v) -> exists v', dat d' i = Some (k, v').
Lemma grows_refl d : grows d d. Proof. intros i k v H. eauto. Qed.
Lemma grows_trans a b c : grows a b -> grows b c -> grows a c.
Proof. intros X Y i k v H. destruct (X i k v H) as (v' & H'). eauto. Qed.
Lemma grows_add d w v i d' : add_entry d w v i d' -> grows d d'.
Proof.
  unfold add_entry. destruct (dfind d w) as [[j u]|]; [intros (_ & ->); apply grows_refl|].
  destruct (key_eqb w []); [intros (_ & ->); apply grows_refl|]. intros (_ & _ & ->) j k u H. exists u.
  induction d as [|[[k' j'] u'] d IH]; [discriminate|]. cbn [app dat] in *. destruct (j' =? j); auto.
Qed.
Lemma grows_set d i v : grows d (dset d i v).
Proof.
  intros j k u. induction d as [|[[k' j'] u'] d IH]; [discriminate|]. cbn [dset map dat]. fold (dset d i v). destruct (j' =? j) eqn:Q.
  - intros E. inversion E; subst. eauto.
  - exact IH.
Qed.

Lemma reserve_value d w i d' x : w <> [] -> add_entry d w ITEM_MAX i d' -> value_in d' x = value_in d x.
Proof.
  intros NE A. rewrite !value_vfind, (add_vfind d w ITEM_MAX i d' x NE A). destruct (vfind d x); auto. destruct (key_eqb w x); auto.
Qed.

Lemma kwinv_ext d d' : (forall x, value_in d' x = value_in d x) -> kwinv d -> kwinv d'.
Proof. intros E (A & B). split; intros; rewrite E; auto. Qed.

Lemma l_lex_ext e d d' : (forall x, value_in d' x = value_in d x) -> forall n r, l_lex e n d' r = l_lex e n d r.
Proof.
  intros E. induction n as [|n IH]; intros r; auto. cbn [l_lex]. destruct (l_switch e (l_blanks r)); auto.
  - rewrite E. destruct (value_in d w =? TK_LINE); auto.
  - rewrite IH. reflexivity.
Qed.

Lemma l_lex_progress e d : forall n r x, l_lex e n d r = Some x ->
  let '(r1, _, s) := x in sfx r1 r /\ (s = OEof /\ r1 = [] \/ s <> OEof /\ s = l_switch e r1 /\ r1 <> [] /\ sfx (rest_of s) r1 /\ (List.length (rest_of s) < List.length r1)%nat
     /\ match s with OSkip _ _ | OHang => False | _ => True end).
Proof.
  induction n as [|n IH]; intros r x E; [discriminate|]. cbn [l_lex] in E.
  assert (S0 := sfx_drop is_blank r). fold (l_blanks r) in S0. set (r1 := l_blanks r) in *. clearbody r1.
  destruct r1 as [|c r1].
  - cbn [l_switch] in E. inversion E; subst. split; auto.
  - assert (SM := switch_moves e c r1). assert (ST := sfx_trans _ _ _ SM (sfx_tail c r1)). assert (SL := sfx_len _ _ SM).
    destruct (l_switch e (c :: r1)) as [|o|s es r'|w r'|es r'|] eqn:W; cbn [rest_of] in SM, ST, SL.
    + exfalso. revert W. unfold l_switch.
      destruct (utf8_is_digit c || ((c =? 46) && starts utf8_is_digit r1)); [destruct (l_number e (c :: r1)); discriminate|].
      destruct (c =? 39); [discriminate|]. destruct (c =? 34); [destruct (l_pieces _ _) as [[[? ?] ?]|]; discriminate|].
      destruct (is_prefix [47; 47] (c :: r1)); [discriminate|].
      destruct (is_prefix [47; 42] (c :: r1)); [destruct (l_block r1); discriminate|].
      destruct (l_punct (c :: r1)) as [[? ?]|]; [discriminate|].
      destruct (utf8_is_letter c || (c =? 35)); discriminate.
    + inversion E; subst. split; auto. right. cbn [rest_of]. repeat split; auto; try discriminate. cbn [List.length]. lia.
    + inversion E; subst. split; auto. right. cbn [rest_of]. repeat split; auto; try discriminate. cbn [List.length]. lia.
    + destruct (value_in d w =? TK_LINE).
      * specialize (IH _ _ E). destruct x as [[r2 es2] s2]. destruct IH as (S1 & IH). split; auto.
        eapply sfx_trans; [exact S1|]. eapply sfx_trans; [apply sfx_drop|]. eapply sfx_trans; [exact ST|exact S0].
      * inversion E; subst. split; auto. right. cbn [rest_of]. repeat split; auto; try discriminate. cbn [List.length]. lia.
    + destruct (l_lex e n d r') as [[[r2 es2] s2]|] eqn:R; [|discriminate]. cbn [bind] in E. inversion E; subst.
      specialize (IH _ _ R). cbn in IH. destruct IH as (S1 & IH). split; auto. eapply sfx_trans; [exact S1|]. eapply sfx_trans; [exact ST|exact S0].
    + discriminate.
Qed.

Lemma put_io b T r : l_io (put b T r) = mkIn (encs T) (pos_of T r). Proof. reflexivity. Qed.

(** What a call does. *)
Definition place (l : lexer) : Z * input := (l_char l, l_io l).

Lemma add_nonempty d w v i d' r0 c : add_entry d w v i d' -> w = c :: r0 -> w <> [].
Proof. intros _ ->. discriminate. Qed.

Lemma finish_facts T b d x t l : Forall code_point T -> kwinv d -> finish T b d x t l ->
  (let '(r1, _, s) := x in sfx (rest_of s) T /\ match s with OWord w _ => w <> [] | _ => True end) ->
  exists d', good T l (rest_of (snd x)) d' /\ grows d d' /\ (forall w, value_in d' w = value_in d w)
    /\ m_ksize (l_map l) <= m_ksize (b_map b) + zlen (encs T) + 16.
Proof.
  destruct x as [[r1 es] s]. intros HT K (m' & d' & TB & SZ & F) (SX & NW). cbv zeta in F. cbn [snd]. unfold good.
  destruct s as [|[[[k dt] es'] r']|s es' r'|w r'|es' r'|]; cbn [rest_of snd] in *; try tauto.
  - destruct F as (-> & -> & ->). exists d. rewrite put_base. cbn [put l_map b_map note with_map]. repeat split; auto using grows_refl; apply K.
  - destruct F as (-> & -> & ->). exists d. cbn [after]. rewrite put_base. cbn [put l_map b_map note with_map]. repeat split; auto using grows_refl; apply K.
  - destruct F as (-> & -> & ->). exists d. rewrite put_base. cbn [put l_map b_map]. repeat split; auto using grows_refl; apply K.
  - destruct F as (_ & i & -> & A & ->). exists d'. assert (V := fun x => reserve_value d w i d' x NW A). rewrite put_base. cbn [put l_map b_map note with_map].
    split; [split; [auto|split; [reflexivity|split; [exact TB|eapply kwinv_ext; eauto]]]|]. split; [eapply grows_add; eauto|]. split; auto.
Qed.

Section History.
Variable T : list Z.
Hypothesis HT : Forall code_point T.
Variable e : lenv.
Hypothesis HM : mem_always (le_mem e).

Lemma room_fits l : room T l -> fits T (l_map l). Proof. auto. Qed.

(** All that a call can do. *)
Lemma lex_cases l r d : good T l r d -> room T l ->
  match l_lex e (S (List.length r)) d r with
  | None => never_returns e l
  | Some x => exists t l', returns e l t l' /\ finish T (base_of l) d x t l'
  end.
Proof.
  intros (S & P & TB & K) R. pose proof (lex_put T HT e HM (List.length r) r (base_of l) d S (le_n _) TB R) as X. rewrite <- P in X.
  destruct (l_lex e (Datatypes.S (List.length r)) d r) as [x|].
  - destruct X as (t & l' & F & X). exists t, l'. split; auto. exists (Datatypes.S (List.length r)). intros f L. apply X. lia.
  - apply (never_from _ _ (Datatypes.S (List.length r))). intros f L. apply X. lia.
Qed.

Lemma word_nonempty r : match l_switch e r with OWord w _ => w <> [] | _ => True end.
Proof.
  destruct (l_switch e r) as [| | |w r'| |] eqn:W; auto. destruct (l_switch_word e _ _ _ W) as (c & r0 & _ & _ & -> & _). discriminate.
Qed.

Lemma facts_side r d n x : sfx r T -> l_lex e n d r = Some x ->
  let '(r1, _, s) := x in sfx (rest_of s) T /\ match s with OWord w _ => w <> [] | _ => True end.
Proof.
  intros SF E. pose proof (l_lex_progress e d n r x E) as P. destruct x as [[r1 es] s]. destruct P as (S1 & [(-> & ->)|(_ & W & _ & S2 & _)]).
  - split; auto. apply sfx_nil.
  - split; [eapply sfx_trans; [exact S2|eapply sfx_trans; eauto]|]. rewrite W. apply word_nonempty.
Qed.

Lemma lex_step l r d t l' : good T l r d -> room T l -> returns e l t l' ->
  exists r' d', good T l' r' d' /\ grows d d' /\ (forall w, value_in d' w = value_in d w) /\ m_ksize (l_map l') <= m_ksize (l_map l) + zlen (encs T) + 16.
Proof.
  intros G R RT. pose proof (lex_cases l r d G R) as C. destruct (l_lex e (S (List.length r)) d r) as [x|] eqn:E.
  - destruct C as (t1 & l1 & R1 & F). destruct (returns_det _ _ _ _ _ _ RT R1) as (-> & ->).
    destruct G as (S1 & P & TB & K). pose proof (facts_side r d _ x S1 E) as FS.
    destruct (finish_facts T (base_of l) d x t1 l1 HT K F FS) as (d' & Q). exists (rest_of (snd x)), d'. exact Q.
  - exfalso. eapply never_not; eauto.
Qed.

Lemma peek_is l r d fuel k l' : good T l r d -> room T l -> peek fuel e l = Some (k, l') ->
  exists t l1, returns e l t l1 /\ k = t_kind t /\ l' = put (base_of l1) T r.
Proof.
  intros G R E. unfold peek in E. destruct (lex fuel e l) as [[t l1]|] eqn:L; [|discriminate]. cbn [bind] in E.
  assert (RT: returns e l t l1) by (exists fuel; intros f F; eapply lex_more; eauto).
  destruct (lex_step l r d t l1 G R RT) as (r' & d' & (S' & P' & _) & _).
  exists t, l1. split; auto. 
  assert (IO: l_io l1 = mkIn (encs T) (pos_of T r')) by (rewrite P'; reflexivity).
  destruct G as ((dn & ST) & P & _).
  assert (CP: l_char l = last_of r /\ l_pos l = pos_of T r) by (rewrite P; split; reflexivity). destruct CP as (C1 & C2).
  assert (PB: 0 <= pos_of T r <= zlen (encs T)).
  { unfold pos_of. rewrite ST, encs_app, zlen_app. pose proof (zlen_nonneg (encs dn)). destruct r as [|c r0]; cbn [encs flat_map].
    - rewrite (@zlen_nil Z). lia.
    - rewrite zlen_app. pose proof (zlen_nonneg (enc c)). pose proof (zlen_nonneg (flat_map enc r0)). lia. }
  unfold in_set_position, in_size in E. rewrite IO, C1, C2 in E. cbn [in_data] in E.
  replace (pos_of T r <=? zlen (encs T)) with true in E by lia. inversion E; subst. split; auto.
Qed.

Lemma good_at l b' r d : good T l r d -> forall l1 r1 d1, good T l1 r1 d1 -> b' = base_of l1 -> good T (put b' T r) r d1.
Proof.
  intros (S & _) l1 r1 d1 (_ & _ & TB & K) ->. split; auto.
Qed.

Lemma peek_step l r d fuel k l' : good T l r d -> room T l -> peek fuel e l = Some (k, l') ->
  exists d', good T l' r d' /\ grows d d' /\ (forall w, value_in d' w = value_in d w) /\ m_ksize (l_map l') <= m_ksize (l_map l) + zlen (encs T) + 16.
Proof.
  intros G R E. destruct (peek_is _ _ _ _ _ _ G R E) as (t & l1 & RT & _ & ->).
  destruct (lex_step l r d t l1 G R RT) as (r' & d' & G' & Q). exists d'. split; [eapply good_at; eauto|exact Q].
Qed.

Lemma dset_vfind d i v w : vfind (dset d i v) w = option_map (fun '(j, u) => if j =? i then v else u) (dfind d w).
Proof.
  unfold vfind. induction d as [|[[k j] u] d IH]; auto. cbn [dset map dfind]. fold (dset d i v). destruct (key_eqb k w); auto.
Qed.

Lemma refer_step l r d i v v' x m : good T l r d -> 0 <= i -> map_get_by_index (l_map l) i = Some v -> 0 <= v -> 0 <= v' ->
  map_set_by_index (l_map l) i v' = Some (x, m) ->
  good T (mkLexer (l_char l) (l_io l) m (l_strs l) (l_errs l)) r (dset d i v') /\ m_ksize m = m_ksize (l_map l).
Proof.
  intros (S & P & (L & I & DL) & K) HI GV V V' SV.
  destruct (set_by_index_ok (l_map l) L i v' I HI) as (m' & L' & E & I' & D' & SZ). rewrite E in SV. inversion SV; subst m'. clear SV.
  split; [|exact SZ].
  assert (CP: l_char l = last_of r /\ l_io l = mkIn (encs T) (pos_of T r)) by (rewrite P; split; reflexivity). destruct CP as (C1 & C2).
  split; auto. split; [rewrite C1, C2; reflexivity|]. split; [exists L'; split; auto; rewrite D', DL; reflexivity|].
  rewrite (get_by_index_ok (l_map l) L i I HI) in GV. rewrite DL in GV.
  assert (V0: forall w j u, dfind d w = Some (j, u) -> j = i -> 0 <= u).
  { intros w j u F ->. rewrite <- DL in F. destruct (minv_has (l_map l) L w i u I F) as (u' & F' & DA). rewrite DL in DA. rewrite DA in GV. rewrite F in F'. inversion F'; subst. inversion GV; subst. exact V. }
  destruct K as (K1 & K2). split.
  - intros w k KW. rewrite value_vfind, dset_vfind. specialize (K1 w k KW). unfold value_in in K1.
    pose proof (rows_keywords w k KW) as (_ & NEG & _).
    destruct (dfind d w) as [[j u]|] eqn:F; cbn [option_map].
    + destruct (j =? i) eqn:J; auto. exfalso. assert (U := V0 w j u F ltac:(lia)). lia.
    + pose proof item_max_pos. lia.
  - intros w NK. rewrite value_vfind, dset_vfind. specialize (K2 w NK). unfold value_in in K2.
    destruct (dfind d w) as [[j u]|]; cbn [option_map]; [|apply item_max_pos]. destruct (j =? i); auto.
Qed.

Lemma create_put m : lexer_create (mkIn (encs T) 0) m = put (mkBase m [] []) T T.
Proof.
  unfold lexer_create, scan. cbn [l_io]. pose proof (scan_next [] T HT) as SN. cbn [app] in SN. change (zlen (@nil Z)) with 0 in SN. rewrite SN.
  cbn [l_map l_strs l_errs]. unfold put. cbn [b_map b_strs b_errs]. f_equal. f_equal. unfold after_last, pos_of. destruct T; rewrite ?(@zlen_nil Z); lia.
Qed.

Lemma working_good l : working e T l -> exists r d, good T l r d.
Proof.
  intros W. induction W as [m E|l t l' W (r & d & G) R RT|l fuel k l' W (r & d & G) R E|l i v v' x m W (r & d & G) HI GV V V' SV].
  - destruct (create_table (le_mem e) m HM E) as (d & TB & K & _). exists T, d. rewrite create_put. split; [apply sfx_refl|]. rewrite put_base. split; auto.
  - destruct (lex_step l r d t l' G R RT) as (r' & d' & G' & _). eauto.
  - destruct (peek_step l r d fuel k l' G R E) as (d' & G' & _). eauto.
  - destruct (refer_step l r d i v v' x m G HI GV V V' SV) as (G' & _). eauto.
Qed.

Lemma later_good l l' : working e T l -> later e T l l' -> working e T l' /\ forall r d, good T l r d -> exists r' d', good T l' r' d' /\ grows d d'.
Proof.
  intros W LT. induction LT as [|l1 t l' LT (W1 & IH) R RT|l1 fuel k l' LT (W1 & IH) R E|l1 i v v' x m LT (W1 & IH) HI GV V V' SV].
  - split; auto. intros r d G. exists r, d. split; auto. apply grows_refl.
  - split; [eapply w_lex; eauto|]. intros r d G. destruct (IH r d G) as (r1 & d1 & G1 & GR).
    destruct (lex_step l1 r1 d1 t l' G1 R RT) as (r' & d' & G' & GR' & _). exists r', d'. split; auto. eapply grows_trans; eauto.
  - split; [eapply w_peek; eauto|]. intros r d G. destruct (IH r d G) as (r1 & d1 & G1 & GR).
    destruct (peek_step l1 r1 d1 fuel k l' G1 R E) as (d' & G' & GR' & _). exists r1, d'. split; auto. eapply grows_trans; eauto.
  - split; [apply (w_refer e T l1 i v v' x m); auto|]. intros r d G. destruct (IH r d G) as (r1 & d1 & G1 & GR).
    destruct (refer_step l1 r1 d1 i v v' x m G1 HI GV V V' SV) as (G' & _). exists r1, (dset d1 i v'). split; auto. eapply grows_trans; [exact GR|apply grows_set].
Qed.

(** ** Words *)
Lemma names_dat l r d i w : good T l r d -> (names l i w <-> 0 <= i /\ exists k v, dat d i = Some (k, v) /\ encs k = encs w).
Proof.
  intros (_ & _ & (L & I & DL) & _). unfold names. split; intros (HI & N); split; auto.
  - rewrite (to_string_index_ok (l_map l) L i I HI), DL in N. destruct (dat d i) as [[k v]|]; [|discriminate]. exists k, v. split; auto. congruence.
  - destruct N as (k & v & DA & E). rewrite (to_string_index_ok (l_map l) L i I HI), DL, DA, E. reflexivity.
Qed.

Lemma dat_dfind m L i k v : minv m L -> dat (to_dict L) i = Some (k, v) -> dfind (to_dict L) k = Some (i, v) /\ Forall code_point k.
Proof.
  intros I D. rewrite dat_find in D. destruct (find (fun en => k_idx en =? i) L) as [en|] eqn:F; [|discriminate].
  apply find_some in F. destruct F as (IN & EI). cbn [option_map] in D. inversion D; subst. split.
  - rewrite dfind_lookup. assert (ND: NoDup (map k_key L)) by (apply (mi_kdup m L); auto).
    rewrite (lookup_unique L (k_key en) en ND IN eq_refl). cbn [option_map]. f_equal. f_equal. lia.
  - pose proof (mi_good _ _ I) as G. rewrite Forall_forall in G. destruct (G en IN) as (G1 & G2). apply good_cps. auto.
Qed.
End History.

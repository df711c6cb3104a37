(** Proofs for C77. *)
From Verif Require Import Prelude Utf8Model Utf8Spec Utf8Proofs UniioModel StringsModel StringsSpec StringsRun StringsProofs MapModel MapSpec MapProofs
  HashModel HashProofs StorageModel StorageSpec StorageProofs FlagModel FlagSpec.

(** ** Reading the name *)
Lemma encs_app a b : encs (a ++ b) = encs a ++ encs b.
Proof. apply flat_map_app. Qed.
Lemma flag_cp c : flag_symbol c -> code_point c.
Proof. unfold flag_symbol, code_point. lia. Qed.

Lemma skipn_zlen {A} (a b : list A) : skipn (Z.to_nat (zlen a)) (a ++ b) = b.
Proof. rewrite zlen_unf, Nat2Z.id, skipn_app, skipn_all, Nat.sub_diag. reflexivity. Qed.

Lemma convert_here pre cs : Forall flag_symbol cs ->
  convert_at (pre ++ encs cs) (zlen pre) = Some (match cs with [] => 0 | c :: _ => c end).
Proof.
  intros F. unfold convert_at. rewrite <- app_assoc, skipn_zlen. destruct cs as [|c cs].
  - reflexivity.
  - inversion F; subst. cbn [encs flat_map]. rewrite <- app_assoc. apply convert_enc. apply flag_cp. assumption.
Qed.

Lemma ident_not_end c : utf8_is_letter c || utf8_is_digit c = true -> c <> 0 /\ c <> 61.
Proof. intros H. split; intros ->; vm_compute in H; discriminate. Qed.

Lemma name_loop_ok cs : forall room pre buffer, Forall flag_symbol cs -> (List.length (fst (ident_part cs)) < room)%nat ->
  name_loop room (pre ++ encs cs) buffer (zlen pre) =
    let '(n, t) := ident_part cs in
    let c := match t with [] => 0 | c :: _ => c end in
    Some (buffer ++ n, c, zlen pre + zlen (encs n) + utf8_size c).
Proof.
  induction cs as [|c cs IH]; intros room pre buffer F R; destruct room as [|room]; try lia; cbn [name_loop].
  - rewrite convert_here by assumption. cbn [bind ident_part]. change (utf8_is_letter 0 || utf8_is_digit 0) with false. cbn iota. cbn [encs flat_map].
    rewrite app_nil_r, (@zlen_nil Z), Z.add_0_r. reflexivity.
  - rewrite convert_here by assumption. cbn [bind]. inversion F; subst. cbn [ident_part] in *. destruct (utf8_is_letter c || utf8_is_digit c) eqn:I.
    + destruct (ident_part cs) as [n t] eqn:P. cbn [fst List.length] in R.
      rewrite (size_enc c) by (apply flag_cp; assumption). cbn [encs flat_map]. fold (encs cs). fold (encs n). rewrite app_assoc, <- zlen_app.
      rewrite IH; [|assumption|cbn [fst]; lia]. cbn zeta iota. rewrite <- app_assoc. cbn [app]. rewrite !zlen_app. f_equal. f_equal. lia.
    + cbn zeta iota. cbn [encs flat_map]. rewrite app_nil_r, (@zlen_nil Z), Z.add_0_r. reflexivity.
Qed.

Lemma ident_part_app cs : forall n t, ident_part cs = (n, t) -> cs = n ++ t /\ Forall (fun c => utf8_is_letter c || utf8_is_digit c = true) n
  /\ match t with [] => True | c :: _ => utf8_is_letter c || utf8_is_digit c = false end.
Proof.
  induction cs as [|c cs IH]; intros n t; cbn [ident_part].
  - intros [= <- <-]. auto.
  - destruct (utf8_is_letter c || utf8_is_digit c) eqn:I.
    + destruct (ident_part cs) as [n' t'] eqn:P. intros [= <- <-]. destruct (IH n' t' eq_refl) as (-> & F & T). auto.
    + intros [= <- <-]. auto.
Qed.

(** What [ws_parse_name] gives for what the symbols behind -D mean. *)
Lemma parse_name_ok cs : Forall flag_symbol cs -> (match define_of cs with Define name _ _ => zlen name < 1024 | _ => True end) ->
  match define_of cs with
  | NoName => ws_parse_name (encs cs) = Some ([RNoName], None)
  | BadName => ws_parse_name (encs cs) = Some ([RFirst], None)
  | Define name text odd => exists index, ws_parse_name (encs cs) = Some (if odd then [RSeparator] else [], Some (name, index))
      /\ skipn (Z.to_nat index) (encs cs) = text
  | Other => False
  end.
Proof.
  intros F NF. unfold define_of in *. unfold ws_parse_name.
  pose proof (convert_here [] cs F) as C0. cbn [app] in C0. rewrite (@zlen_nil Z) in C0. rewrite C0. cbn [bind].
  destruct cs as [|c cs]; [reflexivity|]. inversion F as [|? ? Fc Fcs]; subst.
  replace (c =? 0) with false by (unfold flag_symbol in Fc; lia). cbn [orb].
  destruct (c =? 61) eqn:E61; [reflexivity|]. destruct (utf8_is_letter c) eqn:IL; [|reflexivity]. cbn [negb].
  cbn [ident_part] in NF |- *. rewrite IL in NF |- *. cbn [orb] in NF |- *.
  destruct (ident_part cs) as [n t] eqn:P.
  assert (B : zlen (c :: n) < 1024). { destruct t as [|d t]; [exact NF|]. destruct (d =? 61); exact NF. }
  rewrite zlen_cons in B.
  pose proof (name_loop_ok cs (Z.to_nat (NAME_SIZE - 1)) (enc c) [c] Fcs) as NL. rewrite P in NL. cbn [fst] in NL.
  change (encs (c :: cs)) with (enc c ++ encs cs).
  rewrite (size_enc c) by (apply flag_cp; assumption). rewrite NL by (rewrite zlen_unf in B; unfold NAME_SIZE; lia). clear NL. cbn zeta iota. cbn [bind].
  destruct (ident_part_app cs n t P) as (-> & Fn & Ft). rewrite encs_app. cbn [app].
  assert (SK : forall w, skipn (Z.to_nat (zlen (enc c) + zlen (encs n))) (enc c ++ encs n ++ w) = w).
  { intros w. rewrite app_assoc, <- zlen_app. apply skipn_zlen. }
  destruct t as [|d t].
  - change (0 =? 0) with true. cbn iota. eexists. split; [reflexivity|]. change (utf8_size 0) with 1.
    replace (zlen (enc c) + zlen (encs n) + 1 - 1) with (zlen (enc c) + zlen (encs n)) by lia. apply SK.
  - apply Forall_app in Fcs as [_ Fd]. inversion Fd as [|? ? Fd1 Fd2]; subst.
    replace (d =? 0) with false by (unfold flag_symbol in Fd1; lia). destruct (d =? 61) eqn:D.
    + eexists. split; [reflexivity|]. assert (d = 61) by lia. subst d. change (encs (61 :: t)) with ([61] ++ encs t).
      change (utf8_size 61) with 1. replace 1 with (zlen [61]) by (rewrite zlen_cons, (@zlen_nil Z); reflexivity). rewrite !app_assoc, <- !zlen_app. apply skipn_zlen.
    + eexists. split; [reflexivity|].
      replace (zlen (enc c) + zlen (encs n) + utf8_size d - utf8_size d) with (zlen (enc c) + zlen (encs n)) by lia. apply SK.
Qed.

(** ** Sizes of the tables *)
Definition small (st : storage) (n : Z) : Prop := m_ksize (st_as st) <= n /\ zlen (st_hs st) <= n /\ s_size (st_vec st) <= n.

Lemma set_len hs i n v : zlen (snd (hash_set_by_index hs i n v)) = zlen hs.
Proof. unfold hash_set_by_index. destruct (n <? hash_get_amount_by_index hs i); cbn [snd]; [apply LVec.zlen_lv_set|reflexivity]. Qed.

Lemma add_small e st S cs r x st' n : mem_always e -> pinv st S -> Forall good_symbol cs -> small st n -> 4 * zlen cs + n + 64 < 2 ^ 30 ->
  storage_add e st (KUtf8 cs) = Some (r, x, st') -> small st' (n + 4 * zlen cs + 16).
Proof.
  intros M [(L & R & H & l & IM & IH & IS & LK)] G (S1 & S2 & S3) B E. pose proof (zlen_nonneg cs).
  destruct (add_ok e (st_as st) L (KUtf8 cs) cs None ITEM_MAX M IM (key_utf8 cs G)) as (key & m1 & L1 & E1 & I1 & A & SZ); [cbn [src_size]; lia|].
  cbn [src_size] in SZ. unfold storage_add, map_reserve in E. unfold map_add in E1. rewrite E1 in E. cbn [bind] in E.
  destruct (hash_add (st_hs st) (s64 key) 2) as [[i hs]|] eqn:E2; [|discriminate]. cbn [bind] in E. apply hash_add_len in E2.
  destruct (map_set_by_index m1 key (s64 i)) as [[z m2]|] eqn:E3; [|discriminate]. cbn [bind] in E. injection E as <- <- <-.
  assert (m_ksize m2 = m_ksize m1).
  { unfold map_set_by_index, put_cell in E3. destruct (m_vsize m1 <=? key); [congruence|]. destruct (znth (m_vals m1) key) as [c|]; [|discriminate]. cbn [bind] in E3.
    destruct (c_ref c =? SIZE_MAX); [congruence|]. destruct ((0 <=? key) && (key <? zlen (m_vals m1))); [|discriminate]. cbn [bind] in E3. injection E3 as _ <-. reflexivity. }
  unfold small. cbn [st_as st_hs st_vec]. rewrite !set_len. lia.
Qed.

Lemma set_small e st S id v r st' n : mem_always e -> pinv st S -> defined S id \/ id = SIZE_MAX -> Forall (fun b => b <> 0) v -> v <> [] ->
  small st n -> zlen v + n + 64 < 2 ^ 30 ->
  storage_set_by_index e st id v = Some (r, st') -> small st' (n + zlen v + 1).
Proof.
  intros M [(L & R & H & l & IM & IH & IS & LK)] D NZ Ne (S1 & S2 & S3) B E. pose proof (zlen_nonneg v).
  pose proof (l_len st l IS ltac:(lia)) as LL.
  assert (DR : exists v1 l1, drop_value st id = Some v1 /\ sinv v1 l1 /\ s_size v1 <= s_size (st_vec st) /\ zlen l1 <= zlen l).
  { destruct D as [(name & m & SN & <-)| ->].
    - destruct (link_macro _ _ _ _ _ _ LK SN) as (KC & k0 & a & FN & HN & VO & AR).
      destruct (drop_ok st S L R H l IH IS LK ltac:(lia) ltac:(lia) k0 _ _ _ HN) as (v1 & l1 & E1 & IS1 & ZL1 & SZ1 & _). exists v1, l1. auto.
    - exists (st_vec st), l. unfold drop_value. destruct (h_none (st_hs st) 0) as [-> | ]; [|lia].
      unfold strings_size. rewrite (si_n _ _ IS). replace (ITEM_MAX =? zlen l - 1) with false by (unfold ITEM_MAX, LLONG_MAX, two63; lia). split; [reflexivity|]. split; [assumption|lia]. }
  destruct DR as (v1 & l1 & E1 & IS1 & SZ1 & ZL1). unfold storage_set_by_index in E. rewrite E1 in E. cbn [bind] in E.
  destruct (StringsProofs.add_ok e v1 l1 v M IS1 NZ Ne ltac:(lia) ltac:(lia)) as (v2 & E2 & IS2). rewrite E2 in E. cbn [bind] in E. injection E as _ <-.
  pose proof (si_size _ _ IS1). pose proof (si_size _ _ IS2) as Z2. rewrite arena_app, zlen_app in Z2. cbn [arena flat_map] in Z2. rewrite app_nil_r, zlen_app, zlen_cons, (@zlen_nil Z) in Z2.
  unfold small. cbn [st_as st_hs st_vec]. split; [lia|]. split; [|unfold arena in *; lia]. destruct (negb _); rewrite ?set_len; lia.
Qed.

Lemma kl : zlen keywords = 16.
Proof. vm_compute. reflexivity. Qed.
Lemma kb : 0 + 10000 * zlen keywords < 2 ^ 40.
Proof. rewrite kl. reflexivity. Qed.
Lemma kn : NoDup (kw_names keywords).
Proof. apply nodupb_ok. vm_compute. reflexivity. Qed.
Lemma create_small_map room e : 0 <= room < 2 ^ 50 -> mem_always e -> exists m, kw_add e (map_create e room) keywords = Some m /\ m_ksize m <= 200000.
Proof.
  intros RM M.
  destruct (kw_add_ok e keywords M keywords_ok (map_create e room) [] 0 (create_ok e room RM)) as (m & L & E1 & I & SZ & FE).
  - apply Z.le_refl.
  - apply Z.le_refl.
  - exact kb.
  - exact kn.
  - intros s _. exact eq_refl.
  - exists m. split; [exact E1|]. rewrite kl in SZ. clear - SZ. lia.
Qed.
Lemma create_len : zlen hash_create = 256.
Proof. vm_compute. reflexivity. Qed.
Lemma create_empty e n : s_size (strings_create e n) = 0.
Proof. reflexivity. Qed.
Lemma create_parts room e st : storage_create_for room e = Some st ->
  kw_add e (map_create e room) keywords = Some (st_as st) /\ st_hs st = hash_create /\ st_vec st = strings_create e room.
Proof.
  unfold storage_create_for. generalize (strings_create e room) as v. generalize hash_create as h. generalize (kw_add e (map_create e room) keywords) as o.
  intros o h v E. destruct o as [m|]; [|discriminate E]. cbn [bind] in E. injection E as <-. auto.
Qed.
Lemma create_small room e st : 0 <= room < 2 ^ 50 -> mem_always e -> storage_create_for room e = Some st -> small st 200000.
Proof.
  intros RM M E. destruct (create_parts _ _ _ E) as (E1 & E2 & E3). destruct (create_small_map room e RM M) as (m & E4 & SZ). clear E.
  assert (Q : m = st_as st). { revert E4 E1. generalize (kw_add e (map_create e room) keywords) as o. intros o A B. congruence. }
  unfold small. rewrite E2, E3, create_len, create_empty, <- Q. clear - SZ. lia.
Qed.

(** ** One flag *)
Lemma enc_bytes c : flag_symbol c -> Forall (fun b => b <> 0) (enc c) /\ 1 <= zlen (enc c).
Proof.
  unfold flag_symbol, enc. intros H. split.
  - destruct (c <? 128) eqn:A; [repeat constructor; lia|]. destruct (c <? 2048) eqn:B; [|destruct (c <? 65536) eqn:C];
      repeat (apply Forall_cons || apply Forall_nil); cbn beta; Z.to_euclidean_division_equations; lia.
  - repeat match goal with |- context [if ?b then _ else _] => destruct b end; rewrite !zlen_cons, (@zlen_nil Z); lia.
Qed.
Lemma encs_bytes cs : Forall flag_symbol cs -> Forall (fun b => b <> 0) (encs cs) /\ zlen cs <= zlen (encs cs).
Proof.
  induction 1 as [|c cs F FS [IH1 IH2]]; cbn [encs flat_map]; [split; [constructor|lia]|]. fold (encs cs). destruct (enc_bytes c F) as [E1 E2].
  split; [apply Forall_app; auto|]. rewrite zlen_app, zlen_cons. lia.
Qed.
Lemma enc_head c b w : flag_symbol c -> enc c = b :: w -> b < 128 -> w = [] /\ b = c.
Proof.
  unfold flag_symbol, enc. intros H E B. destruct (c <? 128) eqn:A; [injection E; auto|]. exfalso.
  destruct (c <? 2048) eqn:B1; [|destruct (c <? 65536) eqn:C]; apply (f_equal (hd 0)) in E; cbn [hd] in E; Z.to_euclidean_division_equations; lia.
Qed.
Lemma enc_small c : flag_symbol c -> c < 128 -> enc c = [c].
Proof. intros F H. unfold enc. replace (c <? 128) with true by lia. reflexivity. Qed.

(** The bytes begin with -D when the symbols do. *)
Lemma parse_flag_cases e st f : Forall flag_symbol f ->
  (exists cs, f = 45 :: 68 :: cs /\ parse_flag e st (encs f) = parse_define e st (encs cs) /\ meaning_of f = define_of cs)
  \/ (parse_flag e st (encs f) = Some ([], true, st) /\ meaning_of f = Other).
Proof.
  intros F. destruct f as [|a f]; [right; auto|]. inversion F as [|? ? Fa F1]; subst.
  destruct (Z.eq_dec a 45) as [-> | Na].
  - destruct f as [|b f]; [right; auto|]. inversion F1 as [|? ? Fb F2]; subst. destruct (Z.eq_dec b 68) as [-> | Nb].
    + left. exists f. auto.
    + right. split.
      * cbn [encs flat_map]. fold (encs f). rewrite (enc_small 45) by (unfold flag_symbol; lia). cbn [app].
        destruct (enc b) as [|x w] eqn:E; [destruct (enc_bytes b Fb) as [_ X]; rewrite E, (@zlen_nil Z) in X; lia|]. cbn [app parse_flag].
        destruct (x =? 68) eqn:X; [|rewrite andb_false_r; reflexivity]. destruct (enc_head b x w Fb E ltac:(lia)). lia.
      * cbn [meaning_of]. replace (b =? 68) with false by lia. rewrite andb_false_r. reflexivity.
  - right. split.
    + cbn [encs flat_map]. fold (encs f). destruct (enc a) as [|x w] eqn:E; [destruct (enc_bytes a Fa) as [_ X]; rewrite E, (@zlen_nil Z) in X; lia|]. cbn [app parse_flag].
      destruct (w ++ encs f); [reflexivity|]. destruct (x =? 45) eqn:X; [|reflexivity]. destruct (enc_head a x w Fa E ltac:(lia)). lia.
    + cbn [meaning_of]. destruct f; [reflexivity|]. replace (a =? 45) with false by lia. reflexivity.
Qed.

Lemma kw_hash : forallb (fun p => forallb (fun s => match s with c :: _ => c =? 35 | [] => false end) (snd p)) keywords = true.
Proof. vm_compute. reflexivity. Qed.
Lemma not_directive c cs : c <> 35 -> kwcode (c :: cs) = None.
Proof.
  intros N. pose proof kw_hash as K. unfold kwcode. induction keywords as [|[code ss] l IH]; [reflexivity|]. cbn [forallb kwfind snd] in *.
  apply andb_prop in K as [K1 K2]. replace (existsb (key_eqb (c :: cs)) ss) with false; [auto|]. symmetry. clear - K1 N.
  induction ss as [|s ss IH]; [reflexivity|]. cbn [forallb existsb] in *. apply andb_prop in K1 as [K1 K2]. rewrite (IH K2), orb_false_r.
  destruct s as [|x s]; [discriminate|]. cbn [key_eqb]. replace (c =? x) with false by lia. reflexivity.
Qed.

Lemma ident_good c : utf8_is_letter c || utf8_is_digit c = true -> good_symbol c.
Proof. unfold utf8_is_letter, utf8_is_russian, utf8_is_digit, good_symbol. lia. Qed.

(** What a definition consists of. *)
Lemma define_parts cs name text odd : Forall flag_symbol cs -> define_of cs = Define name text odd ->
  Forall good_symbol name /\ name <> [] /\ kwcode name = None /\ Forall (fun b => b <> 0) text /\ zlen name + zlen text <= zlen (encs cs).
Proof.
  intros F D. unfold define_of in D. destruct cs as [|c cs]; [discriminate|]. destruct (c =? 61); [discriminate|]. destruct (utf8_is_letter c) eqn:IL; [|discriminate].
  destruct (ident_part (c :: cs)) as [n t] eqn:P. destruct (ident_part_app _ _ _ P) as (E & Fn & Ft).
  assert (N : exists n', n = c :: n'). { cbn [ident_part] in P. rewrite IL in P. cbn [orb] in P. destruct (ident_part cs). injection P as <- <-. eauto. }
  destruct N as (n' & ->). rewrite E in F |- *. apply Forall_app in F as [F1 F2]. rewrite encs_app, zlen_app. destruct (encs_bytes _ F1) as [B1 B2]. destruct (encs_bytes _ F2) as [B3 B4].
  assert (G : Forall good_symbol (c :: n')) by (eapply Forall_impl; [|exact Fn]; intros x; apply ident_good).
  assert (K : kwcode (c :: n') = None) by (apply not_directive; intros ->; vm_compute in IL; discriminate).
  destruct t as [|d t].
  - injection D as <- <- <-. split; [exact G|]. split; [discriminate|]. split; [exact K|]. split; [constructor|]. replace (zlen (@nil Z)) with 0 by (symmetry; apply zlen_nil). pose proof (zlen_nonneg (encs (@nil Z))). lia.
  - inversion F2 as [|? ? Fd Fs]; subst. destruct (encs_bytes _ Fs) as [B5 B6].
    assert (X : zlen (encs (d :: t)) = zlen (enc d) + zlen (encs t)) by (cbn [encs flat_map]; rewrite zlen_app; reflexivity). pose proof (zlen_nonneg (enc d)).
    remember (encs t) as u eqn:Hu. remember (encs (d :: t)) as w eqn:Hw. clear Hu Hw.
    destruct (d =? 61); injection D as <- <- <-; (split; [exact G|]); (split; [discriminate|]); (split; [exact K|]); (split; [assumption|]); lia.
Qed.

Lemma text_of_app d name text n : text_of d name = None ->
  text_of (d ++ [(name, text)]) n = if key_eqb name n then Some text else text_of d n.
Proof.
  intros H. induction d as [|[a t] d IH]; cbn [text_of app] in *; [destruct (key_eqb name n); reflexivity|].
  destruct (key_eqb a name) eqn:A; [discriminate|]. rewrite (IH H). destruct (key_eqb a n) eqn:B; [|reflexivity].
  apply key_eqb_eq in B. subst. destruct (key_eqb name n) eqn:C; [|reflexivity]. apply key_eqb_eq in C. subst. rewrite key_eqb_refl in A. discriminate.
Qed.
Lemma key_eqb_sym a b : key_eqb a b = key_eqb b a.
Proof. destruct (key_eqb a b) eqn:A, (key_eqb b a) eqn:B; auto; [apply key_eqb_eq in A|apply key_eqb_eq in B]; subst; rewrite key_eqb_refl in *; discriminate. Qed.

Lemma holds_same S S' d : psame S S' -> holds S d -> holds S' d.
Proof. intros P H name. rewrite P. apply H. Qed.
Lemma key_utf8_inv name n x : key_of (KUtf8 name) n x -> n = name /\ x = None.
Proof. intros H. inversion H; subst. auto. Qed.

Lemma pset_inv S id v r x S' : pspec S (PSetText id v) (PNum r x) S' -> r = id /\
  ((exists name m, S name = Some m /\ mc_id m = id /\ psame (pput S name (Some (with_text m v))) S') \/ (id = SIZE_MAX /\ psame S S')).
Proof. intros H. inversion H; subst; split; auto. left. eauto. Qed.

Lemma define_ok e st S d cs n : mem_always e -> preach st S -> holds S d -> small st n -> Forall flag_symbol cs ->
  (match define_of cs with Define name _ _ => zlen name < 1024 | _ => True end) -> n + 8 * zlen (encs cs) + 256 < 2 ^ 30 -> 0 <= n ->
  match define_of cs with
  | Other => False
  | NoName => parse_define e st (encs cs) = Some ([RNoName], false, st)
  | BadName => parse_define e st (encs cs) = Some ([RFirst], false, st)
  | Define name text odd =>
      let w := if odd then [RSeparator] else [] in
      match text_of d name with
      | Some _ => exists st' S', parse_define e st (encs cs) = Some (w ++ [RExists name], false, st') /\ preach st' S' /\ holds S' d
      | None => exists st' S', parse_define e st (encs cs) = Some (w, true, st') /\ preach st' S' /\ holds S' (d ++ [(name, text)])
                  /\ small st' (n + 8 * zlen (encs cs) + 64)
      end
  end.
Proof.
  intros M RCH HD SM F NF B N0. pose proof (parse_name_ok cs F NF) as PN. destruct (define_of cs) as [| | |name text odd] eqn:D.
  - exact PN.
  - unfold parse_define. rewrite PN. reflexivity.
  - unfold parse_define. rewrite PN. reflexivity.
  - destruct PN as (index & E & SK). destruct (define_parts _ _ _ _ F D) as (G & Ne & KC & NZ & BZ).
    pose proof (zlen_nonneg name). pose proof (zlen_nonneg text). pose proof SM as (B1 & B2 & B3).
    destruct (storage_full e st S (PAdd (KUtf8 name)) M RCH) as (r & st1 & S1 & E1 & Sp & R1).
    { exists name, None. split; [constructor; exact G|]. auto. }
    { unfold proom. cbn [src_size]. lia. }
    cbn [pexec] in E1. destruct (storage_add e st (KUtf8 name)) as [[[id x] st1']|] eqn:EA; [|discriminate]. cbn [bind] in E1. injection E1 as <- <-.
    pose proof (add_small e st S name id x st1' n M (preach_inv _ _ RCH) G SM ltac:(lia) EA) as SM1. pose proof SM1 as (B4 & B5 & B6).
    pose proof (HD name) as HN. unfold parse_define. rewrite E. cbn [bind]. rewrite EA. cbn [bind]. rewrite SK. cbn zeta.
    destruct (text_of d name) as [t|] eqn:TD.
    + destruct (S name) as [m|] eqn:SN; [|contradiction].
      assert (Q : id = SIZE_MAX /\ psame (pput S name (Some (renamed m))) S1).
      { inversion Sp; subst; match goal with H : key_of _ _ _ |- _ => apply key_utf8_inv in H as [-> ->] end; [congruence|]. split; [reflexivity|]. congruence. }
      destruct Q as [-> P1].
      assert (HD1 : holds S1 d).
      { eapply holds_same; [exact P1|]. intros n0. unfold pput. destruct (key_eqb n0 name) eqn:KE; [|apply HD]. apply key_eqb_eq in KE. subst n0. rewrite TD. exact HN. }
      destruct text as [|b text].
      * cbn [bind]. rewrite Z.eqb_refl. exists st1', S1. auto.
      * destruct (storage_full e st1' S1 (PSetText SIZE_MAX (b :: text)) M R1) as (r2 & st2 & S2 & E2 & Sp2 & R2).
        { split; [right; reflexivity|]. split; [exact NZ|discriminate]. }
        { unfold proom. lia. }
        cbn [pexec] in E2. destruct (storage_set_by_index e st1' SIZE_MAX (b :: text)) as [[id2 st2']|] eqn:ES; [|discriminate]. cbn [bind] in E2. injection E2 as <- <-.
        assert (Q : id2 = SIZE_MAX /\ psame S1 S2).
        { apply pset_inv in Sp2 as [-> [(q & m0 & X1 & X2 & X3)|[_ X]]]; [|auto]. exfalso. apply (pinv_idr st1' S1 q m0 (preach_inv _ _ R1) X1 ltac:(lia) X2). }
        destruct Q as [-> P2]. cbn [bind]. rewrite Z.eqb_refl. exists st2', S2. split; [reflexivity|]. split; [exact R2|]. eapply holds_same; eassumption.
    + destruct (S name) as [m|] eqn:SN; [contradiction|].
      assert (Q : 256 <= id < SIZE_MAX /\ psame (pput S name (Some (mkMacro id None 0 true))) S1).
      { inversion Sp; subst; match goal with H : key_of _ _ _ |- _ => apply key_utf8_inv in H as [-> ->] end; [auto|congruence]. }
      destruct Q as [RI P1].
      assert (HN1 : forall t' m', mc_args m' = 0 -> mc_text m' = match t' with [] => None | _ => Some t' end -> holds (pput S name (Some m')) (d ++ [(name, t')])).
      { intros t' m' A1 A2 n0. rewrite text_of_app by exact TD. unfold pput. rewrite (key_eqb_sym name n0). destruct (key_eqb n0 name); [auto|apply HD]. }
      destruct text as [|b text].
      * cbn [bind]. replace (id =? SIZE_MAX) with false by lia. exists st1', S1. split; [reflexivity|]. split; [exact R1|]. split.
        -- eapply holds_same; [exact P1|]. apply HN1; reflexivity.
        -- unfold small. rewrite (@zlen_nil Z) in *. lia.
      * assert (SN1 : S1 name = Some (mkMacro id None 0 true)) by (rewrite P1; apply pput_same).
        assert (DF : defined S1 id) by (exists name, (mkMacro id None 0 true); auto).
        destruct (storage_full e st1' S1 (PSetText id (b :: text)) M R1) as (r2 & st2 & S2 & E2 & Sp2 & R2).
        { split; [left; exact DF|]. split; [exact NZ|discriminate]. }
        { unfold proom. lia. }
        cbn [pexec] in E2. destruct (storage_set_by_index e st1' id (b :: text)) as [[id2 st2']|] eqn:ES; [|discriminate]. cbn [bind] in E2. injection E2 as <- <-.
        assert (Q : id2 = id /\ psame (pput S1 name (Some (mkMacro id (Some (b :: text)) 0 true))) S2).
        { apply pset_inv in Sp2 as [-> [(q & m0 & X1 & X2 & X3)|[X1 _]]]; [|lia]. split; [reflexivity|].
          destruct (pinv_id st1' S1 q name m0 _ (preach_inv _ _ R1) X1 SN1 X2) as [-> ->]. exact X3. }
        destruct Q as [-> P2]. cbn [bind]. replace (id =? SIZE_MAX) with false by lia. exists st2', S2. split; [reflexivity|]. split; [exact R2|]. split.
        -- eapply holds_same; [exact P2|]. intros n0. rewrite text_of_app by exact TD. unfold pput. rewrite (key_eqb_sym name n0).
           destruct (key_eqb n0 name) eqn:KE; [auto|]. rewrite P1. unfold pput. rewrite KE. apply HD.
        -- pose proof (set_small e st1' S1 id (b :: text) id st2' _ M (preach_inv _ _ R1) (or_introl DF) NZ ltac:(discriminate) SM1 ltac:(lia) ES) as (X1 & X2 & X3).
           unfold small. lia.
Qed.

(** ** All flags *)
Lemma flags_ok e flags : mem_always e -> forall st S d n, preach st S -> holds S d -> small st n -> 0 <= n ->
  Forall (Forall flag_symbol) flags -> Forall name_fits flags -> n + flags_size flags + 256 < 2 ^ 30 ->
  let '(rs, ok, d') := outcome d flags in
  exists st' S', ws_flags e st (map encs flags) = Some (rs, ok, st') /\ preach st' S' /\ holds S' d'.
Proof.
  intros M. induction flags as [|f flags IH]; intros st S d n RCH HD SM N0 F NF B; cbn [outcome map ws_flags].
  - exists st, S. auto.
  - inversion F as [|? ? Ff Ffs]; inversion NF as [|? ? Nf Nfs]; subst. cbn [flags_size fold_right] in B. fold (flags_size flags) in B.
    assert (NN : 0 <= flags_size flags). { clear. induction flags as [|f fs IH]; cbn [flags_size fold_right]; [lia|]. fold (flags_size fs). pose proof (zlen_nonneg (encs f)). lia. }
    pose proof (zlen_nonneg (encs f)).
    destruct (parse_flag_cases e st f Ff) as [(cs & -> & E & ME)|[E ME]].
    + rewrite E, ME. assert (LE : zlen (encs cs) <= zlen (encs (45 :: 68 :: cs))).
      { change (encs (45 :: 68 :: cs)) with (45 :: 68 :: encs cs). rewrite !zlen_cons. lia. }
      inversion Ff as [|? ? _ Ff1]; subst. inversion Ff1 as [|? ? _ Fcs]; subst. unfold name_fits in Nf. rewrite ME in Nf. pose proof (zlen_nonneg (encs cs)).
      pose proof (define_ok e st S d cs n M RCH HD SM Fcs Nf ltac:(lia) N0) as DO.
      destruct (define_of cs) as [| | |name text odd].
      * contradiction.
      * rewrite DO. cbn [bind]. exists st, S. auto.
      * rewrite DO. cbn [bind]. exists st, S. auto.
      * cbn zeta in *. destruct (text_of d name) as [t|].
        -- destruct DO as (st' & S' & E1 & R1 & H1). rewrite E1. cbn [bind]. exists st', S'. auto.
        -- destruct DO as (st' & S' & E1 & R1 & H1 & SM1). rewrite E1. cbn [bind].
           pose proof (IH st' S' (d ++ [(name, text)]) _ R1 H1 SM1 ltac:(lia) Ffs Nfs ltac:(lia)) as IH1.
           destruct (outcome (d ++ [(name, text)]) flags) as [[rs ok] d']. destruct IH1 as (st2 & S2 & E2 & R2 & H2). rewrite E2. cbn [bind]. exists st2, S2. auto.
    + rewrite E, ME. cbn [bind]. pose proof (IH st S d n RCH HD SM N0 Ffs Nfs ltac:(lia)) as IH1.
      destruct (outcome d flags) as [[rs ok] d']. destruct IH1 as (st2 & S2 & E2 & R2 & H2). rewrite E2. cbn [bind]. exists st2, S2. auto.
Qed.

(** ** Which flags are granted *)
Definition fresh_for (d : defs) (flags : list (list Z)) : Prop := forall name, In name (map fst (defined_by flags)) -> text_of d name = None.

Lemma outcome_granted flags : forall d, grantable flags -> fresh_for d flags -> outcome d flags = (warnings flags, true, d ++ defined_by flags).
Proof.
  induction flags as [|f flags IH]; intros d [W ND] FR; [cbn; rewrite app_nil_r; reflexivity|]. inversion W as [|? ? Wf Ws]; subst.
  unfold well_formed in Wf. unfold fresh_for in FR. unfold defined_by, warnings in *. cbn [outcome flat_map] in *. destruct (meaning_of f) as [| | |name text odd]; try contradiction.
  - apply IH; [split|]; assumption.
  - cbn [app map fst] in *. inversion ND as [|? ? NI ND1]; subst. rewrite (FR name) by (left; reflexivity).
    rewrite IH; [|split; assumption|].
    + rewrite <- app_assoc. destruct odd; reflexivity.
    + intros n Hn. rewrite text_of_app by (apply FR; left; reflexivity). destruct (key_eqb name n) eqn:K; [|apply FR; right; exact Hn].
      apply key_eqb_eq in K. subst. contradiction.
Qed.
Lemma outcome_ok_only flags : forall d, snd (fst (outcome d flags)) = true -> grantable flags /\ fresh_for d flags.
Proof.
  induction flags as [|f flags IH]; intros d E; [split; [split; constructor|intros n []]|]. cbn [outcome] in E.
  destruct (meaning_of f) as [| | |name text odd] eqn:ME; cbn [fst snd] in E; try discriminate.
  - destruct (IH d E) as [[W ND] FR]. unfold grantable, fresh_for, defined_by. cbn [flat_map]. rewrite ME. cbn [app]. split; [split|]; auto.
    constructor; auto. unfold well_formed. rewrite ME. exact I.
  - destruct (text_of d name) as [t|] eqn:T; [cbn [fst snd] in E; discriminate|].
    destruct (outcome (d ++ [(name, text)]) flags) as [[rs ok] d'] eqn:O. cbn [fst snd] in E. specialize (IH (d ++ [(name, text)])). rewrite O in IH. destruct (IH E) as [[W ND] FR].
    unfold fresh_for in FR. assert (FN : forall n, In n (map fst (defined_by flags)) -> n <> name /\ text_of d n = None).
    { intros n Hn. specialize (FR n Hn). rewrite text_of_app in FR by exact T. destruct (key_eqb name n) eqn:K; [discriminate|]. split; [|exact FR]. intros ->. rewrite key_eqb_refl in K. discriminate. }
    unfold grantable, fresh_for, defined_by. cbn [flat_map]. rewrite ME. cbn [app map fst]. split; [split|].
    + constructor; auto. unfold well_formed. rewrite ME. exact I.
    + constructor; [|exact ND]. intros X. destruct (FN _ X). congruence.
    + intros n [<- | Hn]; [exact T|apply FN; exact Hn].
Qed.

Lemma text_of_in d name : text_of d name <> None <-> In name (map fst d).
Proof.
  induction d as [|[a t] d IH]; cbn [text_of map fst In]; [tauto|]. destruct (key_eqb a name) eqn:K.
  - apply key_eqb_eq in K. subst. split; [auto|discriminate].
  - rewrite IH. split; [auto|]. intros [-> | H]; [rewrite key_eqb_refl in K; discriminate|exact H].
Qed.
Lemma outcome_split flags : forall d, snd (fst (outcome d flags)) = false ->
  exists pre f post, flags = pre ++ f :: post /\ (grantable pre /\ fresh_for d pre) /\ ~ (grantable (pre ++ [f]) /\ fresh_for d (pre ++ [f]))
    /\ snd (outcome d flags) = d ++ defined_by pre /\ fst (fst (outcome d flags)) = warnings (pre ++ [f]) ++ [fault f].
Proof.
  induction flags as [|f flags IH]; intros d E; [discriminate|].
  assert (GO : forall d1, (outcome d (f :: flags) = let '(rs, ok, d') := outcome d1 flags in ((match meaning_of f with Define _ _ true => [RSeparator] | _ => [] end) ++ rs, ok, d')) ->
    d1 = d ++ defined_by [f] -> well_formed f -> fresh_for d [f] -> snd (fst (outcome d1 flags)) = false ->
    exists pre f0 post, f :: flags = pre ++ f0 :: post /\ (grantable pre /\ fresh_for d pre) /\ ~ (grantable (pre ++ [f0]) /\ fresh_for d (pre ++ [f0]))
      /\ snd (outcome d (f :: flags)) = d ++ defined_by pre /\ fst (fst (outcome d (f :: flags))) = warnings (pre ++ [f0]) ++ [fault f0]).
  { intros d1 OE D1 W FF E1. destruct (IH d1 E1) as (pre & f0 & post & -> & [G FR] & NG & D & RS). exists (f :: pre), f0, post. split; [reflexivity|].
    assert (CO : forall l, (grantable (f :: l) /\ fresh_for d (f :: l)) <-> (grantable l /\ fresh_for d1 l)).
    { intros l. split.
      - intros [H1 H2]. pose proof (outcome_granted (f :: l) d H1 H2) as Q. apply outcome_ok_only.
        assert (O1 : snd (fst (outcome d (f :: l))) = true) by (rewrite Q; reflexivity). cbn [outcome] in O1. unfold fresh_for, defined_by in *. cbn [flat_map] in *. subst d1.
        unfold well_formed in W. destruct (meaning_of f) as [| | |name text odd]; try contradiction; cbn [app] in *; [rewrite app_nil_r; exact O1|].
        rewrite (FF name) in O1 by (left; reflexivity). destruct (outcome (d ++ [(name, text)]) l) as [[? ?] ?]. exact O1.
      - intros [H1 H2]. apply outcome_ok_only. pose proof (outcome_granted l d1 H1 H2) as Q. cbn [outcome]. unfold fresh_for, defined_by in *. cbn [flat_map] in *. subst d1.
        unfold well_formed in W. destruct (meaning_of f) as [| | |name text odd]; try contradiction; cbn [app] in *; [rewrite app_nil_r in Q; rewrite Q; reflexivity|].
        rewrite (FF name) by (left; reflexivity). rewrite Q. reflexivity. }
    split; [apply CO; auto|]. split; [intros Q; apply NG; apply CO; exact Q|].
    rewrite OE. destruct (outcome d1 (pre ++ f0 :: post)) as [[rs ok] d']. cbn [fst snd] in *. split.
    - rewrite D, D1, <- app_assoc. unfold defined_by. cbn [flat_map]. rewrite app_nil_r. reflexivity.
    - rewrite RS. unfold warnings. cbn [flat_map app]. rewrite <- app_assoc. reflexivity. }
  assert (STOP : snd (outcome d (f :: flags)) = d -> fst (fst (outcome d (f :: flags))) = warnings [f] ++ [fault f] -> ~ (grantable [f] /\ fresh_for d [f]) ->
    exists pre f0 post, f :: flags = pre ++ f0 :: post /\ (grantable pre /\ fresh_for d pre) /\ ~ (grantable (pre ++ [f0]) /\ fresh_for d (pre ++ [f0]))
      /\ snd (outcome d (f :: flags)) = d ++ defined_by pre /\ fst (fst (outcome d (f :: flags))) = warnings (pre ++ [f0]) ++ [fault f0]).
  { intros H1 H3 H2. exists [], f, flags. split; [reflexivity|]. split; [split; [split; constructor|intros n []]|]. split; [exact H2|]. split; [|exact H3]. rewrite H1. unfold defined_by. cbn [flat_map]. rewrite app_nil_r. reflexivity. }
  unfold well_formed, fresh_for, defined_by, grantable in STOP, GO. unfold well_formed, fresh_for, defined_by, grantable. cbn [outcome flat_map] in *.
  destruct (meaning_of f) as [| | |name text odd] eqn:ME; cbn [fst snd] in *.
  - apply (GO d); auto.
    + cbn [app]. destruct (outcome d flags) as [[? ?] ?]. reflexivity.
    + cbn [app]. rewrite app_nil_r. reflexivity.
    + intros n [].
  - apply STOP; [reflexivity|cbn [warnings fault flat_map]; unfold fault; rewrite ME; try destruct odd; reflexivity|]. intros [[W _] _]. inversion W as [|? ? W1 _]; subst. unfold well_formed in W1. rewrite ME in W1. exact W1.
  - apply STOP; [reflexivity|cbn [warnings fault flat_map]; unfold fault; rewrite ME; try destruct odd; reflexivity|]. intros [[W _] _]. inversion W as [|? ? W1 _]; subst. unfold well_formed in W1. rewrite ME in W1. exact W1.
  - destruct (text_of d name) as [t|] eqn:T.
    + apply STOP; [reflexivity|cbn [warnings fault flat_map]; unfold fault; rewrite ME; try destruct odd; reflexivity|]. intros [_ FR]. rewrite (FR name) in T; [discriminate|]. left. reflexivity.
    + apply (GO (d ++ [(name, text)])); [|reflexivity|exact I| |].
      * destruct (outcome (d ++ [(name, text)]) flags) as [[? ?] ?]. destruct odd; reflexivity.
      * intros n [<- | []]. exact T.
      * destruct (outcome (d ++ [(name, text)]) flags) as [[? ?] ?]. exact E.
Qed.

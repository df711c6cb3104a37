(** Taking types apart; sizes. *)
From Verif Require Import Prelude LVec TypesModel TypesSpec TypesProofs TypesEqual TypesAdd TypesDenote TypesHistory.

Definition solid (u : ty) : Prop := match core u with TSimple _ | TEnum _ _ => False | _ => True end.
Lemma solid_collapse u : solid u -> collapse (norm u) = norm u.
Proof. unfold solid. destruct u; cbn; auto; contradiction. Qed.
Lemma core_norm u : solid u -> core (norm u) = norm (core u).
Proof.
  induction u using ty_rec'; cbn [core norm]; auto. intros S. change (solid u) in S. rewrite solid_collapse by auto. auto.
Qed.

Section Parts.
Variables (t : types) (T : list (Z * shape)) (LL : list (Z * ty)).
Hypothesis I : inv t T LL.

Lemma den_top u n : den T n u -> is_constant u = false -> top T n.
Proof.
  intros D N. destruct u; try discriminate N.
  - destruct D as [D ->]. left. auto.
  - destruct D as (m & M & _). right. eexists. split; [exact M|discriminate].
  - destruct D as (m & M & _). right. eexists. split; [exact M|discriminate].
  - destruct D as (m & ? & M & _). right. eexists. split; [exact M|discriminate].
  - destruct D as (m & ? & M & _). right. eexists. split; [exact M|discriminate].
  - destruct D as (m & M). right. eexists. split; [exact M|discriminate].
Qed.

Lemma unq_const n m : In (n, SCst m) T -> unqualified t n = unqualified t m.
Proof.
  intros H. pose proof (i_laid _ _ _ I) as L.
  assert (V : valid T m) by (pose proof (wf_parts _ _ _ _ _ L H) as W; inversion W; auto).
  destruct (unq_ok _ _ _ _ L V) as (u & E & _). rewrite E.
  destruct (laid_in _ _ _ _ _ L H) as (A & R & P & _). apply at_len in A. inversion P as [|? ? [_ B] _]; subst.
  destruct (strip_ok t _ T (length (ty_cells t) - 1) m L V) as (u' & E' & _).
  { pose proof (zlen_length (ty_cells t)). pose proof (enc_pos (SCst m)). lia. }
  assert (u' = u).
  { unfold unqualified in E. assert (F : (length (ty_cells t) - 1 <= length (ty_cells t))%nat) by lia.
    pose proof (strip_more t _ (length (ty_cells t)) _ _ F E'). congruence. }
  subst u'. unfold unqualified. pose proof (zlen_length (ty_cells t)). pose proof (enc_pos (SCst m)).
  destruct (length (ty_cells t)) as [|f] eqn:F; [lia|]. cbn [strip]. rewrite (is_const_shape _ _ _ _ _ L H).
  rewrite (const_get _ _ _ _ _ L H). rewrite <- E'. f_equal. lia.
Qed.

Lemma den_unq u n : solid u -> den T n (norm u) -> exists m, unqualified t n = Some m /\ den T m (norm (core u)).
Proof.
  revert n. induction u using ty_rec'; intros n S D; try contradiction;
    try (exists n; split; [|exact D]; eapply unq_top; [apply (i_laid _ _ _ I)|]; eapply den_top; [exact D|reflexivity]).
  cbn [norm] in D. rewrite den_const in D. destruct D as (m & M & D).
  change (solid u) in S. rewrite solid_collapse in D by auto. rewrite (unq_const _ _ M).
  apply IHu; auto. unfold solid in S. destruct u; cbn in S, D |- *; auto; contradiction.
Qed.

Lemma den_unq_plain u n : plain u -> den T n u -> exists m, unqualified t n = Some m /\ den T m (core u).
Proof.
  revert n. induction u using ty_rec'; intros n S D;
    try (exists n; split; [|exact D]; eapply unq_top; [apply (i_laid _ _ _ I)|]; eapply den_top; [exact D|reflexivity]).
  rewrite den_const in D. destruct D as (m & M & D). rewrite (unq_const _ _ M). cbn [core].
  apply IHu.
  - cbn [plain] in S. destruct u; auto; exact Logic.I.
  - cbn [plain] in S. destruct u; cbn [cden] in D; auto; [|contradiction].
    destruct D as [D E]. unfold TYPE_INTEGER, TYPE_UNDEFINED, TYPE_CHARACTER in *. destruct (m <? -1) eqn:X; [lia|]. subst. split; auto.
Qed.

(** The class of a number, whatever its type. *)
Definition class_tag (u : ty) : Z :=
  match u with TSimple c => c | TPointer _ => TYPE_POINTER | TArray _ => TYPE_ARRAY | TConst _ => TYPE_CONST
  | TStruct _ => TYPE_STRUCTURE | TFunction _ _ => TYPE_FUNCTION | TEnum _ _ => TYPE_ENUM end.
Lemma class_at u n : den T n u -> match u with TSimple _ => True | _ => 0 < n /\ lv_get (ty_cells t) n = class_tag u end.
Proof.
  intros D. pose proof (i_laid _ _ _ I) as L.
  destruct (den_key T u n D) as [[k ->]|(s & M & G)]; auto.
  destruct (laid_in _ _ _ _ _ L M) as (_ & R & _). rewrite (shape_tag _ _ _ _ _ L M). destruct u; auto; split; auto; lia.
Qed.

(** Every number ends, without its qualifiers, in something of the class of the
    type it was asked for. *)
Lemma unq_class u n : den T n (norm u) -> exists m, unqualified t n = Some m /\ top T m /\
  match core u with
  | TSimple _ => simple_code m
  | w => 0 < m /\ lv_get (ty_cells t) m = class_tag w
  end.
Proof.
  revert n. induction u using ty_rec'; intros n D; pose proof (i_laid _ _ _ I) as L;
    try (exists n; split; [eapply unq_top; [exact L|]; eapply den_top; [exact D|reflexivity]|];
         split; [eapply den_top; [exact D|reflexivity]|]; cbn [core];
         first [exact (class_at _ _ D)|destruct D as [D ->]; exact D]).
  cbn [norm] in D. rewrite den_const in D. destruct D as (m & M & D). rewrite (unq_const _ _ M). cbn [core].
  destruct u; cbn [norm collapse cden] in D; auto.
  - destruct D as [D _]. exists m. split; [eapply unq_top; [exact L|left; auto]|]. split; [left; auto|]. exact D.
  - destruct D as (_ & k & v & r & R & _). exists m. split; [eapply unq_top; [exact L|]; right; eexists; split; [exact R|discriminate]|].
    split; [right; eexists; split; [exact R|discriminate]|]. cbn [core class_tag].
    destruct (laid_in _ _ _ _ _ L R) as (_ & B & _). rewrite (shape_tag _ _ _ _ _ L R). cbn [tag]. split; [lia|auto].
Qed.
Definition of_class (c : Z) (u : ty) : bool := match u with TSimple _ => false | _ => class_tag u =? c end.
Lemma is_class_ok u n c : den T n (norm u) -> is_class t c n = Some (of_class c (core u)).
Proof.
  intros D. destruct (unq_class _ _ D) as (m & E & Tm & H). unfold is_class, bind, type_get. rewrite E. f_equal.
  destruct (core u) eqn:K; try (destruct H as [H1 H2]; rewrite H2; replace (m >? 0) with true by lia; reflexivity).
  unfold simple_code in H. replace (m >? 0) with false by lia. reflexivity.
Qed.
Lemma is_class_top u n c : den T n (norm u) -> core u = u -> is_class t c n = Some (of_class c u).
Proof. intros D E. rewrite (is_class_ok u n c D), E. auto. Qed.

Lemma is_simple_ok u n c : plain u -> simple_code c -> den T n u -> is_simple t c n = Some (is_code c (core u)).
Proof.
  intros P C D. destruct (den_unq_plain _ _ P D) as (m & E & Dm). unfold is_simple, bind. rewrite E. f_equal.
  unfold simple_code in C.
  assert (N : is_constant (core u) = false) by (clear; induction u; auto).
  destruct (core u); try discriminate N; try (destruct (class_at _ _ Dm); cbn; lia).
  destruct Dm as [_ ->]. reflexivity.
Qed.

Lemma core_core u : core (core u) = core u.
Proof. induction u; auto. Qed.
Lemma core_const u : is_constant (core u) = false.
Proof. induction u; auto. Qed.

(** Structures. *)
Lemma struct_parts u n us : den T n (norm u) -> core u = TStruct us -> exists m sz ms,
  unqualified t n = Some m /\ unqualified t m = Some m /\ type_is_structure t m = Some true /\ In (m, SStr sz ms) T
  /\ Forall2 (fun a w => den T (fst a) (norm (fst w)) /\ snd a = snd w) ms us.
Proof.
  intros D K. destruct (den_unq u n) as (m & E & Dm); auto; [unfold solid; rewrite K; auto|]. rewrite K in Dm.
  pose proof Dm as Dm'. cbn [norm] in Dm'. rewrite den_struct in Dm'. destruct Dm' as (sz & ms & M & F).
  exists m, sz, ms. split; auto. split; [eapply unq_top; [apply (i_laid _ _ _ I)|]; eapply den_top; [exact Dm|reflexivity]|].
  split; [unfold type_is_structure; rewrite (is_class_top (TStruct us) m); auto|]. split; auto.
  clear -F. revert us F. induction ms as [|a ms IH]; intros us F; inversion F as [|? ? ? ? HD HT E1 E2]; destruct us; try discriminate; auto.
  injection E2 as -> ->. constructor; auto.
Qed.

Lemma flat_get ms i m x : znth ms i = Some (m, x) -> lv_get (flat ms) (2 * i) = m /\ lv_get (flat ms) (2 * i + 1) = x.
Proof.
  revert i. induction ms as [|[a b] ms IH]; intros i E; pose proof (znth_Some_lt _ _ _ E) as B.
  - change (zlen (@nil (Z * Z))) with 0 in B. lia.
  - unfold flat in *. cbn [flat_map app fst snd]. destruct (Z.eq_dec i 0) as [->|].
    + cbn in E. injection E as <- <-. split; [apply get_head|]. apply get_1.
    + rewrite !get_cons by lia. replace (2 * i - 1 - 1) with (2 * (i - 1)) by lia.
      replace (2 * i + 1 - 1 - 1) with (2 * (i - 1) + 1) by lia. apply IH.
      rewrite znth_cons_pos in E by lia. exact E.
Qed.
Lemma struct_cells m sz ms i a x : In (m, SStr sz ms) T -> znth ms i = Some (a, x) ->
  lv_get (ty_cells t) (m + 3 + 2 * i) = a /\ lv_get (ty_cells t) (m + 4 + 2 * i) = x.
Proof.
  intros M E. pose proof (i_laid _ _ _ I) as L. pose proof (znth_Some_lt _ _ _ E) as B.
  replace (m + 3 + 2 * i) with (m + (3 + 2 * i)) by lia. replace (m + 4 + 2 * i) with (m + (4 + 2 * i)) by lia.
  assert (Q : zlen (enc (SStr sz ms)) = 3 + zlen ms * 2) by (cbn [enc]; rewrite !zlen_cons, zlen_flat; lia).
  rewrite !(rec_get _ _ _ _ _ _ L M) by lia. cbn [enc]. rewrite !get_cons by lia.
  destruct (flat_get _ _ _ _ E) as [A C]. split; [rewrite <- A|rewrite <- C]; f_equal; lia.
Qed.
Lemma Forall2_znth {A B} (P : A -> B -> Prop) l l' i y : Forall2 P l l' -> znth l' i = Some y ->
  exists x, znth l i = Some x /\ P x y.
Proof.
  intros F. revert i. induction F as [|a b l l' H F IH]; intros i E; pose proof (znth_Some_lt _ _ _ E) as R.
  - change (zlen (@nil B)) with 0 in R. lia.
  - destruct (Z.eq_dec i 0) as [->|].
    + exists a. rewrite znth_cons_0 in *. injection E as <-. auto.
    + rewrite znth_cons_pos in E by lia. rewrite znth_cons_pos by lia. apply IH. exact E.
Qed.
Lemma Forall2_zlen {A B} (P : A -> B -> Prop) l l' : Forall2 P l l' -> zlen l = zlen l'.
Proof. induction 1; rewrite ?zlen_cons; auto; lia. Qed.

Lemma members_ok u n us : den T n (norm u) -> core u = TStruct us ->
  type_structure_get_member_amount t n = Some (zlen us) /\
  forall i w x, znth us i = Some (w, x) ->
    type_structure_get_member_name t n i = Some x /\
    exists m, type_structure_get_member_type t n i = Some m /\ den T m (norm w).
Proof.
  intros D K. destruct (struct_parts _ _ _ D K) as (m & sz & ms & E & E' & S & M & F).
  unfold type_structure_get_member_amount, type_structure_get_member_name, type_structure_get_member_type, bind.
  rewrite E, S. pose proof (i_laid _ _ _ I) as L. split.
  - unfold type_get. rewrite (rec_get _ _ _ _ _ 2 L M) by (cbn [enc]; rewrite !zlen_cons, zlen_flat; pose proof (zlen_nonneg ms); lia).
    cbn [enc]. rewrite get_2, (Forall2_zlen _ _ _ F). f_equal. lia.
  - intros i w x Z. destruct (Forall2_znth _ _ _ _ _ F Z) as ([a y] & G & P & Q). cbn in P, Q. subst y.
    destruct (struct_cells _ _ _ _ _ _ M G) as [A B]. unfold type_get. rewrite A, B. split; auto. eauto.
Qed.

(** Sizes. *)
Lemma size_den u : forall n, plain u -> den T n u -> type_size t n = Some (size_of u).
Proof.
  induction u using ty_rec'; intros n P D; pose proof (i_laid _ _ _ I) as L.
  - destruct D as [D ->]. rewrite (type_size_unq t _ T c c L); [|left; auto|eapply unq_top; [exact L|left; auto]].
    unfold size1, simple_code in *. replace (c >? 0) with false by lia. reflexivity.
  - assert (Tn : top T n) by (eapply den_top; [exact D|reflexivity]).
    rewrite (type_size_unq t _ T n n L Tn) by (eapply unq_top; eauto). destruct (class_at _ _ D) as [G H]. cbn [class_tag] in H.
    unfold size1. rewrite H. cbn. rewrite andb_false_r. unfold TYPE_FLOATING. replace (n =? -3) with false by lia. reflexivity.
  - assert (Tn : top T n) by (eapply den_top; [exact D|reflexivity]).
    rewrite (type_size_unq t _ T n n L Tn) by (eapply unq_top; eauto). destruct (class_at _ _ D) as [G H]. cbn [class_tag] in H.
    unfold size1. rewrite H. cbn. rewrite andb_false_r. unfold TYPE_FLOATING. replace (n =? -3) with false by lia. reflexivity.
  - rewrite den_const in D. destruct D as (m & M & D). cbn [size_of].
    assert (W : type_size t n = type_size t m) by (unfold type_size; rewrite (unq_const _ _ M); reflexivity).
    rewrite W. apply IHu.
    + cbn [plain] in P. destruct u; auto; exact Logic.I.
    + cbn [plain] in P. destruct u; cbn [cden] in D; auto; [|contradiction].
      destruct D as [D E]. unfold TYPE_INTEGER, TYPE_UNDEFINED, TYPE_CHARACTER in *. destruct (m <? -1) eqn:X; [lia|]. subst. split; auto.
  - assert (Tn : top T n) by (eapply den_top; [exact D|reflexivity]).
    rewrite (type_size_unq t _ T n n L Tn) by (eapply unq_top; eauto).
    rewrite den_struct in D. destruct D as (sz & l & M & F).
    destruct (laid_in _ _ _ _ _ L M) as (_ & R & _).
    unfold size1. rewrite (shape_tag _ _ _ _ _ L M), (shape_get1 _ _ _ _ _ L M). cbn [tag enc]. rewrite get_1.
    replace (n >? 0) with true by lia. cbn [andb]. change (TYPE_STRUCTURE =? TYPE_STRUCTURE) with true. cbv iota.
    pose proof (i_sized _ _ _ I _ _ _ M) as Sz. rewrite <- Sz. clear M Sz R Tn.
    revert l F P. induction H as [|[w x] us V _ IH]; intros l F P; inversion F as [|[a y] ? ? ? [HD HE] HT]; subst; [reflexivity|].
    cbn [fst snd] in *. destruct P as [P1 P2]. cbn [struct_size]. rewrite (V a) by auto. rewrite (IH _ HT P2). reflexivity.
  - assert (Tn : top T n) by (eapply den_top; [exact D|reflexivity]).
    rewrite (type_size_unq t _ T n n L Tn) by (eapply unq_top; eauto). destruct (class_at _ _ D) as [G H']. cbn [class_tag] in H'.
    unfold size1. rewrite H'. cbn. rewrite andb_false_r. unfold TYPE_FLOATING. replace (n =? -3) with false by lia. reflexivity.
  - assert (Tn : top T n) by (eapply den_top; [exact D|reflexivity]).
    rewrite (type_size_unq t _ T n n L Tn) by (eapply unq_top; eauto). destruct (class_at _ _ D) as [G H']. cbn [class_tag] in H'.
    unfold size1. rewrite H'. cbn. rewrite andb_false_r. unfold TYPE_FLOATING. replace (n =? -3) with false by lia. reflexivity.
Qed.
End Parts.

(** The facts about histories that the properties state. *)
From Verif Require Import Prelude LVec TypesModel TypesSpec TypesProofs TypesEqual TypesAdd TypesDenote TypesHistory TypesParts.

Definition comps (t : ty) : list ty :=
  match t with TPointer t | TArray t | TConst t => [t] | TStruct ms => map fst ms | TFunction r ps => r :: ps | _ => [] end.

Lemma named_mono L n t m u : named L m u -> named ((n, t) :: L) m u.
Proof. intros [H|H]; [left; auto|right; right; auto]. Qed.

Lemma closed a b s L : issued a b s L -> forall n t w, named L n t -> In w (comps t) -> exists m, named L m w.
Proof.
  assert (N0 : forall L n t w, (forall n t w, In (n, t) L -> In w (comps t) -> exists m, named L m w) ->
     named L n t -> In w (comps t) -> exists m, named L m w).
  { intros L0 n t w K [[_ ->]|H] C; [contradiction|eauto]. }
  intros H. assert (K : forall n t w, In (n, t) L -> In w (comps t) -> exists m, named L m w); [|eauto].
  induction H as [|s L r u k s' H IH G E]; intros n t w I C.
  - destruct I as [I|[]]. injection I as <- <-. cbn in C. exists TYPE_INTEGER. left. unfold simple_code, TYPE_INTEGER in *.
    destruct C as [<-|[<-|[]]]; split; auto; lia.
  - destruct I as [I|I].
    + injection I as <- <-. assert (exists m, named L m w) as [m M]; [|exists m; apply named_mono; auto].
      destruct G; cbn in C; try (destruct C as [<-|[]]; eauto; fail).
      * clear E H. induction H1 as [|p q ps qs [N _] _ IHF]; [contradiction|]. destruct C as [<-|C]; eauto. apply IHF; auto.
        rewrite zlen_cons in H0. lia.
      * destruct C as [<-|C]; eauto. clear -H2 C. induction H2 as [|p q ps qs N _ IHF]; [contradiction|]. destruct C as [<-|C]; eauto.
      * contradiction.
    + destruct (IH _ _ _ I C) as [m M]. exists m. apply named_mono. auto.
Qed.

Lemma named_core a b s L : issued a b s L -> forall t n, named L n t -> exists m, named L m (core t).
Proof.
  intros H t. induction t using ty_rec'; intros n N; cbn [core]; eauto.
  destruct (closed _ _ _ _ H n (TConst t) t N) as [m M]; [left; auto|]. eauto.
Qed.

Section History.
Variables (a b : Z) (s : types) (L : list (Z * ty)).
Hypothesis H : issued a b s L.

Lemma inv_ex : exists T, inv s T L.
Proof. eapply issued_inv; eauto. Qed.

Lemma den_named T n m t : inv s T L -> named L n t -> den T m (norm t) -> m = n.
Proof.
  intros I N D. pose proof (inv_named _ _ _ _ _ I N) as D'. destruct I. eapply den_number; eauto.
Qed.

Lemma member_facts n t ms : named L n t -> core t = TStruct ms ->
  type_structure_get_member_amount s n = Some (zlen ms) /\
  forall i u x, znth ms i = Some (u, x) ->
    type_structure_get_member_name s n i = Some x /\
    exists m, type_structure_get_member_type s n i = Some m /\ named L m u.
Proof.
  intros N K. destruct inv_ex as [T I]. pose proof (inv_named _ _ _ _ _ I N) as D.
  destruct (members_ok s T L I t n ms D K) as [A B]. split; auto. intros i u x Z. destruct (B _ _ _ Z) as (C & m & E & F).
  split; auto. exists m. split; auto. destruct (named_core _ _ _ _ H _ _ N) as [c Nc]. rewrite K in Nc.
  destruct (closed _ _ _ _ H c (TStruct ms) u Nc) as [m' M'].
  { cbn. apply in_map_iff. exists (u, x). split; auto. eapply znth_In; eauto. }
  rewrite (den_named _ _ _ _ I M' F). auto.
Qed.

Lemma size_facts n t : named L n t -> plain t -> type_size s n = Some (size_of t).
Proof.
  intros N P. destruct inv_ex as [T I]. pose proof (inv_named _ _ _ _ _ I N) as D. rewrite plain_norm in D by auto.
  eapply size_den; eauto.
Qed.

Lemma plain_members ms u x : plain (TStruct ms) -> In (u, x) ms -> plain u.
Proof. induction ms as [|[w y] ms IH]; [contradiction|]. intros P [E|I]; destruct P as [P1 P2]; [congruence|auto]. Qed.
Lemma plain_core t : plain t -> plain (core t).
Proof. induction t using ty_rec'; cbn [core]; auto. intros P. apply IHt. cbn in P. destruct t; auto; exact Logic.I. Qed.

Lemma offset_step ms i u x : znth ms i = Some (u, x) -> offset_of ms (i + 1) = offset_of ms i + size_of u.
Proof.
  intros Z. pose proof (znth_Some_lt _ _ _ Z) as B. unfold offset_of. replace (Z.to_nat (i + 1)) with (S (Z.to_nat i)) by lia.
  assert (E : nth_error ms (Z.to_nat i) = Some (u, x)).
  { unfold znth in Z. replace ((i <? 0) || (zlen ms <=? i)) with false in Z by lia. auto. }
  clear -E. revert E. generalize (Z.to_nat i) as k. intros k. revert ms. induction k as [|k IH]; intros [|[w y] ms] E; try discriminate.
  - cbn in E. injection E as -> ->. cbn. lia.
  - change (size_of (TStruct (firstn (S (S k)) ((w, y) :: ms)))) with (size_of w + size_of (TStruct (firstn (S k) ms))).
    change (size_of (TStruct (firstn (S k) ((w, y) :: ms)))) with (size_of w + size_of (TStruct (firstn k ms))).
    rewrite IH by exact E. lia.
Qed.

Lemma displ_facts n t ms i : named L n t -> plain t -> core t = TStruct ms -> 0 <= i <= zlen ms ->
  member_displ s n i = Some (offset_of ms i).
Proof.
  intros N P K B. pose proof (plain_core _ P) as Pc. rewrite K in Pc. destruct (member_facts n t ms N K) as [_ F]. unfold member_displ.
  assert (G : forall k j d, j + Z.of_nat k <= zlen ms -> 0 <= j -> d = offset_of ms j ->
    member_displ_loop s n k j d = Some (offset_of ms (j + Z.of_nat k))).
  { induction k as [|k IH]; intros j d Bj J D.
    - cbn [member_displ_loop]. rewrite D. replace (j + Z.of_nat 0) with j by lia. auto.
    - cbn [member_displ_loop]. destruct (znth_ex ms j ltac:(lia)) as [[u x] Z]. destruct (F _ _ _ Z) as (_ & m & E & M). rewrite E. cbn [bind].
      rewrite (size_facts m u M) by (eapply plain_members; [exact Pc|eapply znth_In; eauto]). cbn [bind]. rewrite IH; try lia.
      + replace (j + 1 + Z.of_nat k) with (j + Z.of_nat (S k)) by lia. auto.
      + rewrite (offset_step _ _ _ _ Z). lia. }
  rewrite G; [|lia|lia|reflexivity]. replace (0 + Z.of_nat (Z.to_nat i)) with i by lia. auto.
Qed.

Lemma size_nonneg t : 0 <= size_of t.
Proof.
  induction t using ty_rec'; cbn [size_of]; try lia.
  - destruct (c =? TYPE_FLOATING); lia.
  - induction H0 as [|[u x] ms V _ IH]; [lia|]. cbn [fst] in V. lia.
Qed.
Lemma offset_mono ms i j : 0 <= i <= j -> offset_of ms i <= offset_of ms j.
Proof.
  intros B. unfold offset_of. assert (E : (Z.to_nat i <= Z.to_nat j)%nat) by lia. revert E. generalize (Z.to_nat i) as p, (Z.to_nat j) as q.
  clear. induction ms as [|[w y] ms IH]; intros p q E; [rewrite !firstn_nil; lia|].
  destruct p, q; [lia| |lia|].
  - change (size_of (TStruct (firstn 0 ((w, y) :: ms)))) with 0. apply size_nonneg.
  - change (size_of (TStruct (firstn (S p) ((w, y) :: ms)))) with (size_of w + size_of (TStruct (firstn p ms))).
    change (size_of (TStruct (firstn (S q) ((w, y) :: ms)))) with (size_of w + size_of (TStruct (firstn q ms))).
    specialize (IH p q). lia.
Qed.
Lemma offset_end ms : offset_of ms (zlen ms) = size_of (TStruct ms).
Proof. unfold offset_of. rewrite zlen_unf, Nat2Z.id, firstn_all. auto. Qed.

(** Other parts. *)
Lemma elem T n t w m : inv s T L -> named L n t -> In w (comps (core t)) -> den T m (norm w) -> named L m w.
Proof.
  intros I N C D. destruct (named_core _ _ _ _ H _ _ N) as [c Nc].
  destruct (closed _ _ _ _ H c (core t) w Nc C) as [m' M']. rewrite (den_named _ _ _ _ I M' D). auto.
Qed.

Lemma unq_den T n t : inv s T L -> named L n t -> solid t -> exists m, unqualified s n = Some m /\ unqualified s m = Some m /\ den T m (norm (core t)).
Proof.
  intros I N S. pose proof (inv_named _ _ _ _ _ I N) as D. destruct (den_unq s T L I t n S D) as (m & E & Dm).
  exists m. split; auto. split; auto. eapply unq_top; [apply (i_laid _ _ _ I)|]. eapply den_top; [exact Dm|].
  clear -S. unfold solid in S. pose proof (core_const t). destruct (core t); auto.
Qed.

Lemma pointer_facts n t w : named L n t -> core t = TPointer w ->
  exists m, type_pointer_get_element_type s n = Some m /\ named L m w.
Proof.
  intros N K. destruct inv_ex as [T I]. destruct (unq_den T n t I N) as (m & E & E' & D); [unfold solid; rewrite K; exact Logic.I|].
  rewrite K in D. pose proof D as D'. destruct D' as (k & M & Dk).
  unfold type_pointer_get_element_type, bind. rewrite E. unfold type_is_pointer. rewrite (is_class_top s T L I (TPointer w) m) by auto. cbn.
  exists k. split; [|eapply elem; eauto; rewrite K; left; auto]. f_equal. unfold type_get. rewrite (shape_get1 _ _ _ _ _ (i_laid _ _ _ I) M). reflexivity.
Qed.
Lemma array_facts n t w : named L n t -> core t = TArray w ->
  exists m, type_array_get_element_type s n = Some m /\ named L m w.
Proof.
  intros N K. destruct inv_ex as [T I]. destruct (unq_den T n t I N) as (m & E & E' & D); [unfold solid; rewrite K; exact Logic.I|].
  rewrite K in D. pose proof D as D'. destruct D' as (k & M & Dk).
  unfold type_array_get_element_type, bind. rewrite E. unfold type_is_array. rewrite (is_class_top s T L I (TArray w) m) by auto. cbn.
  exists k. split; [|eapply elem; eauto; rewrite K; left; auto]. f_equal. unfold type_get. rewrite (shape_get1 _ _ _ _ _ (i_laid _ _ _ I) M). reflexivity.
Qed.

Lemma function_facts n r ps : named L n (TFunction r ps) ->
  type_is_function s n = true
  /\ named L (type_function_get_return_type s n) r
  /\ type_function_get_parameter_amount s n = zlen ps
  /\ forall i u, znth ps i = Some u -> named L (type_function_get_parameter_type s n i) u.
Proof.
  intros N. destruct inv_ex as [T I]. pose proof (inv_named _ _ _ _ _ I N) as D. pose proof D as D'.
  cbn [norm] in D. rewrite den_function in D. destruct D as (q & l & M & R & F).
  pose proof (i_laid _ _ _ I) as Ll. destruct (class_at s T L I _ _ D') as [G G']. cbn in G'.
  assert (FT : type_is_function s n = true) by (unfold type_is_function, type_get; rewrite G'; replace (n >? 0) with true by lia; reflexivity).
  unfold type_function_get_return_type, type_function_get_parameter_amount, type_function_get_parameter_type. rewrite FT.
  split; auto. unfold type_get. split; [|split].
  - rewrite (shape_get1 _ _ _ _ _ Ll M). cbn [enc]. rewrite get_1. eapply (elem T n (TFunction r ps)); eauto. left. auto.
  - rewrite (rec_get _ _ _ _ _ 2 Ll M) by (cbn [enc]; rewrite !zlen_cons; pose proof (zlen_nonneg l); lia). cbn [enc]. rewrite get_2.
    rewrite (Forall2_zlen _ _ _ F). rewrite !zlen_unf, map_length. auto.
  - intros i u Z. assert (Z' : znth (map norm ps) i = Some (norm u)).
    { unfold znth in *. rewrite !zlen_unf, map_length. rewrite !zlen_unf in Z. destruct ((i <? 0) || _); [discriminate|]. apply map_nth_error. auto. }
    destruct (Forall2_znth _ _ _ _ _ F Z') as (m & E & P). pose proof (znth_Some_lt _ _ _ E) as B.
    replace (n + 3 + i) with (n + (3 + i)) by lia.
    rewrite (rec_get _ _ _ _ _ (3 + i) Ll M) by (cbn [enc]; rewrite !zlen_cons; lia). cbn [enc].
    rewrite !get_cons by lia. replace (3 + i - 1 - 1 - 1) with i by lia. rewrite (lv_get_in _ _ _ E).
    eapply (elem T n (TFunction r ps)); eauto. right. eapply znth_In; eauto.
Qed.

Lemma const_facts n t : named L n t -> type_is_const s n = is_constant t.
Proof.
  intros N. destruct inv_ex as [T I]. pose proof (inv_named _ _ _ _ _ I N) as D. pose proof (i_laid _ _ _ I) as Ll.
  destruct t; cbn [norm is_constant] in *; try (destruct (class_at s T L I _ _ D) as [G G']; unfold type_is_const, type_get; rewrite G'; replace (n >? 0) with true by lia; reflexivity).
  destruct D as [D ->]. apply not_const_simple. unfold simple_code in D. lia.
Qed.
Lemma unqualified_facts n t : named L n (TConst t) -> plain (TConst t) -> named L (type_const_get_unqualified_type s n) t.
Proof.
  intros N P. destruct inv_ex as [T I]. pose proof (inv_named _ _ _ _ _ I N) as D. rewrite plain_norm in D by auto. rewrite den_const in D.
  destruct D as (m & M & D). rewrite (const_get _ _ _ _ _ (i_laid _ _ _ I) M).
  destruct (closed _ _ _ _ H n (TConst t) t N) as [m' M']; [left; auto|].
  assert (Pt : plain t) by (cbn in P; destruct t; auto; exact Logic.I).
  rewrite (den_named T m' m t I M'); auto. rewrite plain_norm by auto.
  cbn [plain] in P. destruct t; cbn [cden] in D; auto; [|contradiction].
  destruct D as [D E]. unfold TYPE_INTEGER, TYPE_UNDEFINED, TYPE_CHARACTER in *. destruct (m <? -1) eqn:X; [lia|]. subst. split; auto.
Qed.

Lemma class_facts n t : named L n t ->
  type_is_pointer s n = Some (is_pointer (core t)) /\ type_is_array s n = Some (is_array (core t))
  /\ type_is_structure s n = Some (is_structure (core t)) /\ type_is_enum s n = Some (is_enumeration (core t))
  /\ type_is_function s n = is_function t.
Proof.
  intros N. destruct inv_ex as [T I]. pose proof (inv_named _ _ _ _ _ I N) as D.
  unfold type_is_pointer, type_is_array, type_is_structure, type_is_enum. rewrite !(is_class_ok s T L I t n) by auto.
  repeat split; try (destruct (core t); reflexivity).
  destruct t; cbn [norm is_function] in *; try (destruct (class_at s T L I _ _ D) as [G G']; unfold type_is_function, type_get; rewrite G'; replace (n >? 0) with true by lia; reflexivity).
  destruct D as [D ->]. unfold type_is_function, simple_code in *. replace (code >? 0) with false by lia. reflexivity.
Qed.
Lemma simple_facts n t c : named L n t -> plain t -> simple_code c -> is_simple s c n = Some (is_code c (core t)).
Proof.
  intros N P C. destruct inv_ex as [T I]. pose proof (inv_named _ _ _ _ _ I N) as D. rewrite plain_norm in D by auto.
  eapply is_simple_ok; eauto.
Qed.
End History.

Lemma ask_facts a b s L r t : issued a b s L -> legal L r t -> exists n s', ask s r = Some (n, s').
Proof.
  intros H G. destruct (issued_inv _ _ _ _ H) as [T I]. destruct (ask_ok _ _ _ _ _ I G) as (n & s' & _ & E & _). eauto.
Qed.

Section Init.
Variables (a b : Z) (s : types) (L : list (Z * ty)).
Hypothesis H : issued a b s L.

Definition class_code (t : ty) : Z := match t with TSimple c => c | _ => class_tag t end.
Lemma class_of n t : named L n t -> type_get_class s n = class_code t.
Proof.
  intros N. destruct (inv_ex _ _ _ _ H) as [T I]. pose proof (inv_named _ _ _ _ _ I N) as D.
  unfold type_get_class, type_get, class_code.
  destruct t; cbn [norm] in *; try (destruct (class_at s T L I _ _ D) as [G G']; rewrite G'; replace (n >? 0) with true by lia; reflexivity).
  destruct D as [D ->]. unfold simple_code in D. replace (code >? 0) with false by lia. auto.
Qed.

Lemma requires_eq fuel t type : type_requires_initialization (S fuel) t type =
  let class := type_get_class t type in
  if class =? TYPE_STRUCTURE then
    do n <- type_structure_get_member_amount t type;
    any_member (type_requires_initialization fuel t) t type (Z.to_nat n) 0
  else if class =? TYPE_ARRAY then
    do el <- type_array_get_element_type t type; type_requires_initialization fuel t el
  else Some (class =? TYPE_CONST).
Proof. reflexivity. Qed.

Lemma init_facts t : forall n fuel, named L n t -> (depth t <= fuel)%nat ->
  type_requires_initialization fuel s n = Some (must_init t).
Proof.
  induction t using ty_rec'; intros n [|fuel] N F; try (cbn in F; lia);
    rewrite requires_eq; cbv zeta; rewrite (class_of _ _ N); cbn [class_code class_tag must_init].
  - destruct N as [[C E]|I].
    + injection E as ->. unfold simple_code, TYPE_STRUCTURE, TYPE_ARRAY, TYPE_CONST in *.
      replace (n =? 1002) with false by lia. replace (n =? 1003) with false by lia. replace (n =? 1006) with false by lia. auto.
    + exfalso. clear -H I. induction H as [|s0 L0 r u k s' H0 IH G E]; destruct I as [I|I]; try discriminate I; try contradiction; auto.
      injection I as -> ->. inversion G.
  - reflexivity.
  - change (TYPE_ARRAY =? TYPE_STRUCTURE) with false. change (TYPE_ARRAY =? TYPE_ARRAY) with true. cbv iota.
    destruct (array_facts _ _ _ _ H n (TArray t) t N eq_refl) as (m & E & M). rewrite E. cbn [bind]. apply IHt; auto. cbn in F. lia.
  - reflexivity.
  - change (TYPE_STRUCTURE =? TYPE_STRUCTURE) with true. cbv iota.
    destruct (member_facts _ _ _ _ H n (TStruct ms) ms N eq_refl) as [A B]. rewrite A. cbn [bind].
    assert (G : forall l pre, ms = pre ++ l -> Forall (fun m => forall n fuel, named L n (fst m) -> (depth (fst m) <= fuel)%nat ->
        type_requires_initialization fuel s n = Some (must_init (fst m))) l ->
      ((fix most (ms : list (ty * Z)) : nat := match ms with [] => O | (t, _) :: ms => Nat.max (depth t) (most ms) end) l <= fuel)%nat ->
      any_member (type_requires_initialization fuel s) s n (length l) (zlen pre) =
      Some ((fix some (ms : list (ty * Z)) : bool := match ms with [] => false | (t, _) :: ms => must_init t || some ms end) l)).
    { induction l as [|[u x] l IH]; intros pre E V Fl; [reflexivity|]. cbn [length any_member].
      destruct (B (zlen pre) u x) as (_ & m & E' & M); [rewrite E, znth_app2, Z.sub_diag by lia; reflexivity|].
      rewrite E'. cbn [bind]. inversion V as [|? ? V1 V2]; subst. cbn [fst] in V1. rewrite (V1 m fuel M) by lia. cbn [bind].
      destruct (must_init u); auto. cbn [orb]. specialize (IH (pre ++ [(u, x)])). rewrite zlen_app in IH.
      change (zlen [(u, x)]) with 1 in IH. apply IH; auto; [rewrite <- app_assoc; auto|lia]. }
    rewrite zlen_unf, Nat2Z.id. apply (G ms []); auto. cbn in F. lia.
  - reflexivity.
  - reflexivity.
Qed.
End Init.

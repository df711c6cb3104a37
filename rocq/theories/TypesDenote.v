(** What a type number denotes, and the invariant of the histories. *)
From Verif Require Import Prelude LVec TypesModel TypesSpec TypesProofs TypesEqual TypesAdd.

Fixpoint den (T : list (Z * shape)) (n : Z) (u : ty) {struct u} : Prop :=
  match u with
  | TSimple c => simple_code c /\ n = c
  | TPointer u => exists m, In (n, SPtr m) T /\ den T m u
  | TArray u => exists m, In (n, SArr m) T /\ den T m u
  | TConst u => exists m, In (n, SCst m) T /\
      match u with
      | TSimple c => simple_code m /\ c = (if m <? -1 then TYPE_CHARACTER else m)
      | TEnum k h => k = -1 /\ exists k' v r, In (m, SEnm k' v r) T /\ h = Z.quot v 2
      | _ => den T m u
      end
  | TStruct us => exists sz ms, In (n, SStr sz ms) T /\
      (fix all (ms : list (Z * Z)) (us : list (ty * Z)) {struct us} : Prop :=
         match us, ms with
         | [], [] => True
         | (u, y) :: us, (m, x) :: ms => den T m u /\ x = y /\ all ms us
         | _, _ => False
         end) ms us
  | TFunction r us => exists q ps, In (n, SFun q ps) T /\ den T q r /\
      (fix all (ms : list Z) (us : list ty) {struct us} : Prop :=
         match us, ms with
         | [], [] => True
         | u :: us, m :: ms => den T m u /\ all ms us
         | _, _ => False
         end) ps us
  | TEnum k v => exists r, In (n, SEnm k v r) T
  end.
Definition cden (T : list (Z * shape)) (m : Z) (u : ty) : Prop :=
  match u with
  | TSimple c => simple_code m /\ c = (if m <? -1 then TYPE_CHARACTER else m)
  | TEnum k h => k = -1 /\ exists k' v r, In (m, SEnm k' v r) T /\ h = Z.quot v 2
  | _ => den T m u
  end.

Lemma den_const T n u : den T n (TConst u) <-> exists m, In (n, SCst m) T /\ cden T m u.
Proof. reflexivity. Qed.
Lemma den_struct T n us : den T n (TStruct us) <-> exists sz ms, In (n, SStr sz ms) T /\
  Forall2 (fun m u => den T (fst m) (fst u) /\ snd m = snd u) ms us.
Proof.
  cbn [den].
  assert (K : forall ms,
    (fix all (ms : list (Z * Z)) (us : list (ty * Z)) {struct us} : Prop :=
         match us, ms with
         | [], [] => True
         | (u, y) :: us, (m, x) :: ms => den T m u /\ x = y /\ all ms us
         | _, _ => False
         end) ms us <-> Forall2 (fun m u => den T (fst m) (fst u) /\ snd m = snd u) ms us).
  { induction us as [|[u y] us IH]; intros [|[m x] ms]; split; intros H; try contradiction; try (inversion H; fail); auto.
    - destruct H as (A & B & H). constructor; [cbn; auto|]. apply IH. auto.
    - inversion H as [|? ? ? ? [A B] D]; subst. cbn in A, B. split; auto. split; auto. apply IH. auto. }
  split; intros (sz & ms & I & H); exists sz, ms; (split; auto; apply K; auto).
Qed.
Lemma den_function T n r us : den T n (TFunction r us) <-> exists q ps, In (n, SFun q ps) T /\ den T q r /\
  Forall2 (den T) ps us.
Proof.
  cbn [den].
  assert (K : forall ps,
    (fix all (ms : list Z) (us : list ty) {struct us} : Prop :=
         match us, ms with
         | [], [] => True
         | u :: us, m :: ms => den T m u /\ all ms us
         | _, _ => False
         end) ps us <-> Forall2 (den T) ps us).
  { induction us as [|u us IH]; intros [|m ms]; split; intros H; try contradiction; try (inversion H; fail); auto.
    - destruct H as (A & H). constructor; auto. apply IH. auto.
    - inversion H as [|? ? ? ? A D]; subst. split; auto. apply IH. auto. }
  split; intros (q & ps & I & R & H); exists q, ps; (split; auto; split; auto; apply K; auto).
Qed.

Lemma den_mono T T1 : incl T T1 -> forall u n, den T n u -> den T1 n u.
Proof.
  intros I u. induction u using ty_rec'; intros n D.
  - exact D.
  - destruct D as (m & M & D). exists m. auto.
  - destruct D as (m & M & D). exists m. auto.
  - rewrite den_const in *. destruct D as (m & M & D). exists m. split; auto.
    unfold cden in *. destruct u; auto. destruct D as (-> & k' & v & r & R & E). split; auto. exists k', v, r. auto.
  - rewrite den_struct in *. destruct D as (sz & l & M & D). exists sz, l. split; auto.
    clear M. revert l D. induction H as [|u us U _ IH]; intros l D; inversion D as [|? ? ? ? HD HT]; subst; constructor; auto. destruct HD. auto.
  - rewrite den_function in *. destruct D as (q & l & M & R & D). exists q, l. split; auto. split; auto.
    clear M. revert l D. induction H as [|u' us U _ IH]; intros l D; inversion D; subst; constructor; auto.
  - destruct D as (r & R). exists r. auto.
Qed.

Lemma den_valid T u n : den T n u -> valid T n.
Proof.
  destruct u; intros D.
  - destruct D as [D ->]. left. auto.
  - destruct D as (m & M & _). right. eauto.
  - destruct D as (m & M & _). right. eauto.
  - destruct D as (m & M & _). right. eauto.
  - destruct D as (m & ? & M & _). right. eauto.
  - destruct D as (m & ? & M & _). right. eauto.
  - destruct D as (m & M). right. eauto.
Qed.

(** No type has two records. *)
Definition same (T : list (Z * shape)) (s s' : shape) : Prop :=
  match s, s' with SEnm k _ _, SEnm k' _ _ => k = k' | _, _ => seq T s s' end.
Definition uniq (T : list (Z * shape)) : Prop :=
  forall n n' s s', In (n, s) T -> In (n', s') T -> same T s s' -> n = n'.

Definition sized (t : types) (T : list (Z * shape)) : Prop :=
  forall n sz ms, In (n, SStr sz ms) T -> struct_size t ms = Some sz.

Section Unique.
Variables (t : types) (T : list (Z * shape)).
Hypothesis L : laid (ty_cells t) (ty_start t) T.
Hypothesis U : uniq T.
Hypothesis SZ : sized t T.

Lemma simple_not_key m s : simple_code m -> ~ In (m, s) T.
Proof. intros C I. destruct (laid_in _ _ _ _ _ L I) as (_ & R & _). unfold simple_code in C. lia. Qed.

Lemma den_number u : forall n n', den T n u -> den T n' u -> n = n'.
Proof.
  induction u using ty_rec'; intros n n' D D'.
  - destruct D as [_ ->], D' as [_ ->]. auto.
  - destruct D as (m & M & D), D' as (m' & M' & D'). rewrite (IHu _ _ D D') in M. eapply U; eauto. cbn. constructor.
  - destruct D as (m & M & D), D' as (m' & M' & D'). rewrite (IHu _ _ D D') in M. eapply U; eauto. cbn. constructor.
  - rewrite den_const in D, D'. destruct D as (m & M & D), D' as (m' & M' & D'). eapply U; eauto. cbn [same].
    assert (Same : den T m u -> den T m' u -> seq T (SCst m) (SCst m')).
    { intros E E'. pose proof (IHu _ _ E E') as <-. destruct (den_valid _ _ _ E) as [V|[s V]].
      - apply q_num; auto; lia.
      - eapply q_cst; eauto. eapply seq_refl; eauto. }
    unfold cden in *. destruct u; auto.
    + destruct D as [D E], D' as [D' E']. unfold simple_code, TYPE_CHARACTER in *. apply q_num; auto;
      destruct (m <? -1) eqn:X, (m' <? -1) eqn:X'; lia.
    + destruct D as (_ & k & v & r & R & E), D' as (_ & k' & v' & r' & R' & E'). eapply q_cst; eauto. constructor. congruence.
  - rewrite den_struct in D, D'. destruct D as (sz & l & M & D), D' as (sz' & l' & M' & D').
    assert (l = l').
    { clear M M'. revert l l' D D'. induction H as [|u us V _ IH]; intros l l' D D'; inversion D as [|? ? ? ? HD HT]; inversion D' as [|? ? ? ? HD' HT']; subst; auto.
      f_equal; eauto. destruct HD as [A B], HD' as [A' B']. destruct x, x0; cbn in *. f_equal; [eauto|congruence]. }
    subst l'.
    assert (sz = sz') by (apply SZ in M, M'; congruence). subst. eapply U; eauto. cbn. constructor.
  - rewrite den_function in D, D'. destruct D as (q & l & M & R & D), D' as (q' & l' & M' & R' & D').
    assert (l = l').
    { clear M M'. revert l l' D D'. induction H as [|u' us V _ IH]; intros l l' D D'; inversion D; inversion D'; subst; auto.
      f_equal; eauto. }
    subst l'. rewrite (IHu _ _ R R') in M. eapply U; eauto. cbn. constructor.
  - destruct D as (r & R), D' as (r' & R'). eapply U; eauto. cbn. auto.
Qed.

Ltac key M M' := pose proof (laid_key _ _ _ _ _ _ L M M') as K; try discriminate K.
Ltac nosimple := match goal with H : In (?m, _) T, C : simple_code ?m |- _ => exfalso; exact (simple_not_key _ _ C H) end.

Lemma den_key u n : den T n u -> (exists k, u = TSimple k) \/ exists s, In (n, s) T /\ tag s = match u with
  | TSimple _ => 0 | TPointer _ => TYPE_POINTER | TArray _ => TYPE_ARRAY | TConst _ => TYPE_CONST | TStruct _ => TYPE_STRUCTURE
  | TFunction _ _ => TYPE_FUNCTION | TEnum _ _ => TYPE_ENUM end.
Proof.
  destruct u; intros D; [left; eauto| | | | | |]; right.
  - destruct D as (m & M & _). exists (SPtr m); auto.
  - destruct D as (m & M & _). exists (SArr m); auto.
  - destruct D as (m & M & _). exists (SCst m); auto.
  - destruct D as (m & ? & M & _). eexists; split; [exact M|auto].
  - destruct D as (m & ? & M & _). eexists; split; [exact M|auto].
  - destruct D as (m & M). eexists; split; [exact M|auto].
Qed.

Lemma den_type u : forall u' n, den T n u -> den T n u' -> u = u'.
Proof.
  assert (Kind : forall u u' n, den T n u -> den T n u' -> match u, u' with
    | TSimple _, TSimple _ | TPointer _, TPointer _ | TArray _, TArray _ | TConst _, TConst _ | TStruct _, TStruct _
    | TFunction _ _, TFunction _ _ | TEnum _ _, TEnum _ _ => True | _, _ => False end).
  { intros u1 u2 n D D'. destruct (den_key _ _ D) as [[k ->]|(s & M & G)], (den_key _ _ D') as [[k' ->]|(s' & M' & G')]; auto.
    - destruct D as [D ->]. nosimple.
    - destruct D' as [D' ->]. nosimple.
    - rewrite (laid_key _ _ _ _ _ _ L M M'), G' in G. destruct u1, u2; auto; discriminate G. }
  induction u using ty_rec'; intros u' n D D'; pose proof (Kind _ _ _ D D') as KK; destruct u'; try contradiction; clear KK.
  - destruct D as [_ ->], D' as [_ ->]. auto.
  - destruct D as (m & M & D), D' as (m' & M' & D'). key M M'. injection K as ->. f_equal. eauto.
  - destruct D as (m & M & D), D' as (m' & M' & D'). key M M'. injection K as ->. f_equal. eauto.
  - rewrite den_const in D, D'. destruct D as (m & M & D), D' as (m' & M' & D'). key M M'. injection K as ->. f_equal.
    assert (CS : forall w, cden T m' w -> match w with TSimple _ => simple_code m' | TEnum _ _ => exists k v r, In (m', SEnm k v r) T
       | _ => exists s, In (m', s) T /\ tag s <> TYPE_ENUM end).
    { intros w W. destruct w; cbn [cden] in W; try (destruct W; auto; fail);
      try (destruct (den_key _ _ W) as [[? X]|(s & I & G)]; [discriminate X|exists s; split; auto; rewrite G; discriminate]).
      destruct W as (_ & k' & v & r & R & _). eauto. }
    pose proof (CS _ D) as A. pose proof (CS _ D') as A'.
    destruct u; destruct u'; cbn [cden] in D, D'; eauto;
      try (destruct A as (? & ? & ? & A)); try (destruct A' as (? & ? & ? & A'));
      try (destruct A as (? & A & AG)); try (destruct A' as (? & A' & AG')); try nosimple;
      try (key A A'; subst; cbn in *; congruence).
    + destruct D as [_ ->], D' as [_ ->]. auto.
    + destruct D as (-> & k1 & v1 & r1 & R1 & ->), D' as (-> & k2 & v2 & r2 & R2 & ->). key R1 R2. injection K as -> -> ->. auto.
  - rewrite den_struct in D, D'. destruct D as (sz & l & M & D), D' as (sz' & l' & M' & D'). key M M'. injection K as -> ->. f_equal.
    clear M M'. revert l' members D D'. induction H as [|u us V _ IH]; intros l members D D'; inversion D as [|? ? ? ? HD HT E1 E2]; inversion D' as [|? ? ? ? HD' HT' E1' E2']; subst; try discriminate; auto.
    injection E1' as -> ->. destruct HD as [A B], HD' as [A' B']. destruct u, y0. cbn in *. f_equal; [|eauto].
    f_equal; [eauto|congruence].
  - rewrite den_function in D, D'. destruct D as (q & l & M & R & D), D' as (q' & l' & M' & R' & D'). key M M'. injection K as -> ->.
    f_equal; [eauto|].
    clear M M'. revert l' params D D'. induction H as [|u0 us V _ IH]; intros l members D D'; inversion D as [|? ? ? ? HD HT E1 E2]; inversion D' as [|? ? ? ? HD' HT' E1' E2']; subst; try discriminate; auto.
    injection E1' as -> ->. f_equal; eauto.
  - destruct D as (r & R), D' as (r' & R'). key R R'. injection K as -> -> _. auto.
Qed.

(** Constants compared equal denote the same. *)
Lemma cden_seq m m' u : cden T m u -> valid T m -> valid T m' -> seq T (SCst m) (SCst m') -> cden T m' u.
Proof.
  intros D V V' Q. inversion Q; subst.
  - unfold cden in *. assert (X : forall n, den T n u -> simple_code n -> exists k, u = TSimple k).
    { intros n Dn C. destruct (den_key _ _ Dn) as [|(s & I & _)]; auto. nosimple. }
    destruct u; try (destruct (X m D) as [? X']; auto; discriminate X').
    + destruct D as [_ ->]. split; auto. unfold simple_code, TYPE_CHARACTER in *. destruct (m <? -1) eqn:E, (m' <? -1) eqn:E'; lia.
    + destruct D as (_ & k' & v & r & R & _). nosimple.
  - destruct (is_enm s) eqn:E.
    + destruct s; try discriminate E. inversion H3; subst.
      unfold cden in *. assert (X : den T m u -> exists k v, u = TEnum k v).
      { intros Dn. destruct (den_key _ _ Dn) as [[k0 ->]|(s & I & G)]; [destruct Dn as [Dn ->]; nosimple|].
        key H1 I. subst. destruct u; try discriminate G; eauto. }
      destruct u; try (destruct (X D) as (? & ? & X'); discriminate X').
      * destruct D as [D _]. nosimple.
      * destruct D as (-> & k1 & v1 & r1 & R1 & ->). key H1 R1. injection K as <- <- <-. split; auto. exists k', v', r'. split; auto.
    + assert (m = m') as <-; auto. eapply U; eauto. destruct s; try discriminate E; inversion H3; subst; cbn; auto.
Qed.
End Unique.

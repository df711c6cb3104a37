(** Assignments, initialisations and arguments are accepted exactly when the
    value is assignable: proofs. *)
From Coq Require Import Floats.SpecFloat.
From Verif Require Import Prelude TypesModel TypesSpec LexModel ParseModel BuildModel BuildSpec BuildFold.

Lemma node_rect (P : node -> Prop) :
  (forall n, is_initializer n = false -> P n) ->
  (forall t es, (forall e, In e es -> P e) -> P (NInit t es)) -> forall n, P n.
Proof.
  intros H1 H2. fix IH 1. intros n. destruct n as [| | | | | | | | | |t es|]; try (apply H1; reflexivity).
  apply H2. induction es as [|e es IHes]; [intros ? []|]. intros x [<-|X]; [apply IH|apply IHes, X].
Qed.

Lemma strip_idem t : strip (strip t) = strip t.
Proof. induction t; cbn; auto. Qed.
Lemma strip_not_const t : is_const (strip t) = false.
Proof. induction t; cbn; auto. Qed.
Lemma unq_strip t : one_const t -> (if is_const t then unqualified t else t) = strip t.
Proof. destruct t as [| | |[]| | |]; cbn; tauto. Qed.
Lemma size_strip t : size_of (strip t) = size_of t.
Proof. induction t; cbn [strip size_of]; auto. Qed.

Lemma is_integer_spec t : is_integer t = true <-> integer_type (strip t).
Proof.
  unfold is_integer, integer_type, t_int, t_char. destruct (strip t) as [c| | | | | |s v].
  2,3,4,5,6: split; [discriminate|intros [H|[H|(s & v & H)]]; discriminate H].
  - rewrite orb_true_iff, !Z.eqb_eq. split.
    + intros [->| ->]; auto.
    + intros [H|[H|(s & v & H)]]; try discriminate H; injection H as ->; auto.
  - split; [|reflexivity]. intros _. right. right. eauto.
Qed.
Lemma is_floating_spec t : is_floating t = true <-> strip t = t_float.
Proof.
  unfold is_floating, is_simple, t_float. destruct (strip t); try (split; [discriminate|intros H; discriminate H]).
  rewrite Z.eqb_eq. split; [intros ->; reflexivity|intros H; injection H as ->; reflexivity].
Qed.
Lemma is_pointer_spec t : is_pointer t = true <-> exists p, strip t = TPointer p.
Proof.
  unfold is_pointer. destruct (strip t); try (split; [discriminate|intros [p H]; discriminate H]).
  split; eauto.
Qed.
Lemma is_null_spec t : is_null_pointer (strip t) = true <-> strip t = t_null.
Proof.
  unfold is_null_pointer, is_simple, t_null. destruct (strip t); try (split; [discriminate|intros H; discriminate H]).
  rewrite Z.eqb_eq. split; [intros ->; reflexivity|intros H; injection H as ->; reflexivity].
Qed.

(** The check of a value that is not a list. *)
Definition check_value (target : ty) (e : node) : option (option node) :=
  let actual := if is_const (type_of e) then unqualified (type_of e) else type_of e in
  if is_floating target && is_integer actual then do n <- build_cast target e; Some (Some n)
  else if is_integer target && is_enum actual then Some (Some e)
  else if is_integer target && is_integer actual then Some (Some e)
  else if is_pointer target && is_null_pointer actual then Some (Some e)
  else if is_pointer target && is_pointer actual
          && negb (is_const (element target)) && is_const (element actual) then Some None
  else if is_pointer target && is_pointer actual
          && is_const (element target) && ty_eqb (element actual) (unqualified (element target)) then
    Some (Some e)
  else if ty_eqb target actual then Some (Some e)
  else Some None.
Lemma check_leaf t e d : is_initializer e = false -> is_correct e = true ->
  check t e d = if is_const t && negb d then Some None else check_value (if is_const t then unqualified t else t) e.
Proof. destruct e; try discriminate; reflexivity. Qed.

(** The loops over lists. *)
Fixpoint checks (d : bool) (ts : list ty) (es : list node) : option (option (list node)) :=
  match ts, es with
  | t :: ts, e :: es =>
      do o <- check t e d;
      match o with
      | Some e' => do rest <- checks d ts es;
                   match rest with Some es' => Some (Some (e' :: es')) | None => Some None end
      | None => Some None
      end
  | _, _ => Some (Some [])
  end.
Definition as_list (t : ty) (o : option (option (list node))) : option (option node) :=
  do r <- o; match r with Some es => Some (Some (NInit t es)) | None => Some None end.

Lemma check_list t u es d : one_const t ->
  check t (NInit u es) d =
    if is_const t && negb d then Some None
    else if is_structure t then
      if zlen (members t) =? zlen es then as_list (strip t) (checks d (map fst (members t)) es) else Some None
    else if is_array t then as_list (strip t) (checks d (repeat (element t) (List.length es)) es)
    else Some None.
Proof.
  intros O. cbn [check is_correct negb]. destruct (is_const t && negb d) eqn:C; [reflexivity|].
  rewrite (unq_strip t O).
  assert (E1 : is_structure (strip t) = is_structure t) by (unfold is_structure; rewrite strip_idem; reflexivity).
  assert (E2 : members (strip t) = members t) by (unfold members; rewrite strip_idem; reflexivity).
  assert (E3 : is_array (strip t) = is_array t) by (unfold is_array; rewrite strip_idem; reflexivity).
  assert (E4 : element (strip t) = element t) by (unfold element; rewrite strip_idem; reflexivity).
  rewrite E1, E2, E3, E4. clear E1 E2 E3 E4.
  destruct (is_structure t).
  - destruct (zlen (members t) =? zlen es); [|reflexivity].
    assert (G : forall es ms done,
      (fix go (ms : list (ty * Z)) (es done : list node) {struct es} : option (option node) :=
               match es, ms with
               | e :: es, m :: ms =>
                   do o <- check (fst m) e d;
                   match o with Some e' => go ms es (e' :: done) | None => Some None end
               | _, _ => Some (Some (NInit (strip t) (rev done)))
               end) ms es done
      = do r <- checks d (map fst ms) es; match r with Some es' => Some (Some (NInit (strip t) (rev done ++ es'))) | None => Some None end).
    { clear. induction es as [|e es IH]; intros [|m ms] done; cbn [map checks bind]; rewrite ?app_nil_r; try reflexivity.
      destruct (check (fst m) e d) as [[e'|]|]; cbn [bind]; try reflexivity.
      rewrite IH. destruct (checks d (map fst ms) es) as [[es'|]|]; cbn [bind]; try reflexivity.
      cbn [rev]. rewrite <- app_assoc. reflexivity. }
    rewrite G. reflexivity.
  - destruct (is_array t); [|reflexivity].
    assert (G : forall es done,
      (fix go (es done : list node) {struct es} : option (option node) :=
             match es with
             | e :: es =>
                 do o <- check (element t) e d;
                 match o with Some e' => go es (e' :: done) | None => Some None end
             | [] => Some (Some (NInit (strip t) (rev done)))
             end) es done
      = do r <- checks d (repeat (element t) (List.length es)) es; match r with Some es' => Some (Some (NInit (strip t) (rev done ++ es'))) | None => Some None end).
    { clear. induction es as [|e es IH]; intros done; cbn [List.length repeat checks bind]; rewrite ?app_nil_r; try reflexivity.
      destruct (check (element t) e d) as [[e'|]|]; cbn [bind]; try reflexivity.
      rewrite IH. destruct (checks d (repeat (element t) (List.length es)) es) as [[es'|]|]; cbn [bind]; try reflexivity.
      cbn [rev]. rewrite <- app_assoc. reflexivity. }
    rewrite G. reflexivity.
Qed.

(** ** Values *)
Lemma intact_const e : is_initializer e = false -> intact e -> one_const (type_of e).
Proof.
  destruct e; intros I H; try discriminate I; try exact H; [|destruct H].
  cbn in H |- *. destruct l; cbn in H; subst; try exact Logic.I.
  destruct H as [->|(s & w & ->)]; exact Logic.I.
Qed.
Lemma intact_correct e : intact e -> is_correct e = true.
Proof. destruct e; try reflexivity. intros []. Qed.

Definition verdict (c : bool) (t : ty) (e : node) (r : option (option node)) : Prop :=
  exists o, r = Some o /\ (o <> None <-> assignable c t e) /\ forall e', o = Some e' -> stored t e' /\ is_correct e' = true.

Lemma verdict_no c t e : ~ assignable c t e -> verdict c t e (Some None).
Proof. intros N. exists None. split; [reflexivity|]. split; [tauto|discriminate]. Qed.
Lemma verdict_yes c t e e' : assignable c t e -> stored t e' -> is_correct e' = true -> verdict c t e (Some (Some e')).
Proof.
  intros A S C. exists (Some e'). split; [reflexivity|]. split; [split; [auto|discriminate]|].
  intros x X. injection X as <-. auto.
Qed.

Lemma writable_dec c t : writable c t <-> is_const t && negb c = false.
Proof. unfold writable. destruct c, (is_const t); cbn; split; auto; intros [H|H]; discriminate. Qed.
Lemma assignable_writable c t e : assignable c t e -> writable c t.
Proof. intros [] ; assumption. Qed.

Lemma stored_same t e : is_initializer e = false -> strip t = strip (type_of e) -> stored t e.
Proof.
  intros I E. constructor; [exact I| |rewrite E; tauto].
  rewrite <- (size_strip (type_of e)), <- (size_strip t), E. reflexivity.
Qed.
Lemma size_integer t : integer_type t -> size_of t = 1.
Proof. intros [->|[->|(s & v & ->)]]; reflexivity. Qed.
Lemma stored_small t e : is_initializer e = false -> size_of t = 1 -> size_of (type_of e) = 1 -> stored t e.
Proof.
  intros I A B. constructor; [exact I|congruence|].
  rewrite <- size_strip in A. rewrite <- size_strip in B.
  split; intros H; rewrite H in *; discriminate.
Qed.

Lemma value_verdict c t e : one_const t -> is_initializer e = false -> intact e ->
  verdict c t e (check t e c).
Proof.
  intros O I H. rewrite (check_leaf t e c I (intact_correct e H)).
  destruct (is_const t && negb c) eqn:W.
  { apply verdict_no. intros A. apply assignable_writable, writable_dec in A. congruence. }
  apply writable_dec in W. rewrite (unq_strip t O). unfold check_value. rewrite (unq_strip _ (intact_const e I H)).
  set (T := strip t). set (U := strip (type_of e)).
  assert (ST : strip T = T) by apply strip_idem. assert (SU : strip U = U) by apply strip_idem.
  pose proof (intact_correct e H) as C.
  assert (NI : forall u es, e <> NInit u es) by (intros u es ->; discriminate I).
  destruct (is_floating T) eqn:FT; [destruct (is_integer U) eqn:IU|]; cbn [andb].
  - apply is_floating_spec in FT. rewrite ST in FT. apply is_integer_spec in IU. rewrite SU in IU.
    assert (A : assignable c t e) by (apply as_float; assumption).
    unfold build_cast. rewrite C. cbn [negb].
    destruct (ty_eqb T (type_of e)) eqn:Q.
    { apply ty_eqb_eq in Q. exfalso. unfold U in IU. rewrite <- Q, ST, FT in IU. destruct IU as [X|[X|(s & v & X)]]; discriminate X. }
    assert (S : forall n, is_initializer n = false -> type_of n = T \/ type_of n = t_float -> stored t n).
    { intros n In Tn. apply stored_same; [exact In|]. fold T. destruct Tn as [->| ->]; [symmetry; exact ST|exact FT]. }
    destruct e as [x i|x l| | | | | | | | | |]; try discriminate I; try discriminate C;
      try (cbn [bind]; apply verdict_yes; [exact A|apply S; [reflexivity|left; reflexivity]|reflexivity]).
    cbn in H. unfold U in IU. cbn [type_of] in IU.
    destruct l; cbn in H; cbn [lit_integer bind];
      try (apply verdict_yes; [exact A|apply S; [reflexivity|right; reflexivity]|reflexivity]).
    subst x. destruct IU as [X|[X|(s & v & X)]]; discriminate X.
  - assert (NF : is_integer T = false /\ is_pointer T = false).
    { apply is_floating_spec in FT. rewrite ST in FT. rewrite FT. split; reflexivity. }
    destruct NF as [-> ->]. cbn [andb]. destruct (ty_eqb T U) eqn:Q.
    + apply ty_eqb_eq in Q. apply verdict_yes; [apply as_same|apply stored_same|]; assumption.
    + apply verdict_no. intros A. apply is_floating_spec in FT. rewrite ST in FT.
      destruct A as [? _ _ A|? _ _ A _|? _ _ A B|? ? _ _ A _|? ? _ _ A _|? ? ? _ A _ _|? ? ? _ A _]; fold T in A; try (fold U in A);
        try (rewrite FT in A; discriminate A).
      * fold T U in Q. rewrite A, ty_eqb_refl in Q. discriminate Q.
      * rewrite FT in A. destruct A as [X|[X|(s & v & X)]]; discriminate X.
      * assert (X : is_integer U = true) by (apply is_integer_spec; rewrite SU; exact B). congruence.
  - assert (NF : T <> t_float) by (intros X; rewrite X in FT; discriminate FT).
    assert (EI : is_enum U = true -> is_integer U = true) by (unfold is_enum, is_integer; destruct (strip U); auto; discriminate).
    destruct (is_integer T) eqn:IT.
    { apply is_integer_spec in IT. rewrite ST in IT.
      assert (PF : is_pointer T = false) by (destruct IT as [->|[->|(s & v & ->)]]; reflexivity). rewrite PF. cbn [andb].
      destruct (is_integer U) eqn:IU.
      - apply is_integer_spec in IU. rewrite SU in IU.
        assert (A : assignable c t e) by (apply as_integer; assumption).
        assert (S : stored t e).
        { apply stored_small; [exact I| |]; rewrite <- size_strip; apply size_integer; assumption. }
        destruct (is_enum U); apply verdict_yes; assumption.
      - destruct (is_enum U) eqn:E; [specialize (EI eq_refl); discriminate EI|].
        destruct (ty_eqb T U) eqn:Q.
        + apply ty_eqb_eq in Q. apply verdict_yes; [apply as_same|apply stored_same|]; assumption.
        + apply verdict_no. intros A.
          destruct A as [? _ _ A|? _ _ A B|? _ _ A B|? ? _ _ A _|? ? _ _ A _|? ? ? _ A _ _|? ? ? _ A _]; fold T in A; try (fold U in A);
            try (rewrite A in PF; discriminate PF); try (apply (NF A)); try (apply (NI _ _ eq_refl)).
          * fold T U in Q. rewrite A, ty_eqb_refl in Q. discriminate Q.
          * assert (X : is_integer U = true) by (apply is_integer_spec; rewrite SU; exact B). congruence. }
    cbn [andb]. assert (NT : ~ integer_type T) by (intros X; rewrite <- ST in X; apply is_integer_spec in X; congruence).
    destruct (is_pointer T) eqn:PT; cbn [andb].
    + apply is_pointer_spec in PT as [p P]. rewrite ST in P.
      assert (EP : element T = p) by (unfold element; rewrite ST, P; reflexivity).
      destruct (is_null_pointer U) eqn:NU.
      { apply is_null_spec in NU. fold U in NU. apply verdict_yes; [eapply as_null; eassumption| |assumption].
        apply stored_small; [exact I| |]; rewrite <- size_strip; [fold T; rewrite P|fold U; rewrite NU]; reflexivity. }
      assert (NNU : U <> t_null) by (intros X; rewrite X in NU; discriminate NU).
      destruct (is_pointer U) eqn:PU; cbn [andb].
      * apply is_pointer_spec in PU as [q Q]. rewrite SU in Q.
        assert (EQ : element U = q) by (unfold element; rewrite SU, Q; reflexivity). rewrite EP, EQ.
        assert (SM : stored t e) by (apply stored_small; [exact I| |]; rewrite <- size_strip; [fold T; rewrite P|fold U; rewrite Q]; reflexivity).
        destruct (is_const p) eqn:CP; cbn [negb andb].
        -- destruct p as [| | |p| | |]; try discriminate CP. cbn [unqualified].
           destruct (ty_eqb q p) eqn:Y.
           ++ apply ty_eqb_eq in Y. rewrite Y in Q. apply verdict_yes; [exact (as_const c t e p W I P Q)|exact SM|exact C].
           ++ destruct (ty_eqb T U) eqn:TU.
              { apply ty_eqb_eq in TU. apply verdict_yes; [apply as_same; assumption|exact SM|exact C]. }
              apply verdict_no. intros A.
              destruct A as [? _ _ A|? _ _ A B|? _ _ A B|? ? _ _ A B|? ? _ _ A B|? ? ? _ A _ _|? ? ? _ A _]; fold T in A; try (fold U in A);
                try (apply (NF A)); try (apply (NI _ _ eq_refl)); try (apply (NT A)).
              ** fold T U in TU. rewrite A, ty_eqb_refl in TU. discriminate TU.
              ** fold U in B. congruence.
              ** fold U in B. rewrite P in A. rewrite Q in B. injection A as ->. injection B as ->. rewrite ty_eqb_refl in Y. discriminate Y.
        -- destruct (is_const q) eqn:CQ.
           ++ apply verdict_no. intros A.
              destruct A as [? _ _ A|? _ _ A B|? _ _ A B|? ? _ _ A B|? ? _ _ A B|? ? ? _ A _ _|? ? ? _ A _]; fold T in A; try (fold U in A);
                try (apply (NF A)); try (apply (NI _ _ eq_refl)); try (apply (NT A)).
              ** fold U in A. rewrite P, Q in A. injection A as ->. congruence.
              ** fold U in B. congruence.
              ** fold U in B. rewrite P in A. rewrite Q in B. injection A as ->. discriminate CP.
           ++ destruct (ty_eqb T U) eqn:TU.
              { apply ty_eqb_eq in TU. apply verdict_yes; [apply as_same; assumption|exact SM|exact C]. }
              apply verdict_no. intros A.
              destruct A as [? _ _ A|? _ _ A B|? _ _ A B|? ? _ _ A B|? ? _ _ A B|? ? ? _ A _ _|? ? ? _ A _]; fold T in A; try (fold U in A);
                try (apply (NF A)); try (apply (NI _ _ eq_refl)); try (apply (NT A)).
              ** fold T U in TU. rewrite A, ty_eqb_refl in TU. discriminate TU.
              ** fold U in B. congruence.
              ** fold U in B. rewrite P in A. injection A as ->. discriminate CP.
      * destruct (ty_eqb T U) eqn:TU.
        { apply ty_eqb_eq in TU. rewrite TU in P. rewrite P in PU. discriminate PU. }
        apply verdict_no. intros A.
        destruct A as [? _ _ A|? _ _ A B|? _ _ A B|? ? _ _ A B|? ? _ _ A B|? ? ? _ A _ _|? ? ? _ A _]; fold T in A; try (fold U in A);
          try (apply (NF A)); try (apply (NI _ _ eq_refl)); try (apply (NT A)).
        ** fold T U in TU. rewrite A, ty_eqb_refl in TU. discriminate TU.
        ** fold U in B. congruence.
        ** fold U in B. rewrite B in PU. discriminate PU.
    + destruct (ty_eqb T U) eqn:TU.
      { apply ty_eqb_eq in TU. apply verdict_yes; [apply as_same; assumption|apply stored_same; assumption|exact C]. }
      apply verdict_no. intros A.
      destruct A as [? _ _ A|? _ _ A B|? _ _ A B|? ? _ _ A B|? ? _ _ A B|? ? ? _ A _ _|? ? ? _ A _]; fold T in A; try (fold U in A);
        try (apply (NF A)); try (apply (NI _ _ eq_refl)); try (apply (NT A)); try (rewrite A in PT; discriminate PT).
      fold T U in TU. rewrite A, ty_eqb_refl in TU. discriminate TU.
Qed.

(** ** Lists *)
Lemma checks_verdict c ts es : List.length ts = List.length es ->
  (forall i t e, nth_error ts i = Some t -> nth_error es i = Some e -> verdict c t e (check t e c)) ->
  exists o, checks c ts es = Some o
    /\ (o <> None <-> forall i t e, nth_error ts i = Some t -> nth_error es i = Some e -> assignable c t e)
    /\ forall es', o = Some es' -> List.length es' = List.length es
         /\ forall i t e', nth_error ts i = Some t -> nth_error es' i = Some e' -> stored t e' /\ is_correct e' = true.
Proof.
  revert es. induction ts as [|t ts IH]; intros [|e es] L V; try discriminate L.
  - exists (Some []). split; [reflexivity|]. split.
    + split; [|discriminate]. intros _ [|i] t e H; discriminate H.
    + intros es' H. injection H as <-. split; [reflexivity|]. intros [|i] t e H; discriminate H.
  - cbn [checks]. destruct (V O t e eq_refl eq_refl) as (o & -> & A & B). cbn [bind].
    destruct o as [e'|].
    + destruct (IH es) as (r & -> & A' & B'); [injection L as L; exact L| |].
      { intros i x y X Y. exact (V (S i) x y X Y). }
      cbn [bind]. destruct r as [es'|].
      * exists (Some (e' :: es')). split; [reflexivity|]. split.
        -- split; [|discriminate]. intros _ [|i] x y X Y.
           ++ injection X as <-. injection Y as <-. apply A. discriminate.
           ++ refine (proj1 A' _ i x y X Y). discriminate.
        -- intros q Q. injection Q as <-. destruct (B' es' eq_refl) as [L' S']. split; [cbn; lia|].
           intros [|i] x y X Y; [injection X as <-; injection Y as <-; exact (B e' eq_refl)|exact (S' i x y X Y)].
      * exists None. split; [reflexivity|]. split; [|discriminate]. split; [congruence|].
        intros H. exfalso. apply (proj2 A'); [|reflexivity]. intros i x y X Y. exact (H (S i) x y X Y).
    + exists None. split; [reflexivity|]. split; [|discriminate]. split; [congruence|].
      intros H. exfalso. apply (proj2 A); [|reflexivity]. exact (H O t e eq_refl eq_refl).
Qed.

Lemma intact_in u es e : intact (NInit u es) -> In e es -> intact e.
Proof.
  cbn [intact]. induction es as [|x es IH]; [intros _ []|]. intros [A B] [<-|H]; [exact A|exact (IH B H)].
Qed.
Lemma tidy_strip t : tidy t -> tidy (strip t).
Proof. induction t; intros H; cbn [strip]; auto. apply IHt. apply H. Qed.
Lemma tidy_member ms m : tidy (TStruct ms) -> In m ms -> tidy (fst m).
Proof.
  intros [_ H]. induction ms as [|x ms IH]; [intros []|]. destruct H as [A B]. intros [<-|H]; [exact A|exact (IH B H)].
Qed.
Lemma tidy_one t : tidy t -> one_const t.
Proof. destruct t; intros [H _]; exact H. Qed.

Lemma check_verdict c e : forall t, tidy t -> intact e -> verdict c t e (check t e c).
Proof.
  induction e as [e I|u es IH] using node_rect; intros t T H; [apply value_verdict; auto using tidy_one|].
  rewrite (check_list t u es c (tidy_one t T)).
  destruct (is_const t && negb c) eqn:W.
  { apply verdict_no. intros A. apply assignable_writable, writable_dec in A. congruence. }
  apply writable_dec in W.
  assert (NI : forall e, is_initializer e = false -> e <> NInit u es) by (intros e I ->; discriminate I).
  destruct (is_structure t) eqn:ST.
  - unfold is_structure in ST. unfold members. destruct (strip t) as [| | | |ms| |] eqn:E; try discriminate ST. rewrite <- E.
    destruct (zlen ms =? zlen es) eqn:L.
    + assert (L' : List.length (map fst ms) = List.length es) by (rewrite map_length; rewrite !zlen_unf in L; lia).
      destruct (checks_verdict c (map fst ms) es L') as (o & -> & A & B).
      { intros i x y X Y. apply IH.
        - exact (nth_error_In es i Y).
        - rewrite nth_error_map in X. destruct (nth_error ms i) as [m|] eqn:M; [|discriminate X]. cbn in X. injection X as <-.
          apply (tidy_member ms); [|exact (nth_error_In ms i M)]. rewrite <- E. apply tidy_strip, T.
        - exact (intact_in u es y H (nth_error_In es i Y)). }
      unfold as_list. cbn [bind]. destruct o as [es'|].
      * destruct (B es' eq_refl) as [L2 S]. apply verdict_yes; [| |reflexivity].
        -- apply (as_struct c t u es ms W E); [rewrite map_length in L'; exact L'|].
           intros i m e X Y. apply (proj1 A ltac:(discriminate) i); [|exact Y]. rewrite nth_error_map, X. reflexivity.
        -- apply (st_struct t es' ms E); [rewrite map_length in L'; congruence|].
           intros i m e X Y. apply (S i); [|exact Y]. rewrite nth_error_map, X. reflexivity.
      * apply verdict_no. intros X. apply (proj2 A); [|reflexivity].
        inversion X as [? ? I|? ? I|? ? I|? ? ? I|? ? ? I|u' es2 ms' W' E' L'' F|u' es2 p W' E' F]; subst; try discriminate I.
        -- rewrite E in E'. injection E' as <-. intros i x y Hx Hy.
           rewrite nth_error_map in Hx. destruct (nth_error ms i) as [m|] eqn:M; [|discriminate Hx]. cbn in Hx. injection Hx as <-.
           exact (F i m y M Hy).
        -- rewrite E in E'. discriminate E'.
    + apply verdict_no. intros X.
      inversion X as [? ? I|? ? I|? ? I|? ? ? I|? ? ? I|u' es2 ms' W' E' L'' F|u' es2 p W' E' F]; subst; try discriminate I.
      * rewrite E in E'. injection E' as <-. rewrite !zlen_unf in L. lia.
      * rewrite E in E'. discriminate E'.
  - destruct (is_array t) eqn:AR.
    + unfold is_array in AR. unfold element. destruct (strip t) as [| |p| | | |] eqn:E; try discriminate AR. rewrite <- E.
      assert (R : forall i x, nth_error (repeat p (List.length es)) i = Some x -> x = p).
      { intros i x X. apply nth_error_In in X. exact (repeat_spec _ _ _ X). }
      destruct (checks_verdict c (repeat p (List.length es)) es) as (o & -> & A & B).
      { apply repeat_length. }
      { intros i x y X Y. apply R in X. subst x. apply IH.
        - exact (nth_error_In es i Y).
        - apply tidy_strip in T. rewrite E in T. apply T.
        - exact (intact_in u es y H (nth_error_In es i Y)). }
      assert (N : forall A (l : list A) i y, nth_error l i = Some y -> List.length l = List.length es ->
                    nth_error (repeat p (List.length es)) i = Some p).
      { intros A0 l i y Y LL. apply nth_error_repeat. rewrite <- LL. apply nth_error_Some. congruence. }
      unfold as_list. cbn [bind]. destruct o as [es'|].
      * destruct (B es' eq_refl) as [L2 S]. apply verdict_yes; [| |reflexivity].
        -- apply (as_array c t u es p W E). intros e X. apply In_nth_error in X as [i X].
           exact (proj1 A ltac:(discriminate) i p e (N _ _ _ _ X eq_refl) X).
        -- apply (st_array t es' p E). intros e X. apply In_nth_error in X as [i X].
           apply (S i p e (N _ _ _ _ X L2) X).
      * apply verdict_no. intros X. apply (proj2 A); [|reflexivity].
        inversion X as [? ? I|? ? I|? ? I|? ? ? I|? ? ? I|u' es2 ms' W' E' L'' F|u' es2 q W' E' F]; subst; try discriminate I.
        -- rewrite E in E'. discriminate E'.
        -- rewrite E in E'. injection E' as <-. intros i x y Hx Hy. apply R in Hx. subst x. exact (F y (nth_error_In es i Hy)).
    + apply verdict_no. intros X. unfold is_array, is_structure in *.
      inversion X as [? ? I|? ? I|? ? I|? ? ? I|? ? ? I|u' es2 ms' W' E' L'' F|u' es2 q W' E' F]; subst; try discriminate I.
      * rewrite E' in ST. discriminate ST.
      * rewrite E' in AR. discriminate AR.
Qed.

(** ** The statements of the language *)
Lemma arith_spec t : is_arithmetic t = true <-> integer_type (strip t) \/ strip t = t_float.
Proof. unfold is_arithmetic. rewrite orb_true_iff, is_integer_spec, is_floating_spec. tauto. Qed.

Lemma assignment_verdict op l r : is_assignment op = true -> is_correct l = true -> tidy (type_of l) -> intact r ->
  let good := is_lvalue l = true /\ assignable false (type_of l) r /\ assign_ok op l r in
  (good -> exists r', accepted (build_binary l r op) (NAssign (type_of l) op l r') /\ stored (type_of l) r')
  /\ (~ good -> refused (build_binary l r op)).
Proof.
  intros O C T H good.
  destruct (check_verdict false r (type_of l) T H) as (o & E & A & B).
  assert (N : exists need : bool, (need = true <-> assign_ok op l r) /\
     build_binary l r op = if negb (is_lvalue l) then err
      else do o <- check (type_of l) r false;
           match o with
           | None => err
           | Some r' => if need then ok (NAssign (type_of l) op l r') else err
           end).
  { unfold build_binary. rewrite C, (intact_correct r H). cbn [negb orb].
    destruct op; try discriminate O; cbn [assign_ok].
    - exists true. split; [tauto|reflexivity].
    - exists (is_arithmetic (type_of l) && is_arithmetic (type_of r)). split; [rewrite andb_true_iff, !arith_spec; tauto|reflexivity].
    - exists (is_arithmetic (type_of l) && is_arithmetic (type_of r)). split; [rewrite andb_true_iff, !arith_spec; tauto|reflexivity].
    - exists (is_integer (type_of l) && is_integer (type_of r)). split; [rewrite andb_true_iff, !is_integer_spec; tauto|reflexivity].
    - exists (is_arithmetic (type_of l) && is_arithmetic (type_of r)). split; [rewrite andb_true_iff, !arith_spec; tauto|reflexivity].
    - exists (is_arithmetic (type_of l) && is_arithmetic (type_of r)). split; [rewrite andb_true_iff, !arith_spec; tauto|reflexivity].
    - exists (is_integer (type_of l) && is_integer (type_of r)). split; [rewrite andb_true_iff, !is_integer_spec; tauto|reflexivity].
    - exists (is_integer (type_of l) && is_integer (type_of r)). split; [rewrite andb_true_iff, !is_integer_spec; tauto|reflexivity].
    - exists (is_integer (type_of l) && is_integer (type_of r)). split; [rewrite andb_true_iff, !is_integer_spec; tauto|reflexivity].
    - exists (is_integer (type_of l) && is_integer (type_of r)). split; [rewrite andb_true_iff, !is_integer_spec; tauto|reflexivity].
    - exists (is_integer (type_of l) && is_integer (type_of r)). split; [rewrite andb_true_iff, !is_integer_spec; tauto|reflexivity]. }
  destruct N as (need & N & ->). rewrite E. cbn [bind].
  assert (RE : refused err) by (exists NBroken, 1; split; [reflexivity|lia]).
  split.
  - intros (L & As & Ok). rewrite L. cbn [negb]. destruct o as [r'|]; [|exfalso; apply (proj2 A As); reflexivity].
    apply N in Ok. rewrite Ok. exists r'. split; [split; reflexivity|]. exact (proj1 (B r' eq_refl)).
  - intros NG. destruct (is_lvalue l) eqn:L; [|exact RE]. cbn [negb]. destruct o as [r'|]; [|exact RE].
    destruct need; [|exact RE]. exfalso. apply NG. split; [reflexivity|]. split; [apply A; discriminate|apply N; reflexivity].
Qed.

Lemma init_verdict t e : tidy t -> intact e ->
  (assignable true t e -> exists e', accepted (build_init t e) e' /\ stored t e')
  /\ (~ assignable true t e -> refused (build_init t e)).
Proof.
  intros T H. destruct (check_verdict true e t T H) as (o & E & A & B). unfold build_init. rewrite E. cbn [bind]. split.
  - intros As. destruct o as [e'|]; [|exfalso; apply (proj2 A As); reflexivity].
    exists e'. destruct (B e' eq_refl). split; [split; [reflexivity|assumption]|assumption].
  - intros N. destruct o as [e'|]; [exfalso; apply N, A; discriminate|]. exists e, 1. split; [reflexivity|lia].
Qed.

Lemma return_verdict t e : tidy t -> intact e -> t <> TPointer t_void ->
  (t <> t_void /\ assignable true t e -> exists e', accepted (build_return t e) e' /\ stored t e')
  /\ (t = t_void \/ ~ assignable true t e -> refused (build_return t e)).
Proof.
  intros T H NV. destruct (check_verdict true e t T H) as (o & E & A & B).
  unfold build_return. rewrite (intact_correct e H), E. cbn [negb bind].
  assert (V : is_void t = true <-> t = t_void).
  { unfold is_void, is_simple, t_void. destruct t; try (split; [discriminate|intros X; discriminate X]).
    rewrite Z.eqb_eq. split; [intros ->; reflexivity|intros X; injection X as ->; reflexivity]. }
  destruct (ty_eqb t (TPointer t_void)) eqn:Q; [apply ty_eqb_eq in Q; contradiction|].
  destruct (is_void t).
  - split; [intros [X _]; exfalso; apply X, V; reflexivity|]. intros _. exists NBroken, 1. split; [reflexivity|lia].
  - split.
    + intros [_ As]. destruct o as [e'|]; [|exfalso; apply (proj2 A As); reflexivity].
      exists e'. destruct (B e' eq_refl). split; [split; [reflexivity|assumption]|assumption].
    + intros [X|N]; [apply V in X; discriminate X|].
      destruct o as [e'|]; [exfalso; apply N, A; discriminate|]. exists e, 1. split; [reflexivity|lia].
Qed.

(** Arguments. *)
Lemma check_args_checks ts es : check_args ts es = checks true ts es.
Proof.
  revert es. induction ts as [|t ts IH]; intros [|e es]; try reflexivity. cbn [check_args checks].
  destruct (check t e true) as [[e'|]|]; cbn [bind]; try reflexivity. rewrite IH. reflexivity.
Qed.

Lemma args_verdict ts es : List.length ts = List.length es -> Forall tidy ts -> Forall intact es ->
  exists o, check_args ts es = Some o /\ (o <> None <-> args_ok ts es)
    /\ forall es', o = Some es' -> List.length es' = List.length es
         /\ forall i t e', nth_error ts i = Some t -> nth_error es' i = Some e' -> stored t e'.
Proof.
  intros L T I. rewrite check_args_checks. rewrite Forall_forall in T, I.
  destruct (checks_verdict true ts es L) as (o & E & A & B).
  { intros i t e X Y. apply check_verdict; [apply T; exact (nth_error_In _ _ X)|apply I; exact (nth_error_In _ _ Y)]. }
  exists o. split; [exact E|]. unfold args_ok. split; [tauto|]. intros es' X. destruct (B es' X) as [B1 B2].
  split; [exact B1|]. intros i t e' X1 X2. exact (proj1 (B2 i t e' X1 X2)).
Qed.

Lemma call_verdict text f ret ps es : is_correct f = true -> type_of f = TFunction ret ps -> library f = false ->
  Forall tidy ps -> Forall intact es ->
  (args_ok ps es -> exists es', accepted (build_call text f es) (NCall ret f es') /\ List.length es' = List.length es
      /\ forall i t e', nth_error ps i = Some t -> nth_error es' i = Some e' -> stored t e')
  /\ (~ args_ok ps es -> refused (build_call text f es)).
Proof.
  intros C TF NL T I.
  assert (E : build_call text f es = if zlen ps =? zlen es then
               do o <- check_args ps es; match o with Some args' => ok (NCall ret f args') | None => err end
             else err).
  { unfold build_call. rewrite C, TF. cbn [negb]. destruct f; try reflexivity. cbn [library] in NL.
    apply orb_false_iff in NL as [NL N4]. apply orb_false_iff in NL as [NL N3]. apply orb_false_iff in NL as [N1 N2].
    rewrite N1, N2, N3, N4. reflexivity. }
  rewrite E. assert (RE : refused err) by (exists NBroken, 1; split; [reflexivity|lia]).
  destruct (zlen ps =? zlen es) eqn:L.
  - assert (L' : List.length ps = List.length es) by (rewrite !zlen_unf in L; lia).
    destruct (args_verdict ps es L' T I) as (o & -> & A & B). cbn [bind]. split.
    + intros As. destruct o as [es'|]; [|exfalso; apply (proj2 A As); reflexivity].
      exists es'. destruct (B es' eq_refl) as [B1 B2]. split; [split; reflexivity|]. auto.
    + intros N. destruct o as [es'|]; [exfalso; apply N, A; discriminate|exact RE].
  - split; [|intros _; exact RE]. intros [X _]. rewrite !zlen_unf in L. lia.
Qed.

(** ** Format strings *)
Lemma evaluate_args_format s : forall args, zlen args <= MAX_PRINTF_ARGS ->
  match evaluate_args s args with
  | Some ts => exists us, format s us /\ ts = rev args ++ us /\ zlen args + zlen us <= MAX_PRINTF_ARGS
  | None => forall us, format s us -> MAX_PRINTF_ARGS < zlen args + zlen us
  end.
Proof.
  assert (X : forall n s, (List.length s <= n)%nat -> forall args, zlen args <= MAX_PRINTF_ARGS ->
  match evaluate_args s args with
  | Some ts => exists us, format s us /\ ts = rev args ++ us /\ zlen args + zlen us <= MAX_PRINTF_ARGS
  | None => forall us, format s us -> MAX_PRINTF_ARGS < zlen args + zlen us
  end); [|intros args; apply (X (List.length s) s); lia].
  clear s. induction n as [|n IH]; intros [|c s] Ln args LA; cbn [List.length] in Ln; try lia.
  1,2: cbn [evaluate_args]; exists []; split; [apply fm_end|]; rewrite app_nil_r; split; [reflexivity|rewrite (zlen_unf (@nil ty)); cbn [List.length]; lia].
  cbn [evaluate_args]. destruct (c =? 37) eqn:P.
  - apply Z.eqb_eq in P. subst c. destruct s as [|sp s].
    { intros us F. inversion F as [|c s' ts N F'| | | |]; subst. congruence. }
    destruct (sp =? 37) eqn:P.
    { apply Z.eqb_eq in P. subst sp.
      specialize (IH s ltac:(cbn [List.length] in Ln; lia) args LA). destruct (evaluate_args s args) as [ts|].
      - destruct IH as (us & F & E & Z0). exists us. split; [apply fm_percent; exact F|auto].
      - intros us F. apply IH. inversion F as [|c s' ts N F'|s' ts F'|c s' ts N F'|c s' ts N F'|c s' ts N F']; subst; try congruence;
          cbn in N; exfalso; lia. }
    assert (CASE : forall T cs, In sp cs -> (forall s ts, format s ts -> format (37 :: sp :: s) (T :: ts)) ->
       (forall us, format (37 :: sp :: s) us -> exists vs, us = T :: vs /\ format s vs) ->
       match (if zlen args =? MAX_PRINTF_ARGS then None else evaluate_args s (T :: args)) with
       | Some ts => exists us, format (37 :: sp :: s) us /\ ts = rev args ++ us /\ zlen args + zlen us <= MAX_PRINTF_ARGS
       | None => forall us, format (37 :: sp :: s) us -> MAX_PRINTF_ARGS < zlen args + zlen us
       end).
    { intros T cs _ Fw Bw. destruct (zlen args =? MAX_PRINTF_ARGS) eqn:M.
      - intros us F. apply Bw in F as (vs & -> & F). pose proof (zlen_nonneg vs). rewrite zlen_cons. lia.
      - assert (LA' : zlen (T :: args) <= MAX_PRINTF_ARGS) by (rewrite zlen_cons; lia).
        specialize (IH s ltac:(cbn [List.length] in Ln; lia) (T :: args) LA'). destruct (evaluate_args s (T :: args)) as [ts|].
        + destruct IH as (us & F & E & Z0). exists (T :: us). split; [apply Fw, F|]. split.
          * rewrite E. cbn [rev]. rewrite <- app_assoc. reflexivity.
          * rewrite !zlen_cons in *. lia.
        + intros us F. apply Bw in F as (vs & -> & F). specialize (IH vs F). rewrite !zlen_cons in *. lia. }
    destruct ((sp =? 105) || (sp =? 1094) || (sp =? 99) || (sp =? 1083)) eqn:CI.
    { apply (CASE t_int [105; 1094; 99; 1083]).
      - cbn. lia.
      - intros. apply fm_int; [cbn; lia|assumption].
      - intros us F. inversion F as [|c s' ts N F'|s' ts F'|c s' ts N F'|c s' ts N F'|c s' ts N F']; subst; try congruence; eauto;
          exfalso; first [discriminate P|cbn in N; lia]. }
    destruct ((sp =? 102) || (sp =? 1074)) eqn:CF.
    { apply (CASE t_float [102; 1074]).
      - cbn. lia.
      - intros. apply fm_float; [cbn; lia|assumption].
      - intros us F. inversion F as [|c s' ts N F'|s' ts F'|c s' ts N F'|c s' ts N F'|c s' ts N F']; subst; try congruence; eauto;
          exfalso; first [discriminate P|cbn in N; lia]. }
    destruct ((sp =? 115) || (sp =? 1089)) eqn:CS.
    { apply (CASE t_string [115; 1089]).
      - cbn. lia.
      - intros. apply fm_string; [cbn; lia|assumption].
      - intros us F. inversion F as [|c s' ts N F'|s' ts F'|c s' ts N F'|c s' ts N F'|c s' ts N F']; subst; try congruence; eauto;
          exfalso; first [discriminate P|cbn in N; lia]. }
    assert (NO : forall us, format (37 :: sp :: s) us -> False).
    { intros us F. inversion F as [|c s' ts N F'|s' ts F'|c s' ts N F'|c s' ts N F'|c s' ts N F']; subst; try congruence; first [discriminate P|cbn in N; lia]. }
    destruct (zlen args =? MAX_PRINTF_ARGS); intros us F; destruct (NO us F).
  - specialize (IH s ltac:(lia) args LA). destruct (evaluate_args s args) as [ts|].
    + destruct IH as (us & F & E & Z0). exists us. split; [apply fm_char; [lia|exact F]|auto].
    + intros us F. apply IH. inversion F as [|c' s' ts N F'|s' ts F'|c' s' ts N F'|c' s' ts N F'|c' s' ts N F']; subst; try assumption; lia.
Qed.

Lemma format_unique s ts us : format s ts -> format s us -> ts = us.
Proof.
  intros F. revert us. induction F as [|c s ts N F IH|s ts F IH|c s ts N F IH|c s ts N F IH|c s ts N F IH]; intros us G;
    inversion G as [|c' s' ts' N' G'|s' ts' G'|c' s' ts' N' G'|c' s' ts' N' G'|c' s' ts' N' G']; subst;
    try congruence; try (f_equal; apply IH; assumption); try (apply IH; assumption); exfalso; cbn in *; lia.
Qed.

Lemma format_tidy s ts : format s ts -> Forall tidy ts.
Proof. intros F. induction F; try assumption; constructor; try assumption; cbn; auto. Qed.

Lemma printf_verdict text f es i rest t ps ret :
  f = NIdent (TFunction ret ps) BI_PRINTF -> es = NLit t (LString i) :: rest -> lit_ok t (LString i) -> Forall intact rest ->
  let good := exists ts, format (text i) ts /\ args_ok ts rest /\ (List.length rest < 19)%nat in
  (good -> exists rest', accepted (build_call text f es) (NCall t_int f (NLit t (LString i) :: rest')))
  /\ (~ good -> refused (build_call text f es)).
Proof.
  intros -> -> LO I good. cbn in LO. subst t.
  unfold build_call. cbn [is_correct negb type_of]. rewrite Z.eqb_refl. unfold build_printf.
  assert (RE : refused err) by (exists NBroken, 1; split; [reflexivity|lia]).
  rewrite zlen_cons. destruct (MAX_PRINTF_ARGS <=? 1 + zlen rest) eqn:M.
  { unfold MAX_PRINTF_ARGS in M. split; [|intros _; exact RE].
    intros (ts & F & A & L). exfalso. rewrite zlen_unf in M. lia. }
  change (is_string t_string) with true. cbv iota.
  pose proof (evaluate_args_format (text i) [] ltac:(rewrite zlen_unf; cbn [List.length]; unfold MAX_PRINTF_ARGS; lia)) as X.
  unfold MAX_PRINTF_ARGS in M.
  destruct (evaluate_args (text i) []) as [ts|].
  - destruct X as (us & F & E & _). cbn in E. subst us.
    destruct (zlen ts =? zlen rest) eqn:L.
    + assert (L' : List.length ts = List.length rest) by (rewrite !zlen_unf in L; lia).
      destruct (args_verdict ts rest L' (format_tidy _ _ F) I) as (o & -> & A & B). cbn [bind]. split.
      * intros (us & F' & As & _). rewrite (format_unique _ _ _ F' F) in As.
        destruct o as [es'|]; [|exfalso; apply (proj2 A As); reflexivity]. exists es'. split; reflexivity.
      * intros N. destruct o as [es'|]; [|exact RE]. exfalso. apply N. exists ts. split; [exact F|]. split; [apply A; discriminate|].
        rewrite zlen_unf in M. lia.
    + split; [|intros _; exact RE]. intros (us & F' & [As _] & _). rewrite (format_unique _ _ _ F' F) in As.
      exfalso. rewrite !zlen_unf in L. lia.
  - split.
    + intros (us & F & [L _] & L2). exfalso. specialize (X us F). unfold MAX_PRINTF_ARGS in X.
      rewrite !zlen_unf in X. cbn [List.length] in X. lia.
    + intros _. destruct (zlen rest =? 0); eexists _, _; (split; [reflexivity|lia]).
Qed.

(** Expressions are accepted exactly when they have a type. *)
From Coq Require Import Floats.SpecFloat.
From Verif Require Import Prelude TypesModel TypesSpec LexModel ParseModel BuildModel BuildSpec BuildFold BuildAssign BuildTypeSpec.
Local Open Scope Z_scope.

Lemma is_boolean_spec t : is_boolean t = true <-> strip t = t_bool.
Proof. unfold is_boolean, is_simple, t_bool. destruct (strip t); split; intros H; try discriminate; [f_equal; lia|injection H as ->; apply Z.eqb_refl]. Qed.
Lemma is_null_exact t : is_null_pointer t = true <-> t = t_null.
Proof. unfold is_null_pointer, is_simple, t_null. destruct t; split; intros H; try discriminate; [f_equal; lia|injection H as ->; apply Z.eqb_refl]. Qed.
Lemma is_array_spec t : is_array t = true <-> exists p, strip t = TArray p.
Proof. unfold is_array. destruct (strip t); split; intros H; try discriminate; eauto; destruct H; discriminate. Qed.
Lemma is_structure_spec t : is_structure t = true <-> exists ms, strip t = TStruct ms.
Proof. unfold is_structure. destruct (strip t); split; intros H; try discriminate; eauto; destruct H; discriminate. Qed.
Lemma scalar_spec t : is_scalar t = true <-> scalar_type t.
Proof.
  unfold is_scalar, scalar_type. rewrite !orb_true_iff, is_boolean_spec, is_integer_spec, is_pointer_spec, is_null_exact. tauto.
Qed.
Lemma arithmetic_spec t : is_arithmetic t = true <-> arithmetic_type t.
Proof. apply arith_spec. Qed.
Lemma not_true (b : bool) (P : Prop) : (b = true <-> P) -> b = false <-> ~ P.
Proof. intros H. destruct b; split; intros X; try congruence; intuition congruence. Qed.

Lemma first_found name ms : forall k,
  match find_member name k ms with
  | Some (i, t) => exists j, i = k + Z.of_nat j /\ first_member ms name j t
  | None => forall j t, ~ first_member ms name j t
  end.
Proof.
  induction ms as [|[u n] ms IH]; intros k; cbn [find_member].
  - intros j t [X _]. destruct j; discriminate.
  - destruct (name =? n) eqn:E.
    + assert (name = n) by lia. subst. exists 0%nat. split; [lia|]. split; [reflexivity|]. intros; lia.
    + specialize (IH (k + 1)). destruct (find_member name (k + 1) ms) as [[i t]|].
      * destruct IH as (j & -> & X & Y). exists (S j). split; [lia|]. split; [exact X|]. intros [|h] v L Q; [injection Q; lia|].
        apply (Y h v ltac:(lia)). exact Q.
      * intros [|j] t [X Y]; [injection X; lia|]. apply (IH j t). split; [exact X|]. intros h v L Q. apply (Y (S h) v ltac:(lia)). exact Q.
Qed.
Lemma first_unique ms name i t j u : first_member ms name i t -> first_member ms name j u -> i = j /\ t = u.
Proof.
  intros [A B] [C D]. assert (i = j).
  { destruct (lt_eq_lt_dec i j) as [[L|L]|L]; [exfalso; apply (D i t L A)|exact L|exfalso; apply (B j u L C)]. }
  subst. split; [reflexivity|congruence].
Qed.
Lemma member_type_model st t : (if is_const st && negb (is_const t) then TConst t else t) = member_type st t.
Proof. destruct st, t; reflexivity. Qed.

Lemma subscript_verdict b i : is_correct b = true -> is_correct i = true ->
  (forall t, strip (type_of b) = TArray t -> integer_type (strip (type_of i)) -> accepted (build_subscript b i) (NSubscript t b i))
  /\ (~ ((exists t, strip (type_of b) = TArray t) /\ integer_type (strip (type_of i))) -> build_subscript b i = err).
Proof.
  intros B I. unfold build_subscript. rewrite B, I. cbn [negb orb]. split.
  - intros t A N. rewrite (proj2 (is_array_spec _)) by eauto. rewrite (proj2 (is_integer_spec _)) by exact N. cbn [negb]. split; [|reflexivity].
    unfold element. rewrite A. reflexivity.
  - intros N. destruct (is_array (type_of b)) eqn:A; [|reflexivity]. cbn [negb].
    destruct (is_integer (type_of i)) eqn:X; [|reflexivity]. exfalso. apply N.
    split; [apply is_array_spec; exact A|apply is_integer_spec; exact X].
Qed.
(** The structure an expression is, or points to. *)
Definition whole (b : node) (arrow : bool) (st : ty) : Prop :=
  if arrow then strip (type_of b) = TPointer st else type_of b = st.
Definition has_member_ (b : node) (name : Z) (arrow : bool) (st : ty) (i : nat) (t : ty) : Prop :=
  whole b arrow st /\ exists ms, strip st = TStruct ms /\ first_member ms name i t.
Lemma member_verdict b name arrow : is_correct b = true ->
  (forall st i t, has_member_ b name arrow st i t ->
     accepted (build_member b name arrow) (NMember (member_type st t) (arrow || is_lvalue b) (Z.of_nat i) arrow b))
  /\ ((forall st i t, ~ has_member_ b name arrow st i t) -> build_member b name arrow = err).
Proof.
  intros B. unfold build_member, has_member_, whole. rewrite B. cbn [negb]. destruct arrow; cbn [orb].
  - unfold is_struct_pointer. split.
    + intros st i t (P & ms & S & F). unfold is_pointer, element. rewrite P. cbn [negb andb].
      rewrite (proj2 (is_structure_spec _)) by eauto. cbn [negb]. unfold members. rewrite S.
      pose proof (first_found name ms 0) as X. destruct (find_member name 0 ms) as [[k u]|]; [|exfalso; apply (X i t F)].
      destruct X as (j & -> & G). destruct (first_unique _ _ _ _ _ _ F G) as [-> ->]. rewrite member_type_model. split; reflexivity.
    + intros N. destruct (is_pointer (type_of b)) eqn:P; [|reflexivity]. cbn [andb].
      apply is_pointer_spec in P as [p P]. unfold element. rewrite P.
      destruct (is_structure p) eqn:S; [|reflexivity]. cbn [negb]. apply is_structure_spec in S as [ms S].
      unfold members. rewrite S. pose proof (first_found name ms 0) as X.
      destruct (find_member name 0 ms) as [[k u]|]; [|reflexivity].
      destruct X as (j & _ & G). exfalso. apply (N p j u). split; [exact P|]. exists ms. split; [exact S|exact G].
  - split.
    + intros st i t (<- & ms & S & F). rewrite (proj2 (is_structure_spec _)) by eauto. cbn [negb]. unfold members. rewrite S.
      pose proof (first_found name ms 0) as X. destruct (find_member name 0 ms) as [[k u]|]; [|exfalso; apply (X i t F)].
      destruct X as (j & -> & G). destruct (first_unique _ _ _ _ _ _ F G) as [-> ->]. rewrite member_type_model. split; reflexivity.
    + intros N. destruct (is_structure (type_of b)) eqn:S; [|reflexivity]. cbn [negb]. apply is_structure_spec in S as [ms S].
      unfold members. rewrite S. pose proof (first_found name ms 0) as X.
      destruct (find_member name 0 ms) as [[k u]|]; [|reflexivity].
      destruct X as (j & _ & G). exfalso. apply (N (type_of b) j u). split; [reflexivity|]. exists ms. split; [exact S|exact G].
Qed.

(** What folding leaves of the type. *)
Definition good (n : node) : Prop := is_correct n = true /\ match n with NLit t l => lit_ok t l | _ => True end.
(** Neither a list nor a constant of an enumeration. *)
Definition plain (n : node) : Prop := match n with NInit _ _ | NLit (TEnum _ _) _ => False | _ => True end.
Definition gives (r : bres) (t : ty) (place : bool) : Prop :=
  match r with
  | None => True
  | Some (n, k) => k = 0 /\ good n /\ plain n /\ type_of n = t /\ is_lvalue n = place
  end.
Definition rejects (r : bres) : Prop := match r with None => True | Some (n, k) => n = NBroken /\ 0 < k end.
Lemma gives_bool b : gives (mk_bool b) t_bool false.
Proof. unfold gives, mk_bool, ok, good. cbn. auto. Qed.
Lemma gives_int v : gives (mk_int v) t_int false.
Proof. destruct v; cbn -[good]; [|exact Logic.I]. unfold good. cbn. auto. Qed.
Lemma gives_float d : gives (mk_float d) t_float false.
Proof. unfold gives, mk_float, ok, good. cbn. auto. Qed.
Lemma gives_err : rejects err.
Proof. cbn. split; [reflexivity|lia]. Qed.
Lemma gives_node n t place : (match n with NLit _ _ | NInit _ _ | NBroken => False | _ => True end) -> type_of n = t -> is_lvalue n = place -> gives (ok n) t place.
Proof. intros H T P. unfold gives, ok, good. destruct n; try contradiction; cbn in *; auto. Qed.

Lemma unary_verdict e op : good e ->
  (forall t' place', unary_has op (type_of e) (is_lvalue e) t' place' ->
     (In op [UN_ABS; UN_MINUS] -> match e with NLit (TEnum _ _) _ => False | _ => True end) -> gives (build_unary e op) t' place')
  /\ (In op [UN_ABS; UN_MINUS] -> match e with NLit (TEnum _ _) _ => True | _ => False end -> gives (build_unary e op) t_int false)
  /\ ((forall t' place', ~ unary_has op (type_of e) (is_lvalue e) t' place') -> rejects (build_unary e op)).
Proof.
  intros [C L]. split; [|split].
  - intros t' place' U NE. unfold build_unary. rewrite C. cbn [negb].
    inversion U as [op0 t I A|t|t p pl P|op0 t pl I A|t pl N|t pl S|t p pl A]; subst.
    + rewrite (proj2 (arithmetic_spec _) A). cbn in I.
      destruct I as [<-|[<-|[<-|[<-|[]]]]]; cbn [negb]; apply gives_node; auto; exact Logic.I.
    + cbn [negb]. apply gives_node; auto; exact Logic.I.
    + rewrite (proj2 (is_pointer_spec _)) by eauto. cbn [negb]. apply gives_node; [exact Logic.I| |reflexivity]. cbn. unfold element. rewrite P. reflexivity.
    + rewrite (proj2 (arithmetic_spec _) A). cbn [negb].
      assert (G : gives (fold_unary (type_of e) false e op) (type_of e) false).
      { specialize (NE I). destruct e; try (apply gives_node; auto; exact Logic.I). cbn [type_of] in *. cbn [lit_ok] in L.
        unfold fold_unary. destruct t as [c|p|p|ms|r|p|s v]; try (apply gives_node; auto; exact Logic.I); [|contradiction NE].
        destruct (c =? TYPE_NULL_POINTER) eqn:E1; [exfalso; unfold arithmetic_type, integer_type in A; cbn in A;
          destruct A as [[A|[A|(? & ? & A)]]|A]; try discriminate A; injection A as ->; discriminate E1|].
        destruct (c =? TYPE_BOOLEAN) eqn:E2; [exfalso; unfold arithmetic_type, integer_type in A; cbn in A;
          destruct A as [[A|[A|(? & ? & A)]]|A]; try discriminate A; injection A as ->; discriminate E2|].
        destruct (c =? TYPE_INTEGER) eqn:E3.
        { assert (c = TYPE_INTEGER) by lia. subst c. destruct (lit_integer l); [|exact Logic.I].
          cbn in I. destruct I as [<-|[<-|[]]]; apply gives_int. }
        destruct (c =? TYPE_FLOATING) eqn:E4; [|apply gives_node; auto; exact Logic.I].
        assert (c = TYPE_FLOATING) by lia. subst c. destruct (lit_floating l); [|exact Logic.I].
        cbn in I. destruct I as [<-|[<-|[]]]; apply gives_float. }
      cbn in I. destruct I as [<-|[<-|[]]]; exact G.
    + rewrite (proj2 (is_integer_spec _) N). cbn [negb].
      destruct e; try (apply gives_node; auto; exact Logic.I). cbn [type_of] in *. unfold fold_unary.
      destruct t as [c|p|p|ms|r|p|s v]; try (apply gives_node; auto; exact Logic.I).
      * destruct (c =? TYPE_NULL_POINTER) eqn:E1; [exfalso; unfold integer_type in N; cbn in N;
          destruct N as [N|[N|(? & ? & N)]]; try discriminate N; injection N as ->; discriminate E1|].
        destruct (c =? TYPE_BOOLEAN) eqn:E2; [exfalso; unfold integer_type in N; cbn in N;
          destruct N as [N|[N|(? & ? & N)]]; try discriminate N; injection N as ->; discriminate E2|].
        destruct (c =? TYPE_INTEGER) eqn:E3; [destruct (lit_integer l); [apply gives_int|exact Logic.I]|].
        destruct (c =? TYPE_FLOATING) eqn:E4; [exfalso; unfold integer_type in N; cbn in N;
          destruct N as [N|[N|(? & ? & N)]]; try discriminate N; injection N as ->; discriminate E4|].
        apply gives_node; auto; exact Logic.I.
      * destruct (lit_integer l); [apply gives_int|exact Logic.I].
    + rewrite (proj2 (scalar_spec _) S). cbn [negb].
      destruct e; try (apply gives_node; auto; exact Logic.I). cbn [type_of] in *. unfold fold_unary.
      destruct t as [c|p|p|ms|r|p|s v]; try (apply gives_node; auto; exact Logic.I).
      * destruct (c =? TYPE_NULL_POINTER) eqn:E1; [apply gives_bool|].
        destruct (c =? TYPE_BOOLEAN) eqn:E2; [destruct (lit_integer l); [apply gives_bool|exact Logic.I]|].
        destruct (c =? TYPE_INTEGER) eqn:E3; [destruct (lit_integer l); [apply gives_bool|exact Logic.I]|].
        destruct (c =? TYPE_FLOATING) eqn:E4; [exfalso|apply gives_node; auto; exact Logic.I].
        unfold scalar_type, integer_type in S. cbn in S. destruct S as [[S|[S|(? & ? & S)]]|[S|[[? S]|S]]]; try discriminate S; injection S as ->; discriminate E4.
      * destruct (lit_integer l); [apply gives_bool|exact Logic.I].
    + rewrite (proj2 (is_array_spec _)) by eauto. cbn [negb].
      destruct e; try (apply gives_node; auto; exact Logic.I). cbn [type_of] in *. unfold fold_unary.
      destruct t as [c|q|q|ms|r|q|s v]; try (apply gives_node; auto; exact Logic.I); discriminate A.
  - intros I E. destruct e as [|t l| | | | | | | | | |]; try contradiction. destruct t as [| | | | | |s v]; try contradiction.
    cbn in I. destruct I as [<-|[<-|[]]]; cbn; destruct (lit_integer l); try exact Logic.I; apply gives_int.
  - intros N. unfold build_unary. rewrite C. cbn [negb].
    destruct op;
    try (destruct (is_lvalue e) eqn:P; [|exact gives_err]; cbn [negb]);
    try (destruct (is_arithmetic (type_of e)) eqn:A; [|exact gives_err]; cbn [negb]; apply arithmetic_spec in A).
    all: try (exfalso; eapply N; apply uh_count; [cbn; tauto|exact A]).
    all: try (exfalso; eapply N; apply uh_address).
    all: try (exfalso; eapply N; apply uh_sign; [cbn; tauto|exact A]).
    + destruct (is_pointer (type_of e)) eqn:X; [|exact gives_err]. apply is_pointer_spec in X as [p X]. exfalso. eapply N. eapply uh_indirection. exact X.
    + destruct (is_integer (type_of e)) eqn:X; [|exact gives_err]. apply is_integer_spec in X. exfalso. eapply N. eapply uh_not. exact X.
    + destruct (is_scalar (type_of e)) eqn:X; [|exact gives_err]. apply scalar_spec in X. exfalso. eapply N. eapply uh_lognot. exact X.
    + destruct (is_array (type_of e)) eqn:X; [|exact gives_err]. apply is_array_spec in X as [p X]. exfalso. eapply N. eapply uh_upb. exact X.
Qed.

Definition int_ops : list binary := [BIN_REM; BIN_SHL; BIN_SHR; BIN_AND; BIN_XOR; BIN_OR].
Definition arith_ops : list binary := [BIN_MUL; BIN_DIV; BIN_ADD; BIN_SUB].
Definition order_ops : list binary := [BIN_LT; BIN_GT; BIN_LE; BIN_GE; BIN_EQ; BIN_NE].
Definition logic_ops : list binary := [BIN_LOG_AND; BIN_LOG_OR].

Lemma fold_words_gives op t a b :
  (In op (int_ops ++ arith_ops) /\ t = t_int) \/ (In op (order_ops ++ logic_ops) /\ t = t_bool) ->
  gives (do x <- lit_integer a; do y <- lit_integer b; fold_ints op x y) t false.
Proof.
  intros H. destruct (lit_integer a); [|exact Logic.I]. destruct (lit_integer b); [|exact Logic.I].
  destruct H as [[I ->]|[I ->]]; cbn in I;
    repeat (destruct I as [<-|I]; [first [apply gives_int|apply gives_bool]|]); contradiction.
Qed.
Lemma fold_binary_words t l r op : good l -> good r -> type_of l <> t_float ->
  (In op (int_ops ++ arith_ops) /\ t = t_int) \/ (In op (order_ops ++ logic_ops) /\ t = t_bool) ->
  gives (fold_binary t l r op) t false.
Proof.
  intros L R N H. unfold fold_binary.
  destruct l as [|u a| | | | | | | | | |]; try (apply gives_node; auto; exact Logic.I).
  destruct r as [|v b| | | | | | | | | |]; try (apply gives_node; auto; exact Logic.I).
  cbn [type_of] in N. pose proof (fold_words_gives op t a b H) as W.
  destruct u as [c| | | | | |]; try (apply gives_node; auto; exact Logic.I); [|exact W].
  destruct (c =? TYPE_INTEGER); [exact W|]. destruct (c =? TYPE_BOOLEAN); [exact W|]. cbn [orb].
  destruct (c =? TYPE_FLOATING) eqn:E; [exfalso; apply N; unfold t_float; f_equal; lia|]. apply gives_node; auto; exact Logic.I.
Qed.
Lemma fold_binary_floats t l r op : good l -> good r -> type_of l = t_float ->
  (In op arith_ops /\ t = t_float) \/ (In op order_ops /\ t = t_bool) ->
  gives (fold_binary t l r op) t false.
Proof.
  intros L R N H. unfold fold_binary.
  destruct l as [|u a| | | | | | | | | |]; try (apply gives_node; auto; exact Logic.I).
  destruct r as [|v b| | | | | | | | | |]; try (apply gives_node; auto; exact Logic.I).
  cbn [type_of] in N. subst u. change (t_float) with (TSimple TYPE_FLOATING). cbv iota.
  change ((TYPE_FLOATING =? TYPE_INTEGER) || (TYPE_FLOATING =? TYPE_BOOLEAN)) with false.
  change (TYPE_FLOATING =? TYPE_FLOATING) with true. cbv iota.
  destruct (lit_floating a); [|exact Logic.I]. destruct (lit_floating b); [|exact Logic.I].
  destruct H as [[I ->]|[I ->]]; cbn in I;
    repeat (destruct I as [<-|I]; [first [apply gives_float|apply gives_bool]|]); contradiction.
Qed.

Lemma cast_float l : good l -> match build_cast t_float l with None => True | Some n => good n /\ type_of n = t_float end.
Proof.
  intros [C L]. unfold build_cast. rewrite C. cbn [negb]. destruct (ty_eqb t_float (type_of l)) eqn:E.
  - split; [split; assumption|]. symmetry. apply ty_eqb_eq. exact E.
  - destruct l; try discriminate C; try (unfold good; cbn; auto).
    destruct (lit_integer l); [|exact Logic.I]. unfold good. cbn. auto.
Qed.
Lemma conversions_common l r : good l -> good r ->
  match conversions l r with
  | None => True
  | Some (t, l', r') => common (type_of l) (type_of r) t /\ good l' /\ good r'
                        /\ ((t = t_float /\ type_of l' = t_float) \/ (t = t_int /\ type_of l' <> t_float))
  end.
Proof.
  intros L R. unfold conversions.
  destruct (is_floating (type_of l)) eqn:A; [|destruct (is_floating (type_of r)) eqn:B]; cbn [orb].
  - pose proof (cast_float l L) as X. destruct (build_cast t_float l); [|exact Logic.I].
    pose proof (cast_float r R) as Y. destruct (build_cast t_float r); [|exact Logic.I].
    split; [apply c_float; left; apply is_floating_spec; exact A|]. tauto.
  - pose proof (cast_float l L) as X. destruct (build_cast t_float l); [|exact Logic.I].
    pose proof (cast_float r R) as Y. destruct (build_cast t_float r); [|exact Logic.I].
    split; [apply c_float; right; apply is_floating_spec; exact B|]. tauto.
  - assert (strip (type_of l) <> t_float) by (intros Q; apply is_floating_spec in Q; congruence).
    assert (strip (type_of r) <> t_float) by (intros Q; apply is_floating_spec in Q; congruence).
    split; [apply c_int; assumption|]. split; [exact L|]. split; [exact R|]. right. split; [reflexivity|]. intros Q. rewrite Q in *. contradiction.
Qed.
Lemma common_unique t u v w : common t u v -> common t u w -> v = w.
Proof. intros [A|A B] [C|C D]; auto; tauto. Qed.

Lemma good_correct l : good l -> is_correct l = true.
Proof. intros [C _]. exact C. Qed.
Lemma compare_gives l r op : good l -> good r -> In op order_ops ->
  gives (do ' (_, l, r) <- conversions l r; fold_binary t_bool l r op) t_bool false.
Proof.
  intros L R I. pose proof (conversions_common l r L R) as X. destruct (conversions l r) as [[[t l'] r']|]; [|exact Logic.I].
  destruct X as (_ & L' & R' & [[_ T]|[_ T]]).
  - apply fold_binary_floats; auto.
  - apply fold_binary_words; auto. right. split; [apply in_or_app; auto|reflexivity].
Qed.
(** Values that may be compared for equality. *)
Definition comparable (t u : ty) : Prop :=
  (arithmetic_type t /\ arithmetic_type u) \/ ((exists p, strip t = TPointer p) /\ u = t_null)
  \/ (t = t_null /\ exists p, strip u = TPointer p) \/ t = u.
Lemma equal_verdict l r op : good l -> good r -> In op [BIN_EQ; BIN_NE] ->
  (comparable (type_of l) (type_of r) -> gives (build_binary l r op) t_bool false)
  /\ (~ comparable (type_of l) (type_of r) -> rejects (build_binary l r op)).
Proof.
  intros L R I. unfold build_binary. rewrite (good_correct l L), (good_correct r R). cbn [negb orb].
  assert (O : In op order_ops) by (cbn in I |- *; tauto).
  set (body := if is_arithmetic (type_of l) && is_arithmetic (type_of r) then _ else _).
  assert (G : (comparable (type_of l) (type_of r) -> gives body t_bool false) /\ (~ comparable (type_of l) (type_of r) -> rejects body)).
  { unfold body, comparable. destruct (is_arithmetic (type_of l)) eqn:A; [destruct (is_arithmetic (type_of r)) eqn:B|]; cbn [andb].
    - split; [intros _; apply compare_gives; assumption|]. intros N. exfalso. apply N. left. split; apply arithmetic_spec; assumption.
    - destruct ((is_pointer (type_of l) && is_null_pointer (type_of r)) || (is_null_pointer (type_of l) && is_pointer (type_of r)) || ty_eqb (type_of l) (type_of r)) eqn:E.
      + exfalso. rewrite !orb_true_iff, !andb_true_iff in E. destruct E as [[[E _]|[E _]]|E].
        * apply is_pointer_spec in E as [p E]. apply arithmetic_spec in A. unfold arithmetic_type, integer_type in A. rewrite E in A.
          destruct A as [[A|[A|(? & ? & A)]]|A]; discriminate A.
        * apply is_null_exact in E. rewrite E in A. discriminate A.
        * apply ty_eqb_eq in E. congruence.
      + split; [|intros _; exact gives_err]. intros [[_ X]|[[[p X] Y]|[[X [p Y]]|X]]]; exfalso.
        * apply arithmetic_spec in X. congruence.
        * rewrite (proj2 (is_pointer_spec (type_of l))), (proj2 (is_null_exact _) Y) in E by eauto. discriminate E.
        * rewrite X in A. discriminate A.
        * congruence.
    - destruct ((is_pointer (type_of l) && is_null_pointer (type_of r)) || (is_null_pointer (type_of l) && is_pointer (type_of r)) || ty_eqb (type_of l) (type_of r)) eqn:E.
      + split.
        * intros _. apply fold_binary_words; auto; [intros Q; rewrite Q in A; discriminate A|]. right. split; [apply in_or_app; auto|reflexivity].
        * intros N. exfalso. apply N. rewrite !orb_true_iff, !andb_true_iff in E. destruct E as [[[E F]|[E F]]|E].
          -- right. left. split; [apply is_pointer_spec; exact E|apply is_null_exact; exact F].
          -- right. right. left. split; [apply is_null_exact; exact E|apply is_pointer_spec; exact F].
          -- right. right. right. apply ty_eqb_eq. exact E.
      + split; [|intros _; exact gives_err]. intros [[X _]|[[[p X] Y]|[[X [p Y]]|X]]]; exfalso.
        * apply arithmetic_spec in X. congruence.
        * rewrite (proj2 (is_pointer_spec (type_of l))), (proj2 (is_null_exact _) Y) in E by eauto. discriminate E.
        * rewrite (proj2 (is_null_exact _) X), (proj2 (is_pointer_spec (type_of r))) in E by eauto. rewrite orb_true_r in E. discriminate E.
        * rewrite X, ty_eqb_refl, orb_true_r in E. discriminate E. }
  cbn in I. destruct I as [<-|[<-|[]]]; exact G.
Qed.

Lemma binary_verdict l r op : good l -> good r -> is_assignment op = false ->
  (forall t, binary_has op (type_of l) (type_of r) t -> gives (build_binary l r op) t false)
  /\ ((forall t, ~ binary_has op (type_of l) (type_of r) t) -> rejects (build_binary l r op)).
Proof.
  intros L R NA.
  destruct (in_dec (fun a b : binary => ltac:(decide equality) : {a = b} + {a <> b}) op [BIN_EQ; BIN_NE]) as [Q|Q].
  { destruct (equal_verdict l r op L R Q) as [A B]. split.
    - intros t H. inversion H; subst; try (cbn in H0, Q; intuition congruence); [|cbn in Q; intuition congruence]. apply A. exact H1.
    - intros N. apply B. intros X. apply (N t_bool). apply bh_equal; assumption. }
  split.
  - intros t H. unfold build_binary. rewrite (good_correct l L), (good_correct r R). cbn [negb orb]. inversion H; subst; try contradiction.
    + rewrite (proj2 (is_integer_spec _) H1), (proj2 (is_integer_spec _) H2). cbn [negb orb].
      assert (G : gives (fold_binary t_int l r op) t_int false).
      { apply fold_binary_words; auto.
        - intros X. unfold integer_type in H1. rewrite X in H1. cbn in H1. destruct H1 as [A|[A|(? & ? & A)]]; discriminate A.
        - left. split; [apply in_or_app; left; exact H0|reflexivity]. }
      cbn in H0. repeat (destruct H0 as [<-|H0]; [exact G|]). contradiction.
    + rewrite (proj2 (arithmetic_spec _) H1), (proj2 (arithmetic_spec _) H2). cbn [negb orb].
      assert (G : gives (do ' (t, l, r) <- conversions l r; fold_binary t l r op) t false).
      { pose proof (conversions_common l r L R) as X. destruct (conversions l r) as [[[v l'] r']|]; [|exact Logic.I].
        destruct X as (X & L' & R' & Y). pose proof (common_unique _ _ _ _ X H3). subst v. destruct Y as [[-> T]|[-> T]].
        - apply fold_binary_floats; auto.
        - apply fold_binary_words; auto. left. split; [apply in_or_app; auto|reflexivity]. }
      cbn in H0. repeat (destruct H0 as [<-|H0]; [exact G|]). contradiction.
    + rewrite (proj2 (arithmetic_spec _) H1), (proj2 (arithmetic_spec _) H2). cbn [negb orb].
      assert (G : gives (do ' (_, l, r) <- conversions l r; fold_binary t_bool l r op) t_bool false)
        by (apply compare_gives; auto; cbn in H0 |- *; tauto).
      cbn in H0. repeat (destruct H0 as [<-|H0]; [exact G|]). contradiction.
    + rewrite (proj2 (scalar_spec _) H1), (proj2 (scalar_spec _) H2). cbn [negb orb].
      assert (G : gives (fold_binary t_bool l r op) t_bool false).
      { apply fold_binary_words; auto.
        - intros X. apply scalar_spec in H1. rewrite X in H1. discriminate H1.
        - right. split; [apply in_or_app; right; exact H0|reflexivity]. }
      cbn in H0. repeat (destruct H0 as [<-|H0]; [exact G|]). contradiction.
    + apply gives_node; auto; exact Logic.I.
  - intros N. unfold build_binary. rewrite (good_correct l L), (good_correct r R). cbn [negb orb].
    assert (GI : In op int_ops -> rejects (if negb (is_integer (type_of l)) || negb (is_integer (type_of r)) then err else fold_binary t_int l r op)).
    { intros I. destruct (is_integer (type_of l)) eqn:A; [|exact gives_err]. destruct (is_integer (type_of r)) eqn:B; [|exact gives_err].
      exfalso. apply (N t_int). apply bh_int; [exact I|apply is_integer_spec; exact A|apply is_integer_spec; exact B]. }
    assert (GA : forall x, In op (arith_ops ++ [BIN_LT; BIN_GT; BIN_LE; BIN_GE]) ->
              rejects (if negb (is_arithmetic (type_of l)) || negb (is_arithmetic (type_of r)) then err else x)).
    { intros x I. destruct (is_arithmetic (type_of l)) eqn:A; [|exact gives_err]. destruct (is_arithmetic (type_of r)) eqn:B; [|exact gives_err].
      exfalso. apply arithmetic_spec in A. apply arithmetic_spec in B. apply in_app_or in I as [I|I].
      - destruct (is_floating (type_of l)) eqn:C; [|destruct (is_floating (type_of r)) eqn:D].
        + apply (N t_float). apply bh_arith; auto. apply c_float. left. apply is_floating_spec. exact C.
        + apply (N t_float). apply bh_arith; auto. apply c_float. right. apply is_floating_spec. exact D.
        + apply (N t_int). apply bh_arith; auto. apply c_int; intros X; apply is_floating_spec in X; congruence.
      - apply (N t_bool). apply bh_order; auto. }
    assert (GL : In op logic_ops -> rejects (if negb (is_scalar (type_of l)) || negb (is_scalar (type_of r)) then err else fold_binary t_bool l r op)).
    { intros I. destruct (is_scalar (type_of l)) eqn:A; [|exact gives_err]. destruct (is_scalar (type_of r)) eqn:B; [|exact gives_err].
      exfalso. apply (N t_bool). apply bh_logic; [exact I|apply scalar_spec; exact A|apply scalar_spec; exact B]. }
    destruct op; try discriminate NA;
      try (apply GI; cbn; tauto); try (apply GA; cbn; tauto); try (apply GL; cbn; tauto);
      try (exfalso; apply Q; cbn; tauto).
    exfalso. apply (N (type_of r)). apply bh_comma.
Qed.

Lemma ternary_verdict c l r : good c -> good l -> good r ->
  (forall t, scalar_type (type_of c) -> is_initializer l = false -> is_initializer r = false -> choice_has (type_of l) (type_of r) t ->
     gives (build_ternary c l r) t false)
  /\ ((scalar_type (type_of c) -> is_initializer l = false -> is_initializer r = false -> forall t, ~ choice_has (type_of l) (type_of r) t) ->
     rejects (build_ternary c l r)).
Proof.
  intros C L R. unfold build_ternary. rewrite (good_correct c C), (good_correct l L), (good_correct r R). cbn [negb orb]. split.
  - intros t S -> -> H. cbn [orb]. rewrite (proj2 (scalar_spec _) S). cbn [negb].
    inversion H as [t0 u v A B X E1 E2|t0 p P E1 E2|u p P E1 E2|t0 N E1 E2]; subst.
    + rewrite (proj2 (arithmetic_spec _) A), (proj2 (arithmetic_spec _) B). cbn [andb].
      pose proof (conversions_common l r L R) as Y. destruct (conversions l r) as [[[v l'] r']|]; [|exact Logic.I].
      destruct Y as (Y & L' & R' & _). pose proof (common_unique _ _ _ _ X Y). subst v. apply gives_node; auto; exact Logic.I.
    + replace (is_arithmetic (type_of r)) with false by (rewrite <- E2; reflexivity). rewrite andb_false_r.
      rewrite (proj2 (is_pointer_spec (type_of l))) by eauto. replace (is_null_pointer (type_of r)) with true by (rewrite <- E2; reflexivity). cbn [andb].
      apply gives_node; auto; exact Logic.I.
    + replace (is_arithmetic (type_of l)) with false by (rewrite <- E1; reflexivity). cbn [andb].
      replace (is_pointer (type_of l)) with false by (rewrite <- E1; reflexivity). cbn [andb].
      replace (is_null_pointer (type_of l)) with true by (rewrite <- E1; reflexivity). rewrite (proj2 (is_pointer_spec (type_of r))) by eauto. cbn [andb orb].
      apply gives_node; auto; exact Logic.I.
    + assert (A : is_arithmetic (type_of l) = false) by (apply (not_true _ _ (arithmetic_spec _)); exact N).
      rewrite A. cbn [andb]. rewrite E2.
      rewrite ty_eqb_refl, orb_true_r.
      destruct (is_pointer (type_of r) && is_null_pointer (type_of r)); apply gives_node; auto; exact Logic.I.
  - intros H. destruct (is_initializer l); [exact gives_err|]. destruct (is_initializer r); [exact gives_err|]. cbn [orb].
    destruct (is_scalar (type_of c)) eqn:S; [|exact gives_err]. cbn [negb]. apply scalar_spec in S. specialize (H S eq_refl eq_refl).
    destruct (is_arithmetic (type_of l) && is_arithmetic (type_of r)) eqn:A.
    { exfalso. apply andb_true_iff in A as [A B]. apply arithmetic_spec in A, B.
      destruct (is_floating (type_of l)) eqn:D; [|destruct (is_floating (type_of r)) eqn:E].
      - apply (H t_float). apply ch_numbers; auto. apply c_float. left. apply is_floating_spec. exact D.
      - apply (H t_float). apply ch_numbers; auto. apply c_float. right. apply is_floating_spec. exact E.
      - apply (H t_int). apply ch_numbers; auto. apply c_int; intros X; apply is_floating_spec in X; congruence. }
    destruct (is_pointer (type_of l) && is_null_pointer (type_of r)) eqn:B.
    { exfalso. apply andb_true_iff in B as [B D]. apply is_pointer_spec in B as [p B]. apply is_null_exact in D.
      apply (H (type_of l)). rewrite D. eapply ch_null_right. exact B. }
    destruct (is_null_pointer (type_of l) && is_pointer (type_of r)) eqn:D; cbn [orb].
    { exfalso. apply andb_true_iff in D as [D E]. apply is_pointer_spec in E as [p E]. apply is_null_exact in D.
      apply (H (type_of r)). rewrite D. eapply ch_null_left. exact E. }
    destruct (ty_eqb (type_of l) (type_of r)) eqn:E; [|exact gives_err]. apply ty_eqb_eq in E. exfalso. rewrite <- E in *.
    apply (H (type_of l)). apply ch_same. intros X. apply arithmetic_spec in X. rewrite X in A. discriminate A.
Qed.

(** ** Every expression has one type or none *)
Lemma unary_unique op t place a p b q : unary_has op t place a p -> unary_has op t place b q -> a = b /\ p = q.
Proof.
  intros H K. inversion H; subst; inversion K; subst; cbn in *; try (split; reflexivity); try (intuition congruence).
Qed.
Lemma choice_unique t u a b : choice_has t u a -> choice_has t u b -> a = b.
Proof.
  assert (AN : ~ arithmetic_type t_null) by (intros X; apply arithmetic_spec in X; discriminate X).
  intros H K. inversion H; subst; inversion K; subst; try reflexivity; try contradiction; eauto using common_unique; try discriminate.
Qed.
Lemma binary_unique op t u a b : binary_has op t u a -> binary_has op t u b -> a = b.
Proof.
  intros H K. inversion H; subst; inversion K; subst; cbn in *; try reflexivity; try (eapply common_unique; eassumption); exfalso; intuition congruence.
Qed.
Ltac same :=
  repeat match goal with
  | IH : forall t p u q, has ?e t p -> has ?e u q -> _, H : has ?e ?t ?p, K : has ?e ?u ?q |- _ =>
      lazymatch constr:((t, p)) with (u, q) => fail | _ => destruct (IH _ _ _ _ H K); subst; clear K end
  | H : ?x = TStruct ?a, K : ?x = TStruct ?b |- _ => rewrite H in K; injection K; intros; subst; clear K
  | H : ?x = TPointer ?a, K : ?x = TPointer ?b |- _ => rewrite H in K; injection K; intros; subst; clear K
  | H : ?x = TArray ?a, K : ?x = TArray ?b |- _ => rewrite H in K; injection K; intros; subst; clear K
  | H : first_member ?m ?n _ _, K : first_member ?m ?n _ _ |- _ => destruct (first_unique _ _ _ _ _ _ H K); subst; clear K
  end.
Lemma has_unique e : forall t p u q, has e t p -> has e u q -> t = u /\ p = q.
Proof.
  induction e as [n|b IHb i IHi|b IHb name arrow|op e IHe|op l IHl r IHr|c IHc l IHl r IHr]; intros t p u q H K;
    inversion H; subst; inversion K; subst; same; try (split; reflexivity); try tauto.
  - eapply unary_unique; eassumption.
  - split; [|reflexivity]. eapply binary_unique; eassumption.
  - split; [|reflexivity]. eapply choice_unique; eassumption.
Qed.

Lemma unary_dec op t place : (exists t' p', unary_has op t place t' p') \/ forall t' p', ~ unary_has op t place t' p'.
Proof.
  pose proof (arithmetic_spec t) as A. pose proof (is_integer_spec t) as B. pose proof (scalar_spec t) as C.
  pose proof (is_pointer_spec t) as D. pose proof (is_array_spec t) as E.
  destruct op.
  all: try (destruct place; [|right; intros t' p' H; inversion H; subst; cbn in *; intuition congruence]).
  all: try (destruct (is_arithmetic t); [left; do 2 eexists; apply uh_count; [cbn; tauto|tauto]|right; intros t' p' H; inversion H; subst; cbn in *; intuition congruence]).
  all: try (left; do 2 eexists; apply uh_address).
  all: try (destruct (is_arithmetic t); [left; do 2 eexists; apply uh_sign; [cbn; tauto|tauto]|right; intros t' p' H; inversion H; subst; cbn in *; intuition congruence]).
  - destruct (is_pointer t); [left; destruct (proj1 D eq_refl) as [p P]; do 2 eexists; eapply uh_indirection; exact P|].
    right. intros t' p' H. inversion H; subst; [cbn in *; intuition congruence| |cbn in *; intuition congruence]. enough (false = true) by congruence. apply D. eauto.
  - destruct (is_integer t); [left; do 2 eexists; apply uh_not; tauto|right; intros t' p' H; inversion H; subst; cbn in *; intuition congruence].
  - destruct (is_scalar t); [left; do 2 eexists; apply uh_lognot; tauto|right; intros t' p' H; inversion H; subst; cbn in *; intuition congruence].
  - destruct (is_array t); [left; destruct (proj1 E eq_refl) as [p P]; do 2 eexists; eapply uh_upb; exact P|].
    right. intros t' p' H. inversion H; subst; [cbn in *; intuition congruence|cbn in *; intuition congruence|]. enough (false = true) by congruence. apply E. eauto.
Qed.
Lemma common_exists t u : exists v, common t u v.
Proof.
  destruct (is_floating t) eqn:A; [exists t_float; apply c_float; left; apply is_floating_spec; exact A|].
  destruct (is_floating u) eqn:B; [exists t_float; apply c_float; right; apply is_floating_spec; exact B|].
  exists t_int. apply c_int; intros X; apply is_floating_spec in X; congruence.
Qed.
Lemma binary_dec op t u : is_assignment op = false -> (exists v, binary_has op t u v) \/ forall v, ~ binary_has op t u v.
Proof.
  intros NA. pose proof (arithmetic_spec t) as A. pose proof (is_integer_spec t) as B. pose proof (scalar_spec t) as C.
  pose proof (arithmetic_spec u) as A'. pose proof (is_integer_spec u) as B'. pose proof (scalar_spec u) as C'.
  destruct op; try discriminate NA.
  all: try (destruct (is_integer t); [destruct (is_integer u)|]; [left; eexists; apply bh_int; [cbn; tauto|tauto|tauto]| |];
    right; intros v H; inversion H; subst; cbn in *; intuition congruence).
  all: try (destruct (is_scalar t); [destruct (is_scalar u)|]; [left; eexists; apply bh_logic; [cbn; tauto|tauto|tauto]| |];
    right; intros v H; inversion H; subst; cbn in *; intuition congruence).
  all: try (destruct (is_arithmetic t); [destruct (is_arithmetic u)|]; [left; eexists; apply bh_order; [cbn; tauto|tauto|tauto]| |];
    right; intros v H; inversion H; subst; cbn in *; intuition congruence).
  all: try (destruct (is_arithmetic t); [destruct (is_arithmetic u)|];
    [left; destruct (common_exists t u) as [v V]; exists v; apply bh_arith; [cbn; tauto|tauto|tauto|exact V]| |];
    right; intros v H; inversion H; subst; cbn in *; intuition congruence).
  3: left; eexists; apply bh_comma.
  all: assert (X : comparable t u \/ ~ comparable t u) by
    (unfold comparable; pose proof (is_pointer_spec t) as D; pose proof (is_pointer_spec u) as D';
     pose proof (is_null_exact t) as E; pose proof (is_null_exact u) as E'; pose proof (ty_eqb_eq t u) as F;
     pose proof (ty_eqb_refl t) as G;
     destruct (ty_eqb t u) eqn:Q; [left; right; right; right; auto|];
     assert (t <> u) by (intros ->; congruence);
     destruct (is_pointer t), (is_pointer u), (is_null_pointer t), (is_null_pointer u), (is_arithmetic t), (is_arithmetic u); intuition congruence).
  all: destruct X as [X|X]; [left; exists t_bool; apply bh_equal; [cbn; tauto|exact X]|right; intros v H; inversion H; subst; cbn in *; try (intuition congruence); apply X; assumption].
Qed.
Lemma choice_dec t u : (exists v, choice_has t u v) \/ forall v, ~ choice_has t u v.
Proof.
  pose proof (arithmetic_spec t) as A. pose proof (arithmetic_spec u) as A'.
  pose proof (is_pointer_spec t) as D. pose proof (is_pointer_spec u) as D'.
  pose proof (is_null_exact t) as E. pose proof (is_null_exact u) as E'. pose proof (ty_eqb_eq t u) as F.
  destruct (ty_eqb t u) eqn:Q.
  - specialize (F eq_refl). subst u. destruct (is_arithmetic t) eqn:R.
    + left. destruct (common_exists t t) as [v V]. exists v. apply ch_numbers; tauto.
    + left. exists t. apply ch_same. intuition congruence.
  - assert (N : t <> u) by (intros ->; rewrite ty_eqb_refl in Q; discriminate Q).
    destruct (is_arithmetic t && is_arithmetic u) eqn:R.
    { apply andb_true_iff in R as [R R']. left. destruct (common_exists t u) as [v V]. exists v. apply ch_numbers; tauto. }
    destruct (is_pointer t && is_null_pointer u) eqn:W.
    { apply andb_true_iff in W as [W W']. left. destruct (proj1 D W) as [p P]. exists t. rewrite (proj1 E' W'). eapply ch_null_right. exact P. }
    destruct (is_null_pointer t && is_pointer u) eqn:Y.
    { apply andb_true_iff in Y as [Y Y']. left. destruct (proj1 D' Y') as [p P]. exists u. rewrite (proj1 E Y). eapply ch_null_left. exact P. }
    right. intros v H. inversion H; subst.
    + rewrite (proj2 A) in R by assumption. rewrite (proj2 A') in R by assumption. discriminate R.
    + rewrite (proj2 D) in W by eauto. discriminate W.
    + rewrite (proj2 D') in Y by eauto. discriminate Y.
    + congruence.
Qed.

(** ** Whole expressions *)
Definition decided (e : sexp) : Prop :=
  match build_all e with
  | None => True
  | Some (n, k) =>
      (exists t p, has e t p /\ k = 0 /\ good n /\ type_of n = t /\ is_lvalue n = p
         /\ is_initializer n = (match e with SDone (NInit _ _) => true | _ => false end)
         /\ (enum_constant e -> match n with NLit (TEnum _ _) _ => True | _ => False end)
         /\ (~ enum_constant e -> match n with NLit (TEnum _ _) _ => False | _ => True end))
      \/ ((forall t p, ~ has e t p) /\ n = NBroken /\ 0 < k)
  end.
Lemma enum_constant_dec e : enum_constant e \/ ~ enum_constant e.
Proof. destruct e as [n| | | | |]; try (right; exact (fun X => X)). destruct n as [|t l| | | | | | | | | |]; try (right; exact (fun X => X)). destruct t; try (right; exact (fun X => X)). left. exact Logic.I. Qed.
Lemma listing_bool e : listing e \/ ~ listing e.
Proof. destruct e as [n| | | | |]; try (right; exact (fun X => X)). destruct n; try (right; exact (fun X => X)). left. exact Logic.I. Qed.

Lemma close_gives e i r t p : (match e with SDone _ => False | _ => True end) -> i = 0 -> has e t p -> gives r t p ->
  match (do ' (k, c) <- r; Some (k, i + c)) with
  | None => True
  | Some (n, k) =>
      (exists t p, has e t p /\ k = 0 /\ good n /\ type_of n = t /\ is_lvalue n = p
         /\ is_initializer n = (match e with SDone (NInit _ _) => true | _ => false end)
         /\ (enum_constant e -> match n with NLit (TEnum _ _) _ => True | _ => False end)
         /\ (~ enum_constant e -> match n with NLit (TEnum _ _) _ => False | _ => True end))
      \/ ((forall t p, ~ has e t p) /\ n = NBroken /\ 0 < k)
  end.
Proof.
  intros NE -> H G. destruct r as [[n k]|]; [|exact Logic.I]. destruct G as (-> & G & P & T & L). left. exists t, p.
  split; [exact H|]. split; [reflexivity|]. split; [exact G|]. split; [exact T|]. split; [exact L|].
  destruct e; try contradiction; (split; [destruct n; try reflexivity; contradiction|split; [intros []|intros _]]);
    (destruct n as [|u l0| | | | | | | | | |]; try exact Logic.I; destruct u; try exact Logic.I; contradiction).
Qed.
Lemma close_rejects e i r : 0 <= i -> (forall t p, ~ has e t p) -> rejects r \/ (exists k, r = Some (NBroken, k) /\ 0 <= k /\ 0 < i) ->
  match (do ' (k, c) <- r; Some (k, i + c)) with
  | None => True
  | Some (n, k) =>
      (exists t p, has e t p /\ k = 0 /\ good n /\ type_of n = t /\ is_lvalue n = p
         /\ is_initializer n = (match e with SDone (NInit _ _) => true | _ => false end)
         /\ (enum_constant e -> match n with NLit (TEnum _ _) _ => True | _ => False end)
         /\ (~ enum_constant e -> match n with NLit (TEnum _ _) _ => False | _ => True end))
      \/ ((forall t p, ~ has e t p) /\ n = NBroken /\ 0 < k)
  end.
Proof.
  intros P H [R|(k & -> & K & I)].
  - destruct r as [[n k]|]; [|exact Logic.I]. destruct R as [-> R]. right. split; [exact H|]. split; [reflexivity|lia].
  - right. split; [exact H|]. split; [reflexivity|lia].
Qed.
Lemma broken_binary_l m op : build_binary NBroken m op = ok NBroken.
Proof. reflexivity. Qed.
Lemma broken_binary_r n op : build_binary n NBroken op = ok NBroken.
Proof. unfold build_binary. cbn [is_correct negb]. rewrite orb_true_r. reflexivity. Qed.

Lemma member_dec b name arrow : (exists st i t, has_member_ b name arrow st i t) \/ forall st i t, ~ has_member_ b name arrow st i t.
Proof.
  assert (G : forall st, (exists i t ms, strip st = TStruct ms /\ first_member ms name i t) \/ forall i t ms, strip st = TStruct ms -> ~ first_member ms name i t).
  { intros st. destruct (is_structure st) eqn:S.
    - apply is_structure_spec in S as [ms S]. pose proof (first_found name ms 0) as X. destruct (find_member name 0 ms) as [[k t]|].
      + destruct X as (j & _ & X). left. eauto.
      + right. intros i t ms' S'. rewrite S in S'. injection S' as <-. apply X.
    - right. intros i t ms S'. exfalso. rewrite (proj2 (is_structure_spec st)) in S by eauto. discriminate S. }
  unfold has_member_, whole. destruct arrow.
  - destruct (is_pointer (type_of b)) eqn:P.
    + apply is_pointer_spec in P as [st P]. destruct (G st) as [(i & t & ms & X)|N].
      * left. exists st, i, t. split; [exact P|]. eauto.
      * right. intros st' i t (P' & ms & S & X). rewrite P in P'. injection P' as <-. exact (N i t ms S X).
    + right. intros st i t (P' & _). rewrite (proj2 (is_pointer_spec _)) in P by eauto. discriminate P.
  - destruct (G (type_of b)) as [(i & t & ms & X)|N].
    + left. exists (type_of b), i, t. split; [reflexivity|]. eauto.
    + right. intros st i t (<- & ms & S & X). exact (N i t ms S X).
Qed.
Ltac pin :=
  repeat match goal with
  | H : has ?e ?t ?p, K : has ?e ?u ?q |- _ =>
      lazymatch constr:((t, p)) with (u, q) => fail | _ => destruct (has_unique _ _ _ _ _ H K); subst; clear K end
  end.
Lemma listed e n : is_initializer n = (match e with SDone (NInit _ _) => true | _ => false end) -> (is_initializer n = false <-> ~ listing e).
Proof. intros ->. unfold listing. destruct e as [m| | | | |]; [destruct m|..]; split; intros X; try reflexivity; try discriminate X; try exact (fun Y => Y). exfalso. apply X. exact Logic.I. Qed.

Lemma build_decided e : finished e -> decided e.
Proof.
  unfold decided. induction e as [n|b IHb i IHi|b IHb name arrow|op e IHe|op l IHl r IHr|c IHc l IHl r IHr]; intros F; cbn [build_all finished] in *.
  - left. exists (type_of n), (is_lvalue n). split; [constructor|]. split; [reflexivity|]. split; [exact F|]. split; [reflexivity|]. split; [reflexivity|].
    split; [destruct n; reflexivity|]. split; [exact (fun X => X)|].
    intros X. destruct n as [|u l0| | | | | | | | | |]; try exact Logic.I. destruct u; try exact Logic.I. apply X. exact Logic.I.
  - destruct F as [Fb Fi]. specialize (IHb Fb). specialize (IHi Fi).
    destruct (build_all b) as [[n j]|]; [|exact Logic.I]. destruct (build_all i) as [[m h]|]; [|exact Logic.I].
    destruct IHb as [(tb & pb & Hb & -> & Gb & Tb & Lb & _)|(Nb & -> & Pb)].
    2:{ apply close_rejects; [destruct IHi as [(? & ? & _ & -> & _)|(_ & _ & ?)]; lia| |].
        - intros t p H. inversion H; subst. eapply Nb; eassumption.
        - right. exists 0. split; [reflexivity|]. split; [lia|]. destruct IHi as [(? & ? & _ & -> & _)|(_ & _ & ?)]; lia. }
    destruct IHi as [(ti & pi & Hi & -> & Gi & Ti & Li & _)|(Ni & -> & Pi)].
    2:{ apply close_rejects; [lia| |].
        - intros t p H. inversion H; subst. eapply Ni; eassumption.
        - right. exists 0. split; [unfold build_subscript; cbn [is_correct negb]; rewrite orb_true_r; reflexivity|lia]. }
    subst. destruct (subscript_verdict n m (good_correct _ Gb) (good_correct _ Gi)) as [A B].
    destruct (is_array (type_of n)) eqn:Q1; [destruct (is_integer (type_of m)) eqn:Q2|].
    + apply is_array_spec in Q1 as [t Q1]. apply is_integer_spec in Q2. eapply close_gives with (t := t) (p := true); [exact Logic.I|reflexivity| |].
      * eapply has_subscript; eassumption.
      * destruct (A t Q1 Q2) as [-> _]. apply gives_node; auto; exact Logic.I.
    + assert (X : ~ integer_type (strip (type_of m))) by (intros X; apply is_integer_spec in X; congruence). apply close_rejects; [lia| |left].
      * intros t p H. inversion H; subst. pin. contradiction.
      * rewrite B by tauto. exact gives_err.
    + assert (X : ~ exists t, strip (type_of n) = TArray t) by (intros X; apply is_array_spec in X; congruence). apply close_rejects; [lia| |left].
      * intros t p H. inversion H; subst. pin. eauto.
      * rewrite B by tauto. exact gives_err.
  - specialize (IHb F). destruct (build_all b) as [[n j]|]; [|exact Logic.I].
    destruct IHb as [(tb & pb & Hb & -> & Gb & Tb & Lb & _)|(Nb & -> & Pb)].
    2:{ apply close_rejects; [lia| |right; exists 0; split; [reflexivity|lia]].
        intros t p H. inversion H; subst; eapply Nb; eassumption. }
    subst. destruct (member_verdict n name arrow (good_correct _ Gb)) as [A B]. destruct (member_dec n name arrow) as [(st & i & t & M)|N].
    + eapply close_gives with (t := member_type st t) (p := arrow || is_lvalue n); [exact Logic.I|reflexivity| |].
      2:{ destruct (A _ _ _ M) as [-> _]. apply gives_node; auto; exact Logic.I. }
      destruct M as (W & ms & S & FM). unfold whole in W. destruct arrow; cbn [orb]; [eapply has_arrow; eassumption|]. subst st. eapply has_member; eassumption.
    + apply close_rejects; [lia| |left; rewrite (B N); exact gives_err].
      intros t p H. inversion H; subst; pin; eapply N; unfold has_member_, whole; eauto.
  - specialize (IHe F). destruct (build_all e) as [[n j]|]; [|exact Logic.I].
    destruct IHe as [(te & pe & He & -> & Ge & Te & Le & _ & E1 & E2)|(Ne & -> & Pe)].
    2:{ apply close_rejects; [lia| |right; exists 0; split; [reflexivity|lia]].
        intros t p H. inversion H; subst; [eapply Ne; eassumption|].
        match goal with X : enum_constant e |- _ => destruct e as [d| | | | |]; try contradiction X; eapply Ne; constructor end. }
    subst. destruct (unary_verdict n op Ge) as (A & B & D).
    destruct (in_dec (fun a b : unary => ltac:(decide equality) : {a = b} + {a <> b}) op [UN_ABS; UN_MINUS]) as [Q|Q];
      [destruct (enum_constant_dec e) as [X|X]|].
    + eapply close_gives with (t := t_int) (p := false); [exact Logic.I|reflexivity|apply has_sign; assumption|]. apply B; [exact Q|apply E1; exact X].
    + destruct (unary_dec op (type_of n) (is_lvalue n)) as [(t & p & U)|N].
      * eapply close_gives with (t := t) (p := p); [exact Logic.I|reflexivity|eapply has_unary; eauto|]. apply A; [exact U|intros _; apply E2; exact X].
      * apply close_rejects; [lia| |left; apply D; exact N]. intros t p H. inversion H; subst; [|contradiction]. pin. eapply N; eassumption.
    + destruct (unary_dec op (type_of n) (is_lvalue n)) as [(t & p & U)|N].
      * eapply close_gives with (t := t) (p := p); [exact Logic.I|reflexivity|eapply has_unary; eauto; contradiction|]. apply A; [exact U|contradiction].
      * apply close_rejects; [lia| |left; apply D; exact N]. intros t p H. inversion H; subst; [|contradiction]. pin. eapply N; eassumption.
  - destruct F as (Fl & Fr & NA). specialize (IHl Fl). specialize (IHr Fr).
    destruct (build_all l) as [[n j]|]; [|exact Logic.I]. destruct (build_all r) as [[m h]|]; [|exact Logic.I].
    destruct IHl as [(tl & pl & Hl & -> & Gl & Tl & Ll & _)|(Nl & -> & Pl)].
    2:{ apply close_rejects; [destruct IHr as [(? & ? & _ & -> & _)|(_ & _ & ?)]; lia| |].
        - intros t p H. inversion H; subst. eapply Nl; eassumption.
        - right. exists 0. split; [reflexivity|]. split; [lia|]. destruct IHr as [(? & ? & _ & -> & _)|(_ & _ & ?)]; lia. }
    destruct IHr as [(tr & pr & Hr & -> & Gr & Tr & Lr & _)|(Nr & -> & Pr)].
    2:{ apply close_rejects; [lia| |].
        - intros t p H. inversion H; subst. eapply Nr; eassumption.
        - right. exists 0. split; [apply broken_binary_r|lia]. }
    subst. destruct (binary_verdict n m op Gl Gr NA) as [A B]. destruct (binary_dec op (type_of n) (type_of m) NA) as [[v V]|N].
    + eapply close_gives with (t := v) (p := false); [exact Logic.I|reflexivity|eapply has_binary; eassumption|]. apply A. exact V.
    + apply close_rejects; [lia| |left; apply B; exact N]. intros t p H. inversion H; subst. pin. eapply N; eassumption.
  - destruct F as (Fc & Fl & Fr). specialize (IHc Fc). specialize (IHl Fl). specialize (IHr Fr).
    destruct (build_all c) as [[o g]|]; [|exact Logic.I].
    destruct (build_all l) as [[n j]|]; [|exact Logic.I]. destruct (build_all r) as [[m h]|]; [|exact Logic.I].
    assert (PC : 0 <= g) by (destruct IHc as [(? & ? & _ & -> & _)|(_ & _ & ?)]; lia).
    assert (PL : 0 <= j) by (destruct IHl as [(? & ? & _ & -> & _)|(_ & _ & ?)]; lia).
    assert (PR : 0 <= h) by (destruct IHr as [(? & ? & _ & -> & _)|(_ & _ & ?)]; lia).
    destruct IHc as [(tc & pc & Hc & -> & Gc & Tc & Lc & _)|(Nc & -> & Pc)].
    2:{ apply close_rejects; [lia| |right; exists 0; split; [reflexivity|lia]]. intros t p H. inversion H; subst. eapply Nc; eassumption. }
    destruct IHl as [(tl & pl & Hl & -> & Gl & Tl & Ll & El & _)|(Nl & -> & Pl)].
    2:{ apply close_rejects; [lia| |right; exists 0; split; [unfold build_ternary; cbn [is_correct negb]; rewrite orb_true_r; reflexivity|lia]].
        intros t p H. inversion H; subst. eapply Nl; eassumption. }
    destruct IHr as [(tr & pr & Hr & -> & Gr & Tr & Lr & Er & _)|(Nr & -> & Pr)].
    2:{ apply close_rejects; [lia| |right; exists 0; split; [unfold build_ternary; cbn [is_correct negb]; rewrite !orb_true_r; reflexivity|lia]].
        intros t p H. inversion H; subst. eapply Nr; eassumption. }
    subst. apply listed in El. apply listed in Er.
    destruct (ternary_verdict o n m Gc Gl Gr) as [A B].
    destruct (is_scalar (type_of o)) eqn:Q1.
    2:{ assert (~ scalar_type (type_of o)) by (intros X; apply scalar_spec in X; congruence).
        apply close_rejects; [lia| |left; apply B; intros; contradiction]. intros t p H0. inversion H0; subst. pin. contradiction. }
    apply scalar_spec in Q1.
    destruct (is_initializer n) eqn:Q2.
    { apply close_rejects; [lia| |left; apply B; intros; discriminate]. intros t p H0. inversion H0; subst. enough (true = false) by discriminate. apply El. assumption. }
    destruct (is_initializer m) eqn:Q3.
    { apply close_rejects; [lia| |left; apply B; intros; discriminate]. intros t p H0. inversion H0; subst. enough (true = false) by discriminate. apply Er. assumption. }
    destruct (choice_dec (type_of n) (type_of m)) as [[v V]|N].
    + eapply close_gives with (t := v) (p := false); [exact Logic.I|reflexivity| |apply A; auto].
      eapply has_ternary; eauto; [apply El|apply Er]; reflexivity.
    + apply close_rejects; [lia| |left; apply B; auto]. intros t p H0. inversion H0; subst. pin. eapply N; eassumption.
Qed.

(** ** The builder is defined on expressions without constant parts *)
Definition folded (n : node) : bool := match n with NLit _ _ => true | _ => false end.
Lemma cast_defined l : good l -> arithmetic_type (type_of l) -> exists n, build_cast t_float l = Some n /\ folded n = folded l.
Proof.
  intros [C L] A. unfold build_cast. rewrite C. cbn [negb]. destruct (ty_eqb t_float (type_of l)) eqn:E; [eauto|].
  destruct l as [|t a| | | | | | | | | |]; try discriminate C; try (eexists; split; reflexivity).
  cbn [type_of lit_ok] in *. destruct a; cbn [lit_integer]; try (eexists; split; reflexivity).
  - cbn in L. subst. discriminate E.
Qed.
Lemma conversions_defined l r : good l -> good r -> arithmetic_type (type_of l) -> arithmetic_type (type_of r) ->
  exists t l' r', conversions l r = Some (t, l', r') /\ folded l' = folded l /\ folded r' = folded r.
Proof.
  intros L R A B. unfold conversions. destruct (is_floating (type_of l) || is_floating (type_of r)); [|exists t_int, l, r; auto].
  destruct (cast_defined l L A) as (l' & -> & X). destruct (cast_defined r R B) as (r' & -> & Y). exists t_float, l', r'. auto.
Qed.
Lemma fold_binary_defined t l r op : folded l && folded r = false -> fold_binary t l r op = ok (NBinary t op l r).
Proof. intros H. destruct l; try reflexivity. destruct r; try reflexivity. discriminate H. Qed.
Lemma fold_unary_defined t lv e op : folded e = false -> fold_unary t lv e op = ok (NUnary t lv op e).
Proof. intros H. destruct e; try reflexivity. discriminate H. Qed.

Definition made (r : bres) : Prop := exists n k, r = Some (n, k) /\ folded n = false.
Lemma made_err : made err. Proof. exists NBroken, 1. auto. Qed.
Lemma made_ok n : folded n = false -> made (ok n). Proof. intros H. exists n, 0. auto. Qed.
Lemma made_unary e op : folded e = false -> made (build_unary e op).
Proof.
  intros H. unfold build_unary. destruct (negb (is_correct e)); [apply made_ok; reflexivity|].
  destruct op; repeat (rewrite fold_unary_defined by exact H);
    repeat match goal with |- made (if ?b then _ else _) => destruct b end; try exact made_err; apply made_ok; reflexivity.
Qed.
Lemma made_binary l r op : good l -> good r -> is_assignment op = false -> folded l && folded r = false -> made (build_binary l r op).
Proof.
  intros L R NA H. unfold build_binary. rewrite (good_correct l L), (good_correct r R). cbn [negb orb].
  assert (W : forall t, made (fold_binary t l r op)) by (intros t; rewrite fold_binary_defined by exact H; apply made_ok; reflexivity).
  assert (V : is_arithmetic (type_of l) = true -> is_arithmetic (type_of r) = true -> forall f,
              made (do ' (t, l, r) <- conversions l r; fold_binary (f t) l r op)).
  { intros A B f. destruct (conversions_defined l r L R (proj1 (arithmetic_spec _) A) (proj1 (arithmetic_spec _) B)) as (t & l' & r' & -> & X & Y).
    cbn [bind]. rewrite fold_binary_defined by (rewrite X, Y; exact H). apply made_ok; reflexivity. }
  destruct op; try discriminate NA;
    try (destruct (is_integer (type_of l)); [|exact made_err]; destruct (is_integer (type_of r)); [|exact made_err]; apply W);
    try (destruct (is_scalar (type_of l)); [|exact made_err]; destruct (is_scalar (type_of r)); [|exact made_err]; apply W);
    try (destruct (is_arithmetic (type_of l)); [|exact made_err]; destruct (is_arithmetic (type_of r)); [|exact made_err];
         first [apply (V eq_refl eq_refl (fun t => t))|apply (V eq_refl eq_refl (fun _ => t_bool))]);
    try (destruct (is_arithmetic (type_of l)) eqn:A; [destruct (is_arithmetic (type_of r)) eqn:B|]; cbn [andb];
         [apply (V eq_refl eq_refl (fun _ => t_bool))| |];
         match goal with |- made (if ?b then _ else _) => destruct b end; [apply W|exact made_err|apply W|exact made_err]).
  apply made_ok; reflexivity.
Qed.
Lemma made_ternary c l r : good l -> good r -> made (build_ternary c l r).
Proof.
  intros L R. unfold build_ternary. destruct (_ || _ || _); [apply made_ok; reflexivity|]. destruct (_ || _); [exact made_err|]. destruct (negb _); [exact made_err|].
  destruct (is_arithmetic (type_of l)) eqn:A; [destruct (is_arithmetic (type_of r)) eqn:B|]; cbn [andb].
  - destruct (conversions_defined l r L R (proj1 (arithmetic_spec _) A) (proj1 (arithmetic_spec _) B)) as (t & l' & r' & -> & _). apply made_ok; reflexivity.
  - repeat match goal with |- made (if ?b then _ else _) => destruct b end; try exact made_err; apply made_ok; reflexivity.
  - repeat match goal with |- made (if ?b then _ else _) => destruct b end; try exact made_err; apply made_ok; reflexivity.
Qed.
Lemma build_defined e : finished e -> nothing_to_fold e ->
  exists n k, build_all e = Some (n, k) /\ (folded n = true -> literal e).
Proof.
  assert (M : forall r i e, made r -> exists n k, (do ' (k, c) <- r; Some (k, i + c)) = Some (n, k) /\ (folded n = true -> literal e)).
  { intros r i e' (n & k & -> & X). exists n, (i + k). split; [reflexivity|congruence]. }
  assert (GB : forall e n k, finished e -> build_all e = Some (n, k) -> good n \/ n = NBroken).
  { intros e' n k F B. pose proof (build_decided e' F) as D. unfold decided in D. rewrite B in D. destruct D as [(? & ? & _ & _ & D & _)|(_ & D & _)]; auto. }
  induction e as [n|b IHb i IHi|b IHb name arrow|op e IHe|op l IHl r IHr|c IHc l IHl r IHr]; intros F N; cbn [nothing_to_fold] in N.
  - exists n, 0. split; [reflexivity|]. destruct n; try discriminate. intros _. exact Logic.I.
  - cbn [finished] in F. destruct F as [Fb Fi], N as [Nb Ni]. destruct (IHb Fb Nb) as (n & j & Eb & Lb). destruct (IHi Fi Ni) as (m & h & Ei & Li).
    cbn [build_all]. rewrite Eb, Ei. cbn [bind]. apply M. unfold build_subscript.
    repeat match goal with |- made (if ?b then _ else _) => destruct b end; try exact made_err; apply made_ok; reflexivity.
  - cbn [finished] in F. destruct (IHb F N) as (n & j & Eb & Lb). cbn [build_all]. rewrite Eb. cbn [bind]. apply M. unfold build_member.
    destruct (negb (is_correct n)); [apply made_ok; reflexivity|].
    repeat match goal with
           | |- made (if ?b then _ else _) => destruct b
           | |- made (match ?x with _ => _ end) => destruct x as [[]|] end; try exact made_err; apply made_ok; reflexivity.
  - cbn [finished] in F. destruct N as [N NL]. destruct (IHe F N) as (n & j & E & L). cbn [build_all]. rewrite E. cbn [bind]. apply M.
    apply made_unary. destruct (folded n); [exfalso; auto|reflexivity].
  - cbn [finished] in F. destruct F as (Fl & Fr & NA), N as (Nl & Nr & NL).
    destruct (IHl Fl Nl) as (n & j & El & Ll). destruct (IHr Fr Nr) as (m & h & Er & Lr). cbn [build_all]. rewrite El, Er. cbn [bind]. apply M.
    destruct (GB l n j Fl El) as [Gl| ->]; [|apply made_ok; reflexivity].
    destruct (GB r m h Fr Er) as [Gr| ->]; [|rewrite broken_binary_r; apply made_ok; reflexivity].
    apply made_binary; auto. destruct (folded n), (folded m); auto. exfalso; auto.
  - cbn [finished] in F. destruct F as (Fc & Fl & Fr), N as (Nc & Nl & Nr).
    destruct (IHc Fc Nc) as (o & g & Ec & _). destruct (IHl Fl Nl) as (n & j & El & Ll). destruct (IHr Fr Nr) as (m & h & Er & Lr).
    cbn [build_all]. rewrite Ec, El, Er. cbn [bind]. apply M.
    destruct (GB l n j Fl El) as [Gl| ->]; [|unfold build_ternary; cbn [is_correct negb]; rewrite orb_true_r; apply made_ok; reflexivity].
    destruct (GB r m h Fr Er) as [Gr| ->]; [|unfold build_ternary; cbn [is_correct negb]; rewrite !orb_true_r; apply made_ok; reflexivity].
    apply made_ternary; auto.
Qed.

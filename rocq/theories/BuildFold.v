(** Constant folding keeps values: proofs. *)
From Coq Require Import Floats.SpecFloat.
From Verif Require Import Prelude TypesModel TypesSpec LexModel ParseModel BuildModel BuildSpec.

Inductive kind := KInt | KFloat | KBool | KNull | KOther.
Definition kind_of (t : ty) : kind :=
  if is_integer t then KInt else if is_floating t then KFloat else if is_boolean t then KBool
  else if is_null_pointer t then KNull else KOther.
Definition vkind (v : value) : kind :=
  match v with VInt _ => KInt | VFloat _ => KFloat | VBool _ => KBool | VNull => KNull end.

Definition lit_top (n : node) : Prop := match n with NLit t l => lit_ok t l | _ => True end.
Definition good (n : node) : Prop :=
  lit_top n /\ forall v, node_value n = Some v -> kind_of (type_of n) = vkind v.

Lemma int_not_float t : is_integer t = true -> is_floating t = false.
Proof.
  unfold is_integer, is_floating. destruct (strip t) as [c| | | | | |]; cbn [is_simple]; try reflexivity.
  unfold TYPE_CHARACTER, TYPE_INTEGER, TYPE_FLOATING. intros H. apply orb_true_iff in H. lia.
Qed.
Lemma kind_int t : kind_of t = KInt <-> is_integer t = true.
Proof. unfold kind_of. destruct (is_integer t), (is_floating t), (is_boolean t), (is_null_pointer t); split; congruence. Qed.
Lemma kind_float t : kind_of t = KFloat <-> is_floating t = true.
Proof.
  unfold kind_of. pose proof (int_not_float t) as H.
  destruct (is_integer t), (is_floating t), (is_boolean t), (is_null_pointer t); split; try congruence;
    specialize (H eq_refl); congruence.
Qed.

Lemma ty_eqb_refl t : ty_eqb t t = true.
Proof.
  revert t. fix IH 1. intros [c|t|t|t|ms|r ps|s v]; cbn.
  - apply Z.eqb_refl.
  - apply IH.
  - apply IH.
  - apply IH.
  - induction ms as [|[t a] ms IHm]; [reflexivity|]. rewrite IH, Z.eqb_refl. exact IHm.
  - rewrite IH. cbn. induction ps as [|t ps IHp]; [reflexivity|]. rewrite IH. exact IHp.
  - rewrite !Z.eqb_refl. reflexivity.
Qed.
Lemma ty_eqb_eq t u : ty_eqb t u = true -> t = u.
Proof.
  revert t u. fix IH 1. intros [c|t|t|t|ms|r ps|s v] [c'|t'|t'|t'|ms'|r' ps'|s' v']; cbn; try discriminate.
  - intros H. f_equal. lia.
  - intros H. f_equal. apply IH, H.
  - intros H. f_equal. apply IH, H.
  - intros H. f_equal. apply IH, H.
  - intros H. f_equal. revert ms' H.
    induction ms as [|[t a] ms IHm]; intros [|[t' a'] ms'] H; try discriminate; [reflexivity|].
    apply andb_true_iff in H as [H H2]. apply andb_true_iff in H as [H H1].
    apply IH in H. apply Z.eqb_eq in H1. subst. f_equal. apply IHm, H2.
  - intros H. apply andb_true_iff in H as [H H1]. apply IH in H. subst. f_equal. revert ps' H1.
    induction ps as [|t ps IHp]; intros [|t' ps'] H; try discriminate; [reflexivity|].
    apply andb_true_iff in H as [H H2]. apply IH in H. subst. f_equal. apply IHp, H2.
  - intros H. apply andb_true_iff in H as [H H1]. f_equal; lia.
Qed.

Lemma in64_exact z : in64 z = (if representable z then Some z else None).
Proof.
  unfold in64, representable, LLONG_MIN, LLONG_MAX, two63.
  replace ((-(9223372036854775808) <=? z) && (z <=? 9223372036854775808 - 1)) with ((- 2 ^ 63 <=? z) && (z <? 2 ^ 63));
    [reflexivity|]. apply Bool.eq_iff_eq_true. rewrite !andb_true_iff. lia.
Qed.
Lemma mk_int_exact z : mk_int (in64 z) = do v <- exact z; match v with VInt z => ok (NLit t_int (LInt z)) | _ => None end.
Proof. unfold mk_int, exact. rewrite in64_exact. destruct (representable z); reflexivity. Qed.

(** The literal for a value. *)
Definition lit_node (v : value) : node :=
  match v with
  | VInt z => NLit t_int (LInt z)
  | VBool b => NLit t_bool (LBool b)
  | VFloat d => NLit t_float (LFloat d)
  | VNull => NLit t_null (LNull 0)
  end.
Lemma lit_node_value v : node_value (lit_node v) = Some v.
Proof. destruct v; reflexivity. Qed.
Lemma lit_node_good v : good (lit_node v).
Proof.
  split.
  - destruct v; cbn; auto.
  - intros w H. rewrite lit_node_value in H. injection H as <-. destruct v; reflexivity.
Qed.

Definition arith_op (op : binary) : bool :=
  match op with
  | BIN_MUL | BIN_DIV | BIN_REM | BIN_ADD | BIN_SUB | BIN_SHL | BIN_SHR | BIN_LT | BIN_GT | BIN_LE | BIN_GE
  | BIN_EQ | BIN_NE | BIN_AND | BIN_XOR | BIN_OR => true
  | _ => false
  end.
Definition float_ops (op : binary) : bool :=
  match op with
  | BIN_MUL | BIN_DIV | BIN_ADD | BIN_SUB | BIN_LT | BIN_GT | BIN_LE | BIN_GE | BIN_EQ | BIN_NE => true
  | _ => false
  end.

Lemma fold_ints_exact op a b : arith_op op = true ->
  fold_ints op a b = do v <- int_op op a b; ok (lit_node v).
Proof.
  destruct op; try discriminate; intros _; unfold fold_ints, int_op; cbn [bind]; try reflexivity;
    try (rewrite mk_int_exact; unfold exact; destruct (representable _); reflexivity).
  - unfold c_div. destruct (b =? 0); [reflexivity|].
    rewrite mk_int_exact. unfold exact. destruct (representable _); reflexivity.
  - unfold c_rem. destruct (b =? 0) eqn:B; [reflexivity|]. cbn [orb]. rewrite in64_exact.
    destruct (representable _); cbn [bind negb mk_int]; [|reflexivity].
    unfold lit_node. do 3 f_equal. pose proof (Z.quot_rem' a b). lia.
  - unfold c_shl, shift_ok. destruct ((0 <=? b) && (b <? 64) && (0 <=? a)); [|reflexivity].
    rewrite mk_int_exact. unfold exact. destruct (representable _); reflexivity.
  - unfold c_shr, shift_ok. destruct ((0 <=? b) && (b <? 64)); reflexivity.
  - unfold mk_bool, lit_node. rewrite Z.gtb_ltb. reflexivity.
  - unfold mk_bool, lit_node. rewrite Z.geb_leb. reflexivity.
Qed.

Lemma fold_floats_exact op a b : float_ops op = true ->
  fold_floats op a b = do v <- float_op op a b; ok (lit_node v).
Proof. destruct op; try discriminate; reflexivity. Qed.

Lemma is_arith_kind t : is_arithmetic t = true <-> kind_of t = KInt \/ kind_of t = KFloat.
Proof.
  unfold is_arithmetic. rewrite orb_true_iff, kind_int, kind_float. tauto.
Qed.

(** What a value of an arithmetic node is. *)
Lemma good_int n v : good n -> is_integer (type_of n) = true -> node_value n = Some v -> exists z, v = VInt z.
Proof.
  intros [_ G] I V. specialize (G v V). apply kind_int in I. rewrite I in G.
  destruct v; try discriminate G. eauto.
Qed.
Lemma good_float n v : good n -> is_floating (type_of n) = true -> node_value n = Some v -> exists d, v = VFloat d.
Proof.
  intros [_ G] I V. specialize (G v V). apply kind_float in I. rewrite I in G.
  destruct v; try discriminate G. eauto.
Qed.

(** ** Conversions *)
Lemma cast_float n m : good n -> is_correct n = true -> is_arithmetic (type_of n) = true ->
  build_cast t_float n = Some m ->
  good m /\ is_correct m = true /\ is_floating (type_of m) = true
  /\ (forall t l, m = NLit t l -> exists d, t = t_float /\ l = LFloat d)
  /\ node_value m = do v <- node_value n; do d <- to_double v; Some (VFloat d).
Proof.
  intros G C A B. unfold build_cast in B. rewrite C in B. cbn [negb] in B.
  destruct (ty_eqb t_float (type_of n)) eqn:E.
  - injection B as <-. apply ty_eqb_eq in E.
    assert (F : is_floating (type_of n) = true) by (rewrite <- E; reflexivity).
    repeat split; try assumption; try apply G.
    + intros t l ->. destruct G as [L _]. cbn in L, E. subst t. destruct l; cbn in L; try discriminate L.
      * destruct L as [L|(s & v0 & L)]; discriminate L.
      * eauto.
    + destruct (node_value n) as [v|] eqn:V; [|reflexivity].
      destruct (good_float n v G F V) as [d ->]. reflexivity.
  - assert (I : forall t l, n = NLit t l -> exists v, lit_integer l = Some v /\ lit_value l = Some (VInt v)).
    { intros t l ->. destruct G as [L _]. cbn in L, E, A. destruct l; cbn in L; subst.
      - discriminate A.
      - discriminate A.
      - eexists; split; reflexivity.
      - eexists; split; reflexivity.
      - discriminate E.
      - discriminate A. }
    destruct n as [t i|t l| | | | | | | | | |]; try discriminate C;
      try (injection B as <-; cbn [type_of is_correct lit_top node_value] in *; rewrite ty_eqb_refl;
           split; [split; [exact Logic.I|]|]; [|split; [reflexivity|split; [reflexivity|split; [discriminate|reflexivity]]]];
           intros v V; cbn [node_value] in V; rewrite ty_eqb_refl in V;
           match type of V with bind ?x _ = _ => destruct x as [w|]; cbn [bind] in V; [|discriminate V] end;
           destruct (to_double w); cbn [bind] in V; [|discriminate V]; injection V as <-; reflexivity).
    destruct (I t l eq_refl) as (v & L1 & L2). rewrite L1 in B. cbn [bind] in B. injection B as <-.
    split; [exact (lit_node_good (VFloat _))|]. split; [reflexivity|]. split; [reflexivity|]. split.
    + intros t' l' X. injection X as <- <-. eauto.
    + cbn [node_value lit_value]. rewrite L2. reflexivity.
Qed.

(** Both operands of an arithmetic operator after the conversions. *)
Lemma conversions_ok l r t l' r' : good l -> good r -> is_correct l = true -> is_correct r = true ->
  is_arithmetic (type_of l) = true -> is_arithmetic (type_of r) = true ->
  conversions l r = Some (t, l', r') ->
  (t = t_int /\ l' = l /\ r' = r /\ is_integer (type_of l) = true /\ is_integer (type_of r) = true)
  \/ (t = t_float /\ (is_floating (type_of l) = true \/ is_floating (type_of r) = true)
      /\ build_cast t_float l = Some l' /\ build_cast t_float r = Some r').
Proof.
  intros Gl Gr Cl Cr Al Ar H. unfold conversions in H.
  destruct (is_floating (type_of l)) eqn:Fl; [|destruct (is_floating (type_of r)) eqn:Fr]; cbn [orb] in H.
  - destruct (build_cast t_float l) as [x|] eqn:X; [|discriminate H]. cbn [bind] in H.
    destruct (build_cast t_float r) as [y|] eqn:Y; [|discriminate H]. cbn [bind] in H. injection H as <- <- <-. right. auto.
  - destruct (build_cast t_float l) as [x|] eqn:X; [|discriminate H]. cbn [bind] in H.
    destruct (build_cast t_float r) as [y|] eqn:Y; [|discriminate H]. cbn [bind] in H. injection H as <- <- <-. right. auto.
  - injection H as <- <- <-. left. unfold is_arithmetic in *. rewrite Fl, orb_false_r in Al. rewrite Fr, orb_false_r in Ar. auto.
Qed.

Lemma cast_defined n : good n -> is_correct n = true -> is_arithmetic (type_of n) = true -> build_cast t_float n <> None.
Proof.
  intros G C A. unfold build_cast. rewrite C. cbn [negb]. destruct (ty_eqb t_float (type_of n)) eqn:E; [discriminate|].
  destruct n as [t i|t l| | | | | | | | | |]; try discriminate.
  destruct G as [L _]. cbn in L, E, A. destruct l; cbn in *; subst; discriminate.
Qed.

(** Literals of integer type hold an integer. *)
Lemma lit_int_value t l : lit_ok t l -> is_integer t = true -> exists v, lit_integer l = Some v /\ lit_value l = Some (VInt v).
Proof.
  destruct l; cbn [lit_ok lit_integer lit_value]; intros L I; subst; try discriminate I; eauto.
Qed.

(** ** Folding two operands of the same kind *)
Lemma fold_binary_ints t l r op : good l -> good r -> arith_op op = true ->
  is_integer (type_of l) = true -> is_integer (type_of r) = true ->
  fold_binary t l r op = ok (NBinary t op l r)
  \/ exists a b, node_value l = Some (VInt a) /\ node_value r = Some (VInt b)
     /\ fold_binary t l r op = do v <- int_op op a b; ok (lit_node v).
Proof.
  intros [Ll _] [Lr _] O Il Ir. unfold fold_binary.
  destruct l as [|u a| | | | | | | | | |]; try (left; reflexivity).
  destruct r as [|w b| | | | | | | | | |]; try (left; reflexivity).
  cbn [lit_top type_of] in *.
  destruct (lit_int_value _ _ Ll Il) as (x & X1 & X2). destruct (lit_int_value _ _ Lr Ir) as (y & Y1 & Y2).
  rewrite X1, Y1. cbn [bind]. cbn [node_value]. rewrite X2, Y2. rewrite (fold_ints_exact op x y O).
  destruct u as [c| | | | | |]; try (left; reflexivity); [|right; eauto 10].
  destruct ((c =? TYPE_INTEGER) || (c =? TYPE_BOOLEAN)); [right; eauto 10|].
  destruct (c =? TYPE_FLOATING) eqn:F; [|left; reflexivity].
  exfalso. apply Z.eqb_eq in F. subst c. discriminate Il.
Qed.

Lemma fold_binary_floats t l r op : good l -> good r -> float_ops op = true ->
  is_floating (type_of l) = true -> is_floating (type_of r) = true ->
  fold_binary t l r op = ok (NBinary t op l r)
  \/ exists a b, node_value l = Some (VFloat a) /\ node_value r = Some (VFloat b)
     /\ fold_binary t l r op = do v <- float_op op a b; ok (lit_node v).
Proof.
  intros [Ll _] [Lr _] O Il Ir. unfold fold_binary.
  destruct l as [|u a| | | | | | | | | |]; try (left; reflexivity).
  destruct r as [|w b| | | | | | | | | |]; try (left; reflexivity).
  cbn [lit_top type_of] in *.
  assert (X : forall t l, lit_ok t l -> is_floating t = true -> t = t_float /\ exists d, l = LFloat d).
  { intros t0 l0. destruct l0; cbn; intros L I; subst; try discriminate I; eauto.
    destruct L as [->|(s & v0 & ->)]; discriminate I. }
  destruct (X _ _ Ll Il) as [-> [x ->]]. destruct (X _ _ Lr Ir) as [-> [y ->]].
  right. exists x, y. cbn. rewrite (fold_floats_exact op x y O). auto.
Qed.

(** ** The operators *)
Definition logic_op (op : binary) : bool := match op with BIN_LOG_AND | BIN_LOG_OR => true | _ => false end.
Definition not_null (n : node) : Prop := match n with NLit _ (LNull _) => False | _ => True end.

(** The outcome of building an operator: an error and a broken node, undefined
    behaviour when the operation has no value, or a node with the value. *)
Definition outcome (b : bres) (v : option value) : Prop :=
  b = err \/ (b = None /\ v = None) \/ exists n, b = ok n /\ is_correct n = true /\ good n /\ node_value n = v.

Lemma out_err v : outcome err v.
Proof. left. reflexivity. Qed.
Lemma out_value v : outcome (ok (lit_node v)) (Some v).
Proof.
  right. right. exists (lit_node v). split; [reflexivity|]. split; [destruct v; reflexivity|].
  split; [apply lit_node_good|apply lit_node_value].
Qed.
Lemma out_bind (v : option value) : outcome (do x <- v; ok (lit_node x)) v.
Proof. destruct v as [v|]; [apply out_value|]. right. left. auto. Qed.
Lemma out_node n v : is_correct n = true -> lit_top n -> node_value n = v ->
  (forall x, v = Some x -> kind_of (type_of n) = vkind x) -> outcome (ok n) v.
Proof.
  intros C L V K. right. right. exists n. split; [reflexivity|]. split; [exact C|]. split; [|exact V].
  split; [exact L|]. intros x X. apply K. congruence.
Qed.

Definition op_type (op : binary) (t : ty) : ty :=
  match op with
  | BIN_LT | BIN_GT | BIN_LE | BIN_GE | BIN_EQ | BIN_NE => t_bool
  | _ => t
  end.
Lemma int_op_kind op a b v : arith_op op = true -> int_op op a b = Some v -> kind_of (op_type op t_int) = vkind v.
Proof.
  destruct op; try discriminate; intros _; unfold int_op, exact; intros H;
    repeat match type of H with context [if ?c then _ else _] => destruct c end;
    try discriminate H; injection H as <-; reflexivity.
Qed.
Lemma float_op_kind op a b v : float_op op a b = Some v -> kind_of (op_type op t_float) = vkind v.
Proof. destruct op; try discriminate; intros H; injection H as <-; reflexivity. Qed.

Lemma binary_ints op l r a b : arith_op op = true -> node_value l = Some (VInt a) -> node_value r = Some (VInt b) ->
  binary_value op (node_value l) (node_value r) = int_op op a b.
Proof. intros O -> ->. destruct op; try discriminate O; reflexivity. Qed.
Lemma binary_strict op v w x : arith_op op = true -> binary_value op v w = Some x ->
  exists a b, v = Some a /\ w = Some b /\ both op a b = Some x.
Proof.
  intros O H. destruct v as [a|], w as [b|]; destruct op; try discriminate O; try discriminate H; cbn [binary_value bind] in H; eauto.
Qed.

(** Two integer operands. *)
Lemma ints_outcome op l r : good l -> good r -> arith_op op = true ->
  is_integer (type_of l) = true -> is_integer (type_of r) = true ->
  outcome (fold_binary (op_type op t_int) l r op) (binary_value op (node_value l) (node_value r)).
Proof.
  intros Gl Gr O Il Ir.
  destruct (fold_binary_ints (op_type op t_int) l r op Gl Gr O Il Ir) as [->|(a & b & A & B & ->)].
  - apply out_node; [reflexivity|exact Logic.I|reflexivity|].
    intros x X. cbn [type_of]. destruct (binary_strict _ _ _ _ O X) as (a & b & A & B & C).
    destruct (good_int l a Gl Il A) as [za ->]. destruct (good_int r b Gr Ir B) as [zb ->].
    refine (int_op_kind op za zb x O _). destruct op; try discriminate O; exact C.
  - rewrite (binary_ints op l r a b O A B). apply out_bind.
Qed.

(** Two floating operands. *)
Lemma floats_outcome op l r : good l -> good r -> float_ops op = true ->
  is_floating (type_of l) = true -> is_floating (type_of r) = true ->
  outcome (fold_binary (op_type op t_float) l r op) (binary_value op (node_value l) (node_value r)).
Proof.
  intros Gl Gr O Il Ir.
  assert (O' : arith_op op = true) by (destruct op; try discriminate O; reflexivity).
  destruct (fold_binary_floats (op_type op t_float) l r op Gl Gr O Il Ir) as [->|(a & b & A & B & ->)].
  - apply out_node; [reflexivity|exact Logic.I|reflexivity|].
    intros x X. cbn [type_of]. destruct (binary_strict _ _ _ _ O' X) as (a & b & A & B & C).
    destruct (good_float l a Gl Il A) as [za ->]. destruct (good_float r b Gr Ir B) as [zb ->].
    refine (float_op_kind op za zb x _). destruct op; try discriminate O; exact C.
  - rewrite A, B. replace (binary_value op (Some (VFloat a)) (Some (VFloat b))) with (float_op op a b)
      by (destruct op; try discriminate O; reflexivity).
    apply out_bind.
Qed.

(** An arithmetic operator with the usual conversions. *)
Lemma arith_outcome op l r : good l -> good r -> is_correct l = true -> is_correct r = true -> float_ops op = true ->
  is_arithmetic (type_of l) = true -> is_arithmetic (type_of r) = true ->
  outcome (do ' (t, l, r) <- conversions l r; fold_binary (op_type op t) l r op)
          (binary_value op (node_value l) (node_value r)).
Proof.
  intros Gl Gr Cl Cr O Al Ar.
  assert (O' : arith_op op = true) by (destruct op; try discriminate O; reflexivity).
  destruct (conversions l r) as [[[t l'] r']|] eqn:V; cbn [bind].
  - destruct (conversions_ok l r t l' r' Gl Gr Cl Cr Al Ar V) as [(-> & -> & -> & Il & Ir)|(-> & F & X & Y)].
    + apply ints_outcome; assumption.
    + destruct (cast_float l l' Gl Cl Al X) as (Gl' & _ & Fl & _ & Vl).
      destruct (cast_float r r' Gr Cr Ar Y) as (Gr' & _ & Fr & _ & Vr).
      pose proof (floats_outcome op l' r' Gl' Gr' O Fl Fr) as U.
      replace (binary_value op (node_value l) (node_value r)) with (binary_value op (node_value l') (node_value r')); [exact U|].
      rewrite Vl, Vr. clear U X Y V.
      assert (Kl : forall v, node_value l = Some v -> vkind v = KInt \/ vkind v = KFloat).
      { intros v Hv. destruct Gl as [_ G]. rewrite <- (G v Hv). apply is_arith_kind, Al. }
      assert (Kr : forall v, node_value r = Some v -> vkind v = KInt \/ vkind v = KFloat).
      { intros v Hv. destruct Gr as [_ G]. rewrite <- (G v Hv). apply is_arith_kind, Ar. }
      destruct (node_value l) as [v|] eqn:Hl; [|destruct op; try discriminate O; reflexivity].
      destruct (node_value r) as [w|] eqn:Hr.
      2:{ cbn [bind]. destruct (Kl v eq_refl) as [K|K]; destruct v; try discriminate K; destruct op; try discriminate O; reflexivity. }
      destruct F as [F|F].
      * destruct (good_float l v Gl F Hl) as [d ->].
        destruct (Kr w eq_refl) as [K|K]; destruct w; try discriminate K; destruct op; try discriminate O; reflexivity.
      * destruct (good_float r w Gr F Hr) as [d ->].
        destruct (Kl v eq_refl) as [K|K]; destruct v; try discriminate K; destruct op; try discriminate O; reflexivity.
  - exfalso. unfold conversions in V. destruct (_ || _); [|discriminate V].
    destruct (build_cast t_float l) as [x|] eqn:X; [|exact (cast_defined l Gl Cl Al X)]. cbn [bind] in V.
    destruct (build_cast t_float r) as [y|] eqn:Y; [|exact (cast_defined r Gr Cr Ar Y)]. discriminate V.
Qed.

(** Equality of operands of one type that is not arithmetic. *)
Lemma eq_outcome op l r : good l -> good r -> op = BIN_EQ \/ op = BIN_NE ->
  is_arithmetic (type_of l) && is_arithmetic (type_of r) = false ->
  (is_pointer (type_of l) && is_null_pointer (type_of r))
  || (is_null_pointer (type_of l) && is_pointer (type_of r)) || ty_eqb (type_of l) (type_of r) = true ->
  outcome (fold_binary t_bool l r op) (binary_value op (node_value l) (node_value r)).
Proof.
  intros Gl Gr O NA T.
  assert (O' : arith_op op = true) by (destruct O as [->| ->]; reflexivity).
  assert (K : forall x, binary_value op (node_value l) (node_value r) = Some x -> kind_of t_bool = vkind x).
  { intros x X. destruct (binary_strict _ _ _ _ O' X) as (a & b & A & B & C).
    destruct O as [->| ->]; destruct a, b; try discriminate C; cbn in C; injection C as <-; reflexivity. }
  assert (D : fold_binary t_bool l r op = ok (NBinary t_bool op l r)
              \/ exists a b, l = NLit t_bool (LBool a) /\ r = NLit t_bool (LBool b)).
  { unfold fold_binary. destruct l as [|u a| | | | | | | | | |]; try (left; reflexivity).
    destruct r as [|w b| | | | | | | | | |]; try (left; reflexivity).
    destruct Gl as [Ll _], Gr as [Lr _]. cbn [lit_top type_of] in *.
    destruct a as [a|a|a|a|a|a]; cbn [lit_ok] in Ll; try subst u.
    - left. reflexivity.
    - right. rewrite !orb_true_iff, !andb_true_iff in T. destruct T as [[[T _]|[T _]]|T]; try discriminate T.
      apply ty_eqb_eq in T. subst w. destruct b; cbn [lit_ok] in Lr; try discriminate Lr; eauto.
      destruct Lr as [Lr|(s & v0 & Lr)]; discriminate Lr.
    - exfalso. rewrite !orb_true_iff, !andb_true_iff in T. destruct T as [[[T _]|[T _]]|T]; try discriminate T.
      apply ty_eqb_eq in T. subst w. discriminate NA.
    - exfalso. rewrite !orb_true_iff, !andb_true_iff in T. destruct Ll as [->|(s & v0 & ->)];
        destruct T as [[[T _]|[T _]]|T]; try discriminate T; apply ty_eqb_eq in T; subst w; discriminate NA.
    - exfalso. rewrite !orb_true_iff, !andb_true_iff in T. destruct T as [[[T _]|[T _]]|T]; try discriminate T.
      apply ty_eqb_eq in T. subst w. discriminate NA.
    - left. reflexivity. }
  destruct D as [->|(a & b & -> & ->)].
  - apply out_node; [reflexivity|exact Logic.I|reflexivity|exact K].
  - destruct O as [->| ->]; destruct a, b; cbn; apply (out_value (VBool _)).
Qed.

(** [&&] and [||]. *)
Lemma logic_outcome op l r : good l -> good r -> logic_op op = true -> not_null r ->
  is_scalar (type_of l) = true -> is_scalar (type_of r) = true ->
  outcome (fold_binary t_bool l r op) (binary_value op (node_value l) (node_value r)).
Proof.
  intros Gl Gr O N Sl Sr.
  assert (K : forall x, binary_value op (node_value l) (node_value r) = Some x -> kind_of t_bool = vkind x).
  { intros x X. destruct op; try discriminate O; cbn [binary_value] in X;
      (destruct (node_value l) as [v|]; [|discriminate X]); cbn [bind] in X;
      (destruct (truth v) as [[|]|]; [| |discriminate X]); cbn [bind] in X;
      try (injection X as <-; reflexivity);
      (destruct (node_value r) as [w|]; [|discriminate X]); cbn [bind] in X;
      (destruct (truth w) as [y|]; [|discriminate X]); cbn [bind] in X; injection X as <-; reflexivity. }
  assert (D : fold_binary t_bool l r op = ok (NBinary t_bool op l r)
              \/ exists a b x y, lit_value a = Some x /\ lit_value b = Some y
                 /\ node_value l = Some x /\ node_value r = Some y
                 /\ (exists p q, truth x = Some p /\ truth y = Some q
                     /\ fold_binary t_bool l r op = mk_bool (match op with BIN_LOG_AND => p && q | _ => p || q end))).
  { unfold fold_binary. destruct l as [|u a| | | | | | | | | |]; try (left; reflexivity).
    destruct r as [|w b| | | | | | | | | |]; try (left; reflexivity).
    destruct Gl as [Ll _], Gr as [Lr _]. cbn [lit_top type_of not_null node_value] in *.
    assert (Y : b <> LNull 0 -> exists y z q, lit_value b = Some y /\ lit_integer b = Some z /\ truth y = Some q /\ q = negb (z =? 0)).
    { intros _. destruct b as [b|[|]|b|b|b|b]; cbn [lit_ok] in Lr; try contradiction; subst;
        try (eexists _, _, _; repeat split; reflexivity); discriminate Sr. }
    destruct Y as (y & z & q & Y1 & Y2 & Y3 & ->); [intros ->; exact N|].
    destruct a as [a|a|a|a|a|a]; cbn [lit_ok] in Ll; subst.
    - left. reflexivity.
    - right. exists (LBool a), b, (VBool a), y. repeat split; try assumption; try reflexivity.
      exists a, (negb (z =? 0)). split; [reflexivity|]. split; [exact Y3|]. cbn [lit_integer]. rewrite Y2. cbn [bind].
      destruct a; destruct op; try discriminate O; reflexivity.
    - left. reflexivity.
    - right. exists (LInt a), b, (VInt a), y. repeat split; try assumption; try reflexivity.
      exists (negb (a =? 0)), (negb (z =? 0)). split; [reflexivity|]. split; [exact Y3|]. cbn [lit_integer]. rewrite Y2.
      destruct Ll as [->|(s & v0 & ->)]; destruct op; try discriminate O; reflexivity.
    - discriminate Sl.
    - discriminate Sl. }
  destruct D as [->|(a & b & x & y & _ & _ & Vl & Vr & p & q & P & Q & ->)].
  - apply out_node; [reflexivity|exact Logic.I|reflexivity|exact K].
  - rewrite Vl, Vr. destruct op; try discriminate O; cbn [binary_value bind]; rewrite P; cbn [bind];
      destruct p; cbn [bind andb orb]; rewrite ?Q; cbn [bind]; apply (out_value (VBool _)).
Qed.

Lemma binary_outcome op l r : good l -> good r -> is_correct l = true -> is_correct r = true ->
  is_assignment op = false -> (logic_op op = true -> not_null r) ->
  outcome (build_binary l r op) (binary_value op (node_value l) (node_value r)).
Proof.
  intros Gl Gr Cl Cr NA N. unfold build_binary. rewrite Cl, Cr. cbn [negb orb].
  assert (I : forall op', arith_op op' = true -> op_type op' t_int = t_int ->
     outcome (if negb (is_integer (type_of l)) || negb (is_integer (type_of r)) then err else fold_binary t_int l r op')
             (binary_value op' (node_value l) (node_value r))).
  { intros op' O' E. destruct (is_integer (type_of l)) eqn:Il; [|apply out_err].
    destruct (is_integer (type_of r)) eqn:Ir; [|apply out_err]. cbn [negb orb].
    rewrite <- E. apply ints_outcome; assumption. }
  assert (F : forall op', float_ops op' = true ->
     outcome (if negb (is_arithmetic (type_of l)) || negb (is_arithmetic (type_of r)) then err
              else do ' (t, l, r) <- conversions l r; fold_binary (op_type op' t) l r op')
             (binary_value op' (node_value l) (node_value r))).
  { intros op' O'. destruct (is_arithmetic (type_of l)) eqn:Il; [|apply out_err].
    destruct (is_arithmetic (type_of r)) eqn:Ir; [|apply out_err]. cbn [negb orb]. apply arith_outcome; assumption. }
  assert (Q : forall op', op' = BIN_EQ \/ op' = BIN_NE ->
     outcome (if is_arithmetic (type_of l) && is_arithmetic (type_of r) then
                do ' (_, l, r) <- conversions l r; fold_binary t_bool l r op'
              else if (is_pointer (type_of l) && is_null_pointer (type_of r))
                   || (is_null_pointer (type_of l) && is_pointer (type_of r)) || ty_eqb (type_of l) (type_of r) then
                fold_binary t_bool l r op'
              else err)
             (binary_value op' (node_value l) (node_value r))).
  { intros op' O'. destruct (is_arithmetic (type_of l) && is_arithmetic (type_of r)) eqn:A.
    - apply andb_true_iff in A as [Al Ar].
      pose proof (arith_outcome op' l r Gl Gr Cl Cr) as U.
      destruct O' as [->| ->]; exact (U eq_refl Al Ar).
    - match goal with |- outcome (if ?c then _ else _) _ => destruct c eqn:T end; [|apply out_err].
      apply eq_outcome; assumption. }
  assert (L : forall op', logic_op op' = true -> not_null r ->
     outcome (if negb (is_scalar (type_of l)) || negb (is_scalar (type_of r)) then err else fold_binary t_bool l r op')
             (binary_value op' (node_value l) (node_value r))).
  { intros op' O' N'. destruct (is_scalar (type_of l)) eqn:Il; [|apply out_err].
    destruct (is_scalar (type_of r)) eqn:Ir; [|apply out_err]. cbn [negb orb]. apply logic_outcome; assumption. }
  destruct op; try discriminate NA;
    try match goal with
        | |- outcome _ (binary_value ?o _ _) =>
            first [exact (I o eq_refl eq_refl)|exact (F o eq_refl)|exact (Q o (or_introl eq_refl))
                  |exact (Q o (or_intror eq_refl))|exact (L o eq_refl (N eq_refl))]
        end.
  apply out_node; [reflexivity|exact Logic.I|reflexivity|].
  intros x X. cbn [type_of]. destruct (node_value l) as [v|]; [|discriminate X].
  destruct Gr as [_ Gr]. destruct (node_value r) as [w|] eqn:W; [|discriminate X].
  cbn in X. injection X as <-. exact (Gr w eq_refl).
Qed.

(** ** Unary operators *)
Lemma not_flip z : Z.lnot z = - z - 1.
Proof. unfold Z.lnot. lia. Qed.

Lemma fold_int_unary t lv e op z : is_integer (type_of e) = true ->
  (exists u l, e = NLit u l /\ lit_ok u l /\ u <> t_char /\ lit_integer l = Some z) ->
  In op [UN_MINUS; UN_NOT; UN_LOGNOT; UN_ABS] ->
  fold_unary t lv e op = do v <- unary_value op (Some (VInt z)); ok (lit_node v).
Proof.
  intros I (u & l & -> & L & NC & Z) O. unfold fold_unary. rewrite Z. cbn [bind].
  assert (X : match op with
              | UN_MINUS => mk_int (in64 (- z))
              | UN_NOT => mk_int (Some (Z.lnot z))
              | UN_LOGNOT => mk_bool (z =? 0)
              | UN_ABS => mk_int (if 0 <=? z then Some z else in64 (- z))
              | _ => ok NBroken
              end = do v <- unary_value op (Some (VInt z)); ok (lit_node v)).
  { destruct O as [<-|[<-|[<-|[<-|[]]]]]; cbn [unary_value bind].
    - rewrite mk_int_exact. unfold exact. destruct (representable _); reflexivity.
    - rewrite <- not_flip. reflexivity.
    - cbn [truth bind lit_node]. rewrite negb_involutive. reflexivity.
    - rewrite Z.ltb_antisym. destruct (0 <=? z); [reflexivity|]. cbn [negb].
      rewrite mk_int_exact. unfold exact. destruct (representable _); reflexivity. }
  destruct l; cbn [lit_ok] in L; subst; try discriminate I; try congruence.
  destruct L as [->|(s & v0 & ->)]; exact X.
Qed.

Lemma unary_outcome op e : good e -> is_correct e = true ->
  outcome (build_unary e op) (unary_value op (node_value e)).
Proof.
  intros G C. unfold build_unary. rewrite C. cbn [negb].
  assert (NV : forall t lv, (forall x, unary_value op (node_value e) = Some x -> kind_of t = vkind x) ->
                outcome (ok (NUnary t lv op e)) (unary_value op (node_value e))).
  { intros t lv K. apply out_node; [reflexivity|exact Logic.I|reflexivity|exact K]. }
  assert (U : forall o, In o [UN_POSTINC; UN_POSTDEC; UN_PREINC; UN_PREDEC; UN_ADDRESS; UN_INDIRECTION; UN_UPB] ->
                unary_value o (node_value e) = None).
  { intros o O. destruct (node_value e) as [v|]; [|reflexivity].
    destruct O as [<-|[<-|[<-|[<-|[<-|[<-|[<-|[]]]]]]]]; destruct v; reflexivity. }
  (* the shapes of a folded operand *)
  assert (FI : forall t z, is_integer (type_of e) = true ->
     (exists u l, e = NLit u l /\ lit_ok u l /\ u <> t_char /\ lit_integer l = Some z /\ lit_value l = Some (VInt z)) ->
     In op [UN_MINUS; UN_NOT; UN_LOGNOT; UN_ABS] -> outcome (fold_unary t false e op) (unary_value op (node_value e))).
  { intros t z I (u & l & E & L & NC & Z1 & Z2) O.
    rewrite (fold_int_unary t false e op z I) by eauto 10. rewrite E. cbn [node_value]. rewrite Z2. apply out_bind. }
  assert (ML : is_integer (type_of e) = true ->
     (forall t, fold_unary t false e op = ok (NUnary t false op e))
     \/ exists z, exists u l, e = NLit u l /\ lit_ok u l /\ u <> t_char /\ lit_integer l = Some z /\ lit_value l = Some (VInt z)).
  { intros I. destruct e as [|u l| | | | | | | | | |]; try (left; reflexivity).
    destruct G as [L _]. cbn [lit_top type_of] in *. destruct l as [b|b|b|b|b|b]; cbn [lit_ok] in L; try subst u; try discriminate I.
    - left. reflexivity.
    - right. exists b, u, (LInt b). destruct L as [->|(s & v0 & ->)]; repeat split; try (cbn; eauto); try discriminate. }
  assert (A : forall o, o = UN_ABS \/ o = UN_MINUS -> op = o ->
     outcome (if negb (is_arithmetic (type_of e)) then err else fold_unary (type_of e) false e o)
             (unary_value o (node_value e))).
  { intros o O ->. destruct (is_arithmetic (type_of e)) eqn:A; [|apply out_err]. cbn [negb].
    unfold is_arithmetic in A. apply orb_true_iff in A as [A|A].
    - destruct (ML A) as [M|(z & M)].
      + rewrite M. apply NV. intros x X. destruct (node_value e) as [v|] eqn:V; [|discriminate X].
        destruct (good_int e v G A V) as [z ->]. apply kind_int in A. rewrite A.
        destruct O as [->| ->]; cbn in X; unfold exact in X;
          repeat match type of X with context [if ?c then _ else _] => destruct c end; try discriminate X; injection X as <-; reflexivity.
      + apply (FI _ z A M). destruct O as [->| ->]; cbn; auto 10.
    - assert (D : fold_unary (type_of e) false e o = ok (NUnary (type_of e) false o e) \/ exists d, e = NLit t_float (LFloat d)).
      { destruct e as [|u l| | | | | | | | | |]; try (left; reflexivity).
        destruct G as [L _]. cbn [lit_top type_of] in *. destruct l as [b|b|b|b|b|b]; cbn [lit_ok] in L; try subst u; try discriminate A.
        - destruct L as [->|(s & v0 & ->)]; discriminate A.
        - right. eauto. }
      destruct D as [->|[d ->]].
      + apply NV. intros x X. destruct (node_value e) as [v|] eqn:V; [|discriminate X].
        destruct (good_float e v G A V) as [z ->]. apply kind_float in A. rewrite A.
        destruct O as [->| ->]; cbn in X; injection X as <-; reflexivity.
      + destruct O as [->| ->]; cbn; [|apply (out_value (VFloat _))].
        replace (d_abs d) with (if SFleb (S754_zero false) d then d else SFopp d); [apply (out_value (VFloat _))|].
        unfold d_abs, d_ge0, SFleb. destruct d as [[|]|[|]| |[|] m ex]; reflexivity. }
  destruct op.
  - rewrite (U UN_POSTINC) by (cbn; auto 10). destruct (is_lvalue e); [|apply out_err]. destruct (is_arithmetic _); [|apply out_err].
    rewrite <- (U UN_POSTINC) by (cbn; auto 10). apply NV. intros x X. rewrite (U UN_POSTINC) in X by (cbn; auto 10). discriminate X.
  - rewrite (U UN_POSTDEC) by (cbn; auto 10). destruct (is_lvalue e); [|apply out_err]. destruct (is_arithmetic _); [|apply out_err].
    rewrite <- (U UN_POSTDEC) by (cbn; auto 10). apply NV. intros x X. rewrite (U UN_POSTDEC) in X by (cbn; auto 10). discriminate X.
  - rewrite (U UN_PREINC) by (cbn; auto 10). destruct (is_lvalue e); [|apply out_err]. destruct (is_arithmetic _); [|apply out_err].
    rewrite <- (U UN_PREINC) by (cbn; auto 10). apply NV. intros x X. rewrite (U UN_PREINC) in X by (cbn; auto 10). discriminate X.
  - rewrite (U UN_PREDEC) by (cbn; auto 10). destruct (is_lvalue e); [|apply out_err]. destruct (is_arithmetic _); [|apply out_err].
    rewrite <- (U UN_PREDEC) by (cbn; auto 10). apply NV. intros x X. rewrite (U UN_PREDEC) in X by (cbn; auto 10). discriminate X.
  - rewrite (U UN_ADDRESS) by (cbn; auto 10). destruct (is_lvalue e); [|apply out_err].
    rewrite <- (U UN_ADDRESS) by (cbn; auto 10). apply NV. intros x X. rewrite (U UN_ADDRESS) in X by (cbn; auto 10). discriminate X.
  - rewrite (U UN_INDIRECTION) by (cbn; auto 10). destruct (is_pointer _); [|apply out_err].
    rewrite <- (U UN_INDIRECTION) by (cbn; auto 10). apply NV. intros x X. rewrite (U UN_INDIRECTION) in X by (cbn; auto 10). discriminate X.
  - apply A; auto.
  - destruct (is_integer (type_of e)) eqn:I; [|apply out_err]. cbn [negb]. destruct (ML eq_refl) as [M|(z & M)].
    + rewrite M. apply NV. intros x X. destruct (node_value e) as [v|] eqn:V; [|discriminate X].
      destruct (good_int e v G I V) as [z ->]. cbn in X. injection X as <-. reflexivity.
    + apply (FI _ z eq_refl M). cbn; auto.
  - destruct (is_scalar (type_of e)) eqn:I; [|apply out_err]. cbn [negb].
    assert (D : fold_unary t_bool false e UN_LOGNOT = ok (NUnary t_bool false UN_LOGNOT e)
                \/ exists v b, node_value e = Some v /\ truth v = Some b /\ fold_unary t_bool false e UN_LOGNOT = mk_bool (negb b)).
    { destruct e as [|u l| | | | | | | | | |]; try (left; reflexivity).
      destruct G as [L _]. cbn [lit_top type_of] in *. destruct l as [b|b|b|b|b|b]; cbn [lit_ok] in L; try subst u; try discriminate I.
      - right. exists VNull, false. auto.
      - right. exists (VBool b), b. split; [reflexivity|]. split; [reflexivity|]. destruct b; reflexivity.
      - left. reflexivity.
      - right. exists (VInt b), (negb (b =? 0)). split; [reflexivity|]. split; [reflexivity|].
        rewrite negb_involutive. destruct L as [->|(s & v0 & ->)]; reflexivity. }
    destruct D as [->|(v & b & V & B & ->)].
    + apply NV. intros x X. destruct (node_value e) as [v|]; [|discriminate X]. cbn [unary_value bind] in X.
      destruct v; cbn in X; try discriminate X; injection X as <-; reflexivity.
    + rewrite V. cbn [unary_value bind]. rewrite B. destruct v; try discriminate B; cbn [bind]; apply (out_value (VBool _)).
  - apply A; auto.
  - rewrite (U UN_UPB) by (cbn; auto 10). destruct (is_array (type_of e)) eqn:I; [|apply out_err]. cbn [negb].
    assert (D : fold_unary t_int false e UN_UPB = ok (NUnary t_int false UN_UPB e)).
    { destruct e as [|u l| | | | | | | | | |]; try reflexivity.
      destruct G as [L _]. cbn [lit_top type_of] in *. destruct l as [b|b|b|b|b|b]; cbn [lit_ok] in L; try subst u; try discriminate I.
      - destruct L as [->|(s & v0 & ->)]; discriminate I.
      - reflexivity. }
    rewrite D. rewrite <- (U UN_UPB) by (cbn; auto 10). apply NV. intros x X. rewrite (U UN_UPB) in X by (cbn; auto 10). discriminate X.
Qed.

(** ** Whole expressions *)
(** What is built is either refused with an error, or broken because a part was
    refused, or a node with the value of the expression, without errors. *)
Lemma binary_broken op l r : is_correct l && is_correct r = false -> build_binary l r op = ok NBroken.
Proof. intros H. unfold build_binary. rewrite <- negb_andb, H. reflexivity. Qed.
Lemma unary_broken op e : is_correct e = false -> build_unary e op = ok NBroken.
Proof. intros H. unfold build_unary. rewrite H. reflexivity. Qed.

Lemma folds_not_null n : good n -> forall v, n = lit_node v -> v <> VNull -> not_null n.
Proof. intros _ v -> N. destruct v; try exact Logic.I. congruence. Qed.

Lemma build_not_null_unary e op m : build_unary e op = ok m -> not_null m.
Proof.
  unfold build_unary. destruct (negb (is_correct e)); [intros H; injection H as <-; exact Logic.I|].
  assert (F : forall t, fold_unary t false e op = ok m -> not_null m).
  { intros t. unfold fold_unary, mk_bool, mk_int, mk_float, ok.
    destruct e as [|u l| | | | | | | | | |]; try (intros H; injection H as <-; exact Logic.I).
    destruct u as [c| | | | | |]; try (intros H; injection H as <-; exact Logic.I).
    - destruct (c =? _); [intros H; injection H as <-; exact Logic.I|].
      destruct (c =? _). { destruct (lit_integer l); [|discriminate]. intros H; injection H as <-; exact Logic.I. }
      destruct (c =? _).
      { destruct (lit_integer l) as [v|]; [|discriminate]. cbn [bind].
        destruct op; try (intros H; injection H as <-; exact Logic.I);
          [destruct (in64 (- v))|destruct (0 <=? v); [|destruct (in64 (- v))]]; cbn [bind];
          try discriminate; intros H; injection H as <-; exact Logic.I. }
      destruct (c =? _); [|intros H; injection H as <-; exact Logic.I].
      destruct (lit_floating l); [|discriminate]. destruct op; intros H; injection H as <-; exact Logic.I.
    - destruct (lit_integer l) as [v|]; [|discriminate]. cbn [bind].
      destruct op; try (intros H; injection H as <-; exact Logic.I);
          [destruct (in64 (- v))|destruct (0 <=? v); [|destruct (in64 (- v))]]; cbn [bind];
          try discriminate; intros H; injection H as <-; exact Logic.I. }
  assert (E : forall (c : bool) b, (if c then err else b) = ok m -> b = ok m) by (intros [|] b; [discriminate|auto]).
  destruct op; intros H; repeat (apply E in H); try (injection H as <-; exact Logic.I); apply (F _ H).
Qed.

Lemma not_null_fold t l r op m : fold_binary t l r op = ok m -> not_null m.
Proof.
  unfold fold_binary. destruct l as [|u a| | | | | | | | | |]; try (intros H; injection H as <-; exact Logic.I).
  destruct r as [|w b| | | | | | | | | |]; try (intros H; injection H as <-; exact Logic.I).
  assert (W : (do x <- lit_integer a; do y <- lit_integer b; fold_ints op x y) = ok m -> not_null m).
  { destruct (lit_integer a) as [x|]; [|discriminate]. destruct (lit_integer b) as [y|]; [|discriminate]. cbn [bind].
    unfold fold_ints, mk_int, mk_bool.
    destruct op; try (intros H; injection H as <-; exact Logic.I);
      match goal with |- bind ?o _ = _ -> _ => destruct o; [|discriminate] end; intros H; injection H as <-; exact Logic.I. }
  destruct u as [c| | | | | |]; try (intros H; injection H as <-; exact Logic.I); [|exact W].
  destruct (_ || _); [exact W|]. destruct (c =? _); [|intros H; injection H as <-; exact Logic.I].
  destruct (lit_floating a) as [x|]; [|discriminate]. destruct (lit_floating b) as [y|]; [|discriminate]. cbn [bind].
  unfold fold_floats, mk_float, mk_bool. destruct op; intros H; injection H as <-; exact Logic.I.
Qed.
Lemma build_not_null_binary l r op m : build_binary l r op = ok m -> is_assignment op = false -> not_null m.
Proof.
  intros H NA. unfold build_binary in H. destruct (negb _ || negb _); [injection H as <-; exact Logic.I|].
  assert (E : forall (c : bool) b, (if c then err else b) = ok m -> b = ok m) by (intros [|] b; [discriminate|auto]).
  destruct op; try discriminate NA; try (apply E in H);
    try (destruct (conversions l r) as [[[t l'] r']|]; [|discriminate H]; cbn [bind] in H);
    try exact (not_null_fold _ _ _ _ _ H).
  - destruct (_ && _); [destruct (conversions l r) as [[[t l'] r']|]; [|discriminate H]; cbn [bind] in H; exact (not_null_fold _ _ _ _ _ H)|].
    destruct (_ || _); [exact (not_null_fold _ _ _ _ _ H)|discriminate H].
  - destruct (_ && _); [destruct (conversions l r) as [[[t l'] r']|]; [|discriminate H]; cbn [bind] in H; exact (not_null_fold _ _ _ _ _ H)|].
    destruct (_ || _); [exact (not_null_fold _ _ _ _ _ H)|discriminate H].
  - injection H as <-. exact Logic.I.
Qed.

(** The invariant of [build]. *)
Definition fine (e : cexp) (b : bres) : Prop :=
  match b with
  | Some (n, k) => 0 <= k /\ (is_correct n = true -> k = 0 /\ good n /\ node_value n = cvalue e /\ (null_free e -> not_null n))
                   /\ (is_correct n = false -> 0 < k)
  | None => ~ defined e
  end.

Lemma build_fine e : literals_ok e -> no_null_logic e -> pure_ops e -> fine e (build e).
Proof.
  induction e as [t l|op e IH|op e IHe f IHf]; intros L N P.
  - cbn. split; [lia|]. split; [|discriminate]. intros _. split; [reflexivity|]. split.
    + split; [exact L|]. intros v V. cbn in L, V |- *. destruct l; cbn in L, V; try discriminate V; injection V as <-; subst; try reflexivity.
      destruct L as [->|(s & w & ->)]; reflexivity.
    + split; [reflexivity|]. destruct l; cbn; auto.
  - cbn [build]. specialize (IH L N P). destruct (build e) as [[n a]|]; cbn [bind].
    2:{ cbn in IH |- *. tauto. }
    cbn [fine] in IH. destruct IH as (A & C & B). destruct (is_correct n) eqn:Cn.
    + destruct (C eq_refl) as (-> & G & V & _).
      destruct (unary_outcome op n G Cn) as [E|[(E & W)|(m & E & Cm & Gm & Vm)]].
      * rewrite E. cbn. split; [lia|]. split; [discriminate|]. lia.
      * rewrite E. cbn [bind fine]. intros [D _]. apply D. cbn [cvalue]. rewrite <- V. exact W.
      * rewrite E. cbn [bind ok fine]. split; [lia|]. rewrite Cm. split; [|discriminate]. intros _. split; [reflexivity|].
        split; [exact Gm|]. split; [cbn [cvalue]; congruence|]. intros _. apply (build_not_null_unary n op m E).
    + rewrite (unary_broken op n Cn). cbn. specialize (B eq_refl). split; [lia|]. split; [discriminate|]. lia.
  - cbn [build]. destruct L as [L1 L2], N as (N1 & N2 & N3), P as (P1 & P2 & P3).
    specialize (IHe L1 N1 P1). specialize (IHf L2 N2 P2).
    destruct (build e) as [[n a]|]; cbn [bind]. 2:{ cbn in IHe |- *. tauto. }
    destruct (build f) as [[m b]|]; cbn [bind]. 2:{ cbn in IHf |- *. tauto. }
    cbn [fine] in IHe, IHf. destruct IHe as (A1 & C1 & B1), IHf as (A2 & C2 & B2).
    destruct (is_correct n && is_correct m) eqn:Cn.
    + apply andb_true_iff in Cn as [Cn Cm]. destruct (C1 Cn) as (-> & G1 & V1 & _). destruct (C2 Cm) as (-> & G2 & V2 & M2).
      destruct (binary_outcome op n m G1 G2 Cn Cm P3) as [E|[(E & W)|(k & E & Ck & Gk & Vk)]].
      * intros O. apply M2. destruct op; try discriminate O; exact N3.
      * rewrite E. cbn. split; [lia|]. split; [discriminate|]. lia.
      * rewrite E. cbn [bind fine]. intros [D _]. apply D. cbn [cvalue]. rewrite <- V1, <- V2. exact W.
      * rewrite E. cbn [bind ok fine]. split; [lia|]. rewrite Ck. split; [|discriminate]. intros _. split; [reflexivity|].
        split; [exact Gk|]. split; [cbn [cvalue]; congruence|]. intros _. apply (build_not_null_binary n m op k E P3).
    + rewrite (binary_broken op n m Cn). cbn. split; [lia|]. split; [discriminate|].
      intros _. apply andb_false_iff in Cn as [Cn|Cn]; [specialize (B1 Cn)|specialize (B2 Cn)]; lia.
Qed.

(** ** Plain constants fold into a literal *)
Definition number (n : node) : Prop :=
  exists t l, n = NLit t l /\ lit_ok t l /\ match l with LBool _ | LInt _ | LFloat _ => True | _ => False end.
Definition settles (b : bres) : Prop := b = err \/ b = None \/ exists n, b = ok n /\ number n.

Lemma num_bool b : settles (mk_bool b).
Proof. right. right. eexists. split; [reflexivity|]. exists t_bool, (LBool b). cbn. auto. Qed.
Lemma num_int o : settles (mk_int o).
Proof. destruct o as [z|]; [|right; left; reflexivity]. right. right. eexists. split; [reflexivity|]. exists t_int, (LInt z). cbn. auto. Qed.
Lemma num_float d : settles (mk_float d).
Proof. right. right. eexists. split; [reflexivity|]. exists t_float, (LFloat d). cbn. auto. Qed.
Lemma num_good n : number n -> good n /\ is_correct n = true.
Proof.
  intros (t & l & -> & L & K). split; [|reflexivity]. split; [exact L|]. intros v V.
  destruct l; cbn in *; try contradiction; injection V as <-; subst; try reflexivity.
  destruct L as [->|(s & w & ->)]; reflexivity.
Qed.

Ltac settle :=
  cbn -[in64 c_div c_rem c_shl c_shr d_of d_mul d_add d_sub d_div SFopp d_abs d_lt d_le d_eq Z.add Z.mul Z.sub Z.opp Z.land Z.lor Z.lxor Z.lnot];
  repeat match goal with
         | |- context [bind ?o _] => destruct o; cbn [bind]
         | |- context [if ?c then mk_int _ else _] => destruct c
         end;
  first [left; reflexivity|apply num_bool|apply num_int|apply num_float|right; left; reflexivity
        |right; right; eexists; split; [reflexivity|]; eexists _, _; split; [reflexivity|]; cbn; auto].
Lemma unary_settles n op : number n -> settles (build_unary n op).
Proof.
  intros (t & l & -> & L & K). unfold build_unary. cbn [is_correct negb is_lvalue type_of].
  destruct l as [b|b|b|b|b|b]; try contradiction; cbn [lit_ok] in L; try destruct L as [L|(s & w & L)]; subst t;
    destruct op; settle.
Qed.
Lemma binary_settles l r op : number l -> number r -> is_assignment op = false -> op <> BIN_COMMA -> settles (build_binary l r op).
Proof.
  intros (t & a & -> & La & Ka) (u & b & -> & Lb & Kb) NA NC. unfold build_binary. cbn [is_correct negb orb type_of].
  destruct a as [a|a|a|a|a|a]; try contradiction; destruct b as [b|b|b|b|b|b]; try contradiction; cbn [lit_ok] in La, Lb;
    try destruct La as [La|(s & w & La)]; try destruct Lb as [Lb|(s' & w' & Lb)]; subst t u;
    destruct op; try discriminate NA; try congruence;
    settle.
Qed.

Lemma plain_folds e : literals_ok e -> plain_constants e -> pure_ops e ->
  match build e with Some (n, k) => is_correct n = true -> number n | None => True end.
Proof.
  induction e as [t l|op e IH|op e IHe f IHf]; intros L N P.
  - cbn. intros _. exists t, l. split; [reflexivity|]. split; [exact L|]. destruct l; auto; contradiction.
  - cbn [build]. specialize (IH L N P). destruct (build e) as [[n a]|]; cbn [bind]; [|exact Logic.I].
    destruct (is_correct n) eqn:C.
    + destruct (unary_settles n op (IH eq_refl)) as [->|[->|(m & -> & M)]]; cbn; auto. discriminate.
    + rewrite (unary_broken op n C). cbn. discriminate.
  - cbn [build]. destruct L as [L1 L2], N as (N0 & N1 & N2), P as (P1 & P2 & P3).
    specialize (IHe L1 N1 P1). specialize (IHf L2 N2 P2).
    destruct (build e) as [[n a]|]; cbn [bind]; [|exact Logic.I].
    destruct (build f) as [[m b]|]; cbn [bind]; [|exact Logic.I].
    destruct (is_correct n && is_correct m) eqn:C.
    + apply andb_true_iff in C as [Cn Cm].
      destruct (binary_settles n m op (IHe Cn) (IHf Cm) P3 N0) as [->|[->|(k & -> & M)]]; cbn; auto. discriminate.
    + rewrite (binary_broken op n m C). cbn. discriminate.
Qed.

(** Common definitions: 64-bit integers and lists indexed by integers.
    Nothing here models code; it is vocabulary used by models, specifications
    and proofs. *)
From Coq Require Export ZArith List Bool Lia.
From Coq Require Export ZifyBool ZifyNat ZifyN.
Export ListNotations.
Global Open Scope Z_scope.

Ltac Zify.zify_post_hook ::= Z.div_mod_to_equations.

(** ** Machine integers *)

Definition two64 : Z := 18446744073709551616.
Definition two63 : Z := 9223372036854775808.

(** [size_t] / [uint64_t] arithmetic. *)
Definition u64 (x : Z) : Z := x mod two64.
(** Conversion to [int64_t] (two's complement). *)
Definition s64 (x : Z) : Z :=
  let r := x mod two64 in if r <? two63 then r else r - two64.

Definition SIZE_MAX : Z := two64 - 1.
Definition LLONG_MAX : Z := two63 - 1.
Definition LLONG_MIN : Z := - two63.

(** libs/utils/item.h:64-67: [ITEM] is -64, so [item_t] is [int64_t],
    [ITEM_MAX] is [LLONG_MAX] and [ITEM_MIN] is [LLONG_MIN]. *)
Definition ITEM_MAX : Z := LLONG_MAX.
Definition ITEM_MIN : Z := LLONG_MIN.

Definition is_int64 (x : Z) : Prop := LLONG_MIN <= x <= LLONG_MAX.
Definition is_size (x : Z) : Prop := 0 <= x <= SIZE_MAX.

Lemma s64_id x : is_int64 x -> s64 x = x.
Proof.
  unfold is_int64, s64, LLONG_MIN, LLONG_MAX, two63, two64. intros H.
  destruct (x mod 18446744073709551616 <? 9223372036854775808) eqn:E; lia.
Qed.

Lemma s64_range x : is_int64 (s64 x).
Proof.
  unfold is_int64, s64, LLONG_MIN, LLONG_MAX, two63, two64.
  destruct (x mod 18446744073709551616 <? 9223372036854775808) eqn:E; lia.
Qed.

Lemma u64_id x : is_size x -> u64 x = x.
Proof. unfold is_size, u64, SIZE_MAX, two64. intros; apply Z.mod_small; lia. Qed.

Lemma u64_range x : is_size (u64 x).
Proof. unfold is_size, u64, SIZE_MAX, two64. pose proof (Z.mod_pos_bound x 18446744073709551616). lia. Qed.

Lemma s64_u64 x : s64 (u64 x) = s64 x.
Proof.
  unfold s64, u64. rewrite Z.mod_mod by (unfold two64; lia). reflexivity.
Qed.

(** ** Lists indexed by [Z] *)

Section ZList.
Context {A : Type}.

Definition zlen (l : list A) : Z := Z.of_nat (length l).

Definition znth (l : list A) (i : Z) : option A :=
  if (i <? 0) || (zlen l <=? i) then None else nth_error l (Z.to_nat i).

Fixpoint upd (l : list A) (n : nat) (x : A) : list A :=
  match l, n with
  | [], _ => []
  | _ :: t, O => x :: t
  | h :: t, S n => h :: upd t n x
  end.

Definition zupd (l : list A) (i : Z) (x : A) : list A :=
  if (i <? 0) || (zlen l <=? i) then l else upd l (Z.to_nat i) x.

Lemma znth_unf l i : znth l i = if i <? 0 then None else nth_error l (Z.to_nat i).
Proof.
  unfold znth, zlen. destruct (i <? 0) eqn:E; auto. cbn [orb].
  destruct (_ <=? i) eqn:E2; auto. symmetry. apply nth_error_None. lia.
Qed.

Lemma upd_long l n x : (length l <= n)%nat -> upd l n x = l.
Proof. revert n; induction l; destruct n; cbn; intros; try lia; auto. f_equal; apply IHl; lia. Qed.

Lemma zupd_unf l i x : zupd l i x = if i <? 0 then l else upd l (Z.to_nat i) x.
Proof.
  unfold zupd, zlen. destruct (i <? 0) eqn:E; auto. cbn [orb].
  destruct (_ <=? i) eqn:E2; auto. symmetry. apply upd_long. lia.
Qed.

Lemma zlen_nonneg l : 0 <= zlen l.
Proof. unfold zlen; lia. Qed.

Lemma zlen_nil : zlen [] = 0.
Proof. reflexivity. Qed.

Lemma zlen_cons x l : zlen (x :: l) = 1 + zlen l.
Proof. unfold zlen; cbn [length]; lia. Qed.

Lemma zlen_app l1 l2 : zlen (l1 ++ l2) = zlen l1 + zlen l2.
Proof. unfold zlen; rewrite app_length; lia. Qed.

Lemma zlen_snoc l x : zlen (l ++ [x]) = zlen l + 1.
Proof. rewrite zlen_app, zlen_cons, zlen_nil. lia. Qed.

Lemma upd_length l n x : length (upd l n x) = length l.
Proof. revert n; induction l; destruct n; cbn; auto. Qed.

Lemma zlen_zupd l i x : zlen (zupd l i x) = zlen l.
Proof. rewrite zupd_unf; unfold zlen; destruct (i <? 0); rewrite ?upd_length; auto. Qed.

Lemma nth_error_upd_same l n x : (n < length l)%nat -> nth_error (upd l n x) n = Some x.
Proof. revert n; induction l; destruct n; cbn; intros; try lia; auto. apply IHl; lia. Qed.

Lemma nth_error_upd_other l n m x : n <> m -> nth_error (upd l n x) m = nth_error l m.
Proof. revert n m; induction l; destruct n, m; cbn; intros; try lia; auto. Qed.

Lemma znth_zupd_same l i x : 0 <= i < zlen l -> znth (zupd l i x) i = Some x.
Proof.
  rewrite ?znth_unf, ?zupd_unf; unfold zlen; intros. destruct (i <? 0) eqn:E; [lia|].
  apply nth_error_upd_same; lia.
Qed.

Lemma znth_zupd_other l i j x : i <> j -> znth (zupd l i x) j = znth l j.
Proof.
  rewrite ?znth_unf, ?zupd_unf; intros. destruct (j <? 0) eqn:E; auto. destruct (i <? 0) eqn:E2; auto.
  apply nth_error_upd_other; lia.
Qed.

Lemma znth_Some_lt l i x : znth l i = Some x -> 0 <= i < zlen l.
Proof.
  rewrite ?znth_unf; unfold zlen. destruct (i <? 0) eqn:E; [discriminate|]. intros H.
  assert (Z.to_nat i < length l)%nat by (apply nth_error_Some; congruence). lia.
Qed.

Lemma znth_None l i : znth l i = None <-> ~ (0 <= i < zlen l).
Proof.
  rewrite ?znth_unf; unfold zlen. destruct (i <? 0) eqn:E; [split; auto; lia|].
  rewrite nth_error_None. lia.
Qed.

Lemma znth_ex l i : 0 <= i < zlen l -> exists x, znth l i = Some x.
Proof. intros. destruct (znth l i) eqn:E; eauto. apply znth_None in E. lia. Qed.

Lemma znth_app1 l1 l2 i : i < zlen l1 -> znth (l1 ++ l2) i = znth l1 i.
Proof.
  rewrite ?znth_unf; unfold zlen; intros. destruct (i <? 0) eqn:E; auto.
  apply nth_error_app1; lia.
Qed.

Lemma znth_app2 l1 l2 i : zlen l1 <= i -> znth (l1 ++ l2) i = znth l2 (i - zlen l1).
Proof.
  rewrite ?znth_unf; unfold zlen; intros. destruct (i <? 0) eqn:E; [lia|].
  destruct (i - _ <? 0) eqn:E2; [lia|].
  rewrite nth_error_app2 by lia. f_equal; lia.
Qed.

Lemma znth_cons_0 x l : znth (x :: l) 0 = Some x.
Proof. reflexivity. Qed.

Lemma znth_cons_pos x l i : 0 < i -> znth (x :: l) i = znth l (i - 1).
Proof.
  intros. change (x :: l) with ([x] ++ l). rewrite znth_app2; auto.
  unfold zlen; cbn; lia.
Qed.

Lemma zlist_ext l1 l2 : zlen l1 = zlen l2 ->
  (forall i, 0 <= i < zlen l1 -> znth l1 i = znth l2 i) -> l1 = l2.
Proof.
  revert l2; induction l1 as [|a l1 IH]; destruct l2 as [|b l2]; intros HL HE.
  - reflexivity.
  - unfold zlen in HL; cbn in HL; lia.
  - unfold zlen in HL; cbn in HL; lia.
  - rewrite !zlen_cons in *. f_equal.
    + specialize (HE 0). rewrite !znth_cons_0 in HE. pose proof (zlen_nonneg l1).
      assert (Some a = Some b) by (apply HE; lia). congruence.
    + apply IH; [lia|]. intros i Hi. specialize (HE (i + 1)).
      rewrite !znth_cons_pos in HE by lia. replace (i + 1 - 1) with i in HE by lia.
      apply HE; lia.
Qed.

Lemma zupd_app1 l1 l2 i x : i < zlen l1 -> zupd (l1 ++ l2) i x = zupd l1 i x ++ l2.
Proof.
  rewrite ?zupd_unf; unfold zlen. destruct (i <? 0) eqn:E; auto. intros.
  assert (Z.to_nat i < length l1)%nat by lia. clear - H0.
  revert l1 H0. induction (Z.to_nat i); destruct l1; cbn; intros; try lia; auto.
  f_equal. apply IHn; lia.
Qed.

Lemma zupd_app2 l1 l2 i x : zlen l1 <= i -> zupd (l1 ++ l2) i x = l1 ++ zupd l2 (i - zlen l1) x.
Proof.
  intros. apply zlist_ext.
  - rewrite zlen_zupd, !zlen_app, zlen_zupd; auto.
  - intros j Hj. rewrite zlen_zupd, zlen_app in Hj.
    destruct (Z.lt_ge_cases j (zlen l1)).
    + rewrite znth_zupd_other by lia. rewrite !znth_app1; auto.
    + rewrite znth_app2 by lia.
      destruct (Z.eq_dec i j) as [->|N].
      * rewrite !znth_zupd_same; auto; rewrite ?zlen_app; lia.
      * rewrite !znth_zupd_other by lia. rewrite znth_app2 by lia. auto.
Qed.

Lemma firstn_znth l n i : i < Z.of_nat n -> znth (firstn n l) i = znth l i.
Proof.
  rewrite ?znth_unf; intros. destruct (i <? 0) eqn:E; auto.
  assert (Z.to_nat i < n)%nat by lia. clear - H0.
  revert l H0. generalize (Z.to_nat i) as k. induction n; intros; [lia|].
  destruct l, k; cbn; auto. apply IHn; lia.
Qed.

Lemma skipn_znth l n i : 0 <= i -> znth (skipn n l) i = znth l (i + Z.of_nat n).
Proof.
  rewrite ?znth_unf; intros. destruct (i <? 0) eqn:E; [lia|]. destruct (i + _ <? 0) eqn:E2; [lia|].
  replace (Z.to_nat (i + Z.of_nat n)) with (n + Z.to_nat i)%nat by lia.
  clear. revert l. induction n; intros; cbn; auto. destruct l; cbn; auto.
  destruct (Z.to_nat i); auto.
Qed.

Lemma zlen_firstn l n : zlen (firstn n l) = Z.min (Z.of_nat n) (zlen l).
Proof. unfold zlen; rewrite firstn_length; lia. Qed.

Lemma zlen_skipn l n : zlen (skipn n l) = Z.max 0 (zlen l - Z.of_nat n).
Proof. unfold zlen; rewrite skipn_length; lia. Qed.

Lemma zlen_repeat (x : A) n : zlen (repeat x n) = Z.of_nat n.
Proof. unfold zlen; rewrite repeat_length; auto. Qed.

Lemma znth_repeat (x : A) n i : 0 <= i < Z.of_nat n -> znth (repeat x n) i = Some x.
Proof.
  rewrite ?znth_unf; intros. destruct (i <? 0) eqn:E; [lia|].
  assert (Z.to_nat i < n)%nat by lia. clear -H0. revert H0.
  generalize (Z.to_nat i). induction n; intros; [lia|]. destruct n0; cbn; auto. apply IHn; lia.
Qed.

Lemma znth_In l i x : znth l i = Some x -> In x l.
Proof. rewrite ?znth_unf; destruct (i <? 0); [discriminate|]. apply nth_error_In. Qed.

Lemma In_znth l x : In x l -> exists i, znth l i = Some x.
Proof.
  intros H. apply In_nth_error in H as [n H]. exists (Z.of_nat n). rewrite ?znth_unf.
  destruct (_ <? 0) eqn:E; [lia|]. rewrite Nat2Z.id; auto.
Qed.

End ZList.

Lemma znth_map {A B} (f : A -> B) l i : znth (map f l) i = option_map f (znth l i).
Proof. rewrite ?znth_unf. destruct (i <? 0); auto. apply nth_error_map. Qed.

Lemma zlen_map {A B} (f : A -> B) l : zlen (map f l) = zlen l.
Proof. unfold zlen; rewrite map_length; auto. Qed.

Lemma zlen_unf {A} (l : list A) : zlen l = Z.of_nat (length l).
Proof. reflexivity. Qed.

Global Opaque zlen.

(** ** Option monad: [None] is an undefined outcome *)
Definition bind {A B} (x : option A) (f : A -> option B) : option B :=
  match x with Some a => f a | None => None end.
Notation "'do' x <- a ; b" := (bind a (fun x => b))
  (at level 200, x name, a at level 100, b at level 200).
Notation "'do' ' p <- a ; b" := (bind a (fun y => match y with p => b end))
  (at level 200, p strict pattern, a at level 100, b at level 200).

(** ** C strings: lists of bytes (without the terminating NUL) *)
From Coq Require Import String Ascii.
Definition bytes := list Z.
Definition str (s : string) : bytes :=
  List.map (fun c => Z.of_nat (nat_of_ascii c)) (list_ascii_of_string s).
Fixpoint bytes_eqb (a b : bytes) : bool :=
  match a, b with
  | [], [] => true
  | x :: a, y :: b => (x =? y) && bytes_eqb a b
  | _, _ => false
  end.

Lemma bytes_eqb_eq a b : bytes_eqb a b = true <-> a = b.
Proof.
  revert b; induction a as [|x a IH]; destruct b as [|y b]; cbn; split; intros H; try congruence; auto.
  - apply andb_true_iff in H as [H1 H2]. apply IH in H2. f_equal; auto. lia.
  - inversion H; subst. apply andb_true_iff; split; [lia|]. apply IH; auto.
Qed.

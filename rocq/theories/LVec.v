(** Vectors at the level of lists, for the modules built on vector.c.  C01
    justifies it: with memory available a vector behaves as the list of its
    cells.  [lv_spec] checks these functions against that specification. *)
From Verif Require Import Prelude VectorSpec.

(** libs/utils/vector.c:134-142 [vector_get]; an index of type [size_t]
    outside gives ITEM_MAX. *)
Definition lv_get (l : list Z) (i : Z) : Z := or_else (znth l i) ITEM_MAX.
(** libs/utils/vector.c:102-111 [vector_set]. *)
Definition lv_set (l : list Z) (i x : Z) : list Z := zupd l i x.
Definition lv_set_st (l : list Z) (i : Z) : Z := if i <? zlen l then 0 else -1.
(** libs/utils/vector.c:68-77 [vector_add]; the result is the old size. *)
Definition lv_add (l : list Z) (x : Z) : list Z := l ++ [x].
(** libs/utils/vector.c:198-201 [vector_increase]: new cells are zero. *)
Definition lv_increase (l : list Z) (n : Z) : list Z := l ++ repeat 0 (Z.to_nat n).
(** libs/utils/vector.c:203-206 [vector_resize]. *)
Definition lv_resize (l : list Z) (n : Z) : list Z := resized l n.

Lemma lv_spec l i x n : 0 <= i ->
  vspec true l (OGet i) (lv_get l i) l /\ vspec true l (OSet i x) (lv_set_st l i) (lv_set l i x)
  /\ vspec true l (OAdd x) (zlen l) (lv_add l x) /\ vspec true l (OIncrease n) 0 (lv_increase l n)
  /\ vspec true l (OResize n) 0 (lv_resize l n).
Proof.
  intros H. cbn [vspec]. split; [auto|]. split; [|auto].
  unfold lv_set, lv_set_st. destruct (i <? zlen l) eqn:E; auto. split; auto.
  unfold zupd. replace ((i <? 0) || (zlen l <=? i)) with true by lia. auto.
Qed.

Lemma lv_get_in l i x : znth l i = Some x -> lv_get l i = x.
Proof. unfold lv_get. intros ->. reflexivity. Qed.
Lemma lv_get_out l i : ~ 0 <= i < zlen l -> lv_get l i = ITEM_MAX.
Proof. intros H. unfold lv_get. apply znth_None in H. rewrite H. reflexivity. Qed.
Lemma lv_get_set_same l i x : 0 <= i < zlen l -> lv_get (lv_set l i x) i = x.
Proof. intros. apply lv_get_in. apply znth_zupd_same; auto. Qed.
Lemma lv_get_set_other l i j x : i <> j -> lv_get (lv_set l i x) j = lv_get l j.
Proof. intros. unfold lv_get, lv_set. rewrite znth_zupd_other; auto. Qed.
Lemma zlen_lv_set l i x : zlen (lv_set l i x) = zlen l.
Proof. apply zlen_zupd. Qed.
Lemma zlen_lv_add l x : zlen (lv_add l x) = zlen l + 1.
Proof. apply zlen_snoc. Qed.
Lemma zlen_lv_increase l n : 0 <= n -> zlen (lv_increase l n) = zlen l + n.
Proof. intros. unfold lv_increase. rewrite zlen_app, zlen_repeat. lia. Qed.
Lemma lv_get_app1 l l' i : i < zlen l -> lv_get (l ++ l') i = lv_get l i.
Proof. intros. unfold lv_get. rewrite znth_app1; auto. Qed.
Lemma lv_get_app2 l l' i : zlen l <= i -> lv_get (l ++ l') i = lv_get l' (i - zlen l).
Proof. intros. unfold lv_get. rewrite znth_app2; auto. Qed.

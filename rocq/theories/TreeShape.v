(** Facts about ordered trees given by their lists of children. *)
From Verif Require Import Prelude TreeSpec.
From Coq Require Import List FinFun.
Local Open Scope Z_scope.

(** Finite below [n]. *)
Inductive fin (f : Z -> list Z) : Z -> Prop := fin_intro n : (forall k, In k (f n) -> fin f k) -> fin f n.

Record shape (f : Z -> list Z) : Prop := mkShape {
  sh_fin : fin f 0;
  sh_uniq : forall n m k, below f 0 n -> below f 0 m -> In k (f n) -> In k (f m) -> n = m;
  sh_nodup : forall n, below f 0 n -> NoDup (f n);
  sh_root : forall n, below f 0 n -> ~ In 0 (f n)
}.

Lemma below_trans f a b c : below f a b -> below f b c -> below f a c.
Proof. intros A B. induction B; auto. econstructor; eauto. Qed.
Lemma below_one f a k : In k (f a) -> below f a k.
Proof. intros. econstructor; eauto. constructor. Qed.
Lemma below_inv f n m : below f n m -> m = n \/ exists p, below f n p /\ In m (f p).
Proof. destruct 1; eauto. Qed.
(** From the other end. *)
Lemma below_head f n m : below f n m -> m = n \/ exists k, In k (f n) /\ below f k m.
Proof.
  induction 1 as [|m k B IH I]; auto. right. destruct IH as [->|(j & J & B')].
  - exists k. split; auto. constructor.
  - exists j. split; auto. econstructor; eauto.
Qed.

Lemma fin_below f n m : fin f n -> below f n m -> fin f m.
Proof. intros F B. induction B; auto. destruct IHB; auto. Qed.

(** No cycles. *)
Lemma fin_acyclic f n : fin f n -> forall m, below f n m -> ~ In n (f m).
Proof.
  intros F. induction F as [n F IH]. intros m B I.
  destruct (below_head _ _ _ B) as [->|(k & K & B')].
  - apply (IH n I n); [constructor|auto].
  - apply (IH k K n). + eapply below_kid; eauto. + auto.
Qed.

Section Shape.
Variable f : Z -> list Z.
Hypothesis SH : shape f.

Lemma shape_fin n : below f 0 n -> fin f n.
Proof. apply fin_below. apply SH. Qed.
Lemma acyclic n m : below f 0 n -> below f n m -> ~ In n (f m).
Proof. intros. apply fin_acyclic; auto. apply shape_fin; auto. Qed.

Lemma below_antisym a b : below f 0 a -> below f a b -> below f b a -> a = b.
Proof.
  intros N A B. destruct (below_inv _ _ _ B) as [->|(p & P & I)]; auto.
  exfalso. apply (acyclic a p N); auto. eapply below_trans; eauto.
Qed.

(** Two ancestors of one node are one above the other. *)
Lemma below_compare a b n : below f 0 a -> below f 0 b -> below f a n -> below f b n -> below f a b \/ below f b a.
Proof.
  intros NA NB A. revert b NB. induction A as [|m k A IH I]; intros b NB B; auto.
  destruct (below_inv _ _ _ B) as [E|(p & P & J)].
  - subst k. left. econstructor; eauto.
  - assert (m = p); [|subst p; auto]. apply (sh_uniq _ SH m p k); auto; [apply (below_trans f 0 a m)|apply (below_trans f 0 b p)]; auto.
Qed.

Lemma parent_ex n : below f 0 n -> n <> 0 -> exists p, below f 0 p /\ In n (f p).
Proof. intros B N. destruct (below_inv _ _ _ B) as [->|]; auto. congruence. Qed.
End Shape.

(** ** Pre-order. *)
Lemma walk_ind' (f : Z -> list Z) (P : Z -> list Z -> Prop) :
  (forall n ls, Forall2 (walk f) (f n) ls -> Forall2 P (f n) ls -> P n (n :: concat ls)) -> forall n l, walk f n l -> P n l.
Proof.
  intros H. fix IH 3. intros n l [m ls F]. apply H; [exact F|].
  exact ((fix go ks ls (F : Forall2 (walk f) ks ls) : Forall2 P ks ls := match F with Forall2_nil _ => Forall2_nil P | Forall2_cons k l w r => Forall2_cons k l (IH k l w) (go _ _ r) end) _ _ F).
Qed.

Lemma walk_ex f n : fin f n -> exists l, walk f n l.
Proof.
  induction 1 as [n F IH]. assert (exists ls, Forall2 (walk f) (f n) ls) as (ls & H).
  { clear F. induction (f n) as [|k l IHl]; [exists []; constructor|]. destruct (IH k) as (l1 & L1); [left; auto|].
    destruct IHl as (ls & L); [intros; apply IH; right; auto|]. exists (l1 :: ls). constructor; auto. }
  exists (n :: concat ls). constructor. auto.
Qed.

Lemma walk_hd f n l : walk f n l -> exists l', l = n :: l'.
Proof. destruct 1. eauto. Qed.

Lemma in_concat_f2 (P : Z -> list Z -> Prop) ks ls x : Forall2 P ks ls -> (In x (concat ls) <-> exists k l, In k ks /\ P k l /\ In l ls /\ In x l).
Proof.
  induction 1 as [|k l ks ls H F IH]; cbn; [firstorder|]. rewrite in_app_iff, IH. split.
  - intros [I|(k' & l' & A & B & C & D)]; [exists k, l|exists k', l']; auto 10.
  - intros (k' & l' & A & B & [<-|C] & D); auto. right.
    assert (exists k2, In k2 ks /\ P k2 l') as (k2 & K2 & P2).
    { clear - F C. induction F; [contradiction|]. destruct C as [<-|C]; [eexists; split; [left; eauto|auto]|]. destruct (IHF C) as (k2 & ? & ?). exists k2. split; auto. right; auto. }
    exists k2, l'. auto.
Qed.

Lemma walk_In f n l : walk f n l -> forall m, In m l <-> below f n m.
Proof.
  revert n l. apply (walk_ind' f (fun n l => forall m, In m l <-> below f n m)). intros n ls F F2 m. cbn [In]. rewrite (in_concat_f2 _ _ _ _ F2). split.
  - intros [<-|(k & l & K & P & L & I)]; [constructor|]. apply P in I. eapply below_trans; [|eauto]. apply below_one; auto.
  - intros B. destruct (below_head _ _ _ B) as [->|(k & K & B')]; auto. right.
    assert (exists l, In l ls /\ (forall m, In m l <-> below f k m)) as (l & L & P).
    { clear - F2 K. induction F2; [contradiction|]. destruct K as [->|K]; [eexists; split; [left; auto|auto]|]. destruct (IHF2 K) as (l9 & ? & ?). exists l9. split; auto. right; auto. }
    exists k, l. repeat split; auto; apply P; auto.
Qed.

Lemma walk_nodup f : shape f -> forall n l, walk f n l -> below f 0 n -> NoDup l.
Proof.
  intros SH. apply (walk_ind' f (fun n l => below f 0 n -> NoDup l)). intros n ls F F2 B.
  constructor.
  - rewrite (in_concat_f2 _ _ _ _ F). intros (k & l & K & W & L & I). apply (walk_In _ _ _ W) in I. apply (acyclic f SH k n); auto. econstructor; eauto.
  - assert (SUB: forall k, In k (f n) -> below f 0 k) by (intros; econstructor; eauto).
    assert (DJ: forall k j m, In k (f n) -> In j (f n) -> below f k m -> below f j m -> k = j).
    { intros k j m K J BK BJ.
      assert (forall k j, In k (f n) -> In j (f n) -> below f k j -> k = j) as ONE.
      { intros k0 j0 K0 J0 B0. destruct (below_inv _ _ _ B0) as [->|(p & P & I)]; auto. exfalso.
        assert (p = n) as -> by (apply (sh_uniq _ SH p n j0); auto; eapply below_trans; [|eauto]; auto).
        apply (acyclic f SH k0 n); auto. }
      destruct (below_compare f SH k j m); auto. symmetry. auto. }
    pose proof (sh_nodup _ SH n B) as ND. revert F F2 ND SUB DJ. generalize (f n) as ks. intros ks F. induction F as [|k l ks ls W F IH]; intros F2 ND SUB DJ; cbn; [constructor|].
    inversion F2; subst. inversion ND as [|? ? NI ND']; subst.
    apply NoDup_app_remove_l with (l := []) || idtac.
    assert (NL: NoDup l) by (match goal with X : below f 0 k -> NoDup l |- _ => apply X, SUB; left; auto end).
    assert (NR: NoDup (concat ls)). { apply IH; auto; [intros; apply SUB; right; auto|]. intros k1 j1 m1 K1 J1. apply DJ; right; auto. }
    assert (DIS: forall x, In x l -> ~ In x (concat ls)).
    { intros x I1 I2. apply (in_concat_f2 _ _ _ _ F) in I2 as (j & l' & J & W' & L' & I2). apply (walk_In _ _ _ W) in I1. apply (walk_In _ _ _ W') in I2.
      apply NI. rewrite (DJ k j x); auto; [left; auto|right; auto]. }
    clear - NL NR DIS. induction l as [|x l IH]; cbn; auto. inversion NL; subst. constructor.
    + rewrite in_app_iff. intros [?|?]; [auto|]. apply (DIS x); auto. left; auto.
    + apply IH; auto. intros y Y. apply DIS. right; auto.
Qed.

(** What comes after everything below a node. *)
Inductive cont (f : Z -> list Z) (none : Z) : Z -> Z -> Prop :=
| cont_root : cont f none 0 none
| cont_sib n a k j b : below f 0 n -> f n = a ++ k :: j :: b -> cont f none k j
| cont_up n a k r : below f 0 n -> f n = a ++ [k] -> cont f none n r -> cont f none k r.
Definition stepr (f : Z -> list Z) (none : Z) (n r : Z) : Prop :=
  match f n with [] => cont f none n r | k :: _ => r = k end.

Lemma walk_step f none : forall m l, walk f m l -> below f 0 m -> forall r0, cont f none m r0 -> forall b n a, l = b ++ n :: a -> stepr f none n (hd r0 a).
Proof.
  apply (walk_ind' f (fun m l => below f 0 m -> forall r0, cont f none m r0 -> forall b n a, l = b ++ n :: a -> stepr f none n (hd r0 a))).
  intros m ls F F2 BM r0 C b n a E. destruct b as [|x b]; cbn in E; injection E as <- E.
  - unfold stepr. subst a. destruct F as [|k l ks ls W F]; auto. destruct (walk_hd _ _ _ W) as (l' & ->). reflexivity.
  - (* n lies in the part of one of the children *)
    assert (GEN: forall ks ls, Forall2 (walk f) ks ls -> Forall2 (fun m l => below f 0 m -> forall r0, cont f none m r0 -> forall b n a, l = b ++ n :: a -> stepr f none n (hd r0 a)) ks ls ->
       forall done, f m = done ++ ks -> forall b, concat ls = b ++ n :: a -> stepr f none n (hd r0 a)).
    { clear ls F F2 b E. intros ks ls F. induction F as [|k l ks ls W F IH]; intros F2 done D b E; [destruct b; discriminate E|].
      inversion F2; subst. cbn [concat] in E. match goal with X : below f 0 k -> _ |- _ => rename X into P end.
      assert (below f 0 k) as BK by (eapply below_kid; [eauto|]; rewrite D; apply in_or_app; right; left; auto).
      assert (exists r1, cont f none k r1 /\ r1 = hd r0 (concat ls)) as (r1 & C1 & R1).
      { destruct F as [|j l2 ks ls W2 F].
        - exists r0. split; auto. apply (cont_up f none m done); auto.
        - destruct (walk_hd _ _ _ W2) as (l' & ->). exists j. split; auto. apply (cont_sib f none m done k j ks); auto. }
      destruct (app_eq_app _ _ _ _ E) as (z & [[E1 E2]|[E1 E2]]).
      - (* l = b ++ z, n :: a = z ++ concat ls *)
        destruct z as [|y z]; cbn in E2.
        + apply (IH H4 (done ++ [k])) with (b := []); [rewrite D, <- app_assoc; reflexivity|]. cbn. auto.
        + injection E2 as <- ->. pose proof (P BK r1 C1 b n z E1) as Q. destruct z; cbn in *; [rewrite <- R1; auto|auto].
      - (* b = l ++ z *)
        apply (IH H4 (done ++ [k])) with (b := z); [rewrite D, <- app_assoc; reflexivity|auto]. }
    apply (GEN (f m) ls F F2 [] eq_refl b E).
Qed.

(** ** How the calls change the shape. *)

(** A new last child. *)
Section Add.
Variables (f : Z -> list Z) (n r : Z).
Hypothesis SH : shape f.
Hypothesis N : below f 0 n.
Hypothesis R : ~ below f 0 r.
Definition f_add := upd (upd f n (f n ++ [r])) r [].

Lemma add_r : f_add r = [].
Proof. unfold f_add, upd. rewrite Z.eqb_refl. reflexivity. Qed.
Lemma add_other m : m <> r -> f_add m = f m ++ (if m =? n then [r] else []).
Proof. unfold f_add, upd. intros. destruct (m =? r) eqn:?; [lia|]. destruct (m =? n) eqn:E; [|rewrite app_nil_r; auto]. assert (m = n) as -> by lia. auto. Qed.
Lemma add_neq m : below f 0 m -> m <> r.
Proof. intros B ->. auto. Qed.
Lemma add_below m : below f_add 0 m <-> below f 0 m \/ m = r.
Proof.
  split.
  - induction 1 as [|m k B IH I]; [left; constructor|]. destruct IH as [IH| ->]; [|rewrite add_r in I; contradiction].
    rewrite add_other in I by (apply add_neq; auto). apply in_app_or in I as [I|I]; [left; econstructor; eauto|].
    destruct (m =? n); [|contradiction]. destruct I as [->|[]]. auto.
  - assert (forall m, below f 0 m -> below f_add 0 m) as L.
    { induction 1 as [|m' k B IH I]; [constructor|]. econstructor; eauto. rewrite add_other by (apply add_neq; auto). apply in_or_app; auto. }
    intros [B| ->]; auto. apply (below_kid _ _ n r); auto. rewrite add_other by (apply add_neq; auto). rewrite Z.eqb_refl. apply in_or_app. right. left. auto.
Qed.
Lemma shape_add : shape f_add.
Proof.
  assert (NR: forall m k, below f 0 m -> In k (f m) -> k <> r) by (intros m k B I ->; apply R; econstructor; eauto).
  constructor.
  - assert (fin f_add r) as FR by (constructor; rewrite add_r; contradiction).
    assert (forall m, fin f m -> below f 0 m -> fin f_add m) as G; [|apply G; [apply SH|constructor]].
    induction 1 as [m F IH]. intros B. constructor. intros k I. rewrite add_other in I by (apply add_neq; auto). apply in_app_or in I as [I|I].
    + apply IH; auto. econstructor; eauto.
    + destruct (m =? n); [|contradiction]. destruct I as [<-|[]]. auto.
  - intros a b k A B I J. apply add_below in A as [A| ->]; [|rewrite add_r in I; contradiction]. apply add_below in B as [B| ->]; [|rewrite add_r in J; contradiction].
    rewrite add_other in I, J by (apply add_neq; auto). apply in_app_or in I, J. destruct I as [I|I], J as [J|J].
    + eapply (sh_uniq _ SH); eauto.
    + destruct (b =? n); [|contradiction]. destruct J as [<-|[]]. exfalso. apply (NR a r); auto.
    + destruct (a =? n); [|contradiction]. destruct I as [<-|[]]. exfalso. apply (NR b r); auto.
    + destruct (a =? n) eqn:?, (b =? n) eqn:?; try contradiction. lia.
  - intros a A. apply add_below in A as [A| ->]; [|rewrite add_r; constructor]. rewrite add_other by (apply add_neq; auto).
    pose proof (sh_nodup _ SH a A) as ND. destruct (a =? n); [|rewrite app_nil_r; auto].
    apply NoDup_rev in ND. rewrite <- (rev_involutive (f a ++ [r])). apply NoDup_rev. rewrite rev_app_distr. cbn. constructor; auto. rewrite <- in_rev. intros I. eapply NR; eauto.
  - intros a A I. apply add_below in A as [A| ->]; [|rewrite add_r in I; contradiction]. rewrite add_other in I by (apply add_neq; auto). apply in_app_or in I as [I|I].
    + apply (sh_root _ SH a); auto.
    + destruct (a =? n); [|contradiction]. destruct I as [->|[]]. apply R. constructor.
Qed.
End Add.

(** A new node between a node and its parent. *)
Section Insert.
Variables (f : Z -> list Z) (n r : Z).
Hypothesis SH : shape f.
Hypothesis N : below f 0 n.
Hypothesis NZ : n <> 0.
Hypothesis R : ~ below f 0 r.
Definition f_ins := upd (fun m => map (put n r) (f m)) r [n].

Lemma ins_r : f_ins r = [n].
Proof. unfold f_ins, upd. rewrite Z.eqb_refl. reflexivity. Qed.
Lemma ins_other m : m <> r -> f_ins m = map (put n r) (f m).
Proof. unfold f_ins, upd. intros. destruct (m =? r) eqn:?; [lia|]. auto. Qed.
Lemma ins_neq m : below f 0 m -> m <> r.
Proof. intros B ->. auto. Qed.
Lemma ins_In m k : below f 0 m -> (In k (f_ins m) <-> (In k (f m) /\ k <> n) \/ (k = r /\ In n (f m))).
Proof.
  intros B. rewrite ins_other by (apply ins_neq; auto). rewrite in_map_iff. unfold put. split.
  - intros (j & E & I). destruct (j =? n) eqn:?; subst; [right; split; auto; replace n with j by lia; auto|left; split; auto; lia].
  - intros [[I K]|[-> I]]; [exists k|exists n]; split; auto; [|rewrite Z.eqb_refl; auto]. destruct (k =? n) eqn:?; auto. lia.
Qed.
Lemma ins_below m : below f_ins 0 m <-> below f 0 m \/ m = r.
Proof.
  split.
  - induction 1 as [|m k B IH I]; [left; constructor|]. destruct IH as [IH| ->].
    + apply ins_In in I as [[I _]|[-> _]]; auto. left. econstructor; eauto.
    + rewrite ins_r in I. destruct I as [<-|[]]. auto.
  - assert (forall m, below f 0 m -> In n (f m) -> below f_ins 0 m -> below f_ins 0 r) as P.
    { intros p BP I B. econstructor; eauto. apply ins_In; auto. }
    assert (forall m, below f 0 m -> below f_ins 0 m) as L.
    { induction 1 as [|m' k B IH I]; [constructor|]. destruct (Z.eq_dec k n) as [->|].
      - apply (below_kid _ _ r); [eauto|]. rewrite ins_r. left; auto.
      - econstructor; eauto. apply ins_In; auto. }
    intros [B| ->]; auto. destruct (parent_ex f n N NZ) as (p & BP & I). eauto.
Qed.
Lemma shape_ins : shape f_ins.
Proof.
  assert (NR: forall m k, below f 0 m -> In k (f m) -> k <> r) by (intros m k B I ->; apply R; econstructor; eauto).
  constructor.
  - assert (forall m, fin f m -> below f 0 m -> fin f_ins m) as G; [|apply G; [apply SH|constructor]].
    induction 1 as [m F IH]. intros B. constructor. intros k I. apply ins_In in I as [[I _]|[-> I]]; auto.
    + apply IH; auto. econstructor; eauto.
    + constructor. intros k. rewrite ins_r. intros [<-|[]]. apply IH; auto.
  - intros a b k A B I J. apply ins_below in A as [A| ->], B as [B| ->]; auto.
    + apply ins_In in I, J; auto. destruct I as [[I ?]|[? I]], J as [[J ?]|[? J]].
      * eapply (sh_uniq _ SH); eauto.
      * subst. exfalso. eapply (NR a); eauto.
      * subst. exfalso. eapply (NR b); eauto.
      * eapply (sh_uniq _ SH); eauto.
    + rewrite ins_r in J. destruct J as [<-|[]]. apply ins_In in I as [[I ?]|[E I]]; auto; [congruence|]. exfalso. subst. eapply (NR a); eauto.
    + rewrite ins_r in I. destruct I as [<-|[]]. apply ins_In in J as [[J ?]|[E J]]; auto; [congruence|]. exfalso. subst. eapply (NR b); eauto.
  - intros a A. apply ins_below in A as [A| ->]; [|rewrite ins_r; constructor; auto; constructor]. rewrite ins_other by (apply ins_neq; auto).
    pose proof (sh_nodup _ SH a A) as ND. assert (forall k, In k (f a) -> k <> r) as NR' by eauto. clear - ND NR'.
    induction (f a) as [|k l IH]; cbn; [constructor|]. inversion ND as [|? ? NI ND2]; subst. constructor.
    + rewrite in_map_iff. intros (j & E & I). unfold put in E. destruct (j =? n) eqn:?, (k =? n) eqn:?.
      * apply NI. replace k with j by lia. auto.
      * apply (NR' k); auto. left; auto.
      * apply (NR' j); auto. right; auto.
      * subst. auto.
    + apply IH; auto. intros. apply NR'. right; auto.
  - intros a A I. apply ins_below in A as [A| ->].
    + apply ins_In in I as [[I _]|[E I]]; auto; [apply (sh_root _ SH a); auto|]. apply R. rewrite <- E. constructor.
    + rewrite ins_r in I. destruct I as [->|[]]. congruence.
Qed.
End Insert.

(** Exchange. *)
Lemma exch_invol a b k : exch a b (exch a b k) = k.
Proof.
  unfold exch. destruct (k =? a) eqn:E1.
  - rewrite Z.eqb_refl. destruct (b =? a) eqn:E3; lia.
  - destruct (k =? b) eqn:E2; [rewrite Z.eqb_refl; lia|]. rewrite E1, E2. auto.
Qed.
Lemma exch_inj a b k j : exch a b k = exch a b j -> k = j.
Proof. intros E. rewrite <- (exch_invol a b k), E, exch_invol. auto. Qed.
Lemma exch_other a b k : k <> a -> k <> b -> exch a b k = k.
Proof. unfold exch. repeat match goal with |- context[if ?x then _ else _] => destruct x eqn:? end; lia. Qed.
Lemma exch_l a b : exch a b a = b.
Proof. unfold exch. rewrite Z.eqb_refl. auto. Qed.
Lemma exch_r a b : exch a b b = a.
Proof. unfold exch. destruct (b =? a) eqn:?; [lia|]. rewrite Z.eqb_refl. auto. Qed.
Lemma in_map_exch a b k l : In k (map (exch a b) l) <-> In (exch a b k) l.
Proof.
  rewrite in_map_iff. split.
  - intros (j & <- & I). rewrite exch_invol. auto.
  - intros I. exists (exch a b k). rewrite exch_invol. auto.
Qed.

Section Swap.
Variables (f : Z -> list Z) (a b : Z).
Hypothesis SH : shape f.
Hypothesis A : below f 0 a.
Hypothesis B : below f 0 b.
Hypothesis AB : ~ below f a b.
Hypothesis BA : ~ below f b a.
Definition f_swap := fun m => map (exch a b) (f m).

Lemma swap_nz : a <> 0 /\ b <> 0 /\ a <> b.
Proof. repeat split; intros ->; auto. apply AB. constructor. Qed.

Lemma swap_sub c m : (c = a \/ c = b) -> below f c m -> below f_swap c m.
Proof.
  intros C. induction 1 as [|m k P IH I]; [constructor|]. econstructor; eauto. unfold f_swap. apply in_map_exch.
  rewrite exch_other; auto.
  - intros ->. destruct C as [-> | ->]; [apply (acyclic f SH a m A P I)|apply BA; econstructor; eauto].
  - intros ->. destruct C as [-> | ->]; [apply AB; econstructor; eauto|apply (acyclic f SH b m B P I)].
Qed.

(** The way to the parent of one of the two does not meet them. *)
Lemma swap_way m : below f 0 m -> ~ below f a m -> ~ below f b m -> below f_swap 0 m.
Proof.
  induction 1 as [|m k P IH I]; intros NA NB; [constructor|].
  assert (~ below f a m) by (intros ?; apply NA; econstructor; eauto). assert (~ below f b m) by (intros ?; apply NB; econstructor; eauto).
  econstructor; [apply IH; auto|]. unfold f_swap. apply in_map_exch. rewrite exch_other; auto; intros ->; [apply NA|apply NB]; constructor.
Qed.

Lemma swap_ab : below f_swap 0 a /\ below f_swap 0 b.
Proof.
  destruct swap_nz as (Z1 & Z2 & Z3).
  destruct (parent_ex f a A Z1) as (pa & PA & IA), (parent_ex f b B Z2) as (pb & PB & IB). split.
  - apply (below_kid _ _ pb).
    + apply swap_way; auto; intros Q; [apply AB; econstructor; eauto|apply (acyclic f SH b pb B Q IB)].
    + unfold f_swap. apply in_map_exch. rewrite exch_l. auto.
  - apply (below_kid _ _ pa).
    + apply swap_way; auto; intros Q; [apply (acyclic f SH a pa A Q IA)|apply BA; econstructor; eauto].
    + unfold f_swap. apply in_map_exch. rewrite exch_r. auto.
Qed.

Lemma swap_below m : below f_swap 0 m <-> below f 0 m.
Proof.
  destruct swap_ab as [SA SB]. split.
  - induction 1 as [|m k P IH I]; [constructor|]. unfold f_swap in I. apply in_map_exch in I.
    destruct (Z.eq_dec k a) as [->|]; [auto|]. destruct (Z.eq_dec k b) as [->|]; [auto|]. rewrite exch_other in I by auto. econstructor; eauto.
  - induction 1 as [|m k P IH I]; [constructor|].
    destruct (Z.eq_dec k a) as [->|]; [auto|]. destruct (Z.eq_dec k b) as [->|]; [auto|].
    econstructor; eauto. unfold f_swap. apply in_map_exch. rewrite exch_other by auto. auto.
Qed.

Lemma shape_swap : shape f_swap.
Proof.
  destruct swap_nz as (Z1 & Z2 & Z3).
  assert (FS: forall c, (c = a \/ c = b) -> forall m, fin f m -> below f c m -> fin f_swap m).
  { intros c C m F. induction F as [m F IH]. intros P. constructor. intros k I. unfold f_swap in I. apply in_map_exch in I.
    assert (k <> a). { intros ->. rewrite exch_l in I. destruct C as [-> | ->]; [apply AB; econstructor; eauto|apply (acyclic f SH b m B P I)]. }
    assert (k <> b). { intros ->. rewrite exch_r in I. destruct C as [-> | ->]; [apply (acyclic f SH a m A P I)|apply BA; econstructor; eauto]. }
    rewrite exch_other in I by auto. apply IH; auto. econstructor; eauto. }
  assert (fin f_swap a) by (apply (FS a); auto; [apply shape_fin; auto|constructor]).
  assert (fin f_swap b) by (apply (FS b); auto; [apply shape_fin; auto|constructor]).
  constructor.
  - assert (forall m, fin f m -> fin f_swap m) as G; [|apply G, SH].
    induction 1 as [m F IH]. constructor. intros k I. unfold f_swap in I. apply in_map_exch in I.
    destruct (Z.eq_dec k a) as [->|]; [auto|]. destruct (Z.eq_dec k b) as [->|]; [auto|]. rewrite exch_other in I by auto. auto.
  - intros n m k P Q I J. apply swap_below in P, Q. unfold f_swap in I, J. apply in_map_exch in I, J. eapply (sh_uniq _ SH); eauto.
  - intros n P. apply swap_below in P. apply Injective_map_NoDup; [intros x y; apply exch_inj|apply SH; auto].
  - intros n P I. apply swap_below in P. unfold f_swap in I. apply in_map_exch in I. rewrite exch_other in I by auto. apply (sh_root _ SH n); auto.
Qed.
End Swap.

(** Renaming two nodes, neither of them the root. *)
Section Order.
Variables (f : Z -> list Z) (a b : Z).
Hypothesis SH : shape f.
Hypothesis A : a <> 0.
Hypothesis B : b <> 0.
Definition f_ord := fun m => map (exch a b) (f (exch a b m)).
Lemma ord_below n m : below f_ord n m <-> below f (exch a b n) (exch a b m).
Proof.
  split.
  - induction 1 as [|m k P IH I]; [constructor|]. econstructor; eauto. unfold f_ord in I. apply in_map_exch in I. auto.
  - remember (exch a b n) as n'. remember (exch a b m) as m'. intros P. revert m Heqm'. induction P as [|m' k P IH I]; intros m E.
    + subst. apply exch_inj in E as ->. constructor.
    + econstructor; [apply (IH (exch a b m')); rewrite exch_invol; auto|]. unfold f_ord. rewrite exch_invol. apply in_map_exch. rewrite <- E. auto.
Qed.
Lemma exch0 : exch a b 0 = 0.
Proof. apply exch_other; auto. Qed.
Lemma ord_below0 m : below f_ord 0 m <-> below f 0 (exch a b m).
Proof. rewrite ord_below, exch0. tauto. Qed.
Lemma shape_ord : shape f_ord.
Proof.
  constructor.
  - assert (forall m, fin f m -> fin f_ord (exch a b m)) as G; [|rewrite <- exch0; apply G, SH].
    induction 1 as [m F IH]. constructor. intros k I. unfold f_ord in I. rewrite exch_invol in I. apply in_map_exch in I. apply IH in I. rewrite exch_invol in I. auto.
  - intros n m k P Q I J. apply ord_below0 in P, Q. unfold f_ord in I, J. apply in_map_exch in I, J. apply (exch_inj a b). eapply (sh_uniq _ SH); eauto.
  - intros n P. apply ord_below0 in P. apply Injective_map_NoDup; [intros x y; apply exch_inj|apply SH; auto].
  - intros n P I. apply ord_below0 in P. unfold f_ord in I. apply in_map_exch in I. rewrite exch0 in I. apply (sh_root _ SH (exch a b n)); auto.
Qed.
End Order.

(** Removal. *)
Section Remove.
Variables (f : Z -> list Z) (n : Z).
Hypothesis SH : shape f.
Definition f_rem := fun m => filter (fun k => negb (k =? n)) (f m).
Lemma rem_In m k : In k (f_rem m) <-> In k (f m) /\ k <> n.
Proof. unfold f_rem. rewrite filter_In. split; intros [? ?]; split; auto; lia. Qed.
Lemma rem_below m : below f_rem 0 m -> below f 0 m.
Proof. induction 1 as [|m k P IH I]; [constructor|]. apply rem_In in I as [I _]. econstructor; eauto. Qed.
Lemma rem_below_iff m : below f 0 n -> n <> 0 -> (below f_rem 0 m <-> below f 0 m /\ ~ below f n m).
Proof.
  intros N NZ. split.
  - intros P. split; [apply rem_below; auto|]. induction P as [|m k P IH I].
    + intros Q. destruct (below_inv _ _ _ Q) as [?|(p & Q1 & I)]; [congruence|]. apply (sh_root _ SH p); auto. eapply below_trans; eauto.
    + intros Q. apply rem_In in I as [I NE]. destruct (below_inv _ _ _ Q) as [->|(p & Q1 & J)]; [congruence|].
      apply IH. rewrite (sh_uniq _ SH m p k); auto; [apply rem_below; auto|eapply below_trans; eauto].
  - intros [P Q]. induction P as [|m k P IH I]; [constructor|].
    assert (~ below f n m) by (intros ?; apply Q; econstructor; eauto). econstructor; [apply IH; auto|]. apply rem_In. split; auto. intros ->. apply Q. constructor.
Qed.
Lemma shape_rem : shape f_rem.
Proof.
  constructor.
  - assert (forall m, fin f m -> fin f_rem m) as G; [|apply G, SH].
    induction 1 as [m F IH]. constructor. intros k I. apply rem_In in I as [I _]. auto.
  - intros x y k P Q I J. apply rem_below in P, Q. apply rem_In in I as [I _], J as [J _]. eapply (sh_uniq _ SH); eauto.
  - intros x P. apply rem_below in P. apply NoDup_filter. apply SH; auto.
  - intros x P I. apply rem_below in P. apply rem_In in I as [I _]. apply (sh_root _ SH x); auto.
Qed.
End Remove.

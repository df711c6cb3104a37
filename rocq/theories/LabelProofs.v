(** Proofs about the labels of the MIPS generator. *)
From Verif Require Import Prelude LabelModel LabelSpec.

Definition same (k m : Z) (l : label) : Z := if (k =? fst l) && (m =? snd l) then 1 else 0.
Fixpoint cnt (k m : Z) (code : list line) : Z :=
  match code with
  | [] => 0
  | Decl l :: code => same k m l + cnt k m code
  | Jump _ :: code => cnt k m code
  end.

Lemma cnt_app k m a b : cnt k m (a ++ b) = cnt k m a + cnt k m b.
Proof. induction a as [|[l|l] a IH]; cbn [app cnt]; lia. Qed.

Lemma same_pair k m k' m' : same k m (k', m') = if (k =? k') && (m =? m') then 1 else 0.
Proof. reflexivity. Qed.

Lemma cnt_nonneg k m c : 0 <= cnt k m c.
Proof. induction c as [|[l|l] c IH]; cbn [cnt]; unfold same; try destruct (_ && _); lia. Qed.

Lemma cnt_In k m c : 1 <= cnt k m c <-> In (k, m) (declared c).
Proof.
  induction c as [|[[k' m']|l] c IH].
  - cbn. split; [lia | tauto].
  - change (declared (Decl (k', m') :: c)) with ((k', m') :: declared c). cbn [cnt In].
    rewrite same_pair. pose proof (cnt_nonneg k m c).
    destruct ((k =? k') && (m =? m')) eqn:E.
    + split; [|lia]. intros _. left. f_equal; lia.
    + rewrite Z.add_0_l, IH. split; [tauto|]. intros [X|X]; [|exact X].
      assert (k' = k /\ m' = m) by (split; congruence). lia.
  - exact IH.
Qed.

Lemma cnt_NoDup c : (forall k m, cnt k m c <= 1) -> NoDup (declared c).
Proof.
  induction c as [|[[k' m']|l] c IH]; intros H.
  - constructor.
  - change (declared (Decl (k', m') :: c)) with ((k', m') :: declared c). constructor.
    + intros X. apply cnt_In in X. specialize (H k' m'). cbn [cnt] in H. rewrite same_pair, !Z.eqb_refl in H.
      cbn [andb] in H. lia.
    + apply IH. intros k m. specialize (H k m). cbn [cnt] in H. unfold same in H. destruct (_ && _); lia.
  - apply IH. exact H.
Qed.

(** Labels are numbered from the ranges the counters went through. *)
Definition ranged (k m n n' cn cn' : Z) : Prop :=
  (k = 2 \/ k = 5 \/ k = 6 \/ k = 7) /\ n <= m < n' \/ k = 8 /\ cn <= m < cn'.
Definition once (c : list line) (n n' cn cn' : Z) : Prop :=
  forall k m, 0 <= cnt k m c <= 1 /\ (cnt k m c = 1 -> ranged k m n n' cn cn').

Ltac counts :=
  unfold L_NEXT, L_FUNCEND, L_ELSE, L_END, L_BEGIN_CYCLE, L_CASE in *;
  intros; repeat first [rewrite cnt_app | progress (cbn [cnt app])]; rewrite ?same_pair; cbv iota;
  repeat match goal with H : once ?c _ _ _ _ |- context [cnt ?k ?m ?c] =>
    pose proof (H k m); clear H end;
  unfold ranged in *;
  repeat match goal with |- context [if ?x then 1 else 0] => destruct x eqn:? end; lia.

Lemma expr_once e : forall n cn c n', emit_expr e n = (c, n') -> n <= n' /\ once c n n' cn cn.
Proof.
  induction e as [|a IHa b IHb|w a IHa b IHb|a IHa b IHb|c0 IHc a IHa b IHb]; intros n cn c n' E; cbn [emit_expr] in E.
  - assert (c = [] /\ n' = n) as [-> ->] by (split; congruence). split; [lia|]. unfold once. counts.
  - destruct (emit_expr a n) as [ca n1] eqn:E1. destruct (emit_expr b n1) as [cb n2] eqn:E2.
    apply (IHa _ cn) in E1 as [L1 H1]. apply (IHb _ cn) in E2 as [L2 H2].
    assert (c = ca ++ cb /\ n' = n2) as [-> ->] by (split; congruence). split; [lia|]. unfold once at 1. counts.
  - destruct (emit_expr a n) as [ca n1] eqn:E1. destruct (emit_expr b n1) as [cb n2] eqn:E2.
    apply (IHa _ cn) in E1 as [L1 H1]. apply (IHb _ cn) in E2 as [L2 H2].
    set (l := (if w then L_ELSE else L_END, n2)) in E.
    assert (c = ca ++ cb ++ [Jump l; Decl l] /\ n' = n2 + 1) as [-> ->] by (split; congruence). split; [lia|].
    destruct w; subst l; unfold once at 1; counts.
  - destruct (emit_expr a n) as [ca n1] eqn:E1. destruct (emit_expr b (n1 + 1)) as [cb n2] eqn:E2.
    apply (IHa _ cn) in E1 as [L1 H1]. apply (IHb _ cn) in E2 as [L2 H2].
    assert (c = ca ++ [Jump (L_END, n1)] ++ cb ++ [Decl (L_END, n1)] /\ n' = n2) as [-> ->] by (split; congruence).
    split; [lia|]. unfold once at 1. counts.
  - destruct (emit_expr c0 n) as [cc m] eqn:E0. destruct (emit_expr a (m + 1)) as [ca n1] eqn:E1.
    destruct (emit_expr b n1) as [cb n2] eqn:E2.
    apply (IHc _ cn) in E0 as [L0 H0]. apply (IHa _ cn) in E1 as [L1 H1]. apply (IHb _ cn) in E2 as [L2 H2].
    assert (n' = n2) as -> by congruence. apply (f_equal fst) in E. cbn [fst] in E. subst c.
    split; [lia|]. unfold once at 1. counts.
Qed.

Fixpoint marks (b : sections) : Z :=
  match b with
  | NoSection => 0
  | Section_ Plain _ r => marks r
  | Section_ _ _ r => 1 + marks r
  end.
Lemma marks_nonneg b : 0 <= marks b.
Proof. induction b as [|[] s b IH]; cbn [marks]; lia. Qed.

Lemma jumps_once b : forall n cn d c n' cn' d', emit_jumps b n cn d = (c, n', cn', d') ->
  n <= n' /\ cn' = cn + marks b /\ once c n n' cn cn /\ (d' = d \/ cn <= d' < cn').
Proof.
  induction b as [|[] s b IH]; intros n cn d c n' cn' d' E; cbn [emit_jumps marks] in *.
  - assert (c = [] /\ n' = n /\ cn' = cn /\ d' = d) as (-> & -> & -> & ->) by (repeat split; congruence).
    split; [lia|]. split; [lia|]. split; [|lia]. unfold once. counts.
  - destruct (emit_jumps b (n + 1) (cn + 1) d) as [[[c1 n1] cn1] d1] eqn:E1.
    apply IH in E1 as (L & M & H & D).
    assert (n' = n1 /\ cn' = cn1 /\ d' = d1) as (-> & -> & ->) by (repeat split; congruence).
    apply (f_equal (fun x => fst (fst (fst x)))) in E. cbn [fst] in E. subst c.
    split; [lia|]. split; [lia|]. split; [|lia]. unfold once at 1. counts.
  - pose proof (marks_nonneg b). apply IH in E as (L & M & H' & D). split; [lia|]. split; [lia|]. split; [|lia]. unfold once. counts.
  - apply IH in E as (L & M & H' & D). split; [lia|]. split; [lia|]. split; [|lia]. exact H'.
Qed.

Scheme mstmt_ind2 := Induction for mstmt Sort Prop with sections_ind2 := Induction for sections Sort Prop.
Combined Scheme mstmt_sections_ind from mstmt_ind2, sections_ind2.


Definition once_in (c : list line) (n n' cn cn' cur cur' : Z) : Prop :=
  forall k m, 0 <= cnt k m c <= 1 /\
    (cnt k m c = 1 -> ranged k m n n' cn cn' \/ k = 8 /\ cur <= m < cur').

Ltac counts' :=
  unfold L_NEXT, L_FUNCEND, L_ELSE, L_END, L_BEGIN_CYCLE, L_CASE in *;
  intros; repeat first [rewrite cnt_app | progress (cbn [cnt app])]; rewrite ?same_pair; cbv iota;
  repeat match goal with
  | H : once ?c _ _ _ _ |- context [cnt ?k ?m ?c] => pose proof (H k m); clear H
  | H : once_in ?c _ _ _ _ _ _ |- context [cnt ?k ?m ?c] => pose proof (H k m); clear H end;
  unfold ranged in *;
  repeat match goal with |- context [if ?x then 1 else 0] => destruct x eqn:? end; lia.

Ltac code3 E := let H := fresh in pose proof (f_equal (fun x => fst (fst x)) E) as H; cbn [fst] in H; subst;
  pose proof (f_equal (fun x => snd (fst x)) E) as H; cbn [fst snd] in H; subst;
  pose proof (f_equal snd E) as H; cbn [snd] in H; subst; clear E.

Lemma stmt_once f :
  (forall s n cn brk cont c n' cn', emit_stmt f s n cn brk cont = (c, n', cn') ->
     n <= n' /\ cn <= cn' /\ once c n n' cn cn') /\
  (forall b n cn cur brk cont c n' cn', emit_sections f b n cn cur brk cont = (c, n', cn') ->
     cur + marks b <= cn ->
     n <= n' /\ cn <= cn' /\ once_in c n n' cn cn' cur (cur + marks b)).
Proof.
  apply mstmt_sections_ind.
  - intros e n cn brk cont c n' cn' E. cbn [emit_stmt] in E. destruct (emit_expr e n) as [c1 n1] eqn:E1.
    apply (expr_once _ _ cn) in E1 as [L1 H1]. code3 E. split; [lia|]. split; [lia|]. exact H1.
  - intros a IHa b IHb n cn brk cont c n' cn' E. cbn [emit_stmt] in E.
    destruct (emit_stmt f a n cn brk cont) as [[ca n1] cn1] eqn:E1. destruct (emit_stmt f b n1 cn1 brk cont) as [[cb n2] cn2] eqn:E2.
    apply IHa in E1 as (L1 & M1 & H1). apply IHb in E2 as (L2 & M2 & H2). code3 E.
    split; [lia|]. split; [lia|]. unfold once at 1. counts'.
  - intros e a IHa n cn brk cont c n' cn' E. cbn [emit_stmt] in E. destruct (emit_expr e n) as [c0 m] eqn:E0.
    destruct (emit_stmt f a (m + 1) cn brk cont) as [[ca n1] cn1] eqn:E1.
    apply (expr_once _ _ cn) in E0 as [L0 H0]. apply IHa in E1 as (L1 & M1 & H1). code3 E.
    split; [lia|]. split; [lia|]. unfold once at 1. counts'.
  - intros e a IHa b IHb n cn brk cont c n' cn' E. cbn [emit_stmt] in E. destruct (emit_expr e n) as [c0 m] eqn:E0.
    destruct (emit_stmt f a (m + 1) cn brk cont) as [[ca n1] cn1] eqn:E1.
    destruct (emit_stmt f b n1 cn1 brk cont) as [[cb n2] cn2] eqn:E2.
    apply (expr_once _ _ cn) in E0 as [L0 H0]. apply IHa in E1 as (L1 & M1 & H1). apply IHb in E2 as (L2 & M2 & H2). code3 E.
    split; [lia|]. split; [lia|]. unfold once at 1. counts'.
  - intros e a IHa n cn brk cont c n' cn' E. cbn [emit_stmt] in E. cbv zeta in E. destruct (emit_expr e (n + 1)) as [c0 m] eqn:E0.
    destruct (emit_stmt f a m cn _ _) as [[ca n1] cn1] eqn:E1.
    apply (expr_once _ _ cn) in E0 as [L0 H0]. apply IHa in E1 as (L1 & M1 & H1). code3 E.
    split; [lia|]. split; [lia|]. unfold once at 1. counts'.
  - intros a IHa e n cn brk cont c n' cn' E. cbn [emit_stmt] in E. cbv zeta in E.
    destruct (emit_stmt f a (n + 1) cn _ _) as [[ca n1] cn1] eqn:E1. destruct (emit_expr e n1) as [c0 m] eqn:E0.
    apply (expr_once _ _ cn) in E0 as [L0 H0]. apply IHa in E1 as (L1 & M1 & H1). code3 E.
    split; [lia|]. split; [lia|]. unfold once at 1. counts'.
  - intros i IHi e a IHa st n cn brk cont c n' cn' E. cbn [emit_stmt] in E.
    destruct (emit_stmt f i n cn brk cont) as [[ci n0] cn0] eqn:Ei. destruct (emit_expr e (n0 + 1)) as [c0 m] eqn:E0.
    destruct (emit_stmt f a m cn0 _ _) as [[ca n1] cn1] eqn:E1. destruct (emit_expr st n1) as [cs n2] eqn:E2.
    apply IHi in Ei as (Li & Mi & Hi). apply (expr_once _ _ cn) in E0 as [L0 H0]. apply IHa in E1 as (L1 & M1 & H1).
    apply (expr_once _ _ cn) in E2 as [L2 H2]. code3 E.
    split; [lia|]. split; [lia|]. unfold once at 1. counts'.
  - intros e b IHb n cn brk cont c n' cn' E. cbn [emit_stmt] in E. cbv zeta in E. destruct (emit_expr e (n + 1)) as [c0 m] eqn:E0.
    destruct (emit_jumps b m cn (-1)) as [[[cj n1] cn1] d] eqn:Ej.
    destruct (emit_sections f b n1 cn1 cn _ _) as [[cb n2] cn2] eqn:E1.
    apply (expr_once _ _ cn) in E0 as [L0 H0]. apply jumps_once in Ej as (Lj & Mj & Hj & D). pose proof (marks_nonneg b).
    apply IHb in E1 as (L1 & M1 & H1); [|lia]. code3 E.
    split; [lia|]. split; [lia|]. unfold once at 1. counts'.
  - intros n cn brk cont c n' cn' E. cbn [emit_stmt] in E. code3 E. split; [lia|]. split; [lia|]. unfold once. counts'.
  - intros n cn brk cont c n' cn' E. cbn [emit_stmt] in E. code3 E. split; [lia|]. split; [lia|]. unfold once. counts'.
  - intros e n cn brk cont c n' cn' E. cbn [emit_stmt] in E. destruct (emit_expr e n) as [c1 n1] eqn:E1.
    apply (expr_once _ _ cn) in E1 as [L1 H1]. code3 E. split; [lia|]. split; [lia|]. unfold once at 1. counts'.
  - intros n cn cur brk cont c n' cn' E M. cbn [emit_sections] in E. code3 E. split; [lia|]. split; [lia|]. unfold once_in. counts'.
  - intros mk s IHs b IHb n cn cur brk cont c n' cn' E M. cbn [emit_sections marks] in E, M.
    destruct (emit_stmt f s n cn brk cont) as [[cs n1] cn1] eqn:E1. pose proof (marks_nonneg b).
    apply IHs in E1 as (L1 & M1 & H1).
    destruct mk; destruct (emit_sections f b n1 cn1 _ brk cont) as [[cr n2] cn2] eqn:E2;
      (apply IHb in E2 as (L2 & M2 & H2); [|lia]); code3 E; cbn [marks];
      (split; [lia|]; split; [lia|]; unfold once_in at 1; counts').
Qed.

(** Jumps. *)
Lemma targets_app a b : targets (a ++ b) = targets a ++ targets b.
Proof. apply flat_map_app. Qed.
Lemma declared_app a b : declared (a ++ b) = declared a ++ declared b.
Proof. apply flat_map_app. Qed.
Lemma targets_decl l c : targets (Decl l :: c) = targets c.
Proof. reflexivity. Qed.
Lemma targets_jump l c : targets (Jump l :: c) = l :: targets c.
Proof. reflexivity. Qed.
Lemma declared_decl l c : declared (Decl l :: c) = l :: declared c.
Proof. reflexivity. Qed.
Lemma declared_jump l c : declared (Jump l :: c) = declared c.
Proof. reflexivity. Qed.
Lemma targets_nil : targets [] = [].
Proof. reflexivity. Qed.
Lemma declared_nil : declared [] = [].
Proof. reflexivity. Qed.

Definition leads (c : list line) (X : label -> Prop) : Prop :=
  forall l, In l (targets c) -> In l (declared c) \/ X l.

Ltac jumps' l :=
  cbn [app];
  repeat first [rewrite targets_app | rewrite declared_app | rewrite targets_jump | rewrite targets_decl
    | rewrite declared_jump | rewrite declared_decl | rewrite targets_nil | rewrite declared_nil];
  repeat first [rewrite in_app_iff | progress (cbn [In])];
  repeat match goal with H : leads _ _ |- _ => specialize (H l); cbv beta in H end; tauto.
Ltac jumps l := intros l; jumps' l.

Lemma expr_leads e : forall n c n', emit_expr e n = (c, n') -> leads c (fun _ => False).
Proof.
  induction e as [|a IHa b IHb|w a IHa b IHb|a IHa b IHb|c0 IHc a IHa b IHb]; intros n c n' E; cbn [emit_expr] in E.
  - assert (c = []) as -> by congruence. intros l [].
  - destruct (emit_expr a n) as [ca n1] eqn:E1. destruct (emit_expr b n1) as [cb n2] eqn:E2.
    apply IHa in E1. apply IHb in E2. apply (f_equal fst) in E. cbn [fst] in E. subst c. jumps l.
  - destruct (emit_expr a n) as [ca n1] eqn:E1. destruct (emit_expr b n1) as [cb n2] eqn:E2.
    apply IHa in E1. apply IHb in E2. apply (f_equal fst) in E. cbn [fst] in E. subst c. jumps l.
  - destruct (emit_expr a n) as [ca n1] eqn:E1. destruct (emit_expr b (n1 + 1)) as [cb n2] eqn:E2.
    apply IHa in E1. apply IHb in E2. apply (f_equal fst) in E. cbn [fst] in E. subst c. jumps l.
  - destruct (emit_expr c0 n) as [cc m] eqn:E0. destruct (emit_expr a (m + 1)) as [ca n1] eqn:E1.
    destruct (emit_expr b n1) as [cb n2] eqn:E2.
    apply IHc in E0. apply IHa in E1. apply IHb in E2. apply (f_equal fst) in E. cbn [fst] in E. subst c. jumps l.
Qed.

Definition a_case (lo hi : Z) (l : label) : Prop := exists m, lo <= m < hi /\ l = (L_CASE, m).

Lemma jumps_leads b : forall n cn d c n' cn' d', emit_jumps b n cn d = (c, n', cn', d') ->
  leads c (a_case cn (cn + marks b)).
Proof.
  induction b as [|[] s b IH]; intros n cn d c n' cn' d' E; cbn [emit_jumps marks] in *; pose proof marks_nonneg as MN.
  - assert (c = []) as -> by congruence. intros l [].
  - destruct (emit_jumps b (n + 1) (cn + 1) d) as [[[c1 n1] cn1] d1] eqn:E1.
    apply IH in E1. apply (f_equal (fun x => fst (fst (fst x)))) in E. cbn [fst] in E. subst c.
    assert (A : forall l, a_case (cn + 1) (cn + 1 + marks b) l -> a_case cn (cn + (1 + marks b)) l).
    { intros l (m & R & ->). exists m. split; [lia | reflexivity]. }
    assert (B : forall l, (L_CASE, cn) = l -> a_case cn (cn + (1 + marks b)) l).
    { intros l <-. exists cn. specialize (MN b). split; [lia | reflexivity]. }
    intros l. specialize (A l). specialize (B l). revert l A B. intros l A B. specialize (E1 l).
    cbn [app]. rewrite !targets_jump, targets_decl, targets_jump, !declared_jump, declared_decl, declared_jump. cbn [In]. tauto.
  - apply IH in E. intros l I. specialize (E l I). destruct E as [E|(m & R & ->)]; [left; exact E | right].
    exists m. split; [lia | reflexivity].
  - apply IH in E. exact E.
Qed.

Lemma sections_declare f b : forall n cn cur brk cont c n' cn', emit_sections f b n cn cur brk cont = (c, n', cn') ->
  forall m, cur <= m < cur + marks b -> In (L_CASE, m) (declared c).
Proof.
  induction b as [|mk s b IH]; intros n cn cur brk cont c n' cn' E m R; cbn [emit_sections marks] in *; [lia|].
  destruct (emit_stmt f s n cn brk cont) as [[cs n1] cn1] eqn:E1.
  destruct mk; destruct (emit_sections f b n1 cn1 _ brk cont) as [[cr n2] cn2] eqn:E2; code3 E.
  - cbn [app]. rewrite declared_decl, declared_app. destruct (Z.eq_dec m cur) as [->|N]; [left; reflexivity|].
    right. apply in_or_app. right. apply (IH _ _ _ _ _ _ _ _ E2). lia.
  - cbn [app]. rewrite declared_decl, declared_app. destruct (Z.eq_dec m cur) as [->|N]; [left; reflexivity|].
    right. apply in_or_app. right. apply (IH _ _ _ _ _ _ _ _ E2). lia.
  - rewrite declared_app. apply in_or_app. right. apply (IH _ _ _ _ _ _ _ _ E2). lia.
Qed.

Definition outer (f : Z) (b c : bool) (brk cont : label) (l : label) : Prop :=
  b = true /\ brk = l \/ c = true /\ cont = l \/ (L_FUNCEND, f) = l.

Lemma stmt_leads f :
  (forall s b cc n cn brk cont c n' cn', emit_stmt f s n cn brk cont = (c, n', cn') -> legal b cc s = true ->
     leads c (outer f b cc brk cont)) /\
  (forall bd cc n cn cur brk cont c n' cn', emit_sections f bd n cn cur brk cont = (c, n', cn') ->
     legal_sections cc bd = true -> leads c (outer f true cc brk cont)).
Proof.
  apply mstmt_sections_ind.
  - intros e b cc n cn brk cont c n' cn' E L. cbn [emit_stmt] in E. destruct (emit_expr e n) as [c1 n1] eqn:E1.
    apply expr_leads in E1. code3 E. jumps l.
  - intros a IHa s IHb b cc n cn brk cont c n' cn' E L. cbn [emit_stmt legal] in E, L. apply andb_true_iff in L as [La Lb].
    destruct (emit_stmt f a n cn brk cont) as [[ca n1] cn1] eqn:E1. destruct (emit_stmt f s n1 cn1 brk cont) as [[cb n2] cn2] eqn:E2.
    apply (IHa b cc) in E1; [|exact La]. apply (IHb b cc) in E2; [|exact Lb]. code3 E. jumps l.
  - intros e a IHa b cc n cn brk cont c n' cn' E L. cbn [emit_stmt legal] in E, L. destruct (emit_expr e n) as [c0 m] eqn:E0.
    destruct (emit_stmt f a (m + 1) cn brk cont) as [[ca n1] cn1] eqn:E1.
    apply expr_leads in E0. apply (IHa b cc) in E1; [|exact L]. code3 E. jumps l.
  - intros e a IHa s IHb b cc n cn brk cont c n' cn' E L. cbn [emit_stmt legal] in E, L. apply andb_true_iff in L as [La Lb].
    destruct (emit_expr e n) as [c0 m] eqn:E0.
    destruct (emit_stmt f a (m + 1) cn brk cont) as [[ca n1] cn1] eqn:E1.
    destruct (emit_stmt f s n1 cn1 brk cont) as [[cb n2] cn2] eqn:E2.
    apply expr_leads in E0. apply (IHa b cc) in E1; [|exact La]. apply (IHb b cc) in E2; [|exact Lb]. code3 E. jumps l.
  - intros e a IHa b cc n cn brk cont c n' cn' E L. cbn [emit_stmt legal] in E, L. cbv zeta in E.
    destruct (emit_expr e (n + 1)) as [c0 m] eqn:E0. destruct (emit_stmt f a m cn _ _) as [[ca n1] cn1] eqn:E1.
    apply expr_leads in E0. apply (IHa true true) in E1; [|exact L]. code3 E. unfold outer in *. jumps l.
  - intros a IHa e b cc n cn brk cont c n' cn' E L. cbn [emit_stmt legal] in E, L. cbv zeta in E.
    destruct (emit_stmt f a (n + 1) cn _ _) as [[ca n1] cn1] eqn:E1. destruct (emit_expr e n1) as [c0 m] eqn:E0.
    apply expr_leads in E0. apply (IHa true true) in E1; [|exact L]. code3 E. unfold outer in *. jumps l.
  - intros i IHi e a IHa st b cc n cn brk cont c n' cn' E L. cbn [emit_stmt legal] in E, L. apply andb_true_iff in L as [Li La].
    destruct (emit_stmt f i n cn brk cont) as [[ci n0] cn0] eqn:Ei. destruct (emit_expr e (n0 + 1)) as [c0 m] eqn:E0.
    destruct (emit_stmt f a m cn0 _ _) as [[ca n1] cn1] eqn:E1. destruct (emit_expr st n1) as [cs n2] eqn:E2.
    apply (IHi b cc) in Ei; [|exact Li]. apply expr_leads in E0. apply (IHa true true) in E1; [|exact La].
    apply expr_leads in E2. code3 E. unfold outer in *. jumps l.
  - intros e bd IHb b cc n cn brk cont c n' cn' E L. cbn [emit_stmt legal] in E, L. cbv zeta in E.
    destruct (emit_expr e (n + 1)) as [c0 m] eqn:E0. destruct (emit_jumps bd m cn (-1)) as [[[cj n1] cn1] d] eqn:Ej.
    destruct (emit_sections f bd n1 cn1 cn _ _) as [[cb n2] cn2] eqn:E1.
    pose proof (sections_declare _ _ _ _ _ _ _ _ _ _ E1) as SD. pose proof (jumps_leads _ _ _ _ _ _ _ _ Ej) as JL.
    apply jumps_once in Ej as (_ & CN & _ & D).
    apply expr_leads in E0. apply (IHb cc) in E1; [|exact L]. code3 E.
    assert (A : forall l, a_case cn (cn + marks bd) l -> In l (declared cb)).
    { intros l (x & R & ->). apply SD. exact R. }
    assert (B : forall l, (if negb (d =? -1) then (L_CASE, d) else (L_END, n)) = l -> In l (declared cb) \/ (L_END, n) = l).
    { intros l <-. destruct (d =? -1) eqn:Q; cbn [negb]; [right; reflexivity|]. left. apply SD. lia. }
    intros l. specialize (A l). specialize (B l). revert l A B. unfold outer in *.
    intros l A B. pose proof (JL l) as J. clear JL SD. jumps' l.
  - intros b cc n cn brk cont c n' cn' E L. cbn [emit_stmt legal] in E, L. code3 E. unfold outer. jumps l.
  - intros b cc n cn brk cont c n' cn' E L. cbn [emit_stmt legal] in E, L. code3 E. unfold outer. jumps l.
  - intros e b cc n cn brk cont c n' cn' E L. cbn [emit_stmt] in E. destruct (emit_expr e n) as [c1 n1] eqn:E1.
    apply expr_leads in E1. code3 E. unfold outer. jumps l.
  - intros cc n cn cur brk cont c n' cn' E L. cbn [emit_sections] in E. code3 E. intros l [].
  - intros mk s IHs bd IHb cc n cn cur brk cont c n' cn' E L. cbn [emit_sections legal_sections] in E, L.
    apply andb_true_iff in L as [La Lb].
    destruct (emit_stmt f s n cn brk cont) as [[cs n1] cn1] eqn:E1.
    apply (IHs true cc) in E1; [|exact La].
    destruct mk; destruct (emit_sections f bd n1 cn1 _ brk cont) as [[cr n2] cn2] eqn:E2;
      (apply (IHb cc) in E2; [|exact Lb]); code3 E; jumps l.
Qed.

Lemma functions_once fs : forall n cn brk cont c n' cn',
  emit_functions fs n cn brk cont = (c, n', cn') -> NoDup (map fst fs) ->
  n <= n' /\ cn <= cn' /\
  forall k m, 0 <= cnt k m c <= 1 /\
    (cnt k m c = 1 -> ranged k m n n' cn cn' \/ k = L_FUNCEND /\ In m (map fst fs)).
Proof.
  induction fs as [|[f s] fs IH]; intros n cn brk cont c n' cn' E ND; cbn [emit_functions] in E.
  - code3 E. split; [lia|]. split; [lia|]. intros k m. cbn [cnt]. lia.
  - unfold emit_function in E. destruct (emit_stmt f s n cn brk cont) as [[c1 n1] cn1] eqn:E1.
    destruct (emit_functions fs n1 cn1 brk cont) as [[c2 n2] cn2] eqn:E2.
    cbn [map fst] in ND. apply NoDup_cons_iff in ND as [NI ND].
    apply IH in E2 as (L2 & M2 & H2); [|exact ND].
    apply (proj1 (stmt_once f)) in E1 as (L1 & M1 & H1). code3 E.
    split; [lia|]. split; [lia|]. intros k m. rewrite !cnt_app. cbn [cnt map fst In]. rewrite same_pair.
    specialize (H1 k m). specialize (H2 k m). unfold ranged, L_FUNCEND in *.
    destruct ((k =? 3) && (m =? f)) eqn:Q.
    + assert (m = f /\ k = 3) as [-> ->] by lia.
      destruct H1 as [R1 H1]. destruct H2 as [R2 H2].
      assert (cnt 3 f c1 <> 1) by (intros X; specialize (H1 X); lia).
      assert (cnt 3 f c2 <> 1) by (intros X; specialize (H2 X); destruct H2 as [H2|[_ H2]]; [lia | contradiction]).
      split; [lia|]. intros _. right. split; [reflexivity | left; reflexivity].
    + destruct H1 as [R1 H1]. destruct H2 as [R2 H2].
      destruct (Z.eq_dec (cnt k m c1) 1) as [X|X]; destruct (Z.eq_dec (cnt k m c2) 1) as [Y|Y].
      * specialize (H1 X). specialize (H2 Y). destruct H2 as [H2|[-> _]]; lia.
      * split; [lia|]. intros _. left. specialize (H1 X). lia.
      * split; [lia|]. intros _. specialize (H2 Y). destruct H2 as [H2|[-> H2]]; [left; lia|]. right. tauto.
      * split; lia.
Qed.

Lemma functions_leads fs : forall n cn brk cont c n' cn',
  emit_functions fs n cn brk cont = (c, n', cn') -> Forall (fun fs => legal false false (snd fs) = true) fs ->
  forall l, In l (targets c) -> In l (declared c).
Proof.
  induction fs as [|[f s] fs IH]; intros n cn brk cont c n' cn' E F l I; cbn [emit_functions] in E.
  - code3 E. destruct I.
  - unfold emit_function in E. destruct (emit_stmt f s n cn brk cont) as [[c1 n1] cn1] eqn:E1.
    destruct (emit_functions fs n1 cn1 brk cont) as [[c2 n2] cn2] eqn:E2.
    pose proof (Forall_inv F) as F1. cbn [snd] in F1.
    specialize (IH _ _ _ _ _ _ _ E2 (Forall_inv_tail F) l).
    apply (proj1 (stmt_leads f) s false false) in E1; [|exact F1]. specialize (E1 l). code3 E.
    rewrite !targets_app, targets_decl, targets_nil in I. rewrite !declared_app, declared_decl, declared_nil.
    rewrite !in_app_iff in *. cbn [In] in *. unfold outer in E1.
    destruct I as [[I|I]|I]; [|contradiction|tauto].
    destruct (E1 I) as [X|[[X _]|[[X _]|X]]]; [tauto | discriminate | discriminate | tauto].
Qed.

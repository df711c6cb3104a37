(** Property C69: an expression is accepted exactly when it has a type by the
    rules of [BuildTypeSpec], and then with that type. *)
From Verif Require Import Prelude TypesModel TypesSpec LexModel ParseModel BuildModel BuildSpec BuildTypeSpec BuildType.
Local Open Scope Z_scope.

(** A well typed expression is built without errors, with its type, and may be
    assigned to exactly when the rules say so. *)
Theorem C69_accepted : forall e t place n k, finished e -> has e t place -> build_all e = Some (n, k) ->
  k = 0 /\ is_correct n = true /\ type_of n = t /\ is_lvalue n = place.
Proof.
  intros e t place n k F H B. pose proof (build_decided e F) as D. unfold decided in D. rewrite B in D.
  destruct D as [(t' & p' & H' & K & G & T & L & _)|(N & _)]; [|exfalso; exact (N t place H)].
  destruct (has_unique _ _ _ _ _ H H') as [-> ->]. split; [exact K|]. split; [exact (good_correct n G)|]. split; assumption.
Qed.
Print Assumptions C69_accepted.

(** An expression without a type is reported and comes out broken. *)
Theorem C69_refused : forall e n k, finished e -> (forall t place, ~ has e t place) -> build_all e = Some (n, k) ->
  0 < k /\ is_correct n = false.
Proof.
  intros e n k F N B. pose proof (build_decided e F) as D. unfold decided in D. rewrite B in D.
  destruct D as [(t' & p' & H' & _)|(_ & -> & K)]; [exfalso; exact (N t' p' H')|]. split; [exact K|reflexivity].
Qed.
Print Assumptions C69_refused.

(** Building is defined unless a constant part must be computed. *)
Theorem C69_defined : forall e, finished e -> nothing_to_fold e -> exists n k, build_all e = Some (n, k).
Proof. intros e F N. destruct (build_defined e F N) as (n & k & E & _). eauto. Qed.
Print Assumptions C69_defined.

(** The first member of the name is selected, of the structure or of what the
    pointer points to; any other use of [.] and [->] is refused. *)
Theorem C69_members : forall (b : node) (name : Z) (arrow : bool), is_correct b = true ->
  let selects (st : ty) (i : nat) (t : ty) :=
    (if arrow then strip (type_of b) = TPointer st else type_of b = st)
    /\ exists ms, strip st = TStruct ms /\ first_member ms name i t in
  (forall st i t, selects st i t ->
     accepted (build_member b name arrow) (NMember (member_type st t) (arrow || is_lvalue b) (Z.of_nat i) arrow b))
  /\ ((forall st i t, ~ selects st i t) -> refused (build_member b name arrow)).
Proof.
  intros b name arrow C selects. destruct (member_verdict b name arrow C) as [A B]. split; [exact A|].
  intros N. rewrite (B N). exists NBroken, 1. split; [reflexivity|lia].
Qed.
Print Assumptions C69_members.

Theorem C69_subscripts : forall b i, is_correct b = true -> is_correct i = true ->
  (forall t, strip (type_of b) = TArray t -> integer_type (strip (type_of i)) -> accepted (build_subscript b i) (NSubscript t b i))
  /\ (~ ((exists t, strip (type_of b) = TArray t) /\ integer_type (strip (type_of i))) -> refused (build_subscript b i)).
Proof.
  intros b i B I. destruct (subscript_verdict b i B I) as [X Y]. split; [exact X|]. intros N. rewrite (Y N). exists NBroken, 1. split; [reflexivity|lia].
Qed.
Print Assumptions C69_subscripts.

(** [print] takes one or more arguments, none a pointer; [printid] and [getid] take
    one or more names. *)
Lemma existsb_none {A} (f : A -> bool) (P : A -> Prop) l : (forall x, f x = false <-> P x) -> existsb f l = false <-> Forall P l.
Proof.
  intros H. induction l as [|a l IH]; cbn; [split; auto|]. rewrite orb_false_iff, IH, H. split; [intros []; auto|intros X; inversion X; auto].
Qed.
Theorem C69_printing : forall text f id t es ret ps, f = NIdent t id -> t = TFunction ret ps ->
  let fits := es <> [] /\ if id =? BI_PRINT then Forall (fun e => forall p, strip (type_of e) <> TPointer p) es
                          else Forall (fun e => exists u i, e = NIdent u i) es in
  (id = BI_PRINT \/ id = BI_PRINTID \/ id = BI_GETID) -> Forall (fun e => is_correct e = true) es ->
  (fits -> accepted (build_call text f es) (NCall t_void f es)) /\ (~ fits -> refused (build_call text f es)).
Proof.
  intros text f id t es ret ps -> -> fits I C. assert (RE : refused err) by (exists NBroken, 1; split; [reflexivity|lia]).
  assert (P : existsb (fun a => is_pointer (type_of a)) es = false <-> Forall (fun e => forall p, strip (type_of e) <> TPointer p) es).
  { apply existsb_none. intros x. pose proof (BuildAssign.is_pointer_spec (type_of x)) as S. destruct (is_pointer (type_of x)); split; intros X; try congruence.
    - exfalso. destruct (proj1 S eq_refl) as [p Y]. exact (X p Y).
    - intros p Y. enough (false = true) by discriminate. apply S. eauto. }
  assert (Q : existsb (fun a => match a with NIdent _ _ | NBroken => false | _ => true end) es = false <-> Forall (fun e => exists u i, e = NIdent u i) es).
  { clear - C. induction C as [|a l Ha C IH]; cbn; [split; auto|]. rewrite orb_false_iff, IH. split.
    - intros [X Y]. constructor; [|exact Y]. destruct a; try discriminate; eauto.
    - intros X. inversion X as [|? ? (u & i & ->) Z]; subst. auto. }
  assert (IDS : (fits -> id <> BI_PRINT -> accepted (build_ids (NIdent (TFunction ret ps) id) es) (NCall t_void (NIdent (TFunction ret ps) id) es))
                /\ (~ fits -> id <> BI_PRINT -> refused (build_ids (NIdent (TFunction ret ps) id) es))).
  { unfold fits, build_ids. destruct es as [|e es]; [split; [tauto|intros; exact RE]|]. split; intros X Y; replace (id =? BI_PRINT) with false in X by lia.
    - rewrite (proj2 Q) by tauto. split; reflexivity.
    - match goal with |- refused (if ?b then _ else _) => destruct b eqn:E end; [exact RE|]. exfalso. apply X. split; [discriminate|]. apply Q. reflexivity. }
  unfold build_call. cbn [is_correct negb type_of]. destruct I as [->|[->| ->]].
  - change (BI_PRINT =? BI_PRINTF) with false. change (BI_PRINT =? BI_PRINT) with true in *. cbv iota. unfold build_print.
    change (BI_PRINT =? BI_PRINT) with true in fits. cbv iota in fits.
    unfold fits. destruct es as [|e es]; [split; [tauto|intros; exact RE]|]. split; intros X.
    + rewrite (proj2 P) by tauto. split; reflexivity.
    + match goal with |- refused (if ?b then _ else _) => destruct b eqn:E end; [exact RE|]. exfalso. apply X. split; [discriminate|]. apply P. reflexivity.
  - change (BI_PRINTID =? BI_PRINTF) with false. change (BI_PRINTID =? BI_PRINT) with false. change (BI_PRINTID =? BI_PRINTID) with true. cbn [orb].
    split; intros X; apply IDS; (exact X || discriminate).
  - change (BI_GETID =? BI_PRINTF) with false. change (BI_GETID =? BI_PRINT) with false. change (BI_GETID =? BI_PRINTID) with false. change (BI_GETID =? BI_GETID) with true. cbn [orb].
    split; intros X; apply IDS; (exact X || discriminate).
Qed.
Print Assumptions C69_printing.

(** ** Cases *)
(** [struct { int n; float x; } const *p; int a[]]: [a[p->n] + p->x] is a number with
    a point, [p->x] is constant, and [a + 1] is refused. *)
Definition ex_struct : ty := TStruct [(t_int, 3); (t_float, 5)].
Definition ex_p : node := NIdent (TPointer (TConst ex_struct)) 10.
Definition ex_a : node := NIdent (TArray t_int) 12.
Definition ex_sum : sexp := SBinary BIN_ADD (SSubscript (SDone ex_a) (SMember (SDone ex_p) 3 true)) (SMember (SDone ex_p) 5 true).
Lemma ex_member_n : has (SMember (SDone ex_p) 3 true) (TConst t_int) true.
Proof.
  apply (has_arrow (SDone ex_p) (type_of ex_p) true (TConst ex_struct) [(t_int, 3); (t_float, 5)] 0 3 t_int); [apply (has_done ex_p)|reflexivity|reflexivity|].
  split; [reflexivity|intros; lia].
Qed.
Lemma ex_member_x : has (SMember (SDone ex_p) 5 true) (TConst t_float) true.
Proof.
  apply (has_arrow (SDone ex_p) (type_of ex_p) true (TConst ex_struct) [(t_int, 3); (t_float, 5)] 1 5 t_float); [apply (has_done ex_p)|reflexivity|reflexivity|].
  split; [reflexivity|]. intros j u L X. assert (j = 0%nat) by lia. subst. discriminate X.
Qed.
Example C69_sum_meets : finished ex_sum /\ nothing_to_fold ex_sum /\ has ex_sum t_float false.
Proof.
  split; [cbn; auto|]. split; [cbn; tauto|]. eapply has_binary.
  - eapply has_subscript; [apply (has_done ex_a)|exact ex_member_n|reflexivity|]. unfold integer_type. cbn. auto.
  - exact ex_member_x.
  - apply bh_arith; [cbn; tauto| | |].
    + left. unfold integer_type. cbn. auto.
    + right. reflexivity.
    + apply c_float. right. reflexivity.
Qed.
Example C69_sum_built : exists n, build_all ex_sum = Some (n, 0) /\ type_of n = t_float.
Proof. eexists. split; vm_compute; reflexivity. Qed.
Definition ex_bad : sexp := SBinary BIN_ADD (SDone ex_a) (SDone (NLit t_int (LInt 1))).
Example C69_bad_meets : finished ex_bad /\ (forall t p, ~ has ex_bad t p) /\ build_all ex_bad = Some (NBroken, 1).
Proof.
  split; [cbn; auto|]. split; [|reflexivity]. intros t p H. inversion H as [| | | | | |op l r tl pl tr pr v Hl Hr B|]; subst.
  inversion Hl; subst. inversion Hr; subst.
  inversion B as [? ? ? I|? ? ? ? I A|? ? ? I|? ? ? I|? ? ? I|]; subst; try (cbn in I; intuition congruence).
  apply arithmetic_spec in A. discriminate A.
Qed.
Example C69_members_meets : exists n, accepted (build_member ex_p 5 true) n /\ type_of n = TConst t_float.
Proof. eexists. split; [split|]; vm_compute; reflexivity. Qed.
Example C69_subscripts_meets : strip (type_of ex_a) = TArray t_int /\ refused (build_subscript ex_a ex_p).
Proof. split; [reflexivity|]. exists NBroken, 1. split; [reflexivity|lia]. Qed.
Example C69_printing_meets : forall text,
  let f := NIdent (TFunction t_void []) BI_PRINT in
  accepted (build_call text f [ex_a]) (NCall t_void f [ex_a]) /\ refused (build_call text f [ex_p]).
Proof. intros text f. split; [split; reflexivity|]. exists NBroken, 1. split; [reflexivity|lia]. Qed.
